(** ModelSort.v : the functions that call slice::sort_by (core.rs:39, 149, 189, enumerate_lexparse.rs:101), with the sorting
    procedure as a parameter. In ModelCore.v and ModelEnum.v it is the insertion sort of Base.v. *)
From Verif Require Import Base LexFacts ModelCore ModelLz ModelIo ModelMain ModelWord ModelTools ModelEnum.

(** the type of slice::sort_by (used at core.rs:39, 149, 189, enumerate_lexparse.rs:101) *)
Notation sorting A := ((A -> A -> res comparison) -> list A -> res (list A)).
(** core.rs:183-195 *)
Definition suffixarray_naive_with (sort : sorting nat) (text : str) : res (list nat) :=
  let n := length text in
  sort (fun a b =>
     assert_ (a <=? n) ;;; assert_ (b <=? n) ;;;
     Ok (slice_cmp (skipn a text) (skipn b text))) (seq 0 n).
(** core.rs:34-54 *)
Definition bwt_by_matrix_naive_with (sort : sorting nat) (text : str) : res str :=
  let n := length text in
  indices <- sort (rot_cmp text) (seq 0 n) ;;
  for_in (range 0 n) (fun i bwt =>
    x <- get indices i ;; d <- sub_ (x + n) 1 ;; p <- mod_ d n ;; c <- get text p ;;
    Ok (bwt ++ [c])) [].
(** core.rs:116-178 *)
Definition bbwt_naive_with (sort : sorting conjugate) (text : str) : res str :=
  let n := length text in
  factors <- duval text ;;
  f0 <- get factors 0 ;;
  let conj0 := map (fun j => Conj j 0 f0) (range 0 (f0 + 1)) in
  m <- sub_ (length factors) 1 ;;
  conjs <- for_in (range 0 m) (fun f conjs =>
     a <- get factors f ;; b <- get factors (f + 1) ;;
     for_in (range (a + 1) (b + 1)) (fun j conjs =>
        j1 <- sub_ j a ;; ix <- sub_ j1 1 ;;
        Ok (conjs ++ [Conj ix (a + 1) b])) conjs) conj0 ;;
  assert_ (length conjs =? n) ;;;
  sorted <- sort (conj_cmp text) conjs ;;
  t0 <- get text 0 ;;
  for_in (range 0 n) (fun i bbwt =>
    c <- get sorted i ;;
    position <- (if cj_index c =? 0 then Ok (cj_end c)
                 else sub_ (cj_start c + cj_index c) 1) ;;
    x <- get text position ;;
    set bbwt i x) (repeat t0 n).
(** enumerate_lexparse.rs:67-113 *)
Definition enum_step_with (list_sort : sorting (nat * str)) (sort : str -> list nat) (alphabet_size : nat) (text : str)
    (st : nat * str) : res (nat * str) :=
  let '(largest_difference, out) := st in
  list <- enum_list sort alphabet_size (text ++ [0]) ;;
  list <- list_sort (fun a b => Ok (fst a ?= fst b)) list ;;
  lst <- last_ list ;;
  first <- get list 0 ;;
  distance <- sub_ (fst lst) (fst first) ;;
  if largest_difference <=? distance then
    line <- enum_println distance (snd first) (snd lst) ;; Ok (distance, out ++ line)
  else Ok (largest_difference, out).
(** enumerate_lexparse.rs:50-114 [main] *)
Definition enumerate_lexparse_main_with (list_sort : sorting (nat * str)) (sort : str -> list nat) (length_ alphabet_size : nat) : res str :=
  g <- kmer_generator length_ alphabet_size ;;
  '(_, out) <- for_in g (enum_step_with list_sort sort alphabet_size) (0, []) ;;
  Ok out.
