(** ModelEnum.v : bin/enumerate_lexparse.rs. *)
From Verif Require Import Base ModelCore ModelLz ModelTools ModelWord ModelMain.

(** itertools [permutations(n)] of a vector of length n (documented: lexicographic order of the index
    tuples): every choice of a first element, followed by the permutations of the others (enumerate_lexparse.rs:76) *)
Fixpoint picks {A} (l : list A) : list (A * list A) :=
  match l with
  | [] => []
  | x :: r => (x, r) :: map (fun '(y, s) => (y, x :: s)) (picks r)
  end.
(** enumerate_lexparse.rs:76 *)
Fixpoint permutations {A} (k : nat) (l : list A) : list (list A) :=
  match k with
  | O => [[]]
  | S k' => concat (map (fun '(x, r) => map (cons x) (permutations k' r)) (picks l))
  end.
(** itertools [unique]: the first occurrences (enumerate_lexparse.rs:76) *)
Fixpoint unique (seen l : list str) : list str :=
  match l with
  | [] => []
  | x :: r => if in_dec (list_eq_dec Nat.eq_dec) x seen then unique seen r else x :: unique (x :: seen) r
  end.
(** [HashMap<u8, u8>]: the pairs inserted, the last insertion first; [map[&k]] panics if k is missing (enumerate_lexparse.rs:79-100) *)
Fixpoint lookup (m : list (nat * nat)) (k : nat) : res nat :=
  match m with
  | [] => Panic
  | (k', v) :: m' => if k' =? k then Ok v else lookup m' k
  end.

(** enumerate_lexparse.rs:72-75: the vector items *)
Definition enum_items (alphabet_size : nat) : res str :=
  for_in (range 0 alphabet_size) (fun i items => c <- add_u8 97 (i mod 256) ;; set items i c) (repeat 97 alphabet_size).
(** enumerate_lexparse.rs:79-86: the text relabelled by one permutation (the last letter is kept) *)
Definition enum_relabel (origtext perm : str) : res str :=
  char_map <- for_in (range 0 (length perm)) (fun i m =>
     item <- get perm i ;; k <- add_u8 97 (i mod 256) ;; Ok ((k, item) :: m)) [] ;;
  n1 <- sub_ (length origtext) 1 ;;
  for_in (range 0 n1) (fun i text =>
     c <- get origtext i ;; d <- lookup char_map c ;; set text i d) origtext.
(** enumerate_lexparse.rs:68-101: the list of (number of factors, text) of one text with its end marker *)
Definition enum_list (sort : str -> list nat) (alphabet_size : nat) (origtext : str) : res (list (nat * str)) :=
  items <- enum_items alphabet_size ;;
  for_in (unique [] (permutations (length items) items)) (fun perm list =>
     text <- enum_relabel origtext perm ;;
     factors <- count_lexparse_main sort text ;;
     Ok (list ++ [(length factors, text)])) [].
(** {:?} of a str of bytes 0 and 32..126 except quote and backslash (the only ones that occur besides 127) (enumerate_lexparse.rs:105-110) *)
Definition debug_str (t : str) : str :=
  [34] ++ concat (map (fun c => if c =? 0 then [92;48] else if c =? 127 then [92;117;123;55;102;125] else [c]) t) ++ [34].
(** enumerate_lexparse.rs:105-110: one printed line; [str::from_utf8(..).unwrap()] panics on a byte above 127 *)
Definition enum_println (distance : nat) (t1 t2 : str) : res str :=
  assert_ (forallb (fun c => c <? 128) t1) ;;;
  assert_ (forallb (fun c => c <? 128) t2) ;;;
  Ok (println (dec_usize distance ++ [58;32] ++ debug_str t1 ++ [32;60;45;62;32] ++ debug_str t2)).
(** enumerate_lexparse.rs:67-113: the body of the loop over the texts; state: largest_difference, bytes printed *)
Definition enum_step (sort : str -> list nat) (alphabet_size : nat) (text : str) (st : nat * str) : res (nat * str) :=
  let '(largest_difference, out) := st in
  list <- enum_list sort alphabet_size (text ++ [0]) ;;
  list <- sort_by (fun a b => Ok (fst a ?= fst b)) list ;;
  lst <- last_ list ;;
  first <- get list 0 ;;
  distance <- sub_ (fst lst) (fst first) ;;
  if largest_difference <=? distance then
    line <- enum_println distance (snd first) (snd lst) ;; Ok (distance, out ++ line)
  else Ok (largest_difference, out).
(** enumerate_lexparse.rs:50-114 [main] with its constants as arguments (length 32, alphabet size 2 in the
    source); the generator's values are consumed one by one, here they are computed first *)
Definition enumerate_lexparse_main (sort : str -> list nat) (length_ alphabet_size : nat) : res str :=
  g <- kmer_generator length_ alphabet_size ;;
  '(_, out) <- for_in g (enum_step sort alphabet_size) (0, []) ;;
  Ok out.
