(** ModelLz.v : bin/count_z.rs (LZ77), bin/count_lexparse.rs, bin/mus.rs.
    Indices and lengths stored as i32/u32 are nat (divsufsort accepts only texts shorter than 2^31, so
    the casts are exact there); psv/nsv entries are N because of the u32::MAX marker. *)
From Verif Require Import Base ModelCore.
From Coq Require Import NArith.

(** count_z.rs:17-21 and count_lexparse.rs:13-17 [struct LZFactor] *)
Record lzfactor := LZ { lz_pos : nat; lz_len : nat }.

(** count_z.rs:23-37 [decode_lz77] *)
Definition decode_lz77 (factors : list lzfactor) : res str :=
  for_in factors (fun f text =>
    if lz_len f =? 0 then Ok (text ++ [lz_pos f mod 256])
    else ref_pos <- sub_ (length text) (lz_pos f) ;;
         for_in (range 0 (lz_len f)) (fun p text =>
            x <- get text (ref_pos + p) ;; Ok (text ++ [x])) text) [].

(** segment_tree::SegmentPoint<u32, Min>::query(l, r): minimum over [l, r). The crate is not modelled;
    its documented result is. Empty or out-of-range queries are taken to panic. (used at count_z.rs:62, 77 and is_stringattractor.rs:233) *)
Definition rmq (lcp : list nat) (l r : nat) : res nat :=
  if r <=? length lcp then
    match firstn (r - l) (skipn l lcp) with
    | [] => Panic
    | x :: xs => Ok (fold_left Nat.min xs x)
    end
  else Panic.

(** count_z.rs:57-86, prev_lcp and next_lcp for the suffix of rank [sp]; the debug_assert_eq on the
    value of the range-minimum query is the definition of [rmq]. *)
Definition lz_prev_lcp (lcp : list nat) (psv : list N) (sp : nat) : res nat :=
  v <- get psv sp ;;
  if (v =? INVALID_VALUE)%N then Ok 0 else
  assert_ (N.to_nat v <? sp) ;;; rmq lcp (N.to_nat v + 1) (sp + 1).
(** bin/count_z.rs:72-86, next_lcp *)
Definition lz_next_lcp (lcp : list nat) (nsv : list N) (sp : nat) : res nat :=
  v <- get nsv sp ;;
  if (v =? INVALID_VALUE)%N then Ok 0 else
  assert_ (sp <? N.to_nat v) ;;; rmq lcp (sp + 1) (N.to_nat v + 1).

(** count_z.rs:41-115 [compute_lz77] *)
Definition compute_lz77 (text : str) (sa isa lcp : list nat) (nsv psv : list N) : res (list lzfactor) :=
  loop (S (length text)) (fun '(i, factors) =>
    if i <? length text then
      sp <- get isa i ;;
      prev_lcp <- lz_prev_lcp lcp psv sp ;;
      next_lcp <- lz_next_lcp lcp nsv sp ;;
      if (prev_lcp =? 0) && (next_lcp =? 0) then
        c <- get text i ;; Ok (Cont (i + 1, factors ++ [LZ c 0]))
      else
        let max_lcp := if prev_lcp <? next_lcp then next_lcp else prev_lcp in
        max_pos <- (if prev_lcp <? next_lcp then v <- get nsv sp ;; get sa (N.to_nat v)
                    else v <- get psv sp ;; get sa (N.to_nat v)) ;;
        assert_ (max_pos <? i) ;;;
        d <- sub_ i max_pos ;;
        Ok (Cont (i + max_lcp, factors ++ [LZ d max_lcp]))
    else Ok (Brk factors)) (0, []).

(** count_z.rs:164-211 [main]: data structures, factorization and the final debug assertion;
    [sort] stands for cdivsufsort. Returns the factors. *)
Definition count_z_main (sort : str -> list nat) (text : str) : res (list lzfactor) :=
  let sa := sort text in
  isa <- inverse_permutation sa ;;
  psv <- compute_psv sa ;;
  nsv <- compute_nsv sa ;;
  phi <- compute_phi sa ;;
  plcp <- compute_plcp text phi ;;
  lcp <- compute_lcp plcp sa ;;
  factors <- compute_lz77 text sa isa lcp nsv psv ;;
  dec <- decode_lz77 factors ;;
  assert_ (if list_eq_dec Nat.eq_dec text dec then true else false) ;;;
  Ok factors.

(** count_lexparse.rs:21-42 [compute_lexparse] *)
Definition compute_lexparse (text : str) (plcp phi : list nat) : res (list lzfactor) :=
  loop (S (length text)) (fun '(i, factors) =>
    if i <? length text then
      l <- get plcp i ;;
      if l =? 0 then c <- get text i ;; Ok (Cont (i + 1, factors ++ [LZ c 0]))
      else p <- get phi i ;; Ok (Cont (i + l, factors ++ [LZ p l]))
    else Ok (Brk factors)) (0, []).
(** count_lexparse.rs:63-101 [main] *)
Definition count_lexparse_main (sort : str -> list nat) (text : str) : res (list lzfactor) :=
  let sa := sort text in
  phi <- compute_phi sa ;;
  plcp <- compute_plcp text phi ;;
  compute_lexparse text plcp phi.

(** mus.rs:28-35, the closure getlength *)
Definition mus_getlength (sa isa lcp : list nat) (i : nat) : res nat :=
  isai <- get isa i ;;
  if isai + 1 =? length sa then get lcp isai
  else a <- get lcp isai ;; b <- get lcp (isai + 1) ;; Ok (Nat.max a b).
(** mus.rs:25-54 [get_mus] *)
Definition get_mus (sa isa lcp : list nat) : res (list (nat * nat)) :=
  n <- sub_ (length sa) 1 ;;
  for_in (range 0 n) (fun i mus =>
    elli <- mus_getlength sa isa lcp i ;;
    assert_ (elli + i <? length sa) ;;;
    if n <=? elli + i then Ok mus else
    nextell <- mus_getlength sa isa lcp (i + 1) ;;
    if elli <=? nextell then Ok (mus ++ [(i, elli + 1)]) else Ok mus) [].
(** mus.rs:56-97 [main]: the list printed *)
Definition mus_main (sort : str -> list nat) (text : str) : res (list (nat * nat)) :=
  let sa := sort text in
  isa <- inverse_permutation sa ;;
  phi <- compute_phi sa ;;
  plcp <- compute_plcp text phi ;;
  lcp <- compute_lcp plcp sa ;;
  get_mus sa isa lcp.
