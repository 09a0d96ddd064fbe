(** ModelWord.v : /repo/src/word.rs, one definition per function.
    Letters are the byte values: CHR_A..CHR_D = 97..100, CHR_ZERO = 48, CHR_ONE = 49 (word.rs:5-6, 403-407).
    Positions and counters that stay below the length of an allocated vector are [nat]; numbers whose
    overflow matters are [N] with explicit checks (overflow checks as in cargo's dev profile).
    Running out of memory is not modelled; the capacity check of Vec (isize::MAX) is. *)
From Verif Require Import Base.
From Coq Require Import NArith ZArith Floats.SpecFloat.

(** [Vec<u8>], the words of word.rs:34-720 *)
Notation str := (list nat).
(** b'a', b'b', b'c', b'd' (word.rs:5-6; written as literals elsewhere in word.rs) *)
Notation CA := 97. Notation CB := 98. Notation CC := 99. Notation CD := 100.

(** a + b on usize (word.rs:13-25, 641-654) *)
Definition add_usize (a b : N) : res N :=
  if (18446744073709551616 <=? a + b)%N then Panic else Ok (a + b)%N.
(** a + b on u8 (word.rs:13-25) *)
Definition add_u8 (a b : nat) : res nat := if 256 <=? a + b then Panic else Ok (a + b).
(** 1 << k on usize (word.rs:106, 112, 242, 306, 330, 417, 595) *)
Definition shl1 (k : nat) : res N := if 64 <=? k then Panic else Ok (2 ^ N.of_nat k)%N.
(** vec![0_u8; n] and Vec::with_capacity(n): "capacity overflow" panic above isize::MAX (word.rs:37, 107, 138, 243, 306, 330) *)
Definition capacity (n : N) : res unit := assert_ (n <? 9223372036854775808)%N.
(** vec![0_u8; n] (word.rs:37, 107, 138, 243, 418, 596) *)
Definition vec_zero (n : N) : res str := capacity n ;;; Ok (repeat 0 (N.to_nat n)).

(** word.rs:13-25 [fibonacci_number] *)
Definition fibonacci_number (k : nat) : res N :=
  if k =? 0 then Ok 1%N else
  k1 <- add_u8 k 1 ;;
  '(sum, _, _) <- for_in (range 0 k1) (fun _ '(sum, cur, old) =>
      s <- add_usize cur old ;; Ok (s, s, cur)) (1%N, 1%N, 0%N) ;;
  Ok sum.

(** f64 arithmetic: binary64, round to nearest even (Coq's SpecFloat, prec 53, emax 1024) (word.rs:27-30, 131) *)
Definition fmul := SFmul 53 1024.
(** + on f64 (word.rs:10) *)
Definition fadd := SFadd 53 1024.
(** - on f64 (word.rs:29) *)
Definition fsub := SFsub 53 1024.
(** / on f64 (word.rs:10-11, 29) *)
Definition fdiv := SFdiv 53 1024.
(** 1.0 (word.rs:10) *)
Definition f_one : spec_float := S754_finite false 4503599627370496 (-52).
(** 2.0 (word.rs:10) *)
Definition f_two : spec_float := S754_finite false 4503599627370496 (-51).
(** -1.0 (word.rs:11) *)
Definition f_minus_one : spec_float := S754_finite true 4503599627370496 (-52).
(** word.rs:9 [SQRT_5]: the binary64 number nearest to 2.23606797749978969641 *)
Definition SQRT_5 : spec_float := S754_finite false 5035177455121576 (-51).
(** word.rs:10-11 [GOLDEN_RATIO], [PSI] *)
Definition GOLDEN_RATIO : spec_float := fdiv (fadd f_one SQRT_5) f_two.
(** word.rs:11 [PSI] *)
Definition PSI : spec_float := fdiv f_minus_one GOLDEN_RATIO.
(** f64::powi for exponents 0 <= b < 256, as compiler-rt's __powidf2 computes it (repeated squaring);
    Rust leaves the precision of powi unspecified. (word.rs:29, 131) *)
Fixpoint powi_loop (fuel : nat) (a : spec_float) (b : nat) (r : spec_float) : spec_float :=
  match fuel with
  | O => r
  | S f => let r' := if Nat.odd b then fmul r a else r in
           if b / 2 =? 0 then r' else powi_loop f (fmul a a) (b / 2) r'
  end.
(** f64::powi (word.rs:29, 131) *)
Definition powi (a : spec_float) (b : nat) : spec_float := powi_loop 9 a b f_one.
(** [x as usize] for an f64: truncation toward zero, saturating, NaN to 0 (word.rs:36, 137) *)
Definition f64_as_usize (x : spec_float) : N :=
  match x with
  | S754_finite false m e =>
      let v := match e with
               | Zneg p => (Npos m / 2 ^ Npos p)%N
               | _ => (Npos m * 2 ^ Z.to_N e)%N
               end in N.min v 18446744073709551615
  | S754_infinity false => 18446744073709551615%N
  | _ => 0%N
  end.
(** word.rs:28-30 [fibonacci_number_estimate] *)
Definition fibonacci_number_estimate (k : nat) : spec_float :=
  fdiv (fsub (powi GOLDEN_RATIO k) (powi PSI k)) SQRT_5.

(** word.rs:51-61, the while loop of [fibonacci_word]; state (text, source, target) *)
Definition fib_fill (new : nat) (text : str) (source target : nat) : res (str * nat * nat) :=
  loop (S new) (fun '(text, source, target) =>
    if target <? new then
      c <- get text source ;;
      if c =? CA then
        text <- set text target CB ;;
        text <- set text (target + 1) CA ;;
        Ok (Cont (text, source + 1, target + 2))
      else
        text <- set text target CA ;;
        Ok (Cont (text, source + 1, target + 1))
    else Ok (Brk (text, source, target))) (text, source, target).
(** word.rs:37-69 [fibonacci_word] after the length of the buffer has been fixed *)
Definition fibonacci_word_in (len : N) (k : nat) : res str :=
  text <- vec_zero len ;;
  text <- set text 0 CA ;;
  k1 <- add_u8 k 1 ;;
  '(text, _, _, _, cur) <- for_in (range 0 k1) (fun _ '(text, source, target, prev, cur) =>
      let new := cur + prev in
      '(text, source, target) <- fib_fill new text source target ;;
      Ok (text, source, target, cur, new)) (text, 0, 1, 0, 1) ;;
  Ok (firstn cur text).
(** word.rs:35-70 [fibonacci_word] *)
Definition fibonacci_word (k : nat) : res str :=
  k2 <- add_u8 k 2 ;;
  len <- add_usize (f64_as_usize (fadd (fibonacci_number_estimate k2) f_one)) 1 ;;
  fibonacci_word_in len k.

(** word.rs:105-118 [thuemorse_word] *)
Definition thuemorse_word (k : nat) : res str :=
  n <- shl1 k ;;
  text <- vec_zero n ;;
  text <- set text 0 CA ;;
  for_in (range 0 k) (fun j text =>
    let powerj := 2 ^ j in
    for_in (range 0 powerj) (fun k text =>
      c <- get text k ;; set text (powerj + k) (if c =? CA then CB else CA)) text) text.

(** word.rs:130-132 and 137: the length of the buffer of [kolakoski_word] *)
Definition kolakoski_length (k : nat) : res N :=
  k2 <- add_u8 k 2 ;;
  add_usize (f64_as_usize (fadd (powi f_two k2) f_one)) 1.
(** word.rs:154-175, the inner loop of [kolakoski_word]; state (text, source, target). Line 171-172:
    old_size starts at 0 and is reset to current_size - target, i.e. stays 0. *)
Definition kol_round (current_size : nat) (text : str) (source target : nat) : res (str * nat * nat) :=
  loop (S current_size) (fun '(text, source, target) =>
    p <- get text (target - 1) ;;
    let sym := if p =? CA then CB else CA in
    c <- get text source ;;
    '(text, target) <- (if c =? CA then text <- set text target sym ;; Ok (text, target + 1)
                        else Ok (text, target)) ;;
    c <- get text source ;;
    '(text, target) <- (if c =? CB then text <- set text target sym ;;
                                        text <- set text (target + 1) sym ;; Ok (text, target + 2)
                        else Ok (text, target)) ;;
    let source := source + 1 in
    if source =? current_size then Ok (Brk (text, source, target))
    else Ok (Cont (text, source, target))) (text, source, target).
(** word.rs:136-181 [kolakoski_word]; the unsafe set_len is modelled by a check that the new length does
    not exceed the vector (otherwise the behaviour would be undefined). *)
Definition kolakoski_word (k : nat) : res str :=
  len <- kolakoski_length k ;;
  text <- vec_zero len ;;
  text <- set text 0 CB ;;
  text <- set text 1 CB ;;
  '(text, _, target, _, _) <- for_in (range 0 k) (fun _ '(text, source, target, current_size, old_size) =>
      '(text, source, target) <- kol_round current_size text source target ;;
      let current_size := old_size + target in
      old_size <- sub_ current_size target ;;
      Ok (text, source, target, current_size, old_size)) (text, 1, 2, 2, 0) ;;
  assert_ (target <=? length text) ;;;
  Ok (firstn target text).

(** word.rs:214-233, 615-621, 675-681, 699-704: the morphisms *)
Definition period_doubling_morphism (c : nat) : str := if c =? CA then [CA; CB] else [CA; CA].
(** word.rs:221-226 *)
Definition thuemorse_morphism (c : nat) : str := if c =? CA then [CA; CB] else [CB; CA].
(** word.rs:228-233 *)
Definition fibonacci_morphism (c : nat) : str := if c =? CA then [CA; CB] else [CA].
(** word.rs:615-621 *)
Definition tribonacci_morphism (c : nat) : str :=
  if c =? CA then [CA; CB] else if c =? CB then [CA; CC] else [CA].
(** word.rs:675-681 *)
Definition vtm_morphism (c : nat) : str :=
  if c =? CA then [CA; CB; CC] else if c =? CB then [CA; CC] else [CB].
(** word.rs:699-704 *)
Definition fibonacci_lyndonfactor_morphism (c : nat) : str :=
  if c =? CA then [CA; CA; CB] else [CA; CB].

(** word.rs:238-261 [iterate_2morphism]. The inner loop breaks as soon as target_pos = n; since it is
    entered with target_pos < n this is the same as skipping the remaining letters. *)
Definition iterate_2morphism (rounds : nat) (morphism : nat -> str) : res str :=
  if rounds =? 0 then Ok [CA] else
  n <- shl1 rounds ;;
  text <- vec_zero n ;;
  let n := length text in
  text <- set text 0 CA ;;
  text <- set text 1 CB ;;
  loop (S n) (fun '(text, source_pos, target_pos) =>
    if target_pos <? n then
      s <- get text source_pos ;;
      '(text, target_pos) <- for_in (morphism s) (fun c '(text, target_pos) =>
          if target_pos =? n then Ok (text, target_pos)
          else text <- set text target_pos c ;; Ok (text, target_pos + 1)) (text, target_pos) ;;
      Ok (Cont (text, source_pos + 1, target_pos))
    else Ok (Brk text)) (text, 1, 2).

(** word.rs:299-317 [iterate_general_morphism_with_startsymbol] *)
Definition iterate_general_morphism_with_startsymbol (rounds : nat) (morphism : nat -> str) (sizehint : N)
    (startsymbol : str) : res str :=
  cap <- (if (0 <? sizehint)%N then Ok sizehint else shl1 rounds) ;;
  capacity cap ;;;
  for_in (range 0 rounds) (fun _ oldtext =>
    for_in oldtext (fun start_char text =>
      for_in (morphism start_char) (fun c text => Ok (text ++ [c])) text) []) startsymbol.

(** the longest image of a byte; used only to bound the number of iterations of the next loop (word.rs:322-349) *)
Definition max_image (morphism : nat -> str) : nat :=
  fold_right Nat.max 0 (map (fun c => length (morphism c)) (seq 0 256)).
(** word.rs:322-349 [iterate_general_morphism] *)
Definition iterate_general_morphism (rounds : nat) (morphism : nat -> str) (sizehint : N) : res str :=
  if rounds =? 0 then Ok [CA] else
  cap <- (if (0 <? sizehint)%N then Ok sizehint else shl1 rounds) ;;
  capacity cap ;;;
  text <- for_in (morphism CA) (fun c text => Ok (text ++ [c])) [] ;;
  end0 <- sub_ (length text) 1 ;;
  loop (S (max_image morphism ^ rounds)) (fun '(text, round, end_last_round, source_pos) =>
    if round <? rounds then
      s <- get text source_pos ;;
      text <- for_in (morphism s) (fun c text => Ok (text ++ [c])) text ;;
      if source_pos =? end_last_round then
        e <- sub_ (length text) 1 ;;
        Ok (Cont (text, round + 1, e, source_pos + 1))
      else Ok (Cont (text, round, end_last_round, source_pos + 1))
    else Ok (Brk text)) (text, 1, end0, 1).

(** word.rs:351-353 [period_doubling_word] *)
Definition period_doubling_word (k : nat) : res str := iterate_2morphism k period_doubling_morphism.

(** word.rs:416-446 [quaternary_paperfolding_word] *)
Definition quaternary_paperfolding_word (i : nat) : res str :=
  n <- shl1 i ;;
  text <- vec_zero n ;;
  let n := length text in
  text <- set text 0 CD ;;
  for_in (range 0 (n / 2)) (fun k text =>
    let t := 2 * k in
    c <- get text k ;;
    if c =? CD then text <- set text t CD ;; set text (t + 1) CB
    else if c =? CB then text <- set text t CC ;; set text (t + 1) CB
    else if c =? CC then text <- set text t CD ;; set text (t + 1) CA
    else if c =? CA then text <- set text t CC ;; set text (t + 1) CA
    else Panic) text.
(** word.rs:461-488 [quaternary_to_binary] *)
Definition quaternary_to_binary (text : str) : res str :=
  output <- vec_zero (2 * N.of_nat (length text)) ;;
  for_in (range 0 (length text)) (fun i output =>
    c <- get text i ;;
    if c =? CD then output <- set output (2 * i) 49 ;; set output (2 * i + 1) 49
    else if c =? CB then output <- set output (2 * i) 48 ;; set output (2 * i + 1) 49
    else if c =? CC then output <- set output (2 * i) 49 ;; set output (2 * i + 1) 48
    else if c =? CA then output <- set output (2 * i) 48 ;; set output (2 * i + 1) 48
    else Panic) output.
(** word.rs:409-411 [paperfolding_word] *)
Definition paperfolding_word (i : nat) : res str :=
  text <- quaternary_paperfolding_word i ;; quaternary_to_binary text.

(** word.rs:492-512 [is_necklace] *)
Definition is_necklace (text : str) (n : nat) : res bool :=
  '(i, j) <- loop (S (length text)) (fun '(i, j) =>
    if j =? n then Ok (Brk (i, j)) else
    a <- get text i ;; b <- get text j ;;
    if a <=? b then
      let i := if a <? b then 0 else i in
      a <- get text i ;;
      let i := if a =? b then i + 1 else i in
      Ok (Cont (i, j + 1))
    else Ok (Brk (i, j))) (0, 1) ;;
  Ok (if negb (j =? n) then false else true).

(** word.rs:535-541 [reverse] *)
Definition reverse (c : nat) : nat := if c =? CA then CB else CA.
(** word.rs:546-571 [binary_debruijn_word]; a VecDeque is a list. The for loop at 562-569 returns iff none
    of the n letters is b. *)
Definition debruijn_step (word : str) : res (nat * str) :=
  match word with
  | [] => Panic
  | first_char :: rest =>
      b <- is_necklace (rest ++ [CB]) (length (rest ++ [CB])) ;;
      let first_char := if (b : bool) then reverse first_char else first_char in
      Ok (first_char, rest ++ [first_char])
  end.
(** word.rs:546-571 [binary_debruijn_word] *)
Definition binary_debruijn_word (k : nat) : res str :=
  let n := k + 1 in
  loop (S (2 ^ n)) (fun '(word, output) =>
    '(c, word) <- debruijn_step word ;;
    let output := output ++ [c] in
    if existsb (fun l => l =? CB) (firstn n word) then Ok (Cont (word, output))
    else Ok (Brk output)) (repeat CA n, []).

(** word.rs:594-611 [power2_sequence]; lines 601-603, the while loop *)
Definition power2_msb (j msb : nat) : res nat :=
  loop 66 (fun msb => if 64 <=? msb + 1 then Panic else
    if 2 ^ (msb + 1) <? j then Ok (Cont (msb + 1)) else Ok (Brk msb)) msb.
(** word.rs:594-611 [power2_sequence] *)
Definition power2_sequence (k : nat) : res str :=
  n <- shl1 k ;;
  text <- vec_zero n ;;
  '(text, _) <- for_in (range 1 (length text)) (fun j '(text, msb) =>
      msb <- power2_msb j msb ;;
      j1 <- sub_ j 1 ;;
      text <- set text j1 (if 0 <? Nat.land j (2 ^ msb - 1) then CA else CB) ;;
      Ok (text, msb)) (text, 0) ;;
  Ok text.

(** word.rs:641-654 [tribonacci_number] *)
Definition tribonacci_number (k : nat) : res N :=
  if k =? 0 then Ok 1%N else
  '(sum, _, _, _) <- for_in (range 0 k) (fun _ '(sum, cur, old, ancient) =>
      s <- add_usize cur old ;; s <- add_usize s ancient ;; Ok (s, s, cur, old)) (0%N, 1%N, 1%N, 0%N) ;;
  Ok sum.
(** word.rs:623-625 [tribonacci_word] *)
Definition tribonacci_word (k : nat) : res str :=
  hint <- tribonacci_number k ;;
  iterate_general_morphism k tribonacci_morphism hint.

(** word.rs:687 and 714: (1 + (3 << k)) as usize; the literals are i32: a shift amount of 32 or more
    panics, the bits shifted out are lost, the cast sign-extends *)
Definition sizehint3 (k : nat) : res N :=
  if 32 <=? k then Panic else
  let v := ((3 * 2 ^ Z.of_nat k) mod 4294967296)%Z in
  let v := (if 2147483648 <=? v then v - 4294967296 else v)%Z in
  if (2147483647 <? v + 1)%Z then Panic else
  Ok (Z.to_N ((v + 1) mod 18446744073709551616)).
(** word.rs:686-688 [vtm_word] *)
Definition vtm_word (k : nat) : res str :=
  hint <- sizehint3 k ;; iterate_general_morphism k vtm_morphism hint.
(** word.rs:710-717 [fibonacci_lyndonfactor] *)
Definition fibonacci_lyndonfactor (k : nat) : res str :=
  hint <- sizehint3 k ;;
  iterate_general_morphism_with_startsymbol k fibonacci_lyndonfactor_morphism hint [CA; CB].
