(** ModelRelease.v : the functions whose behaviour differs in a release build (cargo build --release), where
    overflow checks and debug assertions are off: + and += wrap, the shift amount of << is taken modulo the
    width. Functions not listed here do no arithmetic that can overflow on the inputs considered, or take
    the same path in both profiles. *)
From Verif Require Import Base ModelIo ModelTools ModelWord ModelMain.
From Coq Require Import NArith ZArith.

(** x + 1 on u8, wrapping (rle.rs:24, 51, 89) *)
Definition inc_u8_release (x : nat) : nat := (x + 1) mod 256.

(** bin/rle.rs:35-60 [rle]; assert_lt! is not a debug assertion and stays *)
Definition rle_step_release (next_char : nat) (st : nat * nat * str) : res (nat * nat * str) :=
  let '(run_counter, prev_char, out) := st in
  if negb (next_char =? prev_char) then
    assert_ (run_counter <? 255) ;;;
    Ok (0, next_char, out ++ [prev_char; run_counter])
  else Ok (inc_u8_release run_counter, prev_char, out).
(** bin/rle.rs:35-60 [rle] *)
Definition rle_release (fuel : nat) (rd : reader) : res str :=
  match read_char rd 0 with
  | (None, _) => Ok []
  | (Some first_char, pos) =>
    '(run_counter, prev_char, out) <- while_read fuel rd rle_step_release (0, first_char, []) pos ;;
    Ok (out ++ [prev_char; run_counter])
  end.

(** bin/rle.rs:78-90 *)
Definition rle_zero_step_release (next_char : nat) (st : nat * str) : res (nat * str) :=
  let '(run_counter, out) := st in
  if negb (next_char =? CHR_ZERO) then
    if run_counter =? 0 then Ok (run_counter, out ++ [next_char])
    else assert_ (run_counter - 1 <? 255) ;;;
         Ok (0, out ++ [CHR_ZERO; run_counter - 1])
  else Ok (inc_u8_release run_counter, out).
(** bin/rle.rs:64-100 [rle_zero] *)
Definition rle_zero_release (fuel : nat) (rd : reader) : res str :=
  match read_char rd 0 with
  | (None, _) => Ok []
  | (Some first_char, pos) =>
    let st0 := if first_char =? CHR_ZERO then (1, []) else (0, [first_char]) in
    '(run_counter, out) <- while_read fuel rd rle_zero_step_release st0 pos ;;
    if 0 <? run_counter then Ok (out ++ [CHR_ZERO; run_counter]) else Ok out
  end.

(** bin/rle.rs:19-25 *)
Definition rle_text_step_release (next_char : nat) (st : nat * nat * str) : res (nat * nat * str) :=
  let '(run_counter, prev_char, out) := st in
  if negb (next_char =? prev_char) then
    Ok (0, next_char, out ++ fmt_run prev_char (inc_u8_release run_counter))
  else Ok (inc_u8_release run_counter, prev_char, out).
(** bin/rle.rs:9-33 [rle_text] *)
Definition rle_text_release (fuel : nat) (rd : reader) : res str :=
  match read_char rd 0 with
  | (None, _) => Ok []
  | (Some first_char, pos) =>
    '(run_counter, prev_char, out) <- while_read fuel rd rle_text_step_release (0, first_char, []) pos ;;
    Ok (out ++ fmt_run prev_char (inc_u8_release run_counter))
  end.

(** bin/count_sigma.rs:11-22 [count_sigma] *)
Definition count_sigma_release (text : str) : res nat :=
  '(inc, _) <- for_in text (fun c '(inc, al) =>
     v <- get al c ;;
     if v =? 0 then let inc' := inc_u8_release inc in al' <- set al c inc' ;; Ok (inc', al')
     else Ok (inc, al)) (0, repeat 0 256) ;;
  Ok inc.

(** a + b on usize, wrapping (word.rs:13-25, 641-654) *)
Definition add_usize_release (a b : N) : N := ((a + b) mod 18446744073709551616)%N.
(** a + b on u8, wrapping (word.rs:13-25) *)
Definition add_u8_release (a b : nat) : nat := (a + b) mod 256.
(** 1 << k on usize (word.rs:106, 112, 242, 306, 417, 595) *)
Definition shl1_release (k : nat) : N := (2 ^ N.of_nat (k mod 64))%N.

(** word.rs:13-25 [fibonacci_number] *)
Definition fibonacci_number_release (k : nat) : res N :=
  if k =? 0 then Ok 1%N else
  '(sum, _, _) <- for_in (range 0 (add_u8_release k 1)) (fun _ '(sum, cur, old) =>
      let s := add_usize_release cur old in Ok (s, s, cur)) (1%N, 1%N, 0%N) ;;
  Ok sum.
(** word.rs:641-654 [tribonacci_number] *)
Definition tribonacci_number_release (k : nat) : res N :=
  if k =? 0 then Ok 1%N else
  '(sum, _, _, _) <- for_in (range 0 k) (fun _ '(sum, cur, old, ancient) =>
      let s := add_usize_release (add_usize_release cur old) ancient in Ok (s, s, cur, old)) (0%N, 1%N, 1%N, 0%N) ;;
  Ok sum.

(** word.rs:37-69 [fibonacci_word] after the length of the buffer has been fixed *)
Definition fibonacci_word_in_release (len : N) (k : nat) : res str :=
  text <- vec_zero len ;;
  text <- set text 0 CA ;;
  '(text, _, _, _, cur) <- for_in (range 0 (add_u8_release k 1)) (fun _ '(text, source, target, prev, cur) =>
      let new := cur + prev in
      '(text, source, target) <- fib_fill new text source target ;;
      Ok (text, source, target, cur, new)) (text, 0, 1, 0, 1) ;;
  Ok (firstn cur text).
(** word.rs:35-70 [fibonacci_word] *)
Definition fibonacci_word_release (k : nat) : res str :=
  fibonacci_word_in_release
    (add_usize_release (f64_as_usize (fadd (fibonacci_number_estimate (add_u8_release k 2)) f_one)) 1) k.

(** word.rs:105-118 [thuemorse_word] *)
Definition thuemorse_word_release (k : nat) : res str :=
  text <- vec_zero (shl1_release k) ;;
  text <- set text 0 CA ;;
  for_in (range 0 k) (fun j text =>
    let powerj := N.to_nat (shl1_release j) in
    for_in (range 0 powerj) (fun k text =>
      c <- get text k ;; set text (powerj + k) (if c =? CA then CB else CA)) text) text.

(** word.rs:238-261 [iterate_2morphism] *)
Definition iterate_2morphism_release (rounds : nat) (morphism : nat -> str) : res str :=
  if rounds =? 0 then Ok [CA] else
  text <- vec_zero (shl1_release rounds) ;;
  let n := length text in
  text <- set text 0 CA ;;
  text <- set text 1 CB ;;
  loop (S n) (fun '(text, source_pos, target_pos) =>
    if target_pos <? n then
      s <- get text source_pos ;;
      '(text, target_pos) <- for_in (morphism s) (fun c '(text, target_pos) =>
          if target_pos =? n then Ok (text, target_pos)
          else text <- set text target_pos c ;; Ok (text, target_pos + 1)) (text, target_pos) ;;
      Ok (Cont (text, source_pos + 1, target_pos))
    else Ok (Brk text)) (text, 1, 2).
(** word.rs:351-353 [period_doubling_word] *)
Definition period_doubling_word_release (k : nat) : res str := iterate_2morphism_release k period_doubling_morphism.

(** word.rs:416-446 [quaternary_paperfolding_word] *)
Definition quaternary_paperfolding_word_release (i : nat) : res str :=
  text <- vec_zero (shl1_release i) ;;
  let n := length text in
  text <- set text 0 CD ;;
  for_in (range 0 (n / 2)) (fun k text =>
    let t := 2 * k in
    c <- get text k ;;
    if c =? CD then text <- set text t CD ;; set text (t + 1) CB
    else if c =? CB then text <- set text t CC ;; set text (t + 1) CB
    else if c =? CC then text <- set text t CD ;; set text (t + 1) CA
    else if c =? CA then text <- set text t CC ;; set text (t + 1) CA
    else Panic) text.
(** word.rs:409-411 [paperfolding_word]; quaternary_to_binary (461-488) doubles the length, which cannot wrap
    for an existing vector *)
Definition paperfolding_word_release (i : nat) : res str :=
  text <- quaternary_paperfolding_word_release i ;; quaternary_to_binary text.

(** word.rs:601-603; the shift amount is at most the width of j plus one *)
Definition power2_msb_release (j msb : nat) : res nat :=
  loop 66 (fun msb =>
    if N.to_nat (shl1_release (msb + 1)) <? j then Ok (Cont (msb + 1)) else Ok (Brk msb)) msb.
(** word.rs:594-611 [power2_sequence] *)
Definition power2_sequence_release (k : nat) : res str :=
  text <- vec_zero (shl1_release k) ;;
  '(text, _) <- for_in (range 1 (length text)) (fun j '(text, msb) =>
      msb <- power2_msb_release j msb ;;
      text <- set text (j - 1) (if 0 <? Nat.land j (N.to_nat (shl1_release msb) - 1) then CA else CB) ;;
      Ok (text, msb)) (text, 0) ;;
  Ok text.

(** word.rs:299-317 [iterate_general_morphism_with_startsymbol] *)
Definition iterate_general_morphism_with_startsymbol_release (rounds : nat) (morphism : nat -> str) (sizehint : N)
    (startsymbol : str) : res str :=
  capacity (if (0 <? sizehint)%N then sizehint else shl1_release rounds) ;;;
  for_in (range 0 rounds) (fun _ oldtext =>
    for_in oldtext (fun start_char text =>
      for_in (morphism start_char) (fun c text => Ok (text ++ [c])) text) []) startsymbol.
(** word.rs:322-349 [iterate_general_morphism] *)
Definition iterate_general_morphism_release (rounds : nat) (morphism : nat -> str) (sizehint : N) : res str :=
  if rounds =? 0 then Ok [CA] else
  capacity (if (0 <? sizehint)%N then sizehint else shl1_release rounds) ;;;
  text <- for_in (morphism CA) (fun c text => Ok (text ++ [c])) [] ;;
  end0 <- sub_ (length text) 1 ;;
  loop (S (max_image morphism ^ rounds)) (fun '(text, round, end_last_round, source_pos) =>
    if round <? rounds then
      s <- get text source_pos ;;
      text <- for_in (morphism s) (fun c text => Ok (text ++ [c])) text ;;
      if source_pos =? end_last_round then
        e <- sub_ (length text) 1 ;;
        Ok (Cont (text, round + 1, e, source_pos + 1))
      else Ok (Cont (text, round, end_last_round, source_pos + 1))
    else Ok (Brk text)) (text, 1, end0, 1).
(** word.rs:623-625 [tribonacci_word] *)
Definition tribonacci_word_release (k : nat) : res str :=
  hint <- tribonacci_number_release k ;;
  iterate_general_morphism_release k tribonacci_morphism hint.
(** word.rs:687 and 714: (1 + (3 << k)) as usize on i32, wrapping, then sign-extended *)
Definition sizehint3_release (k : nat) : N :=
  let v := ((3 * 2 ^ Z.of_nat (k mod 32)) mod 4294967296)%Z in
  let v := ((v + 1) mod 4294967296)%Z in
  let v := (if 2147483648 <=? v then v - 4294967296 else v)%Z in
  Z.to_N (v mod 18446744073709551616).
(** word.rs:686-688 [vtm_word] *)
Definition vtm_word_release (k : nat) : res str :=
  iterate_general_morphism_release k vtm_morphism (sizehint3_release k).
(** word.rs:710-717 [fibonacci_lyndonfactor] *)
Definition fibonacci_lyndonfactor_release (k : nat) : res str :=
  iterate_general_morphism_with_startsymbol_release k fibonacci_lyndonfactor_morphism (sizehint3_release k) [CA; CB].

(** word.rs:130-132 and 137: the length of the buffer of [kolakoski_word] *)
Definition kolakoski_length_release (k : nat) : N :=
  add_usize_release (f64_as_usize (fadd (powi f_two (add_u8_release k 2)) f_one)) 1.
(** word.rs:136-181 [kolakoski_word] *)
Definition kolakoski_word_release (k : nat) : res str :=
  text <- vec_zero (kolakoski_length_release k) ;;
  text <- set text 0 CB ;;
  text <- set text 1 CB ;;
  '(text, _, target, _, _) <- for_in (range 0 k) (fun _ '(text, source, target, current_size, old_size) =>
      '(text, source, target) <- kol_round current_size text source target ;;
      let current_size := old_size + target in
      old_size <- sub_ current_size target ;;
      Ok (text, source, target, current_size, old_size)) (text, 1, 2, 2, 0) ;;
  assert_ (target <=? length text) ;;;
  Ok (firstn target text).

(** word.rs (bin) 38-57 [main]; binary_debruijn_word does the same in both profiles *)
Definition word_main_release (name : word_name) (k : nat) : res str :=
  match name with
  | Fibonacci => fibonacci_word_release k
  | FibonacciLyndonFactor => fibonacci_lyndonfactor_release k
  | Tribonacci => tribonacci_word_release k
  | Kolakoski => kolakoski_word_release k
  | ThueMorse => thuemorse_word_release k
  | PeriodDoubling => period_doubling_word_release k
  | PaperFolding => paperfolding_word_release k
  | QuaternaryPaperFolding => quaternary_paperfolding_word_release k
  | BinaryDeBrujin => binary_debruijn_word k
  | Power2 => power2_sequence_release k
  | Vtm => vtm_word_release k
  end.
