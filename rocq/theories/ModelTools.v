(** ModelTools.v : the byte-stream tools of /repo/src/bin: mtf, rle, escape, count_sigma, reverse.
    Writers are modelled by the list of bytes written; write errors (unwrap panics) are not modelled.
    [u8] values are [nat]s; a u8 increment panics at 255 (overflow checks on). *)
From Verif Require Import Base ModelIo.

(** x + 1 on u8 (rle.rs:24, 51, 89) *)
Definition inc_u8 (x : nat) : res nat := if 255 <=? x then Panic else Ok (x + 1).

(** [iter().position(|&c| c == x).unwrap()] (mtf.rs:13) *)
Fixpoint position_ (c : nat) (l : str) : res nat :=
  match l with
  | [] => Panic
  | x :: l' => if x =? c then Ok 0 else p <- position_ c l' ;; Ok (S p)
  end.

(** bin/mtf.rs:12-18, processing one byte *)
Definition mtf_step (cur_char : nat) (st : str * str) : res (str * str) :=
  let '(v, out) := st in
  pos <- position_ cur_char v ;;
  v1 <- for_in (range 0 pos) (fun j v =>
          a <- sub_ pos j ;; b <- sub_ a 1 ;; x <- get v b ;; set v a x) v ;;
  v2 <- set v1 0 cur_char ;;
  Ok (v2, out ++ [pos mod 256]).
(** bin/mtf.rs:7-23 [mtf] (and mtf_vector, 25-29): the initial vector is 0..u8::MAX, i.e. 0..=254. *)
Definition mtf (fuel : nat) (rd : reader) : res str :=
  '(_, out) <- while_read fuel rd mtf_step (seq 0 255, []) 0 ;; Ok out.

(** bin/rle.rs:35-60 [rle] *)
Definition rle_step (next_char : nat) (st : nat * nat * str) : res (nat * nat * str) :=
  let '(run_counter, prev_char, out) := st in
  if negb (next_char =? prev_char) then
    assert_ (run_counter <? 255) ;;;
    Ok (0, next_char, out ++ [prev_char; run_counter])
  else rc <- inc_u8 run_counter ;; Ok (rc, prev_char, out).
(** bin/rle.rs:35-60 [rle] *)
Definition rle (fuel : nat) (rd : reader) : res str :=
  match read_char rd 0 with
  | (None, _) => Ok []
  | (Some first_char, pos) =>
    '(run_counter, prev_char, out) <- while_read fuel rd rle_step (0, first_char, []) pos ;;
    Ok (out ++ [prev_char; run_counter])
  end.

(** bin/rle.rs:62 *)
Definition CHR_ZERO : nat := 48.
(** bin/rle.rs:78-90 *)
Definition rle_zero_step (next_char : nat) (st : nat * str) : res (nat * str) :=
  let '(run_counter, out) := st in
  if negb (next_char =? CHR_ZERO) then
    if run_counter =? 0 then Ok (run_counter, out ++ [next_char])
    else r1 <- sub_ run_counter 1 ;; assert_ (r1 <? 255) ;;;
         Ok (0, out ++ [CHR_ZERO; run_counter - 1])
  else rc <- inc_u8 run_counter ;; Ok (rc, out).
(** bin/rle.rs:64-100 [rle_zero] *)
Definition rle_zero (fuel : nat) (rd : reader) : res str :=
  match read_char rd 0 with
  | (None, _) => Ok []
  | (Some first_char, pos) =>
    let st0 := if first_char =? CHR_ZERO then (1, []) else (0, [first_char]) in
    '(run_counter, out) <- while_read fuel rd rle_zero_step st0 pos ;;
    if 0 <? run_counter then Ok (out ++ [CHR_ZERO; run_counter]) else Ok out
  end.

(** [format!("{}", c as char)] for a u8: the UTF-8 encoding of U+0000..U+00FF (rle.rs:20, 29) *)
Definition utf8_char (c : nat) : str :=
  if c <? 128 then [c] else [192 + c / 64; 128 + c mod 64].
(** [format!("{}", n)] for a u8 (rle.rs:20, 29) *)
Definition dec_u8 (n : nat) : str :=
  if n <? 10 then [48 + n]
  else if n <? 100 then [48 + n / 10; 48 + n mod 10]
  else [48 + n / 100; 48 + n / 10 mod 10; 48 + n mod 10].
(** write!(writer, "({},{})", c as char, n) (rle.rs:20, 29) *)
Definition fmt_run (c n : nat) : str := [40] ++ utf8_char c ++ [44] ++ dec_u8 n ++ [41].
(** bin/rle.rs:19-25 *)
Definition rle_text_step (next_char : nat) (st : nat * nat * str) : res (nat * nat * str) :=
  let '(run_counter, prev_char, out) := st in
  if negb (next_char =? prev_char) then
    r1 <- inc_u8 run_counter ;; Ok (0, next_char, out ++ fmt_run prev_char r1)
  else rc <- inc_u8 run_counter ;; Ok (rc, prev_char, out).
(** bin/rle.rs:9-33 [rle_text] *)
Definition rle_text (fuel : nat) (rd : reader) : res str :=
  match read_char rd 0 with
  | (None, _) => Ok []
  | (Some first_char, pos) =>
    '(run_counter, prev_char, out) <- while_read fuel rd rle_text_step (0, first_char, []) pos ;;
    r1 <- inc_u8 run_counter ;;
    Ok (out ++ fmt_run prev_char r1)
  end.

(** HashMap<u8,u8> built by successive inserts: association list, newest first (escape.rs:99, 126) *)
Definition hm_get (m : list (nat * nat)) (k : nat) : option nat :=
  option_map snd (find (fun p => fst p =? k) m).
(** bin/escape.rs:98-104 and 125-131: for i in 0..from.len() { map.insert(a[i], b[i]) } *)
Definition build_map (a b : str) : res (list (nat * nat)) :=
  for_in (range 0 (length a)) (fun i m => x <- get a i ;; y <- get b i ;; Ok ((x, y) :: m)) [].

(** bin/escape.rs:75-92, the sanity checks *)
Definition escape_checks (esc : nat) (from to : str) : bool :=
  (length from =? length to) && negb (existsb (Nat.eqb esc) from) && negb (existsb (Nat.eqb esc) to)
  && negb (existsb (fun i => existsb (Nat.eqb i) to) from).
(** bin/escape.rs:132-151: for _ in 0..prefixlength, forward direction *)
Fixpoint escape_fwd (n : nat) (rd : reader) (pos : nat) (esc : nat) (m : list (nat * nat)) (out : str) : res str :=
  match n with
  | O => Ok out
  | S n' =>
    match read_char rd pos with
    | (None, _) => Ok out
    | (Some cur_char, pos') =>
      if cur_char =? esc then escape_fwd n' rd pos' esc m (out ++ [esc; esc])
      else match hm_get m cur_char with
           | Some r => escape_fwd n' rd pos' esc m (out ++ [esc; r])
           | None => escape_fwd n' rd pos' esc m (out ++ [cur_char])
           end
    end
  end.
(** bin/escape.rs:105-123, reverse direction *)
Fixpoint escape_rev (n : nat) (rd : reader) (pos : nat) (esc : nat) (m : list (nat * nat)) (out : str) : res str :=
  match n with
  | O => Ok out
  | S n' =>
    match read_char rd pos with
    | (None, _) => Ok out
    | (Some cur_char, pos') =>
      if cur_char =? esc then
        match read_char rd pos' with
        | (None, _) => Panic
        | (Some next_char, pos'') =>
          if next_char =? esc then escape_rev n' rd pos'' esc m (out ++ [esc])
          else match hm_get m next_char with
               | Some r => escape_rev n' rd pos'' esc m (out ++ [r])
               | None => Panic
               end
        end
      else escape_rev n' rd pos' esc m (out ++ [cur_char])
    end
  end.
(** bin/escape.rs:50-154 [main] after argument parsing (options as parameters); returns the bytes
    written. *)
Definition escape_main (prefixlength : nat) (esc : nat) (from to : str) (is_reversion : bool)
  (rd : reader) : res str :=
  assert_ (escape_checks esc from to) ;;;
  if is_reversion then m <- build_map to from ;; escape_rev prefixlength rd 0 esc m []
  else m <- build_map from to ;; escape_fwd prefixlength rd 0 esc m [].

(** bin/count_sigma.rs:11-22 [count_sigma] *)
Definition count_sigma (text : str) : res nat :=
  '(inc, _) <- for_in text (fun c '(inc, al) =>
     v <- get al c ;;
     if v =? 0 then inc' <- inc_u8 inc ;; al' <- set al c inc' ;; Ok (inc', al')
     else Ok (inc, al)) (0, repeat 0 256) ;;
  Ok inc.

(** bin/reverse.rs:30-46 [main]: bytes written *)
Definition reverse_main (is_file : bool) (content : str) (prefixlength : nat) : res str :=
  text <- file_or_stdin2byte_vector is_file content prefixlength ;;
  Ok (rev text).
