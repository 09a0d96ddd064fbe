(** ModelMain.v : the remaining programs of /repo/src/bin: enumerate, generator_kmer, randomstring, bwt,
    count_r, lyndonfactorization, lyndonwords, word. Argument parsing (clap), logging, timing and write
    errors are not modelled; a program is a function of its parsed options and its input. *)
From Verif Require Import Base ModelIo ModelTools ModelCore ModelWord.
From Coq Require Import NArith.

(** [&text[a..b]] (lyndonfactorization.rs:73, 96) *)
Definition slice (text : str) (a b : nat) : res str :=
  if (a <=? b) && (b <=? length text) then Ok (firstn (b - a) (skipn a text)) else Panic.
(** [format!("{}", n)] for a usize (e.g. lyndonfactorization.rs:88-94) *)
Fixpoint dec_loop (fuel n : nat) : str :=
  match fuel with
  | O => []
  | S f => if n <? 10 then [48 + n] else dec_loop f (n / 10) ++ [48 + n mod 10]
  end.
(** [format!("{}", n)] for a usize (e.g. lyndonfactorization.rs:88-94) *)
Definition dec_usize (n : nat) : str := dec_loop (S n) n.
(** [println!] of a string: its bytes and a newline (enumerate.rs:22, generator_kmer.rs:21) *)
Definition println (s : str) : str := s ++ [10].

(** enumerate.rs:17-21: the line built from [indices] ([i as u8] truncates; the sum is a char below 256) *)
Definition enum_line (indices : list nat) : res str :=
  for_in indices (fun i s => c <- add_u8 97 (i mod 256) ;; Ok (s ++ utf8_char c)) [].
(** enumerate.rs:25-34: the inner loop; the variable here is pos + 1, so pos < 0 is 0. Returns pos + 1 and
    the vector. *)
Definition enum_incr (alpha_size len : nat) (indices : list nat) : res (nat * list nat) :=
  loop (S len) (fun '(pos1, indices) =>
    if 0 <? pos1 then
      x <- get indices (pos1 - 1) ;;
      if x + 1 <? alpha_size then
        indices' <- set indices (pos1 - 1) (x + 1) ;; Ok (Brk (pos1, indices'))
      else
        indices' <- set indices (pos1 - 1) 0 ;; Ok (Cont (pos1 - 1, indices'))
    else Ok (Brk (pos1, indices))) (len, indices).
(** enumerate.rs:10-39 [enumerate_for_length]: the bytes printed, appended to [out] *)
Definition enumerate_for_length (fuel alpha_size len : nat) (out : str) : res str :=
  if len =? 0 then Ok out else
  loop fuel (fun '(indices, out) =>
    s <- enum_line indices ;;
    let out := out ++ println s in
    '(pos1, indices') <- enum_incr alpha_size len indices ;;
    if pos1 =? 0 then Ok (Brk out) else Ok (Cont (indices', out))) (repeat 0 len, out).
(** enumerate.rs:41-88 [main]; max_len is optional. [None] stands for exit status 1, [Some out] for normal
    termination with [out] printed. [fuel] bounds the number of lines of one length. *)
Definition enumerate_main (fuel alpha_size min_len : nat) (max_len_opt : option nat) : res (option str) :=
  let max_len := match max_len_opt with Some m => m | None => min_len end in
  if (alpha_size =? 0) || (26 <? alpha_size) then Ok None else
  if min_len =? 0 then Ok None else
  if max_len <? min_len then Ok None else
  out <- for_in (range min_len (max_len + 1)) (fun len out => enumerate_for_length fuel alpha_size len out) [] ;;
  Ok (Some out).

(** usize::pow, overflow-checked (generator_kmer.rs:8, enumerate_lexparse.rs:54) *)
Definition pow_usize (b e : nat) : res nat :=
  if (N.of_nat b ^ N.of_nat e <? 18446744073709551616)%N then Ok (b ^ e) else Panic.
(** generator_kmer.rs:9-14 (the same code in enumerate_lexparse.rs:55-60): the text numbered [num] *)
Definition kmer_text (length_ alphabet_size num : nat) : res str :=
  '(text, _) <- for_in (range 0 length_) (fun i '(text, remainder) =>
     r <- mod_ remainder alphabet_size ;;
     c <- add_u8 97 (r mod 256) ;;
     text' <- set text i c ;;
     Ok (text', remainder / alphabet_size)) (repeat 97 length_, num) ;;
  Ok text.
(** generator_kmer.rs:7-18: the values yielded by the generator, in order *)
Definition kmer_generator (length_ alphabet_size : nat) : res (list str) :=
  total <- pow_usize alphabet_size length_ ;;
  for_in (range 0 total) (fun num out => t <- kmer_text length_ alphabet_size num ;; Ok (out ++ [t])) [].
(** generator_kmer.rs:4-23 [main] with its constants as arguments (length 8, alphabet size 4 in the source);
    [str::from_utf8(..).unwrap()] panics on a byte above 127 *)
Definition kmer_main (length_ alphabet_size : nat) : res str :=
  g <- kmer_generator length_ alphabet_size ;;
  for_in g (fun t out => assert_ (forallb (fun c => c <? 128) t) ;;; Ok (out ++ println t)) [].

(** randomstring.rs:51-60: [rng] lists the successive samples of the random number generator, [used] the
    number of samples drawn so far; the HashSet is a list of distinct elements. [fuel] bounds the inner loop. *)
Definition random_step (fuel alphabet_size : nat) (rng : nat -> nat) (st : nat * str * str) : res (nat * str * str) :=
  let '(used, charset, out) := st in
  let newchar := rng used in
  '(newchar, used) <-
     (if negb (alphabet_size =? 0) && (length charset =? alphabet_size) then
        loop fuel (fun '(newchar, used) =>
          if negb (existsb (Nat.eqb newchar) charset) then Ok (Cont (rng used, S used))
          else Ok (Brk (newchar, used))) (newchar, S used)
      else Ok (newchar, S used)) ;;
  let charset' := if existsb (Nat.eqb newchar) charset then charset else newchar :: charset in
  Ok (used, charset', out ++ [newchar]).
(** randomstring.rs:29-61 [main] *)
Definition randomstring_main (fuel alphabet_size prefixlength : nat) (rng : nat -> nat) : res str :=
  '(_, _, out) <- for_in (range 0 prefixlength) (fun _ st => random_step fuel alphabet_size rng st) (0, [], []) ;;
  Ok out.

(** bwt.rs:47-69 (the same code in count_r.rs:46-68): the BWT written. [sort] stands for cdivsufsort. *)
Definition bwt_main (sort : str -> list nat) (is_file : bool) (content : str) (prefixlength : nat)
    (use_matrix no_dollar : bool) : res str :=
  text <- (if no_dollar then file_or_stdin2byte_vector is_file content prefixlength
           else t <- file_or_stdin2byte_vector is_file content prefixlength ;; Ok (t ++ [0])) ;;
  if use_matrix then
    if length text <? 100 then bwt_by_matrix_naive text else bwt_by_matrix sort text
  else bwt_from_text_by_sa sort text.
(** a byte slice as a reader (count_r.rs:69) *)
Definition slice_reader (t : str) : reader := fun i => match nth_error t i with Some c => Byte c | None => Eof end.
(** count_r.rs:34-79 [main]: the length and the number of runs printed *)
Definition count_r_main (sort : str -> list nat) (is_file : bool) (content : str) (prefixlength : nat)
    (use_matrix no_dollar : bool) : res (nat * nat) :=
  bwt <- bwt_main sort is_file content prefixlength use_matrix no_dollar ;;
  r <- number_of_runs (S (length bwt)) (slice_reader bwt) ;;
  Ok (length bwt, r).

(** ">Factor 1\n" (lyndonfactorization.rs:72) *)
Definition first_header : str := [62;70;97;99;116;111;114;32;49;10].
(** format!("\n>Factor {} : {} -> {}\n", i, a, b) (lyndonfactorization.rs:88-94) *)
Definition factor_header (i a b : nat) : str :=
  [10;62;70;97;99;116;111;114;32] ++ dec_usize i ++ [32;58;32] ++ dec_usize a ++ [32;45;62;32] ++ dec_usize b ++ [10].
(** lyndonfactorization.rs:67-100: the contents of the output file *)
Definition lyndon_file (text : str) (factors : list nat) : res str :=
  f0 <- get factors 0 ;;
  s0 <- slice text 0 (f0 + 1) ;;
  l1 <- sub_ (length factors) 1 ;;
  '(out, _) <- for_in (range 1 (length factors)) (fun factor_id '(out, stopped) =>
    if stopped : bool then Ok (out, stopped) else
    brk <- (if factor_id =? l1 then
              f <- get factors factor_id ;;
              if f + 1 =? length text then
                n1 <- sub_ (length text) 1 ;; c <- get text n1 ;; Ok (c =? 0)
              else Ok false
            else Ok false) ;;
    if brk : bool then Ok (out, true) else
    p <- get factors (factor_id - 1) ;;
    f <- get factors factor_id ;;
    s <- slice text (p + 1) (f + 1) ;;
    Ok (out ++ factor_header (factor_id + 1) (p + 1) (f + 1) ++ s, false)) (first_header ++ s0, false) ;;
  Ok out.
(** lyndonfactorization.rs:31-100 [main]: the number of factors printed and the file written when -o is given.
    The debug-logging block 103-114 is modelled in ModelDebug.v. *)
Definition lyndonfactorization_main (is_file : bool) (content : str) (prefixlength : nat) (with_output : bool)
  : res (nat * option str) :=
  text <- file_or_stdin2byte_vector is_file content prefixlength ;;
  factors <- duval text ;;
  l <- last_ factors ;;
  assert_ (l + 1 =? length text) ;;;
  if with_output then out <- lyndon_file text factors ;; Ok (length factors, Some out)
  else Ok (length factors, None).

(** lyndonwords.rs:24-33 [main]: the bytes written; [fuel] bounds the number of generated words *)
Definition lyndonwords_main (fuel length_ sigma : nat) : res str :=
  loop fuel (fun '(g, out) =>
    '(it, g') <- lwg_next g ;;
    match it with
    | None => Ok (Brk out)
    | Some w =>
        line <- for_in w (fun x s => c <- add_u8 x 97 ;; Ok (s ++ [c])) [] ;;
        Ok (Cont (g', out ++ line ++ [10]))
    end) (lwg_new length_ sigma, []).

(** word.rs (bin) 23-35 [WordName] *)
Inductive word_name := Fibonacci | FibonacciLyndonFactor | Tribonacci | Kolakoski | ThueMorse | PeriodDoubling
  | PaperFolding | QuaternaryPaperFolding | BinaryDeBrujin | Power2 | Vtm.
(** word.rs (bin) 38-57 [main]: the bytes written *)
Definition word_main (name : word_name) (k : nat) : res str :=
  match name with
  | Fibonacci => fibonacci_word k
  | FibonacciLyndonFactor => fibonacci_lyndonfactor k
  | Tribonacci => tribonacci_word k
  | Kolakoski => kolakoski_word k
  | ThueMorse => thuemorse_word k
  | PeriodDoubling => period_doubling_word k
  | PaperFolding => paperfolding_word k
  | QuaternaryPaperFolding => quaternary_paperfolding_word k
  | BinaryDeBrujin => binary_debruijn_word k
  | Power2 => power2_sequence k
  | Vtm => vtm_word k
  end.
