(** ModelResult.v : the lines printed by the analytic tools. Simplifications: the measured time is an argument; how an
    f64 is formatted is an argument; an input file name is its bytes (Rust: a String); nothing but the line is
    represented (logging goes to stderr, factor files are in ModelFs.v). *)
From Verif Require Import Base ModelIo ModelCore ModelTools ModelLz ModelMain ModelEntropy.
From Coq Require Import NArith.
From Coq Require String Ascii.
Import String.StringSyntax.
Delimit Scope string_scope with string.

(** string literals (the literals of the format strings, e.g. count_z.rs:202, 214) *)
Definition lit (s : String.string) : str := map Ascii.nat_of_ascii (String.list_ascii_of_string s).
Arguments lit s%string.
(** core.rs:585-590 [get_filename] *)
Definition get_filename (o : option str) : str := match o with None => lit "none" | Some s => s end.
(** io.rs:46-51 reads the file if there is a name *)
Definition is_file (o : option str) : bool := match o with None => false | Some _ => true end.
(** Display for bool (count_r.rs:76-77) *)
Definition fmt_bool (b : bool) : str := if b then lit "true" else lit "false".
(** Debug for Vec<(usize, usize)> (mus.rs:92) *)
Definition fmt_pair (p : nat * nat) : str := lit "(" ++ dec_usize (fst p) ++ lit ", " ++ dec_usize (snd p) ++ lit ")".
(** Debug for Vec<(usize, usize)> (mus.rs:92) *)
Definition fmt_pairs (l : list (nat * nat)) : str :=
  match l with
  | [] => lit "[]"
  | p :: l => lit "[" ++ fmt_pair p ++ concat (map (fun q => lit ", " ++ fmt_pair q) l) ++ lit "]"
  end.

(** count_sigma.rs:47-71 [main] *)
Definition count_sigma_out (time : nat) (infile : option str) (content : str) (prefixlength : nat) : res str :=
  text <- file_or_stdin2byte_vector (is_file infile) content prefixlength ;;
  sigma <- count_sigma text ;;
  Ok (println (lit "RESULT algo=count_sigma time_ms=" ++ dec_usize time ++ lit " length=" ++ dec_usize (length text) ++
      lit " sigma=" ++ dec_usize sigma ++ lit " file=" ++ get_filename infile)).
(** count_z.rs:164-219 [main], up to the line *)
Definition count_z_out (sort : str -> list nat) (time : nat) (infile : option str) (content : str) (prefixlength : nat) : res str :=
  text <- file_or_stdin2byte_vector (is_file infile) content prefixlength ;;
  factors <- count_z_main sort text ;;
  let result_format := lit "RESULT file=" ++ get_filename infile ++ lit " length=" ++ dec_usize (length (sort text)) ++ lit " " in
  Ok (println (result_format ++ lit " algo=lz77 time_ms=" ++ dec_usize time ++ lit " factors=" ++ dec_usize (length factors))).
(** count_lexparse.rs:63-109 [main], up to the line *)
Definition count_lexparse_out (sort : str -> list nat) (time : nat) (infile : option str) (content : str) (prefixlength : nat) : res str :=
  text <- file_or_stdin2byte_vector (is_file infile) content prefixlength ;;
  factors <- count_lexparse_main sort text ;;
  let result_format := lit "RESULT file=" ++ get_filename infile ++ lit " length=" ++ dec_usize (length text) ++ lit " " in
  Ok (println (result_format ++ lit " algo=lexparse time_ms=" ++ dec_usize time ++ lit " factors=" ++ dec_usize (length factors))).
(** lyndonfactorization.rs:31-65 [main], up to the line; length={} shows args.prefixlength (line 43) *)
Definition lyndonfactorization_out (time : nat) (infile : option str) (content : str) (prefixlength : nat) : res str :=
  let result_format := lit "RESULT file=" ++ get_filename infile ++ lit " length=" ++ dec_usize prefixlength ++ lit " " in
  text <- file_or_stdin2byte_vector (is_file infile) content prefixlength ;;
  factors <- duval text ;;
  l <- last_ factors ;;
  assert_ (l + 1 =? length text) ;;;
  Ok (println (result_format ++ lit " algo=duval time_ms=" ++ dec_usize time ++ lit " factors=" ++ dec_usize (length factors))).
(** count_r.rs:34-79 [main] *)
Definition count_r_out (sort : str -> list nat) (time : nat) (infile : option str) (content : str) (prefixlength : nat)
    (use_matrix no_dollar : bool) : res str :=
  '(len, r) <- count_r_main sort (is_file infile) content prefixlength use_matrix no_dollar ;;
  Ok (println (lit "RESULT algo=bwt time_ms=" ++ dec_usize time ++ lit " length=" ++ dec_usize len ++ lit " bwt_runs=" ++ dec_usize r ++
      lit " file=" ++ get_filename infile ++ lit " no_dollar=" ++ fmt_bool no_dollar ++ lit " use_matrix=" ++ fmt_bool use_matrix)).
(** mus.rs:56-96 [main] *)
Definition mus_out (sort : str -> list nat) (time : nat) (infile : option str) (content : str) (prefixlength : nat) : res str :=
  text <- file_or_stdin2byte_vector (is_file infile) content prefixlength ;;
  let result_format := lit "RESULT file=" ++ get_filename infile ++ lit " length=" ++ dec_usize (length (sort text)) ++ lit " " in
  mus <- mus_main sort text ;;
  Ok (println (result_format ++ lit " time_ms=" ++ dec_usize time ++ lit " mus=" ++ fmt_pairs mus)).
(** entropy.rs:160-197 [main]; entropies are real numbers or NaN (ModelEntropy.v), [fmt] is the Display of f64 *)
Definition entropy_out (fmt : f64 -> str) (sort : str -> list nat) (time : nat) (infile : option str) (content : str)
    (prefixlength order : nat) : res str :=
  t <- file_or_stdin2byte_vector (is_file infile) content prefixlength ;;
  h0 <- entropy_main sort (is_file infile) content prefixlength order ;;
  Ok (println (lit "RESULT algo=count_entropy order=" ++ dec_usize order ++ lit " time_ms=" ++ dec_usize time ++ lit " length=" ++
      dec_usize (length (t ++ [0])) ++ lit " entropy=" ++ fmt h0 ++ lit " input=" ++ get_filename infile)).
(** entropy_kmer.rs:143-178 [main] *)
Definition entropy_kmer_out (fmt : f64 -> str) (iter1 iter2 : list (N * nat) -> list (N * nat)) (time : nat) (infile : option str)
    (content : str) (prefixlength order : nat) : res str :=
  '(h, count) <- entropy_kmer_main iter1 iter2 (is_file infile) content prefixlength order ;;
  Ok (println (lit "RESULT algo=count_entropy_hash order=" ++ dec_usize order ++ lit " time_ms=" ++ dec_usize time ++ lit " length=" ++
      dec_usize count ++ lit " entropy=" ++ fmt h ++ lit " input=" ++ get_filename infile)).
