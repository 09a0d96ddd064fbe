(** ModelArgs2.v : the programs with their command lines: every [main] starts with [Args::parse()] (enumerate:
    [get_matches()]) and does nothing before. Simplification: [file_of] maps the text of a file name to the file it names
    (SpecFs.v); in the programs that only print a line ([_report]), [input] gives the contents of a named file or, for [None],
    of the standard input. *)
From Verif Require Import Base SpecStr SpecArgs SpecFs ModelIo ModelCore ModelTools ModelLz ModelMain ModelEntropy ModelResult ModelAttr ModelFs ModelFs2 ModelFs3 ModelArgs.
From Coq Require Import NArith.

(** [Args::parse()]: an error ends the program with status 2, --help and --version with status 0 (e.g. bwt.rs:39, word.rs:40, lyndonwords.rs:25) *)
Definition on_args {A} (c : command) (line : list str) (body : matches -> A) : command_result A :=
  match parse c line with Go m => Ran (body m) | Refuse => Usage | Show => Shown end.
(** core.rs:578-583 [stringopt_stropt] on a file name option *)
Definition arg_file (file_of : str -> name) (m : matches) (a : arg) : option name := option_map file_of (arg_string m a).

(** bwt.rs:38-74 *)
Definition bwt_program (sort : str -> list nat) (file_of : str -> name) (line : list str) : command_result (io unit) :=
  on_args bwt_cmd line (fun m => bwt_io sort (arg_num m prefixlength 0) (arg_bool m use_matrix) (arg_bool m no_dollar)
    (arg_file file_of m infilename) (arg_file file_of m outfilename)).
(** count_lexparse.rs:63-119 *)
Definition count_lexparse_program (sort : str -> list nat) (file_of : str -> name) (line : list str) : command_result (io unit) :=
  on_args count_lexparse_cmd line (fun m => count_lexparse_io sort (arg_num m prefixlength 0) (arg_file file_of m infilename) (arg_file file_of m outfilename)).
(** count_z.rs:164-228 *)
Definition count_z_program (sort : str -> list nat) (file_of : str -> name) (line : list str) : command_result (io unit) :=
  on_args count_z_cmd line (fun m => count_z_io sort (arg_num m prefixlength 0) (arg_file file_of m infilename) (arg_file file_of m outfilename)).
(** escape.rs:50-154 *)
Definition escape_program (file_of : str -> name) (line : list str) : command_result (io unit) :=
  on_args escape_cmd line (fun m => escape_io (arg_num m prefixlength 0) (arg_num m escape_symbol 0) (arg_nums m from_symbols) (arg_nums m to_symbols)
    (arg_bool m is_reversion) (arg_file file_of m infilename) (arg_file file_of m outfilename)).
(** lyndonfactorization.rs:31-100 *)
Definition lyndonfactorization_program (file_of : str -> name) (line : list str) : command_result (io unit) :=
  on_args lyndonfactorization_cmd line (fun m => lyndonfactorization_io (arg_num m prefixlength 0) (arg_file file_of m infilename) (arg_file file_of m outfilename)).
(** lyndonwords.rs:24-33 *)
Definition lyndonwords_program (fuel : nat) (file_of : str -> name) (line : list str) : command_result (io unit) :=
  on_args lyndonwords_cmd line (fun m => lyndonwords_io fuel (arg_num m length_opt 5) (arg_num m sigma_opt 2) (arg_file file_of m outfilename)).
(** mtf.rs:67-72 *)
Definition mtf_program (fuel : nat) (file_of : str -> name) (line : list str) : command_result (io unit) :=
  on_args mtf_cmd line (fun m => mtf_io fuel (arg_file file_of m infilename) (arg_file file_of m outfilename)).
(** randomstring.rs:29-61; alphabet_size is required, so the default 0 is never used *)
Definition randomstring_program (fuel : nat) (rng : nat -> nat) (file_of : str -> name) (line : list str) : command_result (io unit) :=
  on_args randomstring_cmd line (fun m => randomstring_io fuel (arg_num m alphabet_size 0) (arg_num m prefixlength 10) rng (arg_file file_of m outfilename)).
(** reverse.rs:30-46 *)
Definition reverse_program (file_of : str -> name) (line : list str) : command_result (io unit) :=
  on_args reverse_cmd line (fun m => reverse_io (arg_num m prefixlength 0) (arg_file file_of m infilename) (arg_file file_of m outfilename)).
(** rle.rs:125-137, in a build without and with debug assertions *)
Definition rle_program_release (fuel : nat) (file_of : str -> name) (line : list str) : command_result (io unit) :=
  on_args rle_cmd line (fun m => rle_io_release fuel (arg_bool m human) (arg_bool m onlyzero) (arg_file file_of m infilename) (arg_file file_of m outfilename)).
(** bin/rle.rs:125-137, in a build with debug assertions *)
Definition rle_program (fuel : nat) (file_of : str -> name) (line : list str) : res (command_result (io unit)) :=
  r <- parse_debug rle_cmd line ;;
  Ok (match r with
      | Go m => Ran (rle_io fuel (arg_bool m human) (arg_bool m onlyzero) (arg_file file_of m infilename) (arg_file file_of m outfilename))
      | Refuse => Usage
      | Show => Shown
      end).
(** word.rs (bin) 39-57; k and name are required *)
Definition word_program (file_of : str -> name) (line : list str) : command_result (io unit) :=
  on_args word_cmd line (fun m => word_io (arg_word m name_opt) (arg_num m k_opt 0) (arg_file file_of m outfilename)).
(** enumerate.rs:41-88; alphabet_size and min_len are required *)
Definition enumerate_program (fuel : nat) (line : list str) : command_result (io nat) :=
  on_args enumerate_cmd line (fun m => enumerate_io fuel (arg_num m alphabet_size_pos 0) (arg_num m min_len_pos 0) (arg_num_opt m max_len_pos)).
(** the printed lines: count_r.rs:34-79 *)
Definition count_r_report (sort : str -> list nat) (time : nat) (input : option str -> str) (line : list str) : command_result (res str) :=
  on_args count_r_cmd line (fun m => let i := arg_string m infilename in
    count_r_out sort time i (input i) (arg_num m prefixlength 0) (arg_bool m use_matrix) (arg_bool m no_dollar)).
(** count_sigma.rs:47-71 *)
Definition count_sigma_report (time : nat) (input : option str -> str) (line : list str) : command_result (res str) :=
  on_args count_sigma_cmd line (fun m => let i := arg_string m infilename in count_sigma_out time i (input i) (arg_num m prefixlength 0)).
(** count_z.rs:164-219 *)
Definition count_z_report (sort : str -> list nat) (time : nat) (input : option str -> str) (line : list str) : command_result (res str) :=
  on_args count_z_cmd line (fun m => let i := arg_string m infilename in count_z_out sort time i (input i) (arg_num m prefixlength 0)).
(** count_lexparse.rs:63-109 *)
Definition count_lexparse_report (sort : str -> list nat) (time : nat) (input : option str -> str) (line : list str) : command_result (res str) :=
  on_args count_lexparse_cmd line (fun m => let i := arg_string m infilename in count_lexparse_out sort time i (input i) (arg_num m prefixlength 0)).
(** lyndonfactorization.rs:31-65 *)
Definition lyndonfactorization_report (time : nat) (input : option str -> str) (line : list str) : command_result (res str) :=
  on_args lyndonfactorization_cmd line (fun m => let i := arg_string m infilename in lyndonfactorization_out time i (input i) (arg_num m prefixlength 0)).
(** mus.rs:56-96 *)
Definition mus_report (sort : str -> list nat) (time : nat) (input : option str -> str) (line : list str) : command_result (res str) :=
  on_args mus_cmd line (fun m => let i := arg_string m infilename in mus_out sort time i (input i) (arg_num m prefixlength 0)).
(** entropy.rs:160-197 *)
Definition entropy_report (fmt : f64 -> str) (sort : str -> list nat) (time : nat) (input : option str -> str) (line : list str) : command_result (res str) :=
  on_args entropy_cmd line (fun m => let i := arg_string m infilename in entropy_out fmt sort time i (input i) (arg_num m prefixlength 0) (arg_num m order 0)).
(** entropy_kmer.rs:143-178 *)
Definition entropy_kmer_report (fmt : f64 -> str) (iter1 iter2 : list (N * nat) -> list (N * nat)) (time : nat) (input : option str -> str)
    (line : list str) : command_result (res str) :=
  on_args entropy_kmer_cmd line (fun m => let i := arg_string m infilename in
    entropy_kmer_out fmt iter1 iter2 time i (input i) (arg_num m prefixlength 0) (arg_num m order 0)).
(** is_stringattractor.rs:247-279: exit status and output *)
Definition is_stringattractor_program (sort : str -> list nat) (input : option str -> str) (line : list str) : command_result (res (nat * str)) :=
  on_args is_stringattractor_cmd line (fun m => let i := arg_string m infilename in
    is_stringattractor_main sort (is_file i) (input i) (arg_num m prefixlength 0) (arg_nums m attractor)).
(** count_runs.rs:20-24: the number is printed; [fuel] as in number_of_runs *)
Definition count_runs_program (fuel : nat) (input : option str -> reader) (line : list str) : command_result (res str) :=
  on_args count_runs_cmd line (fun m => r <- number_of_runs fuel (input (arg_string m infilename)) ;; Ok (println (dec_usize r))).
