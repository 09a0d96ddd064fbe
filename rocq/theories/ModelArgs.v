(** ModelArgs.v : the command lines of the programs. The option tables are those clap's derive macros build from the
    structs [Args] (cited below); the parser follows clap 4 (clap_builder's Parser, with no subcommands, no
    allow_hyphen_values, no value delimiters, no inferred names), which is not part of the repository: it is modelled by
    its documented behaviour. Simplifications: arguments are ASCII; of an error only "refused" is kept (clap prints a usage
    message on stderr and ends with status 2), of --help and --version only "shown" (status 0). *)
From Verif Require Import Base SpecStr SpecArgs ModelMain ModelResult.
From Coq Require Import NArith.
From Coq Require String Ascii.
Import String.StringSyntax.
Delimit Scope string_scope with string.

(** ** values *)
(** u64::from_str / usize::from_str (checked accumulation of digits) (value parsers of the fields of type usize and u8, e.g. bwt.rs:27, lyndonwords.rs:13, word.rs:13) *)
Fixpoint digits_max (max acc : N) (s : str) : option N :=
  match s with
  | [] => Some acc
  | c :: s' => if (48 <=? c) && (c <=? 57) then
      let acc' := (10 * acc + N.of_nat (c - 48))%N in if (acc' <=? max)%N then digits_max max acc' s' else None
    else None
  end.
(** usize::from_str / u64::from_str, used for the numeric fields of every [Args] (e.g. bwt.rs:25-27) *)
Definition from_str_unsigned (max : N) (s : str) : option N :=
  match s with
  | [] => None
  | c :: s' => if c =? 43 then match s' with [] => None | _ => digits_max max 0 s' end else digits_max max 0 s
  end.
(** i64::from_str followed by the range check 0..=255 (RangedI64ValueParser<u8>): a value below zero is refused (word.rs:13-14, escape.rs:33-44) *)
Definition parse_u8 (s : str) : option N :=
  match s with
  | 45 :: s' => match s' with [] => None | _ => match digits_max 9223372036854775808 0 s' with Some 0%N => Some 0%N | _ => None end end
  | _ => match from_str_unsigned 9223372036854775807 s with Some n => if (n <=? 255)%N then Some n else None | None => None end
  end.
(** the position of a name in a list of names; used for the ValueEnum of bin/word.rs:24-37 *)
Fixpoint index_of (s : str) (names : list str) (i : nat) : option nat :=
  match names with
  | [] => None
  | n :: names' => if list_eq_dec Nat.eq_dec s n then Some i else index_of s names' (S i)
  end.
(** clap's value_parser! for the field types String, usize, u64, u8 and WordName (bin/word.rs:24-37) *)
Definition parse_value (t : vtype) (s : str) : option value :=
  match t with
  | AnyString => Some (VStr s)
  | Usize | U64 => match from_str_unsigned 18446744073709551615 s with Some n => Some (VNum n) | None => None end
  | U8 => match parse_u8 s with Some n => Some (VNum n) | None => None end
  | OneOf names => match index_of s names 0 with Some i => Some (VName i) | None => None end
  end.
(** the value parser on each of the values of one occurrence (is_stringattractor.rs:158 num_args(1..)) *)
Fixpoint parse_values (t : vtype) (vs : list str) : option (list value) :=
  match vs with
  | [] => Some []
  | v :: vs' => match parse_value t v, parse_values t vs' with Some x, Some xs => Some (x :: xs) | _, _ => None end
  end.

(** ** the parser *)
(** the outcome of [Args::parse()] (first line of every main, e.g. bwt.rs:39): matches, a refusal, or help/version *)
Inductive pr (A : Type) := Go (a : A) | Refuse | Show.
Arguments Go {A} a. Arguments Refuse {A}. Arguments Show {A}.
(** sequencing in the parser (clap, called by Args::parse() in every main function, e.g. bwt.rs:39, word.rs:40) *)
Definition pbind {A B} (e : pr A) (f : A -> pr B) : pr B := match e with Go a => f a | Refuse => Refuse | Show => Show end.
Notation "x <== e ; f" := (pbind e (fun x => f)) (at level 61, e at next level, right associativity).
(** clap's ArgMatches: the values of each argument that occurred (clap, called by Args::parse() in every main function, e.g. bwt.rs:39, word.rs:40) *)
Definition matches := list (str * list value).
(** ArgMatches: the values of an argument (clap, called by Args::parse() in every main function, e.g. bwt.rs:39, word.rs:40) *)
Fixpoint lookup (m : matches) (id : str) : option (list value) :=
  match m with [] => None | (i, vs) :: m' => if list_eq_dec Nat.eq_dec i id then Some vs else lookup m' id end.
(** ArgMatcher::add_val_to: append values to an argument (clap, called by Args::parse() in every main function, e.g. bwt.rs:39, word.rs:40) *)
Fixpoint add_values (m : matches) (id : str) (vs : list value) : matches :=
  match m with [] => [(id, vs)] | (i, ws) :: m' => if list_eq_dec Nat.eq_dec i id then (i, ws ++ vs) :: m' else (i, ws) :: add_values m' id vs end.
(** Parser::react: the number of values is checked, then the action is performed; a Set or SetTrue argument that occurs
    again is refused (clap, called by Args::parse() in every main function, e.g. bwt.rs:39, word.rs:40) *)
Definition react (m : matches) (a : arg) (vs : list str) : pr matches :=
  match arg_action a with
  | Help | Version => Show
  | Switch => match lookup m (arg_id a) with Some _ => Refuse | None => Go (add_values m (arg_id a) []) end
  | Single | Listed =>
      if (length vs =? 0) || (negb (arg_many a) && negb (length vs =? 1)) then Refuse
      else match arg_action a, lookup m (arg_id a) with
      | Single, Some _ => Refuse
      | _, _ => match parse_values (arg_type a) vs with Some xs => Go (add_values m (arg_id a) xs) | None => Refuse end
      end
  end.
(** Parser::resolve_pending (clap, called by Args::parse() in every main function, e.g. bwt.rs:39, word.rs:40) *)
Definition resolve (m : matches) (pend : option (arg * list str)) : pr matches :=
  match pend with None => Go m | Some (a, vs) => react m a vs end.
(** clap's MKeyMap: the argument with a given letter (clap, called by Args::parse() in every main function, e.g. bwt.rs:39, word.rs:40) *)
Fixpoint by_short (opts : list arg) (c : nat) : option arg :=
  match opts with [] => None | a :: opts' => match arg_short a with Some s => if s =? c then Some a else by_short opts' c | None => by_short opts' c end end.
(** clap's MKeyMap: the argument with a given long name (clap, called by Args::parse() in every main function, e.g. bwt.rs:39, word.rs:40) *)
Fixpoint by_long (opts : list arg) (l : str) : option arg :=
  match opts with [] => None | a :: opts' => match arg_long a with Some s => if list_eq_dec Nat.eq_dec s l then Some a else by_long opts' l | None => by_long opts' l end end.
(** Parser::parse_opt_value (clap, called by Args::parse() in every main function, e.g. bwt.rs:39, word.rs:40) *)
Definition opt_value (m : matches) (pend : option (arg * list str)) (a : arg) (attached : option str) : pr (matches * option (arg * list str)) :=
  m' <== resolve m pend ;
  match attached with
  | Some v => m'' <== react m' a [v] ; Go (m'', None)
  | None => Go (m', Some (a, []))
  end.
(** Parser::parse_short_arg on the letters behind the hyphen (clap, called by Args::parse() in every main function, e.g. bwt.rs:39, word.rs:40) *)
Fixpoint shorts (opts : list arg) (cs : str) (m : matches) (pend : option (arg * list str)) : pr (matches * option (arg * list str)) :=
  match cs with
  | [] => Go (m, pend)
  | c :: rest =>
      match by_short opts c with
      | None => Refuse
      | Some a =>
          if takes_value a then
            opt_value m pend a (match rest with [] => None | 61 :: v => Some v | _ => Some rest end)
          else m' <== resolve m pend ; m'' <== react m' a [] ; shorts opts rest m'' None
      end
  end.
(** clap_lex: name and attached value of a long option (clap, called by Args::parse() in every main function, e.g. bwt.rs:39, word.rs:40) *)
Fixpoint split_eq (s : str) : str * option str :=
  match s with
  | [] => ([], None)
  | c :: s' => if c =? 61 then ([], Some s') else let '(n, v) := split_eq s' in (c :: n, v)
  end.
(** Parser::parse_long_arg (clap, called by Args::parse() in every main function, e.g. bwt.rs:39, word.rs:40) *)
Definition long (opts : list arg) (s : str) (m : matches) (pend : option (arg * list str)) : pr (matches * option (arg * list str)) :=
  let '(name, attached) := split_eq s in
  match by_long opts name with
  | None => Refuse
  | Some a =>
      if takes_value a then opt_value m pend a attached
      else match attached with
      | Some _ => Refuse
      | None => m' <== resolve m pend ; m'' <== react m' a [] ; Go (m'', None)
      end
  end.
(** Validator: the required arguments (clap, called by Args::parse() in every main function, e.g. bwt.rs:39, word.rs:40) *)
Definition required_present (args : list arg) (m : matches) : bool :=
  forallb (fun a => negb (arg_required a) || match lookup m (arg_id a) with Some _ => true | None => false end) args.
(** a command: options and positional arguments (clap, called by Args::parse() in every main function, e.g. bwt.rs:39, word.rs:40) *)
Record command := Command { options : list arg; positionals : list arg }.
(** Parser::get_matches_with; [trailing]: "--" has been read; [pos]: the positional arguments that are still free.
    An option with one value is complete after the next argument (ParseState::ValuesDone); its action is performed then
    (clap: when the next option or the end is reached, with the same outcome) (clap, called by Args::parse() in every main function, e.g. bwt.rs:39, word.rs:40) *)
Fixpoint parse_from (c : command) (ts : list str) (trailing : bool) (pos : list arg) (m : matches) (pend : option (arg * list str)) : pr matches :=
  let positional t ts' :=
    match pos with
    | [] => Refuse
    | a :: pos' => m' <== resolve m pend ; m'' <== react m' a [t] ; parse_from c ts' trailing pos' m'' None
    end in
  match ts with
  | [] => m' <== resolve m pend ; if required_present (options c ++ positionals c) m' then Go m' else Refuse
  | t :: ts' =>
      if trailing then positional t ts'
      else match t with
      | 45 :: 45 :: s =>
          match s with
          | [] => parse_from c ts' true pos m pend
          | _ => r <== long (options c) s m pend ; parse_from c ts' false pos (fst r) (snd r)
          end
      | 45 :: ((_ :: _) as cs) => r <== shorts (options c) cs m pend ; parse_from c ts' false pos (fst r) (snd r)
      | _ =>
          match pend with
          | Some (a, vs) =>
              if arg_many a then parse_from c ts' false pos m (Some (a, vs ++ [t]))
              else m' <== react m a (vs ++ [t]) ; parse_from c ts' false pos m' None
          | None => positional t ts'
          end
      end
  end.
(** [Args::parse()], the first line of every main (e.g. bwt.rs:39, count_z.rs:165) *)
Definition parse (c : command) (line : list str) : pr matches := parse_from c line false (positionals c) [] None.

(** ** what clap's derive generates *)
(** the flags clap adds to every command that has a version (behind the others) (clap, called by Args::parse() in every main function, e.g. bwt.rs:39, word.rs:40) *)
Definition help_arg : arg := Arg (lit "help") (Some 104) (Some (lit "help")) Help false AnyString false.
(** clap's version flag: #[command(author, version, ..)] in every bin (e.g. bwt.rs:15) *)
Definition version_arg : arg := Arg (lit "version") (Some 86) (Some (lit "version")) Version false AnyString false.
(** the options of a command with the two flags behind them (clap, called by Args::parse() in every main function, e.g. bwt.rs:39, word.rs:40) *)
Definition with_auto (opts : list arg) : list arg := opts ++ [help_arg; version_arg].
(** #[arg(short, long)] field: Option<String>; the letter is the first of the name (e.g. bwt.rs:19, 23; reverse.rs:17, 21) *)
Definition opt_string (id : String.string) (s : nat) (l : String.string) : arg := Arg (lit id) (Some s) (Some (lit l)) Single false AnyString false.
(** #[arg(short, long, default_value_t = ...)] field: usize (e.g. bwt.rs:27, mus.rs:22) *)
Definition opt_usize (id : String.string) (s : nat) (l : String.string) : arg := Arg (lit id) (Some s) (Some (lit l)) Single false Usize false.
(** #[arg(short, long)] field: bool; the underscores of the name become hyphens in the long name (e.g. bwt.rs:31, 35; rle.rs:118, 122; escape.rs:47) *)
Definition opt_bool (id : String.string) (s : option nat) (l : String.string) : arg := Arg (lit id) s (Some (lit l)) Switch false AnyString false.
Arguments opt_string id%string s l%string.
Arguments opt_usize id%string s l%string.
Arguments opt_bool id%string s l%string.
(** the field infilename, the same in all bins that have it (e.g. bwt.rs:17-19) *)
Definition infilename := opt_string "infilename" 105 "infilename".
(** the field outfilename (e.g. bwt.rs:21-23) *)
Definition outfilename := opt_string "outfilename" 111 "outfilename".
(** the field prefixlength with default 0 (e.g. bwt.rs:25-27) *)
Definition prefixlength := opt_usize "prefixlength" 112 "prefixlength".
(** bwt.rs:29-31, count_r.rs:25-27 *)
Definition use_matrix := opt_bool "use_matrix" (Some 117) "use-matrix".
(** bwt.rs:33-35, count_r.rs:29-31 *)
Definition no_dollar := opt_bool "no_dollar" (Some 110) "no-dollar".
(** entropy.rs:155-157, entropy_kmer.rs:138-140 *)
Definition order := opt_usize "order" 111 "order".

(** bwt.rs:14-36 *)
Definition bwt_cmd := Command (with_auto [infilename; outfilename; prefixlength; use_matrix; no_dollar]) [].
(** count_lexparse.rs:47-61 *)
Definition count_lexparse_cmd := Command (with_auto [infilename; outfilename; prefixlength]) [].
(** count_r.rs:14-32 *)
Definition count_r_cmd := Command (with_auto [infilename; prefixlength; use_matrix; no_dollar]) [].
(** count_runs.rs:12-18 *)
Definition count_runs_cmd := Command (with_auto [infilename]) [].
(** count_sigma.rs:35-45 *)
Definition count_sigma_cmd := Command (with_auto [infilename; prefixlength]) [].
(** count_z.rs:148-162 *)
Definition count_z_cmd := Command (with_auto [infilename; prefixlength; outfilename]) [].
(** entropy.rs:144-158 *)
Definition entropy_cmd := Command (with_auto [infilename; prefixlength; order]) [].
(** entropy_kmer.rs:127-141 *)
Definition entropy_kmer_cmd := Command (with_auto [infilename; prefixlength; order]) [].
(** enumerate.rs:42-62 *)
Definition alphabet_size_pos := Arg (lit "alphabet_size") None None Single false Usize true.
(** enumerate.rs:51-56 *)
Definition min_len_pos := Arg (lit "min_len") None None Single false Usize true.
(** enumerate.rs:57-62 *)
Definition max_len_pos := Arg (lit "max_len") None None Single false Usize false.
(** enumerate.rs:42-63 *)
Definition enumerate_cmd := Command (with_auto []) [alphabet_size_pos; min_len_pos; max_len_pos].
(** escape.rs:18-48 *)
Definition escape_symbol := Arg (lit "escape_symbol") (Some 101) (Some (lit "escape-symbol")) Single false U8 false.
(** escape.rs:37-39 *)
Definition from_symbols := Arg (lit "from_symbols") (Some 102) (Some (lit "from-symbols")) Listed false U8 false.
(** escape.rs:41-43 *)
Definition to_symbols := Arg (lit "to_symbols") (Some 116) (Some (lit "to-symbols")) Listed false U8 false.
(** escape.rs:45-47 *)
Definition is_reversion := opt_bool "is_reversion" None "is-reversion".
(** escape.rs:18-48 *)
Definition escape_cmd := Command (with_auto [infilename; outfilename; prefixlength; escape_symbol; from_symbols; to_symbols; is_reversion]) [].
(** is_stringattractor.rs:143-160 *)
Definition attractor := Arg (lit "attractor") (Some 97) (Some (lit "attractor")) Listed true U64 false.
(** is_stringattractor.rs:143-160 *)
Definition is_stringattractor_cmd := Command (with_auto [infilename; prefixlength; attractor]) [].
(** lyndonfactorization.rs:15-29 *)
Definition lyndonfactorization_cmd := Command (with_auto [infilename; outfilename; prefixlength]) [].
(** lyndonwords.rs:8-22 *)
Definition length_opt := Arg (lit "length") (Some 108) None Single false Usize false.
(** lyndonwords.rs:15-17 *)
Definition sigma_opt := Arg (lit "sigma") (Some 115) None Single false Usize false.
(** lyndonwords.rs:8-22 *)
Definition lyndonwords_cmd := Command (with_auto [length_opt; sigma_opt; outfilename]) [].
(** mtf.rs:55-65 *)
Definition mtf_cmd := Command (with_auto [infilename; outfilename]) [].
(** mus.rs:13-23 *)
Definition mus_cmd := Command (with_auto [infilename; prefixlength]) [].
(** randomstring.rs:11-25 *)
Definition alphabet_size := Arg (lit "alphabet_size") (Some 97) (Some (lit "alphabet-size")) Single false Usize true.
(** randomstring.rs:11-25 *)
Definition randomstring_cmd := Command (with_auto [outfilename; alphabet_size; prefixlength]) [].
(** reverse.rs:12-26 *)
Definition reverse_cmd := Command (with_auto [infilename; outfilename; prefixlength]) [].
(** rle.rs:105-123 *)
Definition onlyzero := opt_bool "onlyzero" (Some 111) "onlyzero".
(** rle.rs:120-122 *)
Definition human := opt_bool "human" (Some 104) "human".
(** rle.rs:105-123 *)
Definition rle_cmd := Command (with_auto [infilename; outfilename; onlyzero; human]) [].
(** word.rs (bin) 9-37; the value names are the variants of WordName in kebab case *)
Definition word_names : list str := [lit "fibonacci"; lit "fibonacci-lyndon-factor"; lit "tribonacci"; lit "kolakoski"; lit "thue-morse";
  lit "period-doubling"; lit "paper-folding"; lit "quaternary-paper-folding"; lit "binary-de-brujin"; lit "power2"; lit "vtm"].
(** bin/word.rs:24-37 *)
Definition word_variants : list word_name := [Fibonacci; FibonacciLyndonFactor; Tribonacci; Kolakoski; ThueMorse; PeriodDoubling;
  PaperFolding; QuaternaryPaperFolding; BinaryDeBrujin; Power2; Vtm].
(** bin/word.rs:12-14 *)
Definition k_opt := Arg (lit "k") (Some 107) None Single false U8 true.
(** bin/word.rs:16-17 *)
Definition name_opt := Arg (lit "name") (Some 110) (Some (lit "name")) Single false (OneOf word_names) true.
(** bin/word.rs:9-22 *)
Definition word_cmd := Command (with_auto [k_opt; name_opt; outfilename]) [].

(** clap's debug assertion (builder/debug_asserts.rs) that no two options share a name; it runs in builds with debug
    assertions before the command line is read *)
Fixpoint distinct_by {A} (eqb : A -> A -> bool) (l : list A) : bool :=
  match l with [] => true | x :: l' => negb (existsb (eqb x) l') && distinct_by eqb l' end.
(** the entries of a list of options that are present (clap, called by Args::parse() in every main function, e.g. bwt.rs:39, word.rs:40) *)
Definition keep {A} (l : list (option A)) : list A := flat_map (fun o => match o with Some x => [x] | None => [] end) l.
(** equality of names (clap, called by Args::parse() in every main function, e.g. bwt.rs:39, word.rs:40) *)
Definition str_eqb (u v : str) : bool := if list_eq_dec Nat.eq_dec u v then true else false.
(** clap's debug assertions on a command (run by [Args::parse()], e.g. rle.rs:126) *)
Definition names_distinct (c : command) : bool :=
  distinct_by Nat.eqb (keep (map arg_short (options c))) && distinct_by str_eqb (keep (map arg_long (options c))) &&
  distinct_by str_eqb (map arg_id (options c ++ positionals c)).
(** [Args::parse()] in a build with debug assertions (clap, called by Args::parse() in every main function, e.g. bwt.rs:39, word.rs:40) *)
Definition parse_debug (c : command) (line : list str) : res (pr matches) := assert_ (names_distinct c) ;;; Ok (parse c line).

(** ** the values the programs use *)
(** Option<String> (e.g. bwt.rs:19, 23) *)
Definition arg_string (m : matches) (a : arg) : option str := match lookup m (arg_id a) with Some (VStr s :: _) => Some s | _ => None end.
(** an integer with a default (e.g. bwt.rs:27, entropy.rs:157) *)
Definition arg_num (m : matches) (a : arg) (d : nat) : nat := match lookup m (arg_id a) with Some (VNum n :: _) => N.to_nat n | _ => d end.
(** an optional integer (enumerate.rs:58-70) *)
Definition arg_num_opt (m : matches) (a : arg) : option nat := match lookup m (arg_id a) with Some (VNum n :: _) => Some (N.to_nat n) | _ => None end.
(** bool (e.g. bwt.rs:31, 35) *)
Definition arg_bool (m : matches) (a : arg) : bool := match lookup m (arg_id a) with Some _ => true | None => false end.
(** Vec of integers (escape.rs:33-44) *)
Definition arg_nums (m : matches) (a : arg) : list nat :=
  match lookup m (arg_id a) with Some vs => map (fun v => match v with VNum n => N.to_nat n | _ => 0 end) vs | None => [] end.
(** WordName (word.rs:17) *)
Definition arg_word (m : matches) (a : arg) : word_name := match lookup m (arg_id a) with Some (VName i :: _) => nth i word_variants Fibonacci | _ => Fibonacci end.
