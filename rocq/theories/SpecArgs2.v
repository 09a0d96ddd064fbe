(** SpecArgs2.v : the options of the programs, as their --help texts list them (no model functions). The first component is
    only the key under which a use is counted. *)
From Verif Require Import Base SpecStr SpecIo SpecMain SpecArgs.
From Coq Require Import NArith.
From Coq Require String Ascii.
Import String.StringSyntax.
Delimit Scope string_scope with string.

Definition letter (s : String.string) : option nat := match ascii s with [] => None | c :: _ => Some c end.
Definition named (s : String.string) : option str := match ascii s with [] => None | l => Some l end.
(** -s/--long with a string, a number of at most 64 bits, a byte, a switch *)
Definition o_string (key s l : String.string) : arg := Arg (ascii key) (letter s) (named l) Single false AnyString false.
Definition o_number (key s l : String.string) : arg := Arg (ascii key) (letter s) (named l) Single false Usize false.
Definition o_switch (key s l : String.string) : arg := Arg (ascii key) (letter s) (named l) Switch false AnyString false.
Arguments letter s%string. Arguments named s%string.
Arguments o_string (key s l)%string. Arguments o_number (key s l)%string. Arguments o_switch (key s l)%string.

Definition o_in := o_string "infilename" "i" "infilename".
Definition o_out := o_string "outfilename" "o" "outfilename".
Definition o_prefix := o_number "prefixlength" "p" "prefixlength".
Definition o_matrix := o_switch "use_matrix" "u" "use-matrix".
Definition o_nodollar := o_switch "no_dollar" "n" "no-dollar".
Definition o_order := o_number "order" "o" "order".
Definition o_help := Arg (ascii "help") (letter "h") (named "help") Help false AnyString false.
Definition o_version := Arg (ascii "version") (letter "V") (named "version") Version false AnyString false.
Definition o_escape := Arg (ascii "escape_symbol") (letter "e") (named "escape-symbol") Single false U8 false.
Definition o_from := Arg (ascii "from_symbols") (letter "f") (named "from-symbols") Listed false U8 false.
Definition o_to := Arg (ascii "to_symbols") (letter "t") (named "to-symbols") Listed false U8 false.
Definition o_reversion := o_switch "is_reversion" "" "is-reversion".
Definition o_attractor := Arg (ascii "attractor") (letter "a") (named "attractor") Listed true U64 false.
Definition o_length := o_number "length" "l" "".
Definition o_sigma := o_number "sigma" "s" "".
Definition o_alphabet := Arg (ascii "alphabet_size") (letter "a") (named "alphabet-size") Single false Usize true.
Definition the_names : list str := [ascii "fibonacci"; ascii "fibonacci-lyndon-factor"; ascii "tribonacci"; ascii "kolakoski"; ascii "thue-morse";
  ascii "period-doubling"; ascii "paper-folding"; ascii "quaternary-paper-folding"; ascii "binary-de-brujin"; ascii "power2"; ascii "vtm"].
Definition o_k := Arg (ascii "k") (letter "k") None Single false U8 true.
Definition o_name := Arg (ascii "name") (letter "n") (named "name") Single false (OneOf the_names) true.
Definition o_onlyzero := o_switch "onlyzero" "o" "onlyzero".
Definition o_human := o_switch "human" "h" "human".

Definition bwt_options := [o_in; o_out; o_prefix; o_matrix; o_nodollar; o_help; o_version].
Definition count_lexparse_options := [o_in; o_out; o_prefix; o_help; o_version].
Definition count_r_options := [o_in; o_prefix; o_matrix; o_nodollar; o_help; o_version].
Definition count_runs_options := [o_in; o_help; o_version].
Definition count_sigma_options := [o_in; o_prefix; o_help; o_version].
Definition count_z_options := [o_in; o_prefix; o_out; o_help; o_version].
Definition entropy_options := [o_in; o_prefix; o_order; o_help; o_version].
Definition escape_options := [o_in; o_out; o_prefix; o_escape; o_from; o_to; o_reversion; o_help; o_version].
Definition is_stringattractor_options := [o_in; o_prefix; o_attractor; o_help; o_version].
Definition lyndonfactorization_options := [o_in; o_out; o_prefix; o_help; o_version].
Definition lyndonwords_options := [o_length; o_sigma; o_out; o_help; o_version].
Definition mtf_options := [o_in; o_out; o_help; o_version].
Definition mus_options := [o_in; o_prefix; o_help; o_version].
Definition randomstring_options := [o_out; o_alphabet; o_prefix; o_help; o_version].
Definition reverse_options := [o_in; o_out; o_prefix; o_help; o_version].
Definition word_options := [o_k; o_name; o_out; o_help; o_version].
(** rle: the letters that are declared twice name the option declared first *)
Definition rle_options := [o_in; o_out; o_switch "onlyzero" "" "onlyzero"; o_human;
  Arg (ascii "help") None (named "help") Help false AnyString false; o_version].

(** the line is a correct use of the options *)
Definition good (opts : list arg) (us : list use) (line : list str) : Prop := command_line opts us line /\ allowed opts us.
(** neither runs nor touches anything *)
Definition declined {A} (r : command_result A) : Prop := r = Usage \/ r = Shown.
