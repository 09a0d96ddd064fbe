(** PropsArgs2.v : C112. What the programs do with their command lines. *)
From Verif Require Import Base SpecStr SpecIo SpecWord SpecMain SpecArgs SpecArgs2 SpecFs ModelIo ModelCore ModelTools ModelLz ModelMain ModelEntropy ModelResult ModelAttr ModelRelease ModelFs ModelFs2 ModelFs3
  ModelArgs ModelArgs2 ArgsProof ArgsProof2 ArgsProof3 ArgsProof4 ArgsProof5 ArgsProof6 FsProof FsProof2 FsProofRle RunFacts PropsArgs PropsRelease.
From Coq Require Import NArith.

Lemma program_given c opts : In (c, opts) the_programs -> forall us line, good opts us line -> exists m, parse c line = Go m /\
  (forall a, In a opts -> type_ok (arg_type a)) /\ forall a, In a opts ->
    (uses_of us a = [] -> lookup m (arg_id a) = None) /\ (uses_of us a <> [] -> exists vals, values_of us a vals /\ lookup m (arg_id a) = Some vals).
Proof.
  intros H us line G. destruct (C111_values c opts H us line G) as (m & E & V). exists m. split; [exact E|]. split; [|exact V].
  destruct (program_ok c opts H) as (_ & _ & N). exact (names_types _ N).
Qed.
Lemma program_declined {A} c opts line (body : matches -> A) : In (c, opts) the_programs -> (forall us, ~ good opts us line) -> declined (on_args c line body).
Proof.
  intros H N. unfold on_args. destruct (parse c line) as [m| |] eqn:E; [|now left|now right]. destruct (proj1 (C111_accepted c opts H line) (ex_intro _ m E)) as (us & G). exfalso. now apply (N us).
Qed.
Ltac find_in := repeat (first [left; reflexivity | right]).

(** C112. For each program: a correct use of the options runs the program with exactly the values given there (or the
    defaults), and any other command line runs nothing. *)
Theorem C112_bwt : forall sort file_of line,
  (forall us, good bwt_options us line -> exists p mx nd i o, sets_number us o_prefix 0 p /\ sets_switch us o_matrix mx /\ sets_switch us o_nodollar nd /\ sets_string us o_in i /\ sets_string us o_out o /\
     bwt_program sort file_of line = Ran (bwt_io sort p mx nd (option_map file_of i) (option_map file_of o))) /\
  ((forall us, ~ good bwt_options us line) -> declined (bwt_program sort file_of line)).
Proof.
  intros sort file_of line. assert (IN : In (bwt_cmd, bwt_options) the_programs) by find_in.
  split; [intros us G|intros N; exact (program_declined bwt_cmd bwt_options line _ IN N)].
  destruct (program_given bwt_cmd bwt_options IN us line G) as (m & E & TY & V). destruct (program_ok bwt_cmd bwt_options IN) as (_ & _ & (ND & _)).
  destruct (has_number bwt_options us line ND G o_prefix 0) as (p & Hp); [find_in|reflexivity|reflexivity|cbn; tauto|]. pose proof (got_number bwt_options us m TY V o_prefix 0 p ltac:(find_in) Hp) as Ep.
  destruct (has_switch us o_matrix) as (mx & Hmx). pose proof (got_switch bwt_options us m V o_matrix mx ltac:(find_in) Hmx) as Emx.
  destruct (has_switch us o_nodollar) as (nd & Hnd). pose proof (got_switch bwt_options us m V o_nodollar nd ltac:(find_in) Hnd) as End.
  destruct (has_string bwt_options us line ND G o_in) as (i & Hi); [find_in|reflexivity|reflexivity|]. pose proof (got_string bwt_options us m V o_in i ltac:(find_in) eq_refl Hi) as Ei.
  destruct (has_string bwt_options us line ND G o_out) as (o & Ho); [find_in|reflexivity|reflexivity|]. pose proof (got_string bwt_options us m V o_out o ltac:(find_in) eq_refl Ho) as Eo.
  exists p, mx, nd, i, o. split; [exact Hp|]. split; [exact Hmx|]. split; [exact Hnd|]. split; [exact Hi|]. split; [exact Ho|]. unfold bwt_program, on_args, arg_file. rewrite E.
  change (arg_num m o_prefix 0 = p) with (arg_num m prefixlength 0 = p) in Ep. rewrite Ep.
  change (arg_bool m o_matrix = mx) with (arg_bool m use_matrix = mx) in Emx. rewrite Emx.
  change (arg_bool m o_nodollar = nd) with (arg_bool m no_dollar = nd) in End. rewrite End.
  change (arg_string m o_in = i) with (arg_string m infilename = i) in Ei. rewrite Ei.
  change (arg_string m o_out = o) with (arg_string m outfilename = o) in Eo. rewrite Eo.
  reflexivity.
Qed.
Print Assumptions C112_bwt.
Theorem C112_count_lexparse : forall sort file_of line,
  (forall us, good count_lexparse_options us line -> exists p i o, sets_number us o_prefix 0 p /\ sets_string us o_in i /\ sets_string us o_out o /\
     count_lexparse_program sort file_of line = Ran (count_lexparse_io sort p (option_map file_of i) (option_map file_of o))) /\
  ((forall us, ~ good count_lexparse_options us line) -> declined (count_lexparse_program sort file_of line)).
Proof.
  intros sort file_of line. assert (IN : In (count_lexparse_cmd, count_lexparse_options) the_programs) by find_in.
  split; [intros us G|intros N; exact (program_declined count_lexparse_cmd count_lexparse_options line _ IN N)].
  destruct (program_given count_lexparse_cmd count_lexparse_options IN us line G) as (m & E & TY & V). destruct (program_ok count_lexparse_cmd count_lexparse_options IN) as (_ & _ & (ND & _)).
  destruct (has_number count_lexparse_options us line ND G o_prefix 0) as (p & Hp); [find_in|reflexivity|reflexivity|cbn; tauto|]. pose proof (got_number count_lexparse_options us m TY V o_prefix 0 p ltac:(find_in) Hp) as Ep.
  destruct (has_string count_lexparse_options us line ND G o_in) as (i & Hi); [find_in|reflexivity|reflexivity|]. pose proof (got_string count_lexparse_options us m V o_in i ltac:(find_in) eq_refl Hi) as Ei.
  destruct (has_string count_lexparse_options us line ND G o_out) as (o & Ho); [find_in|reflexivity|reflexivity|]. pose proof (got_string count_lexparse_options us m V o_out o ltac:(find_in) eq_refl Ho) as Eo.
  exists p, i, o. split; [exact Hp|]. split; [exact Hi|]. split; [exact Ho|]. unfold count_lexparse_program, on_args, arg_file. rewrite E.
  change (arg_num m o_prefix 0 = p) with (arg_num m prefixlength 0 = p) in Ep. rewrite Ep.
  change (arg_string m o_in = i) with (arg_string m infilename = i) in Ei. rewrite Ei.
  change (arg_string m o_out = o) with (arg_string m outfilename = o) in Eo. rewrite Eo.
  reflexivity.
Qed.
Print Assumptions C112_count_lexparse.
Theorem C112_count_z : forall sort file_of line,
  (forall us, good count_z_options us line -> exists p i o, sets_number us o_prefix 0 p /\ sets_string us o_in i /\ sets_string us o_out o /\
     count_z_program sort file_of line = Ran (count_z_io sort p (option_map file_of i) (option_map file_of o))) /\
  ((forall us, ~ good count_z_options us line) -> declined (count_z_program sort file_of line)).
Proof.
  intros sort file_of line. assert (IN : In (count_z_cmd, count_z_options) the_programs) by find_in.
  split; [intros us G|intros N; exact (program_declined count_z_cmd count_z_options line _ IN N)].
  destruct (program_given count_z_cmd count_z_options IN us line G) as (m & E & TY & V). destruct (program_ok count_z_cmd count_z_options IN) as (_ & _ & (ND & _)).
  destruct (has_number count_z_options us line ND G o_prefix 0) as (p & Hp); [find_in|reflexivity|reflexivity|cbn; tauto|]. pose proof (got_number count_z_options us m TY V o_prefix 0 p ltac:(find_in) Hp) as Ep.
  destruct (has_string count_z_options us line ND G o_in) as (i & Hi); [find_in|reflexivity|reflexivity|]. pose proof (got_string count_z_options us m V o_in i ltac:(find_in) eq_refl Hi) as Ei.
  destruct (has_string count_z_options us line ND G o_out) as (o & Ho); [find_in|reflexivity|reflexivity|]. pose proof (got_string count_z_options us m V o_out o ltac:(find_in) eq_refl Ho) as Eo.
  exists p, i, o. split; [exact Hp|]. split; [exact Hi|]. split; [exact Ho|]. unfold count_z_program, on_args, arg_file. rewrite E.
  change (arg_num m o_prefix 0 = p) with (arg_num m prefixlength 0 = p) in Ep. rewrite Ep.
  change (arg_string m o_in = i) with (arg_string m infilename = i) in Ei. rewrite Ei.
  change (arg_string m o_out = o) with (arg_string m outfilename = o) in Eo. rewrite Eo.
  reflexivity.
Qed.
Print Assumptions C112_count_z.
Theorem C112_escape : forall file_of line,
  (forall us, good escape_options us line -> exists p e from to rv i o, sets_number us o_prefix 0 p /\ sets_number us o_escape 0 e /\ sets_numbers us o_from from /\ sets_numbers us o_to to /\ sets_switch us o_reversion rv /\ sets_string us o_in i /\ sets_string us o_out o /\
     escape_program file_of line = Ran (escape_io p e from to rv (option_map file_of i) (option_map file_of o))) /\
  ((forall us, ~ good escape_options us line) -> declined (escape_program file_of line)).
Proof.
  intros file_of line. assert (IN : In (escape_cmd, escape_options) the_programs) by find_in.
  split; [intros us G|intros N; exact (program_declined escape_cmd escape_options line _ IN N)].
  destruct (program_given escape_cmd escape_options IN us line G) as (m & E & TY & V). destruct (program_ok escape_cmd escape_options IN) as (_ & _ & (ND & _)).
  destruct (has_number escape_options us line ND G o_prefix 0) as (p & Hp); [find_in|reflexivity|reflexivity|cbn; tauto|]. pose proof (got_number escape_options us m TY V o_prefix 0 p ltac:(find_in) Hp) as Ep.
  destruct (has_number escape_options us line ND G o_escape 0) as (e & He); [find_in|reflexivity|reflexivity|cbn; tauto|]. pose proof (got_number escape_options us m TY V o_escape 0 e ltac:(find_in) He) as Ee.
  destruct (has_numbers escape_options us line ND G o_from) as (from & Hfrom); [find_in|cbn; tauto|]. pose proof (got_numbers escape_options us m TY V o_from from ltac:(find_in) Hfrom) as Efrom.
  destruct (has_numbers escape_options us line ND G o_to) as (to & Hto); [find_in|cbn; tauto|]. pose proof (got_numbers escape_options us m TY V o_to to ltac:(find_in) Hto) as Eto.
  destruct (has_switch us o_reversion) as (rv & Hrv). pose proof (got_switch escape_options us m V o_reversion rv ltac:(find_in) Hrv) as Erv.
  destruct (has_string escape_options us line ND G o_in) as (i & Hi); [find_in|reflexivity|reflexivity|]. pose proof (got_string escape_options us m V o_in i ltac:(find_in) eq_refl Hi) as Ei.
  destruct (has_string escape_options us line ND G o_out) as (o & Ho); [find_in|reflexivity|reflexivity|]. pose proof (got_string escape_options us m V o_out o ltac:(find_in) eq_refl Ho) as Eo.
  exists p, e, from, to, rv, i, o. split; [exact Hp|]. split; [exact He|]. split; [exact Hfrom|]. split; [exact Hto|]. split; [exact Hrv|]. split; [exact Hi|]. split; [exact Ho|]. unfold escape_program, on_args, arg_file. rewrite E.
  change (arg_num m o_prefix 0 = p) with (arg_num m prefixlength 0 = p) in Ep. rewrite Ep.
  change (arg_num m o_escape 0 = e) with (arg_num m escape_symbol 0 = e) in Ee. rewrite Ee.
  change (arg_nums m o_from = from) with (arg_nums m from_symbols = from) in Efrom. rewrite Efrom.
  change (arg_nums m o_to = to) with (arg_nums m to_symbols = to) in Eto. rewrite Eto.
  change (arg_bool m o_reversion = rv) with (arg_bool m is_reversion = rv) in Erv. rewrite Erv.
  change (arg_string m o_in = i) with (arg_string m infilename = i) in Ei. rewrite Ei.
  change (arg_string m o_out = o) with (arg_string m outfilename = o) in Eo. rewrite Eo.
  reflexivity.
Qed.
Print Assumptions C112_escape.
Theorem C112_lyndonfactorization : forall file_of line,
  (forall us, good lyndonfactorization_options us line -> exists p i o, sets_number us o_prefix 0 p /\ sets_string us o_in i /\ sets_string us o_out o /\
     lyndonfactorization_program file_of line = Ran (lyndonfactorization_io p (option_map file_of i) (option_map file_of o))) /\
  ((forall us, ~ good lyndonfactorization_options us line) -> declined (lyndonfactorization_program file_of line)).
Proof.
  intros file_of line. assert (IN : In (lyndonfactorization_cmd, lyndonfactorization_options) the_programs) by find_in.
  split; [intros us G|intros N; exact (program_declined lyndonfactorization_cmd lyndonfactorization_options line _ IN N)].
  destruct (program_given lyndonfactorization_cmd lyndonfactorization_options IN us line G) as (m & E & TY & V). destruct (program_ok lyndonfactorization_cmd lyndonfactorization_options IN) as (_ & _ & (ND & _)).
  destruct (has_number lyndonfactorization_options us line ND G o_prefix 0) as (p & Hp); [find_in|reflexivity|reflexivity|cbn; tauto|]. pose proof (got_number lyndonfactorization_options us m TY V o_prefix 0 p ltac:(find_in) Hp) as Ep.
  destruct (has_string lyndonfactorization_options us line ND G o_in) as (i & Hi); [find_in|reflexivity|reflexivity|]. pose proof (got_string lyndonfactorization_options us m V o_in i ltac:(find_in) eq_refl Hi) as Ei.
  destruct (has_string lyndonfactorization_options us line ND G o_out) as (o & Ho); [find_in|reflexivity|reflexivity|]. pose proof (got_string lyndonfactorization_options us m V o_out o ltac:(find_in) eq_refl Ho) as Eo.
  exists p, i, o. split; [exact Hp|]. split; [exact Hi|]. split; [exact Ho|]. unfold lyndonfactorization_program, on_args, arg_file. rewrite E.
  change (arg_num m o_prefix 0 = p) with (arg_num m prefixlength 0 = p) in Ep. rewrite Ep.
  change (arg_string m o_in = i) with (arg_string m infilename = i) in Ei. rewrite Ei.
  change (arg_string m o_out = o) with (arg_string m outfilename = o) in Eo. rewrite Eo.
  reflexivity.
Qed.
Print Assumptions C112_lyndonfactorization.
Theorem C112_lyndonwords : forall fuel file_of line,
  (forall us, good lyndonwords_options us line -> exists n s o, sets_number us o_length 5 n /\ sets_number us o_sigma 2 s /\ sets_string us o_out o /\
     lyndonwords_program fuel file_of line = Ran (lyndonwords_io fuel n s (option_map file_of o))) /\
  ((forall us, ~ good lyndonwords_options us line) -> declined (lyndonwords_program fuel file_of line)).
Proof.
  intros fuel file_of line. assert (IN : In (lyndonwords_cmd, lyndonwords_options) the_programs) by find_in.
  split; [intros us G|intros N; exact (program_declined lyndonwords_cmd lyndonwords_options line _ IN N)].
  destruct (program_given lyndonwords_cmd lyndonwords_options IN us line G) as (m & E & TY & V). destruct (program_ok lyndonwords_cmd lyndonwords_options IN) as (_ & _ & (ND & _)).
  destruct (has_number lyndonwords_options us line ND G o_length 5) as (n & Hn); [find_in|reflexivity|reflexivity|cbn; tauto|]. pose proof (got_number lyndonwords_options us m TY V o_length 5 n ltac:(find_in) Hn) as En.
  destruct (has_number lyndonwords_options us line ND G o_sigma 2) as (s & Hs); [find_in|reflexivity|reflexivity|cbn; tauto|]. pose proof (got_number lyndonwords_options us m TY V o_sigma 2 s ltac:(find_in) Hs) as Es.
  destruct (has_string lyndonwords_options us line ND G o_out) as (o & Ho); [find_in|reflexivity|reflexivity|]. pose proof (got_string lyndonwords_options us m V o_out o ltac:(find_in) eq_refl Ho) as Eo.
  exists n, s, o. split; [exact Hn|]. split; [exact Hs|]. split; [exact Ho|]. unfold lyndonwords_program, on_args, arg_file. rewrite E.
  change (arg_num m o_length 5 = n) with (arg_num m length_opt 5 = n) in En. rewrite En.
  change (arg_num m o_sigma 2 = s) with (arg_num m sigma_opt 2 = s) in Es. rewrite Es.
  change (arg_string m o_out = o) with (arg_string m outfilename = o) in Eo. rewrite Eo.
  reflexivity.
Qed.
Print Assumptions C112_lyndonwords.
Theorem C112_mtf : forall fuel file_of line,
  (forall us, good mtf_options us line -> exists i o, sets_string us o_in i /\ sets_string us o_out o /\
     mtf_program fuel file_of line = Ran (mtf_io fuel (option_map file_of i) (option_map file_of o))) /\
  ((forall us, ~ good mtf_options us line) -> declined (mtf_program fuel file_of line)).
Proof.
  intros fuel file_of line. assert (IN : In (mtf_cmd, mtf_options) the_programs) by find_in.
  split; [intros us G|intros N; exact (program_declined mtf_cmd mtf_options line _ IN N)].
  destruct (program_given mtf_cmd mtf_options IN us line G) as (m & E & TY & V). destruct (program_ok mtf_cmd mtf_options IN) as (_ & _ & (ND & _)).
  destruct (has_string mtf_options us line ND G o_in) as (i & Hi); [find_in|reflexivity|reflexivity|]. pose proof (got_string mtf_options us m V o_in i ltac:(find_in) eq_refl Hi) as Ei.
  destruct (has_string mtf_options us line ND G o_out) as (o & Ho); [find_in|reflexivity|reflexivity|]. pose proof (got_string mtf_options us m V o_out o ltac:(find_in) eq_refl Ho) as Eo.
  exists i, o. split; [exact Hi|]. split; [exact Ho|]. unfold mtf_program, on_args, arg_file. rewrite E.
  change (arg_string m o_in = i) with (arg_string m infilename = i) in Ei. rewrite Ei.
  change (arg_string m o_out = o) with (arg_string m outfilename = o) in Eo. rewrite Eo.
  reflexivity.
Qed.
Print Assumptions C112_mtf.
Theorem C112_randomstring : forall fuel rng file_of line,
  (forall us, good randomstring_options us line -> exists a p o, sets_number us o_alphabet 0 a /\ used us o_alphabet /\ sets_number us o_prefix 10 p /\ sets_string us o_out o /\
     randomstring_program fuel rng file_of line = Ran (randomstring_io fuel a p rng (option_map file_of o))) /\
  ((forall us, ~ good randomstring_options us line) -> declined (randomstring_program fuel rng file_of line)).
Proof.
  intros fuel rng file_of line. assert (IN : In (randomstring_cmd, randomstring_options) the_programs) by find_in.
  split; [intros us G|intros N; exact (program_declined randomstring_cmd randomstring_options line _ IN N)].
  destruct (program_given randomstring_cmd randomstring_options IN us line G) as (m & E & TY & V). destruct (program_ok randomstring_cmd randomstring_options IN) as (_ & _ & (ND & _)).
  destruct (has_required randomstring_options us line ND G o_alphabet 0) as (sa & ka & Ua & _ & Ha); [find_in|reflexivity|reflexivity|reflexivity|cbn; tauto|]. set (a := N.to_nat ka) in *. assert (Wa : used us o_alphabet) by (unfold used; rewrite Ua; discriminate). pose proof (got_number randomstring_options us m TY V o_alphabet 0 a ltac:(find_in) Ha) as Ea.
  destruct (has_number randomstring_options us line ND G o_prefix 10) as (p & Hp); [find_in|reflexivity|reflexivity|cbn; tauto|]. pose proof (got_number randomstring_options us m TY V o_prefix 10 p ltac:(find_in) Hp) as Ep.
  destruct (has_string randomstring_options us line ND G o_out) as (o & Ho); [find_in|reflexivity|reflexivity|]. pose proof (got_string randomstring_options us m V o_out o ltac:(find_in) eq_refl Ho) as Eo.
  exists a, p, o. split; [exact Ha|]. split; [exact Wa|]. split; [exact Hp|]. split; [exact Ho|]. unfold randomstring_program, on_args, arg_file. rewrite E.
  change (arg_num m o_alphabet 0 = a) with (arg_num m alphabet_size 0 = a) in Ea. rewrite Ea.
  change (arg_num m o_prefix 10 = p) with (arg_num m prefixlength 10 = p) in Ep. rewrite Ep.
  change (arg_string m o_out = o) with (arg_string m outfilename = o) in Eo. rewrite Eo.
  reflexivity.
Qed.
Print Assumptions C112_randomstring.
Theorem C112_reverse : forall file_of line,
  (forall us, good reverse_options us line -> exists p i o, sets_number us o_prefix 0 p /\ sets_string us o_in i /\ sets_string us o_out o /\
     reverse_program file_of line = Ran (reverse_io p (option_map file_of i) (option_map file_of o))) /\
  ((forall us, ~ good reverse_options us line) -> declined (reverse_program file_of line)).
Proof.
  intros file_of line. assert (IN : In (reverse_cmd, reverse_options) the_programs) by find_in.
  split; [intros us G|intros N; exact (program_declined reverse_cmd reverse_options line _ IN N)].
  destruct (program_given reverse_cmd reverse_options IN us line G) as (m & E & TY & V). destruct (program_ok reverse_cmd reverse_options IN) as (_ & _ & (ND & _)).
  destruct (has_number reverse_options us line ND G o_prefix 0) as (p & Hp); [find_in|reflexivity|reflexivity|cbn; tauto|]. pose proof (got_number reverse_options us m TY V o_prefix 0 p ltac:(find_in) Hp) as Ep.
  destruct (has_string reverse_options us line ND G o_in) as (i & Hi); [find_in|reflexivity|reflexivity|]. pose proof (got_string reverse_options us m V o_in i ltac:(find_in) eq_refl Hi) as Ei.
  destruct (has_string reverse_options us line ND G o_out) as (o & Ho); [find_in|reflexivity|reflexivity|]. pose proof (got_string reverse_options us m V o_out o ltac:(find_in) eq_refl Ho) as Eo.
  exists p, i, o. split; [exact Hp|]. split; [exact Hi|]. split; [exact Ho|]. unfold reverse_program, on_args, arg_file. rewrite E.
  change (arg_num m o_prefix 0 = p) with (arg_num m prefixlength 0 = p) in Ep. rewrite Ep.
  change (arg_string m o_in = i) with (arg_string m infilename = i) in Ei. rewrite Ei.
  change (arg_string m o_out = o) with (arg_string m outfilename = o) in Eo. rewrite Eo.
  reflexivity.
Qed.
Print Assumptions C112_reverse.
Theorem C112_count_r : forall sort time input line,
  (forall us, good count_r_options us line -> exists p mx nd i, sets_number us o_prefix 0 p /\ sets_switch us o_matrix mx /\ sets_switch us o_nodollar nd /\ sets_string us o_in i /\
     count_r_report sort time input line = Ran (count_r_out sort time i (input i) p mx nd)) /\
  ((forall us, ~ good count_r_options us line) -> declined (count_r_report sort time input line)).
Proof.
  intros sort time input line. assert (IN : In (count_r_cmd, count_r_options) the_programs) by find_in.
  split; [intros us G|intros N; exact (program_declined count_r_cmd count_r_options line _ IN N)].
  destruct (program_given count_r_cmd count_r_options IN us line G) as (m & E & TY & V). destruct (program_ok count_r_cmd count_r_options IN) as (_ & _ & (ND & _)).
  destruct (has_number count_r_options us line ND G o_prefix 0) as (p & Hp); [find_in|reflexivity|reflexivity|cbn; tauto|]. pose proof (got_number count_r_options us m TY V o_prefix 0 p ltac:(find_in) Hp) as Ep.
  destruct (has_switch us o_matrix) as (mx & Hmx). pose proof (got_switch count_r_options us m V o_matrix mx ltac:(find_in) Hmx) as Emx.
  destruct (has_switch us o_nodollar) as (nd & Hnd). pose proof (got_switch count_r_options us m V o_nodollar nd ltac:(find_in) Hnd) as End.
  destruct (has_string count_r_options us line ND G o_in) as (i & Hi); [find_in|reflexivity|reflexivity|]. pose proof (got_string count_r_options us m V o_in i ltac:(find_in) eq_refl Hi) as Ei.
  exists p, mx, nd, i. split; [exact Hp|]. split; [exact Hmx|]. split; [exact Hnd|]. split; [exact Hi|]. unfold count_r_report, on_args, arg_file. rewrite E.
  change (arg_num m o_prefix 0 = p) with (arg_num m prefixlength 0 = p) in Ep. rewrite Ep.
  change (arg_bool m o_matrix = mx) with (arg_bool m use_matrix = mx) in Emx. rewrite Emx.
  change (arg_bool m o_nodollar = nd) with (arg_bool m no_dollar = nd) in End. rewrite End.
  change (arg_string m o_in = i) with (arg_string m infilename = i) in Ei. rewrite Ei.
  reflexivity.
Qed.
Print Assumptions C112_count_r.
Theorem C112_count_sigma : forall time input line,
  (forall us, good count_sigma_options us line -> exists p i, sets_number us o_prefix 0 p /\ sets_string us o_in i /\
     count_sigma_report time input line = Ran (count_sigma_out time i (input i) p)) /\
  ((forall us, ~ good count_sigma_options us line) -> declined (count_sigma_report time input line)).
Proof.
  intros time input line. assert (IN : In (count_sigma_cmd, count_sigma_options) the_programs) by find_in.
  split; [intros us G|intros N; exact (program_declined count_sigma_cmd count_sigma_options line _ IN N)].
  destruct (program_given count_sigma_cmd count_sigma_options IN us line G) as (m & E & TY & V). destruct (program_ok count_sigma_cmd count_sigma_options IN) as (_ & _ & (ND & _)).
  destruct (has_number count_sigma_options us line ND G o_prefix 0) as (p & Hp); [find_in|reflexivity|reflexivity|cbn; tauto|]. pose proof (got_number count_sigma_options us m TY V o_prefix 0 p ltac:(find_in) Hp) as Ep.
  destruct (has_string count_sigma_options us line ND G o_in) as (i & Hi); [find_in|reflexivity|reflexivity|]. pose proof (got_string count_sigma_options us m V o_in i ltac:(find_in) eq_refl Hi) as Ei.
  exists p, i. split; [exact Hp|]. split; [exact Hi|]. unfold count_sigma_report, on_args, arg_file. rewrite E.
  change (arg_num m o_prefix 0 = p) with (arg_num m prefixlength 0 = p) in Ep. rewrite Ep.
  change (arg_string m o_in = i) with (arg_string m infilename = i) in Ei. rewrite Ei.
  reflexivity.
Qed.
Print Assumptions C112_count_sigma.
Theorem C112_count_z_prints : forall sort time input line,
  (forall us, good count_z_options us line -> exists p i, sets_number us o_prefix 0 p /\ sets_string us o_in i /\
     count_z_report sort time input line = Ran (count_z_out sort time i (input i) p)) /\
  ((forall us, ~ good count_z_options us line) -> declined (count_z_report sort time input line)).
Proof.
  intros sort time input line. assert (IN : In (count_z_cmd, count_z_options) the_programs) by find_in.
  split; [intros us G|intros N; exact (program_declined count_z_cmd count_z_options line _ IN N)].
  destruct (program_given count_z_cmd count_z_options IN us line G) as (m & E & TY & V). destruct (program_ok count_z_cmd count_z_options IN) as (_ & _ & (ND & _)).
  destruct (has_number count_z_options us line ND G o_prefix 0) as (p & Hp); [find_in|reflexivity|reflexivity|cbn; tauto|]. pose proof (got_number count_z_options us m TY V o_prefix 0 p ltac:(find_in) Hp) as Ep.
  destruct (has_string count_z_options us line ND G o_in) as (i & Hi); [find_in|reflexivity|reflexivity|]. pose proof (got_string count_z_options us m V o_in i ltac:(find_in) eq_refl Hi) as Ei.
  exists p, i. split; [exact Hp|]. split; [exact Hi|]. unfold count_z_report, on_args, arg_file. rewrite E.
  change (arg_num m o_prefix 0 = p) with (arg_num m prefixlength 0 = p) in Ep. rewrite Ep.
  change (arg_string m o_in = i) with (arg_string m infilename = i) in Ei. rewrite Ei.
  reflexivity.
Qed.
Print Assumptions C112_count_z_prints.
Theorem C112_count_lexparse_prints : forall sort time input line,
  (forall us, good count_lexparse_options us line -> exists p i, sets_number us o_prefix 0 p /\ sets_string us o_in i /\
     count_lexparse_report sort time input line = Ran (count_lexparse_out sort time i (input i) p)) /\
  ((forall us, ~ good count_lexparse_options us line) -> declined (count_lexparse_report sort time input line)).
Proof.
  intros sort time input line. assert (IN : In (count_lexparse_cmd, count_lexparse_options) the_programs) by find_in.
  split; [intros us G|intros N; exact (program_declined count_lexparse_cmd count_lexparse_options line _ IN N)].
  destruct (program_given count_lexparse_cmd count_lexparse_options IN us line G) as (m & E & TY & V). destruct (program_ok count_lexparse_cmd count_lexparse_options IN) as (_ & _ & (ND & _)).
  destruct (has_number count_lexparse_options us line ND G o_prefix 0) as (p & Hp); [find_in|reflexivity|reflexivity|cbn; tauto|]. pose proof (got_number count_lexparse_options us m TY V o_prefix 0 p ltac:(find_in) Hp) as Ep.
  destruct (has_string count_lexparse_options us line ND G o_in) as (i & Hi); [find_in|reflexivity|reflexivity|]. pose proof (got_string count_lexparse_options us m V o_in i ltac:(find_in) eq_refl Hi) as Ei.
  exists p, i. split; [exact Hp|]. split; [exact Hi|]. unfold count_lexparse_report, on_args, arg_file. rewrite E.
  change (arg_num m o_prefix 0 = p) with (arg_num m prefixlength 0 = p) in Ep. rewrite Ep.
  change (arg_string m o_in = i) with (arg_string m infilename = i) in Ei. rewrite Ei.
  reflexivity.
Qed.
Print Assumptions C112_count_lexparse_prints.
Theorem C112_lyndonfactorization_prints : forall time input line,
  (forall us, good lyndonfactorization_options us line -> exists p i, sets_number us o_prefix 0 p /\ sets_string us o_in i /\
     lyndonfactorization_report time input line = Ran (lyndonfactorization_out time i (input i) p)) /\
  ((forall us, ~ good lyndonfactorization_options us line) -> declined (lyndonfactorization_report time input line)).
Proof.
  intros time input line. assert (IN : In (lyndonfactorization_cmd, lyndonfactorization_options) the_programs) by find_in.
  split; [intros us G|intros N; exact (program_declined lyndonfactorization_cmd lyndonfactorization_options line _ IN N)].
  destruct (program_given lyndonfactorization_cmd lyndonfactorization_options IN us line G) as (m & E & TY & V). destruct (program_ok lyndonfactorization_cmd lyndonfactorization_options IN) as (_ & _ & (ND & _)).
  destruct (has_number lyndonfactorization_options us line ND G o_prefix 0) as (p & Hp); [find_in|reflexivity|reflexivity|cbn; tauto|]. pose proof (got_number lyndonfactorization_options us m TY V o_prefix 0 p ltac:(find_in) Hp) as Ep.
  destruct (has_string lyndonfactorization_options us line ND G o_in) as (i & Hi); [find_in|reflexivity|reflexivity|]. pose proof (got_string lyndonfactorization_options us m V o_in i ltac:(find_in) eq_refl Hi) as Ei.
  exists p, i. split; [exact Hp|]. split; [exact Hi|]. unfold lyndonfactorization_report, on_args, arg_file. rewrite E.
  change (arg_num m o_prefix 0 = p) with (arg_num m prefixlength 0 = p) in Ep. rewrite Ep.
  change (arg_string m o_in = i) with (arg_string m infilename = i) in Ei. rewrite Ei.
  reflexivity.
Qed.
Print Assumptions C112_lyndonfactorization_prints.
Theorem C112_mus : forall sort time input line,
  (forall us, good mus_options us line -> exists p i, sets_number us o_prefix 0 p /\ sets_string us o_in i /\
     mus_report sort time input line = Ran (mus_out sort time i (input i) p)) /\
  ((forall us, ~ good mus_options us line) -> declined (mus_report sort time input line)).
Proof.
  intros sort time input line. assert (IN : In (mus_cmd, mus_options) the_programs) by find_in.
  split; [intros us G|intros N; exact (program_declined mus_cmd mus_options line _ IN N)].
  destruct (program_given mus_cmd mus_options IN us line G) as (m & E & TY & V). destruct (program_ok mus_cmd mus_options IN) as (_ & _ & (ND & _)).
  destruct (has_number mus_options us line ND G o_prefix 0) as (p & Hp); [find_in|reflexivity|reflexivity|cbn; tauto|]. pose proof (got_number mus_options us m TY V o_prefix 0 p ltac:(find_in) Hp) as Ep.
  destruct (has_string mus_options us line ND G o_in) as (i & Hi); [find_in|reflexivity|reflexivity|]. pose proof (got_string mus_options us m V o_in i ltac:(find_in) eq_refl Hi) as Ei.
  exists p, i. split; [exact Hp|]. split; [exact Hi|]. unfold mus_report, on_args, arg_file. rewrite E.
  change (arg_num m o_prefix 0 = p) with (arg_num m prefixlength 0 = p) in Ep. rewrite Ep.
  change (arg_string m o_in = i) with (arg_string m infilename = i) in Ei. rewrite Ei.
  reflexivity.
Qed.
Print Assumptions C112_mus.
Theorem C112_entropy : forall fmt sort time input line,
  (forall us, good entropy_options us line -> exists p k i, sets_number us o_prefix 0 p /\ sets_number us o_order 0 k /\ sets_string us o_in i /\
     entropy_report fmt sort time input line = Ran (entropy_out fmt sort time i (input i) p k)) /\
  ((forall us, ~ good entropy_options us line) -> declined (entropy_report fmt sort time input line)).
Proof.
  intros fmt sort time input line. assert (IN : In (entropy_cmd, entropy_options) the_programs) by find_in.
  split; [intros us G|intros N; exact (program_declined entropy_cmd entropy_options line _ IN N)].
  destruct (program_given entropy_cmd entropy_options IN us line G) as (m & E & TY & V). destruct (program_ok entropy_cmd entropy_options IN) as (_ & _ & (ND & _)).
  destruct (has_number entropy_options us line ND G o_prefix 0) as (p & Hp); [find_in|reflexivity|reflexivity|cbn; tauto|]. pose proof (got_number entropy_options us m TY V o_prefix 0 p ltac:(find_in) Hp) as Ep.
  destruct (has_number entropy_options us line ND G o_order 0) as (k & Hk); [find_in|reflexivity|reflexivity|cbn; tauto|]. pose proof (got_number entropy_options us m TY V o_order 0 k ltac:(find_in) Hk) as Ek.
  destruct (has_string entropy_options us line ND G o_in) as (i & Hi); [find_in|reflexivity|reflexivity|]. pose proof (got_string entropy_options us m V o_in i ltac:(find_in) eq_refl Hi) as Ei.
  exists p, k, i. split; [exact Hp|]. split; [exact Hk|]. split; [exact Hi|]. unfold entropy_report, on_args, arg_file. rewrite E.
  change (arg_num m o_prefix 0 = p) with (arg_num m prefixlength 0 = p) in Ep. rewrite Ep.
  change (arg_num m o_order 0 = k) with (arg_num m order 0 = k) in Ek. rewrite Ek.
  change (arg_string m o_in = i) with (arg_string m infilename = i) in Ei. rewrite Ei.
  reflexivity.
Qed.
Print Assumptions C112_entropy.
Theorem C112_entropy_kmer : forall fmt iter1 iter2 time input line,
  (forall us, good entropy_options us line -> exists p k i, sets_number us o_prefix 0 p /\ sets_number us o_order 0 k /\ sets_string us o_in i /\
     entropy_kmer_report fmt iter1 iter2 time input line = Ran (entropy_kmer_out fmt iter1 iter2 time i (input i) p k)) /\
  ((forall us, ~ good entropy_options us line) -> declined (entropy_kmer_report fmt iter1 iter2 time input line)).
Proof.
  intros fmt iter1 iter2 time input line. assert (IN : In (entropy_kmer_cmd, entropy_options) the_programs) by find_in.
  split; [intros us G|intros N; exact (program_declined entropy_kmer_cmd entropy_options line _ IN N)].
  destruct (program_given entropy_kmer_cmd entropy_options IN us line G) as (m & E & TY & V). destruct (program_ok entropy_kmer_cmd entropy_options IN) as (_ & _ & (ND & _)).
  destruct (has_number entropy_options us line ND G o_prefix 0) as (p & Hp); [find_in|reflexivity|reflexivity|cbn; tauto|]. pose proof (got_number entropy_options us m TY V o_prefix 0 p ltac:(find_in) Hp) as Ep.
  destruct (has_number entropy_options us line ND G o_order 0) as (k & Hk); [find_in|reflexivity|reflexivity|cbn; tauto|]. pose proof (got_number entropy_options us m TY V o_order 0 k ltac:(find_in) Hk) as Ek.
  destruct (has_string entropy_options us line ND G o_in) as (i & Hi); [find_in|reflexivity|reflexivity|]. pose proof (got_string entropy_options us m V o_in i ltac:(find_in) eq_refl Hi) as Ei.
  exists p, k, i. split; [exact Hp|]. split; [exact Hk|]. split; [exact Hi|]. unfold entropy_kmer_report, on_args, arg_file. rewrite E.
  change (arg_num m o_prefix 0 = p) with (arg_num m prefixlength 0 = p) in Ep. rewrite Ep.
  change (arg_num m o_order 0 = k) with (arg_num m order 0 = k) in Ek. rewrite Ek.
  change (arg_string m o_in = i) with (arg_string m infilename = i) in Ei. rewrite Ei.
  reflexivity.
Qed.
Print Assumptions C112_entropy_kmer.
Theorem C112_is_stringattractor : forall sort input line,
  (forall us, good is_stringattractor_options us line -> exists p a i, sets_number us o_prefix 0 p /\ sets_numbers us o_attractor a /\ sets_string us o_in i /\
     is_stringattractor_program sort input line = Ran (is_stringattractor_main sort (match i with Some _ => true | None => false end) (input i) p a)) /\
  ((forall us, ~ good is_stringattractor_options us line) -> declined (is_stringattractor_program sort input line)).
Proof.
  intros sort input line. assert (IN : In (is_stringattractor_cmd, is_stringattractor_options) the_programs) by find_in.
  split; [intros us G|intros N; exact (program_declined is_stringattractor_cmd is_stringattractor_options line _ IN N)].
  destruct (program_given is_stringattractor_cmd is_stringattractor_options IN us line G) as (m & E & TY & V). destruct (program_ok is_stringattractor_cmd is_stringattractor_options IN) as (_ & _ & (ND & _)).
  destruct (has_number is_stringattractor_options us line ND G o_prefix 0) as (p & Hp); [find_in|reflexivity|reflexivity|cbn; tauto|]. pose proof (got_number is_stringattractor_options us m TY V o_prefix 0 p ltac:(find_in) Hp) as Ep.
  destruct (has_numbers is_stringattractor_options us line ND G o_attractor) as (a & Ha); [find_in|cbn; tauto|]. pose proof (got_numbers is_stringattractor_options us m TY V o_attractor a ltac:(find_in) Ha) as Ea.
  destruct (has_string is_stringattractor_options us line ND G o_in) as (i & Hi); [find_in|reflexivity|reflexivity|]. pose proof (got_string is_stringattractor_options us m V o_in i ltac:(find_in) eq_refl Hi) as Ei.
  exists p, a, i. split; [exact Hp|]. split; [exact Ha|]. split; [exact Hi|]. unfold is_stringattractor_program, on_args, arg_file. rewrite E.
  change (arg_num m o_prefix 0 = p) with (arg_num m prefixlength 0 = p) in Ep. rewrite Ep.
  change (arg_nums m o_attractor = a) with (arg_nums m attractor = a) in Ea. rewrite Ea.
  change (arg_string m o_in = i) with (arg_string m infilename = i) in Ei. rewrite Ei.
  reflexivity.
Qed.
Print Assumptions C112_is_stringattractor.
Theorem C112_count_runs : forall fuel input line,
  (forall us, good count_runs_options us line -> exists i, sets_string us o_in i /\
     count_runs_program fuel input line = Ran ((r <- number_of_runs fuel (input i) ;; Ok (println (dec_usize r))))) /\
  ((forall us, ~ good count_runs_options us line) -> declined (count_runs_program fuel input line)).
Proof.
  intros fuel input line. assert (IN : In (count_runs_cmd, count_runs_options) the_programs) by find_in.
  split; [intros us G|intros N; exact (program_declined count_runs_cmd count_runs_options line _ IN N)].
  destruct (program_given count_runs_cmd count_runs_options IN us line G) as (m & E & TY & V). destruct (program_ok count_runs_cmd count_runs_options IN) as (_ & _ & (ND & _)).
  destruct (has_string count_runs_options us line ND G o_in) as (i & Hi); [find_in|reflexivity|reflexivity|]. pose proof (got_string count_runs_options us m V o_in i ltac:(find_in) eq_refl Hi) as Ei.
  exists i. split; [exact Hi|]. unfold count_runs_program, on_args, arg_file. rewrite E.
  change (arg_string m o_in = i) with (arg_string m infilename = i) in Ei. rewrite Ei.
  reflexivity.
Qed.
Print Assumptions C112_count_runs.
(** word: the names and the words they stand for *)
Definition the_words : list (str * word_name) :=
  [(ascii "fibonacci", Fibonacci); (ascii "fibonacci-lyndon-factor", FibonacciLyndonFactor); (ascii "tribonacci", Tribonacci); (ascii "kolakoski", Kolakoski);
   (ascii "thue-morse", ThueMorse); (ascii "period-doubling", PeriodDoubling); (ascii "paper-folding", PaperFolding);
   (ascii "quaternary-paper-folding", QuaternaryPaperFolding); (ascii "binary-de-brujin", BinaryDeBrujin); (ascii "power2", Power2); (ascii "vtm", Vtm)].
Lemma word_chosen i s : nth_error the_names i = Some s -> In (s, nth i word_variants Fibonacci) the_words.
Proof.
  intros H. do 11 (destruct i as [|i]; [cbn [nth_error the_names] in H; injection H as <-; find_in|]). destruct i; discriminate.
Qed.
Theorem C112_word : forall file_of line,
  (forall us, good word_options us line -> exists s v k o, In (s, v) the_words /\ uses_of us o_name = [[s]] /\ used us o_k /\ sets_number us o_k 0 k /\ k < 256 /\ sets_string us o_out o /\
     word_program file_of line = Ran (word_io v k (option_map file_of o))) /\
  ((forall us, ~ good word_options us line) -> declined (word_program file_of line)).
Proof.
  intros file_of line. assert (IN : In (word_cmd, word_options) the_programs) by find_in.
  split; [intros us G|intros N; exact (program_declined word_cmd word_options line _ IN N)].
  destruct (program_given word_cmd word_options IN us line G) as (m & E & TY & V). destruct (program_ok word_cmd word_options IN) as (_ & _ & (ND & _)).
  destruct (has_name word_options us line ND G o_name the_names) as (j & Hj & Hn); [find_in|reflexivity|reflexivity|reflexivity|reflexivity|].
  pose proof (got_name word_options us m TY V o_name j ltac:(find_in) Hn) as En. destruct Hn as (s & Us & Rs).
  destruct (has_required word_options us line ND G o_k 0) as (sk & kk & Uk & Rk & Hk); [find_in|reflexivity|reflexivity|reflexivity|cbn; tauto|].
  pose proof (got_number word_options us m TY V o_k 0 (N.to_nat kk) ltac:(find_in) Hk) as Ek.
  destruct (has_string word_options us line ND G o_out) as (o & Ho); [find_in|reflexivity|reflexivity|]. pose proof (got_string word_options us m V o_out o ltac:(find_in) eq_refl Ho) as Eo.
  exists s, (nth j word_variants Fibonacci), (N.to_nat kk), o.
  split; [apply word_chosen; cbn [o_name arg_type] in Rs; inversion Rs; subst; assumption|]. split; [exact Us|]. split; [unfold used; rewrite Uk; discriminate|]. split; [exact Hk|].
  split. { cbn [o_k arg_type] in Rk. assert (kk < 256)%N by (change 256%N with (2 ^ 8)%N; inversion Rk; subst; assumption || reflexivity). lia. }
  split; [exact Ho|]. unfold word_program, on_args, arg_file. rewrite E.
  change (arg_word m o_name = nth j word_variants Fibonacci) with (arg_word m name_opt = nth j word_variants Fibonacci) in En. rewrite En.
  change (arg_num m o_k 0 = N.to_nat kk) with (arg_num m k_opt 0 = N.to_nat kk) in Ek. rewrite Ek.
  change (arg_string m o_out = o) with (arg_string m outfilename = o) in Eo. rewrite Eo. reflexivity.
Qed.
Print Assumptions C112_word.

(** rle: with assertions it panics on every command line, before any file is opened; without them its options are those of
    [rle_options] *)
Theorem C112_rle_debug : forall fuel file_of line, rle_program fuel file_of line = Panic.
Proof. intros fuel file_of line. reflexivity. Qed.
Print Assumptions C112_rle_debug.
Theorem C112_rle_release : forall fuel file_of line,
  (forall us, good rle_options us line -> exists h z i o, sets_switch us o_human h /\ sets_switch us o_onlyzero z /\ sets_string us o_in i /\ sets_string us o_out o /\
     rle_program_release fuel file_of line = Ran (rle_io_release fuel h z (option_map file_of i) (option_map file_of o))) /\
  ((forall us, ~ good rle_options us line) -> declined (rle_program_release fuel file_of line)).
Proof.
  intros fuel file_of line. destruct (C111_rle_release line) as (A & B). unfold rle_program_release, on_args. split.
  - intros us G. destruct (B us G) as (m & -> & V). pose proof rle_names as (ND & _).
    destruct (has_switch us o_human) as (h & Hh). pose proof (got_switch rle_options us m V o_human h ltac:(find_in) Hh) as Eh.
    destruct (has_switch us o_onlyzero) as (z & Hz). pose proof (got_switch rle_options us m V (o_switch "onlyzero" "" "onlyzero") z ltac:(find_in) Hz) as Ez.
    destruct (has_string rle_options us line ND G o_in) as (i & Hi); [find_in|reflexivity|reflexivity|]. pose proof (got_string rle_options us m V o_in i ltac:(find_in) eq_refl Hi) as Ei.
    destruct (has_string rle_options us line ND G o_out) as (o & Ho); [find_in|reflexivity|reflexivity|]. pose proof (got_string rle_options us m V o_out o ltac:(find_in) eq_refl Ho) as Eo.
    exists h, z, i, o. do 4 (split; [assumption|]). unfold arg_file.
    change (arg_bool m o_human = h) with (arg_bool m human = h) in Eh. rewrite Eh.
    change (arg_bool m (o_switch "onlyzero" "" "onlyzero") = z) with (arg_bool m onlyzero = z) in Ez. rewrite Ez.
    change (arg_string m o_in = i) with (arg_string m infilename = i) in Ei. rewrite Ei.
    change (arg_string m o_out = o) with (arg_string m outfilename = o) in Eo. rewrite Eo. reflexivity.
  - intros N. destruct (parse rle_cmd line) as [m| |] eqn:E; [|now left|now right]. destruct (proj1 A (ex_intro _ m eq_refl)) as (us & G). exfalso. now apply (N us).
Qed.
Print Assumptions C112_rle_release.
Lemma for_in_fuel {S I} (l : list I) (body : I -> S -> res S) : (forall x s, body x s <> OutOfFuel) -> forall s, for_in l body s <> OutOfFuel.
Proof. intros H. induction l as [|x l IH]; intros s; cbn [for_in]; [discriminate|]. specialize (H x s). destruct (body x s); cbn [bind]; [apply IH|discriminate|contradiction]. Qed.
Lemma rle_out_fuel human onlyzero q : rle_out_release human onlyzero q <> OutOfFuel.
Proof.
  destruct human; [|destruct onlyzero].
  - rewrite rle_text_out_for_release. destruct q as [|c q]; [discriminate|]. pose proof (for_in_fuel q rle_text_step_release ltac:(intros x ((rc, pc), out); unfold rle_text_step_release; destruct (negb (x =? pc)); discriminate) (0, c, [])) as H.
    destruct (for_in q rle_text_step_release (0, c, [])) as [((rc, pc), out)| |]; [discriminate|discriminate|contradiction].
  - rewrite rle_zero_out_for_release. destruct q as [|c q]; [discriminate|].
    pose proof (for_in_fuel q rle_zero_step_release ltac:(intros x (rc, out); unfold rle_zero_step_release; destruct (negb (x =? CHR_ZERO)); [|discriminate]; destruct (rc =? 0); [discriminate|]; destruct (rc - 1 <? 255); discriminate) (if c =? CHR_ZERO then (1, []) else (0, [c]))) as H.
    destruct (for_in q rle_zero_step_release _) as [(rc, out)| |]; cbn [bind]; [destruct (0 <? rc); discriminate|discriminate|contradiction].
  - rewrite rle_out_for_release. destruct q as [|c q]; [discriminate|].
    pose proof (for_in_fuel q rle_step_release ltac:(intros x ((rc, pc), out); unfold rle_step_release; destruct (negb (x =? pc)); [|discriminate]; destruct (rc <? 255); discriminate) (0, c, [])) as H.
    destruct (for_in q rle_step_release (0, c, [])) as [((rc, pc), out)| |]; [discriminate|discriminate|contradiction].
Qed.
(** what a release build of rle does with the files: the run, and every point at which it may be interrupted *)
Theorem C112_rle_run : forall fuel (human onlyzero : bool) i o w0 text,
  contents w0 i = Some text -> (forall f, i = Some f -> o <> Some f) -> stdout w0 = [] -> length text <= fuel ->
  match (if human then rle_text_release else if onlyzero then rle_zero_release else rle_release) (S (length text)) (reader_of text) with
  | Ok code => exists w, run (rle_io_release fuel human onlyzero i o) w0 = (w, Ok tt) /\ untouched o w0 w /\ written w o = Some code
  | Panic => exists w, run (rle_io_release fuel human onlyzero i o) w0 = (w, Panic)
  | OutOfFuel => False
  end.
Proof.
  intros fuel human onlyzero i o w0 text Hin Hio Hout Hf. pose proof (rle_io_run_release i o w0 text Hout Hin Hio fuel human onlyzero Hf) as H.
  unfold ends in H.
  assert (EF : rle_out_release human onlyzero text = (if human then rle_text_release else if onlyzero then rle_zero_release else rle_release) (S (length text)) (reader_of text))
    by (unfold rle_out_release; now destruct human, onlyzero).
  rewrite EF in H. destruct ((if human then rle_text_release else if onlyzero then rle_zero_release else rle_release) (S (length text)) (reader_of text)) as [code| |] eqn:E.
  - destruct H as (w & R & [U W _]). eauto.
  - exact H.
  - now apply rle_out_fuel in EF.
Qed.
Print Assumptions C112_rle_run.
Theorem C112_rle_crash : forall fuel (human onlyzero : bool) i o w0 text w q,
  contents w0 i = Some text -> (forall f, i = Some f -> o <> Some f) -> stdout w0 = [] ->
  steps (w0, rle_io_release fuel human onlyzero i o) (w, q) ->
  let F s := (if human then rle_text_release else if onlyzero then rle_zero_release else rle_release) (S (length s)) (reader_of s) in
  untouched o w0 w /\
  (written w o = written w0 o \/ exists out, written w o = Some out /\ partial_output F text out) /\
  (q = Ret tt -> exists s code, prefix s text /\ F s = Ok code /\ written w o = Some code).
Proof.
  intros fuel human onlyzero i o w0 text w q Hin Hio Hout S F.
  assert (EF : forall s, rle_out_release human onlyzero s = F s) by (intros s; unfold rle_out_release, F; now destruct human, onlyzero).
  pose proof (safe_steps _ _ _ _ _ _ (rle_io_safe_release i o w0 text Hout Hin Hio fuel human onlyzero) S) as H.
  destruct (safe_I _ _ _ _ H) as (U & C). split; [exact U|]. split.
  - destruct C as [C|(out & (s & code & P & E & P') & C)]; [now left|right]. exists out. split; [exact C|]. exists s, code. rewrite <- EF. auto.
  - intros ->. cbn [safe] in H. destruct H as (_ & (s & code & P & E & W)). exists s, code. rewrite <- EF. split; [exact P|]. split; [exact E|apply W].
Qed.
Print Assumptions C112_rle_crash.
Lemma pf_value c s a v ts pos m : by_short (options c) s = Some a -> takes_value a = true -> arg_many a = false -> s <> 45 -> ~ hyphened v ->
  parse_from c ([45; s] :: v :: ts) false pos m None = (m' <== react m a [v] ; parse_from c ts false pos m' None).
Proof.
  intros B T M N V. rewrite pf_short by exact N. cbn [shorts]. rewrite B, T. cbn [opt_value resolve pbind fst snd]. rewrite pf_plain by exact V. unfold plain_step. now rewrite M.
Qed.
(** so after -i F -o G the file G holds the code of the runs of F, unless an inner run has a multiple of 256 letters *)
Theorem C112_rle_file : forall fuel file_of F G w0 text rs, contents w0 (Some (file_of F)) = Some text -> file_of F <> file_of G -> stdout w0 = [] -> length text <= fuel ->
  is_runs text rs -> (forall i, S i < length rs -> snd (nth i rs (0, 0)) mod 256 <> 0) -> ~ hyphened F -> ~ hyphened G ->
  exists p w, rle_program_release fuel file_of [ascii "-i"; F; ascii "-o"; G] = Ran p /\ run p w0 = (w, Ok tt) /\
    files w (file_of G) = Some (flat_map (fun r => [fst r; (snd r - 1) mod 256]) rs) /\ files w (file_of F) = Some text.
Proof.
  intros fuel file_of F G w0 text rs HI HN HO HL HR HS HF HG. exists (rle_io_release fuel false false (Some (file_of F)) (Some (file_of G))).
  pose proof (C112_rle_run fuel false false (Some (file_of F)) (Some (file_of G)) w0 text HI ltac:(intros f E; injection E as <-; intros C; injection C as C; now apply HN) HO HL) as R. cbv iota in R.
  destruct (C79_rle_release (reader_of text) text rs (S (length text)) (reader_of_delivers text) HR ltac:(lia)) as [((j & Hj & C) & _)|(_ & E)]; [exfalso; now apply (HS j Hj)|].
  rewrite E in R. destruct R as (w & R & U & W). exists w. split; [|split; [exact R|split; [exact W|]]].
  - unfold rle_program_release, on_args, parse. change (ascii "-i") with [45; 105]. change (ascii "-o") with [45; 111].
    rewrite (pf_value rle_cmd 105 infilename) by (reflexivity || lia || exact HF). cbn [pbind react infilename opt_string arg_action length Nat.eqb orb andb negb arg_many lookup parse_values parse_value arg_type add_values].
    rewrite (pf_value rle_cmd 111 outfilename) by (reflexivity || lia || exact HG). reflexivity.
  - rewrite <- HI. cbn [contents]. destruct U as (U & _). apply U. intros C. injection C as C. now apply HN.
Qed.
Print Assumptions C112_rle_file.
(** enumerate: two or three numbers, with at most one "--" among them *)
Definition numbers_line (line : list str) (ns : list N) : Prop :=
  exists vs, (line = vs \/ exists us1 us2, vs = us1 ++ us2 /\ line = us1 ++ [[45; 45]] ++ us2) /\ Forall2 (reads_as Usize) vs (map VNum ns).
Theorem C112_enumerate : forall fuel line,
  (forall a b, numbers_line line [a; b] -> enumerate_program fuel line = Ran (enumerate_io fuel (N.to_nat a) (N.to_nat b) None)) /\
  (forall a b c, numbers_line line [a; b; c] -> enumerate_program fuel line = Ran (enumerate_io fuel (N.to_nat a) (N.to_nat b) (Some (N.to_nat c)))) /\
  ((forall ns, numbers_line line ns -> length ns < 2 \/ 3 < length ns) -> declined (enumerate_program fuel line)).
Proof.
  intros fuel line. assert (G : forall ns vs, plain_line line vs -> read_all vs ns -> parse enumerate_cmd line = ends_with vs).
  { intros ns vs P R. apply enumerate_parse; [exact P|]. apply usize_values. unfold read_all in R. clear P. revert R. generalize (map VNum ns). intros l R. induction R; constructor; eauto. }
  unfold enumerate_program, on_args. split; [|split].
  - intros a b (vs & P & R). rewrite (G [a; b] vs P R), (proj2 (ends_with_ok vs (two a b)) ltac:(left; exists a, b; auto)). reflexivity.
  - intros a b c (vs & P & R). rewrite (G [a; b; c] vs P R), (proj2 (ends_with_ok vs (three a b c)) ltac:(right; exists a, b, c; auto)). reflexivity.
  - intros N. destruct (parse enumerate_cmd line) as [m| |] eqn:E; [|now left|now right]. exfalso. destruct (enumerate_only line m E) as (vs & P & E2).
    apply ends_with_ok in E2. destruct E2 as [(a & b & R & _)|(a & b & c & R & _)]; [specialize (N [a; b])|specialize (N [a; b; c])]; (destruct N as [N|N]; [exists vs; split; [exact P|exact R]| |]; cbn [length] in N; lia).
Qed.
Print Assumptions C112_enumerate.
(** the command lines of the README *)
Theorem C112_readme : forall file_of,
  escape_program file_of (ws ["-f"; "0"; "-t"; "255"; "-e"; "254"]%string) = Ran (escape_io 0 254 [0] [255] false None None) /\
  word_program file_of (ws ["-n"; "fibonacci"; "-k"; "5"]%string) = Ran (word_io Fibonacci 5 None).
Proof. intros file_of. split; reflexivity. Qed.
Print Assumptions C112_readme.
(** ... but count_sigma --file is not one, whatever follows *)
Theorem C112_readme_refuted : forall time input rest, count_sigma_report time input (ascii "--file" :: rest) = Usage.
Proof. intros time input rest. reflexivity. Qed.
Print Assumptions C112_readme_refuted.
(** the list after --from-symbols cannot be separated by commas, as its help says *)
Theorem C112_commas_refuted : forall file_of v rest, In 44 v -> escape_program file_of (ascii "-f" :: v :: rest) = Usage /\ escape_program file_of (ascii "--from-symbols" :: v :: rest) = Usage.
Proof.
  intros file_of v rest H. assert (P : parse_value U8 v = None).
  { destruct (parse_value U8 v) as [x|] eqn:E; [exfalso|reflexivity]. apply parse_value_ok in E; [|intros names X; discriminate X].
    assert (D : forall ds n, digits_of ds n -> ~ In 44 ds) by (intros ds n (_ & D & _) I; rewrite Forall_forall in D; specialize (D _ I); lia).
    inversion E; subst; (eapply D; [eassumption|]); try assumption; destruct H as [H|H]; try discriminate H; exact H. }
  assert (R : forall m, react m from_symbols [v] = Refuse) by (intros m; unfold react; cbn [from_symbols arg_action length Nat.eqb orb andb negb arg_many arg_type parse_values]; now rewrite P).
  assert (G : parse_from escape_cmd (v :: rest) false [] [] (Some (from_symbols, [])) = Refuse).
  { destruct (hyphened_dec v) as [Y|N].
    - rewrite pend_first; [reflexivity|reflexivity|right; eexists _, _; split; [reflexivity|exact Y]].
    - rewrite pf_plain by exact N. unfold plain_step. cbn [arg_many from_symbols app]. now rewrite R. }
  unfold escape_program, on_args, parse. cbn [positionals escape_cmd]. split.
  - change (ascii "-f") with [45; 102]. rewrite (pf_short escape_cmd 102 []) by lia. cbn [shorts]. change (by_short (options escape_cmd) 102) with (Some from_symbols).
    cbn [takes_value from_symbols arg_action opt_value resolve pbind fst snd]. fold from_symbols. now rewrite G.
  - change (ascii "--from-symbols") with (45 :: 45 :: ascii "from-symbols"). rewrite pf_long by discriminate.
    change (long (options escape_cmd) (ascii "from-symbols") [] None) with (Go ([] : matches, Some (from_symbols, [] : list str))). cbn [pbind fst snd]. now rewrite G.
Qed.
Print Assumptions C112_commas_refuted.
(** cases: the same uses written in two ways; a list given piecewise; numbers with signs *)
Example C112_case : forall sort file_of fuel,
  bwt_program sort file_of (ws ["-i"; "F"; "-un"; "--prefixlength"; "12"]%string) = Ran (bwt_io sort 12 true true (Some (file_of (ascii "F"))) None) /\
  bwt_program sort file_of (ws ["--no-dollar"; "-p+12"; "-uiF"; "--"]%string) = Ran (bwt_io sort 12 true true (Some (file_of (ascii "F"))) None) /\
  escape_program file_of (ws ["-f3"; "--to-symbols=-0"; "-f"; "4"; "-t"; "+9"; "--is-reversion"]%string) = Ran (escape_io 0 0 [3; 4] [0; 9] true None None) /\
  escape_program file_of (ws ["-f"; "256"]%string) = Usage /\ reverse_program file_of (ws ["-i"; "F"; "G"]%string) = Usage /\
  lyndonwords_program fuel file_of [] = Ran (lyndonwords_io fuel 5 2 None) /\ randomstring_program fuel (fun _ => 0) file_of [] = Usage /\
  enumerate_program fuel (ws ["2"; "--"; "3"]%string) = Ran (enumerate_io fuel 2 3 None) /\ enumerate_program fuel (ws ["2"; "-3"]%string) = Usage /\
  rle_program_release fuel file_of (ws ["-h"; "-o"; "G"]%string) = Ran (rle_io_release fuel true false None (Some (file_of (ascii "G")))).
Proof. intros sort file_of fuel. repeat split; reflexivity. Qed.
