(** PropsArgs.v : C111 (command lines) and C112 (what the programs do with them). *)
From Verif Require Import Base SpecStr SpecIo SpecMain SpecArgs SpecArgs2 SpecFs ModelIo ModelCore ModelTools ModelLz ModelMain ModelEntropy ModelResult ModelAttr ModelFs ModelFs2
  ModelArgs ModelArgs2 ArgsProof ArgsProof2 ArgsProof3 ArgsProof4 ArgsProof5.
From Coq Require Import NArith.

(** the programs whose options have different names, with the options their help lists *)
Definition the_programs : list (command * list arg) :=
  [(bwt_cmd, bwt_options); (count_lexparse_cmd, count_lexparse_options); (count_r_cmd, count_r_options); (count_runs_cmd, count_runs_options);
   (count_sigma_cmd, count_sigma_options); (count_z_cmd, count_z_options); (entropy_cmd, entropy_options); (entropy_kmer_cmd, entropy_options);
   (escape_cmd, escape_options); (is_stringattractor_cmd, is_stringattractor_options); (lyndonfactorization_cmd, lyndonfactorization_options);
   (lyndonwords_cmd, lyndonwords_options); (mtf_cmd, mtf_options); (mus_cmd, mus_options); (randomstring_cmd, randomstring_options);
   (reverse_cmd, reverse_options); (word_cmd, word_options)].
Lemma programs_ok : Forall (fun p => fst p = Command (snd p) [] /\ table_ok (snd p) = true /\ names_distinct (fst p) = true) the_programs.
Proof. repeat constructor. Qed.
Lemma program_ok c opts : In (c, opts) the_programs -> options c = opts /\ positionals c = [] /\ names_ok opts.
Proof.
  intros H. pose proof programs_ok as P. rewrite Forall_forall in P. destruct (P _ H) as (E & T & _). cbn [fst snd] in E, T. subst c. split; [reflexivity|]. split; [reflexivity|]. now apply table_names.
Qed.
Lemma programs_end : Forall (fun p => snd p = firstn (length (snd p) - 2) (snd p) ++ [o_help; o_version]) the_programs.
Proof. repeat (constructor; [reflexivity|]). constructor. Qed.

(** C111. A command line is accepted exactly when it is a correct use of the listed options ... *)
Theorem C111_accepted : forall c opts, In (c, opts) the_programs -> forall line,
  (exists m, parse c line = Go m) <-> exists us, good opts us line.
Proof.
  intros c opts H line. destruct (program_ok c opts H) as (E & P & N). subst opts. split.
  - intros (m & G). exact (accepted_only c line m N P G).
  - intros (us & G1 & G2). destruct (accepted c us line N P G1 G2) as (m & Em & _). now exists m.
Qed.
Print Assumptions C111_accepted.
(** ... each option then has exactly the values given to it, in the order of the uses *)
Theorem C111_values : forall c opts, In (c, opts) the_programs -> forall us line, good opts us line ->
  exists m, parse c line = Go m /\ forall a, In a opts ->
    (uses_of us a = [] -> lookup m (arg_id a) = None) /\ (uses_of us a <> [] -> exists vals, values_of us a vals /\ lookup m (arg_id a) = Some vals).
Proof. intros c opts H us line (G1 & G2). destruct (program_ok c opts H) as (E & P & N). subst opts. exact (accepted c us line N P G1 G2). Qed.
Print Assumptions C111_values.
(** ... so the spelling and the order of the options do not matter *)
Theorem C111_order : forall c opts, In (c, opts) the_programs -> forall us1 line1 us2 line2, good opts us1 line1 -> good opts us2 line2 ->
  (forall a, In a opts -> uses_of us1 a = uses_of us2 a) ->
  exists m1 m2, parse c line1 = Go m1 /\ parse c line2 = Go m2 /\ forall a, In a opts -> lookup m1 (arg_id a) = lookup m2 (arg_id a).
Proof.
  intros c opts H us1 line1 us2 line2 G1 G2 U. destruct (C111_values c opts H _ _ G1) as (m1 & E1 & V1). destruct (C111_values c opts H _ _ G2) as (m2 & E2 & V2).
  exists m1, m2. split; [exact E1|]. split; [exact E2|]. intros a Ha. destruct (V1 a Ha) as (A1 & B1), (V2 a Ha) as (A2 & B2). specialize (U a Ha).
  destruct (uses_of us1 a) as [|x l] eqn:E; [now rewrite A1, A2 by auto|].
  destruct B1 as (v1 & B1 & ->); [discriminate|]. destruct B2 as (v2 & B2 & ->); [now rewrite <- U|]. f_equal.
  destruct (program_ok c opts H) as (_ & _ & N). unfold values_of in *. rewrite E in B1. rewrite <- U in B2. apply (parse_values_ok _ _ (names_types _ N a Ha)) in B1, B2. congruence.
Qed.
Print Assumptions C111_order.
(** the help (or the version) is shown when it is asked for behind correct uses, whatever follows *)
Theorem C111_help : forall c opts, In (c, opts) the_programs -> forall us ts a t rest, spelled opts us ts -> Forall readable us -> (forall a, In a opts -> once us a) -> no_help us ->
  In a [o_help; o_version] -> (exists l, arg_long a = Some l /\ t = 45 :: 45 :: l) \/ (exists s more, arg_short a = Some s /\ t = 45 :: s :: more) ->
  parse c (ts ++ t :: rest) = Show.
Proof.
  intros c opts H us ts a t rest S R O NH Ha Ht. destruct (program_ok c opts H) as (E & P & N). subst opts. unfold parse.
  assert (AI : In a (options c)).
  { pose proof (proj1 (Forall_forall _ _) programs_end _ H) as X. cbn [snd] in X. rewrite X. apply in_or_app. right. exact Ha. }
  assert (AA : takes_value a = false /\ forall m vs, react m a vs = Show) by (destruct Ha as [<-|[<-|[]]]; split; reflexivity).
  assert (HT : hyphened t) by (destruct Ht as [(l & _ & ->)|(s & more & _ & ->)]; eexists _, _; reflexivity).
  rewrite (spelled_run c us ts N S); [|right; eexists _, _; split; [reflexivity|exact HT]]. pose proof N as (ND & _).
  destruct (proj2 (do_uses_go (options c) ND (names_types _ N) us (spelled_fits _ _ _ S) [])) as (m & ->).
  { split; [exact R|]. split; [exact NH|]. intros b Hb. destruct (O b Hb); [now left|right]. unfold taken. cbn [lookup]. lia. }
  cbn [pbind]. destruct AA as (AT & AR). destruct Ht as [(l & El & ->)|(s & more & Es & ->)].
  - rewrite pf_long. 2: { destruct N as (_ & _ & _ & _ & N & _). now apply (N a l AI). }
    unfold long. rewrite split_eq_none by (destruct N as (_ & _ & _ & _ & N & _); now apply (N a l AI)). rewrite (by_long_find _ l a N AI El), AT. cbn [resolve pbind]. now rewrite AR.
  - rewrite pf_short by (destruct N as (_ & _ & _ & N & _); now apply (N a s AI)). cbn [shorts]. rewrite (by_short_find _ s a N AI Es), AT. cbn [resolve pbind]. now rewrite AR.
Qed.
Print Assumptions C111_help.
(** an option that is not listed is refused behind correct uses, whatever follows; so is a line that starts with
    something that is not an option *)
Theorem C111_unknown : forall c opts, In (c, opts) the_programs -> forall us ts t rest, spelled opts us ts -> Forall readable us -> (forall a, In a opts -> once us a) -> no_help us ->
  (exists l v, (t = 45 :: 45 :: l \/ t = 45 :: 45 :: l ++ 61 :: v) /\ l <> [] /\ ~ In 61 l /\ forall a, In a opts -> arg_long a <> Some l) \/
  (exists s more, t = 45 :: s :: more /\ s <> 45 /\ forall a, In a opts -> arg_short a <> Some s) \/
  (ts = [] /\ ~ hyphened t) ->
  parse c (ts ++ t :: rest) = Refuse.
Proof.
  intros c opts H us ts t rest S R O NH Ht. destruct (program_ok c opts H) as (E & P & N). subst opts. unfold parse. rewrite P.
  destruct Ht as [Ht|[Ht|(-> & Ht)]]; [| |now rewrite app_nil_l, pf_plain by exact Ht].
  all: (assert (HT : hyphened t) by (destruct Ht as (l & v & Ht); [destruct Ht as ([->| ->] & L & _); destruct l; try (now destruct L); eexists _, _; reflexivity]
    || destruct Ht as (l & v & -> & _); eexists _, _; reflexivity)).
  all: (rewrite (spelled_run c us ts N S); [|right; eexists _, _; split; [reflexivity|exact HT]]); pose proof N as (ND & _).
  all: (destruct (proj2 (do_uses_go (options c) ND (names_types _ N) us (spelled_fits _ _ _ S) [])) as (m & ->);
    [split; [exact R|]; split; [exact NH|]; intros b Hb; destruct (O b Hb); [now left|right]; unfold taken; cbn [lookup]; lia|]); cbn [pbind].
  - destruct Ht as (l & v & Ht & L & X & F).
    assert (B : by_long (options c) l = None).
    { destruct (by_long (options c) l) as [a|] eqn:B; [|reflexivity]. apply by_long_ok in B. destruct B as (B1 & B2). exfalso. now apply (F a). }
    destruct Ht as [->| ->]; (rewrite pf_long by (destruct l; [congruence|discriminate])); unfold long; rewrite ?(split_eq_none l X), ?(split_eq_some l v X); now rewrite B.
  - destruct Ht as (s & more & -> & L & F). rewrite pf_short by exact L. cbn [shorts].
    destruct (by_short (options c) s) as [a|] eqn:B; [|reflexivity]. apply by_short_ok in B. destruct B as (B1 & B2). exfalso. now apply (F a).
Qed.
Print Assumptions C111_unknown.
(** builds with assertions read the command line in the same way; rle does not: it panics on every command line, since two
    of its options are called -o *)
Theorem C111_debug : forall c opts, In (c, opts) the_programs -> forall line, parse_debug c line = Ok (parse c line).
Proof. intros c opts H line. unfold parse_debug. destruct (proj1 (Forall_forall _ _) programs_ok _ H) as (_ & _ & D). cbn [fst] in D. now rewrite D. Qed.
Print Assumptions C111_debug.
Theorem C111_debug_enumerate : forall line, parse_debug enumerate_cmd line = Ok (parse enumerate_cmd line).
Proof. intros line. reflexivity. Qed.
Print Assumptions C111_debug_enumerate.
Theorem C111_rle_panics : forall line, parse_debug rle_cmd line = Panic.
Proof. intros line. reflexivity. Qed.
Print Assumptions C111_rle_panics.
(** built without assertions, -o is the output file and -h is --human *)
Lemma rle_alike : alike (options rle_cmd) rle_options.
Proof.
  let o := eval vm_compute in (options rle_cmd) in change (options rle_cmd) with o. let o := eval vm_compute in rle_options in change rle_options with o.
  split; intros x; cbn [by_short by_long arg_short arg_long].
  - repeat match goal with |- context [if ?a =? ?b then _ else _] => destruct (a =? b) end; reflexivity || exact I.
  - repeat match goal with |- context [list_eq_dec Nat.eq_dec ?a x] => destruct (list_eq_dec Nat.eq_dec a x) end; reflexivity || exact I.
Qed.
Lemma rle_parse line : parse rle_cmd line = parse (Command rle_options []) line.
Proof. apply (parse_like (options rle_cmd) rle_options rle_alike); [reflexivity|exact I]. Qed.
Lemma rle_names : names_ok rle_options.
Proof. apply table_names. reflexivity. Qed.
Theorem C111_rle_release : forall line, ((exists m, parse rle_cmd line = Go m) <-> exists us, good rle_options us line) /\
  forall us, good rle_options us line -> exists m, parse rle_cmd line = Go m /\ forall a, In a rle_options ->
    (uses_of us a = [] -> lookup m (arg_id a) = None) /\ (uses_of us a <> [] -> exists vals, values_of us a vals /\ lookup m (arg_id a) = Some vals).
Proof.
  intros line. rewrite rle_parse. assert (G : forall us, good rle_options us line -> exists m, parse (Command rle_options []) line = Go m /\ forall a, In a rle_options ->
    (uses_of us a = [] -> lookup m (arg_id a) = None) /\ (uses_of us a <> [] -> exists vals, values_of us a vals /\ lookup m (arg_id a) = Some vals)).
  { intros us (G1 & G2). exact (accepted (Command rle_options []) us line rle_names eq_refl G1 G2). }
  split; [|exact G]. split.
  - intros (m & E). exact (accepted_only (Command rle_options []) line m rle_names eq_refl E).
  - intros (us & H). destruct (G us H) as (m & E & _). now exists m.
Qed.
Print Assumptions C111_rle_release.
(** two spellings of the same uses, a refused line, and what --help does *)
Definition ws (l : list String.string) : list str := map ascii l.
Example C111_case :
  let us := [(o_in, [ascii "F"]); (o_matrix, []); (o_prefix, [ascii "7"])] in
  good bwt_options us (ws ["-iF"; "-u"; "--prefixlength=7"]%string) /\ good bwt_options us (ws ["--infilename"; "F"; "-up"; "7"; "--"]%string) /\
  (exists m, parse bwt_cmd (ws ["--infilename"; "F"; "-up"; "7"; "--"]%string) = Go m /\ arg_num m prefixlength 0 = 7 /\ arg_string m outfilename = None) /\
  parse bwt_cmd (ws ["-p"; "7"; "-p7"]%string) = Refuse /\ parse bwt_cmd (ws ["-p"; "x"]%string) = Refuse /\ parse bwt_cmd (ws ["-u"; "-hx"]%string) = Show.
Proof.
  assert (A : allowed bwt_options [(o_in, [ascii "F"]); (o_matrix, []); (o_prefix, [ascii "7"])]).
  { split; [|split; [|split]].
    - repeat constructor; [exists (VStr (ascii "F")); constructor|exists (VNum 7); constructor; [|reflexivity]]. split; [discriminate|]. split; [repeat constructor|reflexivity].
    - apply Forall_forall. repeat (constructor; [right; apply Nat.leb_le; vm_compute; reflexivity|]). constructor.
    - repeat constructor; discriminate.
    - intros a Ha R. exfalso. revert a Ha R. apply (proj1 (Forall_forall (fun a => arg_required a = true -> False) bwt_options)). repeat (constructor; [intros R; discriminate R|]). constructor. }
  cbv zeta. split; [split; [|exact A]|]. 2: split; [split; [|exact A]|].
  - eexists. split; [|left; reflexivity].
    change (spelled bwt_options ([(o_in, [ascii "F"])] ++ [(o_matrix, [])] ++ [(o_prefix, [ascii "7"])] ++ []) (ws ["-iF"]%string ++ ws ["-u"]%string ++ ws ["--prefixlength=7"]%string ++ [])).
    constructor; [apply (pc_short_att bwt_options [] [] o_in 105 (ascii "F")); try constructor; try reflexivity; discriminate|].
    constructor; [apply (pc_letters bwt_options [o_matrix] [117]); [|discriminate]; constructor; [cbn; tauto|reflexivity|reflexivity|constructor]|].
    constructor; [apply (pc_long_eq bwt_options o_prefix (ascii "prefixlength") (ascii "7")); [cbn; tauto|reflexivity|reflexivity]|constructor].
  - exists (ws ["--infilename"; "F"; "-up"; "7"]%string). split; [|right; reflexivity].
    change (spelled bwt_options ([(o_in, [ascii "F"])] ++ [(o_matrix, []); (o_prefix, [ascii "7"])] ++ []) (ws ["--infilename"; "F"]%string ++ ws ["-up"; "7"]%string ++ [])).
    assert (NH : forall c, c <> 45 -> Forall (fun v => ~ hyphened v) [[c]]) by (intros c _; constructor; [intros (x & y & E); discriminate|constructor]).
    constructor; [apply (pc_long bwt_options o_in (ascii "infilename") [ascii "F"]); [cbn; tauto|reflexivity|reflexivity|]|].
    { split; [discriminate|]. split; [now apply NH|reflexivity]. }
    constructor; [apply (pc_short bwt_options [o_matrix] [117] o_prefix 112 [ascii "7"]); [|cbn; tauto|reflexivity|reflexivity|]|constructor].
    { constructor; [cbn; tauto|reflexivity|reflexivity|constructor]. }
    { split; [discriminate|]. split; [now apply NH|reflexivity]. }
  - split; [eexists; split; [vm_compute; reflexivity|split; reflexivity]|]. repeat split; vm_compute; reflexivity.
Qed.
