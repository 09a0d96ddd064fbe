(** PropsSession.v : C115, from the command line to the files and back. In all theorems the command lines may be written in
    any way (C111): only the uses of the options matter. [file_of] maps the text of a file name to the file. *)
From Verif Require Import Base SpecStr SpecIo SpecMain SpecWord SpecBwt SpecLz SpecResult SpecArgs SpecArgs2 SpecFs LexFacts SortFacts RunFacts.
From Verif Require Import ModelWord ModelIo PropsArgs ModelCore ModelTools ModelLz ModelMain ModelEntropy ModelResult ModelFs ModelArgs ModelArgs2.
From Verif Require Import MainProof2 ArgsProof FsProof ScriptProof PropsTools PropsMain PropsLz PropsWord2 PropsResult PropsFs PropsFib PropsFib2 PropsPipe PropsMorph PropsArgs2.
From Coq Require Import NArith.

(** -i F -o G, in any spelling *)
Definition from_to (us : list use) (F G : str) : Prop := uses_of us o_in = [[F]] /\ uses_of us o_out = [[G]].
Definition unused (us : list use) (a : arg) : Prop := uses_of us a = [].
(** only the file g has changed *)
Definition only (g : name) (w0 w : world) : Prop := (forall h, h <> g -> files w h = files w0 h) /\ stdout w = stdout w0 /\ stdin w = stdin w0.

Lemma string_is us a o s : sets_string us a o -> uses_of us a = [[s]] -> o = Some s.
Proof. intros H E. destruct o as [x|]; cbn in H; rewrite E in H; [now injection H as ->|discriminate]. Qed.
Lemma string_none us a o : sets_string us a o -> uses_of us a = [] -> o = None.
Proof. intros H E. destruct o as [x|]; cbn in H; [congruence|reflexivity]. Qed.
Lemma number_default us a d n : sets_number us a d n -> unused us a -> n = d.
Proof. intros [(_ & H)|(s & k & E & _)] U; [exact H|]. unfold unused in U. congruence. Qed.
Lemma switch_off us a b : sets_switch us a b -> unused us a -> b = false.
Proof. intros H U. destruct b; [|reflexivity]. exfalso. now apply (proj1 H eq_refl). Qed.
Lemma switch_on us a b : sets_switch us a b -> uses_of us a <> [] -> b = true.
Proof. intros H U. now apply H. Qed.
Definition word_name_eq_dec (a b : word_name) : {a = b} + {a <> b}. Proof. decide equality. Defined.
Lemma number_unique us a d n m : (forall names, arg_type a <> OneOf names) -> sets_number us a d n -> sets_number us a d m -> n = m.
Proof.
  intros T [(E & ->)|(x & i & E & H & ->)] [(E' & ->)|(x' & j & E' & H' & ->)]; try congruence. assert (x' = x) by congruence. subst x'.
  assert (K : type_ok (arg_type a)) by (intros names X; exfalso; now apply (T names)).
  apply (parse_value_ok _ _ _ K) in H, H'. congruence.
Qed.
Lemma write_run f text w0 : exists w, run (CreateOut (Some f) (WriteOut text (Ret tt))) w0 = (w, Ok tt) /\ only f w0 w /\ files w f = Some text.
Proof.
  destruct (emits_file f text (create_out w0 (Some f)) []) as (A & B & C & D & E); [reflexivity|apply put_eq|].
  exists (emits (create_out w0 (Some f)) text). split; [reflexivity|]. split; [|exact B]. split; [|rewrite D, E; auto].
  intros h Hh. rewrite (C h Hh). apply put_ne, Hh.
Qed.

(** reverse *)
Theorem C115_reverse : forall file_of us line F G w0 text, good reverse_options us line -> from_to us F G -> unused us o_prefix ->
  file_of F <> file_of G -> files w0 (file_of F) = Some text ->
  exists p w, reverse_program file_of line = Ran p /\ run p w0 = (w, Ok tt) /\ only (file_of G) w0 w /\ files w (file_of G) = Some (rev text).
Proof.
  intros file_of us line F G w0 text HG (HI & HO) HP N HF. destruct (proj1 (C112_reverse file_of line) us HG) as (p & i & o & Sp & Si & So & E).
  rewrite (string_is _ _ _ _ Si HI), (string_is _ _ _ _ So HO), (number_default _ _ _ _ Sp HP) in E. eexists. cbn [option_map] in E.
  destruct (write_run (file_of G) (rev text) w0) as (w & R & U & W). exists w. split; [exact E|]. split; [|auto].
  rewrite <- R. unfold reverse_io. cbn [run]. cbn [contents create_out files]. rewrite put_ne by exact N. rewrite HF. cbn [is_some]. rewrite C33_reverse. reflexivity.
Qed.
Print Assumptions C115_reverse.
Theorem C115_reverse_twice : forall file_of us1 line1 us2 line2 F G H w0 text, good reverse_options us1 line1 -> from_to us1 F G -> unused us1 o_prefix ->
  good reverse_options us2 line2 -> from_to us2 G H -> unused us2 o_prefix -> file_of F <> file_of G -> file_of G <> file_of H -> files w0 (file_of F) = Some text ->
  exists p1 w1 p2 w2, reverse_program file_of line1 = Ran p1 /\ run p1 w0 = (w1, Ok tt) /\ reverse_program file_of line2 = Ran p2 /\ run p2 w1 = (w2, Ok tt) /\
    files w2 (file_of H) = Some text.
Proof.
  intros file_of us1 line1 us2 line2 F G H w0 text G1 T1 P1 G2 T2 P2 N1 N2 HF.
  destruct (C115_reverse file_of us1 line1 F G w0 text G1 T1 P1 N1 HF) as (p1 & w1 & E1 & R1 & _ & W1).
  destruct (C115_reverse file_of us2 line2 G H w1 (rev text) G2 T2 P2 N2 W1) as (p2 & w2 & E2 & R2 & _ & W2).
  rewrite rev_involutive in W2. exists p1, w1, p2, w2. auto.
Qed.
Print Assumptions C115_reverse_twice.

(** word: the file holds the requested word *)
Theorem C115_word : forall file_of us line s v k F w0, good word_options us line -> In (s, v) the_words -> uses_of us o_name = [[s]] ->
  sets_number us o_k 0 k -> uses_of us o_out = [[F]] -> writes v k ->
  exists p w text, word_program file_of line = Ran p /\ run p w0 = (w, Ok tt) /\ only (file_of F) w0 w /\ files w (file_of F) = Some text /\
    word_main v k = Ok text /\ described v k text.
Proof.
  intros file_of us line s v k F w0 HG HV HN HK HO HW. destruct (proj1 (C112_word file_of line) us HG) as (s' & v' & k' & o & V' & N' & U & K' & L & So & E).
  assert (Es : s' = s) by congruence. subst s'. assert (Ev : v' = v).
  { assert (D : forallb (fun a => forallb (fun b => if list_eq_dec Nat.eq_dec (fst a) (fst b) then (if word_name_eq_dec (snd a) (snd b) then true else false) else true) the_words) the_words = true) by (vm_compute; reflexivity).
    rewrite forallb_forall in D. specialize (D _ V'). rewrite forallb_forall in D. specialize (D _ HV). cbn [fst snd] in D.
    destruct (list_eq_dec _ _ _); [|congruence]. destruct (word_name_eq_dec v' v); congruence. }
  subst v'. assert (Ek : k' = k) by (apply (number_unique us o_k 0); [intros names X; discriminate X|exact K'|exact HK]).
  subst k'. rewrite (string_is _ _ _ _ So HO) in E. cbn [option_map] in E. destruct (C64_word_program v k HW) as (text & ET & D).
  destruct (write_run (file_of F) text w0) as (w & R & U' & W). eexists _, w, text. split; [exact E|]. split; [|auto].
  rewrite <- R. unfold word_io. rewrite ET. reflexivity.
Qed.
Print Assumptions C115_word.

(** the settings of escape *)
Definition escaping (us : list use) (p e : nat) (from to : str) : Prop :=
  sets_number us o_prefix 0 p /\ sets_number us o_escape 0 e /\ sets_numbers us o_from from /\ sets_numbers us o_to to.
Lemma numbers_unique us a l m : (forall names, arg_type a <> OneOf names) -> sets_numbers us a l -> sets_numbers us a m -> l = m.
Proof.
  intros T (ks & H & ->) (js & H' & ->). assert (K : type_ok (arg_type a)) by (intros names X; exfalso; now apply (T names)).
  apply (parse_values_ok _ _ K) in H, H'. rewrite H in H'. injection H' as H'. f_equal. revert js H'. clear. induction ks as [|k ks IH]; intros [|j js] E; try discriminate; [reflexivity|].
  injection E as -> E. f_equal. auto.
Qed.
Lemma escape_runs file_of us line F G p e from to b w0 text : good escape_options us line -> from_to us F G -> escaping us p e from to -> (uses_of us o_reversion <> [] <-> b = true) ->
  file_of F <> file_of G -> files w0 (file_of F) = Some text -> stdout w0 = [] ->
  length from = length to -> ~ In e from -> ~ In e to -> (forall x, In x from -> ~ In x to) ->
  exists q, escape_program file_of line = Ran q /\ match escape_main p e from to b (reader_of text) with
  | Ok code => exists w, run q w0 = (w, Ok tt) /\ untouched (Some (file_of G)) w0 w /\ files w (file_of G) = Some code
  | Panic => exists w, run q w0 = (w, Panic)
  | OutOfFuel => False
  end.
Proof.
  intros HG (HI & HO) (Sp & Se & Sf & St) HB N HF HS C1 C2 C3 C4.
  destruct (proj1 (C112_escape file_of line) us HG) as (p' & e' & from' & to' & rv & i & o & Sp' & Se' & Sf' & St' & Sr & Si & So & E).
  rewrite (string_is _ _ _ _ Si HI), (string_is _ _ _ _ So HO) in E. cbn [option_map] in E.
  rewrite (number_unique us o_prefix 0 p' p) in E by (try (intros names X; discriminate X); assumption).
  rewrite (number_unique us o_escape 0 e' e) in E by (try (intros names X; discriminate X); assumption).
  rewrite (numbers_unique us o_from from' from) in E by (try (intros names X; discriminate X); assumption).
  rewrite (numbers_unique us o_to to' to) in E by (try (intros names X; discriminate X); assumption).
  assert (Er : rv = b) by (unfold sets_switch in Sr; destruct rv, b; try reflexivity; exfalso; intuition congruence). rewrite Er in E.
  eexists. split; [exact E|]. apply (C82_escape_run p e from to b (Some (file_of F)) (Some (file_of G)) w0 text); auto.
  intros f X. injection X as <-. intros Y. injection Y as Y. congruence.
Qed.
(** escape and then escape --is-reversion with the same settings restore the file, if -p covers it *)
Theorem C115_escape_roundtrip : forall file_of us1 line1 us2 line2 F G H p e from to w0 text,
  good escape_options us1 line1 -> from_to us1 F G -> escaping us1 p e from to -> unused us1 o_reversion ->
  good escape_options us2 line2 -> from_to us2 G H -> escaping us2 p e from to -> uses_of us2 o_reversion <> [] ->
  file_of F <> file_of G -> file_of G <> file_of H -> files w0 (file_of F) = Some text -> stdout w0 = [] -> length text <= p ->
  length from = length to -> ~ In e from -> ~ In e to -> (forall x, In x from -> ~ In x to) ->
  (forall i j, i < length to -> j < length to -> nth i to 0 = nth j to 0 -> nth i from 0 = nth j from 0) ->
  exists p1 w1 p2 w2, escape_program file_of line1 = Ran p1 /\ run p1 w0 = (w1, Ok tt) /\ escape_program file_of line2 = Ran p2 /\ run p2 w1 = (w2, Ok tt) /\
    (forall c code, files w1 (file_of G) = Some code -> In c from -> ~ In c code) /\ files w2 (file_of H) = Some text.
Proof.
  intros file_of us1 line1 us2 line2 F G H p e from to w0 text G1 T1 S1 R1 G2 T2 S2 R2 N1 N2 HF HS HL C1 C2 C3 C4 C5.
  destruct (escape_runs file_of us1 line1 F G p e from to false w0 text G1 T1 S1) as (p1 & E1 & M1); auto.
  { unfold unused in R1. rewrite R1. split; [intros X; now contradict X|discriminate]. }
  destruct (C30_escape_never_panics p e from to (reader_of text) text C1 C2 C3 C4 (reader_of_delivers text)) as (code & EC). rewrite EC in M1.
  destruct M1 as (w1 & Q1 & (U1 & U2) & W1).
  destruct (escape_runs file_of us2 line2 G H p e from to true w1 code G2 T2 S2) as (p2 & E2 & M2); auto.
  { split; [reflexivity|auto]. }
  { rewrite U2 by discriminate. exact HS. }
  rewrite (C30_escape_roundtrip p p e from to (reader_of text) (reader_of code) text code C5 (reader_of_delivers text) EC (reader_of_delivers code) (Nat.le_refl p)) in M2.
  rewrite firstn_all2 in M2 by exact HL. destruct M2 as (w2 & Q2 & _ & W2). exists p1, w1, p2, w2. split; [exact E1|]. split; [exact Q1|]. split; [exact E2|]. split; [exact Q2|].
  split; [|exact W2]. intros c code' X. rewrite W1 in X. injection X as <-. apply (C30_escape_removes_from_symbols p e from to (reader_of text) text code (reader_of_delivers text) EC).
Qed.
Print Assumptions C115_escape_roundtrip.

(** bwt: the file gets the transform of the text and an end marker *)
Theorem C115_bwt : forall sort file_of us line F G w0 text, (forall t, is_suffix_array t (sort t)) ->
  good bwt_options us line -> from_to us F G -> unused us o_prefix -> unused us o_matrix -> unused us o_nodollar ->
  files w0 (file_of F) = Some text -> ~ In 0 text ->
  exists p w b, bwt_program sort file_of line = Ran p /\ run p w0 = (w, Ok tt) /\ only (file_of G) w0 w /\ files w (file_of G) = Some b /\
    is_matrix_bwt (text ++ [0]) b.
Proof.
  intros sort file_of us line F G w0 text Hs HG (HI & HO) HP HM HN HF H0.
  destruct (proj1 (C112_bwt sort file_of line) us HG) as (p & mx & nd & i & o & Sp & Sm & Sn & Si & So & E).
  rewrite (string_is _ _ _ _ Si HI), (string_is _ _ _ _ So HO), (number_default _ _ _ _ Sp HP), (switch_off _ _ _ Sm HM), (switch_off _ _ _ Sn HN) in E. cbn [option_map] in E.
  destruct (C59_bwt_default sort text 0 Hs H0) as (b & EB & HB).
  destruct (write_run (file_of G) b w0) as (w & R & U & W). eexists _, w, b. split; [exact E|]. split; [|auto].
  rewrite <- R. unfold bwt_io. cbn [run contents]. rewrite HF. cbn [is_some]. rewrite EB. reflexivity.
Qed.
Print Assumptions C115_bwt.

(** mtf *)
Theorem C115_mtf : forall fuel file_of us line F G w0 text, good mtf_options us line -> from_to us F G ->
  file_of F <> file_of G -> files w0 (file_of F) = Some text -> stdout w0 = [] -> length text < fuel -> Forall (fun c => c < 255) text ->
  exists p w code, mtf_program fuel file_of line = Ran p /\ run p w0 = (w, Ok tt) /\ untouched (Some (file_of G)) w0 w /\ files w (file_of G) = Some code /\
    mtf_decode (seq 0 255) code = Some text.
Proof.
  intros fuel file_of us line F G w0 text HG (HI & HO) N HF HS HL HB. destruct (proj1 (C112_mtf fuel file_of line) us HG) as (i & o & Si & So & E).
  rewrite (string_is _ _ _ _ Si HI), (string_is _ _ _ _ So HO) in E. cbn [option_map] in E.
  destruct (C82_mtf_run fuel (Some (file_of F)) (Some (file_of G)) w0 text HF) as (A & _); auto.
  { intros f X. injection X as <-. intros Y. injection Y as Y. congruence. }
  destruct (A HB) as (w & code & R & U & W & D). exists (mtf_io fuel (Some (file_of F)) (Some (file_of G))), w, code. auto.
Qed.
Print Assumptions C115_mtf.

(** input i is what a program started in the world w reads under the option -i *)
Definition sees (file_of : str -> name) (w : world) (input : option str -> str) : Prop :=
  forall f t, files w (file_of f) = Some t -> input (Some f) = t.
Definition sees_by (file_of : str -> name) (w : world) (input : option str -> reader) : Prop :=
  forall f t, files w (file_of f) = Some t -> delivers (input (Some f)) t.

(** the line of count_r for the file F: n letters, r runs; the line of count_z: n letters, z factors *)
Definition count_r_line (F : str) (time n r : nat) (nd um : bool) (line : str) : Prop := exists dt dn dr,
  result_line line [(ascii "algo", ascii "bwt"); (ascii "time_ms", dt); (ascii "length", dn); (ascii "bwt_runs", dr);
                    (ascii "file", F); (ascii "no_dollar", shown_bool nd); (ascii "use_matrix", shown_bool um)] /\
  is_decimal dt time /\ is_decimal dn n /\ is_decimal dr r.
Definition count_z_line (F : str) (time n z : nat) (line : str) : Prop := exists dt dn df,
  result_line line [(ascii "file", F); (ascii "length", dn); (ascii "algo", ascii "lz77"); (ascii "time_ms", dt); (ascii "factors", df)] /\
  is_decimal dt time /\ is_decimal dn n /\ is_decimal df z.

Lemma count_r_shows sort time F text um nd n r : word_like F -> count_r_main sort true text 0 um nd = Ok (n, r) ->
  exists l, count_r_out sort time (Some F) text 0 um nd = Ok l /\ count_r_line F time n r nd um l.
Proof.
  intros HF E. destruct (bwt_main sort true text 0 um nd) as [b| |] eqn:EB; [|unfold count_r_main in E; rewrite EB in E; discriminate..].
  pose proof (C59_count_r sort true text 0 um nd b (runs b) EB (runs_ok b)) as E'. rewrite E in E'. injection E' as -> ->.
  destruct (C96_count_r sort time (Some F) text 0 um nd b (runs b) HF EB (runs_ok b)) as (l & dt & dn & dr & EL & H1 & H2 & H3 & H4).
  exists l. split; [exact EL|]. exists dt, dn, dr. auto.
Qed.

(** word -n NAME -k K -o F, then count_r -u -n -i F *)
Lemma word_then_count_r sort time file_of us1 line1 s v k F w0 n r us2 line2 input text :
  good word_options us1 line1 -> In (s, v) the_words -> uses_of us1 o_name = [[s]] -> sets_number us1 o_k 0 k -> uses_of us1 o_out = [[F]] -> writes v k ->
  good count_r_options us2 line2 -> uses_of us2 o_in = [[F]] -> unused us2 o_prefix -> uses_of us2 o_matrix <> [] -> uses_of us2 o_nodollar <> [] -> word_like F ->
  word_main v k = Ok text -> count_r_main sort true text 0 true true = Ok (n, r) ->
  exists p w, word_program file_of line1 = Ran p /\ run p w0 = (w, Ok tt) /\ (sees file_of w input ->
    exists l, count_r_report sort time input line2 = Ran (Ok l) /\ count_r_line F time n r true true l).
Proof.
  intros G1 HV HN HK HO HW G2 HI HP HM HD HF ET ER.
  destruct (C115_word file_of us1 line1 s v k F w0 G1 HV HN HK HO HW) as (p & w & t & E & R & _ & W & ET' & _). rewrite ET in ET'. injection ET' as <-.
  exists p, w. split; [exact E|]. split; [exact R|]. intros S.
  destruct (proj1 (C112_count_r sort time input line2) us2 G2) as (p' & mx & nd & i & Sp & Sm & Sn & Si & E2).
  rewrite (string_is _ _ _ _ Si HI), (number_default _ _ _ _ Sp HP), (switch_on _ _ _ Sm HM), (switch_on _ _ _ Sn HD), (S F text W) in E2.
  destruct (count_r_shows sort time F text true true n r HF ER) as (l & EL & HL). rewrite EL in E2. exists l. auto.
Qed.
Definition makes_word (us : list use) (name : str) (k : nat) (F : str) : Prop :=
  uses_of us o_name = [[name]] /\ sets_number us o_k 0 k /\ uses_of us o_out = [[F]].
Definition counts_runs_of (us : list use) (F : str) : Prop :=
  uses_of us o_in = [[F]] /\ unused us o_prefix /\ uses_of us o_matrix <> [] /\ uses_of us o_nodollar <> [].
Lemma rot_0 (t : str) : rot 0 t = t.
Proof. unfold rot. cbn [skipn firstn]. apply app_nil_r. Qed.
Theorem C115_thuemorse_runs : forall sort time file_of us1 line1 k F w0 us2 line2 input, (forall t, is_suffix_array t (sort t)) ->
  good word_options us1 line1 -> makes_word us1 (ascii "thue-morse") k F -> good count_r_options us2 line2 -> counts_runs_of us2 F -> word_like F -> 1 <= k <= 62 ->
  exists p w, word_program file_of line1 = Ran p /\ run p w0 = (w, Ok tt) /\ (sees file_of w input ->
    exists l, count_r_report sort time input line2 = Ran (Ok l) /\ count_r_line F time (2 ^ k) (2 * k) true true l).
Proof.
  intros sort time file_of us1 line1 k F w0 us2 line2 input Hs G1 (A & B & C) G2 (D & E & G & H) HF HK.
  destruct (C110_thuemorse_runs sort k Hs ltac:(lia)) as (t & ET & ER). specialize (ER 0 (Nat.le_0_l _)). rewrite rot_0 in ER.
  apply (word_then_count_r sort time file_of us1 line1 (ascii "thue-morse") ThueMorse k F w0 _ _ us2 line2 input t); auto; [find_in|].
  left. unfold writes_up_to. lia.
Qed.
Print Assumptions C115_thuemorse_runs.
Theorem C115_period_doubling_runs : forall sort time file_of us1 line1 k F w0 us2 line2 input, (forall t, is_suffix_array t (sort t)) ->
  good word_options us1 line1 -> makes_word us1 (ascii "period-doubling") k F -> good count_r_options us2 line2 -> counts_runs_of us2 F -> word_like F -> 2 <= k <= 62 ->
  exists p w, word_program file_of line1 = Ran p /\ run p w0 = (w, Ok tt) /\ (sees file_of w input ->
    exists l, count_r_report sort time input line2 = Ran (Ok l) /\ count_r_line F time (2 ^ k) (2 * k - 2) true true l).
Proof.
  intros sort time file_of us1 line1 k F w0 us2 line2 input Hs G1 (A & B & C) G2 (D & E & G & H) HF HK.
  destruct (C110_period_doubling_runs sort k Hs ltac:(lia)) as (t & ET & ER). specialize (ER 0 (Nat.le_0_l _)). rewrite rot_0 in ER.
  apply (word_then_count_r sort time file_of us1 line1 (ascii "period-doubling") PeriodDoubling k F w0 _ _ us2 line2 input t); auto; [find_in|].
  left. unfold writes_up_to. lia.
Qed.
Print Assumptions C115_period_doubling_runs.
Theorem C115_vtm_runs : forall sort time file_of us1 line1 k F w0 us2 line2 input, (forall t, is_suffix_array t (sort t)) ->
  good word_options us1 line1 -> makes_word us1 (ascii "vtm") k F -> good count_r_options us2 line2 -> counts_runs_of us2 F -> word_like F -> 1 <= k <= 29 ->
  exists p w text, word_program file_of line1 = Ran p /\ run p w0 = (w, Ok tt) /\ files w (file_of F) = Some text /\ (sees file_of w input ->
    exists l, count_r_report sort time input line2 = Ran (Ok l) /\ count_r_line F time (length text) (2 * k + 1) true true l).
Proof.
  intros sort time file_of us1 line1 k F w0 us2 line2 input Hs G1 (A & B & C) G2 (D & E & G & H) HF HK.
  destruct (C110_vtm_runs sort k Hs ltac:(lia)) as (t & ET & ER). specialize (ER 0 (Nat.le_0_l _)). rewrite rot_0 in ER.
  assert (HW : writes Vtm k) by (left; unfold writes_up_to; lia).
  destruct (C115_word file_of us1 line1 (ascii "vtm") Vtm k F w0 G1 ltac:(find_in) A B C HW) as (p & w & t' & E' & R & _ & W & ET' & _).
  destruct (word_then_count_r sort time file_of us1 line1 (ascii "vtm") Vtm k F w0 (length t) (2 * k + 1) us2 line2 input t) as (p2 & w2 & E2 & R2 & S2); auto; [find_in|].
  rewrite E' in E2. injection E2 as <-. rewrite R in R2. injection R2 as <-. cbn [word_main] in ET'. rewrite ET in ET'. injection ET' as <-.
  exists p, w, t. auto.
Qed.
Print Assumptions C115_vtm_runs.

(** word -n fibonacci -k K -o F, then count_z -i F *)
Theorem C115_fibonacci_factors : forall sort time file_of us1 line1 k F w0 us2 line2 input, (forall t, is_suffix_array t (sort t)) ->
  good word_options us1 line1 -> makes_word us1 (ascii "fibonacci") k F -> good count_z_options us2 line2 -> uses_of us2 o_in = [[F]] -> unused us2 o_prefix ->
  word_like F -> k <= 45 ->
  exists p w, word_program file_of line1 = Ran p /\ run p w0 = (w, Ok tt) /\ files w (file_of F) = Some (fib_word k) /\ (sees file_of w input ->
    exists l, count_z_report sort time input line2 = Ran (Ok l) /\ count_z_line F time (length (fib_word k)) (k + 1) l).
Proof.
  intros sort time file_of us1 line1 k F w0 us2 line2 input Hs G1 (A & B & C) G2 D E HF HK.
  destruct (C105_count_z sort k Hs HK) as (t & fs & ET & EZ & L & _).
  assert (HW : writes Fibonacci k) by (left; unfold writes_up_to; lia).
  destruct (C115_word file_of us1 line1 (ascii "fibonacci") Fibonacci k F w0 G1 ltac:(find_in) A B C HW) as (p & w & t' & E' & R & _ & W & ET' & DE).
  cbn [described] in DE. subst t'. cbn [word_main] in ET'. rewrite ET in ET'. injection ET' as ->.
  exists p, w. do 3 (split; [assumption|]). intros S.
  destruct (proj1 (C112_count_z_prints sort time input line2) us2 G2) as (p' & i & Sp & Si & E2).
  rewrite (string_is _ _ _ _ Si D), (number_default _ _ _ _ Sp E), (S F _ W) in E2.
  assert (HN : fib_word k <> []) by apply fib_ne.
  destruct (C96_count_z sort time (Some F) (fib_word k) 0 (fib_word k) Hs) as (l & dt & dn & df & z & EL & H1 & H2 & H3 & H4 & H5 & H6); auto.
  { split; [reflexivity|discriminate]. }
  { apply F_bytes. }
  { apply (fib_small k HK). }
  rewrite EL in E2. exists l. split; [exact E2|]. exists dt, dn, df. do 3 (split; [assumption|]).
  destruct (C37_lz77_minimal sort (fib_word k) Hs HN (F_bytes k) (fib_small k HK)) as (fs' & EF & P1 & P2).
  rewrite EZ in EF. injection EF as <-. specialize (P2 z H5). specialize (H6 _ P1). replace (k + 1) with z by lia. exact H4.
Qed.
Print Assumptions C115_fibonacci_factors.

(** bwt -i F -o G, then count_runs -i G, prints the number that count_r -i F prints, for equal uses of the other options *)
Theorem C115_bwt_count_runs : forall sort time fuel file_of us1 line1 us2 line2 us3 line3 F G w0 text q w b p mx nd input1 input2,
  good bwt_options us1 line1 -> from_to us1 F G -> sets_number us1 o_prefix 0 p -> sets_switch us1 o_matrix mx -> sets_switch us1 o_nodollar nd ->
  good count_runs_options us2 line2 -> uses_of us2 o_in = [[G]] ->
  good count_r_options us3 line3 -> uses_of us3 o_in = [[F]] -> sets_number us3 o_prefix 0 p -> sets_switch us3 o_matrix mx -> sets_switch us3 o_nodollar nd -> word_like F ->
  files w0 (file_of F) = Some text -> sees file_of w0 input1 ->
  bwt_program sort file_of line1 = Ran q -> run q w0 = (w, Ok tt) -> files w (file_of G) = Some b -> sees_by file_of w input2 -> length b < fuel ->
  exists r l d, count_r_report sort time input1 line3 = Ran (Ok l) /\ count_r_line F time (length b) r nd mx l /\
    count_runs_program fuel input2 line2 = Ran (Ok (d ++ newline)) /\ is_decimal d r.
Proof.
  intros sort time fuel file_of us1 line1 us2 line2 us3 line3 F G w0 text q w b p mx nd input1 input2 G1 (HI & HO) P1 M1 N1 G2 I2 G3 I3 P3 M3 N3 HF T0 S1 Q R B S2 HL.
  destruct (proj1 (C112_bwt sort file_of line1) us1 G1) as (p1 & mx1 & nd1 & i1 & o1 & Sp1 & Sm1 & Sn1 & Si1 & So1 & E1).
  destruct (proj1 (C112_count_r sort time input1 line3) us3 G3) as (p3 & mx3 & nd3 & i3 & Sp3 & Sm3 & Sn3 & Si3 & E3).
  destruct (proj1 (C112_count_runs fuel input2 line2) us2 G2) as (i2 & Si2 & E2).
  assert (SW : forall us a x y, sets_switch us a x -> sets_switch us a y -> x = y).
  { intros us a x y X Y. unfold sets_switch in X, Y. destruct x, y; try reflexivity; exfalso; intuition congruence. }
  rewrite (string_is _ _ _ _ Si1 HI), (string_is _ _ _ _ So1 HO), (SW _ _ _ _ Sm1 M1), (SW _ _ _ _ Sn1 N1) in E1.
  rewrite (number_unique us1 o_prefix 0 p1 p) in E1 by (try (intros names X; discriminate X); assumption).
  rewrite (string_is _ _ _ _ Si3 I3), (SW _ _ _ _ Sm3 M3), (SW _ _ _ _ Sn3 N3), (S1 F text T0) in E3.
  rewrite (number_unique us3 o_prefix 0 p3 p) in E3 by (try (intros names X; discriminate X); assumption).
  rewrite (string_is _ _ _ _ Si2 I2) in E2. cbn [option_map] in E1. rewrite Q in E1. injection E1 as ->.
  unfold bwt_io in R. cbn [run contents] in R. rewrite T0 in R. cbn [is_some] in R.
  destruct (bwt_main sort true text p mx nd) as [b'| |] eqn:EB; [|discriminate R..].
  destruct (write_run (file_of G) b' w0) as (w' & R' & _ & W').
  assert (ER : run (CreateOut (Some (file_of G)) (WriteOut b' (Ret tt))) w0 = (w, Ok tt)) by exact R. rewrite R' in ER. injection ER as ->. rewrite W' in B. injection B as ->.
  destruct (C78_bwt_then_count_runs sort true text p mx nd b (input2 (Some G)) fuel EB (S2 G b W') HL) as (r & EN & EC).
  pose proof (C59_count_r sort true text p mx nd b (runs b) EB (runs_ok b)) as E'. rewrite EC in E'. injection E' as ->.
  destruct (C96_count_r sort time (Some F) text p mx nd b (runs b) HF EB (runs_ok b)) as (l & dt & dn & dr & EL & H1 & H2 & H3 & H4).
  rewrite EN in E2. rewrite EL in E3. exists (length (runs b)), l, (dec_usize (length (runs b))). split; [exact E3|].
  split; [exists dt, dn, dr; auto|]. split; [exact E2|apply dec_usize_ok].
Qed.
Print Assumptions C115_bwt_count_runs.

Lemma names_distinct : NoDup the_names.
Proof. unfold the_names. repeat (constructor; [intros X; repeat (destruct X as [X|X]; [discriminate X|]); exact X|]). constructor. Qed.
(** word -n thue-morse -k3 -o F; count_r -i F -un *)
Example C115_case : forall file_of time w0 input,
  let us1 := [(o_name, [ascii "thue-morse"]); (o_k, [ascii "3"]); (o_out, [ascii "F"])] in
  let us2 := [(o_in, [ascii "F"]); (o_matrix, []); (o_nodollar, [])] in
  good word_options us1 (ws ["-n"; "thue-morse"; "-k3"; "-o"; "F"]%string) /\ makes_word us1 (ascii "thue-morse") 3 (ascii "F") /\
  good count_r_options us2 (ws ["-i"; "F"; "-un"]%string) /\ counts_runs_of us2 (ascii "F") /\ word_like (ascii "F") /\
  (exists p w, word_program file_of (ws ["-n"; "thue-morse"; "-k3"; "-o"; "F"]%string) = Ran p /\ run p w0 = (w, Ok tt) /\ (sees file_of w input ->
    exists l, count_r_report naive_sort time input (ws ["-i"; "F"; "-un"]%string) = Ran (Ok l) /\ count_r_line (ascii "F") time 8 6 true true l)).
Proof.
  intros file_of time w0 input us1 us2.
  assert (NH : forall c l, c <> 45 -> Forall (fun v => ~ hyphened v) [c :: l]) by (intros c l N; constructor; [intros (x & y & E); injection E as E; congruence|constructor]).
  assert (G1 : good word_options us1 (ws ["-n"; "thue-morse"; "-k3"; "-o"; "F"]%string)).
  { split.
    - eexists. split; [|left; reflexivity].
      change (spelled word_options ([(o_name, [ascii "thue-morse"])] ++ [(o_k, [ascii "3"])] ++ [(o_out, [ascii "F"])] ++ []) (ws ["-n"; "thue-morse"]%string ++ ws ["-k3"]%string ++ ws ["-o"; "F"]%string ++ [])).
      constructor; [apply (pc_short word_options [] [] o_name 110 [ascii "thue-morse"]); [constructor|find_in|reflexivity|reflexivity|]|].
      { split; [discriminate|]. split; [now apply NH|reflexivity]. }
      constructor; [apply (pc_short_att word_options [] [] o_k 107 (ascii "3")); try constructor; try reflexivity; discriminate|].
      constructor; [apply (pc_short word_options [] [] o_out 111 [ascii "F"]); [constructor|find_in|reflexivity|reflexivity|]|constructor].
      split; [discriminate|]. split; [now apply NH|reflexivity].
    - split; [|split; [|split]].
      + constructor; [constructor; [exists (VName 4); constructor; [reflexivity|apply names_distinct]|constructor]|].
        constructor; [constructor; [exists (VNum 3); constructor; [|reflexivity]|constructor]|].
        { split; [discriminate|]. split; [repeat constructor|reflexivity]. }
        constructor; [constructor; [exists (VStr (ascii "F")); constructor|constructor]|constructor].
      + apply Forall_forall. repeat (constructor; [right; apply Nat.leb_le; vm_compute; reflexivity|]). constructor.
      + repeat constructor; discriminate.
      + intros a Ha R. revert a Ha R. apply (proj1 (Forall_forall (fun a => arg_required a = true -> used us1 a) word_options)).
        repeat (constructor; [intros R; first [discriminate R|intros X; vm_compute in X; discriminate X]|]). constructor. }
  assert (G2 : good count_r_options us2 (ws ["-i"; "F"; "-un"]%string)).
  { split.
    - eexists. split; [|left; reflexivity].
      change (spelled count_r_options ([(o_in, [ascii "F"])] ++ [(o_matrix, []); (o_nodollar, [])] ++ []) (ws ["-i"; "F"]%string ++ ws ["-un"]%string ++ [])).
      constructor; [apply (pc_short count_r_options [] [] o_in 105 [ascii "F"]); [constructor|find_in|reflexivity|reflexivity|]|].
      { split; [discriminate|]. split; [now apply NH|reflexivity]. }
      constructor; [apply (pc_letters count_r_options [o_matrix; o_nodollar] [117; 110]); [|discriminate]|constructor].
      constructor; [find_in|reflexivity|reflexivity|]. constructor; [find_in|reflexivity|reflexivity|constructor].
    - split; [|split; [|split]].
      + constructor; [constructor; [exists (VStr (ascii "F")); constructor|constructor]|repeat constructor].
      + apply Forall_forall. repeat (constructor; [right; apply Nat.leb_le; vm_compute; reflexivity|]). constructor.
      + repeat constructor; discriminate.
      + intros a Ha R. exfalso. revert a Ha R. apply (proj1 (Forall_forall (fun a => arg_required a = true -> False) count_r_options)). repeat (constructor; [intros R; discriminate R|]). constructor. }
  assert (M1 : makes_word us1 (ascii "thue-morse") 3 (ascii "F")).
  { split; [reflexivity|]. split; [|reflexivity]. right. exists (ascii "3"), 3%N. split; [reflexivity|]. split; [|reflexivity]. constructor; [|reflexivity].
    split; [discriminate|]. split; [repeat constructor|reflexivity]. }
  assert (M2 : counts_runs_of us2 (ascii "F")).
  { split; [reflexivity|]. split; [reflexivity|]. split; discriminate. }
  assert (WL : word_like (ascii "F")) by (split; [discriminate|split; intros [X|[]]; discriminate X]).
  do 5 (split; [assumption|]). exact (C115_thuemorse_runs naive_sort time file_of us1 _ 3 (ascii "F") w0 us2 _ input naive_sort_ok G1 M1 G2 M2 WL ltac:(lia)).
Qed.
