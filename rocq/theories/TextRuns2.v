(** TextRuns2.v : the BWT of a text has at most 2 rho + 1 runs, rho the number of equal-letter runs of the text (C120) *)
From Verif Require Import Base SpecStr LexFacts ModelCore PermFacts SortFacts LcpProof ModelLz SpecLz LzProof MusProof SpecLex LexProof
  BbwtProof SpecBwt BwtFacts BwtProof SpecIo RunFacts LexRuns TextRuns.

(** a property that holds somewhere below n and a largest place where it does *)
Lemma largest (P : nat -> Prop) (dec : forall z, P z \/ ~ P z) n x : x < n -> P x ->
  exists y, x <= y < n /\ P y /\ forall z, z < n -> P z -> z <= y.
Proof.
  induction n as [|n IH]; intros Hx HP; [lia|]. destruct (dec n) as [D|D].
  - exists n. split; [lia|]. split; [exact D|]. intros; lia.
  - assert (x <> n) by (intros ->; contradiction). destruct (IH ltac:(lia) HP) as (y & Y1 & Y2 & Y3).
    exists y. split; [lia|]. split; [exact Y2|]. intros z Hz Pz. assert (z <> n) by (intros ->; contradiction). apply Y3; [lia|exact Pz].
Qed.
Section B.
Context (s : str) (Hz : ~ In 0 s) (Hne : s <> []).
Let t := s ++ [0].
Context (sa isa phi plcp : list nat).
Context (HSA : is_suffix_array t sa) (Ei : inverse_permutation sa = Ok isa) (HPi : is_perm (length t) isa)
  (Lp : length plcp = length t)
  (Hi1 : forall i, i < length t -> nth (nth i sa 0) isa 0 = i)
  (Hi2 : forall j, j < length t -> nth (nth j isa 0) sa 0 = j)
  (Hp0 : nth (nth 0 sa 0) phi 0 = nth (length t - 1) sa 0).
Let b := sa_letters t sa.
Let El : length t = S (length s).
Proof. unfold t. rewrite app_length. cbn [length]. lia. Qed.
Let Lb : length b = length t.
Proof. unfold b, sa_letters. rewrite map_length. apply is_perm_length, HSA. Qed.
Let salt x : x < length t -> nth x sa 0 < length t.
Proof. intros H. apply is_perm_nth; [apply HSA|exact H]. Qed.
Let isalt x : x < length t -> nth x isa 0 < length t.
Proof. intros H. now apply is_perm_nth. Qed.
Let bn x : x < length t -> nth x b 0 = if nth x sa 0 =? 0 then 0 else nth (nth x sa 0 - 1) t 0.
Proof. intros H. exact (b_nth s sa phi plcp HSA Lp Hp0 x H). Qed.
Let Hs0 : 0 < length s.
Proof. destruct s; [contradiction|cbn; lia]. Qed.
Notation suf z := (skipn (nth z sa 0) t).
Notation letter z := (nth (nth z sa 0) t 0).
Definition even (z : nat) : Prop := change t (nth z sa 0) = false.
Lemma even_spec z : z < length t -> even z -> 1 <= nth z sa 0 /\ nth (nth z sa 0 - 1) t 0 = letter z /\ nth z b 0 = letter z.
Proof.
  intros Hl H. unfold even, change in H. apply orb_false_iff in H. destruct H as (H1 & H2).
  apply Nat.eqb_neq in H1. apply negb_false_iff, Nat.eqb_eq in H2. split; [lia|]. split; [now symmetry|].
  rewrite bn by lia. destruct (Nat.eqb_spec (nth z sa 0) 0); [lia|]. now symmetry.
Qed.
Lemma rows_lt x y : x < length t -> y < length t -> (lex_lt (suf x) (suf y) <-> x < y).
Proof.
  intros Hx Hy. rewrite (isa_lt_iff t sa isa) by (auto). rewrite !Hi1 by lia. reflexivity.
Qed.
Lemma rows_letter x y : x <= y -> y < length t -> letter x <= letter y.
Proof.
  intros H Hy. destruct (Nat.eq_dec x y) as [->|N]; [lia|]. assert (L : lex_lt (suf x) (suf y)) by (apply rows_lt; lia).
  rewrite (skipn_cons_nth t (nth x sa 0) 0) in L by (apply salt; lia).
  rewrite (skipn_cons_nth t (nth y sa 0) 0) in L by (apply salt; lia). inversion L; subst; lia.
Qed.
(** the row of the suffix one letter earlier *)
Definition before (z : nat) : nat := nth (nth z sa 0 - 1) isa 0.
Lemma before_spec z : z < length t -> even z -> before z < length t /\ letter (before z) = letter z /\ suf (before z) = letter z :: suf z.
Proof.
  intros Hl H. destruct (even_spec z Hl H) as (H1 & H2 & _). pose proof (salt z Hl). unfold before.
  split; [apply isalt; lia|]. rewrite Hi2 by lia. split; [exact H2|].
  rewrite (skipn_cons_nth t (nth z sa 0 - 1) 0) by lia. rewrite H2. do 2 f_equal. lia.
Qed.
Lemma last_zero : nth (length s) t 0 = 0.
Proof. unfold t. rewrite app_nth2, Nat.sub_diag by lia. reflexivity. Qed.
Lemma zero_last i : i < length t -> nth i t 0 = 0 -> i = length s.
Proof.
  intros Hi E. destruct (Nat.eq_dec i (length s)) as [|N]; [assumption|]. exfalso. unfold t in E. rewrite app_nth1 in E by lia.
  apply Hz. rewrite <- E. apply nth_In. lia.
Qed.
Lemma row_zero : nth 0 sa 0 = length s.
Proof.
  apply zero_last; [apply salt; lia|]. pose proof (rows_letter 0 (nth (length s) isa 0) ltac:(lia) ltac:(apply isalt; lia)) as H.
  rewrite Hi2 in H by lia. rewrite last_zero in H. lia.
Qed.
Lemma zero_odd : ~ even 0.
Proof.
  intros H. destruct (even_spec 0 ltac:(lia) H) as (H1 & H2 & _). rewrite row_zero, last_zero in *. apply zero_last in H2; lia.
Qed.
Lemma letter_pos z : 0 < z -> z < length t -> letter z <> 0.
Proof.
  intros H Hl E. apply zero_last in E; [|now apply salt]. rewrite <- row_zero in E.
  apply (is_perm_inj (length t) sa _ _ (proj1 HSA)) in E; lia.
Qed.
Lemma lex_lt_dec u v : lex_lt u v \/ ~ lex_lt u v.
Proof.
  destruct (lex_lt_total u v) as [H|[->|H]]; [now left|right; apply lex_lt_irrefl|right]. intros H'.
  exact (lex_lt_irrefl _ (lex_lt_trans _ _ _ H H')).
Qed.
Lemma even_dec z : even z \/ ~ even z.
Proof. unfold even. destruct (change t (nth z sa 0)); [right; discriminate|now left]. Qed.
(** if the first row of a letter's block is even then some odd row of the block is not followed by an even one of it *)
Lemma gap x : 0 < x -> x < length t -> even x -> letter (x - 1) <> letter x ->
  exists y, y < length t /\ ~ even y /\ letter y = letter x /\ ~ (S y < length t /\ even (S y) /\ letter (S y) = letter y).
Proof.
  intros Hx Hl HE HB. set (c := letter x).
  set (P := fun z => letter z = c /\ lex_lt (suf z) (c :: suf z)).
  assert (FST : forall z, z < length t -> letter z = c -> x <= z).
  { intros z Hzl Ez. destruct (Nat.le_gt_cases x z) as [|C]; [assumption|]. exfalso. apply HB.
    pose proof (rows_letter z (x - 1) ltac:(lia) ltac:(lia)). pose proof (rows_letter (x - 1) x ltac:(lia) ltac:(lia)).
    unfold c in Ez. lia. }
  assert (NEQ : forall z, before z < length t -> suf (before z) = c :: suf z -> before z <> z).
  { intros z _ E E'. rewrite E' in E. apply (f_equal (@length nat)) in E. cbn [length] in E. lia. }
  assert (Px : P x).
  { split; [reflexivity|]. destruct (before_spec x Hl HE) as (B1 & B2 & B3). fold c in B2, B3. rewrite <- B3.
    apply rows_lt; [lia|lia|]. pose proof (FST _ B1 B2). pose proof (NEQ x B1 B3). lia. }
  destruct (largest P) with (n := length t) (x := x) as (y & Y1 & (Y2 & Y3) & Y4); auto.
  { intros z. unfold P. destruct (Nat.eq_dec (letter z) c) as [E|E]; [|right; intros (E' & _); contradiction].
    destruct (lex_lt_dec (suf z) (c :: suf z)); [now left|right; intros (_ & ?); contradiction]. }
  exists y. split; [lia|]. split; [|split; [exact Y2|]].
  - intros HEy. destruct (before_spec y ltac:(lia) HEy) as (B1 & B2 & B3). rewrite Y2 in B2, B3.
    assert (before y <= y).
    { apply Y4; [exact B1|]. split; [exact B2|]. rewrite B3. now constructor. }
    assert (y < before y) by (apply rows_lt; [lia|lia|]; now rewrite B3). lia.
  - intros (S1 & S2 & S3). rewrite Y2 in S3. destruct (before_spec (S y) S1 S2) as (B1 & B2 & B3). rewrite S3 in B2, B3.
    assert (N1 : ~ lex_lt (suf (S y)) (c :: suf (S y))).
    { intros H. assert (S y <= y); [|lia]. apply Y4; [exact S1|]. split; [exact S3|exact H]. }
    assert (N2 : lex_lt (c :: suf (S y)) (suf (S y))).
    { destruct (lex_lt_total (c :: suf (S y)) (suf (S y))) as [H|[H|H]]; [exact H| |contradiction].
      apply (f_equal (@length nat)) in H. cbn [length] in H. lia. }
    assert (B4 : before (S y) < S y) by (apply rows_lt; [lia|lia|]; now rewrite B3).
    assert (B5 : before (S y) <> y).
    { intros E. rewrite E in B3. rewrite B3 in Y3.
      exact (lex_lt_irrefl _ (lex_lt_trans _ _ _ Y3 (lex_tail c _ _ N2))). }
    assert (L1 : lex_lt (c :: suf (S y)) (suf y)) by (rewrite <- B3; apply rows_lt; lia).
    assert (L2 : lex_lt (suf y) (suf (S y))) by (apply rows_lt; lia).
    apply (lex_lt_irrefl (suf y)). eapply lex_lt_trans; [exact Y3|]. eapply lex_lt_trans; [|exact L1].
    now constructor.
Qed.

(** ** counting *)
Definition rows : list nat := seq 0 (length t).
Definition evenb (z : nat) : bool := negb (change t (nth z sa 0)).
Lemma evenb_spec z : evenb z = true <-> even z.
Proof. unfold evenb, even. destruct (change t (nth z sa 0)); split; cbn; congruence. Qed.
(** followed by an even row of the same letter *)
Definition followed (y : nat) : bool := (S y <? length t) && evenb (S y) && (letter (S y) =? letter y).
Lemma count_odd : length (filter (fun z => negb (evenb z)) rows) = length (runs t).
Proof.
  rewrite runs_changes. unfold rows.
  rewrite (filter_ext (fun z => negb (evenb z)) (fun z => change t (nth z sa 0))) by (intros z; unfold evenb; now rewrite negb_involutive).
  rewrite <- (length_filter_map (change t) (fun z => nth z sa 0)). apply Permutation_length. apply filter_perm.
  replace (map (fun z => nth z sa 0) (seq 0 (length t))) with sa; [exact (proj1 HSA)|].
  apply (nth_ext_len _ _ 0).
  - rewrite map_length, seq_length. apply is_perm_length, HSA.
  - intros i Hi. rewrite (is_perm_length _ _ (proj1 HSA)) in Hi. rewrite (nth_map _ _ _ 0) by now rewrite seq_length.
    now rewrite nth_seq0 by auto.
Qed.
Lemma count_split {A} (f g : A -> bool) q : length (filter f q) = length (filter (fun z => f z && g z) q) + length (filter (fun z => f z && negb (g z)) q).
Proof. induction q as [|a q IH]; cbn [filter length]; [reflexivity|]. destruct (f a), (g a); cbn [andb negb length]; lia. Qed.
Lemma bwt_runs : length (runs b) + 1 <= 2 * length (runs t).
Proof.
  rewrite (runs_changes b), Lb. fold rows. rewrite <- count_odd.
  rewrite (count_split (change b) (fun z => negb (evenb z)) rows).
  set (same := fun z => letter (z - 1) =? letter z).
  rewrite (count_split (fun z => change b z && negb (negb (evenb z))) same rows).
  set (odd := fun z => negb (evenb z)).
  set (O1 := filter (fun z => odd z && followed z) rows).
  set (O2 := filter (fun z => odd z && negb (followed z)) rows).
  assert (IR : forall z, In z rows <-> z < length t) by (intros z; unfold rows; rewrite in_seq; lia).
  assert (NR : NoDup rows) by apply seq_NoDup.
  assert (C0 : length (filter odd rows) = length O1 + length O2) by apply count_split.
  assert (C1 : length (filter (fun z => change b z && odd z) rows) <= length (filter odd rows)).
  { apply NoDup_incl_length; [now apply NoDup_filter|]. intros z H. apply filter_In in H. destruct H as (H1 & H2).
    apply andb_true_iff in H2. apply filter_In. split; [exact H1|apply H2]. }
  assert (HD : forall z, In z rows -> change b z = true -> even z -> 0 < z /\ (letter (z - 1) = letter z -> ~ even (z - 1))).
  { intros z H1 H2 H3. apply IR in H1. destruct (Nat.eq_dec z 0) as [->|N]; [exfalso; now apply zero_odd|]. split; [lia|].
    intros E H4. unfold change in H2. apply Nat.eqb_neq in N. rewrite N in H2. cbn [orb] in H2. apply negb_true_iff, Nat.eqb_neq in H2.
    apply H2. destruct (even_spec z H1 H3) as (_ & _ & ->). apply Nat.eqb_neq in N.
    destruct (even_spec (z - 1) ltac:(lia) H4) as (_ & _ & ->). now symmetry. }
  assert (C2 : length (filter (fun z => change b z && negb (odd z) && same z) rows) <= length O1).
  { set (q := filter _ rows). assert (Hq : forall z, In z q -> z < length t /\ 0 < z /\ letter (z - 1) = letter z /\ ~ even (z - 1) /\ even z).
    { intros z H. apply filter_In in H. destruct H as (H1 & H2). apply andb_true_iff in H2. destruct H2 as (H2 & H3).
      apply andb_true_iff in H2. destruct H2 as (H2 & H4). unfold odd in H4. rewrite negb_involutive in H4. apply evenb_spec in H4.
      apply Nat.eqb_eq in H3. destruct (HD z H1 H2 H4) as (H5 & H6). apply IR in H1.
      exact (conj H1 (conj H5 (conj H3 (conj (H6 H3) H4)))). }
    rewrite <- (map_length (fun z => z - 1) q). apply NoDup_incl_length.
    - assert (NQ : NoDup q) by now apply NoDup_filter. clearbody q. induction q as [|z q IH]; cbn [map]; [constructor|].
      apply NoDup_cons_iff in NQ. destruct NQ as (N1 & N2). constructor; [|apply IH; [intros; apply Hq; now right|exact N2]].
      rewrite in_map_iff. intros (z' & E & Hin). apply N1.
      pose proof (Hq z ltac:(now left)) as (_ & P1 & _). pose proof (Hq z' ltac:(now right)) as (_ & P2 & _).
      replace z with z' by lia. exact Hin.
    - intros y H. apply in_map_iff in H. destruct H as (z & <- & H). destruct (Hq z H) as (H1 & H2 & H3 & H4 & H5).
      unfold O1. apply filter_In. split; [apply IR; lia|]. unfold odd, followed. rewrite !andb_true_iff.
      replace (S (z - 1)) with z by lia. split; [|split; [split|]].
      + apply negb_true_iff. destruct (evenb (z - 1)) eqn:E; [|reflexivity]. apply evenb_spec in E. contradiction.
      + apply Nat.ltb_lt. lia.
      + now apply evenb_spec.
      + apply Nat.eqb_eq. now symmetry. }
  assert (C3 : length (filter (fun z => change b z && negb (odd z) && negb (same z)) rows) + 1 <= length O2).
  { set (q := filter _ rows). assert (Hq : forall z, In z q -> z < length t /\ 0 < z /\ letter (z - 1) <> letter z /\ even z).
    { intros z H. apply filter_In in H. destruct H as (H1 & H2). apply andb_true_iff in H2. destruct H2 as (H2 & H3).
      apply andb_true_iff in H2. destruct H2 as (H2 & H4). unfold odd in H4. rewrite negb_involutive in H4. apply evenb_spec in H4.
      apply negb_true_iff, Nat.eqb_neq in H3. destruct (HD z H1 H2 H4) as (H5 & _). apply IR in H1.
      exact (conj H1 (conj H5 (conj H3 H4))). }
    assert (G : incl (0 :: map (fun z => letter z) q) (map (fun y => letter y) O2)).
    { intros c H. cbn [In] in H. apply in_map_iff. destruct H as [<-|H].
      - exists 0. split; [rewrite row_zero; apply last_zero|]. unfold O2. apply filter_In. split; [apply IR; lia|].
        apply andb_true_iff. split.
        + unfold odd. apply negb_true_iff. destruct (evenb 0) eqn:E; [|reflexivity]. apply evenb_spec in E. exfalso. now apply zero_odd.
        + apply negb_true_iff. unfold followed. destruct (Nat.ltb_spec 1 (length t)); [|reflexivity]. cbn [andb].
          destruct (Nat.eqb_spec (letter 1) (letter 0)) as [E|]; [|apply andb_false_r]. exfalso.
          apply (letter_pos 1); [lia|lia|]. rewrite E, row_zero. apply last_zero.
      - apply in_map_iff in H. destruct H as (z & <- & H). destruct (Hq z H) as (H1 & H2 & H3 & H4).
        destruct (gap z H2 H1 H4 H3) as (y & Y1 & Y2 & Y3 & Y4). exists y. split; [exact Y3|].
        unfold O2. apply filter_In. split; [now apply IR|]. apply andb_true_iff. split.
        + unfold odd. apply negb_true_iff. destruct (evenb y) eqn:E; [|reflexivity]. apply evenb_spec in E. contradiction.
        + apply negb_true_iff. destruct (followed y) eqn:E; [|reflexivity]. exfalso. apply Y4. unfold followed in E.
          rewrite !andb_true_iff in E. destruct E as ((E1 & E2) & E3). apply Nat.ltb_lt in E1. apply evenb_spec in E2. apply Nat.eqb_eq in E3. auto. }
    apply NoDup_incl_length in G; [cbn [length] in G; rewrite !map_length in G; lia|].
    constructor.
    - rewrite in_map_iff. intros (z & E & H). destruct (Hq z H) as (H1 & H2 & _). now apply (letter_pos z).
    - clear G. assert (NQ : NoDup q) by now apply NoDup_filter. clearbody q. induction q as [|z q IH]; cbn [map]; [constructor|].
      apply NoDup_cons_iff in NQ. destruct NQ as (N1 & N2). constructor; [|apply IH; [intros; apply Hq; now right|exact N2]].
      rewrite in_map_iff. intros (z' & E & Hin). apply N1.
      pose proof (Hq z ltac:(now left)) as (P1 & P2 & P3 & _). pose proof (Hq z' ltac:(now right)) as (Q1 & Q2 & Q3 & _).
      assert (z = z'); [|congruence].
      assert (FS : forall p r, p < r -> r < length t -> letter (r - 1) <> letter r -> letter p <> letter r).
      { intros p r R1 R2 R3 R4. apply R3. pose proof (rows_letter p (r - 1) ltac:(lia) ltac:(lia)).
        pose proof (rows_letter (r - 1) r ltac:(lia) ltac:(lia)). lia. }
      destruct (Nat.lt_trichotomy z z') as [C|[C|C]]; [|exact C|].
      + exfalso. exact (FS z z' C Q1 Q3 (eq_sym E)).
      + exfalso. exact (FS z' z C P1 P3 E). }
  change (length (filter (fun z => change b z && odd z) rows) +
    (length (filter (fun z => change b z && negb (odd z) && same z) rows) +
     length (filter (fun z => change b z && negb (odd z) && negb (same z)) rows)) + 1 <= 2 * length (filter odd rows)). lia.
Qed.
End B.
