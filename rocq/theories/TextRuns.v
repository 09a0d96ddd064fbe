(** TextRuns.v : the number of equal-letter runs of a text bounds the number of its LZ77 factors, of its lexparse factors,
    of its different Lyndon factors, and the number of runs of its BWT (C120) *)
From Verif Require Import Base SpecStr LexFacts ModelCore PermFacts SortFacts LcpProof ModelLz SpecLz LzProof LzRel MusProof SpecLex LexProof
  BbwtProof SpecBwt BwtFacts BwtProof SpecIo RunFacts LexRuns.

Lemma runs_from_any t c l m : length (runs_from c l t) = length (runs_from c m t).
Proof. now rewrite !runs_from_count. Qed.
Lemma runs_cons a b w : length (runs (a :: b :: w)) = length (runs (b :: w)) + (if b =? a then 0 else 1).
Proof.
  unfold runs. cbn [runs_from]. destruct (Nat.eqb_spec b a) as [->|N].
  - rewrite (runs_from_any w a 2 1). lia.
  - cbn [length]. lia.
Qed.
Lemma runs_app_ge u v : length (runs v) <= length (runs (u ++ v)).
Proof.
  induction u as [|a u IH]; cbn [app]; [lia|]. destruct (u ++ v) as [|b w] eqn:E; [cbn; cbn in IH; lia|].
  rewrite runs_cons. lia.
Qed.
Lemma runs_app_change u a b v : a <> b -> S (length (runs (b :: v))) <= length (runs (u ++ a :: b :: v)).
Proof.
  intros N. etransitivity; [|apply runs_app_ge]. rewrite runs_cons. apply not_eq_sym, Nat.eqb_neq in N. rewrite N. lia.
Qed.

(** ** Lyndon factors *)
Lemma lyndon_boundary f g : lyndon f -> lyndon g -> lex_le g f -> f <> g -> exists u a b v, f = u ++ [a] /\ g = b :: v /\ a <> b.
Proof.
  intros (F1 & F2) (G1 & _) HL N. destruct (exists_last F1) as (u & a & ->). destruct g as [|b v]; [contradiction|].
  exists u, a, b, v. split; [reflexivity|]. split; [reflexivity|]. intros <-.
  destruct HL as [HL|HL]; [congruence|]. destruct u as [|c u]; cbn [app] in *.
  - inversion HL as [| |? ? ? H]; subst; [lia|inversion H].
  - specialize (F2 (c :: u) [a] eq_refl ltac:(discriminate) ltac:(discriminate)).
    inversion F2 as [|? ? ? ? H|? ? ? H]; subst.
    + inversion HL; subst; lia.
    + inversion H.
Qed.
Lemma lyndon_distinct fs : Forall lyndon fs -> non_increasing fs ->
  length (nodup (list_eq_dec Nat.eq_dec) fs) <= length (runs (concat fs)).
Proof.
  induction fs as [|f fs IH]; intros HF HN; [cbn; lia|]. apply Forall_cons_iff in HF. destruct HF as (F1 & F2).
  cbn [non_increasing] in HN. destruct HN as (N1 & N2). specialize (IH F2 N2).
  destruct fs as [|g fs].
  - rewrite nodup_fixed_point by (constructor; [intros []|constructor]). cbn [concat length]. rewrite app_nil_r.
    destruct F1 as (F1 & _). destruct f as [|c f]; [contradiction|]. unfold runs. rewrite runs_from_count. lia.
  - destruct (list_eq_dec Nat.eq_dec f g) as [->|N].
    + assert (E : nodup (list_eq_dec Nat.eq_dec) (g :: g :: fs) = nodup (list_eq_dec Nat.eq_dec) (g :: fs)).
      { cbn [nodup]. destruct (in_dec (list_eq_dec Nat.eq_dec) g (g :: fs)) as [_|H]; [reflexivity|]. exfalso. apply H. now left. }
      rewrite E. etransitivity; [exact IH|]. cbn [concat]. apply runs_app_ge.
    + assert (L : length (nodup (list_eq_dec Nat.eq_dec) (f :: g :: fs)) <= S (length (nodup (list_eq_dec Nat.eq_dec) (g :: fs)))).
      { remember (g :: fs) as gs. cbn [nodup]. destruct (in_dec _ f gs); cbn [length]; lia. }
      etransitivity; [exact L|]. apply Forall_cons_iff in F2. destruct F2 as (F2 & _).
      destruct (lyndon_boundary f g F1 F2 N1 N) as (u & a & b & v & -> & -> & Nab).
      cbn [concat]. cbn [concat] in IH. rewrite <- app_assoc. cbn [app]. cbn [app] in IH.
      pose proof (runs_app_change u a b (v ++ concat fs) Nab). lia.
Qed.

(** ** LZ77 *)
Lemma runs_parsable rs : forall u, Forall (fun r => 1 <= snd r) rs ->
  exists k, k <= 2 * length rs /\ parsable (u ++ expand rs) (length u) k.
Proof.
  induction rs as [|(c, l) rs IH]; intros u HF.
  - exists 0. split; [cbn; lia|]. change (expand []) with (@nil nat). rewrite app_nil_r. constructor.
  - apply Forall_cons_iff in HF. destruct HF as (Hl & HF). cbn [snd] in Hl. rewrite expand_cons, app_assoc.
    destruct (IH (u ++ repeat c l) HF) as (k & K & P). rewrite app_length, repeat_length in P.
    set (t := (u ++ repeat c l) ++ expand rs) in *.
    assert (Lt : length u + l <= length t) by (unfold t; rewrite !app_length, repeat_length; lia).
    assert (Nt : forall x, x < l -> nth (length u + x) t 0 = c).
    { intros x Hx. unfold t. rewrite app_nth1 by (rewrite app_length, repeat_length; lia).
      rewrite app_nth2 by lia. replace (length u + x - length u) with x by lia. now apply nth_rep. }
    cbn [length]. destruct (Nat.eq_dec l 1) as [->|N].
    + exists (S k). split; [lia|]. apply parse_literal; [lia|exact P].
    + exists (S (S k)). split; [lia|]. apply parse_literal; [lia|].
      apply (parse_copy _ _ (length u) (l - 1)); [lia|lia| |now replace (length u + 1 + (l - 1)) with (length u + l) by lia].
      split; [lia|]. split; [lia|]. intros x Hx. rewrite <- Nat.add_assoc, !Nt by lia. reflexivity.
Qed.
Lemma z_runs t : exists k, k <= 2 * length (runs t) /\ parsable t 0 k.
Proof.
  destruct (runs_ok t) as (E & HF & _). destruct (runs_parsable (runs t) []) as (k & K & P).
  { eapply Forall_impl; [|exact HF]. cbv beta. intros (c, l). cbn [snd]. lia. }
  exists k. split; [exact K|]. cbn [app length] in P. now rewrite E in P.
Qed.

(** ** lexparse *)
Section Lex.
Context (t : str) (sa isa phi plcp : list nat).
Context (HSA : is_suffix_array t sa) (Ei : inverse_permutation sa = Ok isa) (HPi : is_perm (length t) isa)
  (HPp : is_perm (length t) phi)
  (Hi2 : forall j, j < length t -> nth (nth j isa 0) sa 0 = j)
  (Hp1 : forall i, 0 < i < length t -> nth (nth i sa 0) phi 0 = nth (i - 1) sa 0)
  (Hp0 : nth (nth 0 sa 0) phi 0 = nth (length t - 1) sa 0)
  (Hplcp : forall i, i < length t -> lcpv t (nth i phi 0) i (nth i plcp 0)).
Lemma plcp_ge j i l : i < length t -> j < length t -> lex_lt (skipn j t) (skipn i t) -> agree t j i l -> l <= nth i plcp 0.
Proof.
  intros Hi Hj HL HA. pose proof HL as HL'. apply (isa_lt_iff t sa isa) in HL'; auto.
  destruct (phi_pred t sa isa phi HSA Ei HPi HPp Hi2 Hp1 Hp0 i Hi ltac:(lia)) as (Q1 & Q2 & Q3).
  specialize (Q3 j Hj HL). apply (lcpv_max t (nth i phi 0) i); [now apply Hplcp|].
  apply (agree_sandwich t j (nth i phi 0) i l); auto; try lia. now right.
Qed.
Lemma no_change_same a q : (forall y, a < y < q -> change t y = false) -> forall k, a + k < q -> nth (a + k) t 0 = nth a t 0.
Proof.
  intros H. induction k as [|k IH]; intros Hk; [now rewrite Nat.add_0_r|].
  specialize (H (a + S k) ltac:(lia)). unfold change in H. apply orb_false_iff in H. destruct H as (_ & H).
  apply negb_false_iff, Nat.eqb_eq in H. rewrite H. replace (a + S k - 1) with (a + k) by lia. apply IH. lia.
Qed.
Lemma run_end a : a < length t -> exists q, a < q <= length t /\ (forall y, a < y < q -> change t y = false) /\
  (q = length t \/ change t q = true).
Proof.
  intros Ha. assert (G : forall d q, a < q -> d = length t - q -> q <= length t -> (forall y, a < y < q -> change t y = false) ->
    exists q', q <= q' <= length t /\ (forall y, a < y < q' -> change t y = false) /\ (q' = length t \/ change t q' = true)).
  { induction d as [|d IH]; intros q H1 H2 H3 H4; [exists q; split; [lia|]; split; [exact H4|left; lia]|].
    destruct (change t q) eqn:E; [exists q; split; [lia|]; split; [exact H4|now right]|].
    destruct (IH (S q) ltac:(lia) ltac:(lia) ltac:(lia)) as (q' & Q1 & Q2).
    - intros y Hy. destruct (Nat.eq_dec y q) as [->|N]; [exact E|apply H4; lia].
    - exists q'. split; [lia|exact Q2]. }
  destruct (G _ (S a) ltac:(lia) eq_refl ltac:(lia)) as (q & Q1 & Q2); [intros; lia|]. exists q. split; [lia|exact Q2].
Qed.
(** inside a run either the first factor reaches the last letter or the second one reaches the end *)
Lemma second_factor a q a' : a < q <= length t -> (forall y, a < y < q -> change t y = false) ->
  a' = a + Nat.max 1 (nth a plcp 0) -> a' < q -> q <= a' + Nat.max 1 (nth a' plcp 0).
Proof.
  intros Hq HN Ea Hlt. assert (NS := no_change_same a q HN).
  assert (AG : forall i, a <= i -> S i < q -> agree t i (S i) (q - S i) /\ agree t (S i) i (q - S i)).
  { intros i H1 H2. assert (E : forall x, x < q - S i -> nth (i + x) t 0 = nth (S i + x) t 0).
    { intros x Hx. replace (i + x) with (a + (i + x - a)) by lia. replace (S i + x) with (a + (S i + x - a)) by lia. rewrite !NS by lia. reflexivity. }
    split; (split; [lia|]; split; [lia|]); intros x Hx; [now apply E|symmetry; now apply E]. }
  destruct (lex_lt_total (skipn (S a) t) (skipn a t)) as [L|[L|L]].
  - pose proof (plcp_ge (S a) a (q - S a) ltac:(lia) ltac:(lia) L (proj2 (AG a ltac:(lia) ltac:(lia)))). lia.
  - apply (f_equal (@length nat)) in L. rewrite !skipn_length in L. lia.
  - assert (SH : forall k, S (a + k) < q -> lex_lt (skipn (a + k) t) (skipn (S (a + k)) t)).
    { induction k as [|k IH]; intros Hk; [now rewrite Nat.add_0_r|]. rewrite <- plus_n_Sm.
      apply (lex_lt_shift t (a + k) (S (a + k))); [lia|lia| |apply IH; lia].
      rewrite NS by lia. replace (S (a + k)) with (a + S k) by lia. now rewrite NS by lia. }
    assert (a < a') by lia.
    specialize (SH (a' - 1 - a) ltac:(lia)). replace (a + (a' - 1 - a)) with (a' - 1) in SH by lia.
    pose proof (AG (a' - 1) ltac:(lia) ltac:(lia)) as (A & _). replace (S (a' - 1)) with a' in * by lia.
    pose proof (plcp_ge (a' - 1) a' (q - a') ltac:(lia) ltac:(lia) SH A). lia.
Qed.
Definition later (a : nat) : nat := length (filter (change t) (seq (S a) (length t - S a))).
Lemma later_split a b : a <= b -> b < length t -> later a = length (filter (change t) (seq (S a) (b - a))) + later b.
Proof.
  intros H1 H2. unfold later. replace (length t - S a) with (b - a + (length t - S b)) by lia.
  rewrite seq_app, filter_app, app_length. now replace (S a + (b - a)) with (S b) by lia.
Qed.
Lemma lex_count fs : forall a, lexparse_upto t plcp phi a (length t) fs ->
  length fs <= 2 * later a + 2 /\
  ((exists q, a < q <= a + Nat.max 1 (nth a plcp 0) /\ (q = length t \/ change t q = true)) -> length fs <= 2 * later a + 1).
Proof.
  induction fs as [|f fs IH]; intros a H; [cbn [length]; lia|]. cbn [lexparse_upto] in H. destruct H as (Ha & Hf & H).
  assert (Ef : Nat.max 1 (lz_len f) = Nat.max 1 (nth a plcp 0)).
  { destruct Hf as [(E & ->)|(E & ->)]; cbn [lz_len]; lia. }
  cbn [length]. rewrite Ef in H. clear f Hf Ef. specialize (IH _ H). destruct IH as (I1 & I2).
  set (a' := a + Nat.max 1 (nth a plcp 0)) in *.
  assert (G : (exists q, a < q <= a' /\ (q = length t \/ change t q = true)) -> S (length fs) <= 2 * later a + 1).
  { intros (q & Q1 & Q2). destruct fs as [|g fs]; [cbn [length]; lia|]. cbn [lexparse_upto] in H. destruct H as (Ha' & _).
    assert (1 <= length (filter (change t) (seq (S a) (a' - a)))).
    { destruct Q2 as [Q2|Q2]; [lia|]. assert (Hin : In q (filter (change t) (seq (S a) (a' - a)))) by (apply filter_In; split; [apply in_seq; lia|exact Q2]).
      destruct (filter _ _); [destruct Hin|cbn [length]; lia]. }
    rewrite (later_split a a') by lia. lia. }
  split; [|exact G].
  destruct (run_end a Ha) as (q & Q1 & Q2 & Q3). destruct (Nat.le_gt_cases q a') as [C|C].
  - assert (S (length fs) <= 2 * later a + 1); [|lia]. apply G. exists q. split; [lia|exact Q3].
  - pose proof (second_factor a q a' Q1 Q2 eq_refl C) as R.
    specialize (I2 (ex_intro _ q (conj (conj C R) Q3))). rewrite (later_split a a') by lia. lia.
Qed.
Lemma lex_text_runs fs : t <> [] -> lexparse_upto t plcp phi 0 (length t) fs -> length fs <= 2 * length (runs t).
Proof.
  intros Hne H. destruct (lex_count fs 0 H) as (L & _). rewrite runs_changes.
  assert (E : length t = S (length t - 1)) by (destruct t; [contradiction|cbn [length]; lia]).
  unfold later in L. rewrite E. cbn [seq filter]. change (change t 0) with true. cbn [length]. lia.
Qed.
End Lex.
Lemma v_runs sort t : (forall t, is_suffix_array t (sort t)) -> t <> [] ->
  exists fs, count_lexparse_main sort t = Ok fs /\ length fs <= 2 * length (runs t).
Proof.
  intros Hs Hne. specialize (Hs t). unfold count_lexparse_main. set (sa := sort t) in *. clearbody sa.
  destruct (lcp_structures' t sa Hne Hs) as (isa & phi & plcp & lcp & E1 & E2 & E3 & E4 & HPi & HPp & Lp & Ll & Hi1 & Hi2 & Hp1 & Hp0 & Hplcp & _ & _).
  rewrite E2. cbn [bind]. rewrite E3. cbn [bind].
  destruct (compute_lexparse_ok t plcp phi Lp (is_perm_length _ _ HPp)) as (fs & E & Hfs).
  { intros i Hi. destruct (Hplcp i Hi) as ((_ & H & _) & _). exact H. }
  exists fs. split; [exact E|]. eapply (lex_text_runs t sa isa phi plcp); eauto.
Qed.
