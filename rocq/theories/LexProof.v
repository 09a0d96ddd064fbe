(** LexProof.v : count_lexparse computes the lexparse; its size against the runs of the BWT. *)
From Verif Require Import Base SpecStr LexFacts ModelCore PermFacts SortFacts LcpProof ModelLz SpecLz LzProof MusProof SpecLex.
From Coq Require Import NArith.

Lemma lex_pred_unique t i j j' : is_lex_pred t j i -> is_lex_pred t j' i -> j = j'.
Proof.
  intros (H1 & H2 & H3) (G1 & G2 & G3).
  specialize (H3 j' G1 G2). specialize (G3 j H1 H2).
  assert (E : skipn j t = skipn j' t).
  { destruct H3 as [E|L]; [now symmetry|]. destruct G3 as [E|L']; [exact E|]. exfalso. exact (lex_lt_asym _ _ L L'). }
  apply (f_equal (@length nat)) in E. rewrite !skipn_length in E. lia.
Qed.

Lemma lex_factor_unique t i f g : i < length t -> is_lex_factor t i f -> is_lex_factor t i g -> f = g.
Proof.
  intros Hi. destruct f as [p l], g as [p' l']. unfold is_lex_factor; cbn [lz_pos lz_len].
  intros [(A1 & A2 & A3)|(A1 & A2 & A3)] [(B1 & B2 & B3)|(B1 & B2 & B3)].
  - congruence.
  - specialize (A3 _ B2). pose proof B2 as (Hp & _).
    apply lcpv_is_lcp in A3; [|lia..]. apply lcpv_is_lcp in B3; [|lia..].
    pose proof (lcpv_unique _ _ _ _ _ A3 B3). lia.
  - specialize (B3 _ A2). pose proof A2 as (Hp & _).
    apply lcpv_is_lcp in A3; [|lia..]. apply lcpv_is_lcp in B3; [|lia..].
    pose proof (lcpv_unique _ _ _ _ _ A3 B3). lia.
  - pose proof (lex_pred_unique _ _ _ _ A2 B2). subst p'. pose proof A2 as (Hp & _).
    apply lcpv_is_lcp in A3; [|lia..]. apply lcpv_is_lcp in B3; [|lia..].
    pose proof (lcpv_unique _ _ _ _ _ A3 B3). congruence.
Qed.
Lemma lexparse_unique t : forall fs gs i, is_lexparse t i fs -> is_lexparse t i gs -> fs = gs.
Proof.
  induction fs as [|f fs IH]; intros [|g gs] i; cbn [is_lexparse]; intros H1 H2; auto; try (exfalso; lia).
  destruct H1 as (A1 & A2 & A3), H2 as (B1 & B2 & B3).
  pose proof (lex_factor_unique _ _ _ _ A1 A2 B2). subst g. f_equal. eapply IH; eauto.
Qed.

Section Lex.
Context (t : str) (sa isa phi plcp : list nat).
Context (HSA : is_suffix_array t sa) (Ei : inverse_permutation sa = Ok isa) (HPi : is_perm (length t) isa)
  (HPp : is_perm (length t) phi)
  (Hi1 : forall i, i < length t -> nth (nth i sa 0) isa 0 = i)
  (Hi2 : forall j, j < length t -> nth (nth j isa 0) sa 0 = j)
  (Hp1 : forall i, 0 < i < length t -> nth (nth i sa 0) phi 0 = nth (i - 1) sa 0)
  (Hp0 : nth (nth 0 sa 0) phi 0 = nth (length t - 1) sa 0)
  (Hplcp : forall i, i < length t -> lcpv t (nth i phi 0) i (nth i plcp 0)).

Let HP : is_perm (length t) sa := proj1 HSA.

Lemma phi_pred i : i < length t -> 0 < nth i isa 0 -> is_lex_pred t (nth i phi 0) i.
Proof.
  intros Hi Hr. pose proof (is_perm_nth _ isa i HPi Hi) as Hrl.
  pose proof (Hp1 (nth i isa 0) ltac:(lia)) as E. rewrite Hi2 in E by auto.
  split; [now apply is_perm_nth|]. split.
  - rewrite E. rewrite <- (Hi2 i Hi) at 2. apply (sa_lt t sa); auto. lia.
  - intros k Hk L. rewrite (isa_lt_iff t sa isa) in L by auto.
    rewrite E. rewrite <- (Hi2 k Hk). destruct (Nat.eq_dec (nth k isa 0) (nth i isa 0 - 1)) as [->|].
    + apply lex_le_refl.
    + right. apply (sa_lt t sa); auto. pose proof (is_perm_nth _ isa k HPi Hk). lia.
Qed.
Lemma no_pred i j : i < length t -> nth i isa 0 = 0 -> ~ is_lex_pred t j i.
Proof.
  intros Hi H0 (H1 & H2 & _). rewrite (isa_lt_iff t sa isa) in H2 by auto. lia.
Qed.
Lemma lexfactor_spec i f : ~ unary t -> i < length t -> is_lexfactor t plcp phi i f -> is_lex_factor t i f.
Proof.
  intros Hu Hi Hf. pose proof (is_perm_nth _ phi i HPp Hi) as Hpl.
  destruct Hf as [(E & ->)|(E & ->)]; [left|right]; cbn [lz_pos lz_len].
  - split; [reflexivity|]. split; [reflexivity|]. intros j Hj.
    destruct (Nat.eq_dec (nth i isa 0) 0) as [E0|E0]; [exfalso; exact (no_pred i j Hi E0 Hj)|].
    rewrite (lex_pred_unique t i j (nth i phi 0) Hj (phi_pred i Hi ltac:(lia))).
    pose proof (Hplcp i Hi) as HA. rewrite E in HA. apply lcpv_is_lcp; [lia..|exact HA].
  - split; [exact E|]. pose proof (Hplcp i Hi) as HA.
    assert (0 < nth i isa 0).
    { destruct (Nat.eq_dec (nth i isa 0) 0) as [E0|]; [|lia]. exfalso. apply Hu.
      apply (ring_lcp_unary t sa HSA). pose proof (Hi2 i Hi) as Es. rewrite E0 in Es.
      rewrite Es in Hp0 |- *. rewrite <- Hp0. apply (agree_le _ _ _ _ _ (proj1 HA)). lia. }
    split; [now apply phi_pred|]. apply lcpv_is_lcp; [lia..|exact HA].
Qed.
Lemma lexparse_upto_spec fs : ~ unary t -> forall a, lexparse_upto t plcp phi a (length t) fs -> is_lexparse t a fs.
Proof.
  intros Hu. induction fs as [|f fs IH]; intros a H; cbn [lexparse_upto is_lexparse] in *; auto.
  destruct H as (H1 & H2 & H3). split; [exact H1|]. split; [now apply lexfactor_spec|]. now apply IH.
Qed.
(** the same phrase boundaries for every text, unary ones included *)
Lemma lexparse_upto_lens fs : forall a, lexparse_upto t plcp phi a (length t) fs ->
  exists gs, is_lexparse t a gs /\ map (fun f => Nat.max 1 (lz_len f)) gs = map (fun f => Nat.max 1 (lz_len f)) fs.
Proof.
  induction fs as [|f fs IH]; intros a H; cbn [lexparse_upto] in *.
  { exists []. split; [exact H|reflexivity]. }
  destruct H as (H1 & H2 & H3). destruct (IH _ H3) as (gs & G1 & G2).
  pose proof (is_perm_nth _ phi a HPp H1) as Hpl.
  destruct (Nat.eq_dec (nth a isa 0) 0) as [E0|E0].
  - exists (LZ (nth a t 0) 0 :: gs).
    assert (EM : Nat.max 1 (lz_len f) = 1).
    { destruct H2 as [(E & ->)|(E & ->)]; cbn [lz_len]; [lia|].
      pose proof (Hplcp a H1) as (HA & _). pose proof (Hi2 a H1) as Es. rewrite E0 in Es.
      assert (HA1 : agree t (nth 0 sa 0) (nth (length t - 1) sa 0) 1).
      { rewrite Es in Hp0 |- *. rewrite <- Hp0. apply agree_sym, (agree_le _ _ _ _ _ HA). lia. }
      pose proof (wrap_last t sa HSA ltac:(lia) 0 HA1). destruct HA as (_ & HA & _). lia. }
    split.
    + cbn [is_lexparse lz_len]. split; [exact H1|]. split.
      * left. cbn [lz_len lz_pos]. split; [reflexivity|]. split; [reflexivity|].
        intros j Hj. exfalso. exact (no_pred a j H1 E0 Hj).
      * now rewrite EM in G1.
    + cbn [map lz_len]. rewrite EM, G2. reflexivity.
  - exists (f :: gs). split; [|cbn [map]; now rewrite G2].
    cbn [is_lexparse]. split; [exact H1|]. split; [|exact G1].
    pose proof (phi_pred a H1 ltac:(lia)) as HPr. pose proof (Hplcp a H1) as HA.
    destruct H2 as [(E & ->)|(E & ->)]; [left|right]; cbn [lz_pos lz_len].
    + split; [reflexivity|]. split; [reflexivity|]. intros j Hj.
      rewrite (lex_pred_unique t a j (nth a phi 0) Hj HPr). rewrite E in HA. apply lcpv_is_lcp; [lia..|exact HA].
    + split; [exact E|]. split; [exact HPr|]. apply lcpv_is_lcp; [lia..|exact HA].
Qed.
End Lex.

Lemma lexparse_spec_ok sort t : (forall t, is_suffix_array t (sort t)) -> t <> [] -> ~ unary t ->
  exists fs, count_lexparse_main sort t = Ok fs /\ is_lexparse t 0 fs.
Proof.
  intros Hs Hne Hu. specialize (Hs t). unfold count_lexparse_main. set (sa := sort t) in *. clearbody sa.
  destruct (lcp_structures' t sa Hne Hs) as (isa & phi & plcp & lcp & E1 & E2 & E3 & E4 & HPi & HPp & Lp & Ll & Hi1 & Hi2 & Hp1 & Hp0 & Hplcp & _ & _).
  rewrite E2. cbn [bind]. rewrite E3. cbn [bind].
  destruct (compute_lexparse_ok t plcp phi Lp (is_perm_length _ _ HPp)) as (fs & E & Hfs).
  { intros i Hi. destruct (Hplcp i Hi) as ((_ & H & _) & _). exact H. }
  exists fs. split; [exact E|]. now apply (lexparse_upto_spec t sa isa phi plcp).
Qed.

Lemma lexparse_lens_ok sort t : (forall t, is_suffix_array t (sort t)) -> t <> [] ->
  exists fs gs, count_lexparse_main sort t = Ok fs /\ is_lexparse t 0 gs /\
    map (fun f => Nat.max 1 (lz_len f)) gs = map (fun f => Nat.max 1 (lz_len f)) fs.
Proof.
  intros Hs Hne. specialize (Hs t). unfold count_lexparse_main. set (sa := sort t) in *. clearbody sa.
  destruct (lcp_structures' t sa Hne Hs) as (isa & phi & plcp & lcp & E1 & E2 & E3 & E4 & HPi & HPp & Lp & Ll & Hi1 & Hi2 & Hp1 & Hp0 & Hplcp & _ & _).
  rewrite E2. cbn [bind]. rewrite E3. cbn [bind].
  destruct (compute_lexparse_ok t plcp phi Lp (is_perm_length _ _ HPp)) as (fs & E & Hfs).
  { intros i Hi. destruct (Hplcp i Hi) as ((_ & H & _) & _). exact H. }
  destruct (lexparse_upto_lens t sa isa phi plcp Hs E1 HPi HPp Hi2 Hp1 Hp0 Hplcp fs 0 Hfs) as (gs & G1 & G2).
  exists fs, gs. auto.
Qed.

(** a parse of a unary text has a literal, so it cannot fit other letters *)
Lemma unary_lt c n p a : p < n -> a < n -> lex_lt (skipn p (repeat c n)) (skipn a (repeat c n)) -> a < p.
Proof.
  intros Hp Ha L. destruct (Nat.le_gt_cases p a) as [C|]; [|assumption]. exfalso.
  apply (lex_lt_irrefl (skipn p (repeat c n))). eapply lex_lt_le_trans; [exact L|].
  assert (E : forall k, k <= n -> skipn k (repeat c n) = repeat c (n - k)).
  { clear. induction n as [|n IH]; intros [|k] Hk; cbn [repeat skipn]; try reflexivity; try lia. rewrite IH by lia. reflexivity. }
  rewrite !E by lia. replace (n - p) with (n - a + (a - p)) by lia. rewrite repeat_app. apply lex_le_prefix.
Qed.
Lemma unary_lexparse_lit c n d fs : forall a, a < n -> is_lexparse (repeat c n) a fs ->
  consistent (repeat d n) a fs -> d = c.
Proof.
  induction fs as [|f fs IH]; intros a Ha HL HC; cbn [is_lexparse consistent] in *.
  { rewrite repeat_length in HL. lia. }
  destruct HL as (_ & Hf & HL), HC as (HC1 & HC). destruct Hf as [(E & Hp & _)|(E & Hp & HA)].
  - rewrite E in HC1. cbn [Nat.eqb] in HC1. rewrite Hp in HC1. destruct HC1 as (_ & HC1).
    rewrite !nth_rep in HC1 by lia. exact HC1.
  - apply (IH (a + Nat.max 1 (lz_len f))); auto. destruct Hp as (Hp & L & _). rewrite repeat_length in Hp.
    apply unary_lt in L; auto. destruct HA as (_ & HA & _). rewrite skipn_length, repeat_length in HA. lia.
Qed.
