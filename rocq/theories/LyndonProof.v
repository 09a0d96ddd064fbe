(** LyndonProof.v : [isa_lyndon_factorization] and [lyndon_conjugate]. *)
From Verif Require Import Base SpecStr LexFacts ModelCore PermFacts SortFacts DuvalProof.

(** a Lyndon word is strictly smaller than what follows any proper prefix, whatever comes after *)
Lemma lyndon_suffix_mismatch f j a b : lyndon f -> 0 < j < length f ->
  lex_lt (f ++ a) (skipn j f ++ b).
Proof.
  intros HL Hj. apply lyndon_idx in HL. destruct HL as [_ HL].
  destruct (HL j Hj) as (y & H1 & H2 & H3).
  apply (lex_lt_mismatch _ _ y); rewrite ?app_length, ?skipn_length; try lia.
  - intros x Hx. rewrite !app_nth1 by (rewrite ?skipn_length; lia). rewrite nth_skipn. auto.
  - rewrite !app_nth1 by (rewrite ?skipn_length; lia). rewrite nth_skipn. auto.
Qed.

Lemma concat_lt f fs : lyndon f -> Forall lyndon fs -> non_increasing (f :: fs) ->
  lex_lt (concat fs) (f ++ concat fs).
Proof.
  intros Hf. induction fs as [|g fs IH]; intros HF HN.
  - simpl. rewrite app_nil_r. pose proof (lyndon_not_nil _ Hf). destruct f; [easy|constructor].
  - simpl in HN. destruct HN as [Hle HN]. inversion HF as [|? ? Hg HF']; subst.
    assert (HN' : non_increasing (f :: fs)).
    { destruct fs as [|h fs']; simpl; [auto|]. simpl in HN. destruct HN as [Hhg HN]. split; [|exact HN].
      eapply lex_le_trans; eauto. }
    specialize (IH HF' HN'). simpl.
    destruct Hle as [->|Hlt].
    + apply lex_lt_app_same. exact IH.
    + destruct (lex_lt_cases _ _ Hlt) as [(z & Hz & E)|(y & H1 & H2 & H3 & H4)].
      * subst f. rewrite <- app_assoc. apply lex_lt_app_same.
        eapply lex_lt_trans; [exact IH|].
        assert (Hl : 0 < length g < length (g ++ z)).
        { rewrite app_length. pose proof (lyndon_length _ Hg). destruct z; [easy|simpl; lia]. }
        pose proof (lyndon_suffix_mismatch (g ++ z) (length g) (concat fs) (g ++ concat fs) Hf Hl) as M.
        rewrite skipn_app, skipn_all, Nat.sub_diag in M. exact M.
      * apply (lex_lt_mismatch _ _ y); rewrite ?app_length; try lia.
        -- intros x Hx. rewrite !app_nth1 by lia. auto.
        -- rewrite !app_nth1 by lia. auto.
Qed.

Lemma non_increasing_app_r p q : non_increasing (p ++ q) -> non_increasing q.
Proof.
  induction p as [|x p IH]; simpl; auto. intros [_ H]. auto.
Qed.

Lemma skipn_concat (p q : list str) : skipn (length (concat p)) (concat (p ++ q)) = concat q.
Proof. rewrite concat_app, skipn_app, skipn_all, Nat.sub_diag. reflexivity. Qed.

Lemma skipn_app_lt {A} (u v : list A) j : j <= length u -> skipn j (u ++ v) = skipn j u ++ v.
Proof. intros H. rewrite skipn_app. replace (j - length u) with 0 by lia. reflexivity. Qed.

(** the suffix starting at a factor is smaller than every earlier suffix and than the
    suffixes starting inside the factor *)
Lemma factor_inside t p f q j : lyndon_factorization t (p ++ f :: q) ->
  length (concat p) < j < length (concat p) + length f ->
  lex_lt (skipn (length (concat p)) t) (skipn j t).
Proof.
  intros (E & HF & HN) Hj. rewrite <- E.
  assert (HL : lyndon f) by (rewrite Forall_app in HF; destruct HF as [_ HF]; now inversion HF).
  replace j with (length (concat p) + (j - length (concat p))) by lia.
  rewrite <- skipn_skipn, skipn_concat. simpl.
  rewrite skipn_app_lt by lia.
  apply lyndon_suffix_mismatch; [exact HL|lia].
Qed.

Lemma factor_next t p f g q : lyndon_factorization t (p ++ f :: g :: q) ->
  lex_lt (skipn (length (concat p) + length f) t) (skipn (length (concat p)) t).
Proof.
  intros (E & HF & HN). rewrite <- E.
  rewrite <- skipn_skipn, skipn_concat.
  change (concat (f :: g :: q)) with (f ++ concat (g :: q)).
  rewrite skipn_app, skipn_all, Nat.sub_diag.
  rewrite Forall_app in HF. destruct HF as [_ HF]. inversion HF; subst.
  apply concat_lt; auto. now apply non_increasing_app_r in HN.
Qed.

Lemma factor_before t p f q j : lyndon_factorization t (p ++ f :: q) ->
  j < length (concat p) -> lex_lt (skipn (length (concat p)) t) (skipn j t).
Proof.
  revert f q j. induction p as [|g p IH] using rev_ind; intros f q j HFz Hj; [simpl in Hj; lia|].
  rewrite <- app_assoc in HFz. simpl in HFz.
  rewrite concat_app, app_length in *. simpl in *. rewrite app_nil_r in *.
  assert (H1 := factor_next t p g f q HFz).
  destruct (Nat.lt_trichotomy j (length (concat p))) as [Lt|[->|Gt]].
  - eapply lex_lt_trans; [exact H1|]. now apply (IH g (f :: q)).
  - exact H1.
  - eapply lex_lt_trans; [exact H1|]. apply (factor_inside t p g (f :: q) j HFz). lia.
Qed.

(** ** isa_lyndon_factorization *)
Lemma isa_lyndon_correct t sa isa : t <> [] -> is_suffix_array t sa ->
  inverse_permutation sa = Ok isa -> isa_lyndon_factorization isa = duval t.
Proof.
  intros Hne HSA HI.
  destruct (duval_correct t) as (ends & fs & HD & HFz & HE). rewrite HD.
  pose proof HSA as (HP & _).
  destruct (inverse_permutation_spec _ _ HP) as (isa' & E' & HPi & _ & _).
  rewrite HI in E'. injection E' as <-.
  pose proof (is_perm_length _ _ HPi) as Hl.
  assert (Hn : 0 < length t) by (destruct t; [easy|simpl; lia]).
  assert (Hlt := isa_lt_iff t sa isa). 
  enough (G : okp (isa_lyndon_factorization isa) (fun r => r = ends)).
  { destruct G as (r & -> & ->). reflexivity. }
  unfold isa_lyndon_factorization. rewrite Hl.
  apply okp_bind, (okp_get _ _ 0); [lia|].
  apply okp_bind.
  destruct fs as [|f0 fs0] eqn:Efs.
  { exfalso. destruct HFz as (E & _). simpl in E. now subst t. }
  rewrite <- Efs in *.
  eapply okp_imp; [eapply (okp_for_range (fun k '(cur, es) => exists p f q,
      fs = p ++ f :: q /\ length (concat p) < k <= length (concat p) + length f /\
      cur = nth (length (concat p)) isa 0 /\ es = ends_from 0 p)); [lia| |]|].
  - exists [], f0, fs0. simpl. split; [exact Efs|]. split; [|auto].
    destruct HFz as (_ & HF & _). rewrite Efs in HF. inversion HF; subst.
    pose proof (lyndon_length f0 ltac:(assumption)). lia.
  - intros k [cur es] Hk (p & f & q & Efpq & Hkk & Ecur & Ees). cbv beta iota.
    apply okp_bind, (okp_get _ _ 0); [lia|].
    rewrite Efpq in HFz.
    destruct (Nat.eq_dec k (length (concat p) + length f)) as [Ek|Nk].
    + destruct q as [|g q].
      { exfalso. destruct HFz as (E & _). apply (f_equal (@length nat)) in E.
        rewrite concat_app in E. simpl in E. rewrite app_nil_r, app_length in E. lia. }
      assert (HL := factor_next _ _ _ _ _ HFz). rewrite <- Ek in HL.
      rewrite Hlt in HL by (auto; lia).
      destruct (Nat.ltb_spec (nth k isa 0) cur) as [_|Ge]; [|lia].
      apply okp_bind, okp_sub; [lia|]. apply okp_ok.
      exists (p ++ [f]), g, q. split; [rewrite <- app_assoc; exact Efpq|].
      rewrite concat_app. simpl. rewrite app_nil_r, app_length, <- Ek.
      split; [|split; [reflexivity|]].
      * destruct HFz as (_ & HF & _). rewrite Forall_app in HF. destruct HF as [_ HF].
        inversion HF as [|? ? _ HF2]; subst. inversion HF2; subst.
        pose proof (lyndon_length g ltac:(assumption)). lia.
      * rewrite ends_from_snoc, Ees. do 2 f_equal. lia.
    + assert (HL := factor_inside _ _ _ _ k HFz ltac:(lia)).
      rewrite Hlt in HL by (auto; lia).
      destruct (Nat.ltb_spec (nth k isa 0) cur) as [Lt|_]; [lia|].
      apply okp_ok. exists p, f, q. repeat split; auto; lia.
  - intros [cur es] (p & f & q & Efpq & Hkk & _ & Ees). cbv beta iota.
    apply okp_bind, okp_sub; [lia|]. apply okp_ok.
    assert (q = []).
    { destruct q as [|g q]; auto. exfalso. rewrite Efpq in HFz.
      destruct HFz as (E & HF & _). apply (f_equal (@length nat)) in E.
      rewrite concat_app in E. simpl in E. rewrite !app_length in E.
      rewrite Forall_app in HF. destruct HF as [_ HF].
      inversion HF as [|? ? _ HF2]; subst. inversion HF2; subst.
      pose proof (lyndon_length g ltac:(assumption)). lia. }
    subst q. rewrite HE, Efpq, ends_from_snoc, Ees. do 2 f_equal.
    destruct HFz as (E & _). apply (f_equal (@length nat)) in E. rewrite Efpq, concat_app in E.
    simpl in E. rewrite app_nil_r, app_length in E. lia.
Qed.

(** ** lyndon_conjugate *)
Lemma for_ret_first {A} (body : nat -> res (option A)) n x v :
  x < n -> (forall i, i < x -> body i = Ok None) -> body x = Ok (Some v) ->
  for_ret (range 0 n) body = Ok (Some v).
Proof.
  intros Hx Hb Hv. unfold range. rewrite Nat.sub_0_r.
  assert (G : forall k lo, lo <= x < lo + k -> for_ret (seq lo k) body = Ok (Some v)).
  { induction k as [|k IH]; intros lo Hlo; [lia|]. simpl.
    destruct (Nat.eq_dec lo x) as [->|Ne].
    - rewrite Hv. reflexivity.
    - rewrite Hb by lia. simpl. apply IH. lia. }
  apply G. lia.
Qed.

Lemma firstn_rot_double t j : j <= length t -> firstn (length t) (skipn j (t ++ t)) = rot j t.
Proof.
  intros H. rewrite skipn_app_lt by lia. rewrite firstn_app, skipn_length.
  rewrite firstn_all2 by (rewrite skipn_length; lia). unfold rot. do 2 f_equal. lia.
Qed.

Lemma ends_from_length s fs : length (ends_from s fs) = length fs.
Proof. revert s; induction fs; intros; simpl; auto. Qed.

Lemma nth_ends_from fs i s d : Forall lyndon fs -> i < length fs ->
  nth i (ends_from s fs) d + 1 = s + length (concat (firstn (S i) fs)).
Proof.
  revert i s. induction fs as [|f fs IH]; intros i s HF Hi; [simpl in Hi; lia|].
  inversion HF as [|? ? Hf HF']; subst. pose proof (lyndon_length _ Hf).
  destruct i as [|i].
  - simpl. rewrite app_nil_r. lia.
  - change (nth (S i) (ends_from s (f :: fs)) d) with (nth i (ends_from (s + length f) fs) d).
    rewrite IH by (auto; simpl in Hi; lia).
    change (firstn (S (S i)) (f :: fs)) with (f :: firstn (S i) fs).
    simpl concat. rewrite !app_length. lia.
Qed.

(** a Lyndon word has no border, so a Lyndon prefix of tt has length at most |t| *)
Lemma lyndon_prefix_double t u r : t <> [] -> t ++ t = u ++ r -> lyndon u -> length u <= length t.
Proof.
  intros Hne E HL. destruct (Nat.le_gt_cases (length u) (length t)) as [|G]; auto. exfalso.
  assert (Hn : 0 < length t) by (destruct t; [easy|simpl; lia]).
  apply lyndon_idx in HL. destruct HL as [_ HL].
  destruct (HL (length t) ltac:(lia)) as (y & H1 & _ & H3).
  assert (L := f_equal (@length nat) E). rewrite !app_length in L.
  assert (N : forall x, x < length u -> nth x u 0 = nth x (t ++ t) 0).
  { intros x Hx. rewrite E, app_nth1 by lia. reflexivity. }
  rewrite !N in H3 by lia. rewrite app_nth1, app_nth2 in H3 by lia.
  replace (length t + y - length t) with y in H3 by lia. lia.
Qed.

(** position of the first factor whose exclusive end reaches n *)
Lemma first_reach (fs : list str) n : n <= length (concat fs) -> 0 < n ->
  exists i, i < length fs /\ length (concat (firstn i fs)) < n <= length (concat (firstn (S i) fs)).
Proof.
  revert n. induction fs as [|f fs IH]; intros n Hn H0; [simpl in Hn; lia|].
  destruct (Nat.le_gt_cases n (length f)) as [L|G].
  - exists 0. simpl. rewrite app_nil_r. lia.
  - simpl in Hn. rewrite app_length in Hn.
    destruct (IH (n - length f) ltac:(lia) ltac:(lia)) as (i & H1 & H2).
    exists (S i). change (firstn (S (S i)) (f :: fs)) with (f :: firstn (S i) fs).
    change (firstn (S i) (f :: fs)) with (f :: firstn i fs). rewrite !concat_cons.
    rewrite !app_length. split; [simpl; lia|]. lia.
Qed.

Lemma concat_firstn_mono (fs : list str) i j : i <= j ->
  length (concat (firstn i fs)) <= length (concat (firstn j fs)).
Proof.
  revert i j. induction fs as [|f fs IH]; intros [|i] [|j] H; simpl; try lia.
  rewrite !app_length. specialize (IH i j ltac:(lia)). lia.
Qed.

Lemma lyndon_conjugate_correct t : t <> [] ->
  exists r, lyndon_conjugate t = Ok r /\ r < length t /\
    forall i, i < length t -> lex_le (rot r t) (rot i t).
Proof.
  intros Hne. set (n := length t).
  assert (Hn : 0 < n) by (unfold n; destruct t; [easy|simpl; lia]).
  destruct (duval_correct (t ++ t)) as (ends & fs & HD & HFz & HE).
  pose proof HFz as (HC & HF & HN).
  assert (Hlen : length (concat fs) = 2 * n) by (rewrite HC, app_length; unfold n; lia).
  destruct (first_reach fs n ltac:(lia) Hn) as (x & Hx & Hxn).
  assert (Hends : forall i, i < length fs -> nth i (ends ++ [2 * n]) 0 + 1 = length (concat (firstn (S i) fs))).
  { intros i Hi. rewrite app_nth1 by (rewrite HE, ends_from_length; lia).
    rewrite HE. now rewrite nth_ends_from by auto. }
  assert (Hle : length ends = length fs) by (rewrite HE; apply ends_from_length).
  (* the start of factor x is a smallest rotation *)
  assert (Hmin : forall i, i < n -> lex_le (rot (length (concat (firstn x fs))) t) (rot i t)).
  { intros i Hi.
    destruct (nth_error fs x) as [f|] eqn:Ef.
    2:{ apply nth_error_None in Ef. lia. }
    apply nth_error_split in Ef. destruct Ef as (p & q & Efs & Lp).
    assert (Ep : firstn x fs = p).
    { rewrite Efs, firstn_app, <- Lp, Nat.sub_diag, firstn_all. simpl. apply app_nil_r. }
    assert (Ep' : length (concat (firstn (S x) fs)) = length (concat p) + length f).
    { rewrite Efs, firstn_app. rewrite (firstn_all2 p) by lia.
      replace (S x - length p) with 1 by lia. simpl. rewrite concat_app. simpl.
      rewrite app_nil_r, app_length. lia. }
    rewrite Ep' in Hxn. rewrite Ep in *. rewrite Efs in HFz.
    unfold n in *.
    rewrite <- !firstn_rot_double by lia. apply lex_le_firstn.
    destruct (Nat.lt_trichotomy i (length (concat p))) as [Lt|[->|Gt]].
    - right. now apply (factor_before _ p f q).
    - apply lex_le_refl.
    - right. apply (factor_inside _ p f q); auto. lia. }
  exists (length (concat (firstn x fs))). split; [|split; [lia|exact Hmin]].
  unfold lyndon_conjugate. rewrite HD. cbn [bind].
  rewrite (get_ok _ 0 0) by (rewrite app_length; simpl; lia). cbn [bind].
  fold n.
  assert (H0 : 0 < length fs) by lia.
  destruct x as [|x].
  - (* the first factor reaches n: it has length exactly n *)
    assert (E0 : length (concat (firstn 1 fs)) = n).
    { destruct fs as [|f fs]; [simpl in *; lia|]. simpl in *. rewrite app_nil_r in *.
      assert (length f <= length t).
      { apply (lyndon_prefix_double t f (concat fs)); auto. now inversion HF. }
      unfold n in *. lia. }
    pose proof (Hends 0 H0) as H00. rewrite E0 in H00.
    destruct (Nat.eqb_spec (nth 0 (ends ++ [2 * n]) 0 + 1) n) as [_|Ne]; [reflexivity|lia].
  - assert (Hs1 : forall i, i <= x -> length (concat (firstn (S i) fs)) < n).
    { intros i Hi. pose proof (concat_firstn_mono fs (S i) (S x) ltac:(lia)). lia. }
    pose proof (Hends 0 H0) as H00.
    destruct (Nat.eqb_spec (nth 0 (ends ++ [2 * n]) 0 + 1) n) as [E|_].
    { specialize (Hs1 0 ltac:(lia)). lia. }
    rewrite sub_ok by (rewrite app_length; simpl; lia). cbn [bind].
    rewrite app_length. simpl length. replace (length ends + 1 - 1) with (length fs) by lia.
    rewrite (for_ret_first _ _ x (length (concat (firstn (S x) fs)))).
    + reflexivity.
    + lia.
    + intros i Hi. replace (i + 1) with (S i) by lia.
      rewrite (get_ok _ (S i) 0) by (rewrite app_length; simpl; lia). cbn [bind].
      destruct (Nat.leb_spec n (nth (S i) (ends ++ [2 * n]) 0 + 1)) as [L|_]; [|reflexivity].
      rewrite Hends in L by lia. specialize (Hs1 (S i) ltac:(lia)). lia.
    + replace (x + 1) with (S x) by lia.
      rewrite (get_ok _ (S x) 0) by (rewrite app_length; simpl; lia). cbn [bind].
      destruct (Nat.leb_spec n (nth (S x) (ends ++ [2 * n]) 0 + 1)) as [_|L].
      * rewrite (get_ok _ x 0) by (rewrite app_length; simpl; lia). cbn [bind].
        rewrite Hends by lia. reflexivity.
      * rewrite Hends in L by lia. lia.
Qed.

Lemma lyndon_conjugate_empty : lyndon_conjugate [] = Panic.
Proof. reflexivity. Qed.
