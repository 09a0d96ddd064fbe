(** SortProof.v : the results do not depend on the sorting procedure. *)
From Verif Require Import Base SpecStr SpecBwt SpecSort LexFacts ModelCore ModelLz ModelMain ModelEnum ModelSort PermFacts SortFacts DuvalProof
  LyndonProof LwgProof BorderProof BwtFacts BwtProof BbwtProof.

(** ** stable sorting *)
Section Stable.
  Context {A : Type} (D : A -> Prop) (c : A -> A -> comparison) (HT : total_preorder D c).
  Let le (a b : A) : Prop := c a b <> Gt.
  Lemma c_refl a : D a -> c a a = Eq.
  Proof. intros Ha. pose proof (proj1 HT a a Ha Ha) as E. destruct (c a a); [reflexivity|discriminate|discriminate]. Qed.
  Lemma le_eq a b : D a -> D b -> le a b -> le b a -> c a b = Eq.
  Proof. intros Ha Hb H1 H2. unfold le in *. rewrite (proj1 HT a b Ha Hb) in H2. destruct (c a b); [reflexivity|exfalso; now apply H2|congruence]. Qed.
  Lemma stable_unique s s' : Forall D s -> Forall D s' -> StronglySorted le s -> StronglySorted le s' ->
    (forall x, D x -> filter (same c x) s = filter (same c x) s') -> s = s'.
  Proof.
    revert s'. induction s as [|a s IH]; intros s' HD HD' HS HS' HF.
    - destruct s' as [|b s']; [reflexivity|]. inversion HD' as [|? ? Hb ?]; subst. specialize (HF b Hb). cbn [filter] in HF.
      unfold same in HF at 1. rewrite c_refl in HF by auto. discriminate.
    - inversion HD as [|? ? Ha HDs]; subst. inversion HS as [|? ? HSs HFs]; subst.
      assert (Ea : same c a a = true) by (unfold same; now rewrite c_refl).
      pose proof (HF a Ha) as Fa. cbn [filter] in Fa. rewrite Ea in Fa.
      assert (Ia : In a s') by (assert (In a (filter (same c a) s')) as I by (rewrite <- Fa; now left); apply filter_In in I; tauto).
      destruct s' as [|b s']; [easy|]. inversion HD' as [|? ? Hb HDs']; subst. inversion HS' as [|? ? HSs' HFs']; subst.
      assert (Lba : le b a).
      { destruct Ia as [->|Ia]; [unfold le; now rewrite c_refl|]. rewrite Forall_forall in HFs'. auto. }
      assert (Ib : In b (a :: s)).
      { pose proof (HF b Hb) as Fb. assert (In b (filter (same c b) (a :: s))) as I.
        { rewrite Fb. cbn [filter]. unfold same at 1. rewrite c_refl by auto. now left. } apply filter_In in I. tauto. }
      assert (Lab : le a b).
      { destruct Ib as [->|Ib]; [unfold le; now rewrite c_refl|]. rewrite Forall_forall in HFs. auto. }
      pose proof (le_eq a b Ha Hb Lab Lba) as Eab.
      assert (Eb : same c a b = true) by (unfold same; now rewrite Eab).
      cbn [filter] in Fa. rewrite Eb in Fa. injection Fa as -> _. f_equal.
      apply IH; auto. intros x Hx. pose proof (HF x Hx) as Fx. cbn [filter] in Fx. destruct (same c x b); [now injection Fx|exact Fx].
  Qed.
  Lemma insert_stable cmp x l : computes cmp D c -> D x -> Forall D l -> forall s, insert_by cmp x l = Ok s ->
    forall y, D y -> filter (same c y) s = filter (same c y) (x :: l).
  Proof.
    intros Hc Hx HD. induction l as [|z l IH]; intros s E y Hy; cbn [insert_by] in E.
    - inversion E. reflexivity.
    - inversion HD as [|? ? Hz HDl]; subst. rewrite (Hc z x Hz Hx) in E. cbn [bind] in E. destruct (c z x) eqn:Ec.
      + inversion E. reflexivity.
      + destruct (insert_by cmp x l) as [r| |]; cbn [bind] in E; try discriminate. inversion E; subst s.
        cbn [filter]. rewrite (IH HDl r eq_refl y Hy). cbn [filter].
        destruct (same c y z) eqn:E1; [|reflexivity]. destruct (same c y x) eqn:E2; [|reflexivity]. exfalso.
        unfold same in E1, E2. destruct (c y z) eqn:F1; try discriminate. destruct (c y x) eqn:F2; try discriminate.
        assert (le x z).
        { apply (proj2 HT x y z Hx Hy Hz); [|unfold le; congruence]. rewrite (proj1 HT y x Hy Hx), F2. discriminate. }
        unfold le in *. rewrite (proj1 HT z x Hz Hx), Ec in H. now apply H.
      + inversion E. reflexivity.
  Qed.
  Lemma sort_by_stable cmp l : computes cmp D c -> Forall D l -> forall s, sort_by cmp l = Ok s -> forall y, D y -> filter (same c y) s = filter (same c y) l.
  Proof.
    intros Hc. induction l as [|x l IH]; intros HD s E y Hy; cbn [sort_by] in E; [now inversion E|].
    inversion HD as [|? ? Hx HDl]; subst. destruct (sort_by_ok D cmp c Hc (proj1 HT) (proj2 HT) l HDl) as (r & Er & HP & _).
    rewrite Er in E. cbn [bind] in E.
    assert (HDr : Forall D r) by (apply Forall_forall; intros z Hz; rewrite Forall_forall in HDl; apply HDl; now apply (Permutation_in _ HP)).
    rewrite (insert_stable cmp x r Hc Hx HDr s E y Hy). cbn [filter]. now rewrite (IH HDl r Er y Hy).
  Qed.
End Stable.
Lemma sort_by_is_stable A : stable_sorter (@sort_by A).
Proof.
  intros cmp D c l Hc HT HD. destruct (sort_by_ok D cmp c Hc (proj1 HT) (proj2 HT) l HD) as (s & E & HP & HS).
  exists s. split; [exact E|]. split; [exact HP|]. split; [exact HS|]. intros x Hx. now apply (sort_by_stable D c HT cmp l).
Qed.
Lemma stable_is_sorter A (sort : sorting A) : stable_sorter sort -> sorter sort.
Proof. intros H cmp D c l H1 H2 H3. destruct (H cmp D c l H1 H2 H3) as (s & E & HP & HS & _). eauto. Qed.
Lemma stable_sorters_agree A (sort sort' : sorting A) cmp D c l : stable_sorter sort -> stable_sorter sort' ->
  computes cmp D c -> total_preorder D c -> Forall D l -> sort cmp l = sort' cmp l.
Proof.
  intros H H' Hc HT HD. destruct (H cmp D c l Hc HT HD) as (s & E & HP & HS & HF). destruct (H' cmp D c l Hc HT HD) as (s' & E' & HP' & HS' & HF').
  rewrite E, E'. f_equal. apply (stable_unique D c HT); auto.
  - apply Forall_forall. intros z Hz. rewrite Forall_forall in HD. apply HD. now apply (Permutation_in _ HP).
  - apply Forall_forall. intros z Hz. rewrite Forall_forall in HD. apply HD. now apply (Permutation_in _ HP').
  - intros x Hx. now rewrite HF, HF'.
Qed.

(** ** the functions *)
Lemma bwt_by_matrix_naive_with_ok sort t : sorter sort -> exists b, bwt_by_matrix_naive_with sort t = Ok b /\ is_matrix_bwt t b.
Proof.
  intros Hs. destruct (Hs (rot_cmp t) (fun a => a < length t) (fun a b => slice_cmp (rot a t) (rot b t)) (seq 0 (length t))) as (I & E & HP & HS).
  { intros a b Ha Hb. now apply rot_cmp_ok. }
  { split; [intros; apply slice_cmp_antisym|]. intros a b d _ _ _. rewrite !slice_cmp_not_gt. apply lex_le_trans. }
  { apply Forall_forall. intros x Hx. apply in_seq in Hx. lia. }
  assert (HSr : StronglySorted (fun i j => lex_le (rot i t) (rot j t)) I).
  { apply (StronglySorted_imp_in (fun a b => slice_cmp (rot a t) (rot b t) <> Gt)); auto. intros a b _ _. now rewrite slice_cmp_not_gt. }
  assert (HPI : is_perm (length t) I) by exact HP. pose proof (is_perm_length _ _ HPI) as LI.
  exists (sa_letters t I). split; [|now apply sorted_rot_matrix].
  unfold bwt_by_matrix_naive_with. rewrite E. cbn [bind].
  match goal with |- ?e = _ => enough (G : okp e (fun b => b = sa_letters t I)) end.
  { destruct G as (b & -> & ->). reflexivity. }
  eapply okp_imp; [eapply (okp_for_range (fun k b => b = firstn k (sa_letters t I))); [lia| |]|].
  - reflexivity.
  - intros i b Hi ->. apply okp_bind, (okp_get _ _ 0); [lia|].
    pose proof (is_perm_nth _ _ i HPI ltac:(lia)) as Hi'.
    apply okp_bind, okp_sub; [lia|]. apply okp_bind, okp_mod; [lia|].
    apply okp_bind, (okp_get _ _ 0); [apply Nat.mod_upper_bound; lia|]. apply okp_ok.
    rewrite (firstn_snoc_nth _ _ 0) by (unfold sa_letters; rewrite map_length; lia).
    do 2 f_equal. unfold sa_letters. rewrite (nth_map _ _ _ 0) by lia. now rewrite last_rot by lia.
  - intros b ->. apply firstn_all2. unfold sa_letters. rewrite map_length. lia.
Qed.
Lemma suffixarray_naive_with_ok sort t : sorter sort -> exists sa, suffixarray_naive_with sort t = Ok sa /\ is_suffix_array t sa.
Proof.
  intros Hs. unfold suffixarray_naive_with.
  destruct (Hs (fun a b => assert_ (a <=? length t) ;;; assert_ (b <=? length t) ;;; Ok (slice_cmp (skipn a t) (skipn b t)))
      (fun a => a < length t) (fun a b => slice_cmp (skipn a t) (skipn b t)) (seq 0 (length t))) as (sa & E & HP & HS).
  { intros a b Ha Hb. destruct (Nat.leb_spec a (length t)); [|lia]. destruct (Nat.leb_spec b (length t)); [|lia]. reflexivity. }
  { split; [intros; apply slice_cmp_antisym|]. intros a b d _ _ _. rewrite !slice_cmp_not_gt. apply lex_le_trans. }
  { apply Forall_forall. intros x Hx. apply in_seq in Hx. lia. }
  exists sa. split; [exact E|]. split; [exact HP|].
  pose proof (is_perm_length _ _ HP) as Hl.
  rewrite (StronglySorted_nth _ _ 0) in HS. apply (StronglySorted_nth _ _ 0). intros i j Hij. specialize (HS i j Hij).
  rewrite slice_cmp_gt in HS. apply not_lex_lt in HS. destruct HS as [HE|HL]; [|exact HL].
  apply skipn_inj_len in HE.
  + apply (is_perm_inj _ _ _ _ HP) in HE; lia.
  + apply Nat.lt_le_incl, (is_perm_nth _ _ _ HP). lia.
  + apply Nat.lt_le_incl, (is_perm_nth _ _ _ HP). lia.
Qed.
Lemma bbwt_naive_with_ok sort t : sorter sort -> t <> [] -> exists b, bbwt_naive_with sort t = Ok b /\ is_bijective_bwt t b.
Proof.
  intros Hsort Hne. assert (Hn : 0 < length t) by (destruct t; [easy|simpl; lia]).
  destruct (duval_correct t) as (ends & fs & HD & HFz & HE).
  pose proof HFz as (HC & HF & HN).
  assert (Hle : length ends = length fs) by (rewrite HE; apply ends_from_length).
  assert (Hends : forall i, i < length fs -> nth i ends 0 + 1 = length (concat (firstn (S i) fs))).
  { intros i Hi. rewrite HE. now rewrite nth_ends_from by auto. }
  assert (Hfs : 0 < length fs).
  { destruct fs; [|simpl; lia]. simpl in HC. subst t. easy. }
  assert (HFne : Forall (fun w => w <> []) fs).
  { apply Forall_forall. intros w Hw. rewrite Forall_forall in HF. apply lyndon_not_nil. auto. }
  set (conjs := all_conjs 0 fs).
  assert (Hcok : Forall (cok t) conjs) by (rewrite <- HC; apply (all_conjs_ok [] fs)).
  assert (Hcw : map (cw t) conjs = flat_map rotations fs) by (rewrite <- HC; apply (all_conjs_words [] fs HFne)).
  (* sorting *)
  destruct (Hsort (conj_cmp t) (cok t) (fun a b => ocmp (cw t a) (cw t b)) conjs) as (srt & Esrt & HP & HS); auto.
  { intros a b Ha Hb. now apply conj_cmp_ok. }
  { assert (Hnn : forall c, cok t c -> cw t c <> []).
    { intros c Hc E. apply (f_equal (@length nat)) in E. rewrite cw_length in E by auto.
      destruct Hc as (? & ? & ?). simpl in E. lia. }
    split; [intros; apply ocmp_antisym|]. intros a b d Ha Hb Hd. rewrite !ocmp_omega_le by auto. apply omega_le_trans. }
  assert (Hsok : forall c, In c srt -> cok t c).
  { intros c Hc. rewrite Forall_forall in Hcok. apply Hcok. now apply (Permutation_in _ HP). }
  assert (Lsrt : length srt = length t).
  { rewrite (Permutation_length HP). unfold conjs. rewrite all_conjs_length. now rewrite HC. }
  set (res := map (fun c => last (cw t c) 0) srt).
  exists res. split.
  - unfold bbwt_naive_with. rewrite HD. cbn [bind]. rewrite (get_ok _ _ 0) by lia. cbn [bind].
    rewrite sub_ok by lia. cbn [bind].
    match goal with |- bind ?e _ = _ => replace e with (Ok conjs) end.
    2:{ symmetry. match goal with |- ?e = Ok ?r => enough (G : okp e (fun x => x = r)) end.
        { destruct G as (x & -> & ->). reflexivity. }
        eapply okp_imp; [eapply (okp_for_range (fun k cs => cs = all_conjs 0 (firstn (S k) fs))); [lia| |]|].
        - unfold range. rewrite Nat.sub_0_r. pose proof (Hends 0 Hfs) as H0.
          destruct fs as [|f fs']; [simpl in Hfs; lia|].
          cbn [firstn all_conjs app]. rewrite app_nil_r. cbn [firstn concat] in H0. rewrite app_nil_r in H0.
          unfold conjs_of. rewrite H0. apply map_ext. intros j. f_equal. lia.
        - intros i cs Hi ->. apply okp_bind, (okp_get _ _ 0); [lia|]. apply okp_bind, (okp_get _ _ 0); [lia|].
          pose proof (Hends i ltac:(lia)) as H1. pose proof (Hends (S i) ltac:(lia)) as H2.
          replace (i + 1) with (S i) by lia.
          assert (Efi : firstn (S (S i)) fs = firstn (S i) fs ++ [nth (S i) fs []]) by (apply firstn_snoc_nth; lia).
          rewrite Efi in H2. rewrite concat_app, app_length in H2. cbn [concat] in H2. rewrite app_nil_r in H2.
          rewrite inner_loop by lia. apply okp_ok. rewrite Efi, all_conjs_snoc. f_equal.
          unfold conjs_of. replace (nth (S i) ends 0 - nth i ends 0) with (length (nth (S i) fs [])) by lia.
          apply map_ext. intros j. f_equal; lia.
        - intros cs ->. unfold conjs. f_equal. apply firstn_all2. lia. }
    cbn [bind]. replace (length conjs =? length t) with true.
    2:{ symmetry. apply Nat.eqb_eq. unfold conjs. rewrite all_conjs_length. now rewrite HC. }
    cbn [assert_ bind]. rewrite Esrt. cbn [bind]. rewrite (get_ok t _ 0) by lia. cbn [bind].
    match goal with |- ?e = Ok ?r => enough (G : okp e (fun x => x = r)) end.
    { destruct G as (x & -> & ->). reflexivity. }
    eapply okp_imp; [eapply (okp_for_range (fun k b => length b = length t /\
       forall i, i < k -> nth i b 0 = nth i res 0)); [lia| |]|].
    + split; [apply repeat_length|]. intros; lia.
    + intros i b Hi (Lb & Hb). apply okp_bind, (okp_get _ _ (Conj 0 0 0)); [lia|].
      set (c := nth i srt (Conj 0 0 0)).
      assert (Hc : cok t c) by (apply Hsok; apply nth_In; lia).
      pose proof Hc as (Hc1 & Hc2 & Hc3). pose proof (cw_length t c Hc) as Lc.
      assert (Hlast : last (cw t c) 0 = nth (if cj_index c =? 0 then cj_end c else cj_start c + cj_index c - 1) t 0).
      { rewrite last_nth, nth_cw by (auto; lia). f_equal. rewrite Lc.
        destruct (Nat.eqb_spec (cj_index c) 0) as [E|E].
        - rewrite E. rewrite Nat.mod_small; lia.
        - replace (cj_index c + (cj_end c + 1 - cj_start c - 1)) with
            (cj_index c - 1 + 1 * (cj_end c + 1 - cj_start c)) by lia.
          rewrite Nat.mod_add by lia. rewrite Nat.mod_small by lia. lia. }
      apply okp_bind.
      assert (Hpos : okp (if cj_index c =? 0 then Ok (cj_end c) else sub_ (cj_start c + cj_index c) 1)
         (fun p => p < length t /\ nth p t 0 = last (cw t c) 0)).
      { rewrite Hlast. destruct (Nat.eqb_spec (cj_index c) 0) as [E|E].
        - apply okp_ok. auto.
        - apply okp_sub; [lia|]. split; [lia|reflexivity]. }
      eapply okp_imp; [exact Hpos|]. intros p (Hp & Ep).
      apply okp_bind, (okp_get _ _ 0); [lia|]. apply okp_set; [lia|]. split; [now rewrite upd_length|].
      intros j Hj. destruct (Nat.eq_dec j i) as [->|Ne].
      * rewrite nth_upd_eq by lia. rewrite Ep. unfold res. rewrite (nth_map _ _ _ (Conj 0 0 0)) by lia. reflexivity.
      * rewrite nth_upd_ne by lia. apply Hb. lia.
    + intros b (Lb & Hb). apply (nth_ext_len _ _ 0).
      * unfold res. rewrite map_length. lia.
      * intros i Hi. apply Hb. lia.
  - exists fs, (map (cw t) srt). split; [exact HFz|]. split; [|split].
    + rewrite <- Hcw. now apply Permutation_map.
    + apply (StronglySorted_map (fun a b => omega_le (cw t a) (cw t b))); auto.
      apply (StronglySorted_imp_in (fun a b => ocmp (cw t a) (cw t b) <> Gt)); auto.
      intros a b Ha Hb H. apply ocmp_omega_le; auto;
        intros E; apply (f_equal (@length nat)) in E; rewrite cw_length in E by auto; simpl in E;
        [destruct (Hsok a Ha) as (?&?&?)|destruct (Hsok b Hb) as (?&?&?)]; lia.
    + unfold res. now rewrite map_map.
Qed.


(** ** enumerate_lexparse *)
Lemma fst_computes : computes (fun a b : nat * str => Ok (fst a ?= fst b)) (fun _ => True) (fun a b => fst a ?= fst b).
Proof. intros a b _ _. reflexivity. Qed.
Lemma fst_preorder : total_preorder (fun _ : nat * str => True) (fun a b => fst a ?= fst b).
Proof. split; [intros a b _ _; apply Nat.compare_antisym|]. intros a b d _ _ _. rewrite !Nat.compare_le_iff. lia. Qed.
Lemma enum_step_stable ls sort s w st : stable_sorter ls -> enum_step_with ls sort s w st = enum_step sort s w st.
Proof.
  intros H. unfold enum_step_with, enum_step. destruct st as [m out]. destruct (enum_list sort s (w ++ [0])) as [L| |]; cbn [bind]; try reflexivity.
  now rewrite (stable_sorters_agree _ ls (@sort_by (nat * str)) _ (fun _ => True) (fun a b => fst a ?= fst b) L H (sort_by_is_stable _)
    fst_computes fst_preorder ltac:(now apply Forall_forall)).
Qed.
Lemma for_in_ext {S I} (l : list I) (f g : I -> S -> res S) s : (forall i s, f i s = g i s) -> for_in l f s = for_in l g s.
Proof. intros H. revert s. induction l as [|i l IH]; intros s; [reflexivity|]. cbn [for_in]. rewrite H. destruct (g i s); cbn [bind]; auto. Qed.
