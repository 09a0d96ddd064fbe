(** BbwtProof.v : [bbwt_naive] computes the bijective BWT, which is injective. *)
From Verif Require Import Base SpecStr SpecBwt LexFacts ModelCore PermFacts SortFacts DuvalProof
  LyndonProof LwgProof BorderProof BwtFacts BwtProof.

(** the word a Conjugate record stands for *)
Definition cw (t : str) (c : conjugate) : str := rot (cj_index c) (sub t (cj_start c) (cj_end c + 1)).
Definition cok (t : str) (c : conjugate) : Prop :=
  cj_start c <= cj_end c /\ cj_end c < length t /\ cj_index c < cj_end c + 1 - cj_start c.

Lemma cw_length t c : cok t c -> length (cw t c) = cj_end c + 1 - cj_start c.
Proof. intros (H1 & H2 & H3). unfold cw. rewrite rot_length, sub_length; lia. Qed.

Lemma nth_cw t c x : cok t c -> x < length (cw t c) ->
  nth x (cw t c) 0 = nth (cj_start c + (cj_index c + x) mod length (cw t c)) t 0.
Proof.
  intros H Hx. rewrite cw_length in * by auto. destruct H as (H1 & H2 & H3).
  assert (L : length (sub t (cj_start c) (cj_end c + 1)) = cj_end c + 1 - cj_start c) by (apply sub_length; lia).
  unfold cw. rewrite nth_rot_mod by lia. rewrite L. rewrite nth_sub; [reflexivity|].
  pose proof (Nat.mod_upper_bound (cj_index c + x) (cj_end c + 1 - cj_start c) ltac:(lia)). lia.
Qed.

(** comparison over |u||v| letters decides the omega-order *)
Definition ocmp (u v : str) : comparison :=
  slice_cmp (omega_prefix (length u * length v) u) (omega_prefix (length u * length v) v).

Lemma mod_mod_mul i a b : 0 < a -> 0 < b -> (i mod (a * b)) mod a = i mod a.
Proof.
  intros Ha Hb. rewrite Nat.mod_mul_r by lia.
  rewrite (Nat.mul_comm a), Nat.mod_add by lia. apply Nat.mod_mod. lia.
Qed.

Lemma ocmp_antisym u v : ocmp v u = CompOpp (ocmp u v).
Proof. unfold ocmp. rewrite (Nat.mul_comm (length v)). apply slice_cmp_antisym. Qed.

Lemma ocmp_omega_le u v : u <> [] -> v <> [] -> (ocmp u v <> Gt <-> omega_le u v).
Proof.
  intros Hu Hv. assert (Lu : 0 < length u) by (destruct u; [easy|simpl; lia]).
  assert (Lv : 0 < length v) by (destruct v; [easy|simpl; lia]).
  unfold ocmp. set (K := length u * length v). rewrite slice_cmp_not_gt. split.
  - intros [E|H] k.
    + left. apply (nth_ext_len _ _ 0); [now rewrite !op_length|]. intros i Hi. rewrite op_length in Hi.
      rewrite !nth_op by lia.
      assert (HiK : i mod K < K) by (apply Nat.mod_upper_bound; unfold K; nia).
      apply (f_equal (fun l => nth (i mod K) l 0)) in E. rewrite !nth_op in E by auto.
      unfold K in E at 1. rewrite mod_mod_mul in E by lia.
      unfold K in E. rewrite (Nat.mul_comm (length u)), mod_mod_mul in E by lia. exact E.
    + destruct (lex_lt_cases _ _ H) as [(s & Hs & E2)|(y & H1 & H2 & H3 & H4)].
      { apply (f_equal (@length nat)) in E2. rewrite app_length, !op_length in E2. destruct s; [easy|simpl in E2; lia]. }
      rewrite op_length in H1, H2.
      rewrite <- (firstn_op k (k + K) u) by lia. rewrite <- (firstn_op k (k + K) v) by lia.
      apply lex_le_firstn. right.
      apply (lex_lt_mismatch _ _ y); rewrite ?op_length; try lia.
      * intros x Hx. specialize (H3 x Hx). rewrite !nth_op in H3 by lia. now rewrite !nth_op by lia.
      * rewrite !nth_op in H4 by lia. now rewrite !nth_op by lia.
  - intros H. apply H.
Qed.

Lemma conj_cmp_ok t a b : cok t a -> cok t b -> conj_cmp t a b = Ok (ocmp (cw t a) (cw t b)).
Proof.
  intros Ha Hb. pose proof (cw_length t a Ha) as La. pose proof (cw_length t b Hb) as Lb.
  pose proof Ha as (Ha1 & Ha2 & Ha3). pose proof Hb as (Hb1 & Hb2 & Hb3).
  unfold conj_cmp. rewrite !sub_ok by lia. cbn [bind].
  replace (1 + cj_end a - cj_start a) with (length (cw t a)) by lia.
  replace (1 + cj_end b - cj_start b) with (length (cw t b)) by lia.
  unfold range. rewrite Nat.sub_0_r. set (u := cw t a) in *. set (v := cw t b) in *.
  unfold ocmp. set (K := length u * length v).
  set (body := fun len => _).
  assert (G : forall k lo, lo + k = K ->
    exists r, for_ret (seq lo k) body = Ok r /\
      match r with Some c => c | None => Eq end = slice_cmp (skipn lo (omega_prefix K u)) (skipn lo (omega_prefix K v))).
  { induction k as [|k IH]; intros lo Hk.
    - exists None. split; [reflexivity|].
      rewrite !skipn_all2 by (rewrite op_length; lia). reflexivity.
    - assert (L1 : lo < length (omega_prefix K u)) by (rewrite op_length; lia).
      assert (L2 : lo < length (omega_prefix K v)) by (rewrite op_length; lia).
      rewrite (skipn_cons_nth _ _ 0 L1), (skipn_cons_nth _ _ 0 L2). simpl for_ret.
      unfold body at 1. rewrite !mod_ok by lia. cbn [bind].
      pose proof (Nat.mod_upper_bound (cj_index a + lo) (length u) ltac:(lia)) as M1.
      pose proof (Nat.mod_upper_bound (cj_index b + lo) (length v) ltac:(lia)) as M2.
      rewrite !(get_ok t _ 0) by lia. cbn [bind].
      rewrite !nth_op by lia.
      assert (E1 : nth (lo mod length u) u 0 = nth (cj_start a + (cj_index a + lo) mod length u) t 0).
      { unfold u. rewrite nth_cw by (auto; apply Nat.mod_upper_bound; fold u; lia).
        rewrite Nat.add_mod_idemp_r by (fold u; lia). reflexivity. }
      assert (E2 : nth (lo mod length v) v 0 = nth (cj_start b + (cj_index b + lo) mod length v) t 0).
      { unfold v. rewrite nth_cw by (auto; apply Nat.mod_upper_bound; fold v; lia).
        rewrite Nat.add_mod_idemp_r by (fold v; lia). reflexivity. }
      rewrite <- E1, <- E2. simpl slice_cmp.
      destruct (Nat.compare_spec (nth (lo mod length u) u 0) (nth (lo mod length v) v 0)) as [E|E|E].
      + apply Nat.eqb_eq in E. rewrite E. cbn [bind]. destruct (IH (S lo) ltac:(lia)) as (r & E3 & E4). exists r. auto.
      + destruct (Nat.eqb_spec (nth (lo mod length u) u 0) (nth (lo mod length v) v 0)); [lia|].
        apply Nat.ltb_lt in E. rewrite E. exists (Some Lt). auto.
      + destruct (Nat.eqb_spec (nth (lo mod length u) u 0) (nth (lo mod length v) v 0)); [lia|].
        destruct (Nat.ltb_spec (nth (lo mod length u) u 0) (nth (lo mod length v) v 0)); [lia|].
        exists (Some Gt). auto. }
  destruct (G K 0 ltac:(lia)) as (r & E1 & E2). rewrite E1. cbn [bind].
  change (skipn 0 (omega_prefix K u)) with (omega_prefix K u) in E2.
  change (skipn 0 (omega_prefix K v)) with (omega_prefix K v) in E2. now rewrite E2.
Qed.

(** ** the list of conjugates *)
Definition conjs_of (s len : nat) : list conjugate := map (fun j => Conj j s (s + len - 1)) (seq 0 len).
Fixpoint all_conjs (s : nat) (fs : list str) : list conjugate :=
  match fs with
  | [] => []
  | f :: fs' => conjs_of s (length f) ++ all_conjs (s + length f) fs'
  end.
Lemma all_conjs_snoc s fs f :
  all_conjs s (fs ++ [f]) = all_conjs s fs ++ conjs_of (s + length (concat fs)) (length f).
Proof.
  revert s; induction fs as [|g fs IH]; intros s; simpl.
  - now rewrite Nat.add_0_r, app_nil_r.
  - rewrite IH, <- app_assoc, app_length. do 3 f_equal. lia.
Qed.
Lemma all_conjs_length s fs : length (all_conjs s fs) = length (concat fs).
Proof.
  revert s; induction fs as [|g fs IH]; intros s; simpl; auto.
  rewrite !app_length, IH. unfold conjs_of. now rewrite map_length, seq_length.
Qed.
Lemma all_conjs_ok p q : Forall (fun c => cok (concat (p ++ q)) c) (all_conjs (length (concat p)) q).
Proof.
  revert p. induction q as [|f q IH]; intros p; simpl; [constructor|].
  apply Forall_app. split.
  - apply Forall_forall. intros c Hc. unfold conjs_of in Hc. apply in_map_iff in Hc.
    destruct Hc as (j & <- & Hj). apply in_seq in Hj.
    rewrite concat_app. simpl. unfold cok. simpl. rewrite !app_length. lia.
  - specialize (IH (p ++ [f])). rewrite <- app_assoc in IH. simpl in IH.
    replace (length (concat (p ++ [f]))) with (length (concat p) + length f) in IH
      by (rewrite concat_app, app_length; simpl; now rewrite app_nil_r).
    exact IH.
Qed.
Lemma all_conjs_words p q : Forall (fun w => w <> []) q ->
  map (cw (concat (p ++ q))) (all_conjs (length (concat p)) q) = flat_map rotations q.
Proof.
  revert p. induction q as [|f q IH]; intros p HF; simpl; auto.
  inversion HF as [|? ? Hf HF']; subst.
  rewrite map_app. f_equal.
  - unfold conjs_of, rotations. rewrite map_map. apply map_ext_in. intros j Hj. apply in_seq in Hj.
    unfold cw. simpl. f_equal.
    replace (length (concat p) + length f - 1 + 1) with (length (concat p) + length f) by lia.
    unfold sub. replace (length (concat p) + length f - length (concat p)) with (length f) by lia.
    rewrite skipn_concat. simpl. rewrite firstn_app, Nat.sub_diag, firstn_all. simpl. apply app_nil_r.
  - specialize (IH (p ++ [f]) HF'). rewrite <- app_assoc in IH. simpl in IH.
    replace (length (concat (p ++ [f]))) with (length (concat p) + length f) in IH
      by (rewrite concat_app, app_length; simpl; now rewrite app_nil_r).
    exact IH.
Qed.

Lemma inner_loop a b conjs : a <= b ->
  for_in (range (a + 1) (b + 1)) (fun j conjs =>
        j1 <- sub_ j a ;; ix <- sub_ j1 1 ;; Ok (conjs ++ [Conj ix (a + 1) b])) conjs
  = Ok (conjs ++ map (fun j => Conj j (a + 1) b) (seq 0 (b - a))).
Proof.
  intros Hab.
  match goal with |- ?e = Ok ?r => enough (G : okp e (fun x => x = r)) end.
  { destruct G as (x & -> & ->). reflexivity. }
  eapply okp_imp; [eapply (okp_for_range (fun k cs => cs = conjs ++ map (fun j => Conj j (a + 1) b) (seq 0 (k - (a + 1))))); [lia| |]|].
  - rewrite Nat.sub_diag. simpl. now rewrite app_nil_r.
  - intros i cs Hi ->. apply okp_bind, okp_sub; [lia|]. apply okp_bind, okp_sub; [lia|].
    apply okp_ok. replace (S i - (a + 1)) with (S (i - (a + 1))) by lia. rewrite seq_S, map_app, app_assoc.
    simpl. do 3 f_equal. lia.
  - intros cs ->. do 3 f_equal. lia.
Qed.

Lemma bbwt_naive_ok t : t <> [] -> exists b, bbwt_naive t = Ok b /\ is_bijective_bwt t b.
Proof.
  intros Hne. assert (Hn : 0 < length t) by (destruct t; [easy|simpl; lia]).
  destruct (duval_correct t) as (ends & fs & HD & HFz & HE).
  pose proof HFz as (HC & HF & HN).
  assert (Hle : length ends = length fs) by (rewrite HE; apply ends_from_length).
  assert (Hends : forall i, i < length fs -> nth i ends 0 + 1 = length (concat (firstn (S i) fs))).
  { intros i Hi. rewrite HE. now rewrite nth_ends_from by auto. }
  assert (Hfs : 0 < length fs).
  { destruct fs; [|simpl; lia]. simpl in HC. subst t. easy. }
  assert (HFne : Forall (fun w => w <> []) fs).
  { apply Forall_forall. intros w Hw. rewrite Forall_forall in HF. apply lyndon_not_nil. auto. }
  set (conjs := all_conjs 0 fs).
  assert (Hcok : Forall (cok t) conjs) by (rewrite <- HC; apply (all_conjs_ok [] fs)).
  assert (Hcw : map (cw t) conjs = flat_map rotations fs) by (rewrite <- HC; apply (all_conjs_words [] fs HFne)).
  (* sorting *)
  destruct (sort_by_ok (cok t) (conj_cmp t) (fun a b => ocmp (cw t a) (cw t b))) with (l := conjs)
    as (srt & Esrt & HP & HS); auto.
  { intros. now apply conj_cmp_ok. }
  { intros. apply ocmp_antisym. }
  { assert (Hnn : forall c, cok t c -> cw t c <> []).
    { intros c Hc E. apply (f_equal (@length nat)) in E. rewrite cw_length in E by auto.
      destruct Hc as (? & ? & ?). simpl in E. lia. }
    intros a b d Ha Hb Hd. rewrite !ocmp_omega_le by auto. apply omega_le_trans. }
  assert (Hsok : forall c, In c srt -> cok t c).
  { intros c Hc. rewrite Forall_forall in Hcok. apply Hcok. now apply (Permutation_in _ HP). }
  assert (Lsrt : length srt = length t).
  { rewrite (Permutation_length HP). unfold conjs. rewrite all_conjs_length. now rewrite HC. }
  set (res := map (fun c => last (cw t c) 0) srt).
  exists res. split.
  - unfold bbwt_naive. rewrite HD. cbn [bind]. rewrite (get_ok _ _ 0) by lia. cbn [bind].
    rewrite sub_ok by lia. cbn [bind].
    match goal with |- bind ?e _ = _ => replace e with (Ok conjs) end.
    2:{ symmetry. match goal with |- ?e = Ok ?r => enough (G : okp e (fun x => x = r)) end.
        { destruct G as (x & -> & ->). reflexivity. }
        eapply okp_imp; [eapply (okp_for_range (fun k cs => cs = all_conjs 0 (firstn (S k) fs))); [lia| |]|].
        - unfold range. rewrite Nat.sub_0_r. pose proof (Hends 0 Hfs) as H0.
          destruct fs as [|f fs']; [simpl in Hfs; lia|].
          cbn [firstn all_conjs app]. rewrite app_nil_r. cbn [firstn concat] in H0. rewrite app_nil_r in H0.
          unfold conjs_of. rewrite H0. apply map_ext. intros j. f_equal. lia.
        - intros i cs Hi ->. apply okp_bind, (okp_get _ _ 0); [lia|]. apply okp_bind, (okp_get _ _ 0); [lia|].
          pose proof (Hends i ltac:(lia)) as H1. pose proof (Hends (S i) ltac:(lia)) as H2.
          replace (i + 1) with (S i) by lia.
          assert (Efi : firstn (S (S i)) fs = firstn (S i) fs ++ [nth (S i) fs []]) by (apply firstn_snoc_nth; lia).
          rewrite Efi in H2. rewrite concat_app, app_length in H2. cbn [concat] in H2. rewrite app_nil_r in H2.
          rewrite inner_loop by lia. apply okp_ok. rewrite Efi, all_conjs_snoc. f_equal.
          unfold conjs_of. replace (nth (S i) ends 0 - nth i ends 0) with (length (nth (S i) fs [])) by lia.
          apply map_ext. intros j. f_equal; lia.
        - intros cs ->. unfold conjs. f_equal. apply firstn_all2. lia. }
    cbn [bind]. replace (length conjs =? length t) with true.
    2:{ symmetry. apply Nat.eqb_eq. unfold conjs. rewrite all_conjs_length. now rewrite HC. }
    cbn [assert_ bind]. rewrite Esrt. cbn [bind]. rewrite (get_ok t _ 0) by lia. cbn [bind].
    match goal with |- ?e = Ok ?r => enough (G : okp e (fun x => x = r)) end.
    { destruct G as (x & -> & ->). reflexivity. }
    eapply okp_imp; [eapply (okp_for_range (fun k b => length b = length t /\
       forall i, i < k -> nth i b 0 = nth i res 0)); [lia| |]|].
    + split; [apply repeat_length|]. intros; lia.
    + intros i b Hi (Lb & Hb). apply okp_bind, (okp_get _ _ (Conj 0 0 0)); [lia|].
      set (c := nth i srt (Conj 0 0 0)).
      assert (Hc : cok t c) by (apply Hsok; apply nth_In; lia).
      pose proof Hc as (Hc1 & Hc2 & Hc3). pose proof (cw_length t c Hc) as Lc.
      assert (Hlast : last (cw t c) 0 = nth (if cj_index c =? 0 then cj_end c else cj_start c + cj_index c - 1) t 0).
      { rewrite last_nth, nth_cw by (auto; lia). f_equal. rewrite Lc.
        destruct (Nat.eqb_spec (cj_index c) 0) as [E|E].
        - rewrite E. rewrite Nat.mod_small; lia.
        - replace (cj_index c + (cj_end c + 1 - cj_start c - 1)) with
            (cj_index c - 1 + 1 * (cj_end c + 1 - cj_start c)) by lia.
          rewrite Nat.mod_add by lia. rewrite Nat.mod_small by lia. lia. }
      apply okp_bind.
      assert (Hpos : okp (if cj_index c =? 0 then Ok (cj_end c) else sub_ (cj_start c + cj_index c) 1)
         (fun p => p < length t /\ nth p t 0 = last (cw t c) 0)).
      { rewrite Hlast. destruct (Nat.eqb_spec (cj_index c) 0) as [E|E].
        - apply okp_ok. auto.
        - apply okp_sub; [lia|]. split; [lia|reflexivity]. }
      eapply okp_imp; [exact Hpos|]. intros p (Hp & Ep).
      apply okp_bind, (okp_get _ _ 0); [lia|]. apply okp_set; [lia|]. split; [now rewrite upd_length|].
      intros j Hj. destruct (Nat.eq_dec j i) as [->|Ne].
      * rewrite nth_upd_eq by lia. rewrite Ep. unfold res. rewrite (nth_map _ _ _ (Conj 0 0 0)) by lia. reflexivity.
      * rewrite nth_upd_ne by lia. apply Hb. lia.
    + intros b (Lb & Hb). apply (nth_ext_len _ _ 0).
      * unfold res. rewrite map_length. lia.
      * intros i Hi. apply Hb. lia.
  - exists fs, (map (cw t) srt). split; [exact HFz|]. split; [|split].
    + rewrite <- Hcw. now apply Permutation_map.
    + apply (StronglySorted_map (fun a b => omega_le (cw t a) (cw t b))); auto.
      apply (StronglySorted_imp_in (fun a b => ocmp (cw t a) (cw t b) <> Gt)); auto.
      intros a b Ha Hb H. apply ocmp_omega_le; auto;
        intros E; apply (f_equal (@length nat)) in E; rewrite cw_length in E by auto; simpl in E;
        [destruct (Hsok a Ha) as (?&?&?)|destruct (Hsok b Hb) as (?&?&?)]; lia.
    + unfold res. now rewrite map_map.
Qed.

Lemma bbwt_naive_empty : bbwt_naive [] = Panic.
Proof. reflexivity. Qed.

(** ** injectivity *)
Lemma flat_rotations_lasts fs : Permutation (map (fun r => last r 0) (flat_map rotations fs)) (concat fs).
Proof.
  induction fs as [|f fs IH]; simpl; auto. rewrite map_app. apply Permutation_app; auto.
  apply last_rotations_perm.
Qed.

Lemma bijective_bwt_perm t b : is_bijective_bwt t b -> Permutation b t.
Proof.
  intros (fs & W & (HC & _) & HP & _ & ->). rewrite HP, flat_rotations_lasts. now rewrite HC.
Qed.

(** conjugates of Lyndon words with the same infinite repetition are equal *)
Lemma op_period k w : 0 < length w <= k -> is_period (omega_prefix k w) (length w).
Proof.
  intros H. split; [now rewrite op_length|]. intros i Hi. rewrite op_length in Hi.
  rewrite !nth_op by lia. f_equal. replace (i + length w) with (i + 1 * length w) by lia.
  now rewrite Nat.mod_add by lia.
Qed.

Lemma lyndon_conj_no_div f i d : lyndon f -> i < length f -> 0 < d < length f ->
  Nat.divide d (length f) -> is_period (rot i f) d -> False.
Proof.
  intros HL Hi Hd Hdiv HP.
  assert (Hrot : rot d (rot i f) = rot i f).
  { apply (nth_ext_len _ _ 0); [now rewrite !rot_length|]. intros x Hx. rewrite !rot_length in Hx.
    rewrite nth_rot_mod by (rewrite rot_length; lia). rewrite rot_length.
    rewrite (period_mod _ d _ HP) by (rewrite rot_length; apply Nat.mod_upper_bound; lia).
    rewrite (period_mod _ d x HP) by (rewrite rot_length; lia).
    f_equal. destruct Hdiv as (m & Em). rewrite Em at 1.
    assert (Hm : 0 < m) by (destruct m; [lia|lia]).
    rewrite (Nat.mul_comm m d), mod_mod_mul by lia.
    replace (d + x) with (x + 1 * d) by lia. now rewrite Nat.mod_add by lia. }
  apply (lex_lt_irrefl f).
  assert (E : rot d f = f).
  { set (j := (length f - i) mod length f).
    assert (Hj : j < length f) by (apply Nat.mod_upper_bound; lia).
    pose proof (rot_inv f i Hi) as EI. fold j in EI.
    rewrite <- EI at 2. rewrite <- Hrot.
    rewrite !rot_rot; rewrite ?rot_length; try lia; try (apply Nat.mod_upper_bound; lia).
    f_equal. rewrite !Nat.add_mod_idemp_l by lia.
    replace (j + d + i) with (d + (j + i)) by lia.
    rewrite <- (Nat.add_mod_idemp_r d (j + i)) by lia.
    unfold j. rewrite Nat.add_mod_idemp_l by lia.
    replace (length f - i + i) with (0 + 1 * length f) by lia. rewrite Nat.mod_add, Nat.mod_0_l by lia.
    rewrite Nat.add_0_r. symmetry. apply Nat.mod_small. lia. }
  rewrite <- E at 2. now apply lyndon_lt_rot.
Qed.

Lemma conj_omega_inj f g i j k : lyndon f -> lyndon g -> i < length f -> j < length g ->
  length f + length g <= k -> omega_prefix k (rot i f) = omega_prefix k (rot j g) -> rot i f = rot j g.
Proof.
  intros Hf Hg Hi Hj Hk E.
  assert (Pf : is_period (omega_prefix k (rot i f)) (length f)).
  { rewrite <- (rot_length i f). apply op_period. rewrite rot_length. lia. }
  assert (Pg : is_period (omega_prefix k (rot i f)) (length g)).
  { rewrite E. rewrite <- (rot_length j g). apply op_period. rewrite rot_length. lia. }
  pose proof (fine_wilf _ _ _ Pf Pg ltac:(rewrite op_length; lia)) as PG.
  set (d := Nat.gcd (length f) (length g)) in *.
  assert (Hd0 : 0 < d) by (destruct PG as [PG _]; lia).
  assert (Hdf : d <= length f) by (apply Nat.divide_pos_le; [lia|apply Nat.gcd_divide_l]).
  assert (Hdg : d <= length g) by (apply Nat.divide_pos_le; [lia|apply Nat.gcd_divide_r]).
  assert (Hsub : forall w, length w <= k -> d <= length w -> is_period (omega_prefix k w) d -> is_period w d).
  { intros w Hw Hdw [_ HPd]. split; [lia|]. intros x Hx. rewrite op_length in HPd.
    specialize (HPd x ltac:(lia)). rewrite !nth_op in HPd by lia. rewrite !Nat.mod_small in HPd by lia. exact HPd. }
  assert (df : d = length f).
  { destruct (Nat.eq_dec d (length f)) as [|Ne]; auto. exfalso.
    apply (lyndon_conj_no_div f i d); auto; [lia|apply Nat.gcd_divide_l|].
    apply Hsub; rewrite ?rot_length; auto; lia. }
  assert (dg : d = length g).
  { destruct (Nat.eq_dec d (length g)) as [|Ne]; auto. exfalso.
    apply (lyndon_conj_no_div g j d); auto; [lia|apply Nat.gcd_divide_r|].
    apply Hsub; rewrite ?rot_length; auto; try lia. now rewrite <- E. }
  apply (f_equal (firstn (length f))) in E. rewrite !firstn_op in E by lia.
  rewrite <- (op_full (rot i f)), <- (op_full (rot j g)). rewrite !rot_length. congruence.
Qed.

(** computable Lyndon test, used to pick the Lyndon words out of a list of conjugates *)
Definition lynb (w : str) : bool := forallb (fun i => gtb w (rot i w)) (seq 1 (length w - 1)).
Lemma lynb_lyndon w : lyndon w -> lynb w = true.
Proof.
  intros H. apply forallb_forall. intros i Hi. apply in_seq in Hi. apply gtb_true.
  apply lyndon_lt_rot; auto. lia.
Qed.
Lemma lynb_conj w i : lyndon w -> 0 < i < length w -> lynb (rot i w) = false.
Proof.
  intros H Hi. destruct (lynb (rot i w)) eqn:E; auto. exfalso.
  unfold lynb in E. rewrite forallb_forall in E. rewrite rot_length in E.
  specialize (E (length w - i) ltac:(apply in_seq; lia)). apply gtb_true in E.
  pose proof (rot_inv w i ltac:(lia)) as EI. rewrite Nat.mod_small in EI by lia. rewrite EI in E.
  apply (lex_lt_asym _ _ E). now apply lyndon_lt_rot.
Qed.
Lemma filter_rotations f : lyndon f -> filter lynb (rotations f) = [f].
Proof.
  intros H. pose proof (lyndon_length _ H) as Hl. unfold rotations.
  destruct (length f) as [|n] eqn:E; [lia|]. simpl seq. simpl map. rewrite rot_0. simpl filter.
  rewrite lynb_lyndon by auto. f_equal.
  assert (G : forall k lo, 0 < lo -> lo + k <= length f ->
     filter lynb (map (fun i => rot i f) (seq lo k)) = []).
  { induction k as [|k IH]; intros lo Hlo Hk; simpl; auto.
    rewrite lynb_conj by (auto; lia). apply IH; lia. }
  apply G; lia.
Qed.
Lemma filter_flat_rotations fs : Forall lyndon fs -> filter lynb (flat_map rotations fs) = fs.
Proof.
  induction 1 as [|f fs Hf HF IH]; simpl; auto.
  rewrite filter_app, filter_rotations, IH by auto. reflexivity.
Qed.

Lemma filter_perm {A} (p : A -> bool) l l' : Permutation l l' -> Permutation (filter p l) (filter p l').
Proof.
  induction 1 as [|x l l' HP IH|x y l|l l' l'' HP1 IH1 HP2 IH2]; simpl; auto.
  - destruct (p x); auto.
  - destruct (p x), (p y); auto. apply perm_swap.
  - now rewrite IH1.
Qed.

Lemma non_increasing_sorted fs : non_increasing fs -> StronglySorted (fun a b => lex_le b a) fs.
Proof.
  intros H. apply Sorted_StronglySorted.
  - intros a b c H1 H2. eapply lex_le_trans; eauto.
  - induction fs as [|f fs IH]; [constructor|]. simpl in H. destruct H as [H1 H2].
    constructor; [auto|]. destruct fs; constructor. exact H1.
Qed.

Lemma map_inj_list {A B} (f : A -> B) l l' : (forall a b, In a l -> In b l' -> f a = f b -> a = b) ->
  map f l = map f l' -> l = l'.
Proof.
  revert l'. induction l as [|x l IH]; intros [|y l'] H E; simpl in *; try easy.
  injection E as E1 E2. f_equal; [apply H; auto|]. apply IH; auto.
Qed.

Lemma concat_length_in (fs : list str) f : In f fs -> length f <= length (concat fs).
Proof.
  induction fs as [|g fs IH]; simpl; [easy|]. rewrite app_length. intros [->|H]; [lia|].
  specialize (IH H). lia.
Qed.

Lemma bijective_bwt_injective x y b : is_bijective_bwt x b -> is_bijective_bwt y b -> x = y.
Proof.
  intros (fx & W1 & (C1 & F1 & N1) & P1 & S1 & E1) (fy & W2 & (C2 & F2 & N2) & P2 & S2 & E2).
  assert (Hin : forall fs W w, Forall lyndon fs -> Permutation W (flat_map rotations fs) -> In w W ->
     exists f i, In f fs /\ lyndon f /\ i < length f /\ w = rot i f).
  { intros fs W w HF HP Hw. apply (Permutation_in _ HP) in Hw. apply in_flat_map in Hw.
    destruct Hw as (f & Hf & Hw). apply in_rotations in Hw. destruct Hw as (i & Hi & ->).
    rewrite Forall_forall in HF. exists f, i. auto. }
  assert (Hne : forall fs W, Forall lyndon fs -> Permutation W (flat_map rotations fs) -> Forall (fun w => w <> []) W).
  { intros fs W HF HP. apply Forall_forall. intros w Hw E.
    destruct (Hin fs W w HF HP Hw) as (f & i & _ & HL & Hi & Ew). rewrite E in Ew.
    apply (f_equal (@length nat)) in Ew. rewrite rot_length in Ew. simpl in Ew. lia. }
  assert (Hrb : forall fs W, Forall lyndon fs -> Permutation W (flat_map rotations fs) -> Permutation (map rotback W) W).
  { intros fs W HF HP. rewrite HP. apply flat_rotations_rotback.
    apply Forall_forall. intros w Hw. rewrite Forall_forall in HF. apply lyndon_not_nil. auto. }
  assert (HD : forall k, map (omega_prefix k) W1 = map (omega_prefix k) W2).
  { apply omega_determined; eauto. congruence. }
  specialize (HD (length x + length y)).
  apply map_inj_list in HD.
  2:{ intros u v Hu Hv E.
      destruct (Hin fx W1 u F1 P1 Hu) as (f & i & Hf & HLf & Hi & ->).
      destruct (Hin fy W2 v F2 P2 Hv) as (g & j & Hg & HLg & Hj & ->).
      apply (conj_omega_inj f g i j (length x + length y)); auto.
      pose proof (concat_length_in fx f Hf). pose proof (concat_length_in fy g Hg). rewrite C1, C2 in *. lia. }
  subst W2.
  assert (HPf : Permutation fx fy).
  { rewrite <- (filter_flat_rotations fx F1), <- (filter_flat_rotations fy F2).
    rewrite <- (filter_perm lynb _ _ P1). now apply filter_perm. }
  assert (fx = fy).
  { apply (sorted_unique_le (fun a b => lex_le b a)); auto.
    - intros a c H1 H2. apply lex_le_antisym; auto.
    - now apply non_increasing_sorted.
    - now apply non_increasing_sorted. }
  congruence.
Qed.

Lemma bijective_bwt_unique t b b' : is_bijective_bwt t b -> is_bijective_bwt t b' -> b = b'.
Proof.
  intros (fs & W & HF & P & S & ->) (fs' & W' & HF' & P' & S' & ->).
  pose proof (lyndon_factorization_unique _ _ _ HF HF') as <-.
  assert (W = W').
  { pose proof HF as (HC & HL & _).
    assert (Hin : forall V v, Permutation V (flat_map rotations fs) -> In v V ->
       exists f i, In f fs /\ lyndon f /\ i < length f /\ v = rot i f).
    { intros V w HP Hw. apply (Permutation_in _ HP) in Hw. apply in_flat_map in Hw.
      destruct Hw as (f & Hf & Hw). apply in_rotations in Hw. destruct Hw as (i & Hi & ->).
      rewrite Forall_forall in HL. exists f, i. auto. }
    apply (sorted_unique_le (fun a b => omega_le a b /\ In a W /\ In b W)).
    - intros a c (H1 & Ha & Hc) (H2 & _ & _).
      destruct (Hin W a P Ha) as (f & i & Hf & HLf & Hi & ->).
      destruct (Hin W c P Hc) as (g & j & Hg & HLg & Hj & ->).
      apply (conj_omega_inj f g i j (length f + length g)); auto. apply lex_le_antisym; auto.
    - apply (StronglySorted_imp_in omega_le); auto.
    - apply (StronglySorted_imp_in omega_le); auto. intros a c Ha Hc H. split; [exact H|].
      split; (apply (Permutation_in _ (Permutation_sym P)); now apply (Permutation_in _ P')).
    - rewrite P. now symmetry. }
  now subst.
Qed.

Lemma bbwt_naive_spec t b : t <> [] -> (bbwt_naive t = Ok b <-> is_bijective_bwt t b).
Proof.
  intros Hne. destruct (bbwt_naive_ok t Hne) as (b' & E & H). rewrite E. split.
  - intros [= <-]. exact H.
  - intros H'. f_equal. exact (bijective_bwt_unique _ _ _ H H').
Qed.

Lemma bbwt_naive_injective x y b : bbwt_naive x = Ok b -> bbwt_naive y = Ok b -> x = y.
Proof.
  intros H1 H2.
  destruct x as [|a x]; [discriminate|]. destruct y as [|c y]; [discriminate|].
  apply bbwt_naive_spec in H1, H2; try easy. exact (bijective_bwt_injective _ _ _ H1 H2).
Qed.

(** ** Lyndon words *)
Lemma bbwt_lyndon w : lyndon w -> bbwt_naive w = bwt_by_matrix_naive w.
Proof.
  intros HL. pose proof (lyndon_not_nil _ HL) as Hne.
  destruct (bwt_by_matrix_naive_ok w) as (b & E & H). rewrite E.
  apply bbwt_naive_spec; auto. destruct H as (M & HP & HS & ->).
  exists [w], M. split; [|split; [|split]].
  - split; [simpl; apply app_nil_r|]. split; [now constructor|]. simpl. auto.
  - simpl. now rewrite app_nil_r.
  - apply (StronglySorted_imp_in lex_le); auto. intros a c Ha Hc Hle.
    apply omega_le_samelen; auto.
    apply (Permutation_in _ HP), in_rotations in Ha, Hc.
    destruct Ha as (i & _ & ->). destruct Hc as (j & _ & ->). now rewrite !rot_length.
  - reflexivity.
Qed.
