(** UnifyProof.v : on smallest rotations all transforms agree. *)
From Verif Require Import Base SpecStr SpecBwt LexFacts ModelCore PermFacts SortFacts DuvalProof BorderProof LyndonProof BwtFacts BwtProof BbwtProof.

(** a necklace is a power of a Lyndon word *)
Lemma necklace_factors u fs : u <> [] -> necklace u -> lyndon_factorization u fs ->
  exists L m, lyndon L /\ 0 < m /\ fs = repeat L m.
Proof.
  intros Hne HN (E & HF & HD).
  destruct fs as [|f fs]; [simpl in E; congruence|].
  assert (Hf : lyndon f) by now inversion HF.
  exists f, (S (length fs)). split; [exact Hf|]. split; [lia|]. simpl. f_equal.
  (* every factor is at most f; the last one is at least f *)
  destruct fs as [|g fs _] using rev_ind; [reflexivity|].
  assert (Hg : lyndon g) by (rewrite Forall_forall in HF; apply HF; right; apply in_app_iff; right; now left).
  assert (Hs : StronglySorted (fun a b => lex_le b a) (f :: fs ++ [g])) by now apply non_increasing_sorted.
  assert (Hgf : lex_le g f).
  { inversion Hs as [|? ? _ H]; subst. rewrite Forall_forall in H. apply H. apply in_app_iff. right. now left. }
  assert (Efg : g = f).
  { destruct Hgf as [|Hlt]; [assumption|]. exfalso.
    assert (Eu : u = f ++ concat fs ++ g) by (rewrite <- E; simpl; rewrite concat_app; simpl; now rewrite app_nil_r).
    pose proof (lyndon_length _ Hg) as Lg. pose proof (lyndon_length _ Hf) as Lf.
    set (k := length (f ++ concat fs)).
    assert (Hk : k < length u) by (rewrite Eu; unfold k; rewrite !app_length; lia).
    specialize (HN k Hk).
    assert (Er : rot k u = g ++ f ++ concat fs).
    { unfold rot. rewrite Eu, app_assoc. fold k. rewrite skipn_app, firstn_app. unfold k. rewrite skipn_all, firstn_all, Nat.sub_diag. cbn. now rewrite app_nil_r. }
    rewrite Er in HN. assert (C : lex_lt (g ++ f ++ concat fs) u).
    { destruct (lex_lt_cases _ _ Hlt) as [(z & Hz & Ez)|(y & H1 & H2 & H3 & H4)].
      - rewrite Eu. rewrite Ez at 2. rewrite <- app_assoc. apply lex_lt_app_same.
        assert (Hl : 0 < length g < length f) by (rewrite Ez, app_length; destruct z; [easy|simpl; lia]).
        pose proof (lyndon_suffix_mismatch f (length g) (concat fs) (concat fs ++ g) Hf Hl) as M.
        rewrite Ez in M at 2. now rewrite skipn_app, skipn_all, Nat.sub_diag in M.
      - rewrite Eu. apply (lex_lt_mismatch _ _ y); rewrite ?app_length; try lia.
        + intros x Hx. rewrite !app_nth1 by lia. auto.
        + rewrite !app_nth1 by lia. auto. }
    destruct HN as [HN|HN]; [rewrite HN in C; now apply lex_lt_irrefl in C|]. now apply (lex_lt_asym _ _ HN). }
  subst g. apply Forall_eq_repeat, Forall_forall. intros x Hx.
  inversion Hs as [|? ? Hs' H]; subst. rewrite Forall_forall in H. pose proof (H x Hx) as A.
  assert (B : lex_le f x).
  { apply in_app_iff in Hx. destruct Hx as [Hx|[<-|[]]]; [|apply lex_le_refl].
    clear -Hs' Hx. induction fs as [|y fs IH]; [easy|]. simpl in Hs'. inversion Hs' as [|? ? H1 H2]; subst.
    destruct Hx as [->|Hx]; [|now apply IH]. rewrite Forall_forall in H2. apply H2. apply in_app_iff. right. now left. }
  destruct A as [A|A]; [now subst|]. destruct B as [B|B]; [now subst|]. exfalso. now apply (lex_lt_asym _ _ A).
Qed.

Lemma concat_repeat (L : str) m : concat (repeat L m) = power L m.
Proof. induction m as [|m IH]; [reflexivity|]. simpl. now rewrite IH. Qed.

Lemma rot_power L m i : L <> [] -> 0 < m -> i < m * length L -> rot i (power L m) = power (rot (i mod length L) L) m.
Proof.
  intros HL Hm Hi. assert (Hn : 0 < length L) by (destruct L; [easy|simpl; lia]).
  assert (Lr : length (rot (i mod length L) L) = length L) by apply rot_length.
  apply (nth_ext _ _ 0 0); [rewrite rot_length, !power_length, rot_length; reflexivity|].
  intros x Hx. rewrite rot_length, power_length in Hx.
  rewrite nth_rot_mod by (rewrite power_length; lia). rewrite power_length.
  rewrite !nth_power by (try (rewrite Lr; lia); apply Nat.mod_upper_bound; lia). rewrite Lr.
  rewrite nth_rot_mod by (apply Nat.mod_upper_bound; lia). f_equal.
  rewrite (Nat.mul_comm m), mod_mod_mul by lia.
  rewrite Nat.add_mod, (Nat.add_mod (i mod length L)) by lia. now rewrite !Nat.mod_mod by lia.
Qed.

Lemma last_app_r (a b : str) d : b <> [] -> last (a ++ b) d = last b d.
Proof.
  intros Hb. induction a as [|x a IH]; [reflexivity|]. simpl. rewrite IH. destruct (a ++ b) eqn:E; [|reflexivity].
  apply app_eq_nil in E. tauto.
Qed.
Lemma seq_shift_add a s n : seq (a + s) n = map (fun i => a + i) (seq s n).
Proof. revert s. induction n as [|n IH]; intros s; [reflexivity|]. simpl. f_equal. now rewrite <- IH, Nat.add_succ_r. Qed.
Lemma last_power (L : str) m : L <> [] -> 0 < m -> last (power L m) 0 = last L 0.
Proof.
  intros HL Hm. destruct m as [|m]; [lia|]. clear Hm. induction m as [|m IH]; [simpl; now rewrite app_nil_r|].
  change (power L (S (S m))) with (L ++ power L (S m)). rewrite last_app_r; [exact IH|]. destruct L; [easy|]. discriminate.
Qed.
Lemma firstn_power (L : str) m : 0 < m -> firstn (length L) (power L m) = L.
Proof. intros Hm. destruct m as [|m]; [lia|]. simpl. rewrite firstn_app, firstn_all, Nat.sub_diag. simpl. apply app_nil_r. Qed.
Lemma rotations_power L m : L <> [] -> 0 < m ->
  map (firstn (length L)) (rotations (power L m)) = flat_map rotations (repeat L m).
Proof.
  intros HL Hm. assert (Hn : 0 < length L) by (destruct L; [easy|simpl; lia]).
  unfold rotations at 1. rewrite map_map, power_length.
  rewrite (map_ext_in _ (fun i => rot (i mod length L) L)).
  2: { intros i Hi. apply in_seq in Hi. rewrite rot_power by (auto; lia).
       rewrite <- (rot_length (i mod length L) L) at 1. now apply firstn_power. }
  clear Hm. induction m as [|m IH]; [reflexivity|]. cbn [repeat flat_map Nat.mul].
  rewrite seq_app, map_app. f_equal.
  - unfold rotations. apply map_ext_in. intros i Hi. apply in_seq in Hi. now rewrite Nat.mod_small by lia.
  - rewrite <- IH. cbn [Nat.add]. rewrite <- (Nat.add_0_r (length L)) at 1.
    rewrite (seq_shift_add (length L) 0 (m * length L)), map_map. apply map_ext. intros i.
    f_equal. rewrite <- (Nat.mul_1_l (length L)) at 1. rewrite Nat.add_comm, Nat.mod_add by lia. reflexivity.
Qed.

Lemma last_firstn_power (L : str) m i : L <> [] -> 0 < m -> i < m * length L ->
  last (firstn (length L) (rot i (power L m))) 0 = last (rot i (power L m)) 0.
Proof.
  intros HL Hm Hi. rewrite rot_power by auto.
  assert (Hr : rot (i mod length L) L <> []).
  { intros E. apply (f_equal (@length nat)) in E. rewrite rot_length in E. destruct L; [easy|discriminate]. }
  rewrite <- (rot_length (i mod length L) L) at 1. rewrite firstn_power by auto. now rewrite last_power by auto.
Qed.

(** ** (a) the bijective BWT of a necklace is the BWT *)
Lemma bbwt_necklace L : L <> [] -> necklace L -> bbwt_naive L = bwt_by_matrix_naive L.
Proof.
  intros Hne HN. destruct (duval_correct L) as (ends & fs & _ & HFz & _).
  destruct (necklace_factors L fs Hne HN HFz) as (w & m & Hw & Hm & Efs).
  pose proof (lyndon_not_nil _ Hw) as Hwn.
  assert (EL : L = power w m) by (destruct HFz as (E & _); rewrite <- E, Efs; apply concat_repeat).
  destruct (bwt_by_matrix_naive_ok L) as (b & E & H). rewrite E.
  apply bbwt_naive_spec; auto. destruct H as (M & HP & HS & ->).
  exists fs, (map (firstn (length w)) M). split; [exact HFz|]. split; [|split].
  - rewrite Efs, <- rotations_power by auto. rewrite <- EL. now apply Permutation_map.
  - apply (StronglySorted_map (fun a c => In a M /\ In c M /\ lex_le a c)).
    2: { apply (StronglySorted_imp_in lex_le); auto. }
    intros a c (Ha & Hc & Hle).
    apply (Permutation_in _ HP), in_rotations in Ha, Hc.
    destruct Ha as (i & Hi & ->). destruct Hc as (j & Hj & ->).
    apply omega_le_samelen; [rewrite !firstn_length, !rot_length; reflexivity|]. now apply lex_le_firstn.
  - rewrite map_map. apply map_ext_in. intros a Ha.
    apply (Permutation_in _ HP), in_rotations in Ha. destruct Ha as (i & Hi & ->).
    rewrite EL in *. rewrite power_length in Hi. symmetry. now apply last_firstn_power.
Qed.

Lemma bbwt_agree_necklace t : t <> [] -> bbwt_naive t = bwt_by_matrix_naive t -> necklace t.
Proof.
  intros Hne E. destruct (lyndon_conjugate_correct t Hne) as (r & _ & Hr & Hmin).
  assert (HN : necklace (rot r t)).
  { intros i Hi. rewrite rot_length in Hi. rewrite rot_rot by auto. apply Hmin. apply Nat.mod_upper_bound. lia. }
  assert (Hrn : rot r t <> []).
  { intros E'. apply (f_equal (@length nat)) in E'. rewrite rot_length in E'. destruct t; [easy|discriminate]. }
  pose proof (bbwt_necklace _ Hrn HN) as E2. rewrite bwt_by_matrix_naive_rot in E2 by lia.
  rewrite <- E in E2. destruct (bbwt_naive_ok t Hne) as (b & Eb & _). rewrite Eb in E2.
  rewrite (bbwt_naive_injective t (rot r t) b Eb E2). exact HN.
Qed.

(** ** (b) the suffix order of a necklace refines its rotation order *)
Lemma necklace_suffix_rot0 L i j : necklace L -> i < length L -> j < length L ->
  lex_lt (skipn i L) (skipn j L) -> lex_le (rot i L) (rot j L).
Proof.
  intros Hmin Hi Hj Hlt. set (n := length L) in *.
  destruct (lex_lt_cases _ _ Hlt) as [(z & Hzn & E)|(y & H1 & H2 & H3 & H4)].
  - assert (Ln := f_equal (@length nat) E). rewrite app_length, !skipn_length in Ln. fold n in Ln.
    assert (Hzl : 0 < length z) by (destruct z; [easy|simpl; lia]).
    set (k := j + (n - i)).
    assert (Ez : z = skipn k L).
    { unfold k. rewrite <- skipn_skipn, E, skipn_app, skipn_length. fold n.
      replace (n - i - (n - i)) with 0 by lia.
      rewrite skipn_all2 by (rewrite skipn_length; fold n; lia). reflexivity. }
    assert (Hk : k < n) by (unfold k; lia).
    unfold rot. rewrite E, <- app_assoc. apply lex_le_app_same.
    specialize (Hmin k Hk). apply (lex_le_firstn i) in Hmin.
    unfold rot in Hmin. rewrite <- Ez in Hmin.
    replace (z ++ firstn j L) with (firstn i (z ++ firstn k L)); auto.
    rewrite firstn_app. rewrite firstn_all2 by lia. f_equal.
    rewrite firstn_firstn. f_equal. unfold k. lia.
  - right. unfold rot. apply (lex_lt_mismatch _ _ y); rewrite ?app_length; try lia.
    + intros x Hx. rewrite !app_nth1 by lia. auto.
    + rewrite !app_nth1 by lia. auto.
Qed.

Lemma necklace_sa_matrix L sa : necklace L -> is_suffix_array L sa -> is_matrix_bwt L (sa_letters L sa).
Proof.
  intros HN (HP & HS). apply sorted_rot_matrix; [exact HP|].
  apply (StronglySorted_imp_in (fun i j => lex_lt (skipn i L) (skipn j L))); auto.
  intros a b Ha Hb H. apply (is_perm_In _ _ _ HP) in Ha, Hb. now apply necklace_suffix_rot0.
Qed.

Lemma rot_necklace t r : r < length t -> (forall i, i < length t -> lex_le (rot r t) (rot i t)) -> necklace (rot r t).
Proof.
  intros Hr Hmin i Hi. rewrite rot_length in Hi. rewrite rot_rot by auto. apply Hmin. apply Nat.mod_upper_bound. lia.
Qed.

(** ** (c) the factor of tt that crosses the border *)
Lemma primitive_rot t r : r < length t -> primitive t -> primitive (rot r t).
Proof.
  intros Hr HP (u & m & Hm & E). apply HP.
  assert (L := f_equal (@length nat) E). rewrite rot_length, power_length in L.
  assert (Hu : u <> []) by (intros ->; simpl in L; lia).
  pose proof (rot_inv t r Hr) as I. rewrite E in I.
  rewrite rot_power in I.
  - eexists _, m. split; [exact Hm|symmetry; exact I].
  - exact Hu.
  - lia.
  - rewrite <- L. apply Nat.mod_upper_bound. lia.
Qed.
Lemma primitive_necklace_lyndon t : t <> [] -> primitive t -> necklace t -> lyndon t.
Proof.
  intros Hne HP HN. destruct (duval_correct t) as (ends & fs & _ & HFz & _).
  destruct (necklace_factors t fs Hne HN HFz) as (w & m & Hw & Hm & Efs).
  assert (EL : t = power w m) by (destruct HFz as (E & _); rewrite <- E, Efs; apply concat_repeat).
  destruct (Nat.eq_dec m 1) as [->|Nm].
  - simpl in EL. rewrite app_nil_r in EL. now rewrite EL.
  - exfalso. apply HP. exists w, m. split; [lia|exact EL].
Qed.
Lemma lyndon_primitive t : lyndon t -> primitive t.
Proof.
  intros HL (u & m & Hm & E). destruct m as [|[|m]]; try lia.
  assert (Hu : u <> []).
  { intros ->. apply lyndon_not_nil in HL. apply HL. rewrite E. clear. induction (S (S m)) as [|k IH]; [reflexivity|exact IH]. }
  destruct HL as (_ & HL). change (t = u ++ power u (S m)) in E.
  assert (Hp : power u (S m) <> []) by (destruct u; [easy|discriminate]).
  specialize (HL _ _ E Hu Hp).
  assert (E2 : t = power u (S m) ++ u).
  { rewrite E. clear. induction (S m) as [|k IH]; [simpl; now rewrite app_nil_r|]. simpl. now rewrite IH at 1; rewrite <- app_assoc. }
  rewrite E2 in HL. apply (lex_lt_irrefl (power u (S m))).
  apply (lex_le_lt_trans _ (power u (S m) ++ u)); [apply lex_le_prefix|exact HL].
Qed.

Lemma non_increasing_snoc fs L : non_increasing fs -> (forall f, In f fs -> lex_le L f) -> non_increasing (fs ++ [L]).
Proof.
  induction fs as [|f fs IH]; intros HN HF; [simpl; auto|].
  destruct HN as (H1 & H2). simpl. split.
  - destruct fs as [|g fs]; simpl; [apply HF; now left|exact H1].
  - apply IH; auto. intros x Hx. apply HF. now right.
Qed.
Lemma non_increasing_glue a L b : non_increasing (a ++ [L]) -> non_increasing (L :: b) -> non_increasing (a ++ L :: b).
Proof.
  induction a as [|f a IH]; intros H1 H2; [exact H2|].
  destruct H1 as (H3 & H4). cbn [app non_increasing]. split; [|apply IH; auto].
  destruct a; simpl in *; exact H3.
Qed.

Lemma border_factor t fs r : t <> [] -> primitive t -> r < length t ->
  (forall i, i < length t -> lex_le (rot r t) (rot i t)) -> lyndon_factorization (t ++ t) fs ->
  exists p q, fs = p ++ rot r t :: q /\ length (concat p) = r.
Proof.
  intros Hne HP Hr Hmin HFz. set (x := firstn r t). set (y := skipn r t).
  assert (Et : t = x ++ y) by (unfold x, y; now rewrite firstn_skipn).
  assert (EL : rot r t = y ++ x) by reflexivity.
  assert (HL : lyndon (y ++ x)).
  { rewrite <- EL. apply primitive_necklace_lyndon.
    - intros E. apply (f_equal (@length nat)) in E. rewrite rot_length in E. simpl in E. lia.
    - now apply primitive_rot.
    - now apply rot_necklace. }
  assert (Lx : length x = r) by (unfold x; rewrite firstn_length; lia).
  destruct (duval_correct x) as (_ & fx & _ & (Ex & Fx & Nx) & _).
  destruct (duval_correct y) as (_ & fy & _ & (Ey & Fy & Ny) & _).
  exists fx, fy. rewrite EL. split; [|rewrite Ex; exact Lx].
  apply (lyndon_factorization_unique (t ++ t)); [exact HFz|]. split; [|split].
  - rewrite concat_app. simpl. rewrite Ex, Ey, Et. now rewrite <- !app_assoc.
  - apply Forall_app. split; [exact Fx|now constructor].
  - apply non_increasing_glue.
    + apply non_increasing_snoc; [exact Nx|]. intros f Hf.
      (* the last factor of x is a suffix of L, and all others are larger *)
      assert (Hs : StronglySorted (fun a b => lex_le b a) fx) by now apply non_increasing_sorted.
      destruct fx as [|g fx _] using rev_ind; [easy|].
      assert (Hlg : lex_le (y ++ x) g).
      { rewrite concat_app in Ex. simpl in Ex. rewrite app_nil_r in Ex. rewrite <- Ex in *.
        rewrite app_assoc in *.
        assert (Hg : g <> []) by (apply lyndon_not_nil; rewrite Forall_forall in Fx; apply Fx, in_app_iff; right; now left).
        destruct HL as (_ & HL). right. apply (HL (y ++ concat fx) g); auto.
        intros E. apply app_eq_nil in E. destruct E as (E & _). unfold y in E.
        apply (f_equal (@length nat)) in E. rewrite skipn_length in E. simpl in E. lia. }
      apply in_app_iff in Hf. destruct Hf as [Hf|[<-|[]]]; [|exact Hlg].
      apply (lex_le_trans _ g); [exact Hlg|].
      clear -Hs Hf. induction fx as [|z fx IH]; [easy|]. simpl in Hs. inversion Hs as [|? ? H1 H2]; subst.
      destruct Hf as [->|Hf]; [|now apply IH]. rewrite Forall_forall in H2. apply H2, in_app_iff. right. now left.
    + cbn [non_increasing]. split; [|exact Ny]. destruct fy as [|g fy]; [exact I|].
      simpl in Ey. rewrite <- Ey, <- app_assoc. apply lex_le_prefix.
Qed.
