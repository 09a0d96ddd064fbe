(** BwtFacts.v : rotations, omega-order, and determination of a rotation-closed multiset of words
    by its sorted last letters. *)
From Verif Require Import Base SpecStr SpecBwt LexFacts PermFacts SortFacts BorderProof.

Lemma rot_0 t : rot 0 t = t.
Proof. unfold rot. simpl. apply app_nil_r. Qed.
Lemma rot_all t : rot (length t) t = t.
Proof. unfold rot. now rewrite skipn_all, firstn_all. Qed.
Lemma rot_nil i : rot i [] = [].
Proof. unfold rot. now rewrite skipn_nil, firstn_nil. Qed.

Lemma rot_rot t a b : a < length t -> b < length t -> rot a (rot b t) = rot ((a + b) mod length t) t.
Proof.
  intros Ha Hb. assert (Hm : (a + b) mod length t < length t) by (apply Nat.mod_upper_bound; lia).
  apply (nth_ext_len _ _ 0); [now rewrite !rot_length|].
  intros x Hx. rewrite !rot_length in Hx.
  rewrite nth_rot_mod by (rewrite rot_length; lia). rewrite rot_length.
  rewrite !nth_rot_mod by (auto; apply Nat.mod_upper_bound; lia). f_equal.
  rewrite Nat.add_mod_idemp_r, Nat.add_mod_idemp_l by lia. f_equal. lia.
Qed.

Lemma rot_inv t i : i < length t -> rot ((length t - i) mod length t) (rot i t) = t.
Proof.
  intros Hi. rewrite rot_rot; auto.
  - rewrite Nat.add_mod_idemp_l by lia. replace (length t - i + i) with (0 + 1 * length t) by lia.
    rewrite Nat.mod_add, Nat.mod_0_l by lia. apply rot_0.
  - apply Nat.mod_upper_bound. lia.
Qed.

Lemma last_rot t i : i < length t -> last (rot i t) 0 = nth ((i + length t - 1) mod length t) t 0.
Proof.
  intros Hi. rewrite last_nth, rot_length, nth_rot_mod by lia. f_equal. f_equal. lia.
Qed.

Lemma rotations_length t : length (rotations t) = length t.
Proof. unfold rotations. now rewrite map_length, seq_length. Qed.

Lemma in_rotations t w : In w (rotations t) <-> exists i, i < length t /\ w = rot i t.
Proof.
  unfold rotations. rewrite in_map_iff. split.
  - intros (i & <- & Hi). apply in_seq in Hi. exists i. split; [lia|auto].
  - intros (i & Hi & ->). exists i. split; auto. apply in_seq. lia.
Qed.

(** shifting the start cyclically permutes the rotations *)
Lemma perm_shift n s : 0 < n -> is_perm n (map (fun i => (i + s) mod n) (seq 0 n)).
Proof.
  intros Hn. apply is_perm_intro.
  - now rewrite map_length, seq_length.
  - intros i Hi. rewrite (nth_map _ _ _ 0) by (rewrite seq_length; lia). apply Nat.mod_upper_bound. lia.
  - intros i j Hi Hj. rewrite !(nth_map _ _ _ 0) by (rewrite seq_length; lia).
    rewrite !nth_seq0 by lia. intros E.
    rewrite <- (Nat.add_mod_idemp_r i s), <- (Nat.add_mod_idemp_r j s) in E by lia.
    pose proof (Nat.mod_upper_bound s n ltac:(lia)) as Hs. set (r := s mod n) in *. clearbody r.
    assert (Hmod : forall z, z < n + n -> z mod n = if z <? n then z else z - n).
    { intros z Hz. destruct (Nat.ltb_spec z n); [now apply Nat.mod_small|].
      replace z with ((z - n) + 1 * n) at 1 by lia. rewrite Nat.mod_add by lia. apply Nat.mod_small. lia. }
    rewrite !Hmod in E by lia.
    destruct (Nat.ltb_spec (i + r) n), (Nat.ltb_spec (j + r) n); lia.
Qed.

Lemma rotations_rot t s : s < length t -> Permutation (map (rot s) (rotations t)) (rotations t).
Proof.
  intros Hs. unfold rotations. rewrite map_map.
  rewrite (map_ext_in _ (fun i => rot ((i + s) mod length t) t)).
  - rewrite <- (map_map (fun i => (i + s) mod length t) (fun i => rot i t)).
    apply Permutation_map. apply perm_shift. lia.
  - intros i Hi. apply in_seq in Hi. rewrite rot_rot by lia. do 2 f_equal. lia.
Qed.

Lemma rotations_of_rot t s : s < length t -> Permutation (rotations (rot s t)) (rotations t).
Proof.
  intros Hs. rewrite <- (rotations_rot t s Hs). unfold rotations. rewrite rot_length, map_map.
  erewrite map_ext_in; [apply Permutation_refl|].
  intros i Hi. apply in_seq in Hi. rewrite !rot_rot by lia. f_equal. f_equal. lia.
Qed.

(** ** omega prefixes *)
Lemma op_length k w : length (omega_prefix k w) = k.
Proof. unfold omega_prefix. now rewrite map_length, seq_length. Qed.
Lemma nth_op k w i : i < k -> nth i (omega_prefix k w) 0 = nth (i mod length w) w 0.
Proof.
  intros Hi. unfold omega_prefix. rewrite (nth_map _ _ _ 0) by (rewrite seq_length; lia).
  now rewrite nth_seq0.
Qed.
Lemma op_full w : omega_prefix (length w) w = w.
Proof.
  apply (nth_ext_len _ _ 0); [apply op_length|]. intros i Hi. rewrite op_length in Hi.
  rewrite nth_op by lia. now rewrite Nat.mod_small.
Qed.
Lemma firstn_op j k w : j <= k -> firstn j (omega_prefix k w) = omega_prefix j w.
Proof.
  intros H. apply (nth_ext_len _ _ 0).
  - rewrite firstn_length, !op_length. lia.
  - intros i Hi. rewrite firstn_length, op_length in Hi. rewrite nth_firstn, !nth_op by lia. reflexivity.
Qed.
Lemma op_rotback k w : w <> [] ->
  omega_prefix (S k) (rot (length w - 1) w) = last w 0 :: omega_prefix k w.
Proof.
  intros Hne. assert (Hn : 0 < length w) by (destruct w; [easy|simpl; lia]).
  apply (nth_ext_len _ _ 0); [cbn [length]; now rewrite !op_length|].
  intros i Hi. rewrite op_length in Hi. rewrite nth_op by lia. rewrite rot_length.
  rewrite nth_rot_mod by (try lia; apply Nat.mod_upper_bound; lia).
  rewrite Nat.add_mod_idemp_r by lia. destruct i as [|j].
  - simpl. rewrite last_nth. f_equal. rewrite Nat.add_0_r. apply Nat.mod_small. lia.
  - simpl. rewrite nth_op by lia. f_equal. replace (length w - 1 + S j) with (j + 1 * length w) by lia.
    now rewrite Nat.mod_add by lia.
Qed.

Lemma omega_le_refl u : omega_le u u.
Proof. intros k. apply lex_le_refl. Qed.
Lemma omega_le_trans u v w : omega_le u v -> omega_le v w -> omega_le u w.
Proof. intros H1 H2 k. eapply lex_le_trans; eauto. Qed.

(** equal length: omega-order is the lexicographic order *)
Lemma omega_le_samelen u v : length u = length v -> (omega_le u v <-> lex_le u v).
Proof.
  intros E. split.
  - intros H. specialize (H (length u)). rewrite op_full in H. rewrite E, op_full in H. exact H.
  - intros [->|H] k; [apply lex_le_refl|].
    destruct (lex_lt_cases _ _ H) as [(s & Hs & E2)|(y & H1 & H2 & H3 & H4)].
    { subst v. rewrite app_length in E. destruct s; [easy|simpl in E; lia]. }
    assert (L : lex_lt (omega_prefix (k + length u) u) (omega_prefix (k + length u) v)).
    { apply (lex_lt_mismatch _ _ y); rewrite ?op_length; try lia.
      - intros x Hx. rewrite !nth_op by lia. rewrite !Nat.mod_small by lia. auto.
      - rewrite !nth_op by lia. rewrite !Nat.mod_small by lia. auto. }
    rewrite <- (firstn_op k (k + length u) u) by lia. rewrite <- (firstn_op k (k + length u) v) by lia.
    apply lex_le_firstn. now right.
Qed.

(** ** sorted lists for an antisymmetric order are determined by their elements *)
Lemma sorted_unique_le {A} (R : A -> A -> Prop) (l l' : list A) :
  (forall a b, R a b -> R b a -> a = b) ->
  StronglySorted R l -> StronglySorted R l' -> Permutation l l' -> l = l'.
Proof.
  intros Has. revert l'. induction l as [|x l IH]; intros [|y l'] HS HS' HP.
  - reflexivity.
  - apply Permutation_nil in HP. easy.
  - symmetry in HP. apply Permutation_nil in HP. easy.
  - inversion HS as [|? ? HSl HF]; subst. inversion HS' as [|? ? HSl' HF']; subst.
    rewrite Forall_forall in HF, HF'.
    assert (x = y).
    { assert (Hx : In x (y :: l')) by (apply (Permutation_in _ HP); now left).
      assert (Hy : In y (x :: l)) by (apply (Permutation_in _ (Permutation_sym HP)); now left).
      destruct Hx as [->|Hx]; auto. destruct Hy as [->|Hy]; auto. }
    subst y. f_equal. apply IH; auto. now apply Permutation_cons_inv in HP.
Qed.

Lemma StronglySorted_map {A B} (R : A -> A -> Prop) (Q : B -> B -> Prop) (f : A -> B) l :
  (forall a b, R a b -> Q (f a) (f b)) -> StronglySorted R l -> StronglySorted Q (map f l).
Proof.
  intros H. induction 1 as [|x l HS IH HF]; simpl; constructor; auto.
  rewrite Forall_forall in *. intros y Hy. apply in_map_iff in Hy. destruct Hy as (z & <- & Hz). auto.
Qed.
Lemma StronglySorted_imp_in {A} (R Q : A -> A -> Prop) l :
  (forall a b, In a l -> In b l -> R a b -> Q a b) -> StronglySorted R l -> StronglySorted Q l.
Proof.
  intros H HS. induction HS as [|x l HS IH HF]; constructor.
  - apply IH. intros a b Ha Hb. apply H; now right.
  - rewrite Forall_forall in *. intros y Hy. apply H; [now left|now right|auto].
Qed.

(** ** determination *)
Definition rotback (w : str) : str := rot (length w - 1) w.

Lemma omega_determined W1 W2 :
  Forall (fun w => w <> []) W1 -> Forall (fun w => w <> []) W2 ->
  Permutation (map rotback W1) W1 -> Permutation (map rotback W2) W2 ->
  StronglySorted omega_le W1 -> StronglySorted omega_le W2 ->
  map (fun r => last r 0) W1 = map (fun r => last r 0) W2 ->
  forall k, map (omega_prefix k) W1 = map (omega_prefix k) W2.
Proof.
  intros N1 N2 P1 P2 S1 S2 HL k. induction k as [|k IH].
  - assert (E : forall W, map (omega_prefix 0) W = repeat [] (length W)).
    { induction W as [|w W IHW]; simpl; auto. f_equal. exact IHW. }
    rewrite !E. f_equal. apply (f_equal (@length nat)) in HL. now rewrite !map_length in HL.
  - assert (Hsort : forall W, StronglySorted omega_le W -> StronglySorted lex_le (map (omega_prefix (S k)) W)).
    { intros W. apply StronglySorted_map. intros a b H. apply H. }
    apply (sorted_unique_le lex_le); auto.
    + intros a b. apply lex_le_antisym.
    + assert (E : forall W, Forall (fun w => w <> []) W -> Permutation (map rotback W) W ->
        Permutation (map (omega_prefix (S k)) W) (map (fun w => last w 0 :: omega_prefix k w) W)).
      { intros W N P. rewrite <- P at 1. rewrite map_map.
        erewrite map_ext_in; [apply Permutation_refl|].
        intros w Hw. apply op_rotback. rewrite Forall_forall in N. auto. }
      rewrite (E W1 N1 P1), (E W2 N2 P2).
      replace (map (fun w => last w 0 :: omega_prefix k w) W1)
        with (map (fun w => last w 0 :: omega_prefix k w) W2); [apply Permutation_refl|].
      clear -HL IH. revert W2 HL IH. induction W1 as [|w W1 IHW]; intros [|v W2] HL IH; simpl in *; try easy.
      injection HL as H1 H2. injection IH as H3 H4. rewrite H1, H3. f_equal. auto.
Qed.

Lemma rotations_rotback t : t <> [] -> Permutation (map rotback (rotations t)) (rotations t).
Proof.
  intros Hne. assert (Hn : 0 < length t) by (destruct t; [easy|simpl; lia]).
  rewrite <- (rotations_rot t (length t - 1)) at 2 by lia.
  erewrite map_ext_in; [apply Permutation_refl|].
  intros w Hw. apply in_rotations in Hw. destruct Hw as (i & Hi & ->). unfold rotback. now rewrite rot_length.
Qed.

Lemma flat_rotations_rotback fs : Forall (fun w => w <> []) fs ->
  Permutation (map rotback (flat_map rotations fs)) (flat_map rotations fs).
Proof.
  induction 1 as [|f fs Hf HF IH]; simpl; auto.
  rewrite map_app. apply Permutation_app; auto. now apply rotations_rotback.
Qed.

(** ** the matrix BWT *)
Lemma matrix_bwt_unique t b b' : is_matrix_bwt t b -> is_matrix_bwt t b' -> b = b'.
Proof.
  intros (M & HP & HS & ->) (M' & HP' & HS' & ->). f_equal.
  apply (sorted_unique_le lex_le); auto.
  - intros x y. apply lex_le_antisym.
  - rewrite HP. now symmetry.
Qed.

Lemma matrix_bwt_rot t s b : s < length t -> (is_matrix_bwt (rot s t) b <-> is_matrix_bwt t b).
Proof.
  intros Hs. pose proof (rotations_of_rot t s Hs) as HR.
  split; intros (M & HP & HS & E); exists M; (split; [|auto]).
  - now rewrite HP.
  - rewrite HP. now symmetry.
Qed.

Lemma matrix_bwt_length t b : is_matrix_bwt t b -> length b = length t.
Proof.
  intros (M & HP & _ & ->). rewrite map_length, (Permutation_length HP). apply rotations_length.
Qed.

Lemma last_rotations_perm t : Permutation (map (fun r => last r 0) (rotations t)) t.
Proof.
  destruct (Nat.eq_dec (length t) 0) as [Z|NZ].
  { destruct t; [simpl; auto|easy]. }
  unfold rotations. rewrite map_map.
  rewrite (map_ext_in _ (fun i => nth ((i + (length t - 1)) mod length t) t 0)).
  - rewrite <- (map_map (fun i => (i + (length t - 1)) mod length t) (fun i => nth i t 0)).
    rewrite (Permutation_map _ (perm_shift (length t) (length t - 1) ltac:(lia))).
    replace (map (fun i => nth i t 0) (seq 0 (length t))) with t; auto.
    apply (nth_ext_len _ _ 0); [now rewrite map_length, seq_length|].
    intros i Hi. rewrite (nth_map _ _ _ 0) by (rewrite seq_length; lia). now rewrite nth_seq0.
  - intros i Hi. apply in_seq in Hi. rewrite last_rot by lia. do 2 f_equal. lia.
Qed.

Lemma matrix_bwt_perm t b : is_matrix_bwt t b -> Permutation b t.
Proof.
  intros (M & HP & _ & ->). rewrite HP. apply last_rotations_perm.
Qed.

Lemma matrix_bwt_injective x y b : is_matrix_bwt x b -> is_matrix_bwt y b ->
  exists i, i <= length x /\ y = rot i x.
Proof.
  intros HX HY.
  pose proof (matrix_bwt_length _ _ HX) as Lx. pose proof (matrix_bwt_length _ _ HY) as Ly.
  destruct (Nat.eq_dec (length x) 0) as [Z|NZ].
  { exists 0. split; [lia|]. rewrite rot_0. destruct x; [|easy]. destruct y; [auto|simpl in *; lia]. }
  destruct HX as (M1 & P1 & S1 & E1). destruct HY as (M2 & P2 & S2 & E2).
  assert (Hx : x <> []) by (intros ->; easy).
  assert (Hy : y <> []) by (intros ->; simpl in *; lia).
  assert (Hlen1 : forall w, In w M1 -> length w = length x).
  { intros w Hw. apply (Permutation_in _ P1), in_rotations in Hw. destruct Hw as (i & _ & ->). apply rot_length. }
  assert (Hlen2 : forall w, In w M2 -> length w = length x).
  { intros w Hw. apply (Permutation_in _ P2), in_rotations in Hw. destruct Hw as (i & _ & ->). rewrite rot_length. lia. }
  assert (HD : forall k, map (omega_prefix k) M1 = map (omega_prefix k) M2).
  { apply omega_determined.
    - apply Forall_forall. intros w Hw E. apply Hlen1 in Hw. subst w. simpl in Hw. lia.
    - apply Forall_forall. intros w Hw E. apply Hlen2 in Hw. subst w. simpl in Hw. lia.
    - rewrite P1. now apply rotations_rotback.
    - rewrite P2. now apply rotations_rotback.
    - apply (StronglySorted_imp_in lex_le); auto. intros a c Ha Hc HL. apply omega_le_samelen; auto.
      rewrite (Hlen1 a), (Hlen1 c); auto.
    - apply (StronglySorted_imp_in lex_le); auto. intros a c Ha Hc HL. apply omega_le_samelen; auto.
      rewrite (Hlen2 a), (Hlen2 c); auto.
    - congruence. }
  specialize (HD (length x)).
  rewrite (map_ext_in _ (fun w => w)) in HD.
  2:{ intros w Hw. rewrite <- (Hlen1 w Hw). apply op_full. }
  rewrite (map_ext_in (omega_prefix (length x)) (fun w => w) M2) in HD.
  2:{ intros w Hw. rewrite <- (Hlen2 w Hw). apply op_full. }
  rewrite !map_id in HD. subst M2.
  assert (Hin : In y M1).
  { apply (Permutation_in _ (Permutation_sym P2)). apply in_rotations. exists 0.
    split; [lia|]. now rewrite rot_0. }
  apply (Permutation_in _ P1), in_rotations in Hin. destruct Hin as (i & Hi & E).
  exists i. split; [lia|exact E].
Qed.
