(** LexFacts.v : facts about the lexicographic order and Lyndon words. *)
From Verif Require Import Base SpecStr.

(** [<[T] as Ord>::cmp] of the Rust standard library: lexicographic comparison of slices *)
Fixpoint slice_cmp (u v : str) : comparison :=
  match u, v with
  | [], [] => Eq
  | [], _ :: _ => Lt
  | _ :: _, [] => Gt
  | x :: u', y :: v' => match x ?= y with Eq => slice_cmp u' v' | c => c end
  end.

Lemma slice_cmp_eq u v : slice_cmp u v = Eq <-> u = v.
Proof.
  revert v; induction u as [|x u IH]; intros [|y v]; simpl; try easy.
  destruct (Nat.compare_spec x y).
  - subst. rewrite IH. split; [now intros ->|now intros [= ->]].
  - split; [easy|]. intros [= -> _]. lia.
  - split; [easy|]. intros [= -> _]. lia.
Qed.
Lemma slice_cmp_lt u v : slice_cmp u v = Lt <-> lex_lt u v.
Proof.
  revert v; induction u as [|x u IH]; intros [|y v]; simpl.
  - split; [easy|inversion 1].
  - split; constructor.
  - split; [easy|inversion 1].
  - destruct (Nat.compare_spec x y).
    + subst. rewrite IH. split; [now constructor|inversion 1; [lia|assumption]].
    + split; [now constructor|easy].
    + split; [easy|inversion 1; lia].
Qed.
Lemma slice_cmp_antisym u v : slice_cmp v u = CompOpp (slice_cmp u v).
Proof.
  revert v; induction u as [|x u IH]; intros [|y v]; simpl; auto.
  rewrite (Nat.compare_antisym x y). destruct (x ?= y); simpl; auto.
Qed.
Lemma slice_cmp_gt u v : slice_cmp u v = Gt <-> lex_lt v u.
Proof.
  rewrite <- slice_cmp_lt, (slice_cmp_antisym u v).
  destruct (slice_cmp u v); simpl; split; easy.
Qed.

Lemma lex_lt_irrefl u : ~ lex_lt u u.
Proof. intros H. apply slice_cmp_lt in H. rewrite (proj2 (slice_cmp_eq u u) eq_refl) in H. easy. Qed.

Lemma lex_lt_trans u v w : lex_lt u v -> lex_lt v w -> lex_lt u w.
Proof.
  intros H; revert w; induction H as [y ys|x y xs ys Hxy|x xs ys H IH]; intros w Hw;
    inversion Hw; subst; try (now constructor); try (apply lex_head; lia).
  apply lex_tail. now apply IH.
Qed.

Lemma lex_lt_total u v : lex_lt u v \/ u = v \/ lex_lt v u.
Proof.
  destruct (slice_cmp u v) eqn:E.
  - apply slice_cmp_eq in E. auto.
  - apply slice_cmp_lt in E. auto.
  - apply slice_cmp_gt in E. auto.
Qed.

Lemma lex_lt_asym u v : lex_lt u v -> ~ lex_lt v u.
Proof. intros H1 H2. exact (lex_lt_irrefl u (lex_lt_trans _ _ _ H1 H2)). Qed.

Lemma lex_le_refl u : lex_le u u.
Proof. now left. Qed.
Lemma lex_le_trans u v w : lex_le u v -> lex_le v w -> lex_le u w.
Proof.
  intros [->|H1] [->|H2]; try (now left); try (now right).
  right. eapply lex_lt_trans; eauto.
Qed.
Lemma lex_le_lt_trans u v w : lex_le u v -> lex_lt v w -> lex_lt u w.
Proof. intros [->|H] H2; auto. eapply lex_lt_trans; eauto. Qed.
Lemma lex_lt_le_trans u v w : lex_lt u v -> lex_le v w -> lex_lt u w.
Proof. intros H [<-|H2]; auto. eapply lex_lt_trans; eauto. Qed.
Lemma lex_le_antisym u v : lex_le u v -> lex_le v u -> u = v.
Proof. intros [->|H] [E|H']; auto. exfalso. exact (lex_lt_asym _ _ H H'). Qed.
Lemma lex_le_total u v : lex_le u v \/ lex_le v u.
Proof. destruct (lex_lt_total u v) as [H|[H|H]]; unfold lex_le; auto. Qed.
Lemma not_lex_lt u v : ~ lex_lt u v -> lex_le v u.
Proof. destruct (lex_lt_total u v) as [H|[->|H]]; unfold lex_le; intuition. Qed.
Lemma lex_le_not_lt u v : lex_le u v -> ~ lex_lt v u.
Proof. intros [->|H] H'; [exact (lex_lt_irrefl _ H')|exact (lex_lt_asym _ _ H H')]. Qed.

Lemma lex_lt_nil_r u : ~ lex_lt u [].
Proof. inversion 1. Qed.
Lemma lex_le_nil_l u : lex_le [] u.
Proof. destruct u; [now left|right; constructor]. Qed.

Lemma lex_lt_app_same p u v : lex_lt (p ++ u) (p ++ v) <-> lex_lt u v.
Proof.
  induction p as [|x p IH]; simpl; [easy|]. rewrite <- IH.
  split; [inversion 1; [lia|assumption]|now constructor].
Qed.
Lemma lex_le_app_same p u v : lex_le (p ++ u) (p ++ v) <-> lex_le u v.
Proof.
  unfold lex_le. rewrite lex_lt_app_same. split; intros [H|H]; auto.
  - apply app_inv_head in H. auto.
  - subst. auto.
Qed.
Lemma lex_lt_prefix p u : u <> [] -> lex_lt p (p ++ u).
Proof.
  intros H. rewrite <- (app_nil_r p) at 1. apply lex_lt_app_same.
  destruct u; [easy|constructor].
Qed.
Lemma lex_le_prefix p u : lex_le p (p ++ u).
Proof. destruct u; [left; now rewrite app_nil_r|right; now apply lex_lt_prefix]. Qed.

(** index characterisation of the lexicographic order *)
Definition lex_lt_at (u v : str) (y : nat) : Prop :=
  y <= length u /\ y < length v /\
  (forall x, x < y -> nth x u 0 = nth x v 0) /\
  (y = length u \/ nth y u 0 < nth y v 0).

Lemma lex_lt_idx u v : lex_lt u v <-> exists y, lex_lt_at u v y.
Proof.
  split.
  - induction 1 as [y ys|x y xs ys Hxy|x xs ys H IH].
    + exists 0. repeat split; simpl; try lia.
    + exists 0. repeat split; simpl; try lia.
    + destruct IH as (y & H1 & H2 & H3 & H4).
      exists (S y). repeat split; simpl; try lia.
      intros [|x'] Hx; auto. apply H3. lia.
  - intros (y & H). revert v y H. induction u as [|x u IH]; intros [|z v] y (H1 & H2 & H3 & H4); simpl in *; try lia.
    + constructor.
    + destruct y as [|y].
      * destruct H4 as [H4|H4]; [lia|]. now constructor.
      * assert (x = z) by exact (H3 0 ltac:(lia)). subst.
        apply lex_tail. apply (IH v y). repeat split; simpl; try lia.
        -- intros x Hx. exact (H3 (S x) ltac:(lia)).
Qed.

(** a strict mismatch survives arbitrary extensions *)
Lemma lex_lt_mismatch u v y :
  y < length u -> y < length v -> (forall x, x < y -> nth x u 0 = nth x v 0) ->
  nth y u 0 < nth y v 0 -> lex_lt u v.
Proof. intros. apply lex_lt_idx. exists y. repeat split; auto. lia. Qed.

Lemma lex_lt_cases u v :
  lex_lt u v ->
  (exists s, s <> [] /\ v = u ++ s) \/
  (exists y, y < length u /\ y < length v /\ (forall x, x < y -> nth x u 0 = nth x v 0) /\ nth y u 0 < nth y v 0).
Proof.
  induction 1 as [y ys|x y xs ys Hxy|x xs ys H IH].
  - left. exists (y :: ys). easy.
  - right. exists 0. simpl. repeat split; try lia.
  - destruct IH as [(s & Hs & ->)|(y & H1 & H2 & H3 & H4)].
    + left. exists s. easy.
    + right. exists (S y). simpl. repeat split; try lia.
      intros [|x'] Hx; auto. apply H3. lia.
Qed.

Lemma lex_lt_app_ext u v p q :
  lex_lt u v -> (forall s, v <> u ++ s) -> lex_lt (u ++ p) (v ++ q).
Proof.
  intros H Hn. destruct (lex_lt_cases _ _ H) as [(s & _ & E)|(y & H1 & H2 & H3 & H4)].
  - exfalso. exact (Hn s E).
  - apply (lex_lt_mismatch _ _ y).
    + rewrite app_length; lia.
    + rewrite app_length; lia.
    + intros x Hx. rewrite !app_nth1 by lia. auto.
    + rewrite !app_nth1 by lia. auto.
Qed.

(** same-length comparison extends *)
Lemma lex_lt_app_samelen u v p q :
  length u = length v -> lex_lt u v -> lex_lt (u ++ p) (v ++ q).
Proof.
  intros Hl H. apply lex_lt_app_ext; auto.
  intros s ->. rewrite app_length in Hl. destruct s; simpl in Hl; [|lia].
  rewrite app_nil_r in H. exact (lex_lt_irrefl _ H).
Qed.

Lemma lex_le_firstn k u v : lex_le u v -> lex_le (firstn k u) (firstn k v).
Proof.
  intros [->|H]; [now left|]. revert k.
  induction H as [y ys|x y xs ys Hxy|x xs ys H IH]; intros [|k]; simpl; try (now left).
  - right; constructor.
  - right; now constructor.
  - destruct (IH k) as [->|H']; [now left|right; now constructor].
Qed.

(** index characterisation of Lyndon words *)
Lemma lyndon_idx w :
  lyndon w <->
  w <> [] /\ forall r, 0 < r < length w -> exists y, r + y < length w /\
    (forall x, x < y -> nth x w 0 = nth (r + x) w 0) /\ nth y w 0 < nth (r + y) w 0.
Proof.
  split; intros [Hne H]; split; auto.
  - intros r Hr.
    assert (L : lex_lt w (skipn r w)).
    { apply (H (firstn r w) (skipn r w)).
      - now rewrite firstn_skipn.
      - intros E. apply (f_equal (@length nat)) in E. rewrite firstn_length in E. simpl in E. lia.
      - intros E. apply (f_equal (@length nat)) in E. rewrite skipn_length in E. simpl in E. lia. }
    destruct (lex_lt_cases _ _ L) as [(s & _ & E)|(y & H1 & H2 & H3 & H4)].
    + apply (f_equal (@length nat)) in E. rewrite skipn_length, app_length in E. lia.
    + rewrite skipn_length in H2. exists y. repeat split; try lia.
      * intros x Hx. rewrite (H3 x Hx). now rewrite nth_skipn.
      * now rewrite nth_skipn in H4.
  - intros u v E Hu Hv.
    assert (Lu : 0 < length u) by (destruct u; [easy|simpl; lia]).
    assert (Lv : 0 < length v) by (destruct v; [easy|simpl; lia]).
    assert (Lw : length w = length u + length v) by (rewrite E, app_length; lia).
    destruct (H (length u) ltac:(lia)) as (y & H1 & H2 & H3).
    assert (N : forall x, nth (length u + x) w 0 = nth x v 0).
    { intros x. rewrite E, app_nth2 by lia. f_equal. lia. }
    apply (lex_lt_mismatch _ _ y); try lia.
    + intros x Hx. rewrite (H2 x Hx). apply N.
    + rewrite <- N. exact H3.
Qed.

(** the Lyndon words are exactly the words strictly smaller than all their proper rotations;
    here: Lyndon words are smaller than their proper rotations *)
Lemma rot_length i t : length (rot i t) = length t.
Proof.
  unfold rot. rewrite app_length, Nat.add_comm, <- app_length, firstn_skipn. reflexivity.
Qed.

Lemma nth_rot t i x : i <= length t -> x < length t ->
  nth x (rot i t) 0 = nth (if i + x <? length t then i + x else i + x - length t) t 0.
Proof.
  intros Hi Hx. unfold rot. destruct (Nat.ltb_spec (i + x) (length t)).
  - rewrite app_nth1 by (rewrite skipn_length; lia). now rewrite nth_skipn.
  - rewrite app_nth2 by (rewrite skipn_length; lia). rewrite skipn_length.
    rewrite nth_firstn by lia. f_equal. lia.
Qed.

Lemma nth_rot_mod t i x : i < length t -> x < length t ->
  nth x (rot i t) 0 = nth ((i + x) mod length t) t 0.
Proof.
  intros Hi Hx. rewrite nth_rot by lia. destruct (Nat.ltb_spec (i + x) (length t)).
  - now rewrite Nat.mod_small.
  - replace (i + x) with ((i + x - length t) + 1 * length t) at 2 by lia.
    rewrite Nat.mod_add by lia. now rewrite Nat.mod_small by lia.
Qed.

Lemma lyndon_lt_rot w i : lyndon w -> 0 < i < length w -> lex_lt w (rot i w).
Proof.
  intros H Hi. apply lyndon_idx in H. destruct H as [Hne H].
  destruct (H i Hi) as (y & H1 & H2 & H3).
  apply (lex_lt_mismatch _ _ y); rewrite ?rot_length; try lia.
  - intros x Hx. rewrite nth_rot by lia. destruct (Nat.ltb_spec (i + x) (length w)); [auto|lia].
  - rewrite nth_rot by lia. destruct (Nat.ltb_spec (i + y) (length w)); [auto|lia].
Qed.

Lemma lyndon_not_nil w : lyndon w -> w <> [].
Proof. now intros []. Qed.
Lemma lyndon_length w : lyndon w -> 0 < length w.
Proof. intros [H _]. destruct w; [easy|simpl; lia]. Qed.

Lemma lyndon_single c : lyndon [c].
Proof.
  split; [easy|]. intros [|x [|y u]] [|z v]; simpl; intros E; try easy.
Qed.

(** first letter of a Lyndon word is minimal *)
Lemma lyndon_first_min w i : lyndon w -> i < length w -> nth 0 w 0 <= nth i w 0.
Proof.
  intros H Hi. destruct i as [|i]; [lia|].
  apply lyndon_idx in H. destruct H as [_ H].
  destruct (H (S i) ltac:(lia)) as (y & H1 & H2 & H3).
  destruct y as [|y].
  - rewrite Nat.add_0_r in H3. lia.
  - specialize (H2 0 ltac:(lia)). rewrite Nat.add_0_r in H2. lia.
Qed.
