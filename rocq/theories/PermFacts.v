(** PermFacts.v : permutations of 0..n-1, [inverse_permutation] and [compute_phi]. *)
From Verif Require Import Base SpecStr ModelCore.

Lemma is_perm_length n l : is_perm n l -> length l = n.
Proof. intros H. rewrite (Permutation_length H). apply seq_length. Qed.

Lemma is_perm_NoDup n l : is_perm n l -> NoDup l.
Proof. intros H. apply (Permutation_NoDup (Permutation_sym H)). apply seq_NoDup. Qed.

Lemma is_perm_In n l x : is_perm n l -> (In x l <-> x < n).
Proof.
  intros H. split; intros Hx.
  - apply (Permutation_in _ H), in_seq in Hx. lia.
  - apply (Permutation_in _ (Permutation_sym H)), in_seq. lia.
Qed.

Lemma is_perm_nth n l i : is_perm n l -> i < n -> nth i l 0 < n.
Proof.
  intros H Hi. apply (is_perm_In n l _ H). apply nth_In. now rewrite (is_perm_length n l H).
Qed.

Lemma is_perm_inj n l i j : is_perm n l -> i < n -> j < n -> nth i l 0 = nth j l 0 -> i = j.
Proof.
  intros H Hi Hj E. pose proof (is_perm_length n l H) as Hl.
  apply (proj1 (NoDup_nth l 0) (is_perm_NoDup n l H)); auto; lia.
Qed.

Lemma is_perm_surj n l x : is_perm n l -> x < n -> exists i, i < n /\ nth i l 0 = x.
Proof.
  intros H Hx. apply (is_perm_In n l x H) in Hx. destruct (In_nth l x 0 Hx) as (i & Hi & E).
  exists i. split; [|exact E]. now rewrite <- (is_perm_length n l H).
Qed.

Lemma is_perm_intro n l : length l = n ->
  (forall i, i < n -> nth i l 0 < n) ->
  (forall i j, i < n -> j < n -> nth i l 0 = nth j l 0 -> i = j) -> is_perm n l.
Proof.
  intros Hl Hlt Hinj. unfold is_perm. apply NoDup_Permutation_bis.
  - apply (NoDup_nth l 0). rewrite Hl. intros i j Hi Hj E. now apply Hinj.
  - rewrite seq_length. lia.
  - intros x Hx. destruct (In_nth l x 0 Hx) as (i & Hi & E). subst x.
    apply in_seq. split; [lia|]. simpl. apply Hlt. lia.
Qed.

Lemma is_perm_seq n : is_perm n (seq 0 n).
Proof. apply Permutation_refl. Qed.

(** ** inverse_permutation *)
Lemma inverse_permutation_ok n arr : is_perm n arr ->
  okp (inverse_permutation arr) (fun inv => length inv = n /\
     (forall i, i < n -> nth (nth i arr 0) inv 0 = i)).
Proof.
  intros H. pose proof (is_perm_length n arr H) as Hl.
  unfold inverse_permutation. rewrite Hl.
  eapply okp_imp; [eapply (okp_for_range (fun k inv => length inv = n /\
     forall i, i < k -> nth (nth i arr 0) inv 0 = i)); [lia| |]|].
  - split; [apply repeat_length|]. intros; lia.
  - intros i inv Hi (L & Hinv). apply okp_bind, (okp_get _ _ 0); [lia|].
    assert (Ha : nth i arr 0 < n) by (apply (is_perm_nth n arr i H); lia).
    apply okp_set; [lia|]. split; [now rewrite upd_length|].
    intros j Hj. destruct (Nat.eq_dec j i) as [->|Ne].
    + apply nth_upd_eq. lia.
    + rewrite nth_upd_ne; [apply Hinv; lia|]. intros E. apply Ne. symmetry.
      apply (is_perm_inj n arr); auto; lia.
  - cbv beta. auto.
Qed.

Lemma inverse_permutation_spec n arr : is_perm n arr ->
  exists inv, inverse_permutation arr = Ok inv /\ is_perm n inv /\
   (forall i, i < n -> nth (nth i arr 0) inv 0 = i) /\
   (forall j, j < n -> nth (nth j inv 0) arr 0 = j).
Proof.
  intros H. destruct (inverse_permutation_ok n arr H) as (inv & E & L & Hinv).
  exists inv. split; [exact E|].
  assert (H2 : forall j, j < n -> nth j inv 0 < n /\ nth (nth j inv 0) arr 0 = j).
  { intros j Hj. destruct (is_perm_surj n arr j H Hj) as (i & Hi & Ei).
    rewrite <- Ei. rewrite Hinv by lia. auto. }
  split; [|split; [exact Hinv|intros j Hj; apply H2; exact Hj]].
  apply is_perm_intro; [exact L| |].
  - intros i Hi. now apply H2.
  - intros i j Hi Hj Eij. destruct (H2 i Hi) as [_ Ei]. destruct (H2 j Hj) as [_ Ej]. congruence.
Qed.

(** two inverse tables of each other's inverses are equal *)
Lemma inverse_permutation_involutive n arr inv : is_perm n arr ->
  inverse_permutation arr = Ok inv -> inverse_permutation inv = Ok arr.
Proof.
  intros H E. destruct (inverse_permutation_spec n arr H) as (inv' & E' & Hp & H1 & H2).
  rewrite E in E'. injection E' as <-.
  destruct (inverse_permutation_spec n inv Hp) as (arr' & E2 & Hp2 & H3 & H4).
  rewrite E2. f_equal. apply (nth_ext_len _ _ 0).
  - rewrite (is_perm_length n _ Hp2), (is_perm_length n _ H). reflexivity.
  - intros i Hi. rewrite (is_perm_length n _ Hp2) in Hi.
    assert (nth i arr 0 < n) by (apply (is_perm_nth n arr); auto).
    rewrite <- (H1 i Hi) at 1. now apply H3.
Qed.

(** an out-of-range entry panics *)
Lemma inverse_permutation_panic arr x :
  In x arr -> length arr <= x -> inverse_permutation arr = Panic.
Proof.
  intros Hin Hx. unfold inverse_permutation.
  assert (G : forall k lo inv, lo + k = length arr -> length inv = length arr ->
     (exists i, lo <= i < length arr /\ length arr <= nth i arr 0) ->
     for_in (seq lo k) (fun i inv => a <- get arr i ;; set inv a i) inv = Panic).
  { induction k as [|k IH]; intros lo inv Hlk Hl (i & Hi & Hv); simpl; [lia|].
    rewrite (get_ok arr lo 0) by lia. simpl.
    destruct (Nat.lt_ge_cases (nth lo arr 0) (length arr)) as [Lt|Ge].
    - rewrite set_ok by lia. simpl. apply IH; [lia|now rewrite upd_length|].
      exists i. split; [|exact Hv]. destruct (Nat.eq_dec i lo); [subst; lia|lia].
    - rewrite set_panic by lia. reflexivity. }
  unfold range. rewrite Nat.sub_0_r. apply G; [lia|apply repeat_length|].
  destruct (In_nth arr x 0 Hin) as (i & Hi & E). exists i. subst x. split; [lia|exact Hx].
Qed.

(** ** compute_phi *)
Lemma compute_phi_ok n sa : 0 < n -> is_perm n sa ->
  exists phi, compute_phi sa = Ok phi /\ is_perm n phi /\
    (forall i, 0 < i < n -> nth (nth i sa 0) phi 0 = nth (i - 1) sa 0) /\
    nth (nth 0 sa 0) phi 0 = nth (n - 1) sa 0.
Proof.
  intros Hn H. pose proof (is_perm_length n sa H) as Hl.
  assert (G : okp (compute_phi sa) (fun phi => length phi = n /\
    (forall i, 0 < i < n -> nth (nth i sa 0) phi 0 = nth (i - 1) sa 0) /\
    nth (nth 0 sa 0) phi 0 = nth (n - 1) sa 0)).
  { unfold compute_phi. rewrite Hl. apply okp_bind, okp_assert; [apply Nat.ltb_lt; lia|].
    apply okp_bind. eapply okp_imp; [eapply (okp_for_range (fun k phi => length phi = n /\
      forall i, 0 < i < k -> nth (nth i sa 0) phi 0 = nth (i - 1) sa 0)); [lia| |]|].
    - split; [apply repeat_length|]. intros; lia.
    - intros i phi Hi (L & Hphi). apply okp_bind, (okp_get _ _ 0); [lia|].
      apply okp_bind, okp_sub; [lia|]. apply okp_bind, (okp_get _ _ 0); [lia|].
      pose proof (is_perm_nth n sa i H ltac:(lia)).
      apply okp_set; [lia|]. split; [now rewrite upd_length|].
      intros j Hj. destruct (Nat.eq_dec j i) as [->|Ne].
      + apply nth_upd_eq. lia.
      + rewrite nth_upd_ne; [apply Hphi; lia|]. intros E. apply Ne. symmetry.
        apply (is_perm_inj n sa); auto; lia.
    - intros phi (L & Hphi). cbv beta.
      apply okp_bind, (okp_get _ _ 0); [lia|]. apply okp_bind, okp_sub; [lia|].
      apply okp_bind, (okp_get _ _ 0); [lia|].
      pose proof (is_perm_nth n sa 0 H ltac:(lia)).
      apply okp_set; [lia|]. split; [now rewrite upd_length|]. split.
      + intros i Hi. rewrite nth_upd_ne; [apply Hphi; lia|]. intros E.
        apply (is_perm_inj n sa) in E; auto; lia.
      + apply nth_upd_eq. lia. }
  destruct G as (phi & E & L & H1 & H2). exists phi. split; [exact E|]. split; [|auto].
  assert (H3 : forall i, i < n -> nth (nth i sa 0) phi 0 = nth (if i =? 0 then n - 1 else i - 1) sa 0).
  { intros i Hi. destruct (Nat.eqb_spec i 0) as [->|Ne]; [exact H2|apply H1; lia]. }
  apply is_perm_intro; [exact L| |].
  - intros x Hx. destruct (is_perm_surj n sa x H Hx) as (i & Hi & <-). rewrite H3 by lia.
    apply (is_perm_nth n sa _ H). destruct (Nat.eqb_spec i 0); lia.
  - intros x y Hx Hy Exy. destruct (is_perm_surj n sa x H Hx) as (i & Hi & <-).
    destruct (is_perm_surj n sa y H Hy) as (j & Hj & <-). rewrite !H3 in Exy by lia.
    apply (is_perm_inj n sa) in Exy; auto; destruct (Nat.eqb_spec i 0), (Nat.eqb_spec j 0); try lia;
    f_equal; lia.
Qed.

Lemma compute_phi_empty : compute_phi [] = Panic.
Proof. reflexivity. Qed.
