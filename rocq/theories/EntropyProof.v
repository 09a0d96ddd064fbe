(** EntropyProof.v : sums over the reals, zero_order_entropy *)
From Verif Require Import Base SpecStr SpecIo SpecEntropy LexFacts ModelCore ModelEntropy.
From Coq Require Import Reals Lra.

(** ** sums *)
Lemma sumR_app l1 l2 : sumR (l1 ++ l2) = (sumR l1 + sumR l2)%R.
Proof. unfold sumR. induction l1 as [|x l IH]; simpl; [lra|]. rewrite IH. lra. Qed.
Lemma sumR_perm l1 l2 : Permutation l1 l2 -> sumR l1 = sumR l2.
Proof. unfold sumR. induction 1; simpl; lra. Qed.
Lemma sumR_map_ext {A} (f g : A -> R) l : (forall x, In x l -> f x = g x) -> sumR (map f l) = sumR (map g l).
Proof. intros H. f_equal. now apply map_ext_in. Qed.
Lemma sumR_zero {A} (f : A -> R) l : (forall x, In x l -> f x = 0%R) -> sumR (map f l) = 0%R.
Proof.
  unfold sumR. induction l as [|x l IH]; intros H; simpl; auto. rewrite (H x) by now left. rewrite IH; [lra|].
  intros; apply H; now right.
Qed.
Lemma sumR_scal {A} (f : A -> R) l a : sumR (map (fun x => (a * f x)%R) l) = (a * sumR (map f l))%R.
Proof. unfold sumR. induction l as [|x l IH]; simpl; [lra|]. rewrite IH. lra. Qed.
Lemma sumR_plus {A} (f g : A -> R) l : sumR (map (fun x => (f x + g x)%R) l) = (sumR (map f l) + sumR (map g l))%R.
Proof. unfold sumR. induction l as [|x l IH]; simpl; [lra|]. rewrite IH. lra. Qed.
Lemma sumR_minus {A} (f g : A -> R) l : sumR (map (fun x => (f x - g x)%R) l) = (sumR (map f l) - sumR (map g l))%R.
Proof. unfold sumR. induction l as [|x l IH]; simpl; [lra|]. rewrite IH. lra. Qed.

Lemma sumR_support {A} (dec : forall x y : A, {x = y} + {x <> y}) (f : A -> R) (l1 l2 : list A) :
  NoDup l1 -> NoDup l2 -> (forall x, In x l2 -> In x l1) -> (forall x, In x l1 -> ~ In x l2 -> f x = 0%R) ->
  sumR (map f l1) = sumR (map f l2).
Proof.
  intros N1 N2 HI HZ.
  set (inb := fun x => if in_dec dec x l2 then true else false).
  assert (HP : Permutation l1 (l2 ++ filter (fun x => negb (inb x)) l1)).
  { apply NoDup_Permutation; auto.
    - assert (G : forall x, In x l2 -> ~ In x (filter (fun x => negb (inb x)) l1)).
      { intros x Hx Hf. apply filter_In in Hf. destruct Hf as (_ & Hb). unfold inb in Hb.
        destruct (in_dec dec x l2); [discriminate|contradiction]. }
      pose proof (NoDup_filter (fun x => negb (inb x)) N1) as N3. revert G N3. generalize (filter (fun x => negb (inb x)) l1). intros l3 G N3. clear - N2 N3 G.
      induction N2 as [|y l Hy N2 IH]; [exact N3|]. simpl. constructor.
      + intros H. apply in_app_iff in H. destruct H as [H|H]; [contradiction|]. now apply (G y (or_introl eq_refl)).
      + apply IH. intros x Hx. apply G. now right.
    - intros x. rewrite in_app_iff, filter_In. unfold inb. destruct (in_dec dec x l2); simpl; [|intuition discriminate].
      intuition. }
  rewrite (sumR_perm _ _ (Permutation_map f HP)), map_app, sumR_app.
  rewrite (sumR_zero f (filter _ _)); [lra|]. intros x Hx. apply filter_In in Hx. destruct Hx as (H1 & H2).
  apply HZ; auto. unfold inb in H2. destruct (in_dec dec x l2); [discriminate|auto].
Qed.
Lemma sumR_set {A} (dec : forall x y : A, {x = y} + {x <> y}) (f : A -> R) (l1 l2 : list A) :
  NoDup l1 -> NoDup l2 -> (forall x, In x l1 <-> In x l2) -> sumR (map f l1) = sumR (map f l2).
Proof. intros N1 N2 H. apply (sumR_support dec); auto; intros x Hx; [now apply H|]. intros Hn. exfalso. apply Hn. now apply H. Qed.

Lemma fold_for_sum {A} (g : A -> R) l : forall s,
  for_in l (fun x s => Ok (s + g x)%R) s = Ok (s + sumR (map g l))%R.
Proof.
  induction l as [|x l IH]; intros s; cbn [for_in bind map]; [unfold sumR; simpl; f_equal; lra|].
  rewrite IH. unfold sumR. simpl. f_equal. lra.
Qed.

(** ** zero-order entropy *)
Definition counts_of (u : str) : list nat := map (occ u) (seq 0 256).

Lemma occ_snoc u c d : occ (u ++ [c]) d = occ u d + (if Nat.eq_dec c d then 1 else 0).
Proof. unfold occ. rewrite count_occ_app. simpl. destruct (Nat.eq_dec c d); lia. Qed.

Lemma nth_counts u d : d < 256 -> nth d (counts_of u) 0 = occ u d.
Proof. intros H. unfold counts_of. rewrite (nth_map _ _ _ 0) by (rewrite seq_length; lia). now rewrite nth_seq0 by lia. Qed.
Lemma counts_length u : length (counts_of u) = 256.
Proof. unfold counts_of. now rewrite map_length, seq_length. Qed.

Lemma counts_upd u c : c < 256 -> upd (counts_of u) c (occ u c + 1) = counts_of (u ++ [c]).
Proof.
  intros Hc. apply (nth_ext_len _ _ 0); [now rewrite upd_length, !counts_length|].
  intros d Hd. rewrite upd_length, counts_length in Hd. rewrite (nth_counts (u ++ [c])) by lia. rewrite occ_snoc.
  destruct (Nat.eq_dec c d) as [->|N].
  - now rewrite nth_upd_eq by (rewrite counts_length; lia).
  - rewrite nth_upd_ne, nth_counts by auto. lia.
Qed.

Lemma count_loop v : forall u, bytes v ->
  for_in v (fun c '(cc, total) => x <- get cc c ;; cc' <- set cc c (x + 1) ;; Ok (cc', total + 1)) (counts_of u, length u)
  = Ok (counts_of (u ++ v), length (u ++ v)).
Proof.
  induction v as [|c v IH]; intros u HB; cbn [for_in]; [now rewrite app_nil_r|].
  inversion HB as [|? ? Hc HB']; subst.
  rewrite (get_ok _ _ 0) by (rewrite counts_length; lia). cbn [bind].
  rewrite set_ok by (rewrite counts_length; lia). cbn [bind]. rewrite nth_counts, counts_upd by lia.
  replace (length u + 1) with (length (u ++ [c])) by (rewrite app_length; reflexivity).
  rewrite (IH (u ++ [c]) HB'), <- app_assoc. reflexivity.
Qed.

Lemma counts_nil : counts_of [] = repeat 0 256.
Proof. reflexivity. Qed.

Lemma INR_pos n : 0 < n -> (0 < INR n)%R.
Proof. intros H. apply lt_0_INR. exact H. Qed.
Lemma INR_nz n : 0 < n -> INR n <> 0%R.
Proof. intros H. apply Rgt_not_eq. now apply INR_pos. Qed.

Lemma zero_order_ok v : bytes v -> v <> [] -> zero_order_entropy v = Ok (Some (H0 v)).
Proof.
  intros HB Hne. unfold zero_order_entropy. pose proof (count_loop v [] HB) as CL. rewrite counts_nil in CL. cbn [length app] in CL.
  rewrite CL. cbn [bind].
  assert (Hn : 0 < length v) by (destruct v; [easy|simpl; lia]).
  set (g := fun count => if 0 <? count then (INR count * log2 (INR (length v) / INR count))%R else 0%R).
  assert (E : for_in (counts_of v) (fun count sum =>
      if 0 <? count then Ok (sum + INR count * log2 (INR (length v) / INR count))%R else Ok sum) 0%R =
      Ok (sumR (map g (counts_of v)))).
  { rewrite <- (Rplus_0_l (sumR _)). rewrite <- fold_for_sum. generalize 0%R. generalize (counts_of v).
    induction l as [|x l IH]; intros s; cbn [for_in]; auto. unfold g at 1.
    destruct (0 <? x); cbn [bind]; rewrite IH; auto. now rewrite Rplus_0_r. }
  rewrite E. cbn [bind]. unfold f_div. destruct (Nat.eqb_spec (length v) 0); [lia|]. do 2 f_equal.
  unfold counts_of. rewrite map_map.
  rewrite (sumR_support Nat.eq_dec (fun c => g (occ v c)) (seq 0 256) (nodup Nat.eq_dec v)).
  - unfold H0, Rdiv. rewrite Rmult_comm, <- sumR_scal. apply sumR_map_ext. intros c Hc. apply nodup_In in Hc.
    unfold g. apply (count_occ_In Nat.eq_dec) in Hc. fold (occ v c) in Hc.
    destruct (Nat.ltb_spec 0 (occ v c)); [|lia]. unfold log2, lg, Rdiv. ring.
  - apply seq_NoDup.
  - apply NoDup_nodup.
  - intros c Hc. apply nodup_In in Hc. apply in_seq. unfold bytes in HB. rewrite Forall_forall in HB. specialize (HB c Hc). lia.
  - intros c _ Hc. rewrite nodup_In in Hc. apply (count_occ_not_In Nat.eq_dec) in Hc. unfold g, occ. rewrite Hc. reflexivity.
Qed.

Lemma H0_perm x y : Permutation x y -> H0 x = H0 y.
Proof.
  intros HP. unfold H0.
  rewrite (sumR_set Nat.eq_dec _ (nodup Nat.eq_dec x) (nodup Nat.eq_dec y)).
  - apply sumR_map_ext. intros c _. unfold occ. rewrite (proj1 (Permutation_count_occ Nat.eq_dec x y) HP c).
    now rewrite (Permutation_length HP).
  - apply NoDup_nodup.
  - apply NoDup_nodup.
  - intros c. rewrite !nodup_In. split; apply Permutation_in; [exact HP|now apply Permutation_sym].
Qed.

Lemma ln2_pos : (0 < ln 2)%R.
Proof. rewrite <- ln_1. apply ln_increasing; lra. Qed.
Lemma lg_1 : lg 1 = 0%R.
Proof. unfold lg. rewrite ln_1. lra. Qed.
Lemma lg_div x y : (0 < x)%R -> (0 < y)%R -> lg (x / y) = (lg x - lg y)%R.
Proof. intros Hx Hy. unfold lg, Rdiv. rewrite ln_mult, ln_Rinv by (auto using Rinv_0_lt_compat). pose proof ln2_pos. field. lra. Qed.
Lemma H0_single c : H0 [c] = 0%R.
Proof.
  unfold H0, occ. simpl. destruct (Nat.eq_dec c c); [|contradiction]. unfold sumR. simpl.
  replace (1 / 1)%R with 1%R by lra. rewrite lg_1. lra.
Qed.
Lemma H0_unary_le1 x : length x <= 1 -> (INR (length x) * H0 x)%R = 0%R.
Proof. destruct x as [|c [|d x]]; intros H; [simpl; lra|rewrite H0_single; lra|simpl in H; lia]. Qed.

(** n H0 = n lg n - sum of n_c lg n_c *)
Lemma sum_indicator a (D : list nat) : NoDup D -> In a D ->
  sumR (map (fun c => INR (if Nat.eq_dec a c then 1 else 0)) D) = 1%R.
Proof.
  intros ND Hin. rewrite (sumR_support Nat.eq_dec _ D [a]); auto.
  - unfold sumR. simpl. destruct (Nat.eq_dec a a); [simpl; lra|contradiction].
  - repeat constructor; auto.
  - intros x [<-|[]]. exact Hin.
  - intros x _ Hx. destruct (Nat.eq_dec a x) as [->|]; [exfalso; apply Hx; now left|reflexivity].
Qed.
Lemma sum_occ x : forall D, NoDup D -> incl x D -> sumR (map (fun c => INR (occ x c)) D) = INR (length x).
Proof.
  induction x as [|a x IH]; intros D ND HI.
  - apply sumR_zero. reflexivity.
  - rewrite (sumR_map_ext _ (fun c => (INR (occ x c) + INR (if Nat.eq_dec a c then 1 else 0))%R)).
    + rewrite sumR_plus, IH, sum_indicator; auto.
      * cbn [length]. rewrite S_INR. reflexivity.
      * apply HI. now left.
      * intros c Hc. apply HI. now right.
    + intros c _. rewrite <- plus_INR. f_equal. unfold occ. simpl. destruct (Nat.eq_dec a c); lia.
Qed.
Lemma H0_expand x : (INR (length x) * H0 x)%R =
  (INR (length x) * lg (INR (length x)) - sumR (map (fun c => INR (occ x c) * lg (INR (occ x c))) (nodup Nat.eq_dec x)))%R.
Proof.
  destruct x as [|a x0]; [unfold sumR; simpl; lra|]. set (x := a :: x0).
  assert (Hn : 0 < length x) by (simpl; lia). pose proof (INR_pos _ Hn) as HR.
  assert (E : (INR (length x) * lg (INR (length x)))%R = sumR (map (fun c => (lg (INR (length x)) * INR (occ x c))%R) (nodup Nat.eq_dec x))).
  { rewrite sumR_scal, sum_occ; [ring|apply NoDup_nodup|]. intros c Hc. now apply nodup_In. }
  rewrite E. unfold H0. rewrite <- sumR_scal, <- sumR_minus.
  apply sumR_map_ext. intros c Hc. apply nodup_In in Hc.
  assert (Ho : 0 < occ x c) by (apply (count_occ_In Nat.eq_dec); exact Hc). pose proof (INR_pos _ Ho).
  rewrite lg_div by auto. field. lra.
Qed.
