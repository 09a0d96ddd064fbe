(** LockFacts.v : generic facts about thread lists and locks. *)
From Verif Require Import Base ModelPar.

Lemma nth_error_upd_eq {A} (l : list A) i x t : nth_error l i = Some t -> nth_error (upd l i x) i = Some x.
Proof. revert i. induction l as [|a l IH]; intros [|i] H; simpl in *; try discriminate; auto. Qed.
Lemma nth_error_upd_ne {A} (l : list A) i j x : i <> j -> nth_error (upd l i x) j = nth_error l j.
Proof. revert i j. induction l as [|a l IH]; intros [|i] [|j] H; simpl; auto; try congruence. Qed.
Lemma upd_split {A} (l : list A) i t : nth_error l i = Some t ->
  exists l1 l2, l = l1 ++ t :: l2 /\ forall x, upd l i x = l1 ++ x :: l2.
Proof.
  revert i. induction l as [|a l IH]; intros [|i] H; simpl in *; try discriminate.
  - injection H as ->. exists [], l. split; reflexivity.
  - destruct (IH i H) as (l1 & l2 & -> & E). exists (a :: l1), l2. split; [reflexivity|]. intros x. simpl. now rewrite E.
Qed.

(** the threads satisfying [h] are the owners of the lock *)
Definition lock_ok {T} (l : lockst) (h : T -> Prop) (ths : list T) : Prop :=
  match l with
  | Free => forall i t, nth_error ths i = Some t -> ~ h t
  | Held j => (exists t, nth_error ths j = Some t /\ h t) /\ forall i t, nth_error ths i = Some t -> h t -> i = j
  | Poisoned => False
  end.
Section L.
Context {T : Type} (h : T -> Prop).
Lemma lock_keep l ths i t x : lock_ok l h ths -> nth_error ths i = Some t -> ~ h t -> ~ h x -> lock_ok l h (upd ths i x).
Proof.
  intros H E Ht Hx. destruct l as [|j|]; simpl in *; [| |easy].
  - intros k u Hk. destruct (Nat.eq_dec i k) as [->|N]; [rewrite (nth_error_upd_eq _ _ _ _ E) in Hk; now injection Hk as <-|].
    rewrite nth_error_upd_ne in Hk by auto. eauto.
  - destruct H as ((u & Hu & Hh) & HU). split.
    + exists u. split; [|exact Hh]. rewrite nth_error_upd_ne; [exact Hu|]. intros ->. rewrite E in Hu. injection Hu as <-. contradiction.
    + intros k v Hk Hv. destruct (Nat.eq_dec i k) as [->|N]; [rewrite (nth_error_upd_eq _ _ _ _ E) in Hk; now injection Hk as <-|].
      rewrite nth_error_upd_ne in Hk by auto. eauto.
Qed.
Lemma lock_stay l ths i t x : lock_ok l h ths -> nth_error ths i = Some t -> h t -> h x -> lock_ok l h (upd ths i x).
Proof.
  intros H E Ht Hx. destruct l as [|j|]; simpl in *; [exfalso; eapply H; eauto| |easy].
  destruct H as ((u & Hu & Hh) & HU). assert (i = j) by eauto. subst j. split.
  - exists x. split; [now apply (nth_error_upd_eq _ _ _ t)|exact Hx].
  - intros k v Hk Hv. destruct (Nat.eq_dec i k) as [->|N]; [reflexivity|]. rewrite nth_error_upd_ne in Hk by auto. eauto.
Qed.
Lemma lock_acquire ths i t x : lock_ok Free h ths -> nth_error ths i = Some t -> h x -> lock_ok (Held i) h (upd ths i x).
Proof.
  intros H E Hx. split.
  - exists x. split; [now apply (nth_error_upd_eq _ _ _ t)|exact Hx].
  - intros k v Hk Hv. destruct (Nat.eq_dec i k) as [->|N]; [reflexivity|]. rewrite nth_error_upd_ne in Hk by auto.
    exfalso. exact (H k v Hk Hv).
Qed.
Lemma lock_release l ths i t x : lock_ok l h ths -> nth_error ths i = Some t -> h t -> ~ h x -> lock_ok Free h (upd ths i x).
Proof.
  intros H E Ht Hx k u Hk. destruct (Nat.eq_dec i k) as [->|N]; [rewrite (nth_error_upd_eq _ _ _ _ E) in Hk; now injection Hk as <-|].
  rewrite nth_error_upd_ne in Hk by auto. intros Hu. destruct l as [|j|]; simpl in H; [exact (H k u Hk Hu)| |easy].
  destruct H as (_ & HU). apply N. rewrite (HU i t E Ht), (HU k u Hk Hu). reflexivity.
Qed.
Lemma lock_not_poisoned l ths : lock_ok l h ths -> l <> Poisoned.
Proof. intros H ->. exact H. Qed.
End L.
