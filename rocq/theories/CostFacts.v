(** CostFacts.v : rules for the counted computations of ModelCost.v. *)
From Verif Require Import Base ModelCore ModelLz ModelAttr ModelCost.
From Coq Require Import NArith.

(** ** forgetting the counter *)
Definition erase {A} (r : cres A) : res A := ' (a, _) <- r ;; Ok a.
Lemma erase_free {A} (r : res A) : erase (free r) = r.
Proof. now destruct r. Qed.
Lemma erase_const {A} (a : A) n : erase (Ok (a, n)) = Ok a.
Proof. reflexivity. Qed.
Lemma erase_bind {A B} (e : cres A) (f : A -> cres B) e' f' :
  erase e = e' -> (forall a, erase (f a) = f' a) -> erase (cbind e f) = bind e' f'.
Proof.
  intros <- H. unfold erase, cbind. destruct e as [[a n]| |]; cbn [bind]; [|reflexivity|reflexivity].
  rewrite <- H. unfold erase. now destruct (f a) as [[b m]| |].
Qed.
Lemma erase_bind_free {A B} (e : res A) (f : A -> cres B) f' :
  (forall a, erase (f a) = f' a) -> erase (cbind (free e) f) = bind e f'.
Proof. intros H. apply erase_bind; [apply erase_free|exact H]. Qed.
Lemma erase_bind_const {A B} (a : A) n (f : A -> cres B) r : erase (f a) = r -> erase (cbind (Ok (a, n)) f) = r.
Proof. intros <-. unfold erase, cbind. cbn [bind]. now destruct (f a) as [[b m]| |]. Qed.
Lemma erase_loop {S B} fuel (body : S -> cres (ctl S B)) body' : (forall s, erase (body s) = body' s) ->
  forall s, erase (loop_c fuel body s) = loop fuel body' s.
Proof.
  intros H. induction fuel as [|f IH]; intros s; [reflexivity|]. cbn [loop_c loop]. rewrite <- H. unfold erase at 1 2.
  destruct (body s) as [[c n]| |]; cbn [bind]; [|reflexivity|reflexivity]. destruct c as [s'|b]; [|reflexivity].
  rewrite <- IH. unfold erase. now destruct (loop_c f body s') as [[b m]| |].
Qed.
Lemma erase_for {S I} (l : list I) (body : I -> S -> cres S) body' : (forall i s, erase (body i s) = body' i s) ->
  forall s, erase (for_c l body s) = for_in l body' s.
Proof.
  intros H. induction l as [|i l IH]; intros s; [reflexivity|]. cbn [for_c for_in]. rewrite <- H. unfold erase at 1 2.
  destruct (body i s) as [[s' n]| |]; cbn [bind]; [|reflexivity|reflexivity].
  rewrite <- IH. unfold erase. now destruct (for_c l body s') as [[b m]| |].
Qed.
Lemma erase_for_ret {I A} (l : list I) (body : I -> cres (option A)) body' : (forall i, erase (body i) = body' i) ->
  erase (for_ret_c l body) = for_ret l body'.
Proof.
  intros H. induction l as [|i l IH]; [reflexivity|]. cbn [for_ret_c for_ret]. rewrite <- H. unfold erase at 1 2.
  destruct (body i) as [[r n]| |]; cbn [bind]; [|reflexivity|reflexivity]. destruct r as [a|]; [reflexivity|].
  rewrite <- IH. unfold erase. now destruct (for_ret_c l body) as [[b m]| |].
Qed.
Lemma erase_ok {A} (r : cres A) a : erase r = Ok a -> exists c, r = Ok (a, c).
Proof. unfold erase. destruct r as [[b c]| |]; cbn [bind]; intros E; inversion E. eauto. Qed.

(** ** bounds: if the computation returns, then P holds of its value and its cost *)
Definition pc {A} (r : cres A) (P : A -> nat -> Prop) : Prop := forall a c, r = Ok (a, c) -> P a c.
Lemma pc_free {A} (r : res A) (P : A -> nat -> Prop) : (forall a, r = Ok a -> P a 0) -> pc (free r) P.
Proof. intros H a c. unfold free. destruct r; cbn [bind]; intros E; inversion E; subst. auto. Qed.
Lemma pc_const {A} (a : A) n (P : A -> nat -> Prop) : P a n -> pc (Ok (a, n)) P.
Proof. intros H a' c E. now inversion E; subst. Qed.
Lemma pc_bind {A B} (e : cres A) (f : A -> cres B) (P : B -> nat -> Prop) :
  pc e (fun a n => pc (f a) (fun b m => P b (n + m))) -> pc (cbind e f) P.
Proof.
  intros H b c E. unfold cbind in E. destruct e as [[a n]| |]; cbn [bind] in E; try discriminate.
  destruct (f a) as [[b' m]| |] eqn:F; cbn [bind] in E; inversion E; subst. exact (H a n eq_refl b m F).
Qed.
Lemma pc_bind_free {A B} (e : res A) (f : A -> cres B) (P : B -> nat -> Prop) :
  (forall a, e = Ok a -> pc (f a) P) -> pc (cbind (free e) f) P.
Proof. intros H. apply pc_bind, pc_free. intros a E. exact (H a E). Qed.
Lemma pc_bind_const {A B} (a : A) n (f : A -> cres B) (P : B -> nat -> Prop) :
  pc (f a) (fun b m => P b (n + m)) -> pc (cbind (Ok (a, n)) f) P.
Proof. intros H. apply pc_bind, pc_const. exact H. Qed.
Lemma pc_imp {A} (r : cres A) (P Q : A -> nat -> Prop) : pc r P -> (forall a c, P a c -> Q a c) -> pc r Q.
Proof. intros H G a c E. auto. Qed.
Lemma pc_loop {S B} (Inv : S -> nat -> Prop) (P : B -> nat -> Prop) fuel (body : S -> cres (ctl S B)) :
  (forall s c, Inv s c -> pc (body s) (fun t n => match t with Cont s' => Inv s' (c + (1 + n)) | Brk b => P b (c + (1 + n)) end)) ->
  forall s, Inv s 0 -> pc (loop_c fuel body s) P.
Proof.
  intros Hb. assert (G : forall fuel s c0, Inv s c0 -> pc (loop_c fuel body s) (fun b n => P b (c0 + n))).
  { clear fuel. induction fuel as [|f IH]; intros s c0 HI b c E; [discriminate|]. cbn [loop_c] in E.
    destruct (body s) as [[t n]| |] eqn:F; cbn [bind] in E; try discriminate. pose proof (Hb s c0 HI t n F) as H.
    destruct t as [s'|b']; [|inversion E; subst; exact H].
    destruct (loop_c f body s') as [[b' m]| |] eqn:F'; cbn [bind] in E; try discriminate. inversion E; subst.
    pose proof (IH s' _ H b m F') as HP. cbv beta in HP. now replace (c0 + Datatypes.S (n + m)) with (c0 + (1 + n) + m) by lia. }
  intros s H0. exact (G fuel s 0 H0).
Qed.
Lemma pc_for {S I} (Inv : list I -> S -> nat -> Prop) (body : I -> S -> cres S) (l : list I) s :
  Inv [] s 0 ->
  (forall p i q s c, l = p ++ i :: q -> Inv p s c -> pc (body i s) (fun s' n => Inv (p ++ [i]) s' (c + (1 + n)))) ->
  pc (for_c l body s) (Inv l).
Proof.
  intros H0 Hb. assert (G : forall q p s c0, l = p ++ q -> Inv p s c0 -> pc (for_c q body s) (fun s' n => Inv l s' (c0 + n))).
  { induction q as [|i q IH]; intros p s1 c0 El HI.
    - cbn [for_c]. apply pc_const. rewrite app_nil_r in El. subst p. now rewrite Nat.add_0_r.
    - intros s2 c E. cbn [for_c] in E. destruct (body i s1) as [[s' n]| |] eqn:F; cbn [bind] in E; try discriminate.
      destruct (for_c q body s') as [[s'' m]| |] eqn:F'; cbn [bind] in E; try discriminate. inversion E; subst s2 c.
      pose proof (Hb p i q s1 c0 El HI s' n F) as H.
      pose proof (IH (p ++ [i]) s' _ ltac:(now rewrite <- app_assoc) H s'' m F') as HP. cbv beta in HP.
      now replace (c0 + Datatypes.S (n + m)) with (c0 + (1 + n) + m) by lia. }
  exact (G l [] s 0 eq_refl H0).
Qed.
(** the usual case: an invariant indexed by the loop variable *)
Lemma pc_for_seq {S} (Inv : nat -> S -> nat -> Prop) (body : nat -> S -> cres S) lo n s :
  Inv lo s 0 ->
  (forall i s c, lo <= i < lo + n -> Inv i s c -> pc (body i s) (fun s' m => Inv (Datatypes.S i) s' (c + (1 + m)))) ->
  pc (for_c (seq lo n) body s) (Inv (lo + n)).
Proof.
  intros H0 Hb. eapply pc_imp; [eapply (pc_for (fun p s c => Inv (lo + length p) s c))|].
  - now rewrite Nat.add_0_r.
  - intros p i q s1 c El HI.
    assert (Ei : i = lo + length p /\ length p < n).
    { pose proof (f_equal (@length nat) El) as EL. rewrite seq_length, app_length in EL. cbn [length] in EL.
      split; [|lia]. assert (E : nth (length p) (seq lo n) 0 = i) by (rewrite El, app_nth2, Nat.sub_diag by lia; reflexivity).
      rewrite seq_nth in E by lia. lia. }
    destruct Ei as [-> Hp]. eapply pc_imp; [apply Hb; [lia|exact HI]|]. intros s' m H. rewrite app_length. cbn [length].
    now replace (lo + (length p + 1)) with (Datatypes.S (lo + length p)) by lia.
  - cbv beta. intros s' c. now rewrite seq_length.
Qed.
Lemma pc_for_range {S} (Inv : nat -> S -> nat -> Prop) (body : nat -> S -> cres S) lo hi s : lo <= hi ->
  Inv lo s 0 ->
  (forall i s c, lo <= i < hi -> Inv i s c -> pc (body i s) (fun s' m => Inv (Datatypes.S i) s' (c + (1 + m)))) ->
  pc (for_c (range lo hi) body s) (Inv hi).
Proof.
  intros Hle H0 Hb. unfold range. replace hi with (lo + (hi - lo)) at 2 by lia. apply pc_for_seq; [exact H0|].
  intros i s1 c Hi. apply Hb. lia.
Qed.
(** a loop without inner loops costs its number of iterations *)
Lemma pc_for_free {S I} (l : list I) (body : I -> S -> res S) s : pc (for_c l (fun i s => free (body i s)) s) (fun _ c => c = length l).
Proof.
  eapply pc_for with (Inv := fun p _ c => c = length p); [reflexivity|]. intros p i q s1 c _ ->. apply pc_free. intros s' _.
  rewrite app_length. cbn [length]. lia.
Qed.
Lemma pc_for_ret_free {I A} (l : list I) (body : I -> res (option A)) : pc (for_ret_c l (fun i => free (body i))) (fun _ c => c <= length l).
Proof.
  induction l as [|i l IH]; intros r c E; cbn [for_ret_c] in E; [inversion E; cbn [length]; lia|].
  unfold free in E at 1. destruct (body i) as [o| |]; cbn [bind] in E; try discriminate. destruct o as [a|].
  - inversion E. cbn [length]. lia.
  - destruct (for_ret_c l _) as [[r' m]| |] eqn:F; cbn [bind] in E; try discriminate. inversion E; subst.
    pose proof (IH _ _ eq_refl). cbv beta in *. cbn [length]. lia.
Qed.
(** correctness of the value and bound of the cost together *)
Lemma pc_okp {A} (r : cres A) (P : A -> Prop) (Q : A -> nat -> Prop) : okp (erase r) P -> pc r Q -> pc r (fun a c => P a /\ Q a c).
Proof. intros (a' & E & HP) HQ a c F. rewrite F in E. inversion E; subst. auto. Qed.
Lemma cost_total {A} (r : cres A) (r' : res A) a (Q : A -> nat -> Prop) : erase r = r' -> r' = Ok a -> pc r Q ->
  exists c, r = Ok (a, c) /\ Q a c.
Proof. intros E F H. destruct (erase_ok r a) as [c G]; [congruence|]. exists c. auto. Qed.
