(** FloatLink.v : the programs of ModelFloat.v over different arithmetics: same outcomes; over the reals they are those of ModelEntropy.v. *)
From Verif Require Import Base ModelIo ModelCore ModelEntropy ModelFloat.
From Coq Require Import NArith Reals Lra.
Close Scope R_scope. Open Scope nat_scope.

(** related results *)
Definition rres {X Y} (P : X -> Y -> Prop) (r : res X) (r' : res Y) : Prop :=
  match r, r' with Ok a, Ok b => P a b | Panic, Panic => True | OutOfFuel, OutOfFuel => True | _, _ => False end.
Lemma rres_bind {X Y X' Y'} (P : X -> Y -> Prop) (Q : X' -> Y' -> Prop) r r' f f' :
  rres P r r' -> (forall a b, P a b -> rres Q (f a) (f' b)) -> rres Q (bind r f) (bind r' f').
Proof. intros H F. destruct r, r'; cbn [rres bind] in *; try easy. now apply F. Qed.
Lemma rres_same {X X' Y'} (Q : X' -> Y' -> Prop) (r : res X) f f' :
  (forall a, rres Q (f a) (f' a)) -> rres Q (bind r f) (bind r f').
Proof. intros F. destruct r; cbn [bind]; try easy. Qed.
Lemma rres_for {X Y I} (P : X -> Y -> Prop) (l : list I) f f' : (forall i a b, In i l -> P a b -> rres P (f i a) (f' i b)) ->
  forall a b, P a b -> rres P (for_in l f a) (for_in l f' b).
Proof.
  induction l as [|i l IH]; intros F a b H; [exact H|]. cbn [for_in]. eapply rres_bind; [apply F; [now left|exact H]|].
  intros a' b' H'. apply IH; auto. intros. apply F; auto. now right.
Qed.
Lemma rres_eq {X} (r r' : res X) : rres eq r r' -> r = r'.
Proof. destruct r, r'; cbn [rres]; intros H; try easy. now subst. Qed.

Section PARAM.
Context (A B : arith) (Q : a_num A -> a_num B -> Prop).
Context (Q0 : Q (a_zero A) (a_zero B)) (Qof : forall n, Q (a_of A n) (a_of B n)).
Context (Qadd : forall a b c d, Q a b -> Q c d -> Q (a_add A a c) (a_add B b d)).
Context (Qsub : forall a b c d, Q a b -> Q c d -> Q (a_sub A a c) (a_sub B b d)).
Context (Qmul : forall a b c d, Q a b -> Q c d -> Q (a_mul A a c) (a_mul B b d)).
Context (Qdiv : forall a b c d, Q a b -> Q c d -> Q (a_div A a c) (a_div B b d)).
Context (Qlog : forall a b, Q a b -> Q (a_log2 A a) (a_log2 B b)).
Lemma zero_param v : rres Q (zero_order_entropy_a A v) (zero_order_entropy_a B v).
Proof.
  unfold zero_order_entropy_a. apply rres_same. intros (cc, total). apply (rres_bind Q).
  - apply rres_for; [|exact Q0]. intros c a b _ H. destruct (0 <? c); cbn [rres]; auto 8.
  - intros a b H. cbn [rres]. auto.
Qed.
Lemma context_param text sa k start len : rres Q (compute_context_a A text sa k start len) (compute_context_a B text sa k start len).
Proof.
  unfold compute_context_a. apply rres_same. intros v. apply (rres_bind Q); [apply zero_param|]. intros a b H. cbn [rres]. auto.
Qed.
Lemma kth_param sort text k : rres Q (kth_order_entropy_a A sort text k) (kth_order_entropy_a B sort text k).
Proof.
  unfold kth_order_entropy_a. apply rres_same; intros _. apply rres_same; intros n1. apply rres_same; intros _.
  apply rres_same; intros phi. apply rres_same; intros plcp. apply rres_same; intros lcp.
  apply (rres_bind (fun x y => Q (fst x) (fst y) /\ snd x = snd y)).
  - apply rres_for; [|split; [exact Q0|reflexivity]]. intros i (a, c) (b, d) _ (H & E). cbn [fst snd] in *. subst d. unfold context_step_a.
    apply rres_same. intros l. destruct ((0 <? c) && (l <? k)).
    + apply rres_same; intros _. apply rres_same; intros a1. apply rres_same; intros a2. apply (rres_bind Q); [apply context_param|]. intros x y Hxy. cbn [rres fst snd]. auto.
    + destruct (k <=? l); cbn [rres fst snd]; auto.
  - intros (a, c) (b, d) (H & E). cbn [fst snd] in *. subst d. apply rres_same; intros l1. apply rres_same; intros ll.
    apply (rres_bind Q); [|intros x y Hxy; cbn [rres]; auto].
    destruct ((k <=? ll) && (0 <? c)); [|exact H]. apply rres_same; intros a1. apply rres_same; intros a2. apply (rres_bind Q); [apply context_param|]. intros x y Hxy. cbn [rres]. auto.
Qed.
Lemma main_param sort is_file content p k : rres Q (entropy_main_a A sort is_file content p k) (entropy_main_a B sort is_file content p k).
Proof. unfold entropy_main_a. apply rres_same; intros t. destruct (k =? 0); [apply zero_param|apply kth_param]. Qed.
Lemma log_param it : Q (log_sum_a A it) (log_sum_a B it).
Proof. unfold log_sum_a. generalize (a_zero A) (a_zero B) Q0. induction it as [|x it IH]; intros a b H; [exact H|]. cbn [fold_left]. apply IH. auto. Qed.
Lemma kmer_param it1 it2 text k : rres (fun x y => Q (fst x) (fst y) /\ snd x = snd y) (entropy_via_kmer_counting_a A it1 it2 text k) (entropy_via_kmer_counting_a B it1 it2 text k).
Proof.
  unfold entropy_via_kmer_counting_a. apply rres_same; intros (rb, rest). apply rres_same; intros (((rb1, k1), k2), c). apply rres_same; intros k3.
  cbn [rres fst snd]. split; [|reflexivity]. apply Qdiv; [|apply Qof]. apply Qsub; apply log_param.
Qed.
Lemma kmer_main_param it1 it2 is_file content p k : rres (fun x y => Q (fst x) (fst y) /\ snd x = snd y)
  (entropy_kmer_main_a A it1 it2 is_file content p k) (entropy_kmer_main_a B it1 it2 is_file content p k).
Proof. unfold entropy_kmer_main_a. do 3 (apply rres_same; intros ?). apply kmer_param. Qed.
End PARAM.

(** ** the reals *)
Lemma zero_reals v : zero_order_entropy_a reals v = zero_order_entropy v.
Proof.
  apply rres_eq. unfold zero_order_entropy_a, zero_order_entropy. apply rres_same. intros (cc, total).
  apply (rres_bind (fun (x : option R) y => x = Some y)).
  - apply (rres_for (fun (x : option R) y => x = Some y)); [|reflexivity]. intros c a b _ ->. destruct (Nat.ltb_spec 0 c); cbn [rres]; auto.
    cbn [a_add a_mul a_div a_log2 a_of reals]. destruct (Req_EM_T (INR c) 0) as [E|E]; [|reflexivity].
    exfalso. apply (not_0_INR c); [lia|exact E].
  - intros a b ->. cbn [rres a_div a_of reals]. unfold f_div. destruct (Nat.eqb_spec total 0) as [->|N].
    + destruct (Req_EM_T (INR 0) 0) as [E|E]; [reflexivity|]. now contradict E.
    + destruct (Req_EM_T (INR total) 0) as [E|E]; [|reflexivity]. exfalso. now apply (not_0_INR total).
Qed.
Lemma div_reals x n : a_div reals x (a_of reals n) = f_div x n.
Proof.
  cbn [a_div a_of reals]. unfold f_div. destruct x as [x|]; [|reflexivity]. destruct (Nat.eqb_spec n 0) as [->|N].
  - destruct (Req_EM_T (INR 0) 0) as [E|E]; [reflexivity|]. now contradict E.
  - destruct (Req_EM_T (INR n) 0) as [E|E]; [|reflexivity]. exfalso. now apply (not_0_INR n).
Qed.
Lemma context_reals text sa k start len : compute_context_a reals text sa k start len = compute_context text sa k start len.
Proof.
  apply rres_eq. unfold compute_context_a, compute_context. apply rres_same. intros v. rewrite zero_reals. apply rres_same. intros h. reflexivity.
Qed.
Lemma kth_reals sort text k : kth_order_entropy_a reals sort text k = kth_order_entropy sort text k.
Proof.
  apply rres_eq. unfold kth_order_entropy_a, kth_order_entropy. apply rres_same; intros _. apply rres_same; intros n1. apply rres_same; intros _.
  apply rres_same; intros phi. apply rres_same; intros plcp. apply rres_same; intros lcp.
  apply (rres_bind eq).
  - apply (rres_for eq); [|reflexivity]. intros i (a, c) b _ <-. unfold context_step_a, context_step.
    apply rres_same. intros l. destruct ((0 <? c) && (l <? k)).
    + apply rres_same; intros _. apply rres_same; intros a1. apply rres_same; intros a2. rewrite context_reals. apply rres_same; intros x. reflexivity.
    + destruct (k <=? l); reflexivity.
  - intros (a, c) b <-. apply rres_same; intros l1. apply rres_same; intros ll. apply (rres_bind eq).
    + destruct ((k <=? ll) && (0 <? c)); [|reflexivity]. apply rres_same; intros a1. apply rres_same; intros a2. rewrite context_reals. apply rres_same; intros x. reflexivity.
    + intros x y <-. rewrite div_reals. reflexivity.
Qed.
Lemma main_reals sort is_file content p k : entropy_main_a reals sort is_file content p k = entropy_main sort is_file content p k.
Proof. apply rres_eq. unfold entropy_main_a, entropy_main. apply rres_same; intros t. destruct (k =? 0); [rewrite zero_reals|rewrite kth_reals]; [destruct (zero_order_entropy _)|destruct (kth_order_entropy _ _ _)]; cbn [rres]; auto. Qed.
Lemma log_reals it : log_sum_a reals it = Some (log_sum it).
Proof. unfold log_sum_a, log_sum. cbn [a_zero reals]. generalize 0%R. induction it as [|x it IH]; intros r; [reflexivity|]. cbn [fold_left]. apply IH. Qed.
Lemma kmer_reals it1 it2 text k : entropy_via_kmer_counting_a reals it1 it2 text k = entropy_via_kmer_counting it1 it2 text k.
Proof.
  apply rres_eq. unfold entropy_via_kmer_counting_a, entropy_via_kmer_counting. apply rres_same; intros (rb, rest). apply rres_same; intros (((rb1, k1), k2), c). apply rres_same; intros k3.
  rewrite !log_reals, div_reals. reflexivity.
Qed.
Lemma kmer_main_reals it1 it2 is_file content p k : entropy_kmer_main_a reals it1 it2 is_file content p k = entropy_kmer_main it1 it2 is_file content p k.
Proof. apply rres_eq. unfold entropy_kmer_main_a, entropy_kmer_main. do 3 (apply rres_same; intros ?). rewrite kmer_reals. destruct (entropy_via_kmer_counting _ _ _ _); cbn [rres]; auto. Qed.
