(** Base.v : result monad, loops, array access, and general list facts.
    Nothing here models a particular function of the repository; these are the
    building blocks every model file uses. *)
From Coq Require Export List Arith Lia Bool.
From Coq Require Export Permutation Sorted.
Export ListNotations.
Open Scope nat_scope.

(** Outcome of running a piece of Rust: a value, a panic (index out of range,
    failed assert, checked-arithmetic overflow, unwrap on None/Err, panic!()),
    or "the fuel given to a modelled loop was too small" (never the meaning of
    a real execution; theorems always exclude it by stating [= Ok _] or [= Panic]). *)
Inductive res (A : Type) : Type :=
| Ok (a : A)
| Panic
| OutOfFuel.
Arguments Ok {A} a.
Arguments Panic {A}.
Arguments OutOfFuel {A}.

Definition bind {A B} (e : res A) (f : A -> res B) : res B :=
  match e with Ok a => f a | Panic => Panic | OutOfFuel => OutOfFuel end.
Notation "x <- e ;; f" := (bind e (fun x => f)) (at level 61, e at next level, right associativity).
Notation "' p <- e ;; f" := (bind e (fun x => let p := x in f))
  (at level 61, p pattern, e at next level, right associativity).
Notation "e ;;; f" := (bind e (fun _ => f)) (at level 61, right associativity).

(** [assert!(b)] *)
Definition assert_ (b : bool) : res unit := if b then Ok tt else Panic.
(** [v[i]] *)
Definition get {A} (l : list A) (i : nat) : res A :=
  match nth_error l i with Some x => Ok x | None => Panic end.
(** replace an element of a list (total helper) *)
Fixpoint upd {A} (l : list A) (i : nat) (v : A) : list A :=
  match l, i with
  | [], _ => []
  | _ :: l', O => v :: l'
  | x :: l', S i' => x :: upd l' i' v
  end.
(** [v[i] = x] *)
Definition set {A} (l : list A) (i : nat) (v : A) : res (list A) :=
  if i <? length l then Ok (upd l i v) else Panic.
(** [a - b] on an unsigned type with overflow checks *)
Definition sub_ (a b : nat) : res nat := if a <? b then Panic else Ok (a - b).
(** [a % b] *)
Definition mod_ (a b : nat) : res nat := if b =? 0 then Panic else Ok (a mod b).
(** [v.last().unwrap()] *)
Definition last_ {A} (l : list A) : res A :=
  match rev l with [] => Panic | x :: _ => Ok x end.

(** [for i in lo..hi { body }] with the mutable state threaded through *)
Fixpoint for_in {S I} (l : list I) (body : I -> S -> res S) (s : S) : res S :=
  match l with
  | [] => Ok s
  | i :: l' => s' <- body i s ;; for_in l' body s'
  end.
Definition range (lo hi : nat) : list nat := seq lo (hi - lo).

(** [for x in l { ... return v; ... }]: stop at the first iteration that returns *)
Fixpoint for_ret {I A} (l : list I) (body : I -> res (option A)) : res (option A) :=
  match l with
  | [] => Ok None
  | i :: l' => r <- body i ;; match r with Some a => Ok (Some a) | None => for_ret l' body end
  end.

(** [slice::sort_by] (std; documented to be a stable sort): stable insertion sort with a
    comparator that may panic *)
Fixpoint insert_by {A} (cmp : A -> A -> res comparison) (x : A) (l : list A) : res (list A) :=
  match l with
  | [] => Ok [x]
  | y :: l' => c <- cmp y x ;;
               match c with
               | Lt => r <- insert_by cmp x l' ;; Ok (y :: r)
               | _ => Ok (x :: l)
               end
  end.
Fixpoint sort_by {A} (cmp : A -> A -> res comparison) (l : list A) : res (list A) :=
  match l with
  | [] => Ok []
  | x :: l' => s <- sort_by cmp l' ;; insert_by cmp x s
  end.

(** [loop { ... }] / [while]: the body either continues with a new state or breaks *)
Inductive ctl (S B : Type) : Type := Cont (s : S) | Brk (b : B).
Arguments Cont {S B} s.
Arguments Brk {S B} b.
Fixpoint loop {S B} (fuel : nat) (body : S -> res (ctl S B)) (s : S) : res B :=
  match fuel with
  | O => OutOfFuel
  | S f => c <- body s ;;
           match c with Cont s' => loop f body s' | Brk b => Ok b end
  end.

(** Hoare-style: the computation returns normally with a value satisfying [P] *)
Definition okp {A} (r : res A) (P : A -> Prop) : Prop := exists a, r = Ok a /\ P a.

Lemma okp_ok {A} (a : A) (P : A -> Prop) : P a -> okp (Ok a) P.
Proof. intros H. exists a. auto. Qed.

Lemma okp_bind {A B} (e : res A) (f : A -> res B) (P : B -> Prop) :
  okp e (fun a => okp (f a) P) -> okp (bind e f) P.
Proof. intros (a & -> & H). exact H. Qed.

Lemma okp_imp {A} (r : res A) (P Q : A -> Prop) :
  okp r P -> (forall a, P a -> Q a) -> okp r Q.
Proof. intros (a & -> & H) HI. exists a. auto. Qed.

Lemma okp_get {A} (l : list A) i d (P : A -> Prop) :
  i < length l -> P (nth i l d) -> okp (get l i) P.
Proof.
  intros Hi HP. unfold get. exists (nth i l d).
  rewrite (nth_error_nth' l d Hi). auto.
Qed.

Lemma get_ok {A} (l : list A) i d : i < length l -> get l i = Ok (nth i l d).
Proof. intros Hi. unfold get. now rewrite (nth_error_nth' l d Hi). Qed.

Lemma get_panic {A} (l : list A) i : length l <= i -> get l i = Panic.
Proof. intros Hi. unfold get. now rewrite (proj2 (nth_error_None l i) Hi). Qed.

Lemma okp_sub (a b : nat) (P : nat -> Prop) : b <= a -> P (a - b) -> okp (sub_ a b) P.
Proof.
  intros H HP. unfold sub_. destruct (Nat.ltb_spec a b); [lia|]. exists (a - b). auto.
Qed.
Lemma sub_ok a b : b <= a -> sub_ a b = Ok (a - b).
Proof. intros H. unfold sub_. destruct (Nat.ltb_spec a b); [lia|]. auto. Qed.
Lemma sub_panic a b : a < b -> sub_ a b = Panic.
Proof. intros H. unfold sub_. destruct (Nat.ltb_spec a b); [auto|lia]. Qed.

Lemma okp_mod (a b : nat) (P : nat -> Prop) : 0 < b -> P (a mod b) -> okp (mod_ a b) P.
Proof.
  intros H HP. unfold mod_. destruct (Nat.eqb_spec b 0); [lia|]. exists (a mod b). auto.
Qed.
Lemma mod_ok a b : 0 < b -> mod_ a b = Ok (a mod b).
Proof. intros H. unfold mod_. destruct (Nat.eqb_spec b 0); [lia|]. auto. Qed.

Lemma okp_assert (b : bool) (P : unit -> Prop) : b = true -> P tt -> okp (assert_ b) P.
Proof. intros -> H. exists tt. auto. Qed.

Lemma upd_length {A} (l : list A) i v : length (upd l i v) = length l.
Proof. revert i; induction l as [|x l IH]; intros [|i]; simpl; auto. Qed.

Lemma nth_upd_eq {A} (l : list A) i v d : i < length l -> nth i (upd l i v) d = v.
Proof.
  revert i; induction l as [|x l IH]; intros [|i] H; simpl in *; try lia; auto.
  apply IH. lia.
Qed.
Lemma nth_upd_ne {A} (l : list A) i j v d : i <> j -> nth j (upd l i v) d = nth j l d.
Proof.
  revert i j; induction l as [|x l IH]; intros [|i] [|j] H; simpl; try lia; auto.
Qed.

Lemma okp_set {A} (l : list A) i v (P : list A -> Prop) :
  i < length l -> P (upd l i v) -> okp (set l i v) P.
Proof.
  intros Hi HP. unfold set. destruct (Nat.ltb_spec i (length l)); [|lia].
  exists (upd l i v). auto.
Qed.
Lemma set_ok {A} (l : list A) i v : i < length l -> set l i v = Ok (upd l i v).
Proof. intros Hi. unfold set. destruct (Nat.ltb_spec i (length l)); [auto|lia]. Qed.
Lemma set_panic {A} (l : list A) i v : length l <= i -> set l i v = Panic.
Proof. intros Hi. unfold set. destruct (Nat.ltb_spec i (length l)); [lia|auto]. Qed.

(** loop rule: invariant and decreasing measure *)
Lemma okp_loop {S B} (Inv : S -> Prop) (m : S -> nat) (body : S -> res (ctl S B)) (P : B -> Prop) :
  (forall s, Inv s -> okp (body s) (fun c => match c with
      | Cont s' => Inv s' /\ m s' < m s
      | Brk b => P b end)) ->
  forall fuel s, Inv s -> m s < fuel -> okp (loop fuel body s) P.
Proof.
  intros Hbody fuel. induction fuel as [|f IH]; intros s HI Hm; [lia|].
  destruct (Hbody s HI) as (c & Hc & HP). simpl. rewrite Hc. simpl.
  destruct c as [s'|b].
  - destruct HP as [HI' Hm']. apply IH; [exact HI'|lia].
  - apply okp_ok. exact HP.
Qed.

(** for rule over a range starting at [lo] with [n] iterations *)
Lemma okp_for_seq {S} (Inv : nat -> S -> Prop) (body : nat -> S -> res S) lo n s :
  Inv lo s ->
  (forall i s, lo <= i < lo + n -> Inv i s -> okp (body i s) (Inv (Datatypes.S i))) ->
  okp (for_in (seq lo n) body s) (Inv (lo + n)).
Proof.
  revert lo s. induction n as [|n IH]; intros lo s H0 Hb; simpl.
  - apply okp_ok. now rewrite Nat.add_0_r.
  - destruct (Hb lo s ltac:(lia) H0) as (s' & Hs' & HI). rewrite Hs'. simpl.
    replace (lo + Datatypes.S n) with (Datatypes.S lo + n) by lia.
    apply IH; [exact HI|]. intros i t Hi. apply Hb. lia.
Qed.

Lemma okp_for_range {S} (Inv : nat -> S -> Prop) (body : nat -> S -> res S) lo hi s :
  lo <= hi ->
  Inv lo s ->
  (forall i s, lo <= i < hi -> Inv i s -> okp (body i s) (Inv (Datatypes.S i))) ->
  okp (for_in (range lo hi) body s) (Inv hi).
Proof.
  intros Hle H0 Hb. unfold range. replace hi with (lo + (hi - lo)) at 2 by lia.
  apply okp_for_seq; [exact H0|]. intros i t Hi. apply Hb. lia.
Qed.

(** for rule over an arbitrary list, invariant indexed by the processed prefix *)
Lemma okp_for_list {S I} (Inv : list I -> S -> Prop) (body : I -> S -> res S) l s :
  Inv [] s ->
  (forall p i q s, l = p ++ i :: q -> Inv p s -> okp (body i s) (Inv (p ++ [i]))) ->
  okp (for_in l body s) (Inv l).
Proof.
  intros H0 Hb.
  assert (G : forall q p s, l = p ++ q -> Inv p s -> okp (for_in q body s) (Inv l)).
  { induction q as [|i q IH]; intros p t Hl HI; simpl.
    - apply okp_ok. rewrite Hl, app_nil_r. exact HI.
    - destruct (Hb p i q t Hl HI) as (s' & Hs' & HI'). rewrite Hs'. simpl.
      apply (IH (p ++ [i])); [|exact HI']. rewrite <- app_assoc. exact Hl. }
  apply (G l [] s); auto.
Qed.

Lemma for_in_app {S I} (l1 l2 : list I) (body : I -> S -> res S) s :
  for_in (l1 ++ l2) body s = (s' <- for_in l1 body s ;; for_in l2 body s').
Proof.
  revert s. induction l1 as [|i l1 IH]; intros s; simpl; auto.
  destruct (body i s); simpl; auto.
Qed.

(** list facts *)
Lemma nth_ext_len {A} (l l' : list A) d :
  length l = length l' -> (forall i, i < length l -> nth i l d = nth i l' d) -> l = l'.
Proof. intros Hl H. apply (nth_ext l l' d d Hl). exact H. Qed.

Lemma nth_skipn {A} (l : list A) k i d : nth i (skipn k l) d = nth (k + i) l d.
Proof.
  revert k; induction l as [|x l IH]; intros [|k]; simpl; auto.
  destruct i; auto.
Qed.
Lemma nth_firstn {A} (l : list A) k i d : i < k -> nth i (firstn k l) d = nth i l d.
Proof.
  revert k i; induction l as [|x l IH]; intros [|k] [|i] H; simpl; try lia; auto.
  apply IH. lia.
Qed.

Lemma last_nth {A} (l : list A) d : last l d = nth (length l - 1) l d.
Proof.
  induction l as [|x l IH]; auto. destruct l as [|y l]; auto.
  change (last (x :: y :: l) d) with (last (y :: l) d). rewrite IH. simpl.
  now rewrite Nat.sub_0_r.
Qed.

Lemma skipn_cons_nth {A} (l : list A) k d :
  k < length l -> skipn k l = nth k l d :: skipn (S k) l.
Proof.
  revert k; induction l as [|x l IH]; intros [|k] H; simpl in *; try lia; auto.
  apply IH. lia.
Qed.

Lemma firstn_snoc_nth {A} (l : list A) k d :
  k < length l -> firstn (S k) l = firstn k l ++ [nth k l d].
Proof.
  revert k; induction l as [|x l IH]; intros [|k] H; simpl in *; try lia; auto.
  f_equal. apply IH. lia.
Qed.

Lemma nth_seq0 n i d : i < n -> nth i (seq 0 n) d = i.
Proof. intros H. now rewrite seq_nth by lia. Qed.

Lemma nth_map {A B} (f : A -> B) l i d d' : i < length l -> nth i (map f l) d' = f (nth i l d).
Proof.
  intros H. rewrite (nth_indep (map f l) d' (f d)); [apply map_nth|]. now rewrite map_length.
Qed.

Lemma skipn_skipn {A} (x y : nat) (l : list A) : skipn x (skipn y l) = skipn (y + x) l.
Proof.
  revert l; induction y as [|y IH]; intros l; simpl; auto.
  destruct l; [now rewrite skipn_nil|apply IH].
Qed.

(** the results of k successive calls of an iterator's [next] *)
Fixpoint calls {G A} (next : G -> res (option A * G)) (k : nat) (g : G) : res (list (option A)) :=
  match k with
  | O => Ok []
  | S k' => '(o, g') <- next g ;; r <- calls next k' g' ;; Ok (o :: r)
  end.
(** what k calls return when the iterator yields exactly the elements of L and then None forever *)
Definition yields {A} (L : list A) (k : nat) : list (option A) :=
  firstn k (map Some L) ++ repeat None (k - length L).
