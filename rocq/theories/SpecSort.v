(** SpecSort.v : what a correct sorting procedure is (no model functions). The comparator may panic; nothing is required of
    the procedure if the comparator is not a total preorder on the elements to be sorted. *)
From Verif Require Import Base.

Definition total_preorder {A} (D : A -> Prop) (c : A -> A -> comparison) : Prop :=
  (forall a b, D a -> D b -> c b a = CompOpp (c a b)) /\
  (forall a b d, D a -> D b -> D d -> c a b <> Gt -> c b d <> Gt -> c a d <> Gt).
(** the comparator computes c on D *)
Definition computes {A} (cmp : A -> A -> res comparison) (D : A -> Prop) (c : A -> A -> comparison) : Prop :=
  forall a b, D a -> D b -> cmp a b = Ok (c a b).
(** some correct sorting procedure, stable or not *)
Definition sorter {A} (sort : (A -> A -> res comparison) -> list A -> res (list A)) : Prop :=
  forall cmp D c l, computes cmp D c -> total_preorder D c -> Forall D l ->
    exists s, sort cmp l = Ok s /\ Permutation s l /\ StronglySorted (fun a b => c a b <> Gt) s.
(** stable: elements that compare equal stay in the same order *)
Definition same {A} (c : A -> A -> comparison) (x y : A) : bool := match c x y with Eq => true | _ => false end.
Definition stable_sorter {A} (sort : (A -> A -> res comparison) -> list A -> res (list A)) : Prop :=
  forall cmp D c l, computes cmp D c -> total_preorder D c -> Forall D l ->
    exists s, sort cmp l = Ok s /\ Permutation s l /\ StronglySorted (fun a b => c a b <> Gt) s /\
      forall x, D x -> filter (same c x) s = filter (same c x) l.
