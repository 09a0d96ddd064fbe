(** AttrProof.v : lcp_intervals and is_attractor. *)
From Verif Require Import Base SpecStr LexFacts ModelCore PermFacts SortFacts LcpProof ModelLz SpecLz LzProof MusProof
  ModelAttr SpecAttr.

Definition nd0 := Node 0 0 0.
Definition D (nodes : list node) x := nd_depth (nth x nodes nd0).
Definition B (nodes : list node) x := nd_begin (nth x nodes nd0).
Definition E (nodes : list node) x := nd_end (nth x nodes nd0).

(** c directly above p on the path (top first) *)
Definition adj (path : list nat) (p c : nat) : Prop := exists l1 l2, path = l1 ++ c :: p :: l2.

Lemma adj_cons x y r p c : adj (x :: y :: r) p c <-> (p = y /\ c = x) \/ adj (y :: r) p c.
Proof.
  split.
  - intros (l1 & l2 & Eq). destruct l1 as [|z l1]; simpl in Eq.
    + injection Eq as -> -> _. auto.
    + injection Eq as -> Eq. right. exists l1, l2. exact Eq.
  - intros [(-> & ->)|(l1 & l2 & Eq)].
    + exists [], r. reflexivity.
    + exists (x :: l1), l2. simpl. now rewrite Eq.
Qed.
Lemma adj_one x p c : ~ adj [x] p c.
Proof. intros (l1 & l2 & Eq). destruct l1 as [|? [|? ?]]; discriminate. Qed.
Lemma adj_in path p c : adj path p c -> In p path /\ In c path.
Proof. intros (l1 & l2 & ->). rewrite !in_app_iff. simpl. auto. Qed.

Lemma okp_val {A} (r : res A) (P : A -> Prop) : okp r P -> exists a, r = Ok a /\ P a.
Proof. auto. Qed.

Section Tree.
Context (t : str) (sa lcp : list nat) (n : nat).
Context (Hn : 1 <= n) (Lt : length t = n) (Lsa : length sa = n) (Llcp : length lcp = n)
  (Hsa : forall k, k < n -> nth k sa 0 < n) (Hsa0 : nth 0 sa 0 = n - 1).
Let ld k := n - 1 - nth k sa 0.
Context (Hlcp1 : forall k, 0 < k < n -> nth k lcp 0 < ld k)
  (Hlcp2 : forall k, 0 < k < n -> nth k lcp 0 <= ld (k - 1)).

Definition pairok (nodes : list node) (hi p c : nat) : Prop :=
  p < length nodes /\ c < length nodes /\ D nodes p < D nodes c /\ 0 < B nodes c < hi /\ hi <= n /\
  nth (B nodes c) lcp 0 = D nodes p /\ (forall k, B nodes c < k < hi -> D nodes c <= nth k lcp 0) /\
  nth (B nodes c) sa 0 + D nodes c < n.
Definition pairle (nodes : list node) (hi p c : nat) : Prop :=
  p < length nodes /\ c < length nodes /\ D nodes p < D nodes c /\ 0 < B nodes c < hi /\ hi <= n /\
  nth (B nodes c) lcp 0 <= D nodes p /\ (forall k, B nodes c < k < hi -> D nodes c <= nth k lcp 0) /\
  nth (B nodes c) sa 0 + D nodes c < n.
(** the depth of the parent is the lcp value at one of the two ends *)
Definition edgeok (nodes : list node) (p c : nat) : Prop :=
  pairle nodes (S (E nodes c)) p c /\ (S (E nodes c) < n -> nth (S (E nodes c)) lcp 0 <= D nodes p) /\
  (nth (B nodes c) lcp 0 = D nodes p \/ (S (E nodes c) < n /\ nth (S (E nodes c)) lcp 0 = D nodes p)).
Lemma pairok_le nodes hi p c : pairok nodes hi p c -> pairle nodes hi p c.
Proof. intros (H1 & H2 & H3 & H4 & H5 & H6 & H7 & H8). unfold pairle. repeat split; auto; lia. Qed.
Lemma pairok_eq nodes hi p c : pairok nodes hi p c -> nth (B nodes c) lcp 0 = D nodes p.
Proof. intros (H1 & H2 & H3 & H4 & H5 & H6 & H7). exact H6. Qed.

Definition ext (nodes nodes' : list node) : Prop :=
  length nodes <= length nodes' /\
  forall x, x < length nodes -> D nodes' x = D nodes x /\ B nodes' x = B nodes x.

Lemma pairok_ext nodes nodes' hi p c : ext nodes nodes' -> pairok nodes hi p c -> pairok nodes' hi p c.
Proof.
  intros (HL & HE) (H1 & H2 & H3 & H4 & H5 & H6 & H7 & H8). unfold pairok.
  destruct (HE p H1) as (-> & _), (HE c H2) as (-> & ->). repeat split; auto; lia.
Qed.
Lemma pairle_ext nodes nodes' hi p c : ext nodes nodes' -> pairle nodes hi p c -> pairle nodes' hi p c.
Proof.
  intros (HL & HE) (H1 & H2 & H3 & H4 & H5 & H6 & H7 & H8). unfold pairle.
  destruct (HE p H1) as (-> & _), (HE c H2) as (-> & ->). repeat split; auto; lia.
Qed.
Lemma edgeok_ext nodes nodes' p c : ext nodes nodes' -> E nodes' c = E nodes c -> edgeok nodes p c -> edgeok nodes' p c.
Proof.
  intros HX He (H1 & H2 & H3). unfold edgeok. rewrite He. split; [now apply (pairle_ext nodes)|].
  destruct H1 as (Hp & Hc & _). destruct HX as (_ & HX). destruct (HX p Hp) as (-> & _), (HX c Hc) as (_ & ->). auto.
Qed.
Lemma ext_snoc nodes x : ext nodes (nodes ++ [x]).
Proof.
  split; [rewrite app_length; lia|]. intros y Hy. unfold D, B. rewrite app_nth1 by auto. auto.
Qed.
Lemma ext_trans a b c : ext a b -> ext b c -> ext a c.
Proof.
  intros (H1 & H2) (H3 & H4). split; [lia|]. intros x Hx.
  destruct (H2 x Hx) as (<- & <-). apply H4. lia.
Qed.

Lemma set_end_ok nodes x e : x < length nodes -> exists nodes', set_end nodes x e = Ok nodes' /\
  length nodes' = length nodes /\ ext nodes nodes' /\ E nodes' x = e /\ (forall y, y <> x -> E nodes' y = E nodes y).
Proof.
  intros Hx. unfold set_end. rewrite (get_ok nodes x nd0 Hx). cbn [bind]. rewrite set_ok by auto.
  eexists. split; [reflexivity|]. split; [apply upd_length|]. split; [|split].
  - split; [rewrite upd_length; lia|]. intros y Hy. unfold D, B. destruct (Nat.eq_dec y x) as [->|Ne].
    + rewrite nth_upd_eq by auto. auto.
    + rewrite nth_upd_ne by auto. auto.
  - unfold E. now rewrite nth_upd_eq.
  - intros y Hy. unfold E. now rewrite nth_upd_ne by auto.
Qed.

(** invariant on nodes, path and edges; [i]: ranks < i are processed *)
Record base_inv (i : nat) (nodes : list node) (path : list nat) (edges : list (nat * nat)) : Prop := {
  bi_bot : exists pre, path = pre ++ [1; 0];
  bi_nodup : NoDup path;
  bi_lt : forall x, In x path -> x < length nodes;
  bi_root : D nodes 0 = 0 /\ B nodes 0 = 0 /\ D nodes 1 = 0 /\ B nodes 1 = 0;
  bi_edges : forall p c, In (p, c) edges -> edgeok nodes p c /\ ~ In c path /\ E nodes c < i;
  bi_nodes : forall x, x < length nodes ->
     B nodes x < n /\ nth (B nodes x) sa 0 + D nodes x < n /\ (In x path \/ E nodes x < n) }.
Definition path_inv (hi : nat) (nodes : list node) (path : list nat) : Prop :=
  forall p c, adj path p c -> (p = 0 /\ c = 1) \/ pairok nodes hi p c.
Definition by_edges (nodes : list node) (edges : list (nat * nat)) (k l : nat) : Prop :=
  exists p c, In (p, c) edges /\ B nodes c <= k <= E nodes c /\ D nodes p < l <= D nodes c.
Definition by_path (nodes : list node) (path : list nat) (k l : nat) : Prop :=
  exists p c, adj path p c /\ B nodes c <= k /\ D nodes p < l <= D nodes c.

Lemma path_depths hi nodes path : path_inv hi nodes path -> D nodes 0 = 0 -> D nodes 1 = 0 ->
  forall y r, path = y :: r -> forall p c, adj path p c -> D nodes c <= D nodes y.
Proof.
  intros HP H0 H1. induction path as [|z path IH]; intros y r Eq p c HA; [discriminate|].
  injection Eq as -> ->. destruct r as [|y' r]; [now apply adj_one in HA|].
  apply adj_cons in HA. destruct HA as [(-> & ->)|HA]; [lia|].
  assert (HP' : path_inv hi nodes (y' :: r)) by (intros p' c' HA'; apply HP, adj_cons; auto).
  specialize (IH HP' y' r eq_refl p c HA).
  destruct (HP y' y) as [(-> & ->)|HK]; [apply adj_cons; auto|lia|]. destruct HK as (_ & _ & HK & _). lia.
Qed.
Lemma path_find hi nodes path : path_inv hi nodes path -> D nodes 0 = 0 -> D nodes 1 = 0 ->
  (exists pre, path = pre ++ [1; 0]) ->
  forall y r, path = y :: r -> forall l, 0 < l <= D nodes y ->
  exists p c, adj path p c /\ B nodes c < hi /\ D nodes p < l <= D nodes c.
Proof.
  intros HP H0 H1. induction path as [|z path IH]; intros (pre & Hpre) y r Eq l Hl; [discriminate|].
  injection Eq as -> ->. destruct pre as [|z pre].
  - simpl in Hpre. injection Hpre as -> ->. lia.
  - simpl in Hpre. injection Hpre as <- Hpre. destruct r as [|y' r]; [destruct pre; discriminate|].
    assert (HP' : path_inv hi nodes (y' :: r)) by (intros p' c' HA'; apply HP, adj_cons; auto).
    destruct (Nat.le_gt_cases l (D nodes y')) as [C|C].
    + destruct (IH HP' (ex_intro _ pre Hpre) y' r eq_refl l ltac:(lia)) as (p & c & HA & R).
      exists p, c. split; [apply adj_cons; auto|auto].
    + exists y', y. split; [apply adj_cons; auto|]. split; [|lia].
      destruct (HP y' y) as [(-> & ->)|HK]; [apply adj_cons; auto|lia|]. destruct HK as (_ & _ & _ & HK & _). lia.
Qed.

Lemma label_ok nodes c d : c < length nodes -> B nodes c < n -> nth (B nodes c) sa 0 + d < n ->
  exists x, edge_label t sa nodes c d = Ok x.
Proof.
  intros H1 H2 H3. unfold edge_label. rewrite (get_ok nodes c nd0 H1). cbn [bind].
  change (nd_begin (nth c nodes nd0)) with (B nodes c). rewrite (get_ok sa _ 0) by lia. cbn [bind].
  rewrite (get_ok t _ 0) by lia. eauto.
Qed.

(** coverage during the pop loop *)
Definition cover (nodes : list node) (path : list nat) (edges : list (nat * nat)) (child : option nat) (k l : nat) : Prop :=
  by_edges nodes edges k l \/ by_path nodes path k l \/
  exists c y r, child = Some c /\ path = y :: r /\ B nodes c <= k /\ D nodes y < l <= D nodes c.
Definition child_ok (i : nat) (nodes : list node) (path : list nat) (c : nat) : Prop :=
  E nodes c = i - 1 /\ ~ In c path /\ nth i lcp 0 < D nodes c /\
  exists y r, path = y :: r /\ pairok nodes i y c.

Lemma by_edges_ext nodes nodes' edges edges' k l : ext nodes nodes' ->
  (forall p c, In (p, c) edges -> p < length nodes /\ c < length nodes /\ E nodes' c = E nodes c) ->
  incl edges edges' -> by_edges nodes edges k l -> by_edges nodes' edges' k l.
Proof.
  intros (_ & HX) HE HI (p & c & Hin & H1 & H2). exists p, c. split; [auto|].
  destruct (HE p c Hin) as (Hp & Hc & ->). destruct (HX p Hp) as (-> & _), (HX c Hc) as (-> & ->). auto.
Qed.
Lemma by_path_ext nodes nodes' path k l : ext nodes nodes' -> (forall x, In x path -> x < length nodes) ->
  by_path nodes path k l -> by_path nodes' path k l.
Proof.
  intros (_ & HX) HE (p & c & HA & H1 & H2). exists p, c. split; [auto|].
  destruct (adj_in _ _ _ HA) as (Ip & Ic).
  destruct (HX p (HE p Ip)) as (-> & _), (HX c (HE c Ic)) as (-> & ->). auto.
Qed.

Definition pop_inv (i : nat) (path0 : list nat) (st : list node * list nat * list (nat * nat) * option nat) : Prop :=
  let '(nodes, path, edges, child) := st in
  base_inv i nodes path edges /\ path_inv i nodes path /\
  match child with
  | None => path = path0 /\ exists y r, path = y :: r /\ D nodes y = ld (i - 1)
  | Some c => child_ok i nodes path c
  end /\
  (forall k l, 0 < k < i -> 0 < l <= ld k -> cover nodes path edges child k l).

Lemma pop_loop_ok i nodes1 path1 edges1 : 0 < i < n ->
  base_inv i nodes1 path1 edges1 -> path_inv i nodes1 path1 ->
  (exists y r, path1 = y :: r /\ D nodes1 y = ld (i - 1)) ->
  (forall k l, 0 < k < i -> 0 < l <= ld k -> cover nodes1 path1 edges1 None k l) ->
  okp (pop_loop t sa lcp i nodes1 path1 edges1) (fun '(nodes', path', edges', child) =>
    pop_inv i path1 (nodes', path', edges', child) /\
    exists y r, path' = y :: r /\ D nodes' y <= nth i lcp 0).
Proof.
  intros Hi HB HP Htop Hcov. unfold pop_loop.
  apply (okp_loop (pop_inv i path1) (fun '(_, path, _, _) => length path)).
  2: { split; [exact HB|]. split; [exact HP|]. split; [|exact Hcov]. split; [reflexivity|exact Htop]. }
  2: { lia. }
  clear HB HP Htop Hcov.
  assert (G : forall path0 nodes path edges child, pop_inv i path0 (nodes, path, edges, child) ->
    okp (match path with
    | [] => Panic
    | x :: path' =>
        l <- get lcp i ;;
        nd <- get nodes x ;;
        if l <? nd_depth nd then
          nodes' <- set_end nodes x (i - 1) ;;
          edges' <- match child with
                    | Some c => edge_label t sa nodes' c (nd_depth nd) ;;; Ok (edges ++ [(x, c)])
                    | None => Ok edges
                    end ;;
          Ok (Cont (nodes', path', edges', Some x))
        else Ok (Brk (nodes, path, edges, child))
    end) (fun c => match c with
      | Cont s' => pop_inv i path0 s' /\ length (snd (fst (fst s'))) < length path
      | Brk (nodes', path', edges', child) => pop_inv i path0 (nodes', path', edges', child) /\
         exists y r, path' = y :: r /\ D nodes' y <= nth i lcp 0
      end)).
  { intros path0 nodes path edges child HI. pose proof HI as (HB & HP & Hch & Hcov).
    destruct HB as [(pre & Hbot) Hnd Hlt (R0 & R1 & R2 & R3) Hed Hno].
    destruct path as [|x path'] eqn:Ep; [destruct pre; discriminate|].
    apply okp_bind, (okp_get _ _ 0); [lia|]. apply okp_bind, (okp_get _ _ nd0); [apply Hlt; simpl; auto|].
    change (nd_depth (nth x nodes nd0)) with (D nodes x).
    destruct (Nat.ltb_spec (nth i lcp 0) (D nodes x)) as [Cl|Cl].
    2: { apply okp_ok. split; [exact HI|]. eauto. }
    (* x is neither root nor leaf 0 *)
    destruct pre as [|z pre]; simpl in Hbot; injection Hbot as Ez Hbot; [subst x path'; lia|subst z].
    destruct path' as [|y r]; [destruct pre; discriminate|].
    assert (Hxy : pairok nodes i y x).
    { destruct (HP y x) as [(-> & ->)|K]; [apply adj_cons; auto|lia|exact K]. }
    destruct (set_end_ok nodes x (i - 1) (Hlt x ltac:(simpl; auto))) as (nodes' & E1 & L1 & X1 & Ex & Eo).
    rewrite E1. cbn [bind].
    assert (Hxn : ~ In x (y :: r)) by (inversion Hnd; auto).
    (* the new edge list *)
    assert (Hedge : okp (match child with
                    | Some c => edge_label t sa nodes' c (D nodes x) ;;; Ok (edges ++ [(x, c)])
                    | None => Ok edges
                    end) (fun edges' => incl edges edges' /\
        (forall p c, In (p, c) edges' -> edgeok nodes' p c /\ c <> x /\ ~ In c (y :: r) /\ E nodes' c < i) /\
        (match child with Some c => In (x, c) edges' | None => True end))).
    { assert (Hold : forall p c, In (p, c) edges -> edgeok nodes' p c /\ c <> x /\ ~ In c (y :: r) /\ E nodes' c < i).
      { intros p c Hin. destruct (Hed p c Hin) as (A1 & A2 & A3).
        assert (c <> x) by (intros ->; apply A2; simpl; auto).
        split; [apply (edgeok_ext nodes); auto|]. split; [auto|]. split; [simpl in *; tauto|]. rewrite Eo; auto. }
      destruct child as [c|].
      - destruct Hch as (C1 & C2 & C3 & y' & r' & Eq & C4). injection Eq as <- <-.
        assert (Hcx : c <> x) by (intros ->; apply C2; simpl; auto).
        pose proof C4 as (P1 & P2 & P3 & P4 & P5 & P6 & P7 & P8).
        destruct (proj2 X1 c P2) as (Dc & Bc).
        destruct (label_ok nodes' c (D nodes x)) as (lb & ->); [lia|rewrite Bc; lia|rewrite Bc; lia|]. cbn [bind].
        apply okp_ok. split; [apply incl_appl, incl_refl|]. split; [|apply in_or_app; simpl; auto].
        intros p c' Hin. apply in_app_or in Hin. destruct Hin as [Hin|[Eq|[]]]; [now apply Hold|].
        injection Eq as <- <-. split; [|split; [exact Hcx|split; [simpl in *; tauto|rewrite Eo by auto; lia]]].
        apply (edgeok_ext nodes); auto. unfold edgeok. rewrite C1. replace (S (i - 1)) with i by lia.
        split; [now apply pairok_le|]. split; [intros _; lia|left; now apply (pairok_eq nodes i)].
      - apply okp_ok. split; [apply incl_refl|]. auto. }
    destruct Hedge as (edges' & E2 & HI1 & HI2 & HI3). rewrite E2. cbn [bind]. apply okp_ok.
    split; [|simpl; lia]. unfold pop_inv.
    assert (Hpre : path_inv i nodes' (y :: r)).
    { intros p c HA. destruct (HP p c) as [K|K]; [apply adj_cons; auto|auto|]. right. now apply (pairok_ext nodes). }
    split; [|split; [exact Hpre|split]].
    - constructor.
      + exists pre. exact Hbot.
      + now inversion Hnd.
      + intros z Hz. rewrite L1. apply Hlt. simpl in *; auto.
      + destruct X1 as (_ & X1). assert (Z0 : In 0 (y :: r)) by (rewrite Hbot; apply in_or_app; simpl; auto).
        assert (Z1 : In 1 (y :: r)) by (rewrite Hbot; apply in_or_app; simpl; auto).
        destruct (X1 0) as (-> & ->); [apply Hlt; simpl in *; auto|].
        destruct (X1 1) as (-> & ->); [apply Hlt; simpl in *; auto|]. auto.
      + intros p c Hin. destruct (HI2 p c Hin) as (A & _ & A2 & A3). auto.
      + intros z Hz. rewrite L1 in Hz. destruct (Hno z Hz) as (N1 & N2 & N3). destruct (proj2 X1 z Hz) as (-> & ->).
        split; [auto|]. split; [auto|]. destruct (Nat.eq_dec z x) as [->|Nz].
        * right. rewrite Ex. lia.
        * destruct N3 as [[|N3]|N3]; [congruence|auto|]. right. rewrite Eo; auto.
    - split; [exact Ex|]. split; [exact Hxn|].
      destruct (proj2 X1 x (Hlt x ltac:(simpl; auto))) as (-> & _). split; [exact Cl|].
      exists y, r. split; [reflexivity|]. now apply (pairok_ext nodes).
    - intros k l Hk Hl. destruct (Hcov k l Hk Hl) as [Q|[Q|Q]].
      + left. apply (by_edges_ext nodes _ edges); auto. intros p c Hin.
        destruct (Hed p c Hin) as ((PP & _) & A2 & _). destruct PP as (P1 & P2 & _).
        split; [auto|]. split; [auto|]. apply Eo. intros ->. apply A2. simpl; auto.
      + destruct Q as (p & c & HA & Q1 & Q2). apply adj_cons in HA. destruct HA as [(-> & ->)|HA].
        * right. right. exists x, y, r. split; [auto|]. split; [auto|].
          destruct Hxy as (P1 & P2 & _). destruct (proj2 X1 x P2) as (-> & ->), (proj2 X1 y P1) as (-> & _). auto.
        * right. left. apply (by_path_ext nodes); auto; [intros z Hz; apply Hlt; simpl in *; auto|].
          exists p, c. auto.
      + destruct Q as (c & y' & r' & -> & Eq & Q1 & Q2). injection Eq as <- <-.
        destruct Hch as (C1 & C2 & C3 & y' & r' & Eq & C4). injection Eq as <- <-.
        left. exists x, c. split; [exact HI3|].
        assert (Hcx : c <> x) by (intros ->; apply C2; simpl; auto). rewrite Eo by auto. rewrite C1.
        destruct C4 as (P1 & P2 & _). destruct (proj2 X1 c P2) as (-> & ->), (proj2 X1 x P1) as (-> & _).
        split; [lia|auto]. }
  intros (((nodes, path), edges), child) HI. eapply okp_imp; [exact (G path1 nodes path edges child HI)|].
  intros [[[[? ?] ?] ?]|[[[? ?] ?] ?]] H; exact H.
Qed.

Definition step_inv (i : nat) (st : list node * list nat * list (nat * nat)) : Prop :=
  let '(nodes, path, edges) := st in
  base_inv i nodes path edges /\ path_inv i nodes path /\
  (exists y r, path = y :: r /\ D nodes y = ld (i - 1)) /\
  (forall k l, 0 < k < i -> 0 < l <= ld k -> by_edges nodes edges k l \/ by_path nodes path k l).

(** pushing the leaf of rank i *)
Lemma leaf_push i nodes path edges : 0 < i < n ->
  base_inv i nodes path edges -> path_inv (S i) nodes path ->
  (exists y r, path = y :: r /\ D nodes y = nth i lcp 0) ->
  (forall k l, 0 < k < i -> 0 < l <= ld k -> by_edges nodes edges k l \/ by_path nodes path k l) ->
  step_inv (S i) (nodes ++ [Node (ld i) i i], length nodes :: path, edges).
Proof.
  intros Hi [(pre & Hbot) Hnd Hlt (R0 & R1 & R2 & R3) Hed Hno] HP (y & r & Ep & Ey) Hcov.
  set (nodes' := nodes ++ [Node (ld i) i i]). set (x := length nodes).
  pose proof (ext_snoc nodes (Node (ld i) i i)) as X. fold nodes' in X.
  assert (Ln : length nodes' = S (length nodes)) by (unfold nodes'; rewrite app_length; simpl; lia).
  assert (Ho : forall z, z < length nodes -> E nodes' z = E nodes z).
  { intros z Hz. unfold E, nodes'. now rewrite app_nth1. }
  assert (Dx : D nodes' x = ld i /\ B nodes' x = i /\ E nodes' x = i).
  { unfold D, B, E, nodes', x. rewrite app_nth2, Nat.sub_diag by lia. auto. }
  destruct Dx as (Dx & Bx & Ex).
  assert (I01 : In 0 path /\ In 1 path) by (rewrite Hbot; rewrite !in_app_iff; simpl; auto).
  assert (Hxn : ~ In x path) by (intros Hin; apply Hlt in Hin; unfold x in Hin; lia).
  assert (Hy : y < length nodes) by (apply Hlt; rewrite Ep; simpl; auto).
  pose proof (Hsa i ltac:(lia)) as Hsai. pose proof (Hlcp1 i ltac:(lia)) as Hl1.
  assert (Hld : nth i sa 0 + ld i < n) by (unfold ld; lia).
  assert (Hpp : path_inv (S i) nodes' (x :: path)).
  { intros p c HA. rewrite Ep in HA. apply adj_cons in HA. destruct HA as [(-> & ->)|HA].
    - right. destruct (proj2 X y Hy) as (Dy & By). unfold pairok. rewrite Dx, Bx, Dy, Ey, Ln.
      unfold x. repeat split; try lia. 
    - rewrite <- Ep in HA. destruct (HP p c HA) as [K|K]; auto. right. now apply (pairok_ext nodes). }
  split; [|split; [exact Hpp|split]].
  - constructor.
    + exists (x :: pre). simpl. now rewrite Hbot.
    + constructor; auto.
    + intros z [<-|Hz]; [unfold x; lia|]. rewrite Ln. apply Hlt in Hz. lia.
    + destruct (proj2 X 0 (Hlt 0 (proj1 I01))) as (-> & ->). destruct (proj2 X 1 (Hlt 1 (proj2 I01))) as (-> & ->). auto.
    + intros p c Hin. destruct (Hed p c Hin) as (A1 & A2 & A3). pose proof A1 as ((P1 & P2 & _) & _).
      rewrite (Ho c P2). split; [apply (edgeok_ext nodes); auto|]. split; [|lia].
      intros [Eq|Hc]; [unfold x in Eq; lia|auto].
    + intros z Hz. rewrite Ln in Hz. destruct (Nat.eq_dec z x) as [->|Nz].
      * rewrite Bx, Dx. split; [lia|]. split; [lia|]. left. simpl. auto.
      * assert (Hz' : z < length nodes) by (unfold x in Nz; lia). destruct (Hno z Hz') as (N1 & N2 & N3).
        destruct (proj2 X z Hz') as (-> & ->). rewrite Ho by auto. split; [auto|]. split; [auto|]. simpl. tauto.
  - exists x, path. split; [reflexivity|]. rewrite Dx. do 2 f_equal. lia.
  - intros k l Hk Hl. destruct (Nat.eq_dec k i) as [->|Nk].
    + right. destruct (Nat.le_gt_cases l (D nodes y)) as [C|C].
      * destruct (path_find (S i) nodes path HP R0 R2 (ex_intro _ pre Hbot) y r Ep l ltac:(lia)) as (p & c & HA & HB & HD).
        destruct (adj_in _ _ _ HA) as (Ip & Ic). exists p, c. split; [rewrite Ep in *; apply adj_cons; auto|].
        destruct (proj2 X p (Hlt p Ip)) as (-> & _), (proj2 X c (Hlt c Ic)) as (-> & ->). split; [lia|auto].
      * exists y, x. split; [rewrite Ep; apply adj_cons; auto|]. rewrite Bx, Dx.
        destruct (proj2 X y Hy) as (-> & _). lia.
    + destruct (Hcov k l ltac:(lia) Hl) as [Q|Q].
      * left. apply (by_edges_ext nodes _ edges); auto; [|apply incl_refl]. intros p c Hin.
        destruct (Hed p c Hin) as (((P1 & P2 & _) & _) & _). auto.
      * right. apply (by_path_ext nodes nodes') in Q; auto. destruct Q as (p & c & HA & Q). exists p, c.
        split; [rewrite Ep in *; apply adj_cons; auto|exact Q].
Qed.

Lemma path_inv_up i nodes path y r : 0 < i < n -> path_inv i nodes path -> D nodes 0 = 0 -> D nodes 1 = 0 ->
  path = y :: r -> D nodes y <= nth i lcp 0 -> path_inv (S i) nodes path.
Proof.
  intros Hi HP H0 H1 Ep Hy p c HA. destruct (HP p c HA) as [K|K]; auto. right.
  pose proof (path_depths i nodes path HP H0 H1 y r Ep p c HA).
  destruct K as (K1 & K2 & K3 & K4 & K5 & K6 & K7 & K8). repeat split; auto; try lia.
  intros k Hk. destruct (Nat.eq_dec k i) as [->|]; [lia|apply K7; lia].
Qed.

Lemma interval_step_ok i st : 0 < i < n -> step_inv i st -> okp (interval_step t sa lcp i st) (step_inv (S i)).
Proof.
  intros Hi HS. destruct st as ((nodes0, path0), edges0). destruct HS as (HB0 & HP0 & Htop0 & Hcov0).
  unfold interval_step. apply okp_bind.
  eapply okp_imp; [apply (pop_loop_ok i nodes0 path0 edges0); auto|].
  { intros k l Hk Hl. destruct (Hcov0 k l Hk Hl) as [Q|Q]; [left|right; left]; auto. }
  intros (((nodes, path), edges), child) (HI & y & r & Ep & Ey).
  destruct HI as (HB & HP & Hch & Hcov).
  pose proof HB as [(pre & Hbot) Hnd Hlt (R0 & R1 & R2 & R3) Hed Hno].
  assert (Hy : y < length nodes) by (apply Hlt; rewrite Ep; simpl; auto).
  apply okp_bind, (okp_get _ _ 0); [lia|]. apply okp_bind, (okp_get _ _ 0); [rewrite Ep; simpl; lia|].
  replace (nth 0 path 0) with y by now rewrite Ep. apply okp_bind, (okp_get _ _ nd0); [exact Hy|].
  change (nd_depth (nth y nodes nd0)) with (D nodes y).
  pose proof (path_inv_up i nodes path y r Hi HP R0 R2 Ep Ey) as HPu.
  pose proof (Hsa i ltac:(lia)) as Hsai. rewrite Lt.
  (* the common end *)
  assert (Hleaf : forall nodes path edges, step_inv (S i) (nodes ++ [Node (ld i) i i], length nodes :: path, edges) ->
    okp (s <- get sa i ;; d <- sub_ n s ;; d <- sub_ d 1 ;; assert_ (s + d <? n) ;;;
         Ok (nodes ++ [Node d i i], length nodes :: path, edges)) (step_inv (S i))).
  { intros nodes' path' edges' HS. apply okp_bind, (okp_get _ _ 0); [lia|]. apply okp_bind, okp_sub; [lia|].
    apply okp_bind, okp_sub; [lia|]. apply okp_bind, okp_assert; [apply Nat.ltb_lt; lia|].
    apply okp_ok. replace (n - nth i sa 0 - 1) with (ld i) by (unfold ld; lia). exact HS. }
  destruct child as [c|].
  - destruct Hch as (C1 & C2 & C3 & y' & r' & Eq & C4). rewrite Ep in Eq. injection Eq as <- <-.
    pose proof C4 as (P1 & P2 & P3 & P4 & P5 & P6 & P7 & P8).
    destruct (Nat.ltb_spec (D nodes y) (nth i lcp 0)) as [Cl|Cl].
    + (* new internal node *)
      apply okp_bind. apply okp_bind, (okp_get _ _ nd0); [exact P2|].
      change (nd_begin (nth c nodes nd0)) with (B nodes c).
      apply okp_bind, (okp_get _ _ 0); [lia|]. apply okp_bind, okp_assert; [apply Nat.ltb_lt; lia|].
      apply okp_ok. set (q := length nodes). set (nd := Node (nth i lcp 0) (B nodes c) n). set (nodes' := nodes ++ [nd]).
      pose proof (ext_snoc nodes nd) as X. fold nodes' in X.
      assert (Ln : length nodes' = S (length nodes)) by (unfold nodes'; rewrite app_length; simpl; lia).
      assert (Ho : forall z, z < length nodes -> E nodes' z = E nodes z).
      { intros z Hz. unfold E, nodes'. now rewrite app_nth1. }
      assert (Dq : D nodes' q = nth i lcp 0 /\ B nodes' q = B nodes c).
      { unfold D, B at 1, nodes', q. rewrite app_nth2, Nat.sub_diag by lia. auto. }
      destruct Dq as (Dq & Bq). destruct (proj2 X c P2) as (Dc & Bc). destruct (proj2 X y Hy) as (Dy & By).
      apply okp_bind. cbn [get nth_error bind]. change (get nodes' q) with (get nodes' q).
      apply okp_bind, (okp_get _ _ nd0); [lia|]. fold (D nodes' q). rewrite Dq.
      destruct (label_ok nodes' c (nth i lcp 0)) as (lb & ->); [lia|rewrite Bc; lia|rewrite Bc; lia|]. cbn [bind].
      apply okp_ok. apply Hleaf.
      assert (I01 : In 0 path /\ In 1 path) by (rewrite Hbot; rewrite !in_app_iff; simpl; auto).
      assert (Hqn : ~ In q path) by (intros Hin; apply Hlt in Hin; unfold q in Hin; lia).
      assert (Hnew : edgeok nodes' q c).
      { unfold edgeok. rewrite Ho, C1 by auto. replace (S (i - 1)) with i by lia. unfold pairle. rewrite Dq, Dc, Bc, Ln.
        unfold q. repeat split; auto; try lia. }
      apply leaf_push; auto.
      * constructor.
        -- exists (q :: pre). simpl. now rewrite Hbot.
        -- constructor; auto.
        -- intros z [<-|Hz]; [unfold q; lia|]. rewrite Ln. apply Hlt in Hz. lia.
        -- destruct (proj2 X 0 (Hlt 0 (proj1 I01))) as (-> & ->). destruct (proj2 X 1 (Hlt 1 (proj2 I01))) as (-> & ->). auto.
        -- intros p c' Hin. apply in_app_or in Hin. destruct Hin as [Hin|[Eq|[]]].
           ++ destruct (Hed p c' Hin) as (A1 & A2 & A3). pose proof A1 as ((P1' & P2' & _) & _).
              rewrite (Ho c' P2'). split; [apply (edgeok_ext nodes); auto|]. split; [|lia].
              intros [Eq|Hc]; [unfold q in Eq; lia|auto].
           ++ injection Eq as <- <-. split; [exact Hnew|]. split; [|rewrite Ho; auto; lia].
              intros [Eq|Hc]; [unfold q in Eq; lia|auto].
        -- intros z Hz. rewrite Ln in Hz. destruct (Nat.eq_dec z q) as [->|Nz].
           ++ rewrite Bq, Dq. split; [lia|]. split; [lia|]. left. simpl. auto.
           ++ assert (Hz' : z < length nodes) by (unfold q in Nz; lia). destruct (Hno z Hz') as (N1 & N2 & N3).
              destruct (proj2 X z Hz') as (-> & ->). rewrite Ho by auto. split; [auto|]. split; [auto|]. simpl. tauto.
      * intros p c' HA. rewrite Ep in HA. apply adj_cons in HA. destruct HA as [(-> & ->)|HA].
        -- right. unfold pairok. rewrite Dq, Bq, Dy, Ln. unfold q. repeat split; try lia.
           intros k Hk. destruct (Nat.eq_dec k i) as [->|]; [lia|]. specialize (P7 k ltac:(lia)). lia.
        -- rewrite <- Ep in HA. destruct (HPu p c' HA) as [K|K]; auto. right. now apply (pairok_ext nodes).
      * exists q, path. auto.
      * intros k l Hk Hl. destruct (Hcov k l Hk Hl) as [Q|[Q|Q]].
        -- left. apply (by_edges_ext nodes _ edges); auto; [|apply incl_appl, incl_refl]. intros p c' Hin.
           destruct (Hed p c' Hin) as (((P1' & P2' & _) & _) & _). auto.
        -- right. apply (by_path_ext nodes nodes') in Q; auto. destruct Q as (p & c' & HA & Q). exists p, c'.
           split; [rewrite Ep in *; apply adj_cons; auto|exact Q].
        -- destruct Q as (c' & y' & r' & Eq & Ep' & Q1 & Q2). injection Eq as <-. rewrite Ep in Ep'. injection Ep' as <- <-.
           destruct (Nat.le_gt_cases l (nth i lcp 0)) as [Cm|Cm].
           ++ right. exists y, q. split; [rewrite Ep; apply adj_cons; auto|]. rewrite Bq, Dq, Dy. lia.
           ++ left. exists q, c. split; [apply in_or_app; simpl; auto|]. rewrite Bc, Dq, Dc, Ho, C1 by auto. lia.
    + apply okp_bind, okp_ok. apply okp_bind. rewrite Ep at 1. cbn [get nth_error bind].
      apply okp_bind, (okp_get _ _ nd0); [exact Hy|]. fold (D nodes y).
      destruct (label_ok nodes c (D nodes y)) as (lb & ->); [lia|lia|lia|]. cbn [bind]. apply okp_ok. apply Hleaf.
      assert (Hnew : edgeok nodes y c).
      { unfold edgeok. rewrite C1. replace (S (i - 1)) with i by lia. split; [now apply pairok_le|]. split; [intros _; lia|left; now apply (pairok_eq nodes i)]. }
      apply leaf_push; auto.
      * constructor; auto.
        -- exists pre. auto.
        -- intros p c' Hin. apply in_app_or in Hin. destruct Hin as [Hin|[Eq|[]]]; [now apply Hed|].
           injection Eq as <- <-. split; [exact Hnew|]. split; [auto|lia].
      * exists y, r. split; [auto|lia].
      * intros k l Hk Hl. destruct (Hcov k l Hk Hl) as [Q|[Q|Q]].
        -- left. apply (by_edges_ext nodes _ edges); auto; [|intros p c' Hin|apply incl_appl, incl_refl].
           ++ split; [lia|auto].
           ++ destruct (Hed p c' Hin) as (((P1' & P2' & _) & _) & _). auto.
        -- right. exact Q.
        -- destruct Q as (c' & y' & r' & Eq & Ep' & Q1 & Q2). injection Eq as <-. rewrite Ep in Ep'. injection Ep' as <- <-.
           left. exists y, c. split; [apply in_or_app; simpl; auto|]. rewrite C1. split; [lia|auto].
  - destruct Hch as (-> & y' & r' & Eq & Ed). rewrite Ep in Eq. injection Eq as <- <-.
    pose proof (Hlcp2 i ltac:(lia)).
    destruct (Nat.ltb_spec (D nodes y) (nth i lcp 0)) as [Cl|Cl]; [lia|].
    apply okp_bind, okp_ok. apply okp_bind, okp_ok. apply Hleaf.
    apply leaf_push; auto.
    + exists y, r. split; [auto|lia].
    + intros k l Hk Hl. destruct (Hcov k l Hk Hl) as [Q|[Q|Q]]; auto.
      destruct Q as (c' & y' & r' & Eq & _). discriminate.
Qed.

(** the nodes left at the end *)
Definition rest_inv (path : list nat) (nodes : list node) (edges : list (nat * nat)) (child : option nat) : Prop :=
  NoDup path /\ (forall x, In x path -> x < length nodes) /\ 2 <= length nodes /\
  (D nodes 0 = 0 /\ B nodes 0 = 0 /\ D nodes 1 = 0 /\ B nodes 1 = 0) /\ path_inv n nodes path /\
  (forall p c, In (p, c) edges -> ((p = 0 /\ c = 1 /\ E nodes 1 = n - 1) \/ edgeok nodes p c) /\ ~ In c path) /\
  (forall x, x < length nodes -> B nodes x < n /\ nth (B nodes x) sa 0 + D nodes x < n /\ (In x path \/ E nodes x < n)) /\
  match child with
  | Some c => ~ In c path /\ c < length nodes /\ E nodes c = n - 1 /\
      match path with [] => True | y :: _ => (y = 0 /\ c = 1) \/ pairok nodes n y c end
  | None => True
  end /\
  (forall k l, 0 < k < n -> 0 < l <= ld k -> cover nodes path edges child k l) /\
  (In (0, 1) edges \/ adj path 0 1 \/ (child = Some 1 /\ exists r, path = 0 :: r)).

Lemma pop_rest_loop path : forall nodes edges child, rest_inv path nodes edges child ->
  okp (for_in path (fun x '(nodes, edges, child) =>
     nodes <- set_end nodes x (n - 1) ;;
     nd <- get nodes x ;;
     edges <- match child with
              | Some c => edge_label t sa nodes c (nd_depth nd) ;;; Ok (edges ++ [(x, c)])
              | None => Ok edges
              end ;;
     Ok (nodes, edges, Some x)) (nodes, edges, child))
   (fun '(nodes, edges, child) => rest_inv [] nodes edges child).
Proof.
  induction path as [|x path IH]; intros nodes edges child HR; cbn [for_in].
  - apply okp_ok. exact HR.
  - destruct HR as (Hnd & Hlt & H2 & (R0 & R1 & R2 & R3) & HP & Hed & Hno & Hch & Hcov & Hroot).
    assert (Hx : x < length nodes) by (apply Hlt; simpl; auto).
    destruct (set_end_ok nodes x (n - 1) Hx) as (nodes' & E1 & L1 & X1 & Ex & Eo).
    rewrite E1. cbn [bind]. rewrite (get_ok nodes' x nd0) by lia. cbn [bind]. fold (D nodes' x).
    destruct (proj2 X1 x Hx) as (Dx & Bx).
    assert (Hxn : ~ In x path) by (inversion Hnd; auto).
    assert (Hold : forall p c, In (p, c) edges ->
       ((p = 0 /\ c = 1 /\ E nodes' 1 = n - 1) \/ edgeok nodes' p c) /\ ~ In c path).
    { intros p c Hin. destruct (Hed p c Hin) as (A1 & A2).
      assert (c <> x) by (intros ->; apply A2; simpl; auto).
      split; [|simpl in A2; tauto]. destruct A1 as [(-> & -> & A1)|A1].
      - left. rewrite Eo; auto.
      - right. apply (edgeok_ext nodes); auto. }
    assert (Hedge : okp (match child with
              | Some c => edge_label t sa nodes' c (D nodes' x) ;;; Ok (edges ++ [(x, c)])
              | None => Ok edges end) (fun edges' => incl edges edges' /\
       (forall p c, In (p, c) edges' -> ((p = 0 /\ c = 1 /\ E nodes' 1 = n - 1) \/ edgeok nodes' p c) /\ ~ In c path) /\
       match child with Some c => In (x, c) edges' | None => True end)).
    { destruct child as [c|].
      - destruct Hch as (C1 & C2 & C3 & C4). assert (Hcx : c <> x) by (intros ->; apply C1; simpl; auto).
        destruct (proj2 X1 c C2) as (Dc & Bc). destruct (Hno c C2) as (N1 & N2 & _).
        assert (Hd : D nodes x <= D nodes c).
        { destruct C4 as [(-> & ->)|(_ & _ & K & _)]; lia. }
        destruct (label_ok nodes' c (D nodes' x)) as (lb & ->); [lia|rewrite Bc; lia|rewrite Bc; lia|]. cbn [bind].
        apply okp_ok. split; [apply incl_appl, incl_refl|]. split; [|apply in_or_app; simpl; auto].
        intros p c' Hin. apply in_app_or in Hin. destruct Hin as [Hin|[Eq|[]]]; [now apply Hold|].
        injection Eq as <- <-. split; [|simpl in C1; tauto]. destruct C4 as [(-> & ->)|K].
        + left. rewrite Eo by auto. auto.
        + right. apply (edgeok_ext nodes); auto. unfold edgeok. rewrite C3. replace (S (n - 1)) with n by lia.
          split; [now apply pairok_le|]. split; [lia|left; now apply (pairok_eq nodes n)].
      - apply okp_ok. split; [apply incl_refl|]. auto. }
    destruct Hedge as (edges' & -> & HI1 & HI2 & HI3). cbn [bind]. apply IH.
    assert (HP' : path_inv n nodes' path).
    { destruct path as [|y r]; [intros p c HA; destruct HA as ([|] & ? & Eq); discriminate|].
      intros p c HA. destruct (HP p c) as [K|K]; [apply adj_cons; auto|auto|]. right. now apply (pairok_ext nodes). }
    split; [now inversion Hnd|]. split; [intros z Hz; rewrite L1; apply Hlt; simpl; auto|].
    split; [lia|]. split.
    { destruct (proj2 X1 0 ltac:(lia)) as (-> & ->). destruct (proj2 X1 1 ltac:(lia)) as (-> & ->). auto. }
    split; [exact HP'|]. split; [exact HI2|]. split.
    { intros z Hz. rewrite L1 in Hz. destruct (Hno z Hz) as (N1 & N2 & N3). destruct (proj2 X1 z Hz) as (-> & ->).
      split; [auto|]. split; [auto|]. destruct (Nat.eq_dec z x) as [->|Nz].
      - right. rewrite Ex. lia.
      - destruct N3 as [[|N3]|N3]; [congruence|auto|]. right. rewrite Eo; auto. }
    split.
    { split; [exact Hxn|]. split; [lia|]. split; [exact Ex|]. destruct path as [|y r]; [exact I|].
      destruct (HP y x) as [K|K]; [apply adj_cons; auto|auto|]. right. now apply (pairok_ext nodes). }
    split.
    { intros k l Hk Hl. destruct (Hcov k l Hk Hl) as [Q|[Q|Q]].
      - left. destruct Q as (p & c & Hin & Q1 & Q2). exists p, c. split; [auto|].
        destruct (Hed p c Hin) as (A1 & A2).
        assert (c <> x) by (intros ->; apply A2; simpl; auto). rewrite Eo by auto.
        assert (p < length nodes /\ c < length nodes) as (Hp & Hc).
        { destruct A1 as [(-> & -> & _)|((P1 & P2 & _) & _)]; [lia|auto]. }
        destruct (proj2 X1 p Hp) as (-> & _), (proj2 X1 c Hc) as (-> & ->). auto.
      - destruct Q as (p & c & HA & Q1 & Q2).
        assert (p < length nodes /\ c < length nodes) as (Hp & Hc).
        { destruct (adj_in _ _ _ HA). split; apply Hlt; auto. }
        destruct path as [|y r]; [now apply adj_one in HA|]. apply adj_cons in HA. destruct HA as [(-> & ->)|HA].
        + right. right. exists x, y, r. split; [auto|]. split; [auto|].
          destruct (proj2 X1 y Hp) as (-> & _), (proj2 X1 x Hc) as (-> & ->). auto.
        + right. left. exists p, c. split; [auto|].
          destruct (proj2 X1 p Hp) as (-> & _), (proj2 X1 c Hc) as (-> & ->). auto.
      - destruct Q as (c & y & r & -> & Eq & Q1 & Q2). injection Eq as <- <-.
        destruct Hch as (C1 & C2 & C3 & C4). left. exists x, c. split; [exact HI3|].
        assert (c <> x) by (intros ->; apply C1; simpl; auto). rewrite Eo, C3 by auto.
        destruct (proj2 X1 c C2) as (-> & ->), (proj2 X1 x Hx) as (-> & _). split; [lia|auto]. }
    destruct Hroot as [Q|[Q|(-> & r & Q)]].
    + left. auto.
    + destruct path as [|y r]; [now apply adj_one in Q|]. apply adj_cons in Q. destruct Q as [(<- & <-)|Q].
      * right. right. split; [auto|]. eauto.
      * right. left. exact Q.
    + injection Q as -> ->. left. exact HI3.
Qed.

Lemma lcp_intervals_ok : okp (lcp_intervals t sa lcp) (fun '(nodes, edges) =>
  (forall p c, In (p, c) edges -> p < length nodes /\ c < length nodes /\
     ((D nodes p = 0 /\ D nodes c = 0 /\ B nodes c = 0 /\ E nodes c = n - 1) \/ edgeok nodes p c)) /\
  (exists p c, In (p, c) edges /\ D nodes p = 0 /\ B nodes c = 0 /\ E nodes c = n - 1) /\
  (forall k l, 0 < k < n -> 0 < l <= ld k -> by_edges nodes edges k l)).
Proof.
  unfold lcp_intervals. rewrite Lt. apply okp_bind, okp_sub; [lia|].
  apply okp_bind, (okp_get _ _ 0); [lia|]. rewrite Hsa0.
  apply okp_bind, okp_sub; [lia|]. apply okp_bind, okp_sub; [lia|].
  replace (n - (n - 1) - 1) with 0 by lia. apply okp_bind.
  eapply okp_imp; [apply (okp_for_range (fun i st => step_inv i st)); [lia| |]|].
  - split; [|split; [|split]].
    + constructor.
      * now exists [].
      * repeat constructor; simpl; intuition lia.
      * intros x [<-|[<-|[]]]; simpl; lia.
      * unfold D, B. simpl. auto.
      * intros p c [].
      * intros [|[|x]] Hx; simpl in Hx; unfold D, B; simpl; try lia; rewrite Hsa0; repeat split; auto; lia.
    + intros p c HA. apply adj_cons in HA. destruct HA as [HA|HA]; [auto|now apply adj_one in HA].
    + exists 1, [0]. split; [auto|]. unfold D, ld. simpl. lia.
    + intros; lia.
  - intros i st Hi HS. apply interval_step_ok; auto.
  - intros ((nodes, path), edges) (HB & HP & Htop & Hcov). apply okp_bind. unfold pop_rest. rewrite Lt.
    pose proof HB as [(pre & Hbot) Hnd Hlt Hroot Hed Hno].
    assert (I01 : In 0 path /\ In 1 path) by (rewrite Hbot; rewrite !in_app_iff; simpl; auto).
    apply okp_bind. eapply okp_imp; [apply pop_rest_loop|].
    + split; [exact Hnd|]. split; [exact Hlt|]. split; [apply Hlt, I01|]. split; [exact Hroot|]. split; [exact HP|].
      split; [intros p c Hin; destruct (Hed p c Hin) as (A1 & A2 & _); auto|]. split; [exact Hno|]. split; [exact I|].
      split.
      * intros k l Hk Hl. destruct (Hcov k l Hk Hl) as [Q|Q]; [left|right; left]; auto.
      * right. left. exists pre, []. exact Hbot.
    + intros ((nodes', edges'), child). intros (_ & _ & H2 & (R0 & R1 & R2 & R3) & _ & Hed' & Hno' & _ & Hcov' & Hr').
      apply okp_ok. apply okp_bind.
      assert (Ha : forall l, (forall x, In x l -> nd_begin x < n /\ nd_end x < n /\ nth (nd_begin x) sa 0 + nd_depth x < n) ->
         okp (for_in l (fun nd (_ : unit) =>
           assert_ (nd_begin nd <? n) ;;; assert_ (nd_end nd <? n) ;;;
           s <- get sa (nd_begin nd) ;; assert_ (s + nd_depth nd <? n)) tt) (fun _ => True)).
      { induction l as [|x l IHl]; intros Hl; cbn [for_in]; [now apply okp_ok|].
        destruct (Hl x ltac:(simpl; auto)) as (A1 & A2 & A3).
        apply Nat.ltb_lt in A1, A2, A3. rewrite A1, A2. cbn [assert_ bind]. apply Nat.ltb_lt in A1.
        rewrite (get_ok sa _ 0) by lia. cbn [bind]. rewrite A3. cbn [assert_ bind]. apply IHl. intros z Hz. apply Hl. simpl; auto. }
      eapply okp_imp; [apply Ha|].
      * intros x Hx. destruct (In_nth nodes' x nd0 Hx) as (z & Hz & <-). destruct (Hno' z Hz) as (A1 & A2 & [[]|A3]).
        unfold B, D, E in *. auto.
      * intros _ _. apply okp_ok. split; [|split].
        -- intros p c Hin. destruct (Hed' p c Hin) as ([(-> & -> & A)|A] & _).
           ++ split; [lia|]. split; [lia|]. left. auto.
           ++ pose proof A as ((P1 & P2 & _) & _). auto.
        -- destruct Hr' as [Q|[Q|(_ & r & Q)]]; [|destruct Q as ([|] & ? & Eq); discriminate|discriminate].
           exists 0, 1. destruct (Hed' 0 1 Q) as ([(_ & _ & A)|A] & _); [auto|].
           exfalso. destruct A as ((_ & _ & A & _) & _). lia.
        -- intros k l Hk Hl. destruct (Hcov' k l Hk Hl) as [Q|[Q|Q]]; [exact Q| |].
           ++ destruct Q as (p & c & ([|] & ? & Eq) & _); discriminate.
           ++ destruct Q as (c & y & r & _ & Eq & _). discriminate.
Qed.
End Tree.
