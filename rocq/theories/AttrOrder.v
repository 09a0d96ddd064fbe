(** AttrOrder.v : the order in which lcp_intervals emits its edges (partial correctness: whenever it returns). *)
From Verif Require Import Base ModelCore PermFacts ModelAttr AttrProof.
From Coq Require Import Sorting.Sorted.

Definition wp {A} (r : res A) (P : A -> Prop) : Prop := forall a, r = Ok a -> P a.
Lemma wp_bind {A B} (r : res A) (f : A -> res B) P : wp r (fun a => wp (f a) P) -> wp (bind r f) P.
Proof. unfold wp. intros H b Hb. destruct r as [a| |]; cbn [bind] in Hb; try discriminate. exact (H a eq_refl b Hb). Qed.
Lemma wp_ok {A} (a : A) (P : A -> Prop) : P a -> wp (Ok a) P. Proof. unfold wp. intros H b E. now injection E as <-. Qed.
Lemma wp_imp {A} (r : res A) (P Q : A -> Prop) : wp r P -> (forall a, P a -> Q a) -> wp r Q. Proof. unfold wp. firstorder. Qed.
Lemma wp_true {A} (r : res A) (P : A -> Prop) : (forall a, P a) -> wp r P. Proof. unfold wp. auto. Qed.
Lemma wp_loop {S R} (body : S -> res (ctl S R)) (I : S -> Prop) (Q : R -> Prop) :
  (forall s, I s -> wp (body s) (fun c => match c with Cont s' => I s' | Brk r => Q r end)) ->
  forall fuel s, I s -> wp (loop fuel body s) Q.
Proof.
  intros H fuel. induction fuel as [|f IH]; intros s HI r E; cbn [loop] in E; [discriminate|].
  destruct (body s) as [[s'|r']| |] eqn:Eb; cbn [bind] in E; try discriminate.
  - apply (IH s' (H s HI _ Eb) r E).
  - injection E as <-. exact (H s HI _ Eb).
Qed.
Lemma wp_for {S X} (f : X -> S -> res S) (I : list X -> S -> Prop) :
  (forall x l s, I (x :: l) s -> wp (f x s) (I l)) -> forall l s, I l s -> wp (for_in l f s) (I []).
Proof.
  intros H l. induction l as [|x l IH]; intros s HI; [now apply wp_ok|]. cbn [for_in]. apply wp_bind.
  eapply wp_imp; [apply (H x l s HI)|]. auto.
Qed.

Definition ord (nodes : list node) (e1 e2 : nat * nat) : Prop :=
  E nodes (snd e1) < E nodes (snd e2) \/ (E nodes (snd e1) = E nodes (snd e2) /\ D nodes (fst e2) < D nodes (fst e1)).
Lemma sorted_snoc {X} (R : X -> X -> Prop) l x : StronglySorted R l -> Forall (fun y => R y x) l -> StronglySorted R (l ++ [x]).
Proof.
  induction l as [|y l IH]; intros HS HF; cbn [app]; [repeat constructor|]. inversion HS; subst. inversion HF; subst.
  constructor; [auto|]. apply Forall_app. auto.
Qed.
Lemma sorted_ext nodes nodes' l : (forall e, In e l -> E nodes' (snd e) = E nodes (snd e) /\ D nodes' (fst e) = D nodes (fst e)) ->
  StronglySorted (ord nodes) l -> StronglySorted (ord nodes') l.
Proof.
  induction l as [|e l IH]; intros H HS; [constructor|]. inversion HS; subst. constructor.
  - apply IH; [intros e' He'; apply H; now right|auto].
  - rewrite Forall_forall in *. intros e' He'. unfold ord. destruct (H e (or_introl eq_refl)) as (-> & ->).
    destruct (H e' (or_intror He')) as (-> & ->). apply H3. exact He'.
Qed.
(** a path, top first *)
Record pathok (nodes : list node) (path : list nat) : Prop := {
  po_bot : exists pre, path = pre ++ [1; 0];
  po_nodup : NoDup path;
  po_lt : forall x, In x path -> x < length nodes;
  po_root : D nodes 0 = 0 /\ D nodes 1 = 0;
  po_desc : forall x y r, (exists l, path = l ++ x :: y :: r) -> x <> 1 -> D nodes y < D nodes x }.
Definition edgesok (nodes : list node) (path : list nat) (edges : list (nat * nat)) : Prop :=
  StronglySorted (ord nodes) edges /\
  forall p c, In (p, c) edges -> p < length nodes /\ c < length nodes /\ ~ In c path /\ D nodes p < D nodes c.
Lemma set_end_wp nodes x e nodes' : set_end nodes x e = Ok nodes' -> x < length nodes /\
  length nodes' = length nodes /\ (forall y, D nodes' y = D nodes y) /\ E nodes' x = e /\ (forall y, y <> x -> E nodes' y = E nodes y).
Proof.
  unfold set_end, set. destruct (get nodes x) as [nd| |] eqn:G; cbn [bind]; try discriminate.
  assert (Hx : x < length nodes).
  { unfold get in G. destruct (nth_error nodes x) eqn:F; [|discriminate]. apply nth_error_Some. congruence. }
  pose proof (get_ok nodes x nd0 Hx) as G'. rewrite G in G'. injection G' as Gn.
  destruct (set_end_ok [0] [0] [0] 1 (le_n 1) eq_refl eq_refl eq_refl eq_refl nodes x e Hx) as (n2 & E2 & L2 & X2 & Ex & Eo). unfold set_end, set in E2. rewrite G in E2. cbn [bind] in E2.
  intros E1. rewrite E1 in E2. injection E2 as <-. split; [exact Hx|]. split; [exact L2|]. split; [|auto].
  intros y. destruct (Nat.lt_ge_cases y (length nodes)) as [Hy|Hy]; [now apply X2|]. unfold D. rewrite !nth_overflow by lia. reflexivity.
Qed.
Lemma pathok_ext nodes nodes' path : (forall y, y < length nodes -> D nodes' y = D nodes y) -> length nodes <= length nodes' -> pathok nodes path -> pathok nodes' path.
Proof.
  intros HD HL [(pre & Hb) Hn Hl (R0 & R1) Hd].
  assert (I0 : In 0 path /\ In 1 path) by (rewrite Hb; rewrite !in_app_iff; simpl; auto).
  constructor; eauto.
  - intros x Hx. apply Hl in Hx. lia.
  - rewrite !HD by (apply Hl; tauto). auto.
  - intros x y r (l & E0) Hx. rewrite !HD; [apply (Hd x y r); eauto| |]; apply Hl; rewrite E0; rewrite in_app_iff; simpl; auto.
Qed.
Lemma pathok_tail nodes x path : pathok nodes (x :: path) -> 0 < D nodes x ->
  pathok nodes path /\ exists y r, path = y :: r /\ D nodes y < D nodes x /\ ~ In x path.
Proof.
  intros [(pre & Hb) Hn Hl (R0 & R1) Hd] Hx. destruct pre as [|z pre]; cbn [app] in Hb; [injection Hb as -> _; lia|].
  injection Hb as <- Hb. apply NoDup_cons_iff in Hn. destruct Hn as (Hxn & Hn). split.
  - constructor; eauto.
    + intros y Hy. apply Hl. now right.
    + intros a b r (l & E0) Ha. apply (Hd a b r); [|exact Ha]. exists (x :: l). now rewrite E0.
  - destruct path as [|y r]; [destruct pre; discriminate|]. exists y, r. split; [reflexivity|]. split; [|exact Hxn].
    apply (Hd x y r); [exists []; reflexivity|]. intros ->. lia.
Qed.
Section Order.
Context (t : str) (sa lcp : list nat) (n : nat).
Context (Hn : 1 <= n) (Lt : length t = n) (Llcp : length lcp = n) (Lsa : length sa = n) (Hsa0 : nth 0 sa 0 = n - 1).
Let ld k := n - 1 - nth k sa 0.
Context (Hlcp1 : forall k, 0 < k < n -> nth k lcp 0 < ld k).
(** state of the pop loop at rank i *)
Definition pinv (i : nat) (st : list node * list nat * list (nat * nat) * option nat) : Prop :=
  let '(nodes, path, edges, child) := st in
  pathok nodes path /\ edgesok nodes path edges /\
  (forall p c, In (p, c) edges -> E nodes c < i - 1 \/
     (E nodes c = i - 1 /\ nth i lcp 0 < D nodes p /\ forall y, hd_error path = Some y -> D nodes y < D nodes p)) /\
  match child with
  | None => True
  | Some c => c < length nodes /\ ~ In c path /\ E nodes c = i - 1 /\ nth i lcp 0 < D nodes c /\ forall y, hd_error path = Some y -> D nodes y < D nodes c
  end.
Lemma get_wp {X} (l : list X) k x d : get l k = Ok x -> k < length l /\ x = nth k l d.
Proof.
  intros G. assert (Hk : k < length l). { unfold get in G. destruct (nth_error l k) eqn:F; [|discriminate]. apply nth_error_Some. congruence. }
  split; [exact Hk|]. rewrite (get_ok l k d Hk) in G. now injection G.
Qed.
Lemma pop_wp i nodes path edges : 0 < i < n -> pathok nodes path -> edgesok nodes path edges ->
  (forall p c, In (p, c) edges -> E nodes c < i - 1) ->
  wp (pop_loop t sa lcp i nodes path edges) (fun st => pinv i st /\ let '(nodes', path', _, _) := st in exists y r, path' = y :: r /\ D nodes' y <= nth i lcp 0).
Proof.
  intros Hi HP HE HO. unfold pop_loop. apply (wp_loop _ (pinv i)); [|].
  2:{ cbn [pinv]. split; [exact HP|]. split; [exact HE|]. split; [|exact I]. intros p c Hin. left. eauto. }
  clear nodes path edges HP HE HO. intros (((nodes, path), edges), child) (HP & (HS & HE) & HO & HC).
  destruct path as [|x path]; [intros ? ?; discriminate|].
  apply wp_bind. intros l El. apply (get_wp _ _ _ 0) in El. destruct El as (_ & ->).
  apply wp_bind. intros nd End. apply (get_wp _ _ _ nd0) in End. destruct End as (Hx & ->). fold (D nodes x).
  destruct (Nat.ltb_spec (nth i lcp 0) (D nodes x)) as [L|L].
  2:{ apply wp_ok. split; [|exists x, path; auto]. split; [exact HP|]. split; [split; assumption|]. split; assumption. }
  apply wp_bind. intros nodes' EN. apply set_end_wp in EN. destruct EN as (_ & LN & DN & Ex & Eo).
  destruct (pathok_tail _ _ _ HP ltac:(lia)) as (HP' & y & r & Ep & Dy & Hxn).
  assert (HP2 : pathok nodes' path) by (apply (pathok_ext nodes); [auto|lia|exact HP']).
  assert (Hold : forall p c, In (p, c) edges -> c <> x /\ E nodes' c = E nodes c).
  { intros p c Hin. destruct (HE p c Hin) as (_ & _ & H & _). assert (c <> x) by (intros ->; apply H; now left). split; [assumption|now apply Eo]. }
  assert (HS1 : StronglySorted (ord nodes') edges).
  { eapply sorted_ext; [|exact HS]. intros (p, c) Hin. cbn [fst snd]. destruct (Hold p c Hin) as (_ & ->). now rewrite DN. }
  apply wp_bind. destruct child as [c|].
  - destruct HC as (C1 & C2 & C3 & C4 & C5). assert (Hcx : c <> x) by (intros ->; apply C2; now left).
    apply wp_bind. apply wp_true. intros _. apply wp_ok. apply wp_ok. cbn [pinv]. split; [exact HP2|]. split; [split|split].
    + apply sorted_snoc; [exact HS1|]. apply Forall_forall. intros (p, c') Hin. unfold ord. cbn [fst snd].
      destruct (Hold p c' Hin) as (_ & ->). rewrite (Eo c Hcx), C3, !DN. destruct (HO p c' Hin) as [H|(H & _ & H1)]; [now left|]. right. split; [exact H|]. apply H1. reflexivity.
    + intros p c' Hin. apply in_app_or in Hin. rewrite LN, !DN. destruct Hin as [Hin|[Eq|[]]].
      * destruct (HE p c' Hin) as (A1 & A2 & A3 & A4). split; [exact A1|]. split; [exact A2|]. split; [|exact A4]. intros H. apply A3. now right.
      * injection Eq as <- <-. split; [exact Hx|]. split; [exact C1|]. split; [intros H; apply C2; now right|]. apply C5. reflexivity.
    + intros p c' Hin. apply in_app_or in Hin. rewrite !DN. destruct Hin as [Hin|[Eq|[]]].
      * destruct (Hold p c' Hin) as (_ & ->). destruct (HO p c' Hin) as [H|(H & H0 & H1)]; [now left|]. right. split; [exact H|]. split; [exact H0|].
        intros z Hz. rewrite Ep in Hz. cbn [hd_error] in Hz. injection Hz as <-. specialize (H1 x eq_refl). rewrite DN. lia.
      * injection Eq as <- <-. rewrite (Eo c Hcx). right. split; [exact C3|]. split; [exact L|]. intros z Hz. rewrite Ep in Hz. cbn [hd_error] in Hz. injection Hz as <-. now rewrite DN.
    + split; [lia|]. split; [exact Hxn|]. split; [exact Ex|]. rewrite DN. split; [exact L|]. intros z Hz. rewrite Ep in Hz. cbn [hd_error] in Hz. injection Hz as <-. now rewrite DN.
  - apply wp_ok. apply wp_ok. cbn [pinv]. split; [exact HP2|]. split; [split; [exact HS1|]|split].
    + intros p c' Hin. rewrite LN, !DN. destruct (HE p c' Hin) as (A1 & A2 & A3 & A4). split; [exact A1|]. split; [exact A2|]. split; [|exact A4]. intros H. apply A3. now right.
    + intros p c' Hin. rewrite !DN. destruct (Hold p c' Hin) as (_ & ->). destruct (HO p c' Hin) as [H|(H & H0 & H1)]; [now left|]. right. split; [exact H|]. split; [exact H0|].
      intros z Hz. rewrite Ep in Hz. cbn [hd_error] in Hz. injection Hz as <-. specialize (H1 x eq_refl). rewrite DN. lia.
    + split; [lia|]. split; [exact Hxn|]. split; [exact Ex|]. rewrite DN. split; [exact L|]. intros z Hz. rewrite Ep in Hz. cbn [hd_error] in Hz. injection Hz as <-. now rewrite DN.
Qed.
Definition sinv (i : nat) (st : list node * list nat * list (nat * nat)) : Prop :=
  let '(nodes, path, edges) := st in pathok nodes path /\ edgesok nodes path edges /\ forall p c, In (p, c) edges -> E nodes c < i - 1.
(** pushing a new node *)
Lemma push_ok nodes path nd y r : pathok nodes path -> path = y :: r -> D nodes y < nd_depth nd ->
  pathok (nodes ++ [nd]) (length nodes :: path).
Proof.
  intros HP Ep Hd. assert (HP' : pathok (nodes ++ [nd]) path).
  { apply (pathok_ext nodes); [|rewrite app_length; simpl; lia|exact HP]. intros z Hz. unfold D. now rewrite app_nth1. }
  pose proof HP as [_ _ Hl0 _ _]. destruct HP' as [(pre & Hb) Hnd Hl HR Hdd]. constructor.
  - exists (length nodes :: pre). now rewrite Hb.
  - constructor; [|exact Hnd]. intros H. apply Hl0 in H. lia.
  - intros x [<-|Hx]; [rewrite app_length; simpl; lia|auto].
  - exact HR.
  - intros a b r' (l & E0) Ha. destruct l as [|z l]; cbn [app] in E0.
    + injection E0 as <- E0. rewrite Ep in E0. injection E0 as <- <-. unfold D. rewrite app_nth1 by (apply Hl0; rewrite Ep; now left). rewrite app_nth2, Nat.sub_diag by lia. exact Hd.
    + injection E0 as <- E0. apply (Hdd a b r'); eauto.
Qed.
Lemma push_edges nodes path edges nd : edgesok nodes path edges -> edgesok (nodes ++ [nd]) (length nodes :: path) edges.
Proof.
  intros (HS & HE). split.
  - eapply sorted_ext; [|exact HS]. intros (p, c) Hin. destruct (HE p c Hin) as (A1 & A2 & _). cbn [fst snd]. unfold E, D. rewrite !app_nth1 by assumption. auto.
  - intros p c Hin. destruct (HE p c Hin) as (A1 & A2 & A3 & A4). rewrite app_length. simpl. unfold D in *. rewrite !app_nth1 by assumption.
    split; [lia|]. split; [lia|]. split; [|exact A4]. intros [H|H]; [lia|auto].
Qed.
Lemma E_snoc nodes nd c : c < length nodes -> E (nodes ++ [nd]) c = E nodes c. Proof. intros H. unfold E. now rewrite app_nth1. Qed.
Lemma D_snoc nodes nd c : c < length nodes -> D (nodes ++ [nd]) c = D nodes c. Proof. intros H. unfold D. now rewrite app_nth1. Qed.
Lemma D_last nodes nd : D (nodes ++ [nd]) (length nodes) = nd_depth nd. Proof. unfold D. now rewrite app_nth2, Nat.sub_diag by lia. Qed.
Lemma add_edge i nodes path edges top r c : pathok nodes path -> edgesok nodes path edges -> path = top :: r -> c < length nodes -> ~ In c path ->
  E nodes c = i - 1 -> D nodes top < D nodes c ->
  (forall p c', In (p, c') edges -> E nodes c' < i - 1 \/ (E nodes c' = i - 1 /\ D nodes top < D nodes p)) ->
  edgesok nodes path (edges ++ [(top, c)]) /\ forall p c', In (p, c') (edges ++ [(top, c)]) -> E nodes c' <= i - 1.
Proof.
  intros HP (HS & HE) Ep Hc Hcp Ec Dc HO. assert (Ht : top < length nodes) by (apply HP; rewrite Ep; now left). split; [split|].
  - apply sorted_snoc; [exact HS|]. apply Forall_forall. intros (p, c') Hin. unfold ord. cbn [fst snd]. rewrite Ec. destruct (HO p c' Hin) as [H|(H & H0)]; [now left|right; auto].
  - intros p c' Hin. apply in_app_or in Hin. destruct Hin as [Hin|[Eq|[]]]; [now apply HE|]. injection Eq as <- <-. auto.
  - intros p c' Hin. apply in_app_or in Hin. destruct Hin as [Hin|[Eq|[]]]; [destruct (HO p c' Hin) as [H|(H & H0)]; lia|]. injection Eq as <- <-. lia.
Qed.
Lemma step_wp i st : 0 < i < n -> sinv i st -> wp (interval_step t sa lcp i st) (sinv (S i)).
Proof.
  intros Hi. destruct st as ((nodes0, path0), edges0). intros (HP0 & HE0 & HO0). unfold interval_step. apply wp_bind.
  eapply wp_imp; [apply (pop_wp i nodes0 path0 edges0 Hi HP0 HE0 HO0)|]. clear nodes0 path0 edges0 HP0 HE0 HO0.
  intros (((nodes, path), edges), child) ((HP & HE & HO & HC) & y & r & Ep & Dy).
  apply wp_bind. intros l El. apply (get_wp _ _ _ 0) in El. destruct El as (_ & ->).
  apply wp_bind. intros top Et. apply (get_wp _ _ _ 0) in Et. destruct Et as (_ & Et). rewrite Ep in Et. cbn [nth] in Et. subst top.
  apply wp_bind. intros tnd Et. apply (get_wp _ _ _ nd0) in Et. destruct Et as (Hy & ->). fold (D nodes y).
  (* the leaf *)
  assert (Hleaf : forall nodes path edges y r, pathok nodes path -> edgesok nodes path edges -> path = y :: r -> D nodes y = nth i lcp 0 ->
    (forall p c, In (p, c) edges -> E nodes c <= i - 1) ->
    wp (s <- get sa i ;; d <- sub_ (length t) s ;; d <- sub_ d 1 ;; assert_ (s + d <? length t) ;;;
         Ok (nodes ++ [Node d i i], length nodes :: path, edges)) (sinv (S i))).
  { clear nodes path edges child y r HP HE HO HC Ep Dy Hy. intros nodes path edges y r HP HE Ep Dy HO. apply wp_bind. intros s Es. apply (get_wp _ _ _ 0) in Es. destruct Es as (His & ->).
    apply wp_bind. intros d1 E1. apply wp_bind. intros d2 E2. apply wp_bind. apply wp_true. intros _. apply wp_ok.
    assert (Ed : d2 = ld i). { unfold sub_ in *. rewrite Lt in E1. destruct (n <? nth i sa 0); [discriminate|]. injection E1 as <-. destruct (n - nth i sa 0 <? 1); [discriminate|]. injection E2 as <-. unfold ld. lia. }
    subst d2. specialize (Hlcp1 i Hi). split; [|split].
    - eapply push_ok; [exact HP|exact Ep|cbn [nd_depth]; lia].
    - now apply push_edges.
    - intros p c Hin. destruct HE as (_ & HE). rewrite E_snoc by (eapply HE; exact Hin). specialize (HO p c Hin). lia. }
  destruct child as [c|].
  - destruct HC as (C1 & C2 & C3 & C4 & C5). specialize (C5 y). rewrite Ep in C5. specialize (C5 eq_refl). apply wp_bind.
    destruct (Nat.ltb_spec (D nodes y) (nth i lcp 0)) as [L|L].
    + apply wp_bind. intros cnd Ec. apply (get_wp _ _ _ nd0) in Ec. destruct Ec as (_ & ->). apply wp_bind. apply wp_true. intros s.
      apply wp_bind. apply wp_true. intros _. apply wp_ok. set (nd := Node (nth i lcp 0) (nd_begin (nth c nodes nd0)) (length t)).
      assert (HP1 : pathok (nodes ++ [nd]) (length nodes :: path)) by (eapply push_ok; [exact HP|exact Ep|exact L]).
      assert (HE1 : edgesok (nodes ++ [nd]) (length nodes :: path) edges) by now apply push_edges.
      apply wp_bind. apply wp_bind. intros top Et. cbn [get nth_error] in Et. injection Et as <-.
      apply wp_bind. apply wp_true. intros ?. apply wp_bind. apply wp_true. intros ?. apply wp_ok.
      destruct (add_edge i (nodes ++ [nd]) (length nodes :: path) edges (length nodes) path c HP1 HE1 eq_refl) as (A1 & A2).
      * rewrite app_length. simpl. lia.
      * intros [H|H]; [lia|auto].
      * now rewrite E_snoc.
      * rewrite D_last, D_snoc by assumption. exact C4.
      * intros p c' Hin. destruct HE as (_ & HE). destruct (HE p c' Hin) as (B1 & B2 & _). rewrite E_snoc, D_last, D_snoc by assumption.
        destruct (HO p c' Hin) as [H|(H & H0 & _)]; [now left|right; auto].
      * eapply Hleaf; [exact HP1|exact A1|reflexivity| |exact A2]. now rewrite D_last.
    + apply wp_ok. apply wp_bind. apply wp_bind. intros top Et. apply (get_wp _ _ _ 0) in Et. destruct Et as (_ & Et). rewrite Ep in Et. cbn [nth] in Et. subst top.
      apply wp_bind. apply wp_true. intros ?. apply wp_bind. apply wp_true. intros ?. apply wp_ok.
      destruct (add_edge i nodes path edges y r c HP HE Ep C1 C2 C3 C5) as (A1 & A2).
      * intros p c' Hin. destruct (HO p c' Hin) as [H|(H & H0 & _)]; [now left|right; split; [exact H|lia]].
      * eapply Hleaf; [exact HP|exact A1|exact Ep|lia|exact A2].
  - destruct (Nat.ltb_spec (D nodes y) (nth i lcp 0)) as [L|L]; [intros ? H; discriminate|]. apply wp_bind, wp_ok. apply wp_bind, wp_ok.
    eapply Hleaf; [exact HP|exact HE|exact Ep|lia|]. intros p c Hin. destruct (HO p c Hin) as [H|(H & _)]; lia.
Qed.
(** the rest of the path *)
Definition rinv (rest : list nat) (st : list node * list (nat * nat) * option nat) : Prop :=
  let '(nodes, edges, child) := st in
  pathok nodes rest /\ edgesok nodes rest edges /\
  (forall p c, In (p, c) edges -> E nodes c < n - 1 \/ (E nodes c = n - 1 /\ forall y, hd_error rest = Some y -> D nodes y < D nodes p)) /\
  match child with
  | None => True
  | Some c => c < length nodes /\ ~ In c rest /\ E nodes c = n - 1 /\ forall y, hd_error rest = Some y -> D nodes y < D nodes c
  end.
Definition rest_step : nat -> list node * list (nat * nat) * option nat -> res (list node * list (nat * nat) * option nat) :=
  fun x '(nodes, edges, child) =>
     nodes <- set_end nodes x (length t - 1) ;;
     nd <- get nodes x ;;
     edges <- match child with
              | Some c => edge_label t sa nodes c (nd_depth nd) ;;; Ok (edges ++ [(x, c)])
              | None => Ok edges
              end ;;
     Ok (nodes, edges, Some x).
(** one step on a node x of the path: the edges stay in order *)
Lemma rest_one x rest st : (let '(nodes, _, _) := st in forall z, In z rest -> z < length nodes) -> ~ In x rest -> 
  (let '(nodes, edges, child) := st in edgesok nodes (x :: rest) edges /\
    (forall p c, In (p, c) edges -> E nodes c < n - 1 \/ (E nodes c = n - 1 /\ D nodes x < D nodes p)) /\
    match child with None => True | Some c => c < length nodes /\ ~ In c (x :: rest) /\ E nodes c = n - 1 /\ D nodes x < D nodes c end) ->
  wp (rest_step x st) (fun st' => let '(nodes, edges, child) := st in let '(nodes', edges', child') := st' in
    length nodes' = length nodes /\ (forall y, D nodes' y = D nodes y) /\ edgesok nodes' rest edges' /\
    child' = Some x /\ x < length nodes /\ E nodes' x = n - 1 /\
    (forall p c, In (p, c) edges' -> E nodes' c < n - 1 \/ (E nodes' c = n - 1 /\ D nodes x <= D nodes p))).
Proof.
  destruct st as ((nodes, edges), child). intros Hz Hxn ((HS & HE) & HO & HC). unfold rest_step. apply wp_bind.
  intros nodes' EN. apply set_end_wp in EN. destruct EN as (Hx & LN & DN & Ex & Eo).
  apply wp_bind. apply wp_true. intros ?. rewrite Lt in Ex.
  assert (Hold : forall p c, In (p, c) edges -> c <> x /\ E nodes' c = E nodes c).
  { intros p c Hin. destruct (HE p c Hin) as (_ & _ & H & _). assert (c <> x) by (intros ->; apply H; now left). split; [assumption|now apply Eo]. }
  assert (HS1 : StronglySorted (ord nodes') edges).
  { eapply sorted_ext; [|exact HS]. intros (p, c) Hin. cbn [fst snd]. destruct (Hold p c Hin) as (_ & ->). now rewrite DN. }
  assert (HE1 : forall p c, In (p, c) edges -> p < length nodes' /\ c < length nodes' /\ ~ In c rest /\ D nodes' p < D nodes' c).
  { intros p c Hin. rewrite LN, !DN. destruct (HE p c Hin) as (A1 & A2 & A3 & A4). split; [exact A1|]. split; [exact A2|]. split; [|exact A4]. intros H. apply A3. now right. }
  apply wp_bind. destruct child as [c|].
  - destruct HC as (C1 & C2 & C3 & C4). assert (Hcx : c <> x) by (intros ->; apply C2; now left). apply wp_bind, wp_true. intros _. apply wp_ok, wp_ok.
    split; [exact LN|]. split; [exact DN|]. split; [split|].
    + apply sorted_snoc; [exact HS1|]. apply Forall_forall. intros (p, c') Hin. unfold ord. cbn [fst snd]. destruct (Hold p c' Hin) as (_ & ->). rewrite (Eo c Hcx), C3, !DN.
      destruct (HO p c' Hin) as [H|(H & H1)]; [now left|right; auto].
    + intros p c' Hin. apply in_app_or in Hin. destruct Hin as [Hin|[Eq|[]]]; [auto|]. injection Eq as <- <-. rewrite LN, !DN. split; [exact Hx|]. split; [exact C1|]. split; [|exact C4]. intros H; apply C2; now right.
    + split; [reflexivity|]. split; [exact Hx|]. split; [exact Ex|]. intros p c' Hin. apply in_app_or in Hin. destruct Hin as [Hin|[Eq|[]]].
      * destruct (Hold p c' Hin) as (_ & ->). destruct (HO p c' Hin) as [H|(H & H1)]; [now left|right; split; [exact H|lia]].
      * injection Eq as <- <-. right. rewrite (Eo c Hcx). auto.
  - apply wp_ok, wp_ok. split; [exact LN|]. split; [exact DN|]. split; [split; assumption|]. split; [reflexivity|]. split; [exact Hx|]. split; [exact Ex|].
    intros p c' Hin. destruct (Hold p c' Hin) as (_ & ->). destruct (HO p c' Hin) as [H|(H & H1)]; [now left|right; split; [exact H|lia]].
Qed.
Lemma rest_wp pre : forall nodes edges child, rinv (pre ++ [1; 0]) (nodes, edges, child) ->
  wp (for_in (pre ++ [1; 0]) rest_step (nodes, edges, child)) (fun '(nodes', edges', _) =>
    exists es, edges' = es ++ [(0, 1)] /\ StronglySorted (ord nodes') es /\ (forall p c, In (p, c) es -> D nodes' p < D nodes' c) /\ D nodes' 1 = 0 /\ D nodes' 0 = 0).
Proof.
  induction pre as [|x pre IH]; intros nodes edges child (HP & HE & HO & HC).
  - cbn [app] in *. cbn [for_in]. apply wp_bind.
    pose proof HP as [_ _ Hl (R0 & R1) _].
    eapply wp_imp; [apply (rest_one 1 [0] (nodes, edges, child))|].
    + intros z Hz. apply Hl. now right.
    + intros [H|[]]; discriminate.
    + split; [exact HE|]. split.
      * intros p c Hin. destruct (HO p c Hin) as [H|(H & H1)]; [now left|right]. split; [exact H|]. apply H1. reflexivity.
      * destruct child as [c|]; [|exact I]. destruct HC as (C1 & C2 & C3 & C4). split; [exact C1|]. split; [exact C2|]. split; [exact C3|]. apply C4. reflexivity.
    + intros ((nodes1, edges1), child1) (LN & DN & (HS1 & HE1) & -> & _ & E1 & _). apply wp_bind. unfold rest_step at 1. apply wp_bind.
      intros nodes2 EN. apply set_end_wp in EN. destruct EN as (Hx & LN2 & DN2 & _ & Eo2).
      apply wp_bind, wp_true. intros ?. apply wp_bind, wp_bind, wp_true. intros _. apply wp_ok, wp_ok, wp_ok. exists edges1. split; [reflexivity|]. split; [|split].
      * eapply sorted_ext; [|exact HS1]. intros (p, c) Hin. cbn [fst snd]. split; [|apply DN2]. apply Eo2. intros ->. destruct (HE1 p 0 Hin) as (_ & _ & H & _). apply H. now left.
      * intros p c Hin. rewrite !DN2. now apply HE1.
      * rewrite !DN2, !DN. auto.
  - cbn [app] in *. cbn [for_in]. apply wp_bind. pose proof HP as [_ Hnd Hl (R0 & R1) Hd]. apply NoDup_cons_iff in Hnd. destruct Hnd as (Hxn & Hnd).
    assert (Hx1 : x <> 1) by (intros ->; apply Hxn; rewrite in_app_iff; simpl; auto).
    assert (EY : exists y r, pre ++ [1; 0] = y :: r) by (destruct pre; eexists; eexists; reflexivity). destruct EY as (y & r & EY).
    assert (Dx : D nodes y < D nodes x). { apply (Hd x y r); [|exact Hx1]. exists []. cbn [app]. now rewrite EY. }
    destruct (pathok_tail _ _ _ HP ltac:(lia)) as (HP' & _).
    eapply wp_imp; [apply (rest_one x (pre ++ [1; 0]) (nodes, edges, child))|].
    + intros z Hz. apply Hl. now right.
    + exact Hxn.
    + split; [exact HE|]. split.
      * intros p c Hin. destruct (HO p c Hin) as [H|(H & H1)]; [now left|right]. split; [exact H|]. apply H1. reflexivity.
      * destruct child as [c|]; [|exact I]. destruct HC as (C1 & C2 & C3 & C4). split; [exact C1|]. split; [exact C2|]. split; [exact C3|]. apply C4. reflexivity.
    + intros ((nodes1, edges1), child1) (LN & DN & HE1 & -> & Hxl & E1 & HO1). apply IH. split; [|split; [exact HE1|split]].
      * apply (pathok_ext nodes); [auto|lia|exact HP'].
      * intros p c Hin. destruct (HO1 p c Hin) as [H|(H & H1)]; [now left|right]. split; [exact H|]. intros z Hz. rewrite EY in Hz. injection Hz as <-. rewrite !DN in *. lia.
      * split; [lia|]. split; [exact Hxn|]. split; [exact E1|]. intros z Hz. rewrite EY in Hz. injection Hz as <-. rewrite !DN. exact Dx.
Qed.
Lemma wp_for_range {S} (I : nat -> S -> Prop) (f : nat -> S -> res S) a b : a <= b -> (forall i s, a <= i < b -> I i s -> wp (f i s) (I (Datatypes.S i))) ->
  forall s, I a s -> wp (for_in (range a b) f s) (I b).
Proof.
  intros Hab H. unfold range. remember (b - a) as k eqn:Ek. revert a Hab H Ek. induction k as [|k IH]; intros a Hab H Ek s HI; cbn [seq for_in].
  - apply wp_ok. now replace b with a by lia.
  - apply wp_bind. eapply wp_imp; [apply (H a s ltac:(lia) HI)|]. intros s' Hs'. apply IH; [lia| |lia|exact Hs']. intros i s0 Hi. apply H. lia.
Qed.
Theorem intervals_order : wp (lcp_intervals t sa lcp) (fun '(nodes, edges) =>
  exists es, edges = es ++ [(0, 1)] /\ StronglySorted (ord nodes) es /\ (forall p c, In (p, c) es -> D nodes p < D nodes c) /\ D nodes 1 = 0 /\ D nodes 0 = 0).
Proof.
  unfold lcp_intervals. apply wp_bind, wp_true. intros e. apply wp_bind. intros s0 Es. apply wp_bind. intros d1 E1. apply wp_bind. intros d0 E0.
  apply (get_wp _ _ _ 0) in Es. destruct Es as (_ & ->).
  assert (d0 = 0). { rewrite Hsa0 in E1. unfold sub_ in *. rewrite Lt in E1. destruct (n <? n - 1); [discriminate|]. injection E1 as <-. destruct (n - (n - 1) <? 1); [discriminate|]. injection E0 as <-. lia. }
  subst d0. apply wp_bind. rewrite Lt. eapply wp_imp; [apply (wp_for_range sinv _ 1 n Hn); [intros i st Hi; apply step_wp; lia|]|].
    + split; [|split].
      * constructor; cbn.
        -- now exists [].
        -- repeat constructor; simpl; intuition lia.
        -- intros x [<-|[<-|[]]]; lia.
        -- auto.
        -- intros x y r (l & E2) Hx. destruct l as [|a [|b l]]; cbn [app] in E2; try (injection E2 as <- <- _; easy). injection E2 as <- E2; discriminate.
           destruct l; discriminate.
      * split; [constructor|]. intros p c [].
      * intros p c [].
    + intros ((nodes, path), edges) (HP & HE & HO). apply wp_bind. unfold pop_rest. apply wp_bind. pose proof HP as [(pre & ->) _ _ _ _].
      eapply wp_imp; [apply (rest_wp pre nodes edges None)|].
      * split; [exact HP|]. split; [exact HE|]. split; [|exact I]. intros p c Hin. left. eapply HO. exact Hin.
      * intros ((nodes', edges'), child). intros HH. apply wp_ok. apply wp_bind, wp_true. intros _. now apply wp_ok.
Qed.
End Order.
