(** MorphBwt3.v : the sorted rotations of the image of a word under a morphism, by finitely many checks on the windows of the word (C129) *)
From Verif Require Import Base SpecStr SpecBwt SpecWord LexFacts BwtFacts LynMorph MorphBwt.

Definition group : Type := (nat -> nat) * (str -> bool).
(** the letter before the row and its first n letters *)
Definition win (n : nat) (s : str) : str := last s 0 :: firstn n s.
Definition rowt (h : nat -> str) (t : nat) (s : str) : str := match t with O => flat_map h s | S _ => inner h t s end.
Definition before (h : nat -> str) (t x : nat) : nat := match t with O => last (h x) 0 | S e => nth e (h x) 0 end.
Definition headt (h : nat -> str) (g : group) (v : str) : str :=
  match fst g (hd 0 v) with O => flat_map h (tl v) | S e => skipn (S e) (h (hd 0 v)) ++ flat_map h (tl v) end.
Fixpoint remb (x : nat) (l : list nat) : option (list nat) :=
  match l with [] => None | y :: l => if x =? y then Some l else match remb x l with Some r => Some (y :: r) | None => None end end.
Fixpoint permb (l m : list nat) : bool :=
  match l with [] => match m with [] => true | _ => false end | x :: l => match remb x m with Some r => permb l r | None => false end end.
Lemma remb_ok x m : forall r, remb x m = Some r -> Permutation m (x :: r).
Proof.
  induction m as [|y m IH]; intros r H; [discriminate|]. cbn [remb] in H. destruct (Nat.eqb_spec x y) as [->|N]; [now injection H as <-|].
  destruct (remb x m) as [q|]; [|discriminate]. injection H as <-. rewrite (IH q eq_refl). apply perm_swap.
Qed.
Lemma permb_ok l : forall m, permb l m = true -> Permutation l m.
Proof.
  induction l as [|x l IH]; intros m H; [now destruct m|]. cbn [permb] in H. destruct (remb x m) as [r|] eqn:E; [|discriminate].
  rewrite (remb_ok x m r E). constructor. now apply IH.
Qed.
Definition streqb (u v : str) : bool := if list_eq_dec Nat.eq_dec u v then true else false.
Lemma swap_groups {A B} (row : group -> A -> B) (sel : group -> A -> bool) (gs : list group) (M : list A) :
  Permutation (flat_map (fun g => map (row g) (filter (sel g) M)) gs) (flat_map (fun s => map (fun g => row g s) (filter (fun g => sel g s) gs)) M).
Proof.
  induction M as [|s M IH].
  - cbn [flat_map]. induction gs as [|g gs IHg]; [constructor|exact IHg].
  - cbn [flat_map]. rewrite <- IH. clear IH. induction gs as [|g gs IHg]; [constructor|]. cbn [flat_map filter]. destruct (sel g s); cbn [map app].
    + constructor. rewrite IHg. rewrite !app_assoc. apply Permutation_app_tail, Permutation_app_comm.
    + rewrite IHg. rewrite !app_assoc. apply Permutation_app_tail, Permutation_app_comm.
Qed.

Section Groups.
Context (h : nat -> str) (P : nat -> Prop) (n : nat) (W : list str) (gs : list group).
Definition selected (g : group) (M : list str) : list str := filter (fun s => snd g (win n s)) M.
Definition grows (M : list str) (g : group) : list str := map (fun s => rowt h (fst g (last s 0)) s) (selected g M).
Definition check_all : bool := forallb (fun v => permb (map (fun g => fst g (hd 0 v)) (filter (fun g => snd g v) gs)) (seq 0 (length (h (hd 0 v)))) && negb (length (h (hd 0 v)) =? 0)) W.
Definition check_same : bool := forallb (fun g => match filter (snd g) W with [] => true | v0 :: _ =>
   forallb (fun v => ((fst g (hd 0 v) =? 0) && (fst g (hd 0 v0) =? 0)) || (negb (fst g (hd 0 v) =? 0) && negb (fst g (hd 0 v0) =? 0) &&
     streqb (skipn (fst g (hd 0 v)) (h (hd 0 v))) (skipn (fst g (hd 0 v0)) (h (hd 0 v0))))) (filter (snd g) W) end) gs.
Definition heads (g : group) : list str := map (headt h g) (filter (snd g) W).
Fixpoint check_order (l : list group) : bool :=
  match l with [] => true | g :: l => forallb (fun g' => forallb (fun u => forallb (belowb u) (heads g')) (heads g)) l && check_order l end.
Context (mono : forall x y s t, P x -> P y -> x < y -> lex_lt (h x ++ s) (h y ++ t)).
Context (C1 : check_all = true) (C2 : check_same = true) (C3 : check_order gs = true).
Context (w : str) (M : list str) (F : Forall P w) (L : n < length w) (HM : Permutation M (rotations w)) (HS : StronglySorted lex_le M).
Context (HW : forall s, In s (rotations w) -> In (win n s) W).
Let IN s : In s M -> In s (rotations w).
Proof. intros H. now rewrite <- HM. Qed.
Let Nw : w <> [].
Proof using All. intros ->. cbn [length] in L. lia. Qed.
Lemma h_ne c : In c w -> h c <> [].
Proof using All.
  intros H. destruct (in_split c w H) as (u & v & E). assert (R : In (rot (length (u ++ [c])) w) (rotations w)).
  { apply in_rotations. destruct (Nat.lt_ge_cases (length (u ++ [c])) (length w)) as [D|D]; [exists (length (u ++ [c])); auto|].
    exists 0. split; [lia|]. rewrite rot_0. assert (EL : length (u ++ [c]) = length w) by (rewrite E, !app_length in *; cbn [length] in *; lia). rewrite EL. apply rot_all. }
  apply HW in R. unfold check_all in C1. rewrite forallb_forall in C1. apply C1 in R. apply andb_true_iff in R. destruct R as (_ & R).
  assert (EL : hd 0 (win n (rot (length (u ++ [c])) w)) = c).
  { unfold win. cbn [hd]. rewrite E. change (c :: v) with ([c] ++ v). rewrite app_assoc, rot_app', app_assoc. apply last_last. }
  rewrite EL in R. intros N. rewrite N in R. discriminate R.
Qed.
Lemma groups_perm : Permutation (flat_map (grows M) gs) (rotations (flat_map h w)).
Proof using All.
  rewrite (rotations_morph_perm h w M Nw h_ne HM).
  unfold grows, selected. rewrite (swap_groups (fun g s => rowt h (fst g (last s 0)) s) (fun g s => snd g (win n s)) gs M).
  assert (E : Permutation (map (flat_map h) M ++ flat_map (fun s => map (fun e => inner h e s) (seq 1 (length (h (last s 0)) - 1))) M) (flat_map (fun s => flat_map h s :: map (fun e => inner h e s) (seq 1 (length (h (last s 0)) - 1))) M)) by (symmetry; apply flat_map_cons_perm).
  rewrite E. clear E. assert (G : forall l, (forall s, In s l -> In s M) -> Permutation (flat_map (fun s => map (fun g => rowt h (fst g (last s 0)) s) (filter (fun g => snd g (win n s)) gs)) l)
    (flat_map (fun s => flat_map h s :: map (fun e => inner h e s) (seq 1 (length (h (last s 0)) - 1))) l)); [|now apply G].
  induction l as [|s l IH]; intros Hl; [constructor|]. cbn [flat_map]. apply (Permutation_app (l := map (fun g => rowt h (fst g (last s 0)) s) (filter (fun g => snd g (win n s)) gs)) (m' := flat_map (fun s => flat_map h s :: map (fun e => inner h e s) (seq 1 (length (h (last s 0)) - 1))) l)); [|apply IH; intros x Hx; apply Hl; now right].
  pose proof (HW s (IN s (Hl s (or_introl eq_refl)))) as V. unfold check_all in C1. rewrite forallb_forall in C1. apply C1 in V. apply andb_true_iff in V. destruct V as (V & V2). apply permb_ok in V.
  unfold win at 1 in V. unfold win at 2 in V. unfold win in V2. cbn [hd] in V, V2. apply negb_true_iff, Nat.eqb_neq in V2.
  rewrite <- (map_map (fun g => fst g (last s 0)) (fun t => rowt h t s)). apply (Permutation_map (fun t => rowt h t s)) in V. rewrite V. clear V.
  destruct (length (h (last s 0))) as [|m]; [congruence|]. cbn [seq map]. rewrite Nat.sub_succ, Nat.sub_0_r. constructor.
  apply Permutation_refl'. apply map_ext_in. intros e He. apply in_seq in He. destruct e; [lia|reflexivity].
Qed.
Lemma row_head g s : In s M -> snd g (win n s) = true -> exists r, rowt h (fst g (last s 0)) s = headt h g (win n s) ++ r.
Proof using All.
  intros H _. pose proof (rotations_len _ _ (IN s H)) as Ls. unfold headt, win. cbn [hd tl]. destruct (fst g (last s 0)) as [|e].
  - exists (flat_map h (skipn n s)). cbn [rowt]. now rewrite <- flat_map_app, firstn_skipn.
  - cbn [rowt]. unfold inner. exists (flat_map h (skipn n (removelast s)) ++ firstn (S e) (h (last s 0))). rewrite <- app_assoc. f_equal. rewrite app_assoc. f_equal.
    rewrite <- (firstn_skipn n (removelast s)) at 1. rewrite flat_map_app. f_equal. f_equal. rewrite removelast_firstn_, firstn_firstn. f_equal. lia.
Qed.
Lemma order_pairs l : check_order l = true -> forall a g b g' c, l = a ++ g :: b ++ g' :: c -> forall u v, In u (heads g) -> In v (heads g') -> below u v.
Proof using.
  intros H a. revert l H. induction a as [|x a IH]; intros l H g b g' c -> u v Hu Hv; cbn [app check_order] in H; apply andb_true_iff in H; destruct H as (H1 & H2).
  - rewrite forallb_forall in H1. specialize (H1 g' ltac:(apply in_or_app; right; now left)). rewrite forallb_forall in H1. specialize (H1 u Hu). rewrite forallb_forall in H1. apply belowb_ok. now apply H1.
  - now apply (IH _ H2 g b g' c eq_refl).
Qed.
Lemma in_heads g s : In s (selected g M) -> In (headt h g (win n s)) (heads g).
Proof using All. intros H. apply filter_In in H. destruct H as (H & E). apply in_map. apply filter_In. split; [apply HW, IN, H|exact E]. Qed.
Lemma group_sorted g : In g gs -> StronglySorted lex_le (grows M g).
Proof using All.
  intros Hg. unfold grows. apply (SS_map_in lex_le); [|now apply SS_filter]. intros s1 s2 H1 H2 Hl. apply filter_In in H1, H2. destruct H1 as (H1 & E1). destruct H2 as (H2 & E2).
  unfold check_same in C2. rewrite forallb_forall in C2. specialize (C2 g Hg).
  assert (V1 : In (win n s1) (filter (snd g) W)) by (apply filter_In; split; [apply HW, IN, H1|exact E1]).
  assert (V2 : In (win n s2) (filter (snd g) W)) by (apply filter_In; split; [apply HW, IN, H2|exact E2]).
  destruct (filter (snd g) W) as [|v0 vs]; [destruct V1|]. rewrite forallb_forall in C2. pose proof (C2 _ V1) as Q1. pose proof (C2 _ V2) as Q2. unfold win in Q1, Q2. cbn [hd] in Q1, Q2.
  destruct (fst g (hd 0 v0) =? 0) eqn:Z; cbn [negb andb] in Q1, Q2; rewrite ?andb_true_r, ?andb_false_r, ?orb_false_r, ?orb_false_l in Q1, Q2; cbn [orb andb] in Q1, Q2.
  - apply Nat.eqb_eq in Q1, Q2. rewrite Q1, Q2. cbn [rowt]. apply (image_sorted h P w); auto.
  - rewrite !andb_true_iff in Q1, Q2. destruct Q1 as (Q1 & Q3). destruct Q2 as (Q2 & Q4). try destruct Q1 as (Q1 & _). try destruct Q2 as (Q2 & _). apply negb_true_iff, Nat.eqb_neq in Q1, Q2.
    unfold streqb in Q3, Q4. destruct (list_eq_dec _ _ _) as [Q5|]; [|discriminate Q3]. destruct (list_eq_dec Nat.eq_dec (skipn (fst g (last s2 0)) _) _) as [Q6|]; [|discriminate Q4].
    assert (RT : forall t s, t <> 0 -> rowt h t s = inner h t s) by (intros [|t] s Ht; [congruence|reflexivity]). rewrite !RT by assumption.
    apply (inner_sorted h P w); auto; congruence.
Qed.
Lemma groups_sorted : StronglySorted lex_le (flat_map (grows M) gs).
Proof using All.
  assert (G : forall a b, gs = a ++ b -> StronglySorted lex_le (flat_map (grows M) b)); [|apply (G []); reflexivity].
  intros a b. revert a. induction b as [|g b IH]; intros a E; [constructor|]. cbn [flat_map]. apply SS_app.
  - apply group_sorted. rewrite E. apply in_or_app. right. now left.
  - apply (IH (a ++ [g])). rewrite <- app_assoc. exact E.
  - intros x y Hx Hy. right. apply in_flat_map in Hy. destruct Hy as (g' & Hg' & Hy). destruct (in_split _ _ Hg') as (b1 & b2 & ->).
    unfold grows in Hx, Hy. apply in_map_iff in Hx, Hy. destruct Hx as (s & <- & Hs). destruct Hy as (s' & <- & Hs').
    pose proof (order_pairs gs C3 a g b1 g' b2 E _ _ (in_heads g s Hs) (in_heads g' s' Hs')) as B.
    apply filter_In in Hs, Hs'. destruct (row_head g s ltac:(tauto) ltac:(tauto)) as (r & ->). destruct (row_head g' s' ltac:(tauto) ltac:(tauto)) as (r' & ->). now apply below_lt_app.
Qed.
(** the letter before each row *)
Lemma row_last g s : In s M -> In g gs -> snd g (win n s) = true -> last (rowt h (fst g (last s 0)) s) 0 = before h (fst g (last s 0)) (last s 0).
Proof using All.
  intros H Hg E. pose proof (HW s (IN s H)) as V. unfold check_all in C1. rewrite forallb_forall in C1. apply C1 in V. apply andb_true_iff in V. destruct V as (V & V2). apply permb_ok in V.
  assert (B : In (fst g (last s 0)) (seq 0 (length (h (last s 0))))).
  { unfold win at 3 in V. cbn [hd] in V. rewrite <- V. apply in_map_iff. exists g. split; [reflexivity|]. apply filter_In. auto. }
  apply in_seq in B. clear V. unfold win in V2. cbn [hd] in V2. apply negb_true_iff, Nat.eqb_neq in V2. destruct (fst g (last s 0)) as [|e].
  - cbn [rowt before]. apply last_flat_map; [apply (rotations_ne w), IN, H|]. intros N. rewrite N in V2. now apply V2.
  - cbn [rowt before]. unfold inner. assert (X : firstn (S e) (h (last s 0)) = firstn e (h (last s 0)) ++ [nth e (h (last s 0)) 0]).
    { clear -B. revert e B. generalize (h (last s 0)) as l. induction l as [|y l IH]; intros e B; [cbn [length] in B; lia|]. destruct e as [|e]; [reflexivity|].
      cbn [firstn nth app]. f_equal. apply IH. cbn [length] in B. lia. }
    rewrite X, !app_assoc. apply last_last.
Qed.
(** the part of the BWT that belongs to the rows that begin in a certain way *)
Definition part (phi : str -> bool) (M : list str) : str := map (fun s => last s 0) (filter phi M).
Definition gletters (g : group) : str := map (fun s => before h (fst g (last s 0)) (last s 0)) (selected g M).
Definition check_phi (k : nat) (phi : str -> bool) (flags : list bool) : bool :=
  (length flags =? length gs) && forallb (fun p => forallb (fun u => (k <=? length u) && Bool.eqb (phi (firstn k u)) (snd p)) (heads (fst p))) (combine gs flags).
Lemma part_groups k (phi : str -> bool) flags : (forall s, phi s = phi (firstn k s)) -> check_phi k phi flags = true ->
  part phi (flat_map (grows M) gs) = flat_map (fun p : group * bool => if snd p then gletters (fst p) else @nil nat) (combine gs flags).
Proof using All.
  intros Hk C. unfold check_phi in C. apply andb_true_iff in C. destruct C as (CL & C). apply Nat.eqb_eq in CL. rewrite forallb_forall in C.
  assert (G : forall l fl, length fl = length l -> (forall g, In g l -> In g gs) -> (forall p, In p (combine l fl) -> In p (combine gs flags)) ->
    part phi (flat_map (grows M) l) = flat_map (fun p : group * bool => if snd p then gletters (fst p) else @nil nat) (combine l fl)); [|apply G; auto].
  induction l as [|g l IH]; intros fl EL Hl Hc; [now destruct fl|]. destruct fl as [|f fl]; [discriminate EL|]. cbn [flat_map combine fst snd]. unfold part in *. rewrite filter_app, map_app.
  rewrite (IH fl) by (try (cbn [length] in EL; lia); intros; try apply Hl; try apply Hc; now right). f_equal. clear IH.
  specialize (C (g, f) (Hc _ (or_introl eq_refl))). cbn [fst snd] in C. rewrite forallb_forall in C.
  assert (Q : forall x, In x (grows M g) -> phi x = f).
  { intros x Hx. unfold grows in Hx. apply in_map_iff in Hx. destruct Hx as (s & <- & Hs). specialize (C _ (in_heads g s Hs)). apply filter_In in Hs. destruct Hs as (Hs & E).
    destruct (row_head g s Hs E) as (r & ->). apply andb_true_iff in C. destruct C as (C4 & C5). apply Nat.leb_le in C4. rewrite Hk, firstn_app. replace (k - length _) with 0 by lia. rewrite firstn_O, app_nil_r. now apply Bool.eqb_prop. }
  destruct f.
  - assert (FA : forall l0, (forall x, In x l0 -> phi x = true) -> filter phi l0 = l0).
    { induction l0 as [|x l0 IH]; intros H; [reflexivity|]. cbn [filter]. rewrite (H x (or_introl eq_refl)). f_equal. apply IH. intros y Hy. apply H. now right. }
    rewrite FA by exact Q. unfold grows, gletters. rewrite map_map. apply map_ext_in. intros s Hs. apply filter_In in Hs. apply row_last; [tauto|apply Hl; now left|tauto].
  - assert (FA : forall l0, (forall x, In x l0 -> phi x = false) -> filter phi l0 = []).
    { induction l0 as [|x l0 IH]; intros H; [reflexivity|]. cbn [filter]. rewrite (H x (or_introl eq_refl)). apply IH. intros y Hy. apply H. now right. }
    now rewrite FA.
Qed.
End Groups.

(** windows of the image *)
Definition check_windows (h : nat -> str) (m : nat) (V : list str) : bool :=
  forallb (fun v => forallb (fun e => (m <=? length (skipn e (flat_map h v))) && existsb (streqb (firstn m (skipn e (flat_map h v)))) V) (seq 0 (length (h (hd 0 v))))) V.
Lemma windows_step h m V w : check_windows h m V = true -> 1 <= m -> (forall s, In s (rotations w) -> In (firstn m s) V) ->
  forall s, In s (rotations (flat_map h w)) -> In (firstn m s) V.
Proof.
  intros C Hm H s Hs. rewrite rotations_morph in Hs. apply in_flat_map in Hs. destruct Hs as (s0 & Hs0 & Hs). unfold blk in Hs. apply in_map_iff in Hs. destruct Hs as (e & <- & He).
  pose proof (H s0 Hs0) as HV. unfold check_windows in C. rewrite forallb_forall in C. specialize (C _ HV). rewrite forallb_forall in C.
  assert (EH : hd 0 (firstn m s0) = hd 0 s0) by (destruct m; [lia|destruct s0; reflexivity]). rewrite EH in C. specialize (C e He). apply andb_true_iff in C. destruct C as (C1 & C2).
  apply Nat.leb_le in C1. apply existsb_exists in C2. destruct C2 as (v & Hv & E). unfold streqb in E. destruct (list_eq_dec _ _ _) as [E'|]; [|discriminate E].
  enough (X : firstn m (rot e (flat_map h s0)) = firstn m (skipn e (flat_map h (firstn m s0)))) by (rewrite X, E'; exact Hv).
  unfold rot. rewrite <- (firstn_skipn m s0) at 1. rewrite flat_map_app, skipn_app, <- app_assoc, firstn_app. replace (m - length _) with 0 by lia. now rewrite firstn_O, app_nil_r.
Qed.
Lemma windows_win n V w : n < length w -> (forall s, In s (rotations w) -> In (firstn (S n) s) V) -> forall s, In s (rotations w) -> In (win n s) V.
Proof.
  intros L H s Hs. pose proof (rotations_len _ _ Hs) as Ls. apply rotations_back in Hs. specialize (H _ Hs). cbn [firstn] in H. rewrite removelast_firstn_, firstn_firstn in H. replace (Nat.min n (length s - 1)) with n in H by lia. exact H.
Qed.
Definition windows_of (m : nat) (w : str) : list str := map (firstn m) (rotations w).
Definition check_base (m : nat) (V : list str) (w : str) : bool := forallb (fun v => existsb (streqb v) V) (windows_of m w).
Lemma base_ok m V w : check_base m V w = true -> forall s, In s (rotations w) -> In (firstn m s) V.
Proof.
  intros C s Hs. unfold check_base in C. rewrite forallb_forall in C. specialize (C (firstn m s) (in_map _ _ _ Hs)). apply existsb_exists in C. destruct C as (v & Hv & E). unfold streqb in E.
  destruct (list_eq_dec _ _ _) as [->|]; [exact Hv|discriminate E].
Qed.
