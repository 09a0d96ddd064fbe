(** MorphBwt4.v : how the parts of the BWT change under a morphism, as a computable step (C129) *)
From Verif Require Import Base SpecStr SpecBwt SpecWord LexFacts BwtFacts LynMorph MorphBwt MorphBwt3.

(** a group: the position in the image of the last letter, a condition on that letter, and the part the row comes from *)
Definition tgroup : Type := (nat -> nat) * (nat -> bool) * nat.
Section Family.
Context (h : nat -> str) (P : nat -> Prop) (n : nat) (W : list str) (phis : list (nat -> nat -> nat -> bool)) (tgs : list tgroup) (dest : list nat).
Definition phi_of (i : nat) (s : str) : bool := nth i phis (fun _ _ _ => false) (hd 0 s) (nth 1 s 0) (nth 2 s 0).
Definition to_group (g : tgroup) : group := (fst (fst g), fun v => snd (fst g) (hd 0 v) && phi_of (snd g) (tl v)).
Definition gpiece (ps : list str) (g : tgroup) : str := map (fun x => before h (fst (fst g) x) x) (filter (snd (fst g)) (nth (snd g) ps [])).
Definition gstep (ps : list str) : list str :=
  map (fun j => flat_map (fun p => if snd p =? j then gpiece ps (fst p) else []) (combine tgs dest)) (seq 0 (length phis)).
Definition gs : list group := map to_group tgs.
Fixpoint sortedb (l : list nat) : bool := match l with [] => true | x :: l => forallb (fun y => x <=? y) l && sortedb l end.
Definition check_dest : bool := (length dest =? length tgs) && forallb (fun d => d <? length phis) dest && forallb (fun g => snd g <? length phis) tgs && sortedb dest && (3 <=? n).
Definition check_parts : bool := forallb (fun j => check_phi h W gs 3 (phi_of j) (map (fun d => d =? j) dest)) (seq 0 (length phis)).
Definition checks : bool := check_all h W gs && check_same h W gs && check_order h W gs && check_dest && check_parts.
Definition parts_of (M : list str) : list str := map (fun j => part (phi_of j) M) (seq 0 (length phis)).
Definition okstate (w : str) (ps : list str) : Prop :=
  exists M, Permutation M (rotations w) /\ StronglySorted lex_le M /\ ps = parts_of M /\ map (fun s => last s 0) M = concat ps.
Lemma okstate_bwt w ps : okstate w ps -> is_matrix_bwt w (concat ps).
Proof using. intros (M & A & B & C & D). exists M. auto. Qed.
Lemma phi_firstn i k s : 3 <= k -> phi_of i (firstn k s) = phi_of i s.
Proof using. intros H. unfold phi_of. destruct k as [|[|[|k]]]; [lia|lia|lia|]. destruct s as [|x [|y [|z s]]]; reflexivity. Qed.
Lemma filter_map {A B} (f : A -> B) (q : B -> bool) l : filter q (map f l) = map f (filter (fun x => q (f x)) l).
Proof using. induction l as [|x l IH]; [reflexivity|]. cbn [map filter]. destruct (q (f x)); cbn [map]; now rewrite IH. Qed.
Lemma filter_and {A} (p q : A -> bool) l : filter p (filter q l) = filter (fun x => p x && q x) l.
Proof using. induction l as [|x l IH]; [reflexivity|]. cbn [filter]. destruct (q x); cbn [filter]; destruct (p x); cbn [andb]; now rewrite IH. Qed.
Lemma piece_letters M g : 3 <= n -> snd g < length phis -> gletters h n M (to_group g) = gpiece (parts_of M) g.
Proof using.
  intros Hn Hg. unfold gletters, gpiece, selected, parts_of. cbn [to_group fst snd]. rewrite (nth_indep _ [] ((fun j => part (phi_of j) M) 0)) by (rewrite map_length, seq_length; exact Hg).
  rewrite (map_nth (fun j => part (phi_of j) M)), seq_nth by exact Hg. cbn [Nat.add]. unfold part. rewrite filter_map, map_map, filter_and. f_equal. apply filter_ext. intros s. unfold win. cbn [hd tl]. now rewrite phi_firstn.
Qed.
Lemma concat_sorted (A : Type) (f : A -> str) (l : list (A * nat)) : forall m a, StronglySorted (fun p q => snd p <= snd q) l -> (forall p, In p l -> a <= snd p < a + m) ->
  concat (map (fun j => flat_map (fun p => if snd p =? j then f (fst p) else []) l) (seq a m)) = flat_map (fun p => f (fst p)) l.
Proof using.
  induction l as [|p l IH]; intros m a HS Hb.
  - cbn [flat_map]. generalize (seq a m). induction l as [|x l IHl]; [reflexivity|exact IHl].
  - apply StronglySorted_inv in HS. destruct HS as (HS & HF). rewrite Forall_forall in HF. pose proof (Hb p (or_introl eq_refl)) as B. set (d := snd p) in *.
    cbn [flat_map]. rewrite <- (IH (a + m - d) d HS) by (intros q Hq; specialize (HF q Hq); specialize (Hb q (or_intror Hq)); lia).
    replace m with (d - a + S (a + m - d - 1)) by lia. rewrite seq_app, map_app, concat_app. replace (a + (d - a)) with d by lia.
    replace (a + (d - a + S (a + m - d - 1)) - d) with (S (a + m - d - 1)) by lia. cbn [seq map concat].
    assert (Z : forall g, (forall j, In j (seq a (d - a)) -> g j = @nil nat) -> concat (map g (seq a (d - a))) = []).
    { intros g. generalize (seq a (d - a)). induction l0 as [|x l0 IHl]; intros H; [reflexivity|]. cbn [map concat]. rewrite (H x (or_introl eq_refl)). apply IHl. intros j Hj. apply H. now right. }
    rewrite Z.
    2:{ intros j Hj. apply in_seq in Hj. fold d. replace (d =? j) with false by (symmetry; apply Nat.eqb_neq; lia). cbn [app].
        assert (G : forall l0, (forall q, In q l0 -> d <= snd q) -> flat_map (fun q => if snd q =? j then f (fst q) else []) l0 = []).
        { induction l0 as [|q l0 IHl]; intros H; [reflexivity|]. cbn [flat_map]. pose proof (H q (or_introl eq_refl)). replace (snd q =? j) with false by (symmetry; apply Nat.eqb_neq; lia). cbn [app]. apply IHl. intros x Hx. apply H. now right. }
        now apply G. }
    cbn [app]. fold d. rewrite Nat.eqb_refl, <- !app_assoc. f_equal. f_equal. f_equal. apply map_ext_in. intros j Hj. apply in_seq in Hj.
    replace (d =? j) with false by (symmetry; apply Nat.eqb_neq; lia). reflexivity.
Qed.
Lemma sortedb_ok l : sortedb l = true -> forall A (t : list A), StronglySorted (fun p q : A * nat => snd p <= snd q) (combine t l).
Proof using.
  induction l as [|x l IH]; intros H A t; [destruct t; constructor|]. cbn [sortedb] in H. apply andb_true_iff in H. destruct H as (H1 & H2). destruct t as [|y t]; [constructor|]. cbn [combine]. constructor; [now apply IH|].
  apply Forall_forall. intros (a & b) Hab. apply in_combine_r in Hab. rewrite forallb_forall in H1. apply Nat.leb_le. now apply H1.
Qed.
Lemma flat_combine {A B} (f : A -> str) (g : list A) (d : list B) : length d = length g -> flat_map (fun p => f (fst p)) (combine g d) = flat_map f g.
Proof using. revert d. induction g as [|x g IH]; intros [|y d] H; try discriminate H; [reflexivity|]. cbn [combine flat_map fst]. rewrite IH by (cbn [length] in H; lia). reflexivity. Qed.
Theorem family_step w ps : (forall x y s t, P x -> P y -> x < y -> lex_lt (h x ++ s) (h y ++ t)) -> checks = true ->
  Forall P w -> n < length w -> (forall s, In s (rotations w) -> In (win n s) W) -> okstate w ps -> okstate (flat_map h w) (gstep ps).
Proof using.
  intros mono C F L HW (M & HM & HS & -> & HC). unfold checks in C. rewrite !andb_true_iff in C. destruct C as ((((C1 & C2) & C3) & C4) & C5).
  unfold check_dest in C4. rewrite !andb_true_iff in C4. destruct C4 as ((((D1 & D2) & D3) & D4) & D5). apply Nat.eqb_eq in D1. apply Nat.leb_le in D5. rewrite forallb_forall in D2, D3.
  pose (M' := flat_map (grows h n M) gs). assert (PT : forall j, j < length phis -> part (phi_of j) M' = flat_map (fun p => if snd p =? j then gpiece (parts_of M) (fst p) else []) (combine tgs dest)).
  { intros j Hj. unfold check_parts in C5. rewrite forallb_forall in C5. specialize (C5 j ltac:(apply in_seq; lia)).
    unfold M'. rewrite (part_groups h P n W gs mono C1 C2 C3 w M F L HM HS HW 3 (phi_of j) (map (fun d => d =? j) dest)); [|intros s; symmetry; now apply phi_firstn|exact C5].
    unfold gs. clear -D3 D5. revert D3. generalize dest. induction tgs as [|g l IH]; intros [|d ds] D3; try reflexivity. cbn [map combine flat_map fst snd].
    rewrite IH by (intros x Hx; apply D3; now right). f_equal. destruct (d =? j); [|reflexivity]. apply piece_letters; [exact D5|]. apply Nat.ltb_lt. apply D3. now left. }
  assert (PE : parts_of M' = gstep (parts_of M)).
  { unfold gstep. unfold parts_of at 1. apply map_ext_in. intros j Hj. apply in_seq in Hj. apply PT. lia. }
  exists M'. split; [exact (groups_perm h P n W gs mono C1 C2 C3 w M F L HM HS HW)|]. split; [exact (groups_sorted h P n W gs mono C1 C2 C3 w M F L HM HS HW)|]. split; [symmetry; exact PE|].
  unfold gstep. rewrite concat_sorted.
  - rewrite flat_combine by exact D1. unfold M', gs.
    assert (G : forall l, (forall g, In g l -> In g tgs) -> map (fun s => last s 0) (flat_map (grows h n M) (map to_group l)) = flat_map (gpiece (parts_of M)) l); [|now apply G].
    induction l as [|g l IH]; intros H; [reflexivity|]. cbn [map flat_map]. rewrite map_app, IH by (intros x Hx; apply H; now right). f_equal.
    rewrite <- piece_letters; [|exact D5|apply Nat.ltb_lt, D3, H; now left]. unfold grows, gletters. rewrite map_map. apply map_ext_in. intros s Hs. apply filter_In in Hs. destruct Hs as (Hs & E).
    apply (row_last h P n W gs mono C1 C2 C3 w M F L HM HS HW); [exact Hs|apply in_map, H; now left|exact E].
  - now apply sortedb_ok.
  - intros (g & d) Hp. apply in_combine_r in Hp. cbn [snd]. apply D2 in Hp. apply Nat.ltb_lt in Hp. lia.
Qed.
(** the iterates *)
Theorem family_iter w ps k : (forall x y s t, P x -> P y -> x < y -> lex_lt (h x ++ s) (h y ++ t)) -> checks = true -> check_windows h (S n) W = true ->
  (forall x, P x -> Forall P (h x) /\ h x <> []) -> Forall P w -> n < length w -> check_base (S n) W w = true -> okstate w ps ->
  okstate (iter_morphism h k w) (Nat.iter k gstep ps).
Proof using.
  intros mono C CW HP F L B O.
  enough (G : okstate (iter_morphism h k w) (Nat.iter k gstep ps) /\ Forall P (iter_morphism h k w) /\ n < length (iter_morphism h k w) /\ (forall s, In s (rotations (iter_morphism h k w)) -> In (firstn (S n) s) W)) by apply G.
  induction k as [|k (O1 & F1 & L1 & W1)]; [split; [exact O|]; split; [exact F|]; split; [exact L|]; now apply base_ok|].
  change (iter_morphism h (S k) w) with (flat_map h (iter_morphism h k w)). set (u := iter_morphism h k w) in *. clearbody u.
  split; [|split; [|split]].
  - change (okstate (flat_map h u) (gstep (Nat.iter k gstep ps))). apply family_step; auto. intros s Hs. now apply (windows_win n W u).
  - clear -F1 HP. induction F1 as [|c u Hc F1 IH]; [constructor|]. cbn [flat_map]. apply Forall_app. split; [now apply HP|exact IH].
  - apply (Nat.lt_le_trans _ _ _ L1). clear -F1 HP. induction F1 as [|c u Hc F1 IH]; [cbn; lia|]. cbn [flat_map]. rewrite app_length. destruct (HP c Hc) as (_ & N). destruct (h c); [congruence|]. cbn [length]. lia.
  - apply (windows_step h (S n) W u CW); [lia|exact W1].
Qed.
End Family.
(** a state found by computing *)
Fixpoint put_row (s : str) (l : list str) : list str := match l with [] => [s] | t :: r => if lex_ltb t s then t :: put_row s r else s :: l end.
Definition sort_rows (w : str) : list str := fold_right put_row [] (rotations w).
Lemma put_row_perm s l : Permutation (put_row s l) (s :: l).
Proof. induction l as [|t r IH]; [reflexivity|]. cbn [put_row]. destruct (lex_ltb t s); [|reflexivity]. rewrite IH. apply perm_swap. Qed.
Lemma sort_rows_perm w : Permutation (sort_rows w) (rotations w).
Proof. unfold sort_rows. induction (rotations w) as [|s l IH]; [reflexivity|]. cbn [fold_right]. rewrite put_row_perm. now constructor. Qed.
Fixpoint rows_sorted (l : list str) : bool := match l with [] => true | s :: r => forallb (fun t => streqb s t || lex_ltb s t) r && rows_sorted r end.
Lemma rows_sorted_ok l : rows_sorted l = true -> StronglySorted lex_le l.
Proof.
  induction l as [|s l IH]; intros H; [constructor|]. cbn [rows_sorted] in H. apply andb_true_iff in H. destruct H as (H1 & H2). constructor; [now apply IH|].
  apply Forall_forall. intros t Ht. rewrite forallb_forall in H1. apply H1 in Ht. apply orb_true_iff in Ht. destruct Ht as [Ht|Ht]; [left|right; now apply lex_ltb_ok].
  unfold streqb in Ht. destruct (list_eq_dec _ _ _); [assumption|discriminate].
Qed.
Definition base_parts (phis : list (nat -> nat -> nat -> bool)) (w : str) : list str := parts_of phis (sort_rows w).
Lemma base_state phis w : rows_sorted (sort_rows w) = true -> streqb (map (fun s => last s 0) (sort_rows w)) (concat (base_parts phis w)) = true -> okstate phis w (base_parts phis w).
Proof.
  intros H1 H2. exists (sort_rows w). split; [apply sort_rows_perm|]. split; [now apply rows_sorted_ok|]. split; [reflexivity|]. unfold streqb in H2. destruct (list_eq_dec _ _ _); [assumption|discriminate].
Qed.
