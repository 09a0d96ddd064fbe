(** MorphBwt.v : the matrix BWT of the image of a word under a morphism; Thue-Morse, period-doubling and ternary Thue-Morse words. *)
From Verif Require Import Base SpecStr SpecBwt SpecWord LexFacts BwtFacts.

Lemma flat_map_ext_in_ {A B} (f g : A -> list B) l : (forall a, In a l -> f a = g a) -> flat_map f l = flat_map g l.
Proof. intros H. induction l as [|a l IH]; [reflexivity|]. cbn [flat_map]. rewrite H by now left. rewrite IH; [reflexivity|]. intros; apply H; now right. Qed.

Section Morph.
Context (h : nat -> str).

Definition inner (e : nat) (s : str) : str :=
  skipn e (h (last s 0)) ++ flat_map h (removelast s) ++ firstn e (h (last s 0)).
Definition blk (s : str) : list str := map (fun e => rot e (flat_map h s)) (seq 0 (length (h (hd 0 s)))).

Lemma rot_app' (u v : str) : rot (length u) (u ++ v) = v ++ u.
Proof. unfold rot. rewrite skipn_app, skipn_all, Nat.sub_diag, firstn_app, firstn_all, Nat.sub_diag. cbn [skipn firstn app]. now rewrite app_nil_r. Qed.

Lemma rotations_morph_gen w v : forall u, w = u ++ v ->
  map (fun p => rot p (flat_map h w)) (seq (length (flat_map h u)) (length (flat_map h v))) =
  flat_map blk (map (fun i => rot i w) (seq (length u) (length v))).
Proof.
  induction v as [|x v IH]; intros u E; [reflexivity|].
  cbn [flat_map length seq map]. rewrite app_length, seq_app, map_app. f_equal.
  - rewrite E. rewrite (rot_app' u (x :: v)). unfold blk. cbn [hd app].
    rewrite (flat_map_app _ u). rewrite <- (Nat.add_0_r (length (flat_map h u))).
    assert (G : forall m a l, a + l <= length (h x) -> map (fun p => rot p (flat_map h u ++ flat_map h (x :: v))) (seq (m + a) l) =
       map (fun e => rot (m + e) (flat_map h u ++ flat_map h (x :: v))) (seq a l)).
    { intros m a l. revert a. induction l as [|l IHl]; intros a Ha; [reflexivity|]. cbn [seq map]. f_equal.
      rewrite <- IHl by lia. f_equal. f_equal. lia. }
    rewrite G by lia. apply map_ext_in. intros e He. apply in_seq in He.
    assert (L : length (flat_map h (x :: v)) = length (h x) + length (flat_map h v)) by (cbn [flat_map]; now rewrite app_length).
    rewrite Nat.add_comm. destruct (Nat.eq_dec (length (flat_map h u)) 0) as [Z|NZ].
    { rewrite Z, Nat.add_0_r. apply length_zero_iff_nil in Z. rewrite Z. cbn [app].
      change (x :: v ++ u) with ((x :: v) ++ u). now rewrite flat_map_app, Z, app_nil_r. }
    change (x :: v ++ u) with ((x :: v) ++ u). rewrite flat_map_app, <- (rot_app' (flat_map h u) (flat_map h (x :: v))).
    rewrite (rot_rot _ e (length (flat_map h u))) by (rewrite app_length, L; lia).
    rewrite (Nat.mod_small (e + length (flat_map h u))) by (rewrite app_length, L; lia). reflexivity.
  - specialize (IH (u ++ [x])). rewrite flat_map_app, !app_length in IH. cbn [flat_map length] in IH. rewrite app_nil_r, Nat.add_1_r in IH.
    apply IH. rewrite E, <- app_assoc. reflexivity.
Qed.
Lemma rotations_morph w : rotations (flat_map h w) = flat_map blk (rotations w).
Proof. exact (rotations_morph_gen w w [] eq_refl). Qed.

Lemma rotback_eq s : s <> [] -> rotback s = last s 0 :: removelast s.
Proof.
  intros N. transitivity (rotback (removelast s ++ [last s 0])); [now rewrite <- (app_removelast_last 0 N)|].
  unfold rotback. rewrite app_length. cbn [length].
  replace (length (removelast s) + 1 - 1) with (length (removelast s)) by lia. now rewrite rot_app'.
Qed.
Lemma blk_rotback s : s <> [] -> blk (rotback s) = map (fun e => inner e s) (seq 0 (length (h (last s 0)))).
Proof.
  intros N. rewrite rotback_eq by exact N. unfold blk. cbn [hd flat_map]. apply map_ext_in. intros e He. apply in_seq in He.
  unfold inner, rot. rewrite skipn_app, firstn_app. replace (e - length (h (last s 0))) with 0 by lia. cbn [skipn firstn].
  now rewrite app_nil_r, <- app_assoc.
Qed.
Lemma inner_0 s : s <> [] -> inner 0 s = flat_map h (rotback s).
Proof. intros N. rewrite rotback_eq by exact N. unfold inner. cbn [skipn firstn flat_map]. now rewrite app_nil_r. Qed.

Lemma flat_map_cons_perm {A B} (f : A -> B) (g : A -> list B) M : Permutation (flat_map (fun s => f s :: g s) M) (map f M ++ flat_map g M).
Proof.
  induction M as [|s M IH]; [constructor|]. cbn [flat_map map app]. constructor. rewrite IH, !app_assoc. apply Permutation_app_tail, Permutation_app_comm.
Qed.
Lemma rotations_ne w s : In s (rotations w) -> s <> [].
Proof. intros H E. apply in_rotations in H. destruct H as (i & Hi & ->). pose proof (rot_length i w) as L. rewrite E in L. cbn in L. lia. Qed.

Theorem rotations_morph_perm w M : w <> [] -> (forall c, In c w -> h c <> []) -> Permutation M (rotations w) ->
  Permutation (rotations (flat_map h w))
    (map (flat_map h) M ++ flat_map (fun s => map (fun e => inner e s) (seq 1 (length (h (last s 0)) - 1))) M).
Proof.
  intros Nw Hh HM. rewrite rotations_morph.
  assert (RB : Permutation (map rotback M) M).
  { rewrite HM. now apply rotations_rotback. }
  assert (NE : forall s, In s M -> s <> []) by (intros s Hs; apply (rotations_ne w); now rewrite <- HM).
  assert (LN : forall s, In s M -> h (last s 0) <> []).
  { intros s Hs. apply Hh. rewrite HM in Hs. rewrite <- (last_rotations_perm w). now apply (in_map (fun r => last r 0)). }
  rewrite <- HM. rewrite <- RB at 1. rewrite flat_map_concat_map, map_map, <- flat_map_concat_map.
  rewrite (flat_map_ext_in_ (fun s => blk (rotback s)) (fun s => flat_map h (rotback s) :: map (fun e => inner e s) (seq 1 (length (h (last s 0)) - 1))) M).
  2:{ intros s Hs. rewrite blk_rotback by now apply NE. pose proof (LN s Hs) as Q. destruct (h (last s 0)) as [|y l] eqn:E; [easy|].
      cbn [length seq map]. rewrite inner_0 by now apply NE. now rewrite Nat.sub_0_r || now replace (S (length l) - 1) with (length l) by lia. }
  rewrite flat_map_cons_perm. apply Permutation_app_tail. rewrite <- (map_map rotback (flat_map h)). now apply Permutation_map.
Qed.
End Morph.

(** ** order *)
Section Order.
Context (h : nat -> str) (P : nat -> Prop).
Lemma morph_lt : (forall x y s t, P x -> P y -> x < y -> lex_lt (h x ++ s) (h y ++ t)) ->
  forall u v p q, lex_lt u v -> length u = length v -> Forall P u -> Forall P v -> lex_lt (flat_map h u ++ p) (flat_map h v ++ q).
Proof.
  intros H u v p q L. induction L as [y ys|x y xs ys Hxy|x xs ys L IH]; intros E Fu Fv; [discriminate| |].
  - cbn [flat_map]. rewrite <- !app_assoc. inversion Fu; subst. inversion Fv; subst. now apply H.
  - cbn [flat_map]. rewrite <- !app_assoc. apply lex_lt_app_same. inversion Fu; subst. inversion Fv; subst. apply IH; auto.
Qed.
Lemma morph_gt : (forall x y s t, P x -> P y -> x < y -> lex_lt (h y ++ s) (h x ++ t)) ->
  forall u v p q, lex_lt u v -> length u = length v -> Forall P u -> Forall P v -> lex_lt (flat_map h v ++ p) (flat_map h u ++ q).
Proof.
  intros H u v p q L. induction L as [y ys|x y xs ys Hxy|x xs ys L IH]; intros E Fu Fv; [discriminate| |].
  - cbn [flat_map]. rewrite <- !app_assoc. inversion Fu; subst. inversion Fv; subst. now apply H.
  - cbn [flat_map]. rewrite <- !app_assoc. apply lex_lt_app_same. inversion Fu; subst. inversion Fv; subst. apply IH; auto.
Qed.
End Order.

Lemma SS_app {A} (R : A -> A -> Prop) l1 l2 : StronglySorted R l1 -> StronglySorted R l2 -> (forall a b, In a l1 -> In b l2 -> R a b) ->
  StronglySorted R (l1 ++ l2).
Proof.
  intros H1 H2 H. induction H1 as [|x l HS IH HF]; [exact H2|]. cbn [app]. constructor.
  - apply IH. intros a b Ha. apply H. now right.
  - rewrite Forall_forall in *. intros y Hy. apply in_app_or in Hy. destruct Hy as [Hy|Hy]; [now apply HF|apply H; [now left|exact Hy]].
Qed.
Lemma SS_filter {A} (R : A -> A -> Prop) (f : A -> bool) l : StronglySorted R l -> StronglySorted R (filter f l).
Proof.
  induction 1 as [|x l HS IH HF]; [constructor|]. cbn [filter]. destruct (f x); [|exact IH]. constructor; [exact IH|].
  rewrite Forall_forall in *. intros y Hy. apply filter_In in Hy. now apply HF.
Qed.
Lemma SS_rev {A} (R : A -> A -> Prop) l : StronglySorted R l -> StronglySorted (fun a b => R b a) (rev l).
Proof.
  induction 1 as [|x l HS IH HF]; [constructor|]. cbn [rev]. apply SS_app; [exact IH|repeat constructor|].
  intros a b Ha [<-|[]]. rewrite <- in_rev in Ha. rewrite Forall_forall in HF. now apply HF.
Qed.
Lemma SS_map_in {A B} (R : A -> A -> Prop) (Q : B -> B -> Prop) (f : A -> B) l :
  (forall a b, In a l -> In b l -> R a b -> Q (f a) (f b)) -> StronglySorted R l -> StronglySorted Q (map f l).
Proof.
  intros H HS. apply (StronglySorted_map (fun a b => Q (f a) (f b))); [auto|]. now apply (StronglySorted_imp_in R).
Qed.
Lemma filter_split {A} (f : A -> bool) l : Permutation (filter f l ++ filter (fun x => negb (f x)) l) l.
Proof.
  induction l as [|x l IH]; [constructor|]. cbn [filter]. destruct (f x); cbn [negb app].
  - now constructor.
  - rewrite <- Permutation_middle. now constructor.
Qed.
Lemma filter_length_count {A} (g : A -> nat) c l : length (filter (fun s => g s =? c) l) = count_occ Nat.eq_dec (map g l) c.
Proof.
  induction l as [|s l IH]; [reflexivity|]. cbn [filter map count_occ]. destruct (Nat.eqb_spec (g s) c) as [E|E]; destruct (Nat.eq_dec (g s) c); try contradiction; cbn [length]; lia.
Qed.
Lemma count_perm (l l' : str) c : Permutation l l' -> count_occ Nat.eq_dec l c = count_occ Nat.eq_dec l' c.
Proof. intros H. revert c. now apply (Permutation_count_occ Nat.eq_dec). Qed.

(** ** rotations of one word *)
Lemma removelast_firstn_ {A} (s : list A) : removelast s = firstn (length s - 1) s.
Proof. rewrite removelast_firstn_len. f_equal. lia. Qed.
Lemma rot_perm i (w : str) : Permutation (rot i w) w.
Proof. unfold rot. rewrite Permutation_app_comm. now rewrite firstn_skipn. Qed.
Lemma rotations_len w s : In s (rotations w) -> length s = length w.
Proof. intros H. apply in_rotations in H. destruct H as (i & Hi & ->). apply rot_length. Qed.
Lemma rotations_Forall (P : nat -> Prop) w s : Forall P w -> In s (rotations w) -> Forall P s.
Proof. intros F H. apply in_rotations in H. destruct H as (i & Hi & ->). rewrite Forall_forall in *. intros x Hx. apply F. now rewrite <- (rot_perm i w). Qed.
Lemma rotations_back w s : In s (rotations w) -> In (last s 0 :: removelast s) (rotations w).
Proof.
  intros H. pose proof (rotations_ne w s H) as N. rewrite <- rotback_eq by exact N.
  rewrite <- rotations_rotback; [now apply in_map|]. intros ->. exact H.
Qed.
Lemma rotations_removelast w s1 s2 : In s1 (rotations w) -> In s2 (rotations w) -> lex_le s1 s2 ->
  s1 = s2 \/ lex_lt (removelast s1) (removelast s2).
Proof.
  intros H1 H2 L. pose proof (rotations_ne _ _ H1) as N1. pose proof (rotations_ne _ _ H2) as N2.
  pose proof (rotations_len _ _ H1) as L1. pose proof (rotations_len _ _ H2) as L2.
  assert (E : lex_le (removelast s1) (removelast s2)) by (rewrite !removelast_firstn_, L1, L2; now apply lex_le_firstn).
  destruct E as [E|E]; [left|now right].
  rewrite (app_removelast_last 0 N1), (app_removelast_last 0 N2), E. f_equal.
  apply Permutation_length_1_inv. apply (Permutation_app_inv_l (removelast s2)).
  rewrite <- (app_removelast_last 0 N2). rewrite <- E, <- (app_removelast_last 0 N1).
  apply in_rotations in H1. apply in_rotations in H2. destruct H1 as (i & _ & ->). destruct H2 as (j & _ & ->). rewrite rot_perm. now rewrite rot_perm.
Qed.
Lemma hd_rotations_perm w : Permutation (map (hd 0) (rotations w)) w.
Proof.
  destruct w as [|c w]; [constructor|]. rewrite <- (rotations_rotback (c :: w)) by discriminate. rewrite map_map.
  rewrite (map_ext_in _ (fun s => last s 0)); [apply last_rotations_perm|]. intros s Hs. rewrite rotback_eq by (eapply rotations_ne; eassumption). reflexivity.
Qed.
Lemma last_flat_map h s : s <> [] -> h (last s 0) <> [] -> last (flat_map h s) 0 = last (h (last s 0)) 0.
Proof.
  intros N H. rewrite (app_removelast_last 0 N) at 1. rewrite flat_map_app. cbn [flat_map]. rewrite app_nil_r.
  rewrite (app_removelast_last 0 H) at 1. rewrite app_assoc. apply last_last.
Qed.
Lemma inner_sorted h (P : nat -> Prop) w e1 e2 s1 s2 : (forall x y s t, P x -> P y -> x < y -> lex_lt (h x ++ s) (h y ++ t)) -> Forall P w ->
  In s1 (rotations w) -> In s2 (rotations w) -> lex_le s1 s2 -> (last s1 0 = last s2 0 -> e1 = e2) ->
  skipn e1 (h (last s1 0)) = skipn e2 (h (last s2 0)) -> lex_le (inner h e1 s1) (inner h e2 s2).
Proof.
  intros H F H1 H2 L HE E. destruct (rotations_removelast w s1 s2 H1 H2 L) as [->|Lt]; [left; now rewrite HE|right].
  unfold inner. rewrite E. apply lex_lt_app_same. apply (morph_lt h P H); auto.
  - rewrite !removelast_firstn_, !firstn_length, (rotations_len _ _ H1), (rotations_len _ _ H2). reflexivity.
  - pose proof (rotations_Forall P w s1 F H1) as G. rewrite removelast_firstn_. rewrite <- (firstn_skipn (length s1 - 1)) in G. now apply Forall_app in G.
  - pose proof (rotations_Forall P w s2 F H2) as G. rewrite removelast_firstn_. rewrite <- (firstn_skipn (length s2 - 1)) in G. now apply Forall_app in G.
Qed.
Lemma inner_sorted_rev h (P : nat -> Prop) w e1 e2 s1 s2 : (forall x y s t, P x -> P y -> x < y -> lex_lt (h y ++ s) (h x ++ t)) -> Forall P w ->
  In s1 (rotations w) -> In s2 (rotations w) -> lex_le s1 s2 -> (last s1 0 = last s2 0 -> e1 = e2) ->
  skipn e1 (h (last s1 0)) = skipn e2 (h (last s2 0)) -> lex_le (inner h e2 s2) (inner h e1 s1).
Proof.
  intros H F H1 H2 L HE E. destruct (rotations_removelast w s1 s2 H1 H2 L) as [->|Lt]; [left; now rewrite HE|right].
  unfold inner. rewrite E. apply lex_lt_app_same. apply (morph_gt h P H); auto.
  - rewrite !removelast_firstn_, !firstn_length, (rotations_len _ _ H1), (rotations_len _ _ H2). reflexivity.
  - pose proof (rotations_Forall P w s1 F H1) as G. rewrite removelast_firstn_. rewrite <- (firstn_skipn (length s1 - 1)) in G. now apply Forall_app in G.
  - pose proof (rotations_Forall P w s2 F H2) as G. rewrite removelast_firstn_. rewrite <- (firstn_skipn (length s2 - 1)) in G. now apply Forall_app in G.
Qed.
Lemma image_sorted h (P : nat -> Prop) w s1 s2 : (forall x y s t, P x -> P y -> x < y -> lex_lt (h x ++ s) (h y ++ t)) -> Forall P w ->
  In s1 (rotations w) -> In s2 (rotations w) -> lex_le s1 s2 -> lex_le (flat_map h s1) (flat_map h s2).
Proof.
  intros H F H1 H2 [->|L]; [now left|right]. rewrite <- (app_nil_r (flat_map h s1)), <- (app_nil_r (flat_map h s2)).
  apply (morph_lt h P H); auto; [now rewrite (rotations_len _ _ H1), (rotations_len _ _ H2)|now apply (rotations_Forall P w)|now apply (rotations_Forall P w)].
Qed.
Lemma image_sorted_rev h (P : nat -> Prop) w s1 s2 : (forall x y s t, P x -> P y -> x < y -> lex_lt (h y ++ s) (h x ++ t)) -> Forall P w ->
  In s1 (rotations w) -> In s2 (rotations w) -> lex_le s1 s2 -> lex_le (flat_map h s2) (flat_map h s1).
Proof.
  intros H F H1 H2 [->|L]; [now left|right]. rewrite <- (app_nil_r (flat_map h s1)), <- (app_nil_r (flat_map h s2)).
  apply (morph_gt h P H); auto; [now rewrite (rotations_len _ _ H1), (rotations_len _ _ H2)|now apply (rotations_Forall P w)|now apply (rotations_Forall P w)].
Qed.
