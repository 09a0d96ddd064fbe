(** RevFam.v : reversing the words of src/word.rs (C128) *)
From Verif Require Import Base SpecStr SpecIo SpecWord BwtFacts ModelWord WordProof WordProof2 WordProof3 WordProof4 PropsWord2.
From Coq Require Import NArith.

(** x is a rotation of y *)
Definition rotn (x y : str) : Prop := exists u v, y = u ++ v /\ x = v ++ u.
Lemma rotn_rot x y : rotn x y -> exists i, i <= length y /\ x = rot i y.
Proof.
  intros (u & v & -> & ->). exists (length u). split; [rewrite app_length; lia|]. unfold rot.
  rewrite skipn_app, skipn_all, Nat.sub_diag, firstn_app, firstn_all, Nat.sub_diag. cbn [skipn firstn app]. now rewrite app_nil_r.
Qed.
Lemma rot_rotn i y : rotn (rot i y) y.
Proof. exists (firstn i y), (skipn i y). now rewrite firstn_skipn. Qed.
Lemma rotn_refl x : rotn x x. Proof. exists [], x. now rewrite app_nil_r. Qed.
Lemma rotn_sym x y : rotn x y -> rotn y x.
Proof. intros (u & v & -> & ->). exists v, u. auto. Qed.
Lemma app_split (a b c d : str) : a ++ b = c ++ d -> (exists m, c = a ++ m /\ b = m ++ d) \/ (exists m, a = c ++ m /\ d = m ++ b).
Proof.
  revert c. induction a as [|x a IH]; intros c E.
  - left. exists c. auto.
  - destruct c as [|y c]; [right; exists (x :: a); auto|]. cbn [app] in E. injection E as -> E. destruct (IH _ E) as [(m & -> & ->)|(m & -> & ->)]; [left|right]; exists m; auto.
Qed.
Lemma rotn_trans x y z : rotn x y -> rotn y z -> rotn x z.
Proof.
  intros (u & v & -> & ->) (a & b & -> & E). destruct (app_split _ _ _ _ E) as [(m & -> & ->)|(m & -> & ->)].
  - exists (a ++ u), m. rewrite <- !app_assoc. auto.
  - exists m, (v ++ b). rewrite <- !app_assoc. auto.
Qed.
Lemma rotn_map (h : nat -> str) x y : rotn x y -> rotn (flat_map h x) (flat_map h y).
Proof. intros (u & v & -> & ->). exists (flat_map h u), (flat_map h v). rewrite !flat_map_app. auto. Qed.
Lemma rotn_rev x y : rotn x y -> rotn (rev x) (rev y).
Proof. intros (u & v & -> & ->). exists (rev v), (rev u). rewrite !rev_app_distr. auto. Qed.
(** X s = s Y makes Y a rotation of X, for s of at most one letter *)
Lemma rotn_one X Y a : X ++ [a] = a :: Y -> rotn Y X.
Proof.
  destruct X as [|x X]; cbn [app]; intros E.
  - injection E as <-. apply rotn_refl.
  - injection E as -> <-. exists [a], X. auto.
Qed.
(** a morphism with h(c) s = s rev (h c) *)
Lemma rev_morphism (h : nat -> str) (s w : str) : (forall c, In c w -> h c ++ s = s ++ rev (h c)) -> flat_map h (rev w) ++ s = s ++ rev (flat_map h w).
Proof.
  induction w as [|c w IH]; intros H.
  - cbn [rev flat_map app]. now rewrite app_nil_r.
  - cbn [rev flat_map]. rewrite flat_map_app, rev_app_distr. cbn [flat_map]. rewrite app_nil_r, <- app_assoc, (H c (or_introl eq_refl)), app_assoc, IH, <- app_assoc; [reflexivity|].
    intros d D. apply H. now right.
Qed.
Lemma rev_step (h : nat -> str) a w : (forall c, In c w -> h c ++ [a] = a :: rev (h c)) -> rotn (rev w) w -> rotn (rev (flat_map h w)) (flat_map h w).
Proof.
  intros H R. apply (rotn_trans _ (flat_map h (rev w))).
  - apply (rotn_one _ _ a). exact (rev_morphism h [a] w H).
  - now apply rotn_map.
Qed.
Lemma rev_iter (h : nat -> str) a w k : (forall c, h c ++ [a] = a :: rev (h c)) -> rotn (rev w) w -> rotn (rev (iter_morphism h k w)) (iter_morphism h k w).
Proof. intros H R. induction k as [|k IH]; [exact R|]. exact (rev_step h a _ (fun c _ => H c) IH). Qed.
Ltac letters := intros ?; unfold fibonacci_morphism, tribonacci_morphism, period_doubling_morphism; repeat (match goal with |- context [?a =? ?b] => destruct (a =? b) end); reflexivity.
Lemma fib_rev k : rotn (rev (fib_word k)) (fib_word k).
Proof. rewrite <- fib_word_iter. apply (rev_iter _ 97); [letters|apply rotn_refl]. Qed.
Lemma trib_rev k : rotn (rev (trib_word k)) (trib_word k).
Proof. rewrite <- trib_word_iter. apply (rev_iter _ 97); [letters|apply rotn_refl]. Qed.
Lemma pd_rev k : rotn (rev (iter_morphism period_doubling_morphism k [97])) (iter_morphism period_doubling_morphism k [97]).
Proof. apply (rev_iter _ 97); [letters|apply rotn_refl]. Qed.
(** the Lyndon factors of the infinite Fibonacci word are rotations of Fibonacci words *)
Lemma lw_fib k : rotn (lw k) (fib_word (2 * k + 1)).
Proof.
  induction k as [|k IH]; [exists [], [97; 98]; split; reflexivity|]. rewrite lw_S. replace (2 * S k + 1) with (S (S (2 * k + 1))) by lia. rewrite <- !fib_word_iter.
  change (iter_morphism fibonacci_morphism (S (S (2 * k + 1))) [97]) with (flat_map fibonacci_morphism (flat_map fibonacci_morphism (iter_morphism fibonacci_morphism (2 * k + 1) [97]))). rewrite fib_word_iter.
  apply (rotn_trans _ (flat_map fibonacci_morphism (flat_map fibonacci_morphism (lw k)))); [|now apply rotn_map, rotn_map]. clear IH.
  assert (G : forall w, Forall (fun c => c = 97 \/ c = 98) w -> flat_map fibonacci_morphism (flat_map fibonacci_morphism w) ++ [97; 98] = [97; 98] ++ flat_map lfm w).
  { induction 1 as [|c w [-> | ->] F IH]; [reflexivity| |]; cbn [flat_map]; rewrite flat_map_app, <- app_assoc, IH; reflexivity. }
  specialize (G (lw k) (lw_ab k)). set (X := flat_map fibonacci_morphism (flat_map fibonacci_morphism (lw k))) in *. set (Y := flat_map lfm (lw k)) in *. clearbody X Y.
  destruct X as [|x [|y X]]; cbn [app] in G.
  - injection G as <-. apply rotn_refl.
  - discriminate G.
  - injection G as -> -> <-. exists [97; 98], X. auto.
Qed.
Lemma lw_rev k : rotn (rev (lw k)) (lw k).
Proof. apply (rotn_trans _ _ _ (rotn_rev _ _ (lw_fib k))). apply (rotn_trans _ _ _ (fib_rev _)). apply rotn_sym, lw_fib. Qed.
(** ternary Thue-Morse *)
Definition swap_ac (c : nat) : nat := if c =? 97 then 99 else if c =? 99 then 97 else c.
Definition swap_ab (c : nat) : nat := if c =? 97 then 98 else if c =? 98 then 97 else c.
Definition abc3 (c : nat) : Prop := c = 97 \/ c = 98 \/ c = 99.
Lemma vtm_abc k : Forall abc3 (iter_morphism vtm_morphism k [97]).
Proof.
  induction k as [|k IH]; [repeat constructor|]. change (Forall abc3 (flat_map vtm_morphism (iter_morphism vtm_morphism k [97]))). rewrite Forall_forall in *. intros x Hx. apply in_flat_map in Hx.
  destruct Hx as (c & Hc & Hx). destruct (IH c Hc) as [-> | [-> | ->]]; unfold abc3; cbn in Hx; lia.
Qed.
Lemma vtm_even k : rotn (rev (iter_morphism vtm_morphism (2 * k) [97])) (iter_morphism vtm_morphism (2 * k) [97]).
Proof.
  induction k as [|k IH]; [apply rotn_refl|]. replace (2 * S k) with (S (S (2 * k))) by lia. set (w := iter_morphism vtm_morphism (2 * k) [97]) in *.
  change (iter_morphism vtm_morphism (S (S (2 * k))) [97]) with (flat_map vtm_morphism (flat_map vtm_morphism w)).
  assert (E : forall u, flat_map vtm_morphism (flat_map vtm_morphism u) = flat_map (fun c => flat_map vtm_morphism (vtm_morphism c)) u).
  { induction u as [|c u IHu]; [reflexivity|]. cbn [flat_map]. now rewrite flat_map_app, IHu. }
  rewrite E. apply (rev_step _ 97); [|exact IH]. pose proof (vtm_abc (2 * k)) as F. rewrite Forall_forall in F. intros c Hc. destruct (F c Hc) as [-> | [-> | ->]]; reflexivity.
Qed.
Lemma vtm_mirror w : Forall abc3 w -> map swap_ac (rev (flat_map vtm_morphism w)) = flat_map vtm_morphism (rev w).
Proof.
  induction 1 as [|c w Hc F IH]; [reflexivity|]. cbn [flat_map rev]. rewrite rev_app_distr, map_app, flat_map_app, IH. f_equal. destruct Hc as [-> | [-> | ->]]; reflexivity.
Qed.
Lemma vtm_odd k : rotn (map swap_ac (rev (iter_morphism vtm_morphism (2 * k + 1) [97]))) (iter_morphism vtm_morphism (2 * k + 1) [97]).
Proof.
  rewrite Nat.add_1_r. change (iter_morphism vtm_morphism (S (2 * k)) [97]) with (flat_map vtm_morphism (iter_morphism vtm_morphism (2 * k) [97])).
  rewrite vtm_mirror by apply vtm_abc. apply rotn_map, vtm_even.
Qed.
(** Thue-Morse *)
Definition two (c : nat) : Prop := c = 97 \/ c = 98.
Lemma tm_two w : Forall two w -> Forall two (flat_map thuemorse_morphism w).
Proof. intros F. rewrite Forall_forall in *. intros x Hx. apply in_flat_map in Hx. destruct Hx as (c & Hc & Hx). destruct (F c Hc) as [-> | ->]; unfold two; cbn in Hx; lia. Qed.
Lemma tm_swap w : Forall two w -> rev (flat_map thuemorse_morphism w) = map swap_ab (flat_map thuemorse_morphism (rev w)) /\ map swap_ab (flat_map thuemorse_morphism w) = flat_map thuemorse_morphism (map swap_ab w).
Proof.
  induction 1 as [|c w Hc F (IH & IH2)]; [split; reflexivity|]. cbn [flat_map rev map]. rewrite rev_app_distr, flat_map_app, !map_app, IH, IH2. split; f_equal; destruct Hc as [-> | ->]; reflexivity.
Qed.
Lemma swap_ab_twice w : Forall two w -> map swap_ab (map swap_ab w) = w.
Proof. induction 1 as [|c w Hc F IH]; [reflexivity|]. cbn [map]. rewrite IH. f_equal. destruct Hc as [-> | ->]; reflexivity. Qed.
Definition tmw (k : nat) : str := iter_morphism thuemorse_morphism k [97].
Lemma tmw_two k : Forall two (tmw k).
Proof. induction k as [|k IH]; [repeat constructor|]. exact (tm_two _ IH). Qed.
Lemma tm_rev k : rev (tmw k) = if Nat.even k then tmw k else map swap_ab (tmw k).
Proof.
  induction k as [|k IH]; [reflexivity|]. change (tmw (S k)) with (flat_map thuemorse_morphism (tmw k)). destruct (tm_swap _ (tmw_two k)) as (A & B). rewrite A, IH, Nat.even_succ, <- Nat.negb_even.
  destruct (Nat.even k); cbn [negb]; [reflexivity|]. rewrite <- B. apply swap_ab_twice, tm_two, tmw_two.
Qed.
Lemma tm_halves k : tmw (S k) = tmw k ++ map swap_ab (tmw k).
Proof.
  induction k as [|k IH]; [reflexivity|]. change (tmw (S (S k))) with (flat_map thuemorse_morphism (tmw (S k))). rewrite IH at 1. rewrite flat_map_app. destruct (tm_swap _ (tmw_two k)) as (_ & B). now rewrite <- B.
Qed.
Lemma tm_rotn k : rotn (rev (tmw k)) (tmw k).
Proof.
  rewrite tm_rev. destruct (Nat.even k) eqn:E; [apply rotn_refl|]. destruct k as [|k]; [discriminate E|]. rewrite tm_halves, map_app, swap_ab_twice by apply tmw_two. exists (tmw k), (map swap_ab (tmw k)). auto.
Qed.
(** palindromes inside: Fibonacci words without the last two letters, period-doubling words without the last *)
Lemma fib_pal k : exists P, rev P = P /\ fib_word (S k) = P ++ (if Nat.even k then [97; 98] else [98; 97]).
Proof.
  induction k as [|k (P & R & E)]; [exists []; auto|]. rewrite <- fib_word_iter. change (iter_morphism fibonacci_morphism (S (S k)) [97]) with (flat_map fibonacci_morphism (iter_morphism fibonacci_morphism (S k) [97])). rewrite fib_word_iter, E, flat_map_app.
  exists (flat_map fibonacci_morphism P ++ [97]). split.
  - rewrite rev_app_distr. cbn [rev app]. pose proof (rev_morphism fibonacci_morphism [97] P) as M. rewrite R in M. cbn [app] in M. symmetry. apply M. intros c _. revert c. letters.
  - rewrite <- app_assoc. f_equal. rewrite Nat.even_succ, <- Nat.negb_even. destruct (Nat.even k); reflexivity.
Qed.
Lemma pd_pal k : exists P, rev P = P /\ iter_morphism period_doubling_morphism k [97] = P ++ [if Nat.even k then 97 else 98].
Proof.
  induction k as [|k (P & R & E)]; [exists []; auto|]. change (iter_morphism period_doubling_morphism (S k) [97]) with (flat_map period_doubling_morphism (iter_morphism period_doubling_morphism k [97])). rewrite E, flat_map_app.
  exists (flat_map period_doubling_morphism P ++ [97]). split.
  - rewrite rev_app_distr. cbn [rev app]. pose proof (rev_morphism period_doubling_morphism [97] P) as M. rewrite R in M. cbn [app] in M. symmetry. apply M. intros c _. revert c. letters.
  - rewrite <- app_assoc. f_equal. rewrite Nat.even_succ, <- Nat.negb_even. destruct (Nat.even k); reflexivity.
Qed.
Lemma pd_two k : Forall two (iter_morphism period_doubling_morphism k [97]).
Proof.
  induction k as [|k IH]; [repeat constructor|]. change (Forall two (flat_map period_doubling_morphism (iter_morphism period_doubling_morphism k [97]))). rewrite Forall_forall in *. intros x Hx. apply in_flat_map in Hx.
  destruct Hx as (c & Hc & Hx). destruct (IH c Hc) as [-> | ->]; unfold two; cbn in Hx; lia.
Qed.
