(** FibFacts.v : repetitions in the finite Fibonacci words. *)
From Verif Require Import Base SpecStr SpecLz SpecAttr SpecWord.
From Coq Require Import NArith.

Notation F := fib_word.
Definition f (n : nat) : nat := length (F n).
Lemma F_SS n : F (S (S n)) = F (S n) ++ F n.
Proof. reflexivity. Qed.
Lemma f_SS n : f (S (S n)) = f (S n) + f n.
Proof. unfold f. rewrite F_SS, app_length. reflexivity. Qed.
Lemma f_pos n : 1 <= f n.
Proof. induction n as [n IH] using lt_wf_ind. destruct n as [|[|n]]; [apply le_n|unfold f; simpl; lia|]. rewrite f_SS. specialize (IH n ltac:(lia)). lia. Qed.
Lemma f_S n : 2 <= f (S n).
Proof. destruct n as [|n]; [unfold f; simpl; lia|]. rewrite f_SS. pose proof (f_pos n). pose proof (f_pos (S n)). lia. Qed.
Lemma f_mono n : f n <= f (S n).
Proof. destruct n as [|n]; [unfold f; simpl; lia|]. rewrite f_SS. lia. Qed.
Lemma F_letters n : Forall (fun c => c = 97 \/ c = 98) (F n).
Proof.
  induction n as [n IH] using lt_wf_ind. destruct n as [|[|n]].
  - constructor; auto.
  - constructor; [auto|constructor; auto].
  - rewrite F_SS. apply Forall_app. split; apply IH; lia.
Qed.
Notation "W @ i" := (nth i W 0) (at level 20).
(** F n is a prefix of F (n+1) *)
Lemma F_prefix n i : i < f n -> F (S n) @ i = F n @ i.
Proof.
  intros H. destruct n as [|n]; [unfold f in H; simpl in H; assert (i = 0) by lia; subst; reflexivity|].
  rewrite F_SS, app_nth1 by exact H. reflexivity.
Qed.
Lemma F_tail n i : F (S (S n)) @ (f (S n) + i) = F n @ i.
Proof. rewrite F_SS, app_nth2 by (unfold f; lia). f_equal. unfold f. lia. Qed.
(** the two products differ exactly in the last two letters *)
Lemma near_commute n : exists P x y, x <> y /\ F (S n) ++ F n = P ++ [x; y] /\ F n ++ F (S n) = P ++ [y; x].
Proof.
  induction n as [|n (P & x & y & N & E1 & E2)]; [exists [97], 98, 97; repeat split; discriminate|].
  exists (F (S n) ++ P), y, x. split; [auto|]. rewrite F_SS, <- !app_assoc. split; [now rewrite E2|now rewrite E1].
Qed.
Lemma app_snoc2_nth (P : str) x y i : i < length P -> (P ++ [x; y]) @ i = P @ i.
Proof. intros H. now rewrite app_nth1. Qed.
Lemma F_period n i : i + f n + 2 < f (S (S n)) -> F (S (S n)) @ (i + f n) = F (S (S n)) @ i.
Proof.
  intros H. destruct (near_commute n) as (P & x & y & N & E1 & E2).
  assert (LP : length P + 2 = f (S (S n))) by (unfold f; rewrite F_SS, E1, app_length; simpl; lia).
  rewrite F_SS. rewrite E1 at 1. rewrite app_nth1 by lia. rewrite <- (app_nth1 P [y; x]) by lia. rewrite <- E2.
  rewrite app_nth2 by (unfold f; lia). replace (i + f n - length (F n)) with i by (unfold f; lia).
  rewrite f_SS in H. rewrite app_nth1 by (unfold f in *; lia). reflexivity.
Qed.
Lemma F_mismatch n : exists x y, x <> y /\
  F (S (S n)) @ (f (S n) - 2) = y /\ F (S (S n)) @ (f (S n) - 1) = x /\
  F (S (S n)) @ (f (S n) - 2 + f n) = x /\ F (S (S n)) @ (f (S n) - 1 + f n) = y.
Proof.
  destruct (near_commute n) as (P & x & y & N & E1 & E2). exists x, y. split; [exact N|].
  pose proof (f_S n) as L2. pose proof (f_SS n) as LS.
  assert (LP : length P + 2 = f (S (S n))) by (unfold f; rewrite F_SS, E1, app_length; simpl; lia).
  assert (G : forall i, i < f (S n) -> F (S (S n)) @ i = (P ++ [y; x]) @ (i + f n)).
  { intros i Hi. rewrite <- E2, app_nth2 by (unfold f; lia). replace (i + f n - length (F n)) with i by (unfold f; lia). now apply F_prefix. }
  assert (G2 : forall i, F (S (S n)) @ i = (P ++ [x; y]) @ i) by (intros i; now rewrite F_SS, E1).
  split; [|split; [|split]].
  - rewrite G by lia. replace (f (S n) - 2 + f n) with (length P) by lia. rewrite app_nth2 by lia. now rewrite Nat.sub_diag.
  - rewrite G by lia. replace (f (S n) - 1 + f n) with (length P + 1) by lia. rewrite app_nth2 by lia. now replace (length P + 1 - length P) with 1 by lia.
  - rewrite G2. replace (f (S n) - 2 + f n) with (length P) by lia. rewrite app_nth2 by lia. now rewrite Nat.sub_diag.
  - rewrite G2. replace (f (S n) - 1 + f n) with (length P + 1) by lia. rewrite app_nth2 by lia. now replace (length P + 1 - length P) with 1 by lia.
Qed.
Lemma same_prefix n j i l : same_substring (F n) j i l -> same_substring (F (S n)) j i l.
Proof.
  intros (H1 & H2 & H3). pose proof (f_mono n) as M. unfold f in M. split; [lia|]. split; [lia|]. intros x Hx.
  rewrite !F_prefix by (unfold f; lia). auto.
Qed.
Lemma same_trans s a b c l : same_substring s a b l -> same_substring s b c l -> same_substring s a c l.
Proof. intros (H1 & H2 & H3) (H4 & H5 & H6). split; [lia|]. split; [lia|]. intros x Hx. rewrite H3, H6; auto. Qed.
Lemma same_sym s a b l : same_substring s a b l -> same_substring s b a l.
Proof. intros (H1 & H2 & H3). split; [lia|]. split; [lia|]. intros x Hx. now rewrite H3. Qed.
Lemma same_refl s i l : i + l <= length s -> same_substring s i i l.
Proof. intros H. repeat split; auto. Qed.
(** shift by the period *)
Lemma same_shift n i l : i + l + f n + 2 <= f (S (S n)) -> same_substring (F (S (S n))) (i + f n) i l.
Proof.
  intros H. split; [unfold f in *; lia|]. split; [unfold f in *; lia|]. intros x Hx.
  replace (i + f n + x) with (i + x + f n) by lia. apply F_period. lia.
Qed.
Lemma same_end n i l : f (S n) <= i -> i + l <= f (S (S n)) -> same_substring (F (S (S n))) (i - f (S n)) i l.
Proof.
  intros H1 H2. pose proof (f_SS n) as E. pose proof (f_mono n) as M. split; [unfold f in *; lia|]. split; [unfold f in *; lia|].
  intros x Hx. replace (i + x) with (f (S n) + (i - f (S n) + x)) by lia. rewrite F_tail.
  rewrite !F_prefix by lia. reflexivity.
Qed.

(** ** the attractor of size two *)
Lemma cover a j l : 1 <= l -> 2 <= a -> j <= a - 1 -> a - 1 <= j + l -> exists b, In b [a - 1; a - 2] /\ j <= b < j + l.
Proof.
  intros Hl Ha H1 H2. destruct (Nat.eq_dec (j + l) (a - 1)) as [E|N].
  - exists (a - 2). split; [simpl; auto|lia].
  - exists (a - 1). split; [simpl; auto|lia].
Qed.
Theorem fib_attractor n : string_attractor (F (S (S n))) [f (S n) - 1; f (S n) - 2].
Proof.
  assert (G : forall n, string_attractor (F (S (S n))) [f (S n) - 1; f (S n) - 2] /\ string_attractor (F (S (S (S n)))) [f (S (S n)) - 1; f (S (S n)) - 2]); [|apply G].
  clear n. induction n as [|n (IH1 & IH2)].
  - split.
    + intros i l Hl Hi. unfold f. simpl in Hi. cbn [fib_word length Nat.sub]. destruct i as [|[|[|i]]]; [| | |lia].
      * destruct l as [|l]; [lia|]. exists 0, 0. split; [apply same_refl; simpl; lia|]. split; [simpl; auto|lia].
      * exists 1, 1. split; [apply same_refl; simpl; lia|]. split; [simpl; auto|lia].
      * exists 0, 0. assert (l = 1) by lia. subst. split; [|split; [simpl; auto|lia]]. split; [simpl; lia|]. split; [simpl; lia|].
        intros x Hx. assert (x = 0) by lia. subst. reflexivity.
    + intros i l Hl Hi. simpl in Hi. unfold f. cbn [fib_word length Nat.sub app].
      assert (D : forall a, (a = 1 \/ a = 2) -> i <= a < i + l -> exists j b, same_substring [97; 98; 97; 97; 98] j i l /\ In b [2; 1] /\ j <= b < j + l).
      { intros a Ha Hia. exists i, a. split; [apply same_refl; simpl; lia|]. split; [simpl; destruct Ha; auto|lia]. }
      destruct (Nat.le_gt_cases i 1) as [C|C]; [destruct (Nat.le_gt_cases 2 (i + l)) as [C2|C2]|].
      * apply (D 1); [auto|lia].
      * assert (i = 0 /\ l = 1) as (-> & ->) by lia. exists 2, 2. split; [|split; [simpl; auto|lia]].
        split; [simpl; lia|]. split; [simpl; lia|]. intros x Hx. assert (x = 0) by lia. subst. reflexivity.
      * destruct (Nat.eq_dec i 2) as [->|N2]; [apply (D 2); [auto|lia]|].
        assert (K : (i = 3 /\ l = 1) \/ (i = 3 /\ l = 2) \/ (i = 4 /\ l = 1)) by lia.
        destruct K as [(-> & ->)|[(-> & ->)|(-> & ->)]]; [exists 2, 2|exists 0, 1|exists 1, 1];
          (split; [|split; [simpl; auto|lia]]; split; [simpl; lia|]; split; [simpl; lia|]; intros x Hx; destruct x as [|[|x]]; [reflexivity|try reflexivity; lia|lia]).
  - split; [exact IH2|]. clear IH2. set (m := S (S n)) in *. intros i l Hl Hi. change (length (F (S (S m)))) with (f (S (S m))) in Hi.
    pose proof (f_SS m) as E2. pose proof (f_SS (S n)) as E1. fold m in E1. pose proof (f_S n) as B1. pose proof (f_S (S n)) as B2. fold m in B2.
    assert (SH : forall i j, j + l <= f (S m) - 2 -> j <= f (S n) - 1 -> f (S n) - 1 <= j + l -> same_substring (F (S (S m))) j i l ->
       exists j' a, same_substring (F (S (S m))) j' i l /\ In a [f (S m) - 1; f (S m) - 2] /\ j' <= a < j' + l).
    { intros i0 j H1 H2 H3 H4. exists (j + f m). destruct (cover (f (S m)) (j + f m) l) as (a & Ha & Hc); [lia|lia|lia|lia|].
      exists a. split; [|auto]. apply (same_trans _ _ j); [|exact H4]. apply same_shift. lia. }
    revert Hi. induction i as [i IHi] using lt_wf_ind. intros Hi.
    destruct (Nat.le_gt_cases (i + l) (f m)) as [C1|C1].
    { destruct (IH1 i l Hl C1) as (j & a & HS & Ha & Hc). apply (SH i j); auto.
      - destruct HS as (HS & _). fold (f m) in HS. lia.
      - destruct Ha as [<-|[<-|[]]]; lia.
      - destruct Ha as [<-|[<-|[]]]; lia.
      - now apply same_prefix, same_prefix. }
    destruct (Nat.le_gt_cases (f (S m)) i) as [C2|C2].
    { destruct (IHi (i - f (S m)) ltac:(lia) ltac:(lia)) as (j & a & HS & HC).
      exists j, a. split; [|exact HC]. eapply same_trans; [exact HS|]. apply same_end; lia. }
    destruct (Nat.le_gt_cases (f (S m) - 1) (i + l)) as [C3|C3].
    { destruct (cover (f (S m)) i l) as (a & Ha & Hc); [lia|lia|lia|lia|]. exists i, a. split; [apply same_refl; exact Hi|auto]. }
    destruct (Nat.le_gt_cases (f (S n)) i) as [C4|C4].
    { destruct (IHi (i - f (S n)) ltac:(lia) ltac:(lia)) as (j & a & HS & HC).
      exists j, a. split; [|exact HC]. eapply same_trans; [exact HS|]. apply same_sym. apply same_prefix.
        replace i with (i - f (S n) + f (S n)) at 1 by lia. apply same_shift. fold m. lia. }
    pose proof (f_mono (S n)) as M1. fold m in M1. apply (SH i i); [lia|lia|lia|]. apply same_refl. exact Hi.
Qed.

(** ** minimal unique substrings: the singular words *)
Definition is_a (c : nat) : nat := if c =? 97 then 1 else 0.
Fixpoint cnt (W : str) (i l : nat) : nat := match l with 0 => 0 | S l' => is_a (W @ i) + cnt W (S i) l' end.
Lemma cnt_snoc W l : forall i, cnt W i (S l) = cnt W i l + is_a (W @ (i + l)).
Proof.
  induction l as [|l IH]; intros i; [cbn [cnt]; replace (i + 0) with i by lia; lia|].
  change (cnt W i (S (S l))) with (is_a (W @ i) + cnt W (S i) (S l)). rewrite IH. cbn [cnt].
  replace (S i + l) with (i + S l) by lia. lia.
Qed.
Lemma cnt_slide W i l : cnt W (S i) l + is_a (W @ i) = cnt W i l + is_a (W @ (i + l)).
Proof. pose proof (cnt_snoc W l i) as E. cbn [cnt] in E. lia. Qed.
Lemma cnt_same W j i l : same_substring W j i l -> cnt W j l = cnt W i l.
Proof.
  revert j i. induction l as [|l IH]; intros j i (H1 & H2 & H3); [reflexivity|]. cbn [cnt].
  pose proof (H3 0 ltac:(lia)) as E. rewrite !Nat.add_0_r in E. rewrite E. f_equal. apply IH. split; [lia|]. split; [lia|].
  intros x Hx. specialize (H3 (S x) ltac:(lia)). rewrite !Nat.add_succ_r in H3. exact H3.
Qed.
Lemma F_late m j : j < f (S (S m)) ->
  F (S (S (S (S m)))) @ (f (S (S m)) + j + f (S m)) = F (S (S (S (S m)))) @ (f (S (S m)) + j).
Proof.
  intros Hj. pose proof (f_SS (S m)) as E3. pose proof (f_SS m) as E2. pose proof (f_mono m) as M.
  replace (f (S (S m)) + j + f (S m)) with (f (S (S (S m))) + j) by lia. rewrite F_tail.
  destruct (Nat.lt_ge_cases j (f (S m))) as [C|C].
  - rewrite (F_prefix (S (S (S m)))) by lia. rewrite F_tail. now rewrite F_prefix.
  - replace (f (S (S m)) + j) with (f (S (S (S m))) + (j - f (S m))) by lia. rewrite F_tail.
    replace j with (f (S m) + (j - f (S m))) at 1 by lia. rewrite F_tail. rewrite !F_prefix by lia. reflexivity.
Qed.
Lemma F_letter n i : i < f n -> F n @ i = 97 \/ F n @ i = 98.
Proof. intros H. pose proof (F_letters n) as L. rewrite Forall_forall in L. apply L, nth_In, H. Qed.
Lemma singular_unique m : unique_substring (F (S (S (S (S m))))) (f (S (S m)) - 1) (f (S m)).
Proof.
  set (W := F (S (S (S (S m))))). set (L := f (S m)). set (q := f (S (S m))).
  pose proof (f_SS (S (S m))) as E4. pose proof (f_SS (S m)) as E3. pose proof (f_SS m) as E2. pose proof (f_S m) as B1. pose proof (f_pos m) as B0.
  assert (LW : length W = q + q + L) by (unfold W, q, L; fold (f (S (S (S (S m))))); lia).
  assert (Pre : forall i, i < q + L -> W @ i = F (S (S (S m))) @ i) by (intros i Hi; unfold W; apply F_prefix; unfold q, L in Hi; lia).
  fold q L in E4, E3, E2, B1.
  assert (C1 : forall i, i <= q - 2 -> cnt W i L = cnt W 0 L).
  { induction i as [|i IH]; intros Hi; [reflexivity|]. rewrite <- IH by lia. pose proof (cnt_slide W i L) as SL.
    assert (E : W @ (i + L) = W @ i) by (rewrite !Pre by lia; apply (F_period (S m)); fold L; lia). rewrite E in SL. lia. }
  destruct (F_mismatch (S m)) as (x & y & Nxy & M1 & M2 & M3 & M4). fold q L in M1, M2, M3, M4.
  rewrite <- Pre in M1, M2, M3, M4 by lia.
  assert (Lx : x = 97 \/ x = 98) by (rewrite <- M2; apply (F_letter (S (S (S (S m))))); unfold f; fold W; lia).
  assert (Ly : y = 97 \/ y = 98) by (rewrite <- M1; apply (F_letter (S (S (S (S m))))); unfold f; fold W; lia).
  assert (Nis : is_a x <> is_a y) by (destruct Lx as [-> | ->], Ly as [-> | ->]; try (exfalso; now apply Nxy); discriminate).
  assert (S1 : cnt W (q - 1) L + is_a y = cnt W 0 L + is_a x).
  { rewrite <- (C1 (q - 2)) by lia. pose proof (cnt_slide W (q - 2) L) as SL. rewrite M1, M3 in SL. now replace (S (q - 2)) with (q - 1) in SL by lia. }
  assert (S2 : cnt W q L = cnt W 0 L).
  { pose proof (cnt_slide W (q - 1) L) as SL. rewrite M2, M4 in SL. replace (S (q - 1)) with q in SL by lia. lia. }
  assert (C2 : forall d, d <= q -> cnt W (q + d) L = cnt W 0 L).
  { induction d as [|d IH]; intros Hd; [now rewrite Nat.add_0_r|]. rewrite <- IH by lia. pose proof (cnt_slide W (q + d) L) as SL.
    assert (E : W @ (q + d + L) = W @ (q + d)) by (apply F_late; fold q; lia). rewrite E, <- Nat.add_succ_r in SL. lia. }
  split; [lia|]. intros j HS. pose proof (cnt_same _ _ _ _ HS) as E. destruct HS as (H1 & _).
  destruct (Nat.lt_trichotomy j (q - 1)) as [C|[C|C]]; [|exact C|]; exfalso.
  - rewrite C1 in E by lia. lia.
  - replace j with (q + (j - q)) in E by lia. rewrite C2 in E by lia. lia.
Qed.
Lemma unique_prefix n i l : i + l <= f n -> unique_substring (F (S n)) i l -> unique_substring (F n) i l.
Proof. intros H (_ & U). split; [exact H|]. intros j HS. apply U. now apply same_prefix. Qed.
Lemma unique_mono s i l i' l' : i <= i' -> i' + l' <= i + l -> i + l <= length s -> unique_substring s i' l' -> unique_substring s i l.
Proof.
  intros H1 H2 H3 (_ & U). split; [exact H3|]. intros j (H4 & H5 & H6).
  assert (E : j + (i' - i) = i'); [|lia]. apply U. split; [lia|]. split; [lia|]. intros x Hx.
  replace (j + (i' - i) + x) with (j + (i' - i + x)) by lia. replace (i' + x) with (i + (i' - i + x)) by lia. apply H6. lia.
Qed.
Theorem fib_mus m i l : is_mus (F (S (S (S (S m))))) i l <->
  (i, l) = (f (S (S m)) - 1, f (S m)) \/ (i, l) = (f (S (S (S m))) - 1, f (S (S m))).
Proof.
  set (W := F (S (S (S (S m))))).
  pose proof (f_SS (S (S m))) as E4. pose proof (f_SS (S m)) as E3. pose proof (f_SS m) as E2. pose proof (f_S m) as B1. pose proof (f_pos m) as B0.
  assert (LW : length W = f (S (S (S (S m))))) by reflexivity.
  pose proof (singular_unique m) as UA. fold W in UA.
  assert (UB : unique_substring W (f (S (S (S m))) - 1) (f (S (S m)))) by (apply unique_prefix; [lia|apply singular_unique]).
  assert (REP : forall i l, unique_substring W i l -> (i <= f (S (S m)) - 1 /\ f (S (S m)) - 1 + f (S m) <= i + l) \/ (i <= f (S (S (S m))) - 1 /\ f (S (S (S m))) - 1 + f (S (S m)) <= i + l)).
  { clear i l. intros i l (H & U).
    destruct (Nat.eq_dec l 0) as [->|Nl].
    { exfalso. assert (0 = i) by (apply U; split; [lia|]; split; [lia|intros; lia]). assert (1 = i) by (apply U; split; [lia|]; split; [lia|intros; lia]). lia. }
    destruct (Nat.le_gt_cases (f (S (S (S m)))) i) as [C1|C1].
    { exfalso. pose proof (U _ (same_end _ i l C1 H)). lia. }
    destruct (Nat.le_gt_cases (i + l) (f (S (S (S m))) - 2)) as [C2|C2].
    { exfalso. pose proof (U _ (same_shift (S (S m)) i l ltac:(lia))). lia. }
    destruct (Nat.le_gt_cases i (f (S (S m)) - 1)) as [C3|C3]; [left; lia|].
    destruct (Nat.le_gt_cases (f (S (S (S m))) - 1 + f (S (S m))) (i + l)) as [C4|C4]; [right; lia|].
    exfalso. pose proof (same_shift (S (S m)) (i - f (S (S m))) l ltac:(lia)) as HS. replace (i - f (S (S m)) + f (S (S m))) with i in HS by lia.
    apply same_sym in HS. apply U in HS. lia. }
  split.
  - intros (Hl & U & Min). destruct (REP i l U) as [(H1 & H2)|(H1 & H2)]; [left|right].
    + destruct (Nat.eq_dec l (f (S m))) as [->|N]; [f_equal; lia|]. exfalso. apply (Min _ _ H1 H2); [lia|exact UA].
    + destruct (Nat.eq_dec l (f (S (S m)))) as [->|N]; [f_equal; lia|]. exfalso. apply (Min _ _ H1 H2); [lia|exact UB].
  - intros [E|E]; injection E as -> ->.
    + split; [lia|]. split; [exact UA|]. intros i' l' H1 H2 H3 U. apply REP in U. lia.
    + split; [lia|]. split; [exact UB|]. intros i' l' H1 H2 H3 U. apply REP in U. lia.
Qed.
