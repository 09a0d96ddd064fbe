(** LzTrib.v : the LZ77 factorization of the tribonacci words: the image of a position i under the morphism is the
    position phi i; longest previous factors are mapped to longest previous factors. *)
From Coq Require Import Permutation.
From Verif Require Import Base SpecStr SpecWord SpecLz ModelLz ModelWord WordProof WordProof2 LzMorph.

Lemma firstn_S_nth (l : str) i d : i < length l -> firstn (S i) l = firstn i l ++ [nth i l d].
Proof. revert i. induction l as [|x l IH]; intros i H; [cbn in H; lia|]. destruct i as [|i]; [reflexivity|]. cbn [firstn nth app]. rewrite <- IH by (cbn in H; lia). reflexivity. Qed.
Lemma skipn_nth_cons (l : str) i d : i < length l -> skipn i l = nth i l d :: skipn (S i) l.
Proof. revert i. induction l as [|x l IH]; intros i H; [cbn in H; lia|]. destruct i as [|i]; [reflexivity|]. cbn [skipn nth]. rewrite IH by (cbn in H; lia). reflexivity. Qed.
Local Notation h := tribonacci_morphism.
Local Notation W := trib_word.
Lemma W_prefix k : exists r, W (S k) = W k ++ r.
Proof.
  destruct k as [|[|k]]; [exists [98]; reflexivity|exists [97; 99]; reflexivity|]. rewrite trib_word_SSS. eexists. reflexivity.
Qed.
Lemma W_len k : k < length (W k).
Proof.
  enough (k < length (W k) /\ S k < length (W (S k)) /\ S (S k) < length (W (S (S k)))) by tauto.
  induction k as [|k (A & B & C)]; [cbn; lia|]. split; [exact B|]. split; [exact C|]. rewrite trib_word_SSS, !app_length. lia.
Qed.
Lemma W_nth j k i : j <= k -> i < length (W j) -> nth i (W k) 0 = nth i (W j) 0 /\ length (W j) <= length (W k).
Proof.
  intros H Hi. induction H as [|k H (IH1 & IH2)]; [split; [reflexivity|lia]|]. destruct (W_prefix k) as (r & ->).
  rewrite app_nth1, app_length by lia. split; [exact IH1|lia].
Qed.
Definition T (i : nat) : nat := nth i (W i) 0.
Lemma T_ok k i : i < length (W k) -> nth i (W k) 0 = T i.
Proof.
  intros H. unfold T. destruct (Nat.le_ge_cases i k) as [C|C]; [apply (W_nth i k i C), W_len|].
  symmetry. apply (W_nth k i i C H).
Qed.
Lemma W_agrees k : agrees (W k) T.
Proof. intros i Hi. now apply T_ok. Qed.
Definition abc (c : nat) : Prop := c = 97 \/ c = 98 \/ c = 99.
Lemma h_abc c : Forall abc (h c).
Proof. unfold tribonacci_morphism. destruct (c =? 97); [|destruct (c =? 98)]; repeat (apply Forall_cons; [unfold abc; auto|]); constructor. Qed.
Lemma W_abc k : Forall abc (W k).
Proof.
  destruct k as [|k]; [constructor; [left; reflexivity|constructor]|]. rewrite <- trib_word_morph. apply Forall_forall. intros x Hx. apply in_flat_map in Hx. destruct Hx as (y & _ & Hx).
  exact (proj1 (Forall_forall abc (h y)) (h_abc y) x Hx).
Qed.
Lemma T_abc i : abc (T i).
Proof. apply (proj1 (Forall_forall abc (W i)) (W_abc i)). apply nth_In, W_len. Qed.
Fixpoint phi (i : nat) : nat := match i with O => 0 | S i => phi i + length (h (T i)) end.
Lemma phi_firstn k i : i <= length (W k) -> length (flat_map h (firstn i (W k))) = phi i.
Proof.
  induction i as [|i IH]; intros H; [reflexivity|]. rewrite (firstn_S_nth _ _ 0) by lia. rewrite flat_map_app, app_length, IH by lia.
  cbn [flat_map phi]. rewrite app_nil_r, T_ok by lia. reflexivity.
Qed.
Lemma block i x : x < length (h (T i)) -> T (phi i + x) = nth x (h (T i)) 0.
Proof.
  intros Hx. pose proof (W_len i) as Hi.
  assert (E : W (S i) = flat_map h (firstn i (W i)) ++ h (T i) ++ flat_map h (skipn (S i) (W i))).
  { rewrite <- trib_word_morph. rewrite <- (firstn_skipn i (W i)) at 1. rewrite flat_map_app. f_equal.
    rewrite (skipn_nth_cons _ _ 0) by exact Hi. cbn [flat_map]. reflexivity. }
  assert (L : length (flat_map h (firstn i (W i))) = phi i) by (apply phi_firstn; lia).
  rewrite <- (T_ok (S i)); [|rewrite E, !app_length; lia]. rewrite E, app_nth2 by lia. rewrite L. replace (phi i + x - phi i) with x by lia. now rewrite app_nth1.
Qed.
Lemma h_cases c : abc c -> (c = 97 /\ h c = [97; 98]) \/ (c = 98 /\ h c = [97; 99]) \/ (c = 99 /\ h c = [97]).
Proof. intros [->|[->| ->]]; cbn; auto. Qed.
Lemma phi_S i : (T i = 99 /\ phi (S i) = phi i + 1) \/ (T i <> 99 /\ phi (S i) = phi i + 2).
Proof. cbn [phi]. destruct (h_cases _ (T_abc i)) as [(E & ->)|[(E & ->)|(E & ->)]]; rewrite E; cbn [length]; [right|right|left]; split; lia. Qed.
Lemma phi_head i : T (phi i) = 97.
Proof. rewrite <- (Nat.add_0_r (phi i)), block; destruct (h_cases _ (T_abc i)) as [(_ & ->)|[(_ & ->)|(_ & ->)]]; cbn; auto; lia. Qed.
Definition nx (c : nat) : nat := if c =? 97 then 98 else if c =? 98 then 99 else 97.
Lemma phi_next i : T (phi i + 1) = nx (T i).
Proof.
  destruct (h_cases _ (T_abc i)) as [(E & H)|[(E & H)|(E & H)]].
  - rewrite block, H, E by (rewrite H; cbn; lia). reflexivity.
  - rewrite block, H, E by (rewrite H; cbn; lia). reflexivity.
  - destruct (phi_S i) as [(_ & P)|(N & _)]; [|congruence]. rewrite <- P, phi_head, E. reflexivity.
Qed.
Lemma nx_inj x y : abc x -> abc y -> nx x = nx y -> x = y.
Proof. intros [->|[->| ->]] [->|[->| ->]]; cbn; intros E; try reflexivity; discriminate. Qed.
Lemma phi_lt i j : i < j -> phi i < phi j.
Proof. induction 1 as [|j H IH]; [|]; [destruct (phi_S i) as [(_ & ->)|(_ & ->)]; lia|]. destruct (phi_S j) as [(_ & ->)|(_ & ->)]; lia. Qed.
Lemma phi_le i j : i <= j -> phi i <= phi j.
Proof. intros H. destruct (Nat.eq_dec i j) as [->|N]; [lia|]. pose proof (phi_lt i j). lia. Qed.
Lemma phi_lt_inv i j : phi i < phi j -> i < j.
Proof. intros H. destruct (Nat.lt_ge_cases i j) as [|C]; [assumption|]. pose proof (phi_le j i C). lia. Qed.
Lemma cover n : exists i, n = phi i \/ (n = phi i + 1 /\ T i <> 99).
Proof.
  induction n as [|n (i & [->|(-> & N)])]; [exists 0; auto| |].
  - destruct (phi_S i) as [(E & P)|(E & P)]; [exists (S i); left; lia|exists i; right; split; [lia|exact E]].
  - exists (S i). left. destruct (phi_S i) as [(E & _)|(_ & P)]; [contradiction|lia].
Qed.
Lemma is_head n : T n = 97 -> exists i, n = phi i.
Proof.
  intros H. destruct (cover n) as (i & [->|(-> & N)]); [eauto|]. exfalso. rewrite phi_next in H. destruct (T_abc i) as [E|[E|E]]; rewrite E in H; cbn in H; congruence.
Qed.
Lemma is_tail n : T n <> 97 -> exists i, n = phi i + 1 /\ T i <> 99.
Proof. intros H. destruct (cover n) as (i & [->|(-> & N)]); [|eauto]. exfalso. now rewrite phi_head in H. Qed.

Lemma occ_up j i l : occ T j i l -> exists d, phi (j + l) = phi j + d /\ phi (i + l) = phi i + d /\ occ T (phi j) (phi i) (d + 1).
Proof.
  induction l as [|l IH]; intros O.
  - exists 0. rewrite !Nat.add_0_r. do 2 (split; [reflexivity|]). intros x Hx. replace x with 0 by lia. rewrite !Nat.add_0_r, !phi_head. reflexivity.
  - destruct (IH (occ_less _ _ _ _ l O ltac:(lia))) as (d & E1 & E2 & OD). specialize (O l ltac:(lia)). exists (d + length (h (T (i + l)))).
    rewrite !Nat.add_succ_r. cbn [phi]. rewrite O, E1, E2. split; [lia|]. split; [lia|]. intros x Hx.
    destruct (Nat.lt_ge_cases x (d + 1)) as [C|C]; [now apply OD|].
    destruct (Nat.eq_dec x (d + length (h (T (i + l))))) as [->|N].
    + replace (phi j + (d + length (h (T (i + l))))) with (phi (S (j + l))) by (cbn [phi]; rewrite O; lia).
      replace (phi i + (d + length (h (T (i + l))))) with (phi (S (i + l))) by (cbn [phi]; lia). rewrite !phi_head. reflexivity.
    + replace (phi j + x) with (phi (j + l) + (x - d)) by lia. replace (phi i + x) with (phi (i + l) + (x - d)) by lia. rewrite !block, O; [reflexivity|lia|rewrite O; lia].
Qed.
Lemma occ_down j i l d : phi (i + l) = phi i + d -> occ T (phi j) (phi i) (d + 2) -> occ T j i (l + 1).
Proof.
  intros E O. assert (G : forall l', l' <= l + 1 -> occ T j i l'); [|now apply G].
  induction l' as [|l' IH]; intros Hl x Hx; [lia|]. specialize (IH ltac:(lia)). destruct (Nat.eq_dec x l') as [->|N]; [|apply IH; lia].
  destruct (occ_up j i l' IH) as (d' & E1 & E2 & _). pose proof (phi_le (i + l') (i + l) ltac:(lia)).
  specialize (O (d' + 1) ltac:(lia)). rewrite !Nat.add_assoc, <- E1, <- E2, !phi_next in O. apply nx_inj; auto using T_abc.
Qed.
Lemma lpf_up i l : lpf T i l -> exists d, phi (i + l) = phi i + d /\ lpf T (phi i) (d + 1).
Proof.
  intros ((j & Hj & O) & M). destruct (occ_up j i l O) as (d & E1 & E2 & OD). exists d. split; [exact E2|]. split; [exists (phi j); split; [now apply phi_lt|exact OD]|].
  intros j' Hj' O'. rewrite <- Nat.add_assoc in O'. pose proof (O' 0 ltac:(lia)) as O0. rewrite !Nat.add_0_r, phi_head in O0. destruct (is_head j' O0) as (u & ->).
  apply (M u (phi_lt_inv _ _ Hj')). exact (occ_down u i l d E2 O').
Qed.
Lemma lpf_in i l : T i <> 99 -> lpf T i l -> exists d, phi (i + l) = phi i + d /\ lpf T (phi i + 1) d.
Proof.
  intros N ((j & Hj & O) & M). destruct (occ_up j i l O) as (d & E1 & E2 & OD). exists d. split; [exact E2|]. split.
  - exists (phi j + 1). split; [pose proof (phi_lt j i Hj); lia|]. intros x Hx. rewrite <- !Nat.add_assoc. apply OD. lia.
  - intros j' Hj' O'. pose proof (O' 0 ltac:(lia)) as O0. rewrite !Nat.add_0_r in O0. destruct (is_tail j') as (u & -> & Hu).
    { rewrite O0, phi_next. destruct (T_abc i) as [E|[E|E]]; rewrite E; cbn; congruence. }
    apply (M u); [apply phi_lt_inv; lia|]. apply (occ_down u i l d E2). intros x Hx. destruct x as [|x]; [rewrite !Nat.add_0_r, !phi_head; reflexivity|].
    specialize (O' x ltac:(lia)). rewrite <- !Nat.add_assoc in O'. exact O'.
Qed.
Definition both (i l : nat) : Prop := lpf T i l /\ lpf T (i + 1) (l - 1).
Lemma both_step i l : 1 <= l -> both i l -> both (phi i + 1) (phi (i + l) - phi i).
Proof.
  intros Hl (A & B). destruct (lpf_up (i + 1) (l - 1) B) as (d' & E' & U). replace (i + 1 + (l - 1)) with (i + l) in E' by lia.
  destruct (phi_S i) as [(E & P)|(E & P)]; rewrite <- Nat.add_1_r in P.
  - assert (T1 : T (i + 1) <> 99).
    { destruct (is_tail i) as (u & -> & Hu); [congruence|]. destruct (phi_S u) as [(X & _)|(_ & X)]; [contradiction|]. replace (phi u + 1 + 1) with (phi (S u)) by lia. rewrite phi_head. discriminate. }
    destruct (lpf_in (i + 1) (l - 1) T1 B) as (d2 & E2 & V). replace (i + 1 + (l - 1)) with (i + l) in E2 by lia. assert (d2 = d') by lia. subst d2.
    split; [replace (phi (i + l) - phi i) with (d' + 1) by lia; rewrite <- P; exact U|]. replace (phi (i + l) - phi i - 1) with d' by lia. rewrite <- P. exact V.
  - destruct (lpf_in i l E A) as (d & E2 & V). split; [replace (phi (i + l) - phi i) with d by lia; exact V|].
    replace (phi i + 1 + 1) with (phi (i + 1)) by lia. replace (phi (i + l) - phi i - 1) with (d' + 1) by lia. exact U.
Qed.
(** the positions of the factors *)
Fixpoint P (j : nat) : nat := match j with O => 7 | S j => phi (P j) + 1 end.
Lemma P_step j : P j < P (S j) /\ both (P j) (P (S j) - P j).
Proof.
  induction j as [|j (L & B)].
  - assert (E : P 1 = 14) by (vm_compute; reflexivity). rewrite E. change (P 0) with 7. split; [lia|]. split; apply lpfb_ok; vm_compute; reflexivity.
  - pose proof (both_step (P j) (P (S j) - P j) ltac:(lia) B) as SS. replace (P j + (P (S j) - P j)) with (P (S j)) in SS by lia.
    change (P (S (S j))) with (phi (P (S j)) + 1). change (phi (P j) + 1) with (P (S j)) in SS.
    pose proof (phi_lt (P j) (P (S j)) L). replace (phi (P (S j)) + 1 - P (S j)) with (phi (P (S j)) - phi (P j)) by (cbn [P]; lia).
    split; [cbn [P] in *; lia|exact SS].
Qed.
Lemma W_phi k : length (W (S k)) = phi (length (W k)).
Proof. rewrite <- (phi_firstn k (length (W k))) by lia. rewrite firstn_all, trib_word_morph. reflexivity. Qed.
Lemma W_between j : P j + 2 <= length (W (j + 4)) <= P (S j).
Proof.
  induction j as [|j (A & B)]; [vm_compute; lia|]. cbn [Nat.add]. rewrite W_phi.
  pose proof (phi_le (P j + 2) _ A) as A'. pose proof (phi_le _ _ B) as B'. change (P (S (S j))) with (phi (P (S j)) + 1). split; [|lia].
  change (P (S j)) with (phi (P j) + 1). enough (phi (P j + 2) >= phi (P j) + 3) by lia.
  replace (P j + 2) with (S (S (P j))) by lia. destruct (phi_S (P j)) as [(E & X)|(E & X)]; [|pose proof (phi_lt (S (P j)) (S (S (P j)))); lia].
  destruct (phi_S (S (P j))) as [(E2 & _)|(_ & Y)]; [|lia]. exfalso. destruct (is_tail (P j)) as (u & Q & Hu); [congruence|].
  destruct (phi_S u) as [(Z & _)|(_ & Z)]; [contradiction|]. replace (S (P j)) with (phi (S u)) in E2 by lia. rewrite phi_head in E2. discriminate.
Qed.
(** their lengths *)
Definition seg (i j : nat) : str := map T (seq i (j - i)).
Lemma seg_len i j : length (seg i j) = j - i.
Proof. unfold seg. now rewrite map_length, seq_length. Qed.
Lemma seg_app i j k : i <= j -> j <= k -> seg i k = seg i j ++ seg j k.
Proof. intros A B. unfold seg. rewrite <- map_app. replace (k - i) with ((j - i) + (k - j)) by lia. rewrite seq_app. replace (i + (j - i)) with j by lia. reflexivity. Qed.
Lemma seg_one i : seg i (S i) = [T i].
Proof. unfold seg. replace (S i - i) with 1 by lia. reflexivity. Qed.
Lemma seg_phi i j : i <= j -> seg (phi i) (phi j) = flat_map h (seg i j).
Proof.
  induction 1 as [|j H IH]; [unfold seg; rewrite !Nat.sub_diag; reflexivity|].
  rewrite (seg_app (phi i) (phi j)), IH, (seg_app i j (S j)), flat_map_app, seg_one by (try apply phi_le; lia). f_equal. cbn [flat_map]. rewrite app_nil_r.
  apply (nth_ext _ _ 0 0).
  - rewrite seg_len. cbn [phi]. lia.
  - intros x Hx. rewrite seg_len in Hx. cbn [phi] in Hx. rewrite <- block by lia. unfold seg. rewrite (nth_indep _ 0 (T 0)) by (rewrite map_length, seq_length; cbn [phi]; lia).
    rewrite map_nth, seq_nth by (cbn [phi]; lia). reflexivity.
Qed.
Lemma P_seg j : Permutation (seg (P j) (P (S j))) (W (j + 3)).
Proof.
  induction j as [|j IH]; [vm_compute; apply Permutation_refl|]. cbn [Nat.add]. rewrite <- trib_word_morph. rewrite <- (Permutation_flat_map h IH), <- seg_phi by (pose proof (P_step j); lia).
  change (P (S (S j))) with (phi (P (S j)) + 1). change (P (S j)) with (phi (P j) + 1) at 1. pose proof (phi_lt _ _ (proj1 (P_step j))) as L.
  rewrite (seg_app (phi (P j)) (phi (P j) + 1) (phi (P (S j)))), (seg_app (phi (P j) + 1) (phi (P (S j))) (phi (P (S j)) + 1)) by lia.
  rewrite !Nat.add_1_r, !seg_one, !phi_head. apply Permutation_app_comm.
Qed.
Lemma P_len j : P (S j) = P j + length (W (j + 3)).
Proof. rewrite <- (Permutation_length (P_seg j)), seg_len. pose proof (P_step j). lia. Qed.
Definition trib_lengths (k r : nat) : list nat := [0; 0; 1; 0; 3] ++ map (fun i => length (W i)) (seq 3 (k - 4)) ++ [r].
Lemma trib_lens_from k : forall d j, j + d = k -> lens (W (k + 4)) (P j) (map (fun i => length (W i)) (seq (3 + j) d) ++ [length (W (k + 4)) - P k]).
Proof.
  pose proof (W_between k) as K. induction d as [|d IH]; intros j E.
  - cbn [seq map app]. rewrite Nat.add_0_r in E. subst j. destruct (P_step k) as (_ & B & _).
    apply (lens_copy _ T _ (P (S k) - P k)); [apply W_agrees|exact B|lia|right; lia|]. apply lens_end. lia.
  - cbn [seq map app]. destruct (P_step j) as (L & B & _). pose proof (P_len j) as PL. replace (j + 3) with (3 + j) in PL by lia.
    assert (M : P (S j) <= P k). { assert (H : S j <= k) by lia. clear -H. induction H as [|m H IH]; [lia|]. pose proof (proj1 (P_step m)). lia. }
    replace (P (S j) - P j) with (length (W (3 + j))) in B by lia.
    apply (lens_copy _ T _ (length (W (3 + j)))); [apply W_agrees|exact B|lia|left; lia|]. rewrite <- PL. apply (IH (S j)). lia.
Qed.
Theorem trib_lz77 k : exists r, 1 <= r /\ lens (W (k + 4)) 0 (trib_lengths (k + 4) r).
Proof.
  pose proof (W_between k) as K. exists (length (W (k + 4)) - P k). split; [lia|]. assert (M : 7 <= P k). { clear. induction k as [|k IH]; [cbn; lia|]. pose proof (proj1 (P_step k)). lia. }
  unfold trib_lengths. replace (k + 4 - 4) with k by lia. pose proof (W_agrees (k + 4)) as A. cbn [app].
  Ltac lit A := apply (lens_lit _ T); [exact A|lia|intros jj Hjj; repeat (destruct jj as [|jj]; [vm_compute; discriminate|]); lia|].
  Ltac cop A l := apply (lens_copy _ T _ l); [exact A|apply lpfb_ok; vm_compute; reflexivity|lia|left; lia|].
  lit A. lit A. cop A 1. lit A. cop A 3. apply (trib_lens_from k k 0). reflexivity.
Qed.
