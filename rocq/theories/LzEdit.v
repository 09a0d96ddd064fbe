(** LzEdit.v : parsings of a text in which a block was replaced by another one (C109) *)
From Verif Require Import Base SpecStr SpecLz LzRel.

Section Edit.
Context (x u v y : str).
Let t := x ++ u ++ y.
Let t' := x ++ v ++ y.
Let a := length x + length u.
Let a' := length x + length v.
Lemma lens : length t = a + length y /\ length t' = a' + length y.
Proof. unfold t, t', a, a'. rewrite !app_length. lia. Qed.
Lemma in_x q : q < length x -> nth q t' 0 = nth q t 0.
Proof. intros H. unfold t, t'. now rewrite !app_nth1. Qed.
Lemma in_y q : nth (a' + q) t' 0 = nth (a + q) t 0.
Proof.
  unfold t, t', a, a'. rewrite !app_assoc. rewrite !app_nth2 by (rewrite app_length; lia).
  rewrite !app_length. f_equal. lia.
Qed.
Lemma literals b : forall i k, i + b <= length t' -> parsable t' (i + b) k -> parsable t' i (b + k).
Proof.
  induction b as [|b IH]; intros i k H P; [now rewrite Nat.add_0_r in P|].
  cbn [Nat.add]. apply parse_literal; [lia|]. apply IH; [lia|]. now replace (i + 1 + b) with (i + S b) by lia.
Qed.
(** a copy inside y, its source wherever *)
Lemma copy_y p j l k : j < a + p -> same_substring t j (a + p) l -> parsable t' (a' + (p + l)) k ->
  exists k', k' <= length u + 2 + k /\ parsable t' (a' + p) k'.
Proof.
  intros Hj (S1 & S2 & S3) P. destruct lens as (L1 & L2).
  (* the part with source in y *)
  assert (C : forall e, e <= l -> (e = l \/ a <= j + e) -> exists k1, k1 <= 1 + k /\ parsable t' (a' + (p + e)) k1).
  { intros e He [->|He2]; [exists k; split; [lia|exact P]|]. destruct (Nat.eq_dec e l) as [->|Ne]; [exists k; split; [lia|exact P]|].
    exists (S k). split; [lia|]. apply (parse_copy _ _ (a' + (j + e - a)) (l - e)); [lia|lia| |].
    - split; [lia|]. split; [lia|]. intros q Hq. rewrite <- !Nat.add_assoc, !in_y.
      specialize (S3 (e + q) ltac:(lia)). replace (a + (j + e - a + q)) with (j + (e + q)) by lia.
      replace (a + (p + (e + q))) with (a + p + (e + q)) by lia. exact S3.
    - now replace (a' + (p + e) + (l - e)) with (a' + (p + l)) by lia. }
  (* the part with source in u *)
  assert (B : forall e, e <= l -> (e = l \/ length x <= j + e) -> exists k1, k1 <= length u + 1 + k /\ parsable t' (a' + (p + e)) k1).
  { intros e He He2. set (b := Nat.min (l - e) (a - (j + e))).
    assert (Hb : b <= length u) by (unfold b, a; lia).
    destruct (C (e + b)) as (k1 & K1 & P1); [unfold b; lia|unfold b; lia|].
    exists (b + k1). split; [lia|]. apply literals; [unfold b; lia|]. now replace (a' + (p + e) + b) with (a' + (p + (e + b))) by lia. }
  (* the part with source in x *)
  set (c := Nat.min l (length x - j)).
  destruct (B c) as (k1 & K1 & P1); [unfold c; lia|unfold c; lia|].
  destruct (Nat.eq_dec c 0) as [E|E]; [rewrite E, Nat.add_0_r in P1; exists k1; split; [lia|exact P1]|].
  exists (S k1). split; [lia|]. apply (parse_copy _ _ j c); [unfold a' in *; unfold c in E; lia|lia| |now rewrite <- Nat.add_assoc].
  split; [unfold c in *; lia|]. split; [unfold c in *; lia|]. intros q Hq. rewrite <- Nat.add_assoc, in_y, in_x by (unfold c in *; lia).
  specialize (S3 q ltac:(unfold c in *; lia)). now rewrite Nat.add_assoc.
Qed.
Lemma edit_y i k : parsable t i k -> forall p, i = a + p -> exists k', k' <= (length u + 2) * k /\ parsable t' (a' + p) k'.
Proof.
  destruct lens as (L1 & L2).
  intros H. induction H as [|i k Hi H IH|i j l k Hj Hl HS H IH]; intros p E; [|subst i|subst i].
  - exists 0. split; [lia|]. replace (a' + p) with (length t') by lia. constructor.
  - destruct (IH (p + 1) ltac:(lia)) as (k' & L & P). exists (S k'). split; [lia|].
    apply parse_literal; [lia|]. now rewrite <- Nat.add_assoc.
  - destruct (IH (p + l) ltac:(lia)) as (k' & L & P). destruct (copy_y p j l k' Hj HS P) as (k2 & L2' & P2).
    exists k2. split; [lia|exact P2].
Qed.
Lemma edit_u i k : parsable t i k -> length x <= i <= a -> exists k', k' <= (length u + 2) * k /\ parsable t' a' k'.
Proof.
  intros H. pose proof H as H0. revert H0. destruct lens as (L1 & L2).
  induction H as [|i k Hi H IH|i j l k Hj Hl HS H IH]; intros H0 Hr.
  - destruct (edit_y _ _ H0 0 ltac:(lia)) as (k' & K & P). rewrite Nat.add_0_r in P. eauto.
  - destruct (Nat.eq_dec i a) as [->|N].
    { destruct (edit_y _ _ H0 0 ltac:(lia)) as (k' & K & P). rewrite Nat.add_0_r in P. eauto. }
    destruct (IH H ltac:(lia)) as (k' & K & P). exists k'. split; [lia|exact P].
  - destruct (Nat.le_gt_cases (i + l) a) as [C|C].
    { destruct (IH H ltac:(lia)) as (k' & K & P). exists k'. split; [lia|exact P]. }
    destruct (edit_y _ _ H (i + l - a) ltac:(lia)) as (k' & K & P).
    destruct (copy_y 0 (j + (a - i)) (l - (a - i)) k') as (k2 & K2 & P2).
    + lia.
    + destruct HS as (S1 & S2 & S3). split; [lia|]. split; [lia|]. intros q Hq. specialize (S3 (a - i + q) ltac:(lia)).
      replace (j + (a - i) + q) with (j + (a - i + q)) by lia. now replace (a + 0 + q) with (i + (a - i + q)) by lia.
    + now replace (0 + (l - (a - i))) with (i + l - a) by lia.
    + rewrite Nat.add_0_r in P2. exists k2. split; [lia|exact P2].
Qed.
Lemma edit_x i k : parsable t i k -> i <= length x -> exists k', k' <= (length u + 2) * k + length v + 1 /\ parsable t' i k'.
Proof.
  intros H. pose proof H as H0. revert H0. destruct lens as (L1 & L2).
  assert (V : forall k1, parsable t' a' k1 -> parsable t' (length x) (length v + k1)).
  { intros k1 P. apply literals; [unfold a' in *; lia|exact P]. }
  assert (G : forall k, parsable t (length x) k -> exists k', k' <= (length u + 2) * k + length v + 1 /\ parsable t' (length x) k').
  { intros k1 P. destruct (edit_u _ _ P ltac:(unfold a; lia)) as (k2 & K & Q). exists (length v + k2). split; [lia|now apply V]. }
  induction H as [|i k Hi H IH|i j l k Hj Hl HS H IH]; intros H0 Hr.
  - replace (length t) with (length x) in H0 |- * by (unfold a in *; lia). exact (G _ H0).
  - destruct (Nat.eq_dec i (length x)) as [->|N]; [exact (G _ H0)|].
    destruct (IH H ltac:(lia)) as (k' & K & P). exists (S k'). split; [lia|]. apply parse_literal; [unfold a' in *; lia|exact P].
  - destruct (Nat.eq_dec i (length x)) as [->|N]; [exact (G _ H0)|].
    assert (CP : forall l' k1, 1 <= l' -> l' <= l -> i + l' <= length x -> parsable t' (i + l') k1 -> parsable t' i (S k1)).
    { intros l' k1 M1 M2 M3 P. apply (parse_copy _ i j l'); [lia|lia| |exact P]. destruct HS as (S1 & S2 & S3).
      split; [unfold a' in *; lia|]. split; [unfold a' in *; lia|]. intros q Hq. rewrite !in_x by lia. apply S3. lia. }
    destruct (Nat.le_gt_cases (i + l) (length x)) as [C|C].
    { destruct (IH H C) as (k' & K & P). exists (S k'). split; [lia|]. apply (CP l); [lia|lia|lia|exact P]. }
    assert (R : exists k', k' <= (length u + 2) * S k /\ parsable t' a' k').
    { destruct (Nat.le_gt_cases (i + l) a) as [D|D].
      - destruct (edit_u _ _ H ltac:(lia)) as (k' & K & P). exists k'. split; [lia|exact P].
      - destruct (edit_y _ _ H (i + l - a) ltac:(lia)) as (k' & K & P).
        destruct (copy_y 0 (j + (a - i)) (l - (a - i)) k') as (k2 & K2 & P2).
        + unfold a; lia.
        + destruct HS as (S1 & S2 & S3). split; [unfold a in *; lia|]. split; [unfold a in *; lia|]. intros q Hq. specialize (S3 (a - i + q) ltac:(unfold a in *; lia)).
          replace (j + (a - i) + q) with (j + (a - i + q)) by lia. now replace (a + 0 + q) with (i + (a - i + q)) by (unfold a; lia).
        + now replace (0 + (l - (a - i))) with (i + l - a) by (unfold a in *; lia).
        + rewrite Nat.add_0_r in P2. exists k2. split; [lia|exact P2]. }
    destruct R as (k' & K & P). exists (S (length v + k')). split; [lia|].
    apply (CP (length x - i)); [lia|lia|lia|]. replace (i + (length x - i)) with (length x) by lia. now apply V.
Qed.
End Edit.
