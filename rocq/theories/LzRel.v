(** LzRel.v : how the numbers of LZ77 factors of related texts compare. *)
From Verif Require Import Base SpecStr SpecLz ModelLz.

Lemma same_app_l t u j i l : same_substring t j i l -> same_substring (t ++ u) j i l.
Proof.
  intros (H1 & H2 & H3). rewrite <- (app_nil_r t) in H1. unfold same_substring. rewrite app_length in *. cbn [length] in *.
  split; [lia|]. split; [lia|]. intros x Hx. rewrite !app_nth1 by lia. now apply H3.
Qed.
Lemma same_app_r t u j i l : same_substring u j i l -> same_substring (t ++ u) (length t + j) (length t + i) l.
Proof.
  intros (H1 & H2 & H3). unfold same_substring. rewrite app_length.
  split; [lia|]. split; [lia|]. intros x Hx. rewrite !app_nth2 by lia.
  replace (length t + j + x - length t) with (j + x) by lia. replace (length t + i + x - length t) with (i + x) by lia. now apply H3.
Qed.
Lemma same_sub t j i l o m : same_substring t j i l -> o + m <= l -> same_substring t (j + o) (i + o) m.
Proof.
  intros (H1 & H2 & H3) H. split; [lia|]. split; [lia|]. intros x Hx. rewrite <- !Nat.add_assoc. apply H3. lia.
Qed.
Lemma prefix_parsable t u i k : parsable (t ++ u) i k -> i <= length t -> exists k', k' <= k /\ parsable t i k'.
Proof.
  intros H. induction H as [|i k Hi H IH|i j l k Hj Hl HS H IH]; intros Hle.
  - rewrite app_length in *. exists 0. split; [lia|]. replace (length t + length u) with (length t) by lia. constructor.
  - destruct (Nat.eq_dec i (length t)) as [->|N]; [exists 0; split; [lia|constructor]|].
    destruct (IH ltac:(lia)) as (k' & L & P). exists (S k'). split; [lia|]. apply parse_literal; [lia|exact P].
  - destruct (Nat.eq_dec i (length t)) as [->|N]; [exists 0; split; [lia|constructor]|].
    assert (G : forall m, m <= l -> i + m <= length t -> same_substring t j i m).
    { intros m Hm Hm2. destruct HS as (_ & _ & S3). split; [lia|]. split; [lia|]. intros x Hx. specialize (S3 x ltac:(lia)).
      rewrite !app_nth1 in S3 by lia. exact S3. }
    destruct (Nat.le_gt_cases (i + l) (length t)) as [C|C].
    + destruct (IH C) as (k' & L & P). exists (S k'). split; [lia|]. apply (parse_copy t i j l); auto.
    + exists 1. split; [lia|]. apply (parse_copy t i j (length t - i)); [lia|lia|apply G; lia|].
      replace (i + (length t - i)) with (length t) by lia. constructor.
Qed.
Lemma concat_parsable t u i k m : parsable t i k -> parsable (t ++ u) (length t) m -> parsable (t ++ u) i (k + m).
Proof.
  intros H Hm. induction H as [|i k Hi H IH|i j l k Hj Hl HS H IH].
  - exact Hm.
  - apply parse_literal; [rewrite app_length; lia|exact IH].
  - apply (parse_copy _ i j l); auto. now apply same_app_l.
Qed.
Lemma shift_parsable t u i k : parsable u i k -> parsable (t ++ u) (length t + i) k.
Proof.
  intros H. induction H as [|i k Hi H IH|i j l k Hj Hl HS H IH].
  - rewrite <- app_length. constructor.
  - apply parse_literal; [rewrite app_length; lia|]. now rewrite <- Nat.add_assoc.
  - apply (parse_copy _ _ (length t + j) l); [lia|exact Hl|now apply same_app_r|]. now rewrite <- Nat.add_assoc.
Qed.
Lemma literals_parsable t i : i <= length t -> parsable t i (length t - i).
Proof.
  intros H. remember (length t - i) as n eqn:En. revert i H En. induction n as [|n IH]; intros i H En.
  - replace i with (length t) by lia. constructor.
  - apply parse_literal; [lia|]. apply IH; lia.
Qed.
(** without its first letter *)
Lemma tail_parsable c t i k : parsable (c :: t) i k -> 1 <= i -> exists k', k' <= 2 * k /\ parsable t (i - 1) k'.
Proof.
  intros H. induction H as [|i k Hi H IH|i j l k Hj Hl HS H IH]; intros H1.
  - exists 0. split; [lia|]. cbn [length]. replace (S (length t) - 1) with (length t) by lia. constructor.
  - destruct (IH ltac:(lia)) as (k' & L & P). exists (S k'). split; [lia|]. cbn [length] in Hi.
    apply parse_literal; [lia|]. now replace (i - 1 + 1) with (i + 1 - 1) by lia.
  - destruct (IH ltac:(lia)) as (k' & L & P). destruct HS as (S1 & S2 & S3). cbn [length] in S1, S2.
    destruct j as [|j].
    + destruct (Nat.eq_dec l 1) as [->|N].
      * exists (S k'). split; [lia|]. apply parse_literal; [lia|]. now replace (i - 1 + 1) with (i + 1 - 1) by lia.
      * exists (S (S k')). split; [lia|]. apply parse_literal; [lia|].
        apply (parse_copy _ _ 0 (l - 1)); [lia|lia| |now replace (i - 1 + 1 + (l - 1)) with (i + l - 1) by lia].
        split; [lia|]. split; [lia|]. intros x Hx. specialize (S3 (S x) ltac:(lia)). cbn [Nat.add nth] in S3. cbn [Nat.add].
        replace (i + S x) with (S (i - 1 + 1 + x)) in S3 by lia. exact S3.
    + exists (S k'). split; [lia|]. apply (parse_copy _ _ j l); [lia|lia| |now replace (i - 1 + l) with (i + l - 1) by lia].
      split; [lia|]. split; [lia|]. intros x Hx. specialize (S3 x ltac:(lia)). cbn [Nat.add nth] in S3.
      replace (i + x) with (S (i - 1 + x)) in S3 by lia. exact S3.
Qed.
Lemma first_literal t k : t <> [] -> parsable t 0 k -> exists k', k = S k' /\ parsable t 1 k'.
Proof.
  intros Hne H. remember 0 as i eqn:Ei. destruct H as [|i k Hi H|i j l k Hj Hl HS H].
  - destruct t; [contradiction|discriminate].
  - subst. exists k. auto.
  - lia.
Qed.
Lemma drop_first_parsable c t k : t <> [] -> parsable (c :: t) 0 k -> exists k', k' + 2 <= 2 * k /\ parsable t 0 k'.
Proof.
  intros Hne H. destruct (first_literal (c :: t) k ltac:(discriminate) H) as (k1 & -> & H1).
  destruct (tail_parsable c t 1 k1 H1 (le_n _)) as (k' & L & P). exists k'. split; [lia|exact P].
Qed.
(** repetitions *)
Lemma power_nth t m x : x + length t < length (power t (S m)) -> nth x (power t (S m)) 0 = nth (x + length t) (power t (S m)) 0.
Proof.
  revert x. induction m as [|m IH]; intros x H.
  - cbn [power] in *. rewrite app_nil_r in *. lia.
  - change (power t (S (S m))) with (t ++ power t (S m)) in *. rewrite app_length in H.
    rewrite (app_nth2 t (power t (S m)) 0 (n := x + length t)) by lia. replace (x + length t - length t) with x by lia.
    destruct (Nat.lt_ge_cases x (length t)) as [C|C].
    + rewrite app_nth1 by auto. cbn [power]. now rewrite app_nth1.
    + rewrite app_nth2 by auto. rewrite IH by lia. now replace (x - length t + length t) with x by lia.
Qed.
Lemma power_parsable t m k : t <> [] -> parsable t 0 k -> exists k', k' <= k + 1 /\ parsable (power t (S m)) 0 k'.
Proof.
  intros Hne H. destruct m as [|m].
  - exists k. split; [lia|]. cbn [power]. now rewrite app_nil_r.
  - exists (k + 1). split; [lia|]. pose proof (power_nth t (S m)) as PN. change (power t (S (S m))) with (t ++ power t (S m)) in *. apply concat_parsable; [exact H|].
    assert (Ht : 0 < length t) by (destruct t; [contradiction|cbn; lia]).
    assert (Hp : 0 < length (power t (S m))) by (cbn [power]; rewrite app_length; lia).
    apply (parse_copy _ _ 0 (length (power t (S m)))); [lia|lia| |rewrite <- app_length; constructor].
    rewrite app_length in PN. split; [rewrite app_length; lia|]. split; [rewrite app_length; lia|]. intros x Hx. cbn [Nat.add].
    rewrite (Nat.add_comm (length t) x). apply PN. lia.
Qed.
(** one letter changed *)
Section Edit.
Context (t t' : str) (p : nat) (El : length t' = length t) (Hp : p < length t)
  (Ht : forall x, x <> p -> nth x t' 0 = nth x t 0).
Lemma piece0 i j l k : j < i -> same_substring t j i l -> (p < i \/ i + l <= p) -> (p < j \/ j + l <= p) ->
  parsable t' (i + l) k -> exists k', k' <= k + 1 /\ parsable t' i k'.
Proof.
  intros Hj (S1 & S2 & S3) Hi Hs H. destruct (Nat.eq_dec l 0) as [->|N]; [exists k; rewrite Nat.add_0_r in H; split; [lia|exact H]|].
  exists (S k). split; [lia|]. apply (parse_copy _ i j l); auto; [lia|]. split; [lia|]. split; [lia|]. intros x Hx.
  rewrite !Ht by lia. now apply S3.
Qed.
Lemma piece i j l k : j < i -> same_substring t j i l -> (p < i \/ i + l <= p) ->
  parsable t' (i + l) k -> exists k', k' <= k + 3 /\ parsable t' i k'.
Proof.
  intros Hj HS Hi H. destruct (Nat.le_gt_cases (j + l) p) as [C|C].
  - destruct (piece0 i j l k Hj HS Hi (or_intror C) H) as (k' & L & P). exists k'. split; [lia|exact P].
  - destruct (Nat.lt_ge_cases p j) as [D|D].
    + destruct (piece0 i j l k Hj HS Hi (or_introl D) H) as (k' & L & P). exists k'. split; [lia|exact P].
    + pose proof HS as (S1 & S2 & _).
      destruct (piece0 (i + (p - j + 1)) (j + (p - j + 1)) (l - (p - j + 1)) k) as (k1 & L1 & P1); [lia| |lia|lia| |].
      { apply (same_sub t j i l); [exact HS|lia]. }
      { now replace (i + (p - j + 1) + (l - (p - j + 1))) with (i + l) by lia. }
      destruct (piece0 i j (p - j) (S k1)) as (k2 & L2 & P2); [lia| |lia|lia| |].
      { pose proof (same_sub t j i l 0 (p - j) HS ltac:(lia)) as Q. now rewrite !Nat.add_0_r in Q. }
      { apply parse_literal; [lia|]. now replace (i + (p - j) + 1) with (i + (p - j + 1)) by lia. }
      exists k2. split; [lia|exact P2].
Qed.
Lemma edit_parsable i k : parsable t i k -> exists k', k' <= 3 * k + (if i <=? p then 2 else 0) /\ parsable t' i k'.
Proof.
  intros H. induction H as [|i k Hi H IH|i j l k Hj Hl HS H IH].
  - exists 0. split; [lia|]. rewrite <- El. constructor.
  - destruct IH as (k' & L & P). exists (S k'). split; [|apply parse_literal; [lia|exact P]].
    destruct (Nat.leb_spec i p), (Nat.leb_spec (i + 1) p); lia.
  - destruct IH as (k' & L & P). destruct (Nat.lt_ge_cases p i) as [C|C].
    + destruct (piece i j l k' Hj HS (or_introl C) P) as (k2 & L2 & P2). exists k2. split; [|exact P2].
      destruct (Nat.leb_spec i p), (Nat.leb_spec (i + l) p); lia.
    + destruct (Nat.le_gt_cases (i + l) p) as [D|D].
      * destruct (piece0 i j l k' Hj HS (or_intror D) ltac:(lia) P) as (k2 & L2 & P2). exists k2. split; [|exact P2].
        destruct (Nat.leb_spec i p), (Nat.leb_spec (i + l) p); lia.
      * destruct (piece (i + (p - i + 1)) (j + (p - i + 1)) (l - (p - i + 1)) k') as (k1 & L1 & P1); [lia| |lia| |].
        { apply (same_sub t j i l); [exact HS|lia]. }
        { now replace (i + (p - i + 1) + (l - (p - i + 1))) with (i + l) by lia. }
        destruct (piece0 i j (p - i) (S k1)) as (k2 & L2 & P2); [lia| |lia|lia| |].
        { pose proof (same_sub t j i l 0 (p - i) HS ltac:(lia)) as Q. now rewrite !Nat.add_0_r in Q. }
        { apply parse_literal; [lia|]. now replace (i + (p - i) + 1) with (i + (p - i + 1)) by lia. }
        exists k2. split; [|exact P2]. destruct (Nat.leb_spec i p), (Nat.leb_spec (i + l) p); lia.
Qed.
End Edit.
(** all factors but the last stay when the text is continued *)
Lemma factor_len_prefix t u i f g : is_lz77_factor t i f -> is_lz77_factor (t ++ u) i g -> i + Nat.max 1 (lz_len f) < length t ->
  lz_len g = lz_len f.
Proof.
  intros Hf Hg Hi. assert (G : forall j m, j < i -> i + m <= length t -> same_substring (t ++ u) j i m -> same_substring t j i m).
  { intros j m Hj Hm (S1 & S2 & S3). split; [lia|]. split; [lia|]. intros x Hx. specialize (S3 x Hx). rewrite !app_nth1 in S3 by lia. exact S3. }
  destruct Hf as [(E & _ & Hn)|(E & Hd & HS & HM)].
  - destruct Hg as [(E' & _)|(E' & Hd' & HS' & _)]; [congruence|]. exfalso.
    destruct HS' as (S1 & S2 & S3). specialize (S3 0 E'). rewrite !Nat.add_0_r in S3. rewrite !app_nth1 in S3 by lia.
    apply (Hn (i - lz_pos g)); [lia|exact S3].
  - destruct Hg as [(E' & _ & Hn')|(E' & Hd' & HS' & HM')].
    + exfalso. destruct HS as (S1 & S2 & S3). specialize (S3 0 E). rewrite !Nat.add_0_r in S3.
      apply (Hn' (i - lz_pos f)); [lia|]. rewrite !app_nth1 by lia. exact S3.
    + apply Nat.le_antisymm.
      * destruct (Nat.le_gt_cases (lz_len g) (lz_len f)) as [|C]; [assumption|]. exfalso.
        assert (S (lz_len f) <= lz_len f); [|lia]. apply (HM (i - lz_pos g)); [lia|]. apply G; [lia|lia|].
        pose proof (same_sub _ _ _ _ 0 (S (lz_len f)) HS' ltac:(lia)) as Q. now rewrite !Nat.add_0_r in Q.
      * apply (HM' (i - lz_pos f)); [lia|]. now apply same_app_l.
Qed.
Lemma parsing_prefix t u fs : forall i gs, is_lz77_parsing t i fs -> is_lz77_parsing (t ++ u) i gs ->
  exists hs, map lz_len gs = removelast (map lz_len fs) ++ hs.
Proof.
  induction fs as [|f fs IH]; intros i gs Hf Hg; [now exists (map lz_len gs)|].
  destruct fs as [|f2 fs]; [now exists (map lz_len gs)|].
  cbn [is_lz77_parsing] in Hf. destruct Hf as (Hi & Hf & Hi2 & Hf2).
  destruct gs as [|g gs].
  { exfalso. cbn [is_lz77_parsing] in Hg. rewrite app_length in Hg. lia. }
  cbn [is_lz77_parsing] in Hg. destruct Hg as (_ & Hg & Hgs). pose proof (factor_len_prefix t u i f g Hf Hg Hi2) as E.
  rewrite E in Hgs. destruct (IH (i + Nat.max 1 (lz_len f)) gs) as (hs & Eh); [cbn [is_lz77_parsing]; auto|exact Hgs|].
  exists hs. change (map lz_len (f :: f2 :: fs)) with (lz_len f :: map lz_len (f2 :: fs)).
  change (removelast (lz_len f :: map lz_len (f2 :: fs))) with (lz_len f :: removelast (map lz_len (f2 :: fs))).
  cbn [map] in Eh |- *. rewrite <- app_comm_cons. congruence.
Qed.
