(** PropsEnum.v : property theorem C76 (bin/enumerate_lexparse.rs). The program's constants (length 32,
    alphabet size 2) are arguments n and s. *)
From Verif Require Import Base SpecStr LexFacts ModelCore PermFacts SortFacts ModelLz SpecLex LexProof ModelMain MainProof SpecIo SpecMain
  ModelEnum SpecEnum EnumProof.
From Coq Require Import NArith.

(** C76: the lines printed are those of the records, in the order the words are visited *)
Theorem C76_records : forall sort s n, (forall t, is_suffix_array t (sort t)) -> 1 <= s <= 26 ->
  (N.of_nat s ^ N.of_nat n < 2 ^ 64)%N ->
  exists recs out, enumerate_lexparse_main sort n s = Ok out /\ record_lines recs out /\
    StronglySorted before (map fst recs) /\
    (forall w d u1 u2, In (w, (d, u1, u2)) recs -> size_range s w d u1 u2) /\
    (forall w, In w (map fst recs) <-> is_record s n w).
Proof.
  intros sort s n Hs Hl Hn. destruct (enum_main_ok sort s n Hs Hl Hn) as (L & recs & HL & E & H1 & H2 & H3 & _).
  exists recs, (concat (map rec_line recs)). split; [exact E|]. split; [apply rec_lines|]. split; [exact H1|]. split; [exact H2|].
  intros w. rewrite H3. unfold record_in, is_record. rewrite HL. split; intros (Q1 & Q2); (split; [exact Q1|]).
  - intros w' d d' u1 u2 u1' u2' A B. apply Q2. apply HL. auto.
  - intros w' d d' u1 u2 u1' u2' A. apply HL in A. destruct A as (A & B). now apply Q2.
Qed.
Print Assumptions C76_records.
(** the differences printed never decrease, the last one is the largest of all words, and every word
    attaining it has a line *)
Theorem C76_maximum : forall sort s n, (forall t, is_suffix_array t (sort t)) -> 1 <= s <= 26 ->
  (N.of_nat s ^ N.of_nat n < 2 ^ 64)%N ->
  exists recs w0 D v1 v2 out, enumerate_lexparse_main sort n s = Ok out /\
    record_lines (recs ++ [(w0, (D, v1, v2))]) out /\
    StronglySorted (fun r r' => fst (fst (snd r)) <= fst (fst (snd r'))) (recs ++ [(w0, (D, v1, v2))]) /\
    (forall w d u1 u2, length w = n -> Forall (fun c => 97 <= c < 97 + s) w -> size_range s w d u1 u2 ->
       d <= D /\ (d = D -> exists u1' u2', In (w, (D, u1', u2')) (recs ++ [(w0, (D, v1, v2))]))).
Proof.
  intros sort s n Hs Hl Hn. destruct (enum_main_ok sort s n Hs Hl Hn) as (L & recs & HL & E & H1 & H2 & H3 & [H4|H4]).
  { exfalso. assert (Hin : In (repeat 97 n) L).
    { apply HL. split; [apply repeat_length|]. apply Forall_forall. intros c Hc. apply repeat_spec in Hc. lia. }
    rewrite H4 in Hin. destruct Hin. }
  destruct H4 as (m & wm & um1 & um2 & Hm1 & Hm2).
  assert (HS : StronglySorted (fun r r' => fst (fst (snd r)) <= fst (fst (snd r'))) recs).
  { assert (HR : forall r, In r recs -> record_in s L (fst r)) by (intros r Hr; apply H3; now apply in_map).
    clear -H1 H2 HR. induction recs as [|r recs IH]; [constructor|]. cbn [map] in H1. inversion H1 as [|? ? H1a H1b]; subst.
    constructor.
    - apply IH; auto. + intros; eapply H2; right; eauto. + intros r' Hr'. apply HR. now right.
    - rewrite Forall_forall in H1b |- *. intros r' Hr'.
      destruct r as (w, ((d, u1), u2)), r' as (w', ((d', u1'), u2')). cbn [fst snd].
      destruct (HR (w', (d', u1', u2')) ltac:(now right)) as (_ & HQ). cbn [fst] in HQ.
      apply (HQ w d' d u1' u2' u1 u2).
      + apply (HR (w, (d, u1, u2))). now left.
      + apply H1b. apply in_map_iff. exists (w', (d', u1', u2')). auto.
      + apply H2. now left.
      + apply H2. now right. }
  assert (Hne : recs <> []) by (intros ->; destruct Hm1).
  destruct (exists_last Hne) as (recs' & (w0, ((D, v1), v2)) & ER). subst recs.
  assert (ED : D = m).
  { apply Nat.le_antisymm.
    - apply (Hm2 w0 D v1 v2); [|apply H2; apply in_or_app; right; now left]. apply H3. rewrite map_app. apply in_or_app. right. now left.
    - apply in_app_or in Hm1. destruct Hm1 as [Hm1|[Em|[]]]; [|injection Em; lia].
      clear -HS Hm1. induction recs' as [|r recs' IH]; [easy|]. simpl in HS. inversion HS as [|? ? HSa HSb]; subst.
      destruct Hm1 as [->|Hm1]; [|now apply IH]. rewrite Forall_forall in HSb.
      apply (HSb (w0, (D, v1, v2))). apply in_or_app. right. now left. }
  subst m. exists recs', w0, D, v1, v2, (concat (map rec_line (recs' ++ [(w0, (D, v1, v2))]))).
  split; [exact E|]. split; [apply rec_lines|]. split; [exact HS|].
  intros w d u1 u2 A B C. assert (HwL : In w L) by (apply HL; auto). split; [exact (Hm2 w d u1 u2 HwL C)|]. intros ->.
  assert (Hin : In w (map fst (recs' ++ [(w0, (D, v1, v2))]))).
  { apply H3. split; [exact HwL|]. intros w' e e' a1 a2 a1' a2' Hw' _ S1 S2. rewrite (size_range_unique _ _ _ _ _ _ _ _ S2 C).
    exact (Hm2 w' e' a1' a2' Hw' S1). }
  apply in_map_iff in Hin. destruct Hin as ((w', ((d', u1'), u2')) & Ew & Hin). cbn [fst] in Ew. subst w'.
  exists u1', u2'. pose proof (size_range_unique _ _ _ _ _ _ _ _ C (H2 w d' u1' u2' Hin)) as Ed. subst d'. exact Hin.
Qed.
Print Assumptions C76_maximum.
(** the powers overflow: panic *)
Theorem C76_overflow : forall sort s n, (2 ^ 64 <= N.of_nat s ^ N.of_nat n)%N -> enumerate_lexparse_main sort n s = Panic.
Proof. intros sort s n H. unfold enumerate_lexparse_main. now rewrite kmer_generator_overflow. Qed.
Print Assumptions C76_overflow.
Example C76_case : enumerate_lexparse_main naive_sort 1 2 =
  Ok (ascii "0: ""a\0"" <-> ""b\0""" ++ newline ++ ascii "0: ""b\0"" <-> ""a\0""" ++ newline) /\
  enum_step naive_sort 2 (ascii "babaaa") (0, []) = Ok (1, ascii "1: ""babaaa\0"" <-> ""ababbb\0""" ++ newline) /\
  enum_step naive_sort 2 (ascii "aaaaaa") (1, []) = Ok (1, []).
Proof. vm_compute. auto. Qed.
