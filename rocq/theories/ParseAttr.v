(** ParseAttr.v : the last positions of the factors of LZ77 and of the lexparse are string attractors. *)
From Verif Require Import Base SpecStr LexFacts ModelCore PermFacts SortFacts LcpProof ModelLz SpecLz LzProof MusProof SpecLex LexProof SpecAttr.

Section Parse.
Context (t : str) (rank : nat -> nat).
(** every factor of length > 1 is a copy of positions of smaller rank *)
Fixpoint ranked (i : nat) (fs : list lzfactor) : Prop :=
  match fs with
  | [] => i = length t
  | f :: fs' => i < length t /\ ranked (i + Nat.max 1 (lz_len f)) fs' /\
      (2 <= lz_len f -> exists q, same_substring t q i (lz_len f) /\
         forall x, x < lz_len f -> rank (q + x) < rank (i + x))
  end.
Lemma ranked_cover fs : forall a, ranked a fs -> forall i, a <= i < length t ->
  exists p l, p <= i < p + Nat.max 1 l /\ In (p + Nat.max 1 l - 1) (factor_ends a fs) /\
   (2 <= l -> exists q, same_substring t q p l /\ forall x, x < l -> rank (q + x) < rank (p + x)).
Proof.
  induction fs as [|f fs IH]; intros a H i Hi; cbn [ranked factor_ends] in *; [lia|].
  destruct H as (Ha & H & Hf). destruct (Nat.le_gt_cases (a + Nat.max 1 (lz_len f)) i) as [C|C].
  - destruct (IH _ H i ltac:(lia)) as (p & l & H1 & H2 & H3). exists p, l. split; [exact H1|]. split; [now right|exact H3].
  - exists a, (lz_len f). split; [lia|]. split; [now left|exact Hf].
Qed.
Lemma ranked_attractor fs : ranked 0 fs -> string_attractor t (factor_ends 0 fs).
Proof.
  intros HR i l Hl. remember (rank i) as m eqn:Em. revert i Em.
  induction m as [m IH] using lt_wf_ind. intros i -> Hi.
  destruct (ranked_cover fs 0 HR i ltac:(lia)) as (p & k & H1 & H2 & H3).
  destruct (Nat.lt_ge_cases (p + Nat.max 1 k - 1) (i + l)) as [C|C].
  - exists i, (p + Nat.max 1 k - 1). split; [|split; [exact H2|lia]].
    split; [exact Hi|]. split; [exact Hi|]. reflexivity.
  - destruct H3 as (q & (S1 & S2 & S3) & HQ); [lia|].
    destruct (IH (rank (q + (i - p)))) with (i := q + (i - p)) as (j & e & (J1 & J2 & J3) & HJ); auto.
    + specialize (HQ (i - p) ltac:(lia)). now replace (p + (i - p)) with i in HQ by lia.
    + lia.
    + exists j, e. split; [|exact HJ]. split; [exact J1|]. split; [exact Hi|].
      intros x Hx. rewrite J3 by auto. specialize (S3 (i - p + x) ltac:(lia)).
      replace (q + (i - p + x)) with (q + (i - p) + x) in S3 by lia.
      now replace (p + (i - p + x)) with (i + x) in S3 by lia.
Qed.
Lemma ranked_lens fs : forall gs a, map (fun f => Nat.max 1 (lz_len f)) gs = map (fun f => Nat.max 1 (lz_len f)) fs ->
  factor_ends a gs = factor_ends a fs.
Proof.
  induction fs as [|f fs IH]; intros [|g gs] a H; try discriminate H; [reflexivity|].
  pose proof (f_equal (hd 0) H) as H1. pose proof (f_equal (@tl nat) H) as H2. cbn [map hd tl factor_ends] in *.
  rewrite H1. f_equal. now apply IH.
Qed.
Lemma ranked_ends fs : forall a, ranked a fs -> Forall (fun e => e < length t) (factor_ends a fs).
Proof.
  induction fs as [|f fs IH]; intros a H; cbn [ranked factor_ends] in *; constructor; [|apply IH; tauto].
  destruct H as (Ha & H & _). destruct fs; cbn [ranked] in H; lia.
Qed.
Lemma ranked_ends_length fs : forall a, length (factor_ends a fs) = length fs.
Proof. induction fs as [|f fs IH]; intros a; cbn [factor_ends length]; auto. Qed.
End Parse.

Lemma lz77_ranked t fs : forall i, is_lz77_parsing t i fs -> ranked t (fun x => x) i fs.
Proof.
  induction fs as [|f fs IH]; intros i H; cbn [is_lz77_parsing ranked] in *; auto.
  destruct H as (Hi & Hf & H). split; [exact Hi|]. split; [now apply IH|]. intros H2.
  destruct Hf as [(E & _)|(E & Hp & HS & _)]; [lia|].
  exists (i - lz_pos f). split; [exact HS|]. intros x Hx. lia.
Qed.
Lemma lex_ranked t sa isa fs : is_suffix_array t sa -> inverse_permutation sa = Ok isa ->
  forall i, is_lexparse t i fs -> ranked t (fun x => nth x isa 0) i fs.
Proof.
  intros HSA Ei. induction fs as [|f fs IH]; intros i H; cbn [is_lexparse ranked] in *; auto.
  destruct H as (Hi & Hf & H). split; [exact Hi|]. split; [now apply IH|]. intros H2.
  destruct Hf as [(E & _)|(E & (Hp & HL & _) & HS)]; [lia|].
  apply lcpv_is_lcp in HS; [|lia..]. destruct HS as (HA & _).
  exists (lz_pos f). split; [exact HA|]. intros x Hx. destruct HA as (A1 & A2 & A3).
  apply (isa_lt_iff t sa isa); auto; try lia.
  apply (agree_lex_shift t _ _ (lz_len f)); [now split|exact HL|lia].
Qed.

(** ** lower bounds *)
Lemma attractor_sigma s A : string_attractor s A -> length (nodup Nat.eq_dec s) <= length A.
Proof.
  intros H. rewrite <- (map_length (fun a => nth a s 0) A).
  apply NoDup_incl_length; [apply NoDup_nodup|]. intros c Hc. apply nodup_In in Hc.
  apply (In_nth _ _ 0) in Hc. destruct Hc as (i & Hi & <-).
  destruct (H i 1 ltac:(lia) ltac:(lia)) as (j & a & (S1 & S2 & S3) & Ha & Hj).
  apply in_map_iff. exists a. split; [|exact Ha]. replace a with (j + 0) by lia. rewrite S3 by lia. now rewrite Nat.add_0_r.
Qed.
Lemma attractor_unique_substring s A i l : string_attractor s A -> 1 <= l -> unique_substring s i l ->
  exists a, In a A /\ i <= a < i + l.
Proof.
  intros H Hl (Hi & HU). destruct (H i l Hl Hi) as (j & a & HS & Ha & Hj).
  rewrite (HU j HS) in Hj. exists a. auto.
Qed.
