(** PropsMusRuns.v : property theorems C119: how many minimal unique substrings mus reports, and what they tell about all
    substrings. [sort] stands for cdivsufsort; [naive_sort] is an instance. *)
From Verif Require Import Base SpecStr LexFacts ModelCore PermFacts SortFacts ModelLz SpecLz MusProof SpecIo RunFacts ModelMain MainProof2 SpecMain
  SpecBwt BwtFacts BwtProof PropsLz MusRuns.

Lemma r_of_text sort s : (forall t, is_suffix_array t (sort t)) -> s <> [] -> Forall (fun x => x <> 0) s ->
  count_r_main sort true s 0 false false = Ok (S (length s), length (runs (sa_letters (s ++ [0]) (sort (s ++ [0]))))).
Proof.
  intros Hs Hne HF.
  assert (Hz : ~ In 0 s) by (intros H; rewrite Forall_forall in HF; exact (HF 0 H eq_refl)).
  pose proof (proj1 (Hs (s ++ [0]))) as HP.
  assert (Lb : length (sa_letters (s ++ [0]) (sort (s ++ [0]))) = S (length s)).
  { unfold sa_letters. rewrite map_length. assert (L := is_perm_length _ _ HP). rewrite app_length in L. cbn [length] in L. lia. }
  rewrite <- Lb. apply count_r_ok. rewrite bwt_main_text. cbn iota. change (prefix_read s 0) with s. apply bwt_from_text_by_sa_ok; auto.
  - destruct s; easy.
  - rewrite app_length. simpl. replace (length s + 1 - 1) with (length s + 0) by lia.
    rewrite firstn_app_2. simpl. now rewrite app_nil_r.
Qed.
Lemma starts_nodup (L : list (nat * nat)) : StronglySorted (fun p q => fst p < fst q) L -> NoDup (map fst L).
Proof.
  induction 1 as [|p L HS IH HF]; cbn [map]; constructor; [|exact IH]. rewrite in_map_iff. intros (q & E & Hq).
  rewrite Forall_forall in HF. specialize (HF q Hq). lia.
Qed.
(** at least one pair and at most 2r - 3, r the number of runs printed by count_r for the same text *)
Theorem C119_how_many : forall sort s, (forall t, is_suffix_array t (sort t)) -> s <> [] -> Forall (fun x => x <> 0) s ->
  exists L r, mus_main sort (s ++ [0]) = Ok L /\ count_r_main sort true s 0 false false = Ok (S (length s), r) /\
    1 <= length L /\ length L + 3 <= 2 * r.
Proof.
  intros sort s Hs Hne HF. destruct (C39_mus_with_sentinel sort s Hs HF) as (L & E & SS & HI).
  assert (Hz : ~ In 0 s) by (intros H; rewrite Forall_forall in HF; exact (HF 0 H eq_refl)).
  exists L, (length (runs (sa_letters (s ++ [0]) (sort (s ++ [0]))))). split; [exact E|]. split; [now apply r_of_text|]. split.
  - assert (Hn : 1 <= length s) by (destruct s; [contradiction|cbn [length]; lia]).
    destruct (unique_contains s (length s) 0 Hn Hn) as (i & l & H & _).
    { split; [lia|]. intros j (J & _). lia. }
    apply HI in H. destruct L; [destruct H|cbn [length]; lia].
  - apply mus_runs_sa; auto; [now apply starts_nodup|]. intros i l. apply HI.
Qed.
Print Assumptions C119_how_many.
(** the program appends no sentinel; if it prints something it is no more *)
Theorem C119_program : forall sort s L, (forall t, is_suffix_array t (sort t)) -> s <> [] -> Forall (fun x => x <> 0) s ->
  mus_main sort s = Ok L ->
  exists r, count_r_main sort true s 0 false false = Ok (S (length s), r) /\ length L + 3 <= 2 * r.
Proof.
  intros sort s L Hs Hne HF E.
  assert (Hz : ~ In 0 s) by (intros H; rewrite Forall_forall in HF; exact (HF 0 H eq_refl)).
  assert (DEC : exists L, mus_main sort s = Ok L /\ StronglySorted (fun p q => fst p < fst q) L /\
    forall i l, In (i, l) L -> is_mus s i l).
  { destruct (C40_mus_program sort s Hs Hne) as (G1 & G2).
    destruct G1 as (L' & E' & SS & HI).
    - intros i j H1 H2 H3. rewrite G2 in E; [discriminate|]. exists i, j. auto.
    - exists L'. split; [exact E'|]. split; [exact SS|]. intros i l H. apply HI in H. apply H. }
  destruct DEC as (L' & E' & SS & HI). rewrite E in E'. injection E' as <-.
  eexists. split; [now apply r_of_text|]. apply mus_runs_sa; auto. now apply starts_nodup.
Qed.
Print Assumptions C119_program.
(** a substring occurs once in the text if and only if it contains a reported one *)
Theorem C119_unique_substrings : forall sort s, (forall t, is_suffix_array t (sort t)) -> s <> [] -> Forall (fun x => x <> 0) s ->
  exists L, mus_main sort (s ++ [0]) = Ok L /\
    forall i l, 1 <= l -> i + l <= length s ->
      (unique_substring s i l <-> exists i' l', In (i', l') L /\ i <= i' /\ i' + l' <= i + l).
Proof.
  intros sort s Hs Hne HF. destruct (C39_mus_with_sentinel sort s Hs HF) as (L & E & SS & HI).
  exists L. split; [exact E|]. intros i l Hl Hi. split.
  - intros H. destruct (unique_contains s l i Hl) as (i' & l' & H1 & H2); [destruct s; [contradiction|cbn [length]; lia]|exact H|].
    exists i', l'. split; [now apply HI|exact H2].
  - intros (i' & l' & H1 & H2 & H3). apply HI in H1. eapply contains_unique; eauto.
Qed.
Print Assumptions C119_unique_substrings.
(** starts and ends both increase *)
Theorem C119_increasing : forall sort s, (forall t, is_suffix_array t (sort t)) -> Forall (fun x => x <> 0) s ->
  exists L, mus_main sort (s ++ [0]) = Ok L /\
    StronglySorted (fun p q => fst p < fst q /\ fst p + snd p < fst q + snd q) L.
Proof.
  intros sort s Hs HF. destruct (C39_mus_with_sentinel sort s Hs HF) as (L & E & SS & HI).
  exists L. split; [exact E|]. assert (HM : Forall (fun p => is_mus s (fst p) (snd p)) L).
  { apply Forall_forall. intros (i, l) H. now apply HI. }
  clear HI E. induction SS as [|p L SS IH HF']; [constructor|]. apply Forall_cons_iff in HM. destruct HM as (M1 & M2).
  constructor; [now apply IH|]. rewrite Forall_forall in *. intros q Hq. specialize (HF' q Hq). split; [exact HF'|].
  eapply mus_ends; [exact M1|exact (M2 q Hq)|exact HF'].
Qed.
Print Assumptions C119_increasing.
(** the bound is met: one letter; and a longer text *)
Example C119_case : mus_main naive_sort [97;0] = Ok [(0,1)] /\ count_r_main naive_sort true [97] 0 false false = Ok (2, 2) /\
  mus_main naive_sort [97;98;97;97;98;97;0] = Ok [(2,2)] /\ count_r_main naive_sort true [97;98;97;97;98;97] 0 false false = Ok (7, 5) /\
  mus_main naive_sort [97;98;99;97;98;100;0] = Ok [(2,1);(5,1)] /\
  count_r_main naive_sort true [97;98;99;97;98;100] 0 false false = Ok (7, 5) /\
  mus_main naive_sort [97;98;97;98;97;97;98;98;0] = Ok [(1,3);(4,2);(6,2)].
Proof. vm_compute. repeat split. Qed.
