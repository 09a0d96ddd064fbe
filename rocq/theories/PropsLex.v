(** PropsLex.v : property theorems C73, C74, C75. [sort] stands for cdivsufsort; [naive_sort] is an instance. *)
From Verif Require Import Base SpecStr LexFacts ModelCore PermFacts SortFacts LcpProof ModelLz SpecLz LzProof MusProof SpecLex LexProof
  SpecIo RunFacts ModelMain MainProof2 SpecMain SpecBwt BwtFacts BwtProof LexRuns
  SpecAttr ModelAttr AttrProof2 PropsLz PropsAttr ParseAttr RunAttr.
From Coq Require Import NArith.

(** C73 *)
Theorem C73_lexparse_is_the_lexparse : forall sort t, (forall t, is_suffix_array t (sort t)) ->
  (exists i j, i < length t /\ j < length t /\ nth i t 0 <> nth j t 0) ->
  exists fs, count_lexparse_main sort t = Ok fs /\ is_lexparse t 0 fs /\ forall gs, is_lexparse t 0 gs -> gs = fs.
Proof.
  intros sort t Hs (i & j & Hi & Hj & Hne).
  destruct (lexparse_spec_ok sort t Hs) as (fs & E & H).
  - intros ->. simpl in Hi. lia.
  - intros Hu. apply Hne, Hu; auto.
  - exists fs. split; [exact E|]. split; [exact H|]. intros gs G. exact (lexparse_unique t gs fs 0 G H).
Qed.
Print Assumptions C73_lexparse_is_the_lexparse.
(** for every non-empty text, unary ones included, the printed number of factors is the size of the lexparse *)
Theorem C73_size : forall sort t, (forall t, is_suffix_array t (sort t)) -> t <> [] ->
  exists fs gs, count_lexparse_main sort t = Ok fs /\ is_lexparse t 0 gs /\ length fs = length gs /\
    forall gs', is_lexparse t 0 gs' -> gs' = gs.
Proof.
  intros sort t Hs Hne. destruct (lexparse_lens_ok sort t Hs Hne) as (fs & gs & E & H & HL).
  exists fs, gs. split; [exact E|]. split; [exact H|]. split.
  - apply (f_equal (@length nat)) in HL. rewrite !map_length in HL. auto.
  - intros gs' G. exact (lexparse_unique t gs' gs 0 G H).
Qed.
Print Assumptions C73_size.
(** the first claim fails for unary texts: the factors are never the lexparse *)
Theorem C73_unary_refuted : forall sort c n, (forall t, is_suffix_array t (sort t)) -> 0 < n ->
  exists fs, count_lexparse_main sort (repeat c n) = Ok fs /\ ~ is_lexparse (repeat c n) 0 fs.
Proof.
  intros sort c n Hs Hn. destruct (lexparse_ok sort (repeat c n) Hs) as (fs & E & _ & _ & H).
  { destruct n; [lia|discriminate]. }
  exists fs. split; [exact E|]. intros HL.
  assert (Hu : unary (repeat c n)).
  { intros i j Hi Hj. rewrite repeat_length in *. rewrite !nth_rep by lia. reflexivity. }
  specialize (H Hu (S c)). rewrite repeat_length in H.
  pose proof (unary_lexparse_lit c n (S c) fs 0 Hn HL H). lia.
Qed.
Print Assumptions C73_unary_refuted.
Example C73_case : is_lexparse [98;97;98;97] 0 [LZ 2 2; LZ 98 0; LZ 97 0] /\
  count_lexparse_main naive_sort [98;97;98;97] = Ok [LZ 2 2; LZ 98 0; LZ 97 0] /\
  is_lexparse [97;97;97] 0 [LZ 1 2; LZ 97 0] /\ count_lexparse_main naive_sort [97;97;97] = Ok [LZ 1 2; LZ 0 1].
Proof.
  split; [|split; [reflexivity|split; [|reflexivity]]].
  - destruct (C73_lexparse_is_the_lexparse naive_sort [98;97;98;97] naive_sort_ok) as (fs & E & H & _).
    { exists 0, 1. simpl. lia. }
    vm_compute in E. injection E as <-. exact H.
  - cbn [is_lexparse length lz_len]. split; [lia|]. split; [|split; [simpl; lia|split; [|reflexivity]]].
    + right. cbn [lz_len lz_pos]. split; [lia|]. split.
      * split; [simpl; lia|]. split; [cbn [skipn]; do 2 apply lex_tail; apply lex_nil|]. intros [|[|[|k]]] Hk; simpl in Hk; try lia; intros L.
        -- exfalso. exact (lex_lt_irrefl _ L).
        -- apply lex_le_refl.
        -- right. cbn [skipn]. apply lex_tail, lex_nil.
      * unfold is_lcp. simpl. repeat split; try lia.
    + left. cbn [lz_len lz_pos]. split; [reflexivity|]. split; [reflexivity|].
      intros j (Hj & L & _). exfalso. simpl in Hj. destruct j as [|[|[|j]]]; try lia; cbn [skipn] in L.
      * inversion L as [| |? ? ? L2]; [lia|]. inversion L2.
      * inversion L as [| |? ? ? L2]; [lia|]. inversion L2.
      * exact (lex_lt_irrefl _ L).
Qed.

(** C74: a text whose only 0 byte is its last; r runs of its BWT (as count_r prints them for the text
    without its end marker), sigma different letters *)
Theorem C74_lexparse_at_most_2r : forall sort content p, (forall t, is_suffix_array t (sort t)) ->
  ~ In 0 (prefix_read content p) ->
  exists fs r, count_lexparse_main sort (prefix_read content p ++ [0]) = Ok fs /\
    count_r_main sort true content p false false = Ok (S (length (prefix_read content p)), r) /\
    length fs <= r + length (nodup Nat.eq_dec (prefix_read content p ++ [0])) /\
    length (nodup Nat.eq_dec (prefix_read content p ++ [0])) <= r.
Proof.
  intros sort content p Hs Hz. set (s := prefix_read content p) in *.
  destruct (lexparse_runs sort s Hs Hz) as (fs & E & HL). pose proof (proj1 (Hs (s ++ [0]))) as HP.
  exists fs, (length (runs (sa_letters (s ++ [0]) (sort (s ++ [0]))))).
  split; [exact E|]. split; [|split; [exact HL|]].
  - rewrite (count_r_ok _ _ _ _ _ _ (sa_letters (s ++ [0]) (sort (s ++ [0])))).
    + do 2 f_equal. unfold sa_letters. rewrite map_length, (is_perm_length _ _ HP), app_length. simpl. lia.
    + rewrite bwt_main_text. cbn iota. fold s. apply bwt_from_text_by_sa_ok; auto.
      * destruct s; easy.
      * rewrite app_length. simpl. replace (length s + 1 - 1) with (length s + 0) by lia.
        rewrite firstn_app_2. simpl. now rewrite app_nil_r.
  - rewrite <- (nodup_length_perm _ _ (sa_letters_perm (s ++ [0]) _ HP)). apply runs_letters.
Qed.
Print Assumptions C74_lexparse_at_most_2r.
Theorem C74_lexparse_2r : forall sort content p fs n r, (forall t, is_suffix_array t (sort t)) ->
  ~ In 0 (prefix_read content p) ->
  count_lexparse_main sort (prefix_read content p ++ [0]) = Ok fs ->
  count_r_main sort true content p false false = Ok (n, r) -> length fs <= 2 * r.
Proof.
  intros sort content p fs n r Hs Hz E1 E2.
  destruct (C74_lexparse_at_most_2r sort content p Hs Hz) as (fs' & r' & F1 & F2 & H1 & H2).
  rewrite E1 in F1. rewrite E2 in F2. injection F1 as <-. injection F2 as _ <-. lia.
Qed.
Print Assumptions C74_lexparse_2r.
Example C74_case : count_lexparse_main naive_sort ([2;1;3;1;3;1;2;1;3] ++ [0]) = Ok [LZ 6 3; LZ 7 2; LZ 1 0; LZ 2 0; LZ 5 1; LZ 3 0; LZ 0 0] /\
  count_r_main naive_sort true [2;1;3;1;3;1;2;1;3] 0 false false = Ok (10, 7).
Proof. vm_compute. split; reflexivity. Qed.

(** C75 *)
Theorem C75_lz77_attractor : forall sort s, (forall t, is_suffix_array t (sort t)) -> s <> [] ->
  Forall (fun x => 0 < x < 256) s -> (N.of_nat (length s) < 2^32)%N ->
  exists fs, count_z_main sort s = Ok fs /\ length (factor_ends 0 fs) = length fs /\
    is_attractor sort (s ++ [0]) (factor_ends 0 fs) = Ok true.
Proof.
  intros sort s Hs Hne HF Hn.
  destruct (C36_lz77_longest_previous_factors sort s Hs Hne) as (fs & E & HP & _); auto.
  { eapply Forall_impl; [|exact HF]. cbv beta. lia. }
  exists fs. split; [exact E|]. split; [apply ranked_ends_length|].
  pose proof (lz77_ranked s fs 0 HP) as HR.
  apply (C41_is_attractor_bytes sort s _ Hs Hne).
  - eapply Forall_impl; [|exact HF]. cbv beta. lia.
  - eapply Forall_impl; [|exact (ranked_ends s _ fs 0 HR)]. cbv beta. lia.
  - exact (ranked_attractor s _ fs HR).
Qed.
Print Assumptions C75_lz77_attractor.
Theorem C75_lexparse_attractor : forall sort s, (forall t, is_suffix_array t (sort t)) -> s <> [] ->
  Forall (fun x => x <> 0) s ->
  exists fs, count_lexparse_main sort s = Ok fs /\ length (factor_ends 0 fs) = length fs /\
    is_attractor sort (s ++ [0]) (factor_ends 0 fs) = Ok true.
Proof.
  intros sort s Hs Hne HF. destruct (lexparse_lens_ok sort s Hs Hne) as (fs & gs & E & HL & HM).
  exists fs. split; [exact E|]. split; [apply ranked_ends_length|].
  rewrite <- (ranked_lens fs gs 0 HM).
  destruct (inverse_permutation_spec _ _ (proj1 (Hs s))) as (isa & Ei & _).
  pose proof (lex_ranked s (sort s) isa gs (Hs s) Ei 0 HL) as HR.
  apply (C41_is_attractor_bytes sort s _ Hs Hne HF).
  - eapply Forall_impl; [|exact (ranked_ends s _ gs 0 HR)]. cbv beta. lia.
  - exact (ranked_attractor s _ gs HR).
Qed.
Print Assumptions C75_lexparse_attractor.
(** the positions of the first letters of the runs of the BWT: r - 1 positions inside the text (the run that starts with
    the end marker has none), r as count_r prints it *)
Theorem C75_bwt_attractor : forall sort s, (forall t, is_suffix_array t (sort t)) -> s <> [] ->
  Forall (fun x => x <> 0) s ->
  exists b A r, bwt_main sort true s 0 false false = Ok b /\
    count_r_main sort true s 0 false false = Ok (S (length s), r) /\ NoDup A /\ S (length A) = r /\
    (forall a, In a A <-> a < length s /\ exists i, i < length b /\ nth i (sort (s ++ [0])) 0 = S a /\
      nth i b 0 = nth a s 0 /\ (i = 0 \/ nth i b 0 <> nth (i - 1) b 0)) /\
    is_attractor sort (s ++ [0]) A = Ok true.
Proof.
  intros sort s Hs Hne HF.
  assert (Hz : ~ In 0 s) by (intros H; rewrite Forall_forall in HF; exact (HF 0 H eq_refl)).
  pose proof (proj1 (Hs (s ++ [0]))) as HP.
  set (b := sa_letters (s ++ [0]) (sort (s ++ [0]))).
  assert (El : length (s ++ [0]) = S (length s)) by (rewrite app_length; simpl; lia).
  assert (Lb : length b = length (s ++ [0])) by (unfold b, sa_letters; rewrite map_length; now apply is_perm_length).
  assert (Eb : bwt_main sort true s 0 false false = Ok b).
  { rewrite bwt_main_text. cbn iota. change (prefix_read s 0) with s. apply bwt_from_text_by_sa_ok; auto.
    - destruct s; easy.
    - rewrite app_length. simpl. replace (length s + 1 - 1) with (length s + 0) by lia.
      rewrite firstn_app_2. simpl. now rewrite app_nil_r. }
  destruct (bwt_heads_attractor s (sort (s ++ [0])) Hz (Hs _)) as (A & HN & HL & HI & HA & HB). fold b in HL, HI, HB.
  exists b, A, (length (runs b)). split; [exact Eb|]. split; [rewrite (count_r_ok _ _ _ _ _ _ _ Eb); now rewrite Lb, El|].
  split; [exact HN|]. split; [exact HL|]. split.
  - intros a. rewrite HI, <- Lb. split.
    + intros (Ha & i & Hi & E & H). split; [exact Ha|]. exists i. split; [exact Hi|]. split; [exact E|]. split; [|exact H].
      rewrite (HB i a) by (auto; lia). now rewrite app_nth1.
    + intros (Ha & i & Hi & E & _ & H). split; [exact Ha|]. exists i. auto.
  - apply (C41_is_attractor_bytes sort s _ Hs Hne HF); [|exact HA].
    apply Forall_forall. intros a Ha. apply HI in Ha. lia.
Qed.
Print Assumptions C75_bwt_attractor.
(** an accepted attractor has a position for every letter and one inside every minimal unique substring
    (indeed inside every substring occurring once) *)
Theorem C75_accepted_lower_bound : forall sort s A, (forall t, is_suffix_array t (sort t)) -> s <> [] ->
  Forall (fun x => x <> 0) s -> is_attractor sort (s ++ [0]) A = Ok true ->
  length (nodup Nat.eq_dec s) <= length A /\
  (forall i l, 1 <= l -> unique_substring s i l -> exists a, In a A /\ i <= a < i + l).
Proof.
  intros sort s A Hs Hne HF H.
  assert (HA : Forall (fun a => a <= length s) A).
  { destruct (Forall_dec (fun a => a <= length s) (fun a => le_dec a (length s)) A) as [|N]; [assumption|].
    rewrite (C41_out_of_range sort s A N) in H. discriminate. }
  apply (C41_is_attractor_bytes sort s A Hs Hne HF HA) in H. split; [now apply attractor_sigma|].
  intros i l Hl HU. exact (attractor_unique_substring s A i l H Hl HU).
Qed.
Print Assumptions C75_accepted_lower_bound.
Example C75_case : count_z_main naive_sort [97;98;97;98;97] = Ok [LZ 97 0; LZ 98 0; LZ 2 3] /\
  factor_ends 0 [LZ 97 0; LZ 98 0; LZ 2 3] = [0;1;4] /\ is_attractor naive_sort [97;98;97;98;97;0] [0;1;4] = Ok true /\
  count_lexparse_main naive_sort [98;97;98;97] = Ok [LZ 2 2; LZ 98 0; LZ 97 0] /\
  is_attractor naive_sort [98;97;98;97;0] (factor_ends 0 [LZ 2 2; LZ 98 0; LZ 97 0]) = Ok true /\
  bwt_main naive_sort true [97;98;97;98;97] 0 false false = Ok [97;98;98;0;97;97] /\ count_r_main naive_sort true [97;98;97;98;97] 0 false false = Ok (6, 4) /\
  naive_sort [97;98;97;98;97;0] = [5;4;2;0;3;1] /\ is_attractor naive_sort [97;98;97;98;97;0] [4;3;2] = Ok true.
Proof. vm_compute. repeat split. Qed.
