(** PropsRename.v : property theorem C108: renaming the letters of a text. [sort] stands for cdivsufsort; [naive_sort] is an
    instance. *)
From Verif Require Import Base SpecStr SpecBwt SpecIo SpecMain SpecLz SpecAttr SpecRename SpecEntropy LexFacts PermFacts SortFacts.
From Verif Require Import ModelCore ModelWord ModelLz ModelMain ModelAttr ModelEntropy DuvalProof LyndonProof BwtFacts BwtProof BbwtProof
  RunFacts MainProof2 MusProof LexRuns RenameProof RenameProof2.
From Verif Require Import PropsLyndon PropsArrays PropsBwt PropsLz PropsAttr PropsLex PropsEntropy.
From Coq Require Import NArith Reals.
Local Open Scope nat_scope.

Lemma letters_sub f s u : keeps_letters f (s ++ u) -> keeps_letters f s.
Proof. intros H. apply (keeps_letters_incl f _ s H). intros x Hx. apply in_or_app. now left. Qed.
Lemma map_snoc f s : f 0 = 0 -> map f s ++ [0] = map f (s ++ [0]).
Proof. intros H. rewrite map_app. cbn [map]. now rewrite H. Qed.
Lemma letters_zero f s : f 0 = 0 -> keeps_letters f (s ++ [0]) -> Forall (fun x => x <> 0) s -> Forall (fun x => x <> 0) (map f s).
Proof.
  intros Hz Hf HF. rewrite Forall_map. rewrite Forall_forall in *. intros x Hx E. apply (HF x Hx). apply Hf.
  - apply in_or_app. now left.
  - apply in_or_app. right. now left.
  - congruence.
Qed.
Lemma runs_map f b : keeps_letters f b -> length (runs (map f b)) = length (runs b).
Proof.
  intros Hf. rewrite !runs_changes, map_length. f_equal. apply filter_ext_in. intros i Hi. apply in_seq in Hi.
  unfold change. f_equal. f_equal. pose proof (nth_eq_iff f b Hf i (i - 1) ltac:(lia) ltac:(lia)) as K.
  destruct (Nat.eqb_spec (nth i (map f b) 0) (nth (i - 1) (map f b) 0)), (Nat.eqb_spec (nth i b 0) (nth (i - 1) b 0)); tauto.
Qed.

(** C108: library functions under a renaming that keeps the order of the letters *)
Theorem C108_order : forall sort f t, (forall t, is_suffix_array t (sort t)) -> t <> [] -> keeps_order f t ->
  sort (map f t) = sort t /\ suffixarray_naive (map f t) = suffixarray_naive t /\
  duval (map f t) = duval t /\ lyndon_conjugate (map f t) = lyndon_conjugate t /\
  (forall n, is_necklace (map f t) n = is_necklace t n) /\
  exists b bb fs, bwt_by_matrix_naive t = Ok b /\ bwt_by_matrix_naive (map f t) = Ok (map f b) /\
    bbwt_naive t = Ok bb /\ bbwt_naive (map f t) = Ok (map f bb) /\
    count_lexparse_main sort t = Ok fs /\ count_lexparse_main sort (map f t) = Ok (map (rename_factor f) fs).
Proof.
  intros sort f t Hs Hne Hf. assert (Hne2 : map f t <> []) by (destruct t; [contradiction|discriminate]).
  assert (ES : sort (map f t) = sort t).
  { apply (suffix_array_unique (map f t)); [apply Hs|]. apply (suffix_array_map f t Hf), Hs. }
  assert (ED : forall u, keeps_order f u -> duval (map f u) = duval u).
  { intros u Hu. destruct (C01_duval_is_lyndon_factorization u) as (ends & fs & E & HF & ->).
    destruct (C01_duval_is_lyndon_factorization (map f u)) as (ends' & gs & E' & HG & ->).
    rewrite E, E'. f_equal. rewrite (lyndon_factorization_unique _ _ _ HG (factorization_map f u Hu fs HF)). apply ends_from_map. }
  split; [exact ES|]. split; [|split; [now apply ED|split; [|split; [intros n; now apply necklace_map|]]]].
  - destruct (C08_suffixarray_naive t) as (sa & -> & H & _). destruct (C08_suffixarray_naive (map f t)) as (sa' & -> & H' & _).
    f_equal. apply (suffix_array_unique (map f t)); [exact H'|]. now apply (suffix_array_map f t Hf).
  - unfold lyndon_conjugate. rewrite <- map_app, map_length. rewrite ED; [reflexivity|].
    intros x y Hx Hy. apply Hf; apply in_app_or in Hx, Hy; tauto.
  - destruct (C14_total t) as (b & Eb & _). destruct (C18_bbwt_permutation t Hne) as (bb & Ebb & _).
    destruct (C73_size sort t Hs Hne) as (fs & gs & Efs & _).
    exists b, bb, fs. split; [exact Eb|]. split; [|split; [exact Ebb|split; [|split; [exact Efs|]]]].
    + apply C14_bwt_by_matrix_naive. apply (matrix_bwt_map f t Hf b Hne). now apply C14_bwt_by_matrix_naive.
    + apply C18_bbwt_naive; [exact Hne2|]. apply (bijective_bwt_map f t Hf bb). now apply C18_bbwt_naive.
    + unfold count_lexparse_main in *. rewrite ES. destruct (compute_phi (sort t)) as [phi| |] eqn:E1; cbn [bind] in *; try discriminate.
      rewrite (plcp_map f t (order_letters f t Hf) (sort t) phi); auto.
      2: { rewrite <- ES. apply Hs. }
      destruct (compute_plcp t phi) as [plcp| |]; cbn [bind] in *; try discriminate. rewrite lexparse_map, Efs. reflexivity.
Qed.
Print Assumptions C108_order.
(** the whole LZ77 factorization, distances included *)
Theorem C108_order_lz77 : forall sort f t, (forall t, is_suffix_array t (sort t)) -> t <> [] -> keeps_order f t ->
  bytes t -> bytes (map f t) -> (N.of_nat (length t) < 2^32)%N ->
  exists fs, count_z_main sort t = Ok fs /\ count_z_main sort (map f t) = Ok (map (rename_factor f) fs).
Proof.
  intros sort f t Hs Hne Hf Hb Hb2 Hn. assert (Hne2 : map f t <> []) by (destruct t; [contradiction|discriminate]).
  destruct (C35_lz77_decodes sort t Hs Hne Hb Hn) as (fs & E & _).
  destruct (C35_lz77_decodes sort (map f t) Hs Hne2 Hb2 ltac:(rewrite map_length; exact Hn)) as (gs & E' & _).
  exists fs. split; [exact E|]. rewrite E'. f_equal.
  destruct (C108_order sort f t Hs Hne Hf) as (ES & _).
  unfold count_z_main in E, E'. cbv zeta in E, E'. rewrite ES in E'.
  destruct (inverse_permutation (sort t)) as [isa| |]; cbn [bind] in *; try discriminate.
  destruct (compute_psv (sort t)) as [psv| |]; cbn [bind] in *; try discriminate.
  destruct (compute_nsv (sort t)) as [nsv| |]; cbn [bind] in *; try discriminate.
  destruct (compute_phi (sort t)) as [phi| |] eqn:E1; cbn [bind] in *; try discriminate.
  rewrite (plcp_map f t (order_letters f t Hf) (sort t) phi) in E'; auto.
  2: { rewrite <- ES. apply Hs. }
  destruct (compute_plcp t phi) as [plcp| |]; cbn [bind] in *; try discriminate.
  destruct (compute_lcp plcp (sort t)) as [lcp| |]; cbn [bind] in *; try discriminate.
  rewrite lz77_map in E'.
  destruct (compute_lz77 t (sort t) isa lcp nsv psv) as [hs| |]; cbn [bind] in *; try discriminate.
  destruct (decode_lz77 hs) as [d| |]; cbn [bind] in *; try discriminate.
  destruct (decode_lz77 (map (rename_factor f) hs)) as [d'| |]; cbn [bind] in *; try discriminate.
  destruct (list_eq_dec Nat.eq_dec t d); cbn [assert_ bind] in E; try discriminate.
  destruct (list_eq_dec Nat.eq_dec (map f t) d'); cbn [assert_ bind] in E'; try discriminate.
  congruence.
Qed.
Print Assumptions C108_order_lz77.
(** the programs bwt and count_r, which append the end marker 0 *)
Theorem C108_order_programs : forall sort f s, (forall t, is_suffix_array t (sort t)) -> ~ In 0 s -> f 0 = 0 -> keeps_order f (s ++ [0]) ->
  exists b n r, bwt_main sort true s 0 false false = Ok b /\ bwt_main sort true (map f s) 0 false false = Ok (map f b) /\
    count_r_main sort true s 0 false false = Ok (n, r) /\ count_r_main sort true (map f s) 0 false false = Ok (n, r).
Proof.
  intros sort f s Hs Hz H0 Hf.
  assert (Hz2 : ~ In 0 (map f s)).
  { intros H. apply in_map_iff in H. destruct H as (x & E & Hx). assert (f 0 < f x); [|lia].
    apply Hf; [apply in_or_app; right; now left|apply in_or_app; now left|]. destruct x; [contradiction|lia]. }
  assert (Hne : s ++ [0] <> []) by (destruct s; discriminate || contradiction).
  destruct (C108_order sort f (s ++ [0]) Hs Hne Hf) as (_ & _ & _ & _ & _ & b & _ & _ & Eb & Eb2 & _).
  assert (E1 : bwt_main sort true s 0 false false = Ok b).
  { rewrite bwt_main_text. cbn iota. change (prefix_read s 0) with s. now rewrite C16_dollar_agree. }
  assert (E2 : bwt_main sort true (map f s) 0 false false = Ok (map f b)).
  { rewrite bwt_main_text. cbn iota. change (prefix_read (map f s) 0) with (map f s). rewrite C16_dollar_agree by auto.
    now rewrite (map_snoc f s H0). }
  exists b, (length b), (length (runs b)). split; [exact E1|]. split; [exact E2|].
  split; [now apply count_r_ok|]. rewrite (count_r_ok _ _ _ _ _ _ _ E2). rewrite map_length, runs_map; [reflexivity|].
  destruct (C14_total (s ++ [0])) as (b' & Eb' & HP). rewrite Eb in Eb'. injection Eb' as <-.
  apply (keeps_letters_incl f (s ++ [0])); [now apply order_letters|]. intros x. now apply Permutation_in.
Qed.
Print Assumptions C108_order_programs.

(** under a renaming that only keeps different letters different *)
Theorem C108_letters : forall f t, keeps_letters f t ->
  border_array (map f t) = border_array t /\ is_primitive (map f t) = is_primitive t.
Proof.
  intros f t Hf. assert (EB : border_array (map f t) = border_array t).
  { destruct (C05_border_array_longest_borders t) as (B & -> & L & Z & HB).
    destruct (C05_border_array_longest_borders (map f t)) as (B' & -> & L' & Z' & HB'). rewrite map_length in *. f_equal.
    apply (nth_ext_len _ _ 0); [congruence|]. intros i Hi. rewrite L' in Hi. destruct i as [|i]; [congruence|].
    destruct (HB (S i) ltac:(lia)) as (A1 & A2). destruct (HB' (S i) ltac:(lia)) as (A1' & A2').
    apply Nat.le_antisymm; [apply A2; now apply (border_map f t Hf)|apply A2'; now apply (border_map f t Hf)]. }
  split; [exact EB|]. unfold is_primitive. now rewrite EB, map_length.
Qed.
Print Assumptions C108_letters.
(** the LZ77 factors keep their lengths (their sources may differ) *)
Theorem C108_letters_lz77 : forall sort f t, (forall t, is_suffix_array t (sort t)) -> t <> [] -> keeps_letters f t ->
  bytes t -> bytes (map f t) -> (N.of_nat (length t) < 2^32)%N ->
  exists fs gs, count_z_main sort t = Ok fs /\ count_z_main sort (map f t) = Ok gs /\ map lz_len gs = map lz_len fs.
Proof.
  intros sort f t Hs Hne Hf Hb Hb2 Hn. assert (Hne2 : map f t <> []) by (destruct t; [contradiction|discriminate]).
  destruct (C36_lz77_longest_previous_factors sort t Hs Hne Hb Hn) as (fs & E & HP & _).
  destruct (C36_lz77_longest_previous_factors sort (map f t) Hs Hne2 Hb2 ltac:(rewrite map_length; exact Hn)) as (gs & E' & _ & HU).
  exists fs, gs. split; [exact E|]. split; [exact E'|].
  rewrite <- (HU _ (lz77_parsing_map f t Hf fs 0 HP)), map_map. apply map_ext. intros g. unfold rename_factor.
  destruct (Nat.eqb_spec (lz_len g) 0); [cbn; congruence|reflexivity].
Qed.
Print Assumptions C108_letters_lz77.
(** mus, is_stringattractor and the entropies; the end marker keeps its value *)
Lemma fst_sorted_unique (l l' : list (nat * nat)) : StronglySorted (fun p q => fst p < fst q) l -> StronglySorted (fun p q => fst p < fst q) l' ->
  (forall x, In x l <-> In x l') -> l = l'.
Proof.
  intros H. revert l'. induction H as [|x l HS IH HF]; intros l' H' E.
  - destruct l' as [|y l']; [reflexivity|]. exfalso. apply (proj2 (E y)). now left.
  - destruct H' as [|y l' HS' HF']; [exfalso; apply (proj1 (E x)); now left|].
    rewrite Forall_forall in HF, HF'.
    assert (x = y).
    { destruct (proj1 (E x) (or_introl eq_refl)) as [|H1]; [now symmetry|].
      destruct (proj2 (E y) (or_introl eq_refl)) as [|H2]; [assumption|]. specialize (HF y H2). specialize (HF' x H1). lia. }
    subst y. f_equal. apply IH; [exact HS'|]. intros z. split; intros Hz.
    + destruct (proj1 (E z) (or_intror Hz)) as [<-|]; [|assumption]. specialize (HF x Hz). lia.
    + destruct (proj2 (E z) (or_intror Hz)) as [<-|]; [|assumption]. specialize (HF' x Hz). lia.
Qed.
Theorem C108_letters_mus : forall sort f s, (forall t, is_suffix_array t (sort t)) -> Forall (fun x => x <> 0) s ->
  f 0 = 0 -> keeps_letters f (s ++ [0]) -> mus_main sort (map f s ++ [0]) = mus_main sort (s ++ [0]).
Proof.
  intros sort f s Hs HF H0 Hf. pose proof (letters_sub f s _ Hf) as Hfs.
  destruct (C39_mus_with_sentinel sort s Hs HF) as (L & -> & S1 & M1).
  destruct (C39_mus_with_sentinel sort (map f s) Hs (letters_zero f s H0 Hf HF)) as (L' & -> & S2 & M2). f_equal.
  apply fst_sorted_unique; auto. intros (i, l). rewrite M1, M2. now apply mus_map.
Qed.
Print Assumptions C108_letters_mus.
Theorem C108_letters_attractor : forall sort f s A, (forall t, is_suffix_array t (sort t)) -> s <> [] -> Forall (fun x => x <> 0) s ->
  Forall (fun a => a <= length s) A -> f 0 = 0 -> keeps_letters f (s ++ [0]) ->
  (is_attractor sort (map f s ++ [0]) A = Ok true <-> is_attractor sort (s ++ [0]) A = Ok true).
Proof.
  intros sort f s A Hs Hne HF HA H0 Hf. pose proof (letters_sub f s _ Hf) as Hfs.
  rewrite (proj1 (C41_is_attractor_bytes sort s A Hs Hne HF HA)).
  rewrite (proj1 (C41_is_attractor_bytes sort (map f s) A Hs ltac:(destruct s; [contradiction|discriminate]) (letters_zero f s H0 Hf HF) ltac:(now rewrite map_length))).
  now apply attractor_map.
Qed.
Print Assumptions C108_letters_attractor.
Theorem C108_letters_entropy : forall sort f s k, (forall t, is_suffix_array t (sort t)) -> s <> [] -> bytes s -> bytes (map f s) -> ~ In 0 s ->
  f 0 = 0 -> keeps_letters f (s ++ [0]) -> 1 <= k ->
  zero_order_entropy (map f s) = zero_order_entropy s /\
  kth_order_entropy sort (map f s ++ [0]) k = kth_order_entropy sort (s ++ [0]) k.
Proof.
  intros sort f s k Hs Hne Hb Hb2 Hz H0 Hf Hk. pose proof (letters_sub f s _ Hf) as Hfs.
  assert (Hne2 : map f s <> []) by (destruct s; discriminate || contradiction).
  assert (Hz2 : ~ In 0 (map f s)).
  { assert (HF : Forall (fun x => x <> 0) s) by (apply Forall_forall; intros x Hx ->; contradiction).
    pose proof (letters_zero f s H0 Hf HF) as H. rewrite Forall_forall in H. intros C. now apply (H 0 C). }
  split.
  - rewrite !C56_zero_order_entropy by auto. do 2 f_equal. apply (H0_map f s Hfs). apply incl_refl.
  - destruct (C56_contexts (s ++ [0]) k) as ((W & HW) & _).
    rewrite (C56_kth_order_entropy sort s k W) by auto.
    rewrite (C56_kth_order_entropy sort (map f s) k (map (map f) W)); auto.
    + do 2 f_equal. rewrite (map_snoc f s H0). now apply (Hk_map f (s ++ [0]) Hf k).
    + rewrite (map_snoc f s H0). now apply contexts_map.
Qed.
Print Assumptions C108_letters_entropy.
(** exchanging two letters changes the number of runs of the BWT, the lexparse and the Lyndon factorization *)
Definition swap_ab (c : nat) : nat := if c =? 97 then 98 else if c =? 98 then 97 else c.
Theorem C108_letters_enough_refuted :
  keeps_letters swap_ab [97;98;97] /\ keeps_letters swap_ab [97;97;97;98;97;98] /\ swap_ab 0 = 0 /\
  count_r_main naive_sort true [97;98;97] 0 false false = Ok (4, 4) /\
  count_r_main naive_sort true (map swap_ab [97;98;97]) 0 false false = Ok (4, 3) /\
  (exists fs gs, count_lexparse_main naive_sort [97;97;97;98;97;98] = Ok fs /\ count_lexparse_main naive_sort (map swap_ab [97;97;97;98;97;98]) = Ok gs /\
    length fs = 5 /\ length gs = 4) /\
  duval [97;98;97] = Ok [1;2] /\ duval (map swap_ab [97;98;97]) = Ok [0;2].
Proof.
  assert (HI : forall t, keeps_letters swap_ab t).
  { intros t x y _ _. unfold swap_ab. intros E. destruct (Nat.eqb_spec x 97), (Nat.eqb_spec x 98), (Nat.eqb_spec y 97), (Nat.eqb_spec y 98); lia. }
  split; [apply HI|]. split; [apply HI|]. split; [reflexivity|]. split; [vm_compute; reflexivity|]. split; [vm_compute; reflexivity|].
  split; [|split; vm_compute; reflexivity].
  eexists _, _. split; [vm_compute; reflexivity|]. split; [vm_compute; reflexivity|]. split; reflexivity.
Qed.
Print Assumptions C108_letters_enough_refuted.
Example C108_case : keeps_order (fun c => if c =? 0 then 0 else 2 * c + 1) ([2;1;3;1;3;1] ++ [0]) /\
  bwt_main naive_sort true [2;1;3;1;3;1] 0 false false = Ok [1;3;3;2;0;1;1] /\
  bwt_main naive_sort true [5;3;7;3;7;3] 0 false false = Ok [3;7;7;5;0;3;3] /\
  count_z_main naive_sort [97;98;97;98;97] = Ok [LZ 97 0; LZ 98 0; LZ 2 3] /\
  count_z_main naive_sort [100;120;100;120;100] = Ok [LZ 100 0; LZ 120 0; LZ 2 3].
Proof.
  split; [|repeat split; vm_compute; reflexivity]. intros x y _ _ H. destruct (Nat.eqb_spec x 0), (Nat.eqb_spec y 0); lia.
Qed.
