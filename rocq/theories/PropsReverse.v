(** PropsReverse.v : property theorems C123: what reversing a text (src/bin/reverse.rs) keeps.
    [sort] stands for cdivsufsort; [naive_sort] is an instance. *)
From Verif Require Import Base SpecStr SpecIo SpecMain SpecLz SpecAttr SpecSub SpecEntropy LexFacts SortFacts RunFacts BorderProof ModelIo ModelCore ModelTools ModelLz ModelMain ModelAttr ModelEntropy ModelFloat
  EntropyProof FloatProof3 MainProof2 ToolsProof2 PropsArrays PropsTools PropsLz PropsAttr PropsRename PropsMusRuns.
From Coq Require Import NArith.

(** ** mirror images *)
Lemma nth_mirror (s : str) i : i < length s -> nth i (rev s) 0 = nth (length s - 1 - i) s 0.
Proof. intros H. rewrite rev_nth by exact H. f_equal. lia. Qed.
Lemma same_mirror s j i l : same_substring s j i l -> same_substring (rev s) (length s - (j + l)) (length s - (i + l)) l.
Proof.
  intros (A & B & H). split; [rewrite rev_length; lia|]. split; [rewrite rev_length; lia|]. intros x Hx.
  rewrite !nth_mirror by lia. replace (length s - 1 - (length s - (j + l) + x)) with (j + (l - 1 - x)) by lia.
  replace (length s - 1 - (length s - (i + l) + x)) with (i + (l - 1 - x)) by lia. apply H. lia.
Qed.
Lemma same_mirror_back s j i l : same_substring (rev s) j i l -> same_substring s (length s - (j + l)) (length s - (i + l)) l.
Proof. intros H. apply same_mirror in H. rewrite rev_involutive, rev_length in H. exact H. Qed.
Lemma unique_mirror s i l : unique_substring s i l -> unique_substring (rev s) (length s - (i + l)) l.
Proof.
  intros (A & H). split; [rewrite rev_length; lia|]. intros j Hj. pose proof Hj as (B & _ & _). rewrite rev_length in B.
  apply same_mirror_back in Hj. replace (length s - (length s - (i + l) + l)) with i in Hj by lia. apply H in Hj. lia.
Qed.
Lemma unique_mirror_iff s i l : i + l <= length s -> (unique_substring (rev s) (length s - (i + l)) l <-> unique_substring s i l).
Proof.
  intros H. split; [|apply unique_mirror]. intros U. apply unique_mirror in U. rewrite rev_involutive, rev_length in U.
  replace (length s - (length s - (i + l) + l)) with i in U by lia. exact U.
Qed.
Lemma mus_mirror s i l : is_mus s i l -> is_mus (rev s) (length s - (i + l)) l.
Proof.
  intros (A & U & M). split; [exact A|]. split; [now apply unique_mirror|]. intros i' l' B C D U'. pose proof U as (E & _).
  apply unique_mirror in U'. rewrite rev_involutive, rev_length in U'.
  revert U'. apply M; lia.
Qed.
Lemma mirror_sorted n l : (forall p, In p l -> fst p + snd p <= n) ->
  StronglySorted (fun p q : nat * nat => fst p < fst q /\ fst p + snd p < fst q + snd q) l ->
  StronglySorted (fun p q => fst p < fst q) (rev (map (fun p => (n - (fst p + snd p), snd p)) l)).
Proof.
  intros B H. induction H as [|p l HS IH HF]; [constructor|]. cbn [map rev].
  specialize (IH (fun q Hq => B q (or_intror Hq))).
  assert (G : forall q, In q (rev (map (fun p => (n - (fst p + snd p), snd p)) l)) -> fst q < n - (fst p + snd p)).
  { intros q Hq. apply in_rev, in_map_iff in Hq. destruct Hq as (r & <- & Hr). rewrite Forall_forall in HF. specialize (HF r Hr). cbn [fst].
    pose proof (B r (or_intror Hr)). lia. }
  revert IH G. generalize (rev (map (fun p => (n - (fst p + snd p), snd p)) l)). intros m IH G. induction IH as [|q m HS' IH' HF'].
  - constructor; constructor.
  - cbn [app]. constructor; [apply IH'; intros r Hr; apply G; now right|]. apply Forall_app. split; [exact HF'|]. constructor; [|constructor]. cbn [fst]. apply G. now left.
Qed.

(** mus reports the mirror image *)
Theorem C123_mus : forall sort s, (forall t, is_suffix_array t (sort t)) -> Forall (fun x => x <> 0) s ->
  exists L, mus_main sort (s ++ [0]) = Ok L /\
    mus_main sort (rev s ++ [0]) = Ok (rev (map (fun p => (length s - (fst p + snd p), snd p)) L)).
Proof.
  intros sort s Hs HF. destruct (C119_increasing sort s Hs HF) as (L & E & SS). exists L. split; [exact E|].
  destruct (C39_mus_with_sentinel sort s Hs HF) as (L0 & E0 & _ & HI). rewrite E in E0. injection E0 as <-.
  destruct (C39_mus_with_sentinel sort (rev s) Hs) as (L' & -> & S' & HI'); [apply Forall_rev; exact HF|]. f_equal.
  assert (B : forall p, In p L -> fst p + snd p <= length s).
  { intros (i, l) Hp. apply HI in Hp. destruct Hp as (_ & (B & _) & _). exact B. }
  apply fst_sorted_unique; [exact S'|now apply mirror_sorted|]. intros (i, l). rewrite HI', <- in_rev, in_map_iff. split.
  - intros HM. exists (length s - (i + l), l). pose proof HM as (_ & (C & _) & _). rewrite rev_length in C. split; [cbn [fst snd]; f_equal; lia|].
    apply HI. apply mus_mirror in HM. rewrite rev_involutive, rev_length in HM. exact HM.
  - intros ((i', l') & EQ & Hp). cbn [fst snd] in EQ. injection EQ as <- <-. apply HI in Hp. now apply mus_mirror.
Qed.
Print Assumptions C123_mus.
(** is_attractor accepts the mirror image of a set *)
Lemma attractor_mirror s A : Forall (fun a => a < length s) A -> string_attractor s A -> string_attractor (rev s) (map (fun a => length s - 1 - a) A).
Proof.
  intros HA H i l Hl Hi. rewrite rev_length in Hi. destruct (H (length s - (i + l)) l Hl ltac:(lia)) as (j & a & HS & Ha & B).
  pose proof HS as (C & _ & _). apply same_mirror in HS. replace (length s - (length s - (i + l) + l)) with i in HS by lia.
  exists (length s - (j + l)), (length s - 1 - a). split; [exact HS|]. split; [apply in_map_iff; eauto|]. lia.
Qed.
Theorem C123_attractor : forall sort s A, (forall t, is_suffix_array t (sort t)) -> s <> [] -> Forall (fun x => x <> 0) s ->
  Forall (fun a => a < length s) A ->
  (is_attractor sort (rev s ++ [0]) (map (fun a => length s - 1 - a) A) = Ok true <-> is_attractor sort (s ++ [0]) A = Ok true).
Proof.
  intros sort s A Hs Hne HF HA.
  assert (Hne' : rev s <> []) by (intros E; apply Hne; apply (f_equal (@rev nat)) in E; rewrite rev_involutive in E; exact E).
  assert (HA' : Forall (fun a => a < length s) (map (fun a => length s - 1 - a) A)).
  { apply Forall_forall. intros b Hb. apply in_map_iff in Hb. destruct Hb as (a & <- & Ha). rewrite Forall_forall in HA. specialize (HA a Ha). lia. }
  rewrite (proj1 (C41_is_attractor_bytes sort s A Hs Hne HF ltac:(eapply Forall_impl; [|exact HA]; cbv beta; lia))).
  rewrite (proj1 (C41_is_attractor_bytes sort (rev s) _ Hs Hne' ltac:(apply Forall_rev; exact HF) ltac:(rewrite rev_length; eapply Forall_impl; [|exact HA']; cbv beta; lia))).
  split; [|now apply attractor_mirror]. intros H. apply attractor_mirror in H; [|rewrite rev_length; exact HA'].
  rewrite rev_involutive, rev_length, map_map in H. rewrite (map_ext_in _ (fun a => a)), map_id in H; [exact H|].
  intros a Ha. rewrite Forall_forall in HA. specialize (HA a Ha). lia.
Qed.
Print Assumptions C123_attractor.
(** the runs are reversed, so count_runs prints the same number *)
Lemma expand_rev rs : expand (rev rs) = rev (expand rs).
Proof.
  unfold expand. induction rs as [|(c, l) rs IH]; [reflexivity|]. cbn [rev map concat]. rewrite map_app, concat_app, IH, rev_app_distr. cbn [map concat].
  rewrite app_nil_r. f_equal. clear. induction l as [|l IH]; [reflexivity|]. cbn [repeat rev]. rewrite <- IH. apply repeat_cons.
Qed.
Theorem C123_runs : forall s rs, is_runs s rs -> is_runs (rev s) (rev rs).
Proof.
  intros s rs (E & F & N). split; [rewrite expand_rev; congruence|]. split; [now apply Forall_rev|]. intros i Hi. rewrite rev_length in Hi.
  rewrite !rev_nth by lia. replace (length rs - S i) with (S (length rs - S (S i))) by lia. intros Q. symmetry in Q. revert Q. apply N. lia.
Qed.
Print Assumptions C123_runs.
Theorem C123_count_runs : forall s rd rd' fuel, delivers rd s -> delivers rd' (rev s) -> length s < fuel ->
  number_of_runs fuel rd' = number_of_runs fuel rd.
Proof.
  intros s rd rd' fuel H H' HL. rewrite (number_of_runs_ok rd s fuel H HL), (number_of_runs_ok rd' (rev s) fuel H') by (rewrite rev_length; exact HL).
  f_equal. rewrite (is_runs_unique _ _ _ (runs_ok (rev s)) (C123_runs s _ (runs_ok s))). apply rev_length.
Qed.
Print Assumptions C123_count_runs.
(** count_sigma, and the order-0 entropy in whatever arithmetic, do not depend on the order of the bytes at all *)
Theorem C123_count_sigma : forall s t, bytes s -> Permutation s t -> count_sigma t = count_sigma s.
Proof.
  intros s t HB HP.
  destruct (C32_count_sigma s (nodup Nat.eq_dec s) HB (NoDup_nodup _ _) (fun c => nodup_In _ _ _)) as (A & B).
  destruct (C32_count_sigma t (nodup Nat.eq_dec s)) as (A' & B').
  - unfold bytes in *. rewrite Forall_forall in *. intros x Hx. apply HB. eapply Permutation_in; [apply Permutation_sym; exact HP|exact Hx].
  - apply NoDup_nodup.
  - intros c. rewrite nodup_In. split; apply Permutation_in; [exact HP|now apply Permutation_sym].
  - destruct (Nat.le_gt_cases (length (nodup Nat.eq_dec s)) 255) as [C|C]; [now rewrite A, A'|now rewrite B, B'].
Qed.
Print Assumptions C123_count_sigma.
Theorem C123_entropy0 : forall (Ar : arith) s t, bytes s -> Permutation s t -> zero_order_entropy_a Ar t = zero_order_entropy_a Ar s.
Proof.
  intros Ar s t HB HP. rewrite (zoe_ok Ar s HB), (zoe_ok Ar t).
  - assert (C : forall c, occ t c = occ s c) by (intros c; unfold occ; symmetry; revert c; now apply Permutation_count_occ).
    unfold zoe, positives, counts_of. rewrite (Permutation_length HP), (map_ext _ _ C). reflexivity.
  - unfold bytes in *. rewrite Forall_forall in *. intros x Hx. apply HB. eapply Permutation_in; [apply Permutation_sym; exact HP|exact Hx].
Qed.
Print Assumptions C123_entropy0.
Theorem C123_entropy0_program : forall (Ar : arith) sort s, bytes s ->
  entropy_main_a Ar sort true (rev s) 0 0 = entropy_main_a Ar sort true s 0 0.
Proof.
  intros Ar sort s HB. unfold entropy_main_a. rewrite !prefix_read_ok. cbn [bind Nat.eqb]. cbv [prefix_read]. cbn [Nat.ltb Nat.leb].
  apply C123_entropy0; [apply Forall_app; split; [exact HB|repeat constructor]|]. apply Permutation_app_tail, Permutation_rev.
Qed.
Print Assumptions C123_entropy0_program.
(** the smallest period and primitivity *)
Lemma period_mirror s p : is_period s p -> is_period (rev s) p.
Proof.
  intros (A & H). split; [rewrite rev_length; exact A|]. intros i Hi. rewrite rev_length in Hi. rewrite !nth_mirror by lia.
  replace (length s - 1 - i) with (length s - 1 - (i + p) + p) by lia. symmetry. apply H. lia.
Qed.
Theorem C123_smallest_period : forall s, s <> [] -> exists B B' p, border_array s = Ok B /\ border_array (rev s) = Ok B' /\
  smallest_period B = Ok p /\ smallest_period B' = Ok p.
Proof.
  intros s Hne. assert (Hne' : rev s <> []) by (intros E; apply Hne; apply (f_equal (@rev nat)) in E; rewrite rev_involutive in E; exact E).
  destruct (C06_smallest_period s Hne) as (B & p & E1 & E2 & HP & HM). destruct (C06_smallest_period (rev s) Hne') as (B' & p' & E1' & E2' & HP' & HM').
  assert (p' = p) as ->; [|exists B, B', p; auto].
  apply Nat.le_antisymm; [apply HM'; now apply period_mirror|apply HM]. apply period_mirror in HP'. now rewrite rev_involutive in HP'.
Qed.
Print Assumptions C123_smallest_period.
Lemma power_rev u m : rev (power u m) = power (rev u) m.
Proof.
  assert (C : forall v n, power v n ++ v = v ++ power v n).
  { intros v n. induction n as [|n IH]; cbn [power app]; [now rewrite app_nil_r|]. now rewrite <- app_assoc, IH. }
  induction m as [|m IH]; [reflexivity|]. cbn [power]. rewrite rev_app_distr, IH. apply C.
Qed.
Theorem C123_is_primitive : forall s, is_primitive (rev s) = is_primitive s.
Proof.
  intros s. destruct s as [|c s']; [reflexivity|]. set (s := c :: s'). assert (Hne : s <> []) by discriminate.
  assert (Hne' : rev s <> []) by (intros E; apply Hne; apply (f_equal (@rev nat)) in E; rewrite rev_involutive in E; exact E).
  destruct (C07_is_primitive_decides s Hne) as (b & -> & HB). destruct (C07_is_primitive_decides (rev s) Hne') as (b' & -> & HB'). f_equal.
  assert (G : forall t, primitive t -> primitive (rev t)).
  { intros t H (u & m & Hm & E). apply H. exists (rev u), m. split; [exact Hm|]. rewrite <- power_rev, <- E. now rewrite rev_involutive. }
  assert (G' : primitive (rev s) -> primitive s) by (intros H; apply G in H; now rewrite rev_involutive in H).
  specialize (G s). destruct b, b'; try reflexivity; tauto || (exfalso; intuition discriminate).
Qed.
Print Assumptions C123_is_primitive.
(** the number of different substrings of each length *)
Theorem C123_distinct : forall m s, m <= length s -> distinct m (rev s) = distinct m s.
Proof.
  assert (LE : forall m s, m <= length s -> distinct m (rev s) <= distinct m s).
  { intros m s Hm. unfold distinct. rewrite <- (map_length (@rev nat) (nodup _ (substrings m s))). apply NoDup_incl_length; [apply NoDup_nodup|].
    intros w Hw. apply nodup_In in Hw. unfold substrings in Hw. apply in_map_iff in Hw. destruct Hw as (i & <- & Hi). apply in_seq in Hi. rewrite rev_length in Hi.
    apply in_map_iff. exists (firstn m (skipn (length s - (i + m)) s)). split.
    - apply (nth_ext_len _ _ 0).
      + rewrite rev_length, !firstn_length, !skipn_length, rev_length. lia.
      + intros x Hx. rewrite rev_length, firstn_length, skipn_length in Hx. rewrite rev_nth by (rewrite firstn_length, skipn_length; lia).
        rewrite firstn_length, skipn_length. replace (Nat.min m (length s - (length s - (i + m)))) with m by lia.
        rewrite !nth_firstn by lia. rewrite !nth_skipn, nth_mirror by lia. f_equal. lia.
    - apply nodup_In. unfold substrings. apply in_map_iff. exists (length s - (i + m)). split; [reflexivity|]. apply in_seq. lia. }
  intros m s Hm. apply Nat.le_antisymm; [now apply LE|]. rewrite <- (rev_involutive s) at 1. apply LE. rewrite rev_length. exact Hm.
Qed.
Print Assumptions C123_distinct.
(** the other sizes change *)
Theorem C123_other_sizes_refuted : exists s, Forall (fun c => c = 97 \/ c = 98) s /\
  (exists fs gs, count_z_main naive_sort s = Ok fs /\ count_z_main naive_sort (rev s) = Ok gs /\ length fs <> length gs) /\
  (exists fs gs, count_lexparse_main naive_sort s = Ok fs /\ count_lexparse_main naive_sort (rev s) = Ok gs /\ length fs <> length gs) /\
  (exists n r r', count_r_main naive_sort true s 0 false false = Ok (n, r) /\ count_r_main naive_sort true (rev s) 0 false false = Ok (n, r') /\ r <> r') /\
  (exists e e', duval s = Ok e /\ duval (rev s) = Ok e' /\ length e <> length e').
Proof.
  exists [97;98;97;98;98;97]. split; [repeat (constructor; [tauto|]); constructor|].
  split; [eexists; eexists; split; [vm_compute; reflexivity|]; split; [vm_compute; reflexivity|cbn [length]; lia]|].
  split; [eexists; eexists; split; [vm_compute; reflexivity|]; split; [vm_compute; reflexivity|cbn [length]; lia]|].
  split; [eexists; eexists; eexists; split; [vm_compute; reflexivity|]; split; [vm_compute; reflexivity|lia]|].
  eexists; eexists; split; [vm_compute; reflexivity|]; split; [vm_compute; reflexivity|cbn [length]; lia].
Qed.
Print Assumptions C123_other_sizes_refuted.
Example C123_case : mus_main naive_sort ([97;98;97;97;98;98] ++ [0]) = Ok [(1, 2); (2, 2); (4, 2)] /\ mus_main naive_sort (rev [97;98;97;97;98;98] ++ [0]) = Ok [(0, 2); (2, 2); (3, 2)] /\ is_attractor naive_sort [97;98;97;97;98;98;0] [2;3;4] = Ok true /\ is_attractor naive_sort (rev [97;98;97;97;98;98] ++ [0]) [3;2;1] = Ok true.
Proof. vm_compute. repeat split. Qed.
