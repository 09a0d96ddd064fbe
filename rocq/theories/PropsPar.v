(** PropsPar.v : unfinished/parallel.rs. *)
From Coq Require Import NArith.
From Verif Require Import Base SpecStr SpecBwt SpecIo SpecPar LexFacts ModelIo ModelCore ModelMain ModelPar ModelPar2.
From Verif Require Import DuvalProof LyndonProof BbwtProof IterProof LwgProof ParProof LockFacts ParProof2 ParProof3 ParProof4 ParProof5 ParProof6 ParProof7 ParProof8.

(** *** C65 *)
Lemma split_last (f : str) : f <> [] -> f = removelast f ++ [last f 0].
Proof. intros H. exact (app_removelast_last 0 H). Qed.
Theorem C65_number_distinct_lyndon_factors t fs : t <> [] -> lyndon_factorization t fs ->
  exists r, number_distinct_lyndon_factors t = Ok r /\
    (~ first_two_differ_in_last_letter fs -> distinct_members fs r) /\
    (first_two_differ_in_last_letter fs -> distinct_members fs (r + 1)).
Proof.
  intros Ht HF. eexists. split; [apply (number_distinct_ok t fs HF Ht)|].
  assert (HD : distinct_members fs (length (nodup str_dec fs))).
  { exists (nodup str_dec fs). split; [apply NoDup_nodup|]. split; [|reflexivity]. intros f. apply nodup_In. }
  assert (NE : fs <> []) by (intros ->; destruct HF as (HF & _); simpl in HF; congruence).
  destruct HF as (HF & HLy & HN). rewrite (distinct_changes fs NE HN) in HD.
  destruct fs as [|f [|g fs]]; [congruence| |].
  - split; [intros _; exact HD|]. intros (u & x & y & rest & E & _). discriminate.
  - cbn [length] in *. replace (S (S (length fs)) - 1) with (S (S (S (length fs)) - 2)) in HD by lia. cbn [seq map list_sum fold_right] in HD.
    set (tl := list_sum (map (chg (f :: g :: fs)) (seq 1 (S (S (length fs)) - 2)))) in *.
    fold (list_sum (map (chg (f :: g :: fs)) (seq 1 (S (S (length fs)) - 2)))) in HD. fold tl in HD.
    assert (C0 : chg (f :: g :: fs) 0 = if str_dec f g then 0 else 1) by reflexivity. rewrite C0 in HD. clear C0.
    assert (Nf : f <> []) by (inversion HLy; subst; now apply lyndon_not_nil).
    assert (Ng : g <> []) by (inversion HLy; subst; inversion H2; subst; now apply lyndon_not_nil).
    unfold first_chg. split; intros HS.
    + destruct (str_dec f g) as [->|N].
      * destruct (Nat.eq_dec (length g) (length g)); [|congruence]. destruct (str_dec (removelast g) (removelast g)); [exact HD|congruence].
      * destruct (Nat.eq_dec (length f) (length g)) as [El|Nl]; [|exact HD].
        destruct (str_dec (removelast f) (removelast g)) as [Er|Nr]; [|exact HD].
        exfalso. apply HS. exists (removelast f), (last f 0), (last g 0), fs.
        rewrite <- (split_last f Nf). rewrite Er at 1. rewrite <- (split_last g Ng). split; [reflexivity|].
        intros C. apply N. rewrite (split_last f Nf), (split_last g Ng), Er, C. reflexivity.
    + destruct HS as (u & x & y & rest & E & Nxy). injection E as -> -> <-. rewrite !app_length, !removelast_last. cbn [length]. destruct (Nat.eq_dec (length u + 1) (length u + 1)); [|congruence].
      destruct (str_dec u u); [|congruence]. destruct (str_dec (u ++ [x]) (u ++ [y])) as [C|_]; [apply app_inj_tail in C; destruct C; congruence|].
      replace (S (0 + tl) + 1) with (S (1 + tl)) by lia. exact HD.
Qed.
Print Assumptions C65_number_distinct_lyndon_factors.
Theorem C65_empty : number_distinct_lyndon_factors [] = Ok 0.
Proof. reflexivity. Qed.
Print Assumptions C65_empty.
(** "ba" has the two Lyndon factors "b" and "a", but the answer is 1 *)
Theorem C65_always_distinct_refuted : exists t fs, t <> [] /\ lyndon_factorization t fs /\ number_distinct_lyndon_factors t = Ok 1 /\ distinct_members fs 2.
Proof.
  exists [98; 97], [[98]; [97]]. split; [discriminate|]. split; [|split; [reflexivity|]].
  - split; [reflexivity|]. split; [repeat constructor; apply lyndon_single|]. split; [right; constructor; lia|cbn; auto].
  - exists [[98]; [97]]. split; [|split; [tauto|reflexivity]]. constructor; [|repeat constructor; easy]. intros [H|[]]. discriminate.
Qed.
Print Assumptions C65_always_distinct_refuted.
(** "ababbababbabababaaaa" of the repository's test: ababb ababb ab ab ab a a a a *)
Example C65_case : number_distinct_lyndon_factors [97;98;97;98;98;97;98;97;98;98;97;98;97;98;97;98;97;97;97;97] = Ok 3.
Proof. vm_compute. reflexivity. Qed.

(** *** C66 *)
Theorem C66_parallel_statistics max p threads sched s stats total : 1 <= p <= max -> 1 <= threads ->
  par_run max p sched (par_init max threads) = Some s -> par_result s = Some (stats, total) ->
  number_of (binary_lyndon p) total /\
  forall r b, r <= max -> b <= max ->
    number_of (fun w => binary_lyndon p w /\ bwt_runs_of w r /\ least_bbwt_runs max w b) (nth b (nth r stats []) 0).
Proof. apply par_stats_ok. Qed.
Print Assumptions C66_parallel_statistics.
Theorem C66_no_panic_no_deadlock max p threads sched s : 1 <= p <= max -> 1 <= threads ->
  par_run max p sched (par_init max threads) = Some s ->
  ~ In Panicked (p_threads s) /\ (par_result s = None -> exists i s', par_step max p i s = Some s').
Proof.
  intros Hp Hth E. destruct (par_reachable max p threads ltac:(lia) Hth) as (B & L & HS & HIn & HR).
  destruct (HR sched s E) as (_ & m & HI). split.
  - destruct HI as (L1 & L2 & _ & _ & _ & _ & _ & HG & _). intros H. exact (proj1 (Forall_forall _ _) HG _ H).
  - unfold par_result. destruct (forallb _ (p_threads s)) eqn:EF; [discriminate|]. intros _.
    assert (G : exists i t, nth_error (p_threads s) i = Some t /\ t <> Finished).
    { clear - EF. induction (p_threads s) as [|t l IH]; [discriminate|]. simpl in EF. destruct t; try (exists 0; eexists; split; [reflexivity|discriminate]).
      destruct (IH EF) as (i & t & Ei & Nt). exists (S i), t. auto. }
    destruct G as (i & t & Ei & Nt). eapply inv_progress; eauto.
Qed.
Print Assumptions C66_no_panic_no_deadlock.
Theorem C66_terminates max p threads : 1 <= p <= max -> 1 <= threads -> exists B,
  forall sched s, par_run max p sched (par_init max threads) = Some s -> length sched <= B.
Proof.
  intros Hp Hth. destruct (par_reachable max p threads ltac:(lia) Hth) as (B & L & HS & HIn & HR).
  exists B. intros sched s E. exact (proj1 (HR sched s E)).
Qed.
Print Assumptions C66_terminates.
(** an interleaved execution of two threads (length 3 of at most 3) *)
Fixpoint alternate (n : nat) (s : par) (acc : list nat) : list nat :=
  match n with
  | 0 => rev acc
  | S n => match par_step 3 3 (n mod 2) s with
           | Some s' => alternate n s' (n mod 2 :: acc)
           | None => match par_step 3 3 (1 - n mod 2) s with Some s' => alternate n s' (1 - n mod 2 :: acc) | None => rev acc end
           end
  end.
Example C66_case : exists sched s, par_run 3 3 sched (par_init 3 2) = Some s /\ In 0 sched /\ In 1 sched /\
  par_result s = Some ([[0;0;0;0];[0;0;0;0];[0;0;2;0];[0;0;0;0]], 2).
Proof.
  exists (alternate 200 (par_init 3 2) []). eexists. split; [vm_compute; reflexivity|].
  split; [vm_compute; tauto|]. split; [vm_compute; tauto|reflexivity].
Qed.

(** *** C67 *)
Section Done.
Context (max q threads : nat).
Lemma m_reachable : 1 <= max -> 1 <= threads -> exists B L,
  StronglySorted lex_lt L /\ (forall w, In w L <-> lyndon w /\ length w <= max /\ Forall (fun c => c < 2) w) /\
  (forall w, In w L -> w <> [] /\ length w <= max) /\ (forall k, calls lwg_next k (lwg_new max 2) = Ok (yields L k)) /\
  MInv max L B (m_init max threads) /\
  forall sched s, m_run max q sched (m_init max threads) = Some s -> length sched <= B /\ exists m, MInv max L m s.
Proof.
  intros Hm Ht. destruct (lwg_correct max 2 Hm ltac:(lia)) as (L & HS & HIn & HC).
  assert (HL : forall w, In w L -> w <> [] /\ length w <= max) by (intros w Hw; apply HIn in Hw; destruct Hw as ((H & _) & H2 & _); auto).
  pose proof (minv_init max L threads HC Ht) as HI.
  exists (wordw max * length L + 2 * threads), L. split; [exact HS|]. split; [exact HIn|]. split; [exact HL|]. split; [exact HC|]. split; [exact HI|].
  intros sched s E. destruct (minv_run max q L HL sched _ _ _ HI E) as (m' & Hm' & HI'). split; [lia|eauto].
Qed.
Lemma done_all s t : m_done s = true -> In t (m_threads s) -> t = MFinished.
Proof. unfold m_done. rewrite forallb_forall. intros H Ht. specialize (H t Ht). destruct t; congruence. Qed.
Lemma done_inv L m s : MInv max L m s -> m_done s = true ->
  (forall k l, l < max -> nth l (wins s k) 0 = list_sum (map (fun w => cnt (Nat.min k 2) w 0) (filter (isl l) L))) /\
  (forall l, l < max -> nth l (m_num s) 0 = length (filter (isl l) L)) /\ m_total s = length L /\
  (forall l, l < max -> best_ok L l (nth l (m_best s) (Best 0 0 []))).
Proof.
  intros (L1 & L2 & EL & HI & HW & HB & HNl & HC & HN & HT & HG & K1 & K2 & K3 & HBo & KF & KN & Em) HD.
  assert (E2 : L2 = []).
  { destruct (m_threads s) as [|t ths] eqn:Eth; [simpl in KN; lia|]. apply KF. left. apply (done_all s t HD). rewrite Eth. now left. }
  subst L2. rewrite app_nil_r in EL. subst L1.
  assert (Z : forall g, g MFinished = 0 -> msum g (m_threads s) = 0).
  { intros g Hg. unfold msum. rewrite (list_sum_const _ 0); [lia|]. intros t Ht. now rewrite (done_all s t HD Ht). }
  split; [|split; [|split]].
  - intros k l Hl. rewrite <- (HC k l Hl), Z by reflexivity. lia.
  - intros l Hl. rewrite <- (HN l Hl), Z by reflexivity. lia.
  - rewrite <- HT, Z by reflexivity. lia.
  - exact HBo.
Qed.
End Done.
Lemma isl_words max L l : (forall w, In w L <-> lyndon w /\ length w <= max /\ Forall (fun c => c < 2) w) -> l < max ->
  forall w, In w (filter (isl l) L) <-> binary_lyndon (l + 1) w.
Proof.
  intros HIn Hl w. rewrite filter_In, HIn. unfold isl, binary_lyndon. rewrite Nat.eqb_eq. split.
  - intros ((H1 & H2 & H3) & H4). pose proof (lyndon_length w H1). repeat split; auto; try apply H1. lia.
  - intros (H1 & H2 & H3). repeat split; auto; try apply H1; lia.
Qed.
Lemma rot_not_nil (w : str) i : w <> [] -> rot i w <> [].
Proof. intros H C. apply H. apply length_zero_iff_nil. rewrite <- (rot_length i w), C. reflexivity. Qed.
Lemma pairs_ok (p : nat) (W : list str) k (P : nat -> nat -> Prop) : 1 <= p -> NoDup W -> (forall w, In w W <-> binary_lyndon p w) ->
  (forall w i, cls w i = k <-> P (bwr w) (bbr (rot i w))) ->
  number_of_conjugates p P (list_sum (map (fun w => cnt k w 0) W)).
Proof.
  intros Hp HN HW HP. exists (flat_map (fun w => map (pair w) (filter (fun i => cls w i =? k) (seq 0 (length w)))) W).
  split; [|split].
  - clear HW. induction HN as [|w W Hw HN IH]; [constructor|]. cbn [flat_map]. apply NoDup_app_intro.
    + apply FinFun.Injective_map_NoDup; [intros x y E; congruence|]. apply NoDup_filter, seq_NoDup.
    + exact IH.
    + intros (u, i) H1 H2. apply in_map_iff in H1. destruct H1 as (j & E & _). injection E as -> ->.
      apply in_flat_map in H2. destruct H2 as (v & Hv & H2). apply in_map_iff in H2. destruct H2 as (j' & E & _). injection E as -> ->. contradiction.
  - clear. induction W as [|w W IH]; [reflexivity|]. cbn [flat_map map list_sum fold_right]. rewrite app_length, map_length, IH.
    unfold cnt at 2. rewrite Nat.sub_0_r. reflexivity.
  - intros w i. rewrite in_flat_map. split.
    + intros (u & Hu & H). apply in_map_iff in H. destruct H as (j & E & Hj). injection E as -> ->. apply filter_In in Hj. destruct Hj as (Hj & Hk).
      apply in_seq in Hj. apply Nat.eqb_eq in Hk. apply HW in Hu. pose proof Hu as (H1 & H2 & H3). split; [exact Hu|]. split; [lia|].
      exists (bwr w), (bbr (rot i w)). split; [apply bwr_ok|]. split; [apply bbr_ok, rot_not_nil, lyndon_not_nil, H1|]. now apply HP.
    + intros (Hw & Hi & r & b & Hr & Hb & HPrb). pose proof Hw as (H1 & H2 & H3). exists w. split; [now apply HW|].
      apply in_map_iff. exists i. split; [reflexivity|]. apply filter_In. split; [apply in_seq; lia|]. apply Nat.eqb_eq, HP.
      rewrite (bwt_runs_unique _ _ _ (proj1 (bwr_ok w)) Hr).
      rewrite (bbwt_runs_unique _ _ _ (rot_not_nil w i (lyndon_not_nil w H1)) (proj1 (bbr_ok _ (rot_not_nil w i (lyndon_not_nil w H1)))) Hb). exact HPrb.
Qed.
Lemma cls_cases w i : (cls w i = 0 <-> bwr w < bbr (rot i w)) /\ (cls w i = 1 <-> bbr (rot i w) < bwr w) /\ (cls w i = 2 <-> bwr w = bbr (rot i w)).
Proof.
  unfold cls. destruct (Nat.ltb_spec (bwr w) (bbr (rot i w))); [|destruct (Nat.ltb_spec (bbr (rot i w)) (bwr w))]; repeat split; intros; try discriminate; lia.
Qed.

(** a finished execution has had no overflow *)
Lemma p_finished max q threads sched p : p_run max q sched (p_init max threads) = Some p -> p_done p = true ->
  m_run max q sched (m_init max threads) = Some (p_st p) /\ i32s (p_st p) = true.
Proof.
  intros E HD. apply (p_sim max q sched (p_init max threads) p (i32s_init max threads) E).
  intros C. discriminate (done_all _ _ HD C).
Qed.
(** when every worker has finished, whatever the schedule: the counters *)
Theorem C67_counters max q threads sched p : 1 <= max -> 1 <= threads ->
  p_run max q sched (p_init max threads) = Some p -> p_done p = true -> let s := p_st p in
  number_of (fun w => exists p, p <= max /\ binary_lyndon p w) (m_total s) /\
  forall l, l < max ->
    number_of (binary_lyndon (l + 1)) (nth l (m_num s) 0) /\
    number_of_conjugates (l + 1) (fun r b => r < b) (nth l (m_bwt_win s) 0) /\
    number_of_conjugates (l + 1) (fun r b => b < r) (nth l (m_bbwt_win s) 0) /\
    number_of_conjugates (l + 1) (fun r b => r = b) (nth l (m_tie_win s) 0).
Proof.
  intros Hm Hth E0 HD s. destruct (p_finished max q threads sched p E0 HD) as (E & _).
  destruct (m_reachable max q threads Hm Hth) as (B & L & HS & HIn & HL & HC & HI & HR).
  destruct (HR sched s E) as (_ & m & HIs). destruct (done_inv max L m s HIs HD) as (H1 & H2 & H3 & H4).
  pose proof (SS_NoDup L HS) as ND. split.
  - exists L. split; [exact ND|]. split; [|now symmetry]. intros w. rewrite HIn. unfold binary_lyndon. split.
    + intros (A1 & A2 & A3). exists (length w). auto.
    + intros (n0 & A0 & A1 & A2 & A3). subst n0. auto.
  - intros l Hl. pose proof (isl_words max L l HIn Hl) as HW. split; [|split; [|split]].
    + exists (filter (isl l) L). split; [now apply NoDup_filter|]. split; [exact HW|]. symmetry. now apply H2.
    + rewrite (H1 0 l Hl : nth l (m_bwt_win s) 0 = _). apply pairs_ok; [lia|now apply NoDup_filter|exact HW|]. intros w i. apply cls_cases.
    + rewrite (H1 1 l Hl : nth l (m_bbwt_win s) 0 = _). apply pairs_ok; [lia|now apply NoDup_filter|exact HW|]. intros w i. apply cls_cases.
    + rewrite (H1 2 l Hl : nth l (m_tie_win s) 0 = _). apply pairs_ok; [lia|now apply NoDup_filter|exact HW|]. intros w i. apply cls_cases.
Qed.
Print Assumptions C67_counters.
(** ... and the remembered conjugate: nothing if no conjugate has fewer runs in its BBWT, otherwise such a conjugate *)
Theorem C67_best_genuine max q threads sched p : 1 <= max -> 1 <= threads ->
  p_run max q sched (p_init max threads) = Some p -> p_done p = true -> let s := p_st p in
  forall l, l < max ->
  (number_of_conjugates (l + 1) (fun r b => b < r) 0 /\ nth l (m_best s) (Best 0 0 []) = Best 0 0 []) \/
  (exists w i r b, binary_lyndon (l + 1) w /\ i < l + 1 /\ bwt_runs_of w r /\ bbwt_runs_of (rot i w) b /\ b < r /\
     nth l (m_best s) (Best 0 0 []) = Best r b (rot i w)).
Proof.
  intros Hm Hth E0 HD s l Hl. destruct (C67_counters max q threads sched p Hm Hth E0 HD) as (_ & HCn).
  destruct (p_finished max q threads sched p E0 HD) as (E & _). fold s in E, HCn.
  destruct (HCn l Hl) as (_ & _ & Hw & _).
  destruct (m_reachable max q threads Hm Hth) as (B & L & HS & HIn & HL & HC & HI & HR).
  destruct (HR sched s E) as (_ & m & HIs). destruct (done_inv max L m s HIs HD) as (H1 & H2 & H3 & H4).
  destruct (H4 l Hl) as [H0|(w & i & Hin & Hlw & Hi & Eb & Hlt)].
  - left. split; [|exact H0].
    pose proof (z_run max q L HL sched _ _ _ HI (z_init max threads) E l Hl) as HZ. rewrite H0 in HZ. cbn [b_bwt b_bbwt] in HZ.
    destruct (nth l (m_bbwt_win s) 0) as [|n] eqn:En; [exact Hw|]. exfalso.
    destruct (HZ ltac:(lia)) as [C|(j & t & Ej & Hp)]; [lia|]. apply nth_error_In in Ej. rewrite (done_all s t HD Ej) in Hp. exact Hp.
  - right. apply HIn in Hin. destruct Hin as (A1 & A2 & A3). exists w, i, (bwr w), (bbr (rot i w)).
    split; [repeat split; auto; apply A1|]. split; [lia|]. split; [apply bwr_ok|]. split; [apply bbr_ok, rot_not_nil, lyndon_not_nil, A1|]. auto.
Qed.
Print Assumptions C67_best_genuine.
(** with a single worker the remembered conjugate has the greatest difference *)
Theorem C67_best_single_worker max q sched p : 1 <= max -> p_run max q sched (p_init max 1) = Some p -> p_done p = true -> let s := p_st p in
  forall l w i r b, l < max -> binary_lyndon (l + 1) w -> i < l + 1 -> bwt_runs_of w r -> bbwt_runs_of (rot i w) b ->
  r - b <= b_bwt (nth l (m_best s) (Best 0 0 [])) - b_bbwt (nth l (m_best s) (Best 0 0 [])).
Proof.
  intros Hm E0 HD s l w i r b Hl Hw Hi Hr Hb. destruct (p_finished max q 1 sched p E0 HD) as (E & _). fold s in E.
  destruct (m_reachable max q 1 Hm ltac:(lia)) as (B & L & HS & HIn & HL & HC & HI & HR).
  destruct (HR sched s E) as (_ & m & HIs). destruct (done_inv max L m s HIs HD) as (_ & _ & H3 & _).
  destruct (o_run max q L HL sched _ _ _ HI (o_init max L) E) as (t & Et & HO & _).
  assert (t = MFinished) by (apply (done_all s t HD); rewrite Et; now left). subst t.
  assert (FL : firstn (m_total s + ftot MFinished) L = L) by (change (ftot MFinished) with 0; rewrite Nat.add_0_r, H3; apply firstn_all).
  rewrite FL in HO. destruct Hw as (A1 & A2 & A3).
  destruct (HO w i) as [H|[]]; [apply HIn; repeat split; auto; try apply A1; lia|lia|exact I|].
  rewrite (bwt_runs_unique _ _ _ (proj1 (bwr_ok w)) Hr) in H.
  rewrite (bbwt_runs_unique _ _ _ (rot_not_nil w i (lyndon_not_nil w A1)) (proj1 (bbr_ok _ (rot_not_nil w i (lyndon_not_nil w A1)))) Hb) in H.
  replace (length w - 1) with l in H by lia. exact H.
Qed.
Print Assumptions C67_best_single_worker.
(** ... and among the best ones the first: lexicographically smallest Lyndon word, then smallest rotation. The
    secondary criterion never decides *)
Theorem C67_best_first_single_worker max q sched p : 1 <= max -> p_run max q sched (p_init max 1) = Some p -> p_done p = true -> let s := p_st p in
  forall l, l < max ->
  (number_of_conjugates (l + 1) (fun r b => b < r) 0 /\ nth l (m_best s) (Best 0 0 []) = Best 0 0 []) \/
  (exists w i r b, binary_lyndon (l + 1) w /\ i < l + 1 /\ bwt_runs_of w r /\ bbwt_runs_of (rot i w) b /\ b < r /\
     nth l (m_best s) (Best 0 0 []) = Best r b (rot i w) /\
     forall w' i' r' b', binary_lyndon (l + 1) w' -> i' < l + 1 -> bwt_runs_of w' r' -> bbwt_runs_of (rot i' w') b' ->
       r' - b' <= r - b /\ (lex_lt w' w \/ w' = w /\ i' < i -> r' - b' < r - b)).
Proof.
  intros Hm E0 HD s l Hl. destruct (p_finished max q 1 sched p E0 HD) as (E & _). fold s in E.
  destruct (m_reachable max q 1 Hm ltac:(lia)) as (B & L & HS & HIn & HL & HC & HI & HR).
  destruct (HR sched s E) as (_ & m & HIs). destruct (done_inv max L m s HIs HD) as (_ & _ & H3 & _).
  assert (HA : forall w, In w L -> Forall (fun c => c < 2) w) by (intros w Hw; apply HIn in Hw; apply Hw).
  destruct (f_run max q L HL HS HA sched _ _ _ HI (f_init max L) E) as (t & Et & HF & _).
  assert (t = MFinished) by (apply (done_all s t HD); rewrite Et; now left). subst t.
  assert (FL : firstn (m_total s + ftot MFinished) L = L) by (change (ftot MFinished) with 0; rewrite Nat.add_0_r, H3; apply firstn_all).
  assert (DN : forall w i, done L (m_total s) MFinished w i <-> In w L /\ i < length w) by (intros w i; unfold done; rewrite FL; cbn [dn]; tauto).
  destruct (HF l Hl) as [(Eb & _)|(w & i & HDw & Lw & Eb & Hlt & HB)].
  - left. split; [|exact Eb]. destruct (C67_best_genuine max q 1 sched p Hm (le_n 1) E0 HD l Hl) as [(H & _)|(w & i & r & b & _ & _ & _ & _ & Hlt & Eb')]; [exact H|].
    exfalso. fold s in Eb'. rewrite Eb in Eb'. injection Eb' as <- <- _. lia.
  - right. apply DN in HDw. destruct HDw as (Hin & Hi). pose proof (proj1 (HIn w) Hin) as (A1 & A2 & A3).
    exists w, i, (bwr w), (bbr (rot i w)). split; [repeat split; auto; apply A1|]. split; [lia|]. split; [apply bwr_ok|].
    split; [apply bbr_ok, rot_not_nil, lyndon_not_nil, A1|]. split; [exact Hlt|]. split; [exact Eb|].
    intros w' i' r' b' (Z1 & Z2 & Z3) Hi' Hr Hb. specialize (HB w' i').
    assert (HX : pdiff w' i' = r' - b').
    { unfold pdiff. rewrite (bwt_runs_unique _ _ _ (proj1 (bwr_ok w')) Hr).
      now rewrite (bbwt_runs_unique _ _ _ (rot_not_nil w' i' (lyndon_not_nil w' Z1)) (proj1 (bbr_ok _ (rot_not_nil w' i' (lyndon_not_nil w' Z1)))) Hb). }
    rewrite HX in HB. unfold pdiff, before in HB. apply HB; [|lia]. apply DN. split; [apply HIn|lia]. repeat split; auto; try apply Z1; lia.
Qed.
Print Assumptions C67_best_first_single_worker.
(** the secondary criterion by itself: fewer characters '0' *)
Theorem C67_second_criteria u v : second_criteria u v = true <-> count_occ Nat.eq_dec u 48 < count_occ Nat.eq_dec v 48.
Proof.
  assert (H : forall w, length (filter (fun c => c =? 48) w) = count_occ Nat.eq_dec w 48).
  { induction w as [|c w IH]; [reflexivity|]. cbn [filter]. rewrite (Nat.eqb_sym c 48). destruct (Nat.eqb_spec 48 c) as [<-|N].
    - rewrite count_occ_cons_eq by reflexivity. cbn [length]. now rewrite IH.
    - rewrite count_occ_cons_neq by (intros Q; apply N; now symmetry). exact IH. }
  unfold second_criteria. rewrite !H. apply Nat.ltb_lt.
Qed.
Print Assumptions C67_second_criteria.
(** with two workers it need not be: the check and the update are separate critical sections *)
Theorem C67_best_refuted : exists sched p w i r b, p_run 6 10000 sched (p_init 6 2) = Some p /\ p_done p = true /\
  binary_lyndon 6 w /\ i < 6 /\ bwt_runs_of w r /\ bbwt_runs_of (rot i w) b /\
  b_bwt (nth 5 (m_best (p_st p)) (Best 0 0 [])) - b_bbwt (nth 5 (m_best (p_st p)) (Best 0 0 [])) < r - b.
Proof.
  exists (repeat 1 44 ++ repeat 0 20 ++ repeat 1 292 ++ repeat 0 15). eexists. exists [0;0;0;0;1;1], 4, 4, 2.
  split; [vm_compute; reflexivity|]. split; [reflexivity|]. split; [|split; [lia|split; [|split]]].
  - split; [apply (lyndon_block 4 [1]); intros i Hi; simpl in Hi; exists 0, []; assert (i = 0) by lia; subst; split; [lia|reflexivity]|].
    split; [reflexivity|repeat constructor].
  - exact (proj1 (bwr_ok [0;0;0;0;1;1])).
  - exact (proj1 (bbr_ok (rot 4 [0;0;0;0;1;1]) ltac:(discriminate))).
  - vm_compute. lia.
Qed.
Print Assumptions C67_best_refuted.
(** up to length 31 no counter overflows and no worker panics; every execution is bounded; if it cannot go on before
    all workers have finished, one worker holds total_counter and waits for num_lyndon_words while another one holds
    num_lyndon_words and waits for total_counter *)
Theorem C67_no_panic_only_deadlock max q threads : 1 <= max <= 31 -> 1 <= threads -> exists B,
  forall sched p, p_run max q sched (p_init max threads) = Some p ->
  length sched <= B /\ ~ In MPanicked (m_threads (p_st p)) /\
  (p_done p = false -> (forall i, p_step max q i p = None) ->
   exists i j, nth_error (m_threads (p_st p)) i = Some MPrintWantNum /\ nth_error (m_threads (p_st p)) j = Some MWantTotal).
Proof.
  intros (Hm & H31) Hth. destruct (m_reachable max q threads Hm Hth) as (B & L & HS & HIn & HL & HC & HI & HR). exists B.
  assert (HP : forall sched p p', p_poison p = false -> (exists m, MInv max L m (p_st p)) -> p_run max q sched p = Some p' ->
    p_poison p' = false /\ m_run max q sched (p_st p) = Some (p_st p')).
  { induction sched as [|i sched IH]; intros p p' H0 (m & HM) E; cbn [p_run] in E; [injection E as <-; split; [exact H0|reflexivity]|].
    destruct (p_step max q i p) as [p1|] eqn:E1; [|discriminate]. destruct p as (s, poison). cbn [p_st p_poison] in *. subst poison.
    destruct (p_cases max q i s false p1 E1 (conj_bound max L HL HS HIn m s H31 HM)) as (s' & Es & Hc).
    destruct (minv_step max q L HL m s i s' HM Es) as (m' & _ & HM').
    destruct Hc as [(-> & _)|(_ & [C|C])]; [|discriminate|rewrite (conj_bound max L HL HS HIn m' s' H31 HM') in C; discriminate].
    destruct (IH (Pst s' false) p' eq_refl (ex_intro (fun m => MInv max L m s') m' HM') E) as (A1 & A2). split; [exact A1|]. cbn [m_run]. rewrite Es. exact A2. }
  intros sched p E. destruct (HP sched (p_init max threads) p eq_refl (ex_intro (fun m => MInv max L m (m_init max threads)) B HI) E) as (Hpo & Em). cbn [p_init p_st] in Em.
  destruct (HR sched _ Em) as (HB & m & HIs). split; [exact HB|]. split.
  - destruct HIs as (L1 & L2 & _ & _ & _ & _ & _ & _ & _ & _ & HG & _). intros H. exact (proj1 (Forall_forall _ _) HG _ H).
  - intros HD Hno. destruct p as (s, poison). unfold p_done in HD. cbn [p_st p_poison] in *.
    assert (G : exists i t, nth_error (m_threads s) i = Some t /\ t <> MFinished).
    { unfold m_done in HD. clear - HD. induction (m_threads s) as [|t l IH]; [discriminate|]. simpl in HD. destruct t; try (exists 0; eexists; split; [reflexivity|discriminate]).
      destruct (IH HD) as (i & t & Ei & Nt). exists (S i), t. auto. }
    destruct G as (i & t & Ei & Nt). destruct (m_progress max q L m s i t HIs Ei Nt) as [(j & s' & Es)|D]; [|exact D].
    exfalso. apply (p_some max q j s poison); [congruence|apply Hno].
Qed.
Print Assumptions C67_no_panic_only_deadlock.
(** for every length: an execution is bounded; it can only stop with every worker ended, or with that deadlock; and a
    worker that panics does so because a counter has reached the greatest i32 (or, later, because of the locks poisoned by that) *)
Theorem C67_every_execution_ends max q threads : 1 <= max -> 1 <= threads -> exists B,
  forall sched p, p_run max q sched (p_init max threads) = Some p ->
  length sched <= B /\
  ((forall i, p_step max q i p = None) ->
   (forall t, In t (m_threads (p_st p)) -> t = MFinished \/ t = MPanicked) \/
   exists i j, nth_error (m_threads (p_st p)) i = Some MPrintWantNum /\ nth_error (m_threads (p_st p)) j = Some MWantTotal) /\
  (In MPanicked (m_threads (p_st p)) ->
   exists x, In x (m_bwt_win (p_st p) ++ m_bbwt_win (p_st p) ++ m_tie_win (p_st p) ++ m_num (p_st p)) /\ N.of_nat x = (2 ^ 31 - 1)%N).
Proof.
  intros Hm Hth. destruct (m_reachable max q threads Hm Hth) as (B & L & HS & HIn & HL & HC & HI & HR).
  exists (wordw max * length L + 2 * threads). intros sched p E.
  destruct (winv_prun max q L HL sched _ (p_init max threads) p (winv_init max L threads HC) E) as (m & Hle & HW). split; [lia|]. split.
  - intros Hno. apply (w_stuck max q L m (p_st p) HW). intros i. specialize (Hno i). destruct p as (s, poison). cbn [p_st].
    destruct (m_step max q i s) eqn:Es; [|reflexivity]. exfalso. apply (p_some max q i s poison); [congruence|exact Hno].
  - intros HPan. assert (HP : PInv max L (p_init max threads)).
    { split; [apply i32s_init|]. left. split; [reflexivity|]. exists B. exact HI. }
    destruct (pinv_run max q L HL sched _ _ HP E) as (_ & [(_ & m' & HM)|HF]); [|exact HF].
    exfalso. destruct HM as (L1 & L2 & _ & _ & _ & _ & _ & _ & _ & _ & HG & _). exact (proj1 (Forall_forall _ _) HG _ HPan).
Qed.
Print Assumptions C67_every_execution_ends.
(** the first panic freezes the win counters, or else the word counters: the mutexes are poisoned *)
Theorem C67_panic_freezes max q threads sched p i p' sched' p'' : 1 <= max -> 1 <= threads ->
  p_run max q sched (p_init max threads) = Some p -> ~ In MPanicked (m_threads (p_st p)) ->
  p_step max q i p = Some p' -> In MPanicked (m_threads (p_st p')) -> p_run max q sched' p' = Some p'' ->
  (m_bwt_win (p_st p'') = m_bwt_win (p_st p) /\ m_bbwt_win (p_st p'') = m_bbwt_win (p_st p) /\ m_tie_win (p_st p'') = m_tie_win (p_st p)) \/
  m_num (p_st p'') = m_num (p_st p).
Proof.
  intros Hm Hth E HN Es HP E''. destruct (m_reachable max q threads Hm Hth) as (B & L & HS & HIn & HL & HC & HI & HR).
  destruct (p_sim max q sched (p_init max threads) p (i32s_init max threads) E HN) as (Em & Hok).
  destruct (HR sched _ Em) as (_ & m & HIs).
  assert (Hpo : p_poison p = false).
  { destruct (p_poison p) eqn:Ep; [|reflexivity]. exfalso. apply HN.
    assert (G : forall sched p0, p_poison p0 = false -> i32s (p_st p0) = true -> p_run max q sched p0 = Some p -> In MPanicked (m_threads (p_st p))).
    { induction sched0 as [|k sc IH]; intros p0 H0 H1 E0; cbn [p_run] in E0; [injection E0 as ->; congruence|].
      destruct (p_step max q k p0) as [p1|] eqn:E1; [|discriminate]. destruct p0 as (s0, poison). cbn [p_poison p_st] in *. subst poison.
      destruct (p_cases max q k s0 false p1 E1 H1) as (s1 & Es1 & [(-> & Hok1)|(HPan & _)]); [exact (IH (Pst s1 false) eq_refl Hok1 E0)|].
      destruct (m_step_thread _ _ _ _ _ Es1) as (t & Et & _). destruct (panics_in k s0 (p_st p1) t Et HPan) as (_ & HX & _).
      eapply p_panicked_stays; [eapply nth_error_In; exact HX| |exact E0]. destruct HPan as (HCn & _). unfold i32s. now rewrite HCn. }
    exact (G sched (p_init max threads) eq_refl (i32s_init max threads) E). }
  destruct p as (s, poison). cbn [p_st p_poison] in *. subst poison.
  destruct (first_panic max q L HL m s i p' HIs Hok Es HP) as [(A1 & A2)|(A1 & A2)].
  - left. pose proof (poison_run max q sched' p' p'' A1 E'') as A3. rewrite A2 in A3. unfold winlists in A3. injection A3 as -> -> ->. auto.
  - right. now rewrite (numdead_run max q sched' p' p'' A1 E'').
Qed.
Print Assumptions C67_panic_freezes.
(** with the length of the program, 40, no execution finishes: the three win counters cannot all hold their values *)
Theorem C67_finishes_refuted q threads sched p : 1 <= threads ->
  p_run 40 q sched (p_init 40 threads) = Some p -> p_done p = false.
Proof.
  intros Hth E. destruct (p_done p) eqn:HD; [|reflexivity]. exfalso.
  destruct (p_finished 40 q threads sched p E HD) as (Em & H32).
  destruct (m_reachable 40 q threads ltac:(lia) Hth) as (B & L & HS & HIn & HL & HC & HI & HR).
  destruct (HR sched _ Em) as (_ & m & HIs). destruct (done_inv 40 L m _ HIs HD) as (H1 & _).
  set (W := filter (isl 39) L) in *.
  assert (HW : (15 ^ 7 <= N.of_nat (length W))%N).
  { apply lyndon40_many; [apply NoDup_filter; eapply L_NoDup; eauto|]. intros w Hw. apply (isl_words 40 L 39 HIn ltac:(lia)). exact Hw. }
  assert (SUM : nth 39 (m_bwt_win (p_st p)) 0 + nth 39 (m_bbwt_win (p_st p)) 0 + nth 39 (m_tie_win (p_st p)) 0 = 40 * length W).
  { pose proof (H1 0 39 ltac:(lia)) as A0. pose proof (H1 1 39 ltac:(lia)) as A1. pose proof (H1 2 39 ltac:(lia)) as A2.
    cbn [wins Nat.min] in A0, A1, A2. rewrite A0, A1, A2. fold W. rewrite <- !list_sum_map_add.
    assert (HWl : forall w, In w W -> length w = 40) by (intros w Hw; apply (isl_words 40 L 39 HIn ltac:(lia)) in Hw; apply Hw).
    clearbody W. clear - HWl. induction W as [|w W IH]; [reflexivity|]. cbn [map length].
    match goal with |- list_sum (?a :: ?l) = _ => change (list_sum (a :: l)) with (a + list_sum l) end.
    rewrite (IH (fun x Hx => HWl x (or_intror Hx))), cnt_sum, (HWl w (or_introl eq_refl)). lia. }
  assert (LE : forall v, length v = 40 -> incl v (counters (p_st p)) -> (N.of_nat (nth 39 v 0%nat) <= i32_max)%N).
  { intros v Hv Hi. apply (proj1 (i32s_iff (p_st p)) H32). apply Hi. apply nth_In. lia. }
  destruct HIs as (L1 & L2 & _ & _ & HWn & _).
  pose proof (LE _ (HWn 0) ltac:(intros x Hx; unfold counters; rewrite !in_app_iff; auto)) as B0.
  pose proof (LE _ (HWn 1) ltac:(intros x Hx; unfold counters; rewrite !in_app_iff; auto)) as B1.
  pose proof (LE _ (HWn 2) ltac:(intros x Hx; unfold counters; rewrite !in_app_iff; auto)) as B2.
  cbn [wins] in B0, B1, B2. clear - HW SUM B0 B1 B2. revert SUM B0 B1 B2. generalize (nth 39 (m_bwt_win (p_st p)) 0) (nth 39 (m_bbwt_win (p_st p)) 0) (nth 39 (m_tie_win (p_st p)) 0).
  intros a b c SUM B0 B1 B2. unfold i32_max in *. change (15 ^ 7)%N with 170859375%N in HW. lia.
Qed.
Print Assumptions C67_finishes_refuted.
Lemma stuck_total max q L m s i k s' : MInv max L m s -> nth_error (m_threads s) i = Some MPrintWantNum -> m_step max q k s = Some s' -> m_total s' = m_total s.
Proof.
  intros HM Ei E. destruct HM as (L1 & L2 & EL & HI & HW & HB & HNl & HC & HN & HT & HG & K1 & K2 & K3 & _).
  destruct s as [it itl w1 w2 w3 bs num numl tot totl ths]. cbn [m_threads m_total m_total_lock] in *. unfold m_step in E.
  destruct (nth_error ths k) as [t|] eqn:Et; [|discriminate].
  destruct t; repeat match goal with
      | H : match ?x with _ => _ end = Some _ |- _ => destruct x eqn:?
      | H : Some _ = Some _ |- _ => injection H as <-
      | H : None = Some _ |- _ => discriminate H
      end; try reflexivity.
  exfalso. destruct totl as [|j|]; [exact (K3 i _ Ei I)| |exact K3]. destruct K3 as (_ & K3). pose proof (K3 i _ Ei I). pose proof (K3 k _ Et I). subst. congruence.
Qed.
Lemma total_mono max q k s s' : m_step max q k s = Some s' -> m_total s <= m_total s' /\ length (m_threads s') = length (m_threads s).
Proof.
  intros E. split; [|destruct (step_upd max q k s s' E) as (x & ->); apply upd_length].
  destruct s as [it itl w1 w2 w3 bs num numl tot totl ths]. unfold m_step in E.
  destruct (nth_error ths k) as [t|]; [|discriminate].
  destruct t; repeat match goal with
      | H : match ?x with _ => _ end = Some _ |- _ => destruct x eqn:?
      | H : Some _ = Some _ |- _ => injection H as <-
      | H : None = Some _ |- _ => discriminate H
      end; cbn [m_total]; lia.
Qed.
Lemma p_upto max q L (HL : forall w, In w L -> w <> [] /\ length w <= max) n sched : forall m s s', MInv max L m s -> m_run max q sched s = Some s' ->
  length (m_threads s) = n -> (N.of_nat max * (N.of_nat (m_total s') + N.of_nat n) <= i32_max)%N ->
  p_run max q sched (Pst s false) = Some (Pst s' false).
Proof.
  assert (MONO : forall sched s s', m_run max q sched s = Some s' -> m_total s <= m_total s').
  { induction sched0 as [|i sc IH]; intros s s' E; cbn [m_run] in E; [injection E as <-; lia|].
    destruct (m_step max q i s) as [s1|] eqn:E1; [|discriminate]. destruct (total_mono _ _ _ _ _ E1). specialize (IH _ _ E). lia. }
  induction sched as [|i sched IH]; intros m s s' HM E Hn HB; cbn [m_run] in E; [now injection E as <-|].
  assert (X : forall s0 sc, m_run max q sc s0 = Some s' -> (N.of_nat max * (N.of_nat (m_total s0) + N.of_nat n) <= i32_max)%N).
  { intros s0 sc E0. pose proof (MONO _ _ _ E0). eapply N.le_trans; [|exact HB]. apply N.mul_le_mono_l. lia. }
  pose proof (X s (i :: sched) E) as B0.
  destruct (m_step max q i s) as [s1|] eqn:E1; [|discriminate]. destruct (minv_step max q L HL m s i s1 HM E1) as (m1 & _ & HM1).
  destruct (total_mono _ _ _ _ _ E1) as (_ & Hn1). pose proof (X s1 sched E) as B1. cbn [p_run].
  destruct (p_step max q i (Pst s false)) as [p1|] eqn:E2; [|exfalso; eapply p_some; [|exact E2]; congruence].
  rewrite <- Hn in B0.
  destruct (p_cases max q i s false p1 E2 (counters_small max L HL m s HM B0)) as (s2 & Es & [(-> & _)|(_ & [C|C])]); [|discriminate|];
    rewrite E1 in Es; injection Es as <-.
  - eapply IH; [exact HM1|exact E|lia|exact HB].
  - rewrite (counters_small max L HL m1 s1 HM1) in C; [discriminate|]. rewrite Hn1, Hn. exact B1.
Qed.
(** with the constants of the program (length 40, output every 10000 words, 4 workers) such a deadlock is reachable *)
Theorem C67_deadlock_free_refuted : exists sched p, p_run 40 10000 sched (p_init 40 4) = Some p /\ p_done p = false /\
  ~ In MPanicked (m_threads (p_st p)) /\ forall i, p_step 40 10000 i p = None.
Proof.
  destruct (m_reachable 40 10000 4 ltac:(lia) ltac:(lia)) as (B & L & HS & HIn & HL & HC & HI & HR).
  assert (Hbig : 2 ^ 14 <= length L) by (apply (many_lyndon L 15 14 40 HIn); lia).
  assert (Hq : 0 < 10000 < length L).
  { split; [apply Nat.ltb_lt; vm_compute; reflexivity|]. eapply Nat.lt_le_trans; [|exact Hbig]. apply Nat.ltb_lt. vm_compute. reflexivity. }
  assert (HqN : N.of_nat 10000 = 10000%N) by reflexivity.
  set (q := 10000) in *. clearbody q.
  destruct (deadlock_reachable 40 q L HL 4 HC Hq ltac:(lia)) as (sched & s & m & E & HM & T0 & T1 & TQ).
  assert (G : forall m s, MInv 40 L m s -> nth_error (m_threads s) 0 = Some MPrintWantNum -> nth_error (m_threads s) 1 = Some MWantTotal ->
    exists sched s', m_run 40 q sched s = Some s' /\ m_done s' = false /\ (forall i, m_step 40 q i s' = None) /\ m_total s' = m_total s).
  { intros m0. induction m0 as [m0 IH] using lt_wf_ind. intros s0 HM0 A0 A1.
    assert (Dec : (exists i s', m_step 40 q i s0 = Some s') \/ forall i, m_step 40 q i s0 = None).
    { assert (H : forall n, (exists i s', m_step 40 q i s0 = Some s') \/ forall i, i < n -> m_step 40 q i s0 = None).
      { induction n as [|n [IHn|IHn]]; [right; lia|now left|]. destruct (m_step 40 q n s0) eqn:En; [left; eauto|].
        right. intros i Hi. destruct (Nat.eq_dec i n) as [->|]; [exact En|apply IHn; lia]. }
      destruct (H (length (m_threads s0))) as [X|X]; [now left|right]. intros i. destruct (Nat.lt_ge_cases i (length (m_threads s0))) as [C|C]; [auto|].
      apply nth_error_None in C. destruct s0 as [it itl w1 w2 w3 bs num numl tot totl ths]. unfold m_step. cbn [m_threads] in C. now rewrite C. }
    destruct Dec as [(i & s1 & E1)|Hno].
    - destruct (minv_step 40 q L HL m0 s0 i s1 HM0 E1) as (m1 & Hm1 & HM1).
      destruct (stuck_step 40 q L m0 s0 0 1 i s1 HM0 A0 A1 E1) as (B0 & B1).
      pose proof (stuck_total 40 q L m0 s0 0 i s1 HM0 A0 E1) as Tt.
      destruct (IH m1 Hm1 s1 HM1 B0 B1) as (sc & s2 & E2 & R1 & R2 & R3). exists (i :: sc), s2. split; [cbn [m_run]; rewrite E1; exact E2|]. rewrite <- Tt. auto.
    - exists [], s0. split; [reflexivity|]. split; [|split; [exact Hno|reflexivity]]. destruct (m_done s0) eqn:HD; [|reflexivity].
      apply nth_error_In in A0. discriminate (done_all s0 _ HD A0). }
  destruct (G m s HM T0 T1) as (sc & s' & E' & R1 & R2 & R3).
  assert (ER : m_run 40 q (sched ++ sc) (m_init 40 4) = Some s') by (rewrite m_run_app, E; exact E').
  exists (sched ++ sc), (Pst s' false). split; [|split; [exact R1|split]].
  - apply (p_upto 40 q L HL 4 (sched ++ sc) _ _ s' HI); [exact ER|reflexivity|].
    rewrite R3, TQ, HqN. unfold i32_max. cbn [N.of_nat]. lia.
  - destruct (minv_run 40 q L HL (sched ++ sc) _ _ _ HI ER) as (m' & _ & HM').
    destruct HM' as (L1 & L2 & _ & _ & _ & _ & _ & _ & _ & _ & HG & _). intros H. exact (proj1 (Forall_forall _ _) HG _ H).
  - intros i. apply p_none. apply R2.
Qed.
Print Assumptions C67_deadlock_free_refuted.
Example C67_case : exists p, let s := p_st p in p_run 6 10000 (repeat 1 44 ++ repeat 0 20 ++ repeat 1 292 ++ repeat 0 15) (p_init 6 2) = Some p /\ p_done p = true /\
  m_total s = 23 /\ m_num s = [2;1;2;3;6;9] /\ m_bbwt_win s = [0;0;0;3;6;15] /\ nth 3 (m_best s) (Best 0 0 []) = Best 4 2 [1;1;0;0].
Proof. eexists. split; [vm_compute; reflexivity|]. repeat split. Qed.

(** an overflow, one step ahead: the counter stands at the greatest i32, the worker panics and its mutexes are poisoned *)
Example C67_overflow_case : forall v, N.of_nat v = 2147483647%N ->
  p_step 1 10000 0 (Pst (Mst (lwg_new 1 2) Free [0] [0] [v] [Best 0 0 []] [0] Free 0 Free [MConj [1] 1 (CIT [1] 0)]) false) =
  Some (Pst (Mst (lwg_new 1 2) Free [0] [0] [v] [Best 0 0 []] [0] Free 0 Free [MPanicked]) true).
Proof.
  intros v Hv. unfold p_step.
  assert (E : m_step 1 10000 0 (Mst (lwg_new 1 2) Free [0] [0] [v] [Best 0 0 []] [0] Free 0 Free [MConj [1] 1 (CIT [1] 0)]) =
              Some (Mst (lwg_new 1 2) Free [0] [0] [v + 1] [Best 0 0 []] [0] Free 0 Free [MConj [1] 1 (CIT [1] 1)])) by reflexivity.
  rewrite E. cbn [m_threads nth_error].
  assert (F : i32s (Mst (lwg_new 1 2) Free [0] [0] [v + 1] [Best 0 0 []] [0] Free 0 Free [MConj [1] 1 (CIT [1] 1)]) = false).
  { unfold i32s, counters. cbn [m_bwt_win m_bbwt_win m_tie_win m_num app forallb]. rewrite Nat2N.inj_add, Hv. reflexivity. }
  rewrite F. reflexivity.
Qed.
