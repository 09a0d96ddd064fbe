(** PropsMorph.v : property theorem C110: the matrix BWT of the Thue-Morse, period-doubling and ternary Thue-Morse words. *)
From Verif Require Import Base SpecStr SpecBwt SpecIo SpecWord RunFacts BwtFacts BwtProof ModelCore ModelWord ModelMain MainProof2.
From Verif Require Import LexFacts LyndonProof DuvalProof WordProof PermFacts PropsWord SortFacts MorphBwt MorphBwt2 MorphRuns.
From Coq Require Import NArith.

(** exchanges the letters a and b *)
Definition exchange (c : nat) : nat := if c =? 97 then 98 else 97.
(** b is what every matrix-transform routine (naive, fast, and the one the command-line tools run) returns for w and for each of its rotations *)
Definition matrix_transform_is (sort : str -> list nat) (w b : str) : Prop := forall s, s <= length w ->
  bwt_by_matrix_naive (rot s w) = Ok b /\ bwt_by_matrix sort (rot s w) = Ok b /\ bwt_main sort true (rot s w) 0 true true = Ok b.

Lemma transform_ok sort w b : (forall t, is_suffix_array t (sort t)) -> w <> [] -> ~ In 0 w -> is_matrix_bwt w b -> matrix_transform_is sort w b.
Proof.
  intros Hs NE N0 HB s Hle. apply bwt_by_matrix_naive_spec in HB.
  assert (R1 : bwt_by_matrix_naive (rot s w) = Ok b) by (rewrite bwt_by_matrix_naive_rot; auto).
  assert (R2 : bwt_by_matrix sort (rot s w) = Ok b).
  { rewrite bwt_by_matrix_ok; [exact R1|exact Hs| |].
    - intros EE. apply NE. apply length_zero_iff_nil. rewrite <- (rot_length s). now rewrite EE.
    - intros H. apply in_rot in H; auto. }
  split; [exact R1|]. split; [exact R2|].
  unfold bwt_main. rewrite prefix_read_ok. cbn [bind]. unfold SpecMain.prefix_read. cbn [Nat.eqb].
  destruct (length (rot s w) <? 100); assumption.
Qed.
Lemma transform_runs sort w b s : s <= length w -> w <> [] -> is_matrix_bwt w b -> matrix_transform_is sort w b ->
  count_r_main sort true (rot s w) 0 true true = Ok (length w, S (ch b)).
Proof.
  intros Hle NE HB H. destruct (H s Hle) as (_ & _ & B). rewrite (count_r_ok _ _ _ _ _ _ _ B). do 2 f_equal.
  - now apply matrix_bwt_length.
  - apply runs_ch. now apply (bwt_ne w).
Qed.

(** ** C110: Thue-Morse *)
Lemma TM_ne k : TM k <> [].
Proof. intros E. pose proof (TM_len k) as L. rewrite E in L. pose proof (two_pow_pos k). cbn [length] in L. lia. Qed.
Lemma TM_no0 k : ~ In 0 (TM k).
Proof. intros H. pose proof (TM_ab k) as A. rewrite Forall_forall in A. destruct (A _ H); lia. Qed.
Lemma TM_word k : k < 63 -> thuemorse_word k = Ok (TM k).
Proof. intros Hk. destruct (C44_thuemorse_word k Hk) as (w & E & _ & _ & Ew). rewrite E, Ew. reflexivity. Qed.
Theorem C110_thuemorse_bwt : forall sort k, (forall t, is_suffix_array t (sort t)) -> 1 <= k < 62 ->
  exists w w' b, thuemorse_word k = Ok w /\ thuemorse_word (k + 1) = Ok w' /\ matrix_transform_is sort w b /\
    matrix_transform_is sort w' (repeat 98 (2 ^ (k - 1)) ++ map exchange b ++ repeat 97 (2 ^ (k - 1))).
Proof.
  intros sort k Hs Hk. exists (TM k), (TM (k + 1)). destruct (TM_bwt (k - 1)) as (b & H & _). exists b.
  replace (S (k - 1)) with k in H by lia.
  split; [apply TM_word; lia|]. split; [apply TM_word; lia|]. split; [apply transform_ok; auto using TM_ne, TM_no0|].
  apply transform_ok; auto using TM_ne, TM_no0. replace (k + 1) with (S (S (k - 1))) by lia. change exchange with comp. apply TM_step. now replace (S (k - 1)) with k by lia.
Qed.
Print Assumptions C110_thuemorse_bwt.
Theorem C110_thuemorse_runs : forall sort k, (forall t, is_suffix_array t (sort t)) -> 1 <= k < 63 ->
  exists w, thuemorse_word k = Ok w /\ forall s, s <= length w -> count_r_main sort true (rot s w) 0 true true = Ok (2 ^ k, 2 * k).
Proof.
  intros sort k Hs Hk. exists (TM k). split; [apply TM_word; lia|]. destruct (TM_bwt (k - 1)) as (b & H & _ & _ & C).
  replace (S (k - 1)) with k in H by lia. intros s Hle.
  rewrite (transform_runs sort (TM k) b s Hle (TM_ne k) H) by (apply transform_ok; auto using TM_ne, TM_no0).
  rewrite TM_len, C. do 2 f_equal. lia.
Qed.
Print Assumptions C110_thuemorse_runs.

(** ** C110: period doubling *)
Lemma PD_ne k : PD k <> [].
Proof. intros E. pose proof (PD_len k) as L. rewrite E in L. pose proof (two_pow_pos k). cbn [length] in L. lia. Qed.
Lemma PD_no0 k : ~ In 0 (PD k).
Proof. intros H. pose proof (PD_ab k) as A. rewrite Forall_forall in A. destruct (A _ H); lia. Qed.
Lemma PD_word k : k < 63 -> period_doubling_word k = Ok (PD k).
Proof. intros Hk. destruct (C46_period_doubling k Hk) as (w & E & _ & Ew & _). rewrite E, Ew. reflexivity. Qed.
Lemma PD_bwt' k : 1 <= k -> exists P, length P = count_occ Nat.eq_dec (PD k) 97 /\ is_matrix_bwt (PD k) (P ++ repeat 97 (count_occ Nat.eq_dec (PD k) 98)).
Proof.
  intros Hk. destruct k as [|[|k]]; [lia| |].
  - exists [98]. exact PD_one.
  - destruct (PD_bwt k) as (P & L & H & _). eauto.
Qed.
Theorem C110_period_doubling_bwt : forall sort k, (forall t, is_suffix_array t (sort t)) -> 1 <= k < 62 ->
  exists w w' p, period_doubling_word k = Ok w /\ period_doubling_word (k + 1) = Ok w' /\
    let m := count_occ Nat.eq_dec w 98 in
    matrix_transform_is sort w (p ++ repeat 97 m) /\
    matrix_transform_is sort w' (repeat 98 m ++ repeat 97 m ++ map exchange (rev p) ++ repeat 97 (length p)).
Proof.
  intros sort k Hs Hk. exists (PD k), (PD (k + 1)). destruct (PD_bwt' k ltac:(lia)) as (P & L & H). exists P.
  split; [apply PD_word; lia|]. split; [apply PD_word; lia|]. cbv zeta. split; [apply transform_ok; auto using PD_ne, PD_no0|].
  apply transform_ok; auto using PD_ne, PD_no0. replace (k + 1) with (S (S (k - 1))) by lia. change exchange with comp.
  replace k with (S (k - 1)) in H, L |- * by lia. replace (S (k - 1) - 1) with (k - 1) by lia. destruct (PD_step (k - 1) P L H) as (_ & H2).
  destruct (pd_count (PD (S (k - 1))) (PD_ab _)) as (C1 & _). rewrite (PD_S (S (k - 1))) in H2 at 2. rewrite C1, <- L in H2.
  unfold pd_part in H2. rewrite <- !app_assoc in H2. exact H2.
Qed.
Print Assumptions C110_period_doubling_bwt.
Theorem C110_period_doubling_runs : forall sort k, (forall t, is_suffix_array t (sort t)) -> 2 <= k < 63 ->
  exists w, period_doubling_word k = Ok w /\ forall s, s <= length w -> count_r_main sort true (rot s w) 0 true true = Ok (2 ^ k, 2 * k - 2).
Proof.
  intros sort k Hs Hk. exists (PD k). split; [apply PD_word; lia|]. destruct (PD_bwt (k - 2)) as (P & L & H & Hh & Hl & F & C).
  replace (S (S (k - 2))) with k in L, H by lia. intros s Hle.
  rewrite (transform_runs sort (PD k) _ s Hle (PD_ne k) H) by (apply transform_ok; auto using PD_ne, PD_no0).
  assert (B : 1 <= count_occ Nat.eq_dec (PD k) 98) by (replace k with (S (k - 1)) by lia; apply PD_b).
  rewrite PD_len, ch_app; [|intros ->; discriminate|now apply repeat_ne].
  rewrite Hl, hd_repeat, ch_repeat, C by exact B. do 2 f_equal. rewrite Nat.eqb_refl. lia.
Qed.
Print Assumptions C110_period_doubling_runs.

(** ** C110: ternary Thue-Morse *)
Lemma VT_no0 k : ~ In 0 (VT k).
Proof. intros H. pose proof (VT_abc k) as A. rewrite Forall_forall in A. destruct (A _ H) as [E|[E|E]]; lia. Qed.
Lemma VT_ne k : VT k <> [].
Proof. destruct k as [|k]; [discriminate|]. destruct (VT_begin k) as (r & ->). discriminate. Qed.
Lemma VT_word k : k <= 29 -> vtm_word k = Ok (VT k).
Proof. intros Hk. destruct (C48_vtm_word k Hk) as (w & E & Ew & _). rewrite E, Ew. reflexivity. Qed.
Theorem C110_vtm_bwt : forall sort k, (forall t, is_suffix_array t (sort t)) -> 1 <= k < 29 ->
  exists w w' b, vtm_word k = Ok w /\ vtm_word (k + 1) = Ok w' /\ matrix_transform_is sort w b /\
    matrix_transform_is sort w' (map (fun c => if c =? 99 then 98 else 99) b ++ repeat 97 (count_occ Nat.eq_dec w 97) ++
      map exchange (filter (fun c => negb (c =? 99)) b)).
Proof.
  intros sort k Hs Hk. exists (VT k), (VT (k + 1)).
  assert (HB : exists b, is_matrix_bwt (VT k) b) by apply matrix_exists. destruct HB as (b & H). exists b.
  split; [apply VT_word; lia|]. split; [apply VT_word; lia|]. split; [apply transform_ok; auto using VT_ne, VT_no0|].
  apply transform_ok; auto using VT_ne, VT_no0. replace (k + 1) with (S (S (k - 1))) by lia. replace k with (S (k - 1)) in H |- * by lia.
  replace (S (k - 1) - 1) with (k - 1) by lia. exact (VT_step (k - 1) b H).
Qed.
Print Assumptions C110_vtm_bwt.
Theorem C110_vtm_runs : forall sort k, (forall t, is_suffix_array t (sort t)) -> 1 <= k <= 29 ->
  exists w, vtm_word k = Ok w /\ forall s, s <= length w -> count_r_main sort true (rot s w) 0 true true = Ok (length w, 2 * k + 1).
Proof.
  intros sort k Hs Hk. exists (VT k). split; [apply VT_word; lia|].
  assert (HB : exists b, is_matrix_bwt (VT k) b /\ ch b = 2 * k).
  { destruct k as [|[|k]]; [lia| |].
    - exists [99; 97; 98]. split; [exact VT_one|reflexivity].
    - destruct (VT_bwt k) as (b & H & _ & _ & _ & _ & _ & C). exists b. split; [exact H|]. rewrite C. lia. }
  destruct HB as (b & H & C). intros s Hle.
  rewrite (transform_runs sort (VT k) b s Hle (VT_ne k) H) by (apply transform_ok; auto using VT_ne, VT_no0).
  rewrite C. do 2 f_equal. lia.
Qed.
Print Assumptions C110_vtm_runs.

Example C110_case : thuemorse_word 3 = Ok [97;98;98;97;98;97;97;98] /\
  count_r_main naive_sort true [97;98;98;97;98;97;97;98] 0 true true = Ok (8, 6) /\
  bwt_by_matrix_naive [97;98;98;97;98;97;97;98] = Ok [98;98;97;98;97;98;97;97] /\
  period_doubling_word 3 = Ok [97;98;97;97;97;98;97;98] /\
  count_r_main naive_sort true [97;98;97;97;97;98;97;98] 0 true true = Ok (8, 4) /\
  vtm_word 3 = Ok [97;98;99;97;99;98;97;98;99;98;97;99] /\
  count_r_main naive_sort true [97;98;99;97;99;98;97;98;99;98;97;99] 0 true true = Ok (12, 7).
Proof. vm_compute. repeat split. Qed.
