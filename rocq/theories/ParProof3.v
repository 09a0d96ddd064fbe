(** ParProof3.v : max_lyndon_word (unfinished/parallel.rs), for every schedule. *)
From Verif Require Import Base SpecStr SpecBwt SpecIo SpecPar LexFacts RunFacts ModelIo ModelCore ModelMain ModelPar ModelPar2.
From Verif Require Import DuvalProof LyndonProof BwtFacts BwtProof BbwtProof IterProof LwgProof ParProof LockFacts ParProof2.

Definition bwr (w : str) : nat := match bwt_by_matrix_naive w with Ok b => match runs_of_slice b with Ok n => n | _ => 0 end | _ => 0 end.
Definition bbr (w : str) : nat := match bbwt_naive w with Ok b => match runs_of_slice b with Ok n => n | _ => 0 end | _ => 0 end.
Lemma bwr_ok w : bwt_runs_of w (bwr w) /\ exists b, bwt_by_matrix_naive w = Ok b /\ runs_of_slice b = Ok (bwr w).
Proof.
  destruct (bwt_by_matrix_naive_ok w) as (b & Eb & Hb). destruct (runs_of_slice_ok b) as (r & rs & Er & Hr & Hn).
  unfold bwr. rewrite Eb, Er. split; [now exists b, rs|]. now exists b.
Qed.
Lemma bbr_ok w : w <> [] -> bbwt_runs_of w (bbr w) /\ exists b, bbwt_naive w = Ok b /\ runs_of_slice b = Ok (bbr w).
Proof.
  intros Hw. destruct (bbwt_naive_ok w Hw) as (b & Eb & Hb). destruct (runs_of_slice_ok b) as (r & rs & Er & Hr & Hn).
  unfold bbr. rewrite Eb, Er. split; [now exists b, rs|]. now exists b.
Qed.

(** which of the three counters conjugate i of w is for: 0 bwt wins, 1 bbwt wins, 2 tie *)
Definition cls (w : str) (i : nat) : nat :=
  if bwr w <? bbr (rot i w) then 0 else if bbr (rot i w) <? bwr w then 1 else 2.
Definition cnt (k : nat) (w : str) (p : nat) : nat := length (filter (fun i => cls w i =? k) (seq p (length w - p))).
Lemma cnt_step k w p : p < length w -> cnt k w p = (if cls w p =? k then 1 else 0) + cnt k w (p + 1).
Proof.
  intros H. unfold cnt. replace (length w - p) with (S (length w - (p + 1))) by lia. rewrite (Nat.add_1_r p).
  cbn [seq filter]. destruct (cls w p =? k); reflexivity.
Qed.
Lemma cnt_end k w : cnt k w (length w) = 0.
Proof. unfold cnt. now rewrite Nat.sub_diag. Qed.

Section M.
Context (max q : nat) (L : list str).
Hypothesis HL : forall w, In w L -> w <> [] /\ length w <= max.
Definition isl (l : nat) (w : str) : bool := length w - 1 =? l.
(** the word a thread works on, with the next conjugate *)
Definition cur (t : mpc) : option (str * nat) :=
  match t with
  | MStart w => Some (w, 0)
  | MConj w _ c | MCheck w _ c _ _ | MWrite w _ c _ _ => Some (w, cit_pos c)
  | _ => None
  end.
(** contributions still to be made *)
Definition fwin (k l : nat) (t : mpc) : nat :=
  match cur t with Some (w, p) => if isl l w then cnt k w p else 0 | None => 0 end.
Definition fnum (l : nat) (t : mpc) : nat :=
  match cur t with
  | Some (w, _) => if isl l w then 1 else 0
  | None => match t with MWantNum l' | MNum l' => if l' =? l then 1 else 0 | _ => 0 end
  end.
Definition ftot (t : mpc) : nat :=
  match cur t with
  | Some _ => 1
  | None => match t with MWantNum _ | MNum _ | MWantTotal | MTotal => 1 | _ => 0 end
  end.
Definition wordw : nat := 3 * max + 12.
Definition mwt (t : mpc) : nat :=
  match t with
  | MFetch => 2 | MFetching => 1
  | MStart w => 3 * length w + 12
  | MConj w _ c => 3 * (length w - cit_pos c) + 11
  | MCheck w _ c _ _ => 3 * (length w - cit_pos c) + 13
  | MWrite w _ c _ _ => 3 * (length w - cit_pos c) + 12
  | MWantNum _ => 10 | MNum _ => 9 | MWantTotal => 8 | MTotal => 7 | MWantTotal2 => 6 | MTotal2 => 5 | MPrintWantNum => 4 | MPrint => 3
  | MFinished | MPanicked => 0
  end.
Definition at_pos (w : str) (r : nat) (c : cit) : Prop := In w L /\ r = bwr w /\ cit_text c = w /\ cit_pos c <= length w.
Definition seen (w : str) (r : nat) (c : cit) (cj : str) (b : nat) : Prop :=
  at_pos w r c /\ b < r /\ b = bbr cj /\ exists i, i < length w /\ cj = rot i w.
Definition mgood (t : mpc) : Prop :=
  match t with
  | MStart w => In w L
  | MConj w r c => at_pos w r c
  | MCheck w r c cj b | MWrite w r c cj b => seen w r c cj b
  | MWantNum l | MNum l => l < max
  | MPanicked => False
  | _ => True
  end.
Definition h_iter (t : mpc) : Prop := match t with MFetching => True | _ => False end.
Definition h_num (t : mpc) : Prop := match t with MNum _ | MWantTotal | MTotal | MPrint => True | _ => False end.
Definition h_tot (t : mpc) : Prop := match t with MTotal | MTotal2 | MPrintWantNum | MPrint => True | _ => False end.
Definition best_ok (l : nat) (b : best) : Prop :=
  b = Best 0 0 [] \/ exists w i, In w L /\ length w = l + 1 /\ i < length w /\
     b = Best (bwr w) (bbr (rot i w)) (rot i w) /\ bbr (rot i w) < bwr w.
(** the counters as a function *)
Definition wins (s : mst) (k : nat) : list nat := match k with 0 => m_bwt_win s | 1 => m_bbwt_win s | _ => m_tie_win s end.


Definition msum (g : mpc -> nat) (ths : list mpc) : nat := list_sum (map g ths).
Definition MInv (m : nat) (s : mst) : Prop := exists L1 L2,
  L = L1 ++ L2 /\ (forall k, calls lwg_next k (m_iter s) = Ok (yields L2 k)) /\
  (forall k, length (wins s k) = max) /\ length (m_best s) = max /\ length (m_num s) = max /\
  (forall k l, l < max -> nth l (wins s k) 0 + msum (fwin (Nat.min k 2) l) (m_threads s) = list_sum (map (fun w => cnt (Nat.min k 2) w 0) (filter (isl l) L1))) /\
  (forall l, l < max -> nth l (m_num s) 0 + msum (fnum l) (m_threads s) = length (filter (isl l) L1)) /\
  m_total s + msum ftot (m_threads s) = length L1 /\
  Forall mgood (m_threads s) /\
  lock_ok (m_iter_lock s) h_iter (m_threads s) /\ lock_ok (m_num_lock s) h_num (m_threads s) /\ lock_ok (m_total_lock s) h_tot (m_threads s) /\
  (forall l, l < max -> best_ok l (nth l (m_best s) (Best 0 0 []))) /\
  (In MFinished (m_threads s) -> L2 = []) /\ 0 < length (m_threads s) /\
  m = wordw * length L2 + msum mwt (m_threads s).
Lemma MInv_intro L1 L2 s :
  L = L1 ++ L2 -> (forall k, calls lwg_next k (m_iter s) = Ok (yields L2 k)) ->
  (forall k, length (wins s k) = max) -> length (m_best s) = max -> length (m_num s) = max ->
  (forall k l, l < max -> nth l (wins s k) 0 + msum (fwin (Nat.min k 2) l) (m_threads s) = list_sum (map (fun w => cnt (Nat.min k 2) w 0) (filter (isl l) L1))) ->
  (forall l, l < max -> nth l (m_num s) 0 + msum (fnum l) (m_threads s) = length (filter (isl l) L1)) ->
  m_total s + msum ftot (m_threads s) = length L1 ->
  Forall mgood (m_threads s) ->
  lock_ok (m_iter_lock s) h_iter (m_threads s) -> lock_ok (m_num_lock s) h_num (m_threads s) -> lock_ok (m_total_lock s) h_tot (m_threads s) ->
  (forall l, l < max -> best_ok l (nth l (m_best s) (Best 0 0 []))) ->
  (In MFinished (m_threads s) -> L2 = []) -> 0 < length (m_threads s) -> MInv (wordw * length L2 + msum mwt (m_threads s)) s.
Proof. intros. exists L1, L2. repeat (split; [assumption|]). reflexivity. Qed.

Lemma incr_ok v l : length v = max -> l < max -> exists v', incr v l = Ok v' /\ length v' = max /\
  forall l', l' < max -> nth l' v' 0 = nth l' v 0 + (if l =? l' then 1 else 0).
Proof.
  intros H Hl. unfold incr. rewrite (get_ok v l 0) by lia. cbn [bind]. rewrite set_ok by lia. eexists. split; [reflexivity|].
  split; [now rewrite upd_length|]. intros l' Hl'. destruct (Nat.eqb_spec l l') as [->|N].
  - rewrite nth_upd_eq by lia. reflexivity.
  - rewrite nth_upd_ne by auto. lia.
Qed.
Lemma m_start_ok w : In w L -> m_start max w = Ok (bwr w).
Proof.
  intros H. destruct (HL w H) as (H1 & H2). assert (1 <= length w) by (destruct w; [congruence|simpl; lia]).
  destruct (bwr_ok w) as (_ & b & Eb & Er). unfold m_start. rewrite Eb. cbn [bind]. rewrite Er. cbn [bind].
  destruct (Nat.ltb_spec 0 (length w)); [|lia]. cbn [assert_ bind]. rewrite sub_ok by lia. cbn [bind].
  destruct (Nat.ltb_spec (length w - 1) max); [|lia]. reflexivity.
Qed.
Definition sel (k : nat) (ws : list nat * list nat * list nat) : list nat :=
  let '(a, b, c) := ws in match k with 0 => a | 1 => b | _ => c end.
Lemma m_conj_ok w p ws : In w L -> p < length w -> (forall k, length (sel k ws) = max) ->
  exists ws', (let '(w1, w2, w3) := ws in m_conj w (bwr w) (CIT w p) w1 w2 w3) = Ok (Some (rot p w, bbr (rot p w), ws'), CIT w (p + 1)) /\
   (forall k, length (sel k ws') = max) /\
   forall k l, l < max -> nth l (sel k ws') 0 = nth l (sel k ws) 0 + (if (length w - 1 =? l) && (cls w p =? Nat.min k 2) then 1 else 0).
Proof.
  intros Hw Hp HW. destruct ws as ((w1, w2), w3). destruct (HL w Hw) as (H1 & H2).
  assert (Hr : rot p w <> []) by (intros C; apply (f_equal (@length nat)) in C; rewrite rot_length in C; simpl in C; lia).
  destruct (bbr_ok _ Hr) as (_ & b & Eb & Er). unfold m_conj. rewrite cit_next_ok by exact Hp. cbn [bind]. rewrite Eb. cbn [bind].
  rewrite Er. cbn [bind]. rewrite sub_ok by lia. cbn [bind].
  pose proof (HW 0) as W0. pose proof (HW 1) as W1. pose proof (HW 2) as W2. cbn [sel] in W0, W1, W2.
  assert (Hl : length w - 1 < max) by lia. unfold cls.
  destruct (Nat.ltb_spec (bwr w) (bbr (rot p w))) as [C|C]; [|destruct (Nat.ltb_spec (bbr (rot p w)) (bwr w)) as [C2|C2]].
  - destruct (incr_ok w1 _ W0 Hl) as (v & Ev & Lv & Hv). rewrite Ev. cbn [bind]. eexists. split; [reflexivity|]. split.
    + intros [|[|k]]; assumption.
    + intros [|[|k]] l Hl'; cbn [sel Nat.min Nat.eqb]; rewrite ?andb_true_r, ?andb_false_r, ?Nat.add_0_r; auto.
  - destruct (incr_ok w2 _ W1 Hl) as (v & Ev & Lv & Hv). rewrite Ev. cbn [bind]. eexists. split; [reflexivity|]. split.
    + intros [|[|k]]; assumption.
    + intros [|[|k]] l Hl'; cbn [sel Nat.min Nat.eqb]; rewrite ?Nat.min_0_r, ?andb_true_r, ?andb_false_r, ?Nat.add_0_r; auto.
  - destruct (incr_ok w3 _ W2 Hl) as (v & Ev & Lv & Hv). rewrite Ev. cbn [bind]. eexists. split; [reflexivity|]. split.
    + intros [|[|k]]; assumption.
    + intros [|[|k]] l Hl'; cbn [sel Nat.min Nat.eqb]; rewrite ?Nat.min_0_r, ?andb_true_r, ?andb_false_r, ?Nat.add_0_r; auto.
Qed.
Lemma m_conj_end w ws : (let '(w1, w2, w3) := ws in m_conj w (bwr w) (CIT w (length w)) w1 w2 w3) = Ok (None, CIT w (length w)).
Proof. destruct ws as ((w1, w2), w3). unfold m_conj. rewrite cit_next_end. reflexivity. Qed.
Lemma m_check_ok w r c cj b bs : seen w r c cj b -> length bs = max -> (forall l, l < max -> best_ok l (nth l bs (Best 0 0 []))) ->
  exists nc, m_check w r cj b bs = Ok nc.
Proof.
  intros ((Hw & _) & Hb & _) Hl HB. destruct (HL w Hw) as (H1 & H2). assert (1 <= length w) by (destruct w; [congruence|simpl; lia]).
  unfold m_check. rewrite sub_ok by lia. cbn [bind]. rewrite (get_ok bs _ (Best 0 0 [])) by lia. cbn [bind]. rewrite sub_ok by lia. cbn [bind].
  rewrite sub_ok; [cbn [bind]; eauto|]. destruct (HB (length w - 1) ltac:(lia)) as [->|(w' & i & _ & _ & _ & -> & H3)]; cbn [b_bwt b_bbwt]; lia.
Qed.
Lemma m_write_ok w r c cj b bs : seen w r c cj b -> length bs = max -> (forall l, l < max -> best_ok l (nth l bs (Best 0 0 []))) ->
  exists bs', m_write w r cj b bs = Ok bs' /\ length bs' = max /\ (forall l, l < max -> best_ok l (nth l bs' (Best 0 0 []))).
Proof.
  intros ((Hw & -> & _) & Hb & -> & i & Hi & ->) Hl HB. destruct (HL w Hw) as (H1 & H2).
  assert (1 <= length w) by (destruct w; [congruence|simpl; lia]).
  unfold m_write. rewrite sub_ok by lia. cbn [bind]. rewrite set_ok by lia. eexists. split; [reflexivity|].
  split; [now rewrite upd_length|]. intros l Hl'. destruct (Nat.eq_dec l (length w - 1)) as [->|N].
  - rewrite nth_upd_eq by lia. right. exists w, i. repeat split; auto. lia.
  - rewrite nth_upd_ne by auto. auto.
Qed.

Ltac minst n := match goal with |- exists m', m' < _ /\ MInv m' ?s => exists (wordw * n + msum mwt (m_threads s)) end; cbn [m_threads].
Ltac simp := cbn [m_iter m_iter_lock m_bwt_win m_bbwt_win m_tie_win m_best m_num m_num_lock m_total m_total_lock m_threads] in *.
Lemma minv_step m s i s' : MInv m s -> m_step max q i s = Some s' -> exists m', m' < m /\ MInv m' s'.
Proof.
  intros (L1 & L2 & EL & HI & HW & HB & HNl & HC & HN & HT & HG & K1 & K2 & K3 & HBo & KF & KN & ->) E.
  destruct s as [it itl w1 w2 w3 bs num numl tot totl ths]. simp.
  unfold m_step in E. destruct (nth_error ths i) as [t|] eqn:Et; [|discriminate].
  destruct (upd_split ths i t Et) as (l1 & l2 & E12 & EU).
  assert (Hgt : mgood t) by (apply (proj1 (Forall_forall _ _) HG); eapply nth_error_In; eauto).
  assert (HGU : forall x, mgood x -> Forall mgood (upd ths i x)).
  { intros x Hx. rewrite EU. rewrite E12 in HG. apply Forall_app in HG. destruct HG as (G1 & G2).
    apply Forall_app. split; [exact G1|]. inversion G2; subst. now constructor. }
  assert (HM : forall (g : mpc -> nat) x, msum g (upd ths i x) + g t = msum g ths + g x).
  { intros g x. unfold msum. rewrite EU, E12, !map_app, !list_sum_app. simpl. lia. }
  assert (KN' : forall x, 0 < length (upd ths i x)) by (intros x; rewrite upd_length; exact KN).
  assert (KF' : forall x, x <> MFinished -> In MFinished (upd ths i x) -> L2 = []).
  { intros x Hx H. apply KF. rewrite EU in H. rewrite E12. apply in_app_iff in H. apply in_app_iff.
    destruct H as [H|[H|H]]; [now left|congruence|]. right. now right. }
  assert (SAME : forall x, (forall k l, fwin k l x = fwin k l t) -> (forall l, fnum l x = fnum l t) -> ftot x = ftot t ->
     (forall k l, l < max -> nth l (wins (Mst it itl w1 w2 w3 bs num numl tot totl ths) k) 0 + msum (fwin (Nat.min k 2) l) (upd ths i x) =
        list_sum (map (fun w => cnt (Nat.min k 2) w 0) (filter (isl l) L1))) /\
     (forall l, l < max -> nth l num 0 + msum (fnum l) (upd ths i x) = length (filter (isl l) L1)) /\
     tot + msum ftot (upd ths i x) = length L1).
  { intros x X1 X2 X3. split; [|split].
    - intros k l Hl. rewrite <- (HC k l Hl). specialize (HM (fwin (Nat.min k 2) l) x). rewrite X1 in HM. lia.
    - intros l Hl. rewrite <- (HN l Hl). specialize (HM (fnum l) x). rewrite X2 in HM. lia.
    - specialize (HM ftot x). lia. }
  pose proof (HM mwt) as HW8.
  destruct t; try discriminate.
  - (* MFetch *)
    destruct itl; try discriminate; [|destruct K1]. injection E as <-.
    destruct (SAME MFetching) as (Y1 & Y2 & Y3); [reflexivity..|].
    minst (length L2). split; [specialize (HW8 MFetching); cbn [mwt] in HW8; lia|].
    apply (MInv_intro L1 L2); simp; try eassumption; try (apply KN'); try (apply KF'; discriminate); try (apply HGU; exact I).
    + eapply lock_acquire; eauto; exact I.
    + eapply lock_keep; eauto; easy.
    + eapply lock_keep; eauto; easy.
  - (* MFetching *)
    destruct (next_step it L2 HI) as (it' & En & Hn). rewrite En in E. destruct L2 as [|w L2]; cbn [hd_error tl] in *.
    + injection E as <-. destruct (SAME MFinished) as (Y1 & Y2 & Y3); [reflexivity..|].
      minst (length (@nil str)). split; [specialize (HW8 MFinished); cbn [mwt] in HW8; lia|].
      apply (MInv_intro L1 []); simp; try eassumption; try (apply KN'); try (intros; reflexivity); try (apply HGU; exact I).
      * eapply lock_release; eauto; easy.
      * eapply lock_keep; eauto; easy.
      * eapply lock_keep; eauto; easy.
    + injection E as <-.
      assert (Hw : In w L) by (rewrite EL; apply in_or_app; right; now left).
      minst (length L2). split.
      { specialize (HW8 (MStart w)). cbn [mwt length] in *. destruct (HL w Hw). unfold wordw. lia. }
      apply (MInv_intro (L1 ++ [w]) L2); simp; try eassumption; try (apply KN'); try (apply HGU; exact I).
      * now rewrite <- app_assoc.
      * intros k l Hl. specialize (HC k l Hl). specialize (HM (fwin (Nat.min k 2) l) (MStart w)).
        rewrite filter_app, map_app, list_sum_app. cbn [filter]. unfold fwin at 2 4 in HM. cbn [cur] in HM.
        change (wins (Mst it' Free w1 w2 w3 bs num numl tot totl (upd ths i (MStart w))) k) with
               (wins (Mst it itl w1 w2 w3 bs num numl tot totl ths) k).
        destruct (isl l w); cbn [map list_sum fold_right] in *; lia.
      * intros l Hl. specialize (HN l Hl). specialize (HM (fnum l) (MStart w)).
        rewrite filter_app, app_length. cbn [filter]. unfold fnum at 2 4 in HM. cbn [cur] in HM.
        destruct (isl l w); cbn [length] in *; lia.
      * specialize (HM ftot (MStart w)). rewrite app_length. cbn [ftot cur length] in *. lia.
      * apply HGU. exact Hw.
      * eapply lock_release; eauto; easy.
      * eapply lock_keep; eauto; easy.
      * eapply lock_keep; eauto; easy.
      * intros HFi. specialize (KF' (MStart w) ltac:(discriminate) HFi). discriminate.
  - (* MStart *)
    simpl in Hgt. rewrite (m_start_ok text Hgt) in E. injection E as <-.
    destruct (SAME (MConj text (bwr text) (cit_new text))) as (Y1 & Y2 & Y3); [reflexivity..|].
    minst (length L2). split; [specialize (HW8 (MConj text (bwr text) (cit_new text))); cbn [mwt cit_new cit_pos] in HW8; lia|].
    apply (MInv_intro L1 L2); simp; try eassumption; try (apply KN'); try (apply KF'; discriminate).
    + apply HGU. split; [exact Hgt|]. split; [reflexivity|]. split; [reflexivity|simpl; lia].
    + eapply lock_keep; eauto; easy.
    + eapply lock_keep; eauto; easy.
    + eapply lock_keep; eauto; easy.
  - (* MConj *)
    destruct Hgt as (Hw & -> & Ec & Hp). destruct it0 as (ct, p). cbn [cit_text cit_pos] in Ec, Hp. subst ct.
    destruct (HL text Hw) as (Hne & Hlen). assert (1 <= length text) by (destruct text; [congruence|simpl; lia]).
    destruct (Nat.eq_dec p (length text)) as [->|Np].
    + pose proof (m_conj_end text (w1, w2, w3)) as E1. cbv beta iota in E1. rewrite E1 in E. injection E as <-.
      destruct (SAME (MWantNum (length text - 1))) as (Y1 & Y2 & Y3).
      { intros k l. unfold fwin. cbn [cur cit_pos]. rewrite cnt_end. now destruct (isl l text). }
      { reflexivity. } { reflexivity. }
      minst (length L2). split; [specialize (HW8 (MWantNum (length text - 1))); cbn [mwt cit_pos] in HW8; lia|].
      apply (MInv_intro L1 L2); simp; try eassumption; try (apply KN'); try (apply KF'; discriminate).
      * apply HGU. simpl. lia.
      * eapply lock_keep; eauto; easy.
      * eapply lock_keep; eauto; easy.
      * eapply lock_keep; eauto; easy.
    + assert (HW' : forall k, length (sel k (w1, w2, w3)) = max) by (intros k; exact (HW k)).
      destruct (m_conj_ok text p (w1, w2, w3) Hw ltac:(lia) HW') as (ws' & E1 & W1 & W2). cbv beta iota in E1. rewrite E1 in E.
      destruct ws' as ((v1, v2), v3). injection E as <-.
      set (x := if bbr (rot p text) <? bwr text then _ else _).
      assert (Cx : cur x = Some (text, p + 1)) by (unfold x; destruct (bbr (rot p text) <? bwr text); reflexivity).
      assert (Wx : mwt x < mwt (MConj text (bwr text) (CIT text p))).
      { unfold x. destruct (bbr (rot p text) <? bwr text); cbn [mwt cit_pos]; lia. }
      assert (Nx : x <> MFinished) by (intros C; rewrite C in Cx; discriminate).
      minst (length L2). split; [specialize (HW8 x); lia|].
      apply (MInv_intro L1 L2); simp; try eassumption; try (apply KN'); try (apply (KF' x Nx)).
      * intros k l Hl. specialize (HC k l Hl). specialize (HM (fwin (Nat.min k 2) l) x). specialize (W2 k l Hl).
        change (wins (Mst it itl v1 v2 v3 bs num numl tot totl (upd ths i x)) k) with (sel k (v1, v2, v3)).
        change (wins (Mst it itl w1 w2 w3 bs num numl tot totl ths) k) with (sel k (w1, w2, w3)) in HC.
        rewrite W2. unfold fwin at 2 4 in HM. rewrite Cx in HM. cbn [cur cit_pos] in HM. unfold isl in HM at 1 2.
        rewrite (cnt_step _ text p) in HM by lia.
        destruct (length text - 1 =? l); cbn [andb]; [|lia]. destruct (cls text p =? Nat.min k 2); lia.
      * intros l Hl. specialize (HN l Hl). specialize (HM (fnum l) x). unfold fnum at 2 4 in HM. rewrite Cx in HM. cbn [cur] in HM. lia.
      * specialize (HM ftot x). unfold ftot at 2 4 in HM. rewrite Cx in HM. cbn [cur] in HM. lia.
      * apply HGU. unfold x. destruct (Nat.ltb_spec (bbr (rot p text)) (bwr text)) as [C|C].
        -- split; [|split; [exact C|split; [reflexivity|exists p; split; [lia|reflexivity]]]].
           split; [exact Hw|]. split; [reflexivity|]. split; [reflexivity|cbn [cit_pos]; lia].
        -- split; [exact Hw|]. split; [reflexivity|]. split; [reflexivity|cbn [cit_pos]; lia].
      * eapply lock_keep; eauto; try easy; unfold x; destruct (bbr (rot p text) <? bwr text); easy.
      * eapply lock_keep; eauto; try easy; unfold x; destruct (bbr (rot p text) <? bwr text); easy.
      * eapply lock_keep; eauto; try easy; unfold x; destruct (bbr (rot p text) <? bwr text); easy.
  - (* MCheck *)
    destruct (m_check_ok _ _ _ _ _ _ Hgt HB HBo) as (nc & Enc). rewrite Enc in E. injection E as <-.
    set (x := if nc then _ else _).
    assert (Cx : cur x = Some (text, cit_pos it0)) by (unfold x; destruct nc; reflexivity).
    assert (Wx : mwt x < mwt (MCheck text bwt_runs it0 cj bbwt_runs)) by (unfold x; destruct nc; cbn [mwt]; lia).
    assert (Nx : x <> MFinished) by (intros C; rewrite C in Cx; discriminate).
    destruct (SAME x) as (Y1 & Y2 & Y3).
    { intros k l. unfold fwin. rewrite Cx. reflexivity. } { intros l. unfold fnum. rewrite Cx. reflexivity. } { unfold ftot. rewrite Cx. reflexivity. }
    minst (length L2). split; [specialize (HW8 x); lia|].
    apply (MInv_intro L1 L2); simp; try eassumption; try (apply KN'); try (apply (KF' x Nx)).
    + apply HGU. unfold x. destruct nc; [exact Hgt|exact (proj1 Hgt)].
    + eapply lock_keep; eauto; try easy; unfold x; destruct nc; easy.
    + eapply lock_keep; eauto; try easy; unfold x; destruct nc; easy.
    + eapply lock_keep; eauto; try easy; unfold x; destruct nc; easy.
  - (* MWrite *)
    destruct (m_write_ok _ _ _ _ _ _ Hgt HB HBo) as (bs' & Eb & Lb & Hb). rewrite Eb in E. injection E as <-.
    destruct (SAME (MConj text bwt_runs it0)) as (Y1 & Y2 & Y3); [reflexivity..|].
    minst (length L2). split; [specialize (HW8 (MConj text bwt_runs it0)); cbn [mwt] in HW8; lia|].
    apply (MInv_intro L1 L2); simp; try eassumption; try (apply KN'); try (apply KF'; discriminate).
    + apply HGU. exact (proj1 Hgt).
    + eapply lock_keep; eauto; easy.
    + eapply lock_keep; eauto; easy.
    + eapply lock_keep; eauto; easy.
  - (* MWantNum *)
    destruct numl; try discriminate; [|destruct K2]. injection E as <-.
    destruct (SAME (MNum lindex)) as (Y1 & Y2 & Y3); [reflexivity..|].
    minst (length L2). split; [specialize (HW8 (MNum lindex)); cbn [mwt] in HW8; lia|].
    apply (MInv_intro L1 L2); simp; try eassumption; try (apply KN'); try (apply KF'; discriminate); try (apply HGU; exact Hgt).
    + eapply lock_keep; eauto; easy.
    + eapply lock_acquire; eauto; exact I.
    + eapply lock_keep; eauto; easy.
  - (* MNum *)
    simpl in Hgt. destruct (incr_ok num lindex HNl Hgt) as (num' & En & Ln & Hn). rewrite En in E. injection E as <-.
    minst (length L2). split; [specialize (HW8 MWantTotal); cbn [mwt] in HW8; lia|].
    apply (MInv_intro L1 L2); simp; try eassumption; try (apply KN'); try (apply KF'; discriminate); try (apply HGU; exact I).
    + intros k l Hl. specialize (HC k l Hl). specialize (HM (fwin (Nat.min k 2) l) MWantTotal).
      change (wins (Mst it itl w1 w2 w3 bs num' numl tot totl (upd ths i MWantTotal)) k) with
             (wins (Mst it itl w1 w2 w3 bs num numl tot totl ths) k). unfold fwin at 2 4 in HM. cbn [cur] in HM. lia.
    + intros l Hl. specialize (HN l Hl). specialize (HM (fnum l) MWantTotal). unfold fnum at 2 4 in HM. cbn [cur] in HM. rewrite Hn by exact Hl. lia.
    + specialize (HM ftot MWantTotal). unfold ftot at 2 4 in HM. cbn [cur] in HM. lia.
    + eapply lock_keep; eauto; easy.
    + eapply lock_stay; eauto; exact I.
    + eapply lock_keep; eauto; easy.
  - (* MWantTotal *)
    destruct totl; try discriminate; [|destruct K3]. injection E as <-.
    destruct (SAME MTotal) as (Y1 & Y2 & Y3); [reflexivity..|].
    minst (length L2). split; [specialize (HW8 MTotal); cbn [mwt] in HW8; lia|].
    apply (MInv_intro L1 L2); simp; try eassumption; try (apply KN'); try (apply KF'; discriminate); try (apply HGU; exact I).
    + eapply lock_keep; eauto; easy.
    + eapply lock_stay; eauto; exact I.
    + eapply lock_acquire; eauto; exact I.
  - (* MTotal *)
    injection E as <-.
    minst (length L2). split; [specialize (HW8 MWantTotal2); cbn [mwt] in HW8; lia|].
    apply (MInv_intro L1 L2); simp; try eassumption; try (apply KN'); try (apply KF'; discriminate); try (apply HGU; exact I).
    + intros k l Hl. specialize (HC k l Hl). specialize (HM (fwin (Nat.min k 2) l) MWantTotal2). unfold fwin at 2 4 in HM. cbn [cur] in HM.
      change (wins (Mst it itl w1 w2 w3 bs num Free (tot + 1) Free (upd ths i MWantTotal2)) k) with
             (wins (Mst it itl w1 w2 w3 bs num numl tot totl ths) k). lia.
    + intros l Hl. specialize (HN l Hl). specialize (HM (fnum l) MWantTotal2). unfold fnum at 2 4 in HM. cbn [cur] in HM. lia.
    + specialize (HM ftot MWantTotal2). unfold ftot at 2 4 in HM. cbn [cur] in HM. lia.
    + eapply lock_keep; eauto; easy.
    + eapply lock_release; eauto; easy.
    + eapply lock_release; eauto; easy.
  - (* MWantTotal2 *)
    destruct totl; try discriminate; [|destruct K3]. injection E as <-.
    destruct (SAME MTotal2) as (Y1 & Y2 & Y3); [reflexivity..|].
    minst (length L2). split; [specialize (HW8 MTotal2); cbn [mwt] in HW8; lia|].
    apply (MInv_intro L1 L2); simp; try eassumption; try (apply KN'); try (apply KF'; discriminate); try (apply HGU; exact I).
    + eapply lock_keep; eauto; easy.
    + eapply lock_keep; eauto; easy.
    + eapply lock_acquire; eauto; exact I.
  - (* MTotal2 *)
    destruct (tot mod q =? 0); injection E as <-.
    + destruct (SAME MPrintWantNum) as (Y1 & Y2 & Y3); [reflexivity..|].
      minst (length L2). split; [specialize (HW8 MPrintWantNum); cbn [mwt] in HW8; lia|].
      apply (MInv_intro L1 L2); simp; try eassumption; try (apply KN'); try (apply KF'; discriminate); try (apply HGU; exact I).
      * eapply lock_keep; eauto; easy.
      * eapply lock_keep; eauto; easy.
      * eapply lock_stay; eauto; exact I.
    + destruct (SAME MFetch) as (Y1 & Y2 & Y3); [reflexivity..|].
      minst (length L2). split; [specialize (HW8 MFetch); cbn [mwt] in HW8; lia|].
      apply (MInv_intro L1 L2); simp; try eassumption; try (apply KN'); try (apply KF'; discriminate); try (apply HGU; exact I).
      * eapply lock_keep; eauto; easy.
      * eapply lock_keep; eauto; easy.
      * eapply lock_release; eauto; easy.
  - (* MPrintWantNum *)
    destruct numl; try discriminate; [|destruct K2]. injection E as <-.
    destruct (SAME MPrint) as (Y1 & Y2 & Y3); [reflexivity..|].
    minst (length L2). split; [specialize (HW8 MPrint); cbn [mwt] in HW8; lia|].
    apply (MInv_intro L1 L2); simp; try eassumption; try (apply KN'); try (apply KF'; discriminate); try (apply HGU; exact I).
    + eapply lock_keep; eauto; easy.
    + eapply lock_acquire; eauto; exact I.
    + eapply lock_stay; eauto; exact I.
  - (* MPrint *)
    injection E as <-. destruct (SAME MFetch) as (Y1 & Y2 & Y3); [reflexivity..|].
    minst (length L2). split; [specialize (HW8 MFetch); cbn [mwt] in HW8; lia|].
    apply (MInv_intro L1 L2); simp; try eassumption; try (apply KN'); try (apply KF'; discriminate); try (apply HGU; exact I).
    + eapply lock_keep; eauto; easy.
    + eapply lock_release; eauto; easy.
    + eapply lock_release; eauto; easy.
Qed.

Lemma minv_run sched : forall m s s', MInv m s -> m_run max q sched s = Some s' -> exists m', m' + length sched <= m /\ MInv m' s'.
Proof.
  induction sched as [|i sched IH]; intros m s s' H E; cbn [m_run] in E.
  - injection E as <-. exists m. split; [simpl; lia|exact H].
  - destruct (m_step max q i s) as [s1|] eqn:E1; [|discriminate]. destruct (minv_step m s i s1 H E1) as (m1 & Hm & H1).
    destruct (IH m1 s1 s' H1 E) as (m' & Hm' & H'). exists m'. split; [simpl; lia|exact H'].
Qed.
Lemma minv_init threads : (forall k, calls lwg_next k (lwg_new max 2) = Ok (yields L k)) -> 0 < threads ->
  MInv (wordw * length L + 2 * threads) (m_init max threads).
Proof.
  intros HC Ht. assert (HR : forall i t, nth_error (repeat MFetch threads) i = Some t -> t = MFetch).
  { intros i t H. apply nth_error_In in H. exact (repeat_spec _ _ _ H). }
  assert (HN : forall h : mpc -> Prop, ~ h MFetch -> lock_ok Free h (repeat MFetch threads)).
  { intros h Hh i t H. now rewrite (HR i t H). }
  assert (HS : forall g, msum g (repeat MFetch threads) = threads * g MFetch).
  { intros g. unfold msum. rewrite (list_sum_const _ (g MFetch)) by (intros x Hx; now rewrite (repeat_spec _ _ _ Hx)). now rewrite repeat_length. }
  assert (EM : wordw * length L + 2 * threads = wordw * length L + msum mwt (m_threads (m_init max threads))).
  { unfold m_init. cbn [m_threads]. rewrite HS. cbn [mwt]. lia. }
  rewrite EM. apply (MInv_intro [] L); unfold m_init; simp.
  - reflexivity.
  - exact HC.
  - intros [|[|k]]; apply repeat_length.
  - apply repeat_length.
  - apply repeat_length.
  - intros k l Hl. rewrite HS. cbn [fwin cur]. assert (nth l (wins (m_init max threads) k) 0 = 0).
    { destruct k as [|[|k]]; apply nth_repeat. } unfold m_init in H. rewrite H. simpl. unfold fwin. simpl. lia.
  - intros l Hl. rewrite HS, nth_repeat. unfold fnum. simpl. lia.
  - rewrite HS. unfold ftot. simpl. lia.
  - apply Forall_forall. intros x Hx. now rewrite (repeat_spec _ _ _ Hx).
  - apply HN. easy.
  - apply HN. easy.
  - apply HN. easy.
  - intros l Hl. left. apply nth_repeat.
  - intros H. apply (repeat_spec _ _ _) in H. discriminate.
  - rewrite repeat_length. exact Ht.
Qed.

(** ** deadlock *)
Definition deadlocked (s : mst) : Prop := exists i j,
  nth_error (m_threads s) i = Some MPrintWantNum /\ nth_error (m_threads s) j = Some MWantTotal.
Lemma stuck_step m s i j k s' : MInv m s -> nth_error (m_threads s) i = Some MPrintWantNum -> nth_error (m_threads s) j = Some MWantTotal ->
  m_step max q k s = Some s' -> nth_error (m_threads s') i = Some MPrintWantNum /\ nth_error (m_threads s') j = Some MWantTotal.
Proof.
  intros (L1 & L2 & EL & HI & HW & HB & HNl & HC & HN & HT & HG & K1 & K2 & K3 & HBo & KF & KN & ->) Hi Hj E.
  destruct s as [it itl w1 w2 w3 bs num numl tot totl ths]. simp.
  assert (N1 : numl = Held j).
  { destruct numl as [|j'|]; simpl in K2; [exfalso; exact (K2 j _ Hj I)|f_equal; symmetry; apply (proj2 K2 j _ Hj I)|easy]. }
  assert (N2 : totl = Held i).
  { destruct totl as [|j'|]; simpl in K3; [exfalso; exact (K3 i _ Hi I)|f_equal; symmetry; apply (proj2 K3 i _ Hi I)|easy]. }
  subst numl totl.
  destruct (Nat.eq_dec k i) as [->|Nki]; [unfold m_step in E; rewrite Hi in E; discriminate|].
  destruct (Nat.eq_dec k j) as [->|Nkj]; [unfold m_step in E; rewrite Hj in E; discriminate|].
  assert (G : exists x, m_threads s' = upd ths k x).
  { unfold m_step in E. destruct (nth_error ths k) as [t|]; [|discriminate].
    destruct t; repeat match goal with
      | H : match ?x with _ => _ end = Some _ |- _ => destruct x
      | H : Some _ = Some _ |- _ => injection H as <-
      | H : None = Some _ |- _ => discriminate H
      end; eexists; reflexivity. }
  destruct G as (x & ->). rewrite !nth_error_upd_ne by auto. auto.
Qed.
Lemma stuck_run sched : forall m s i j s', MInv m s -> nth_error (m_threads s) i = Some MPrintWantNum -> nth_error (m_threads s) j = Some MWantTotal ->
  m_run max q sched s = Some s' -> nth_error (m_threads s') i = Some MPrintWantNum /\ nth_error (m_threads s') j = Some MWantTotal.
Proof.
  induction sched as [|k sched IH]; intros m s i j s' H Hi Hj E; cbn [m_run] in E; [injection E as <-; auto|].
  destruct (m_step max q k s) as [s1|] eqn:E1; [|discriminate]. destruct (minv_step m s k s1 H E1) as (m1 & _ & H1).
  destruct (stuck_step m s i j k s1 H Hi Hj E1) as (Hi1 & Hj1). eauto.
Qed.

Lemma m_progress m s i t : MInv m s -> nth_error (m_threads s) i = Some t -> t <> MFinished ->
  (exists j s', m_step max q j s = Some s') \/ deadlocked s.
Proof.
  intros (L1 & L2 & EL & HI & HW & HB & HNl & HC & HN & HT & HG & K1 & K2 & K3 & HBo & KF & KN & ->) Et Ht.
  destruct s as [it itl w1 w2 w3 bs num numl tot totl ths]. simp.
  assert (Hgt : mgood t) by (apply (proj1 (Forall_forall _ _) HG); eapply nth_error_In; eauto).
  set (s := Mst it itl w1 w2 w3 bs num numl tot totl ths).
  assert (A0 : forall j u, nth_error ths j = Some u ->
    match u with MFetch | MWantNum _ | MWantTotal | MWantTotal2 | MPrintWantNum | MFinished | MPanicked => True | _ => exists s', m_step max q j s = Some s' end).
  { intros j u Ej. destruct u; try exact I; unfold m_step, s; rewrite Ej; eauto.
    - destruct (lwg_next it) as [([w|], it')| |]; eauto.
    - destruct (m_start max text); eauto.
    - destruct (m_conj text bwt_runs it0 w1 w2 w3) as [([((cj, b), ((v1, v2), v3))|], c')| |]; eauto.
    - destruct (m_check text bwt_runs cj bbwt_runs bs); eauto.
    - destruct (m_write text bwt_runs cj bbwt_runs bs); eauto.
    - destruct (incr num lindex); eauto.
    - destruct (tot mod q =? 0); eauto. }
  assert (A1 : forall j, nth_error ths j = Some MWantTotal -> (exists j s', m_step max q j s = Some s') \/ deadlocked s).
  { intros j Ej. destruct totl as [|k|] eqn:Etl; [| |destruct K3].
    - left. exists j. unfold m_step, s. rewrite Ej. rewrite ?Etl. eauto.
    - destruct K3 as ((u & Eu & Hu) & _). destruct u; try easy; try (left; exists k; exact (A0 k _ Eu)).
      right. exists k, j. auto. }
  assert (A2 : forall j, nth_error ths j = Some MPrintWantNum -> (exists j s', m_step max q j s = Some s') \/ deadlocked s).
  { intros j Ej. destruct numl as [|k|] eqn:Etl; [| |destruct K2].
    - left. exists j. unfold m_step, s. rewrite Ej. eauto.
    - destruct K2 as ((u & Eu & Hu) & _). destruct u; try easy; try (left; exists k; exact (A0 k _ Eu)).
      right. exists j, k. auto. }
  pose proof (A0 i t Et) as A3. destruct t; try (left; exists i; exact A3); try congruence; try easy.
  - destruct itl as [|k|] eqn:Etl; [| |destruct K1].
    + left. exists i. unfold m_step, s. rewrite Et. eauto.
    + destruct K1 as ((u & Eu & Hu) & _). destruct u; try easy. left. exists k. exact (A0 k _ Eu).
  - destruct numl as [|k|] eqn:Etl; [| |destruct K2].
    + left. exists i. unfold m_step, s. rewrite Et. eauto.
    + destruct K2 as ((u & Eu & Hu) & _). destruct u; try easy; try (left; exists k; exact (A0 k _ Eu)). eauto.
  - eauto.
  - destruct totl as [|k|] eqn:Etl; [| |destruct K3].
    + left. exists i. unfold m_step, s. rewrite Et. eauto.
    + destruct K3 as ((u & Eu & Hu) & _). destruct u; try easy; try (left; exists k; exact (A0 k _ Eu)). eauto.
  - eauto.
Qed.
End M.
