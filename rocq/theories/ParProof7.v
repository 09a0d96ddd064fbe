(** ParProof7.v : the i32 counters of max_lyndon_word (unfinished/parallel.rs): overflow, poisoning, termination. *)
From Verif Require Import Base SpecStr SpecBwt SpecIo SpecPar LexFacts RunFacts ModelIo ModelCore ModelMain ModelPar ModelPar2.
From Verif Require Import DuvalProof LyndonProof BwtFacts BwtProof BbwtProof IterProof LwgProof ParProof LockFacts ParProof2 ParProof3 ParProof4.
From Coq Require Import NArith Lia.

Ltac simp := cbn [m_iter m_iter_lock m_bwt_win m_bbwt_win m_tie_win m_best m_num m_num_lock m_total m_total_lock m_threads] in *.
(** a counter stands at the greatest i32 *)
Definition full (s : mst) : Prop := exists x, In x (counters s) /\ N.of_nat x = i32_max.
Lemma i32s_iff s : i32s s = true <-> forall x, In x (counters s) -> (N.of_nat x <= i32_max)%N.
Proof.
  unfold i32s. rewrite forallb_forall. split; intros H x Hx; [apply N.leb_le|apply N.leb_le]; auto.
Qed.
(** the counters grow by at most one at each index *)
Definition grow (v v' : list nat) : Prop := Forall2 (fun x y => x <= y <= S x) v v'.
Lemma grow_refl v : grow v v.
Proof. induction v; constructor; auto. Qed.
Lemma grow_upd v l x : nth_error v l = Some x -> grow v (upd v l (x + 1)).
Proof.
  revert l. induction v as [|y v IH]; intros [|l] H; simpl in *; try discriminate.
  - injection H as ->. constructor; [lia|apply grow_refl].
  - constructor; [lia|]. now apply IH.
Qed.
Lemma incr_grow v l v' : incr v l = Ok v' -> grow v v'.
Proof.
  unfold incr. unfold get. destruct (nth_error v l) as [x|] eqn:E; [|discriminate]. cbn [bind]. unfold set.
  destruct (l <? length v); [|discriminate]. intros H. injection H as <-. now apply grow_upd.
Qed.
Lemma m_conj_grow text r it w1 w2 w3 cj b v1 v2 v3 it' :
  m_conj text r it w1 w2 w3 = Ok (Some (cj, b, (v1, v2, v3)), it') -> grow w1 v1 /\ grow w2 v2 /\ grow w3 v3.
Proof.
  unfold m_conj. destruct (cit_next it) as [([c|], it2)| |]; cbn [bind]; try discriminate.
  destruct (bbwt_naive c) as [bb| |]; cbn [bind]; try discriminate.
  destruct (runs_of_slice bb) as [n| |]; cbn [bind]; try discriminate.
  destruct (sub_ (length text) 1) as [l| |]; cbn [bind]; try discriminate.
  destruct (r <? n); [|destruct (n <? r)].
  - destruct (incr w1 l) as [v| |] eqn:E; cbn [bind]; try discriminate. intros H. injection H as <- <- <- <- <- <-.
    split; [eapply incr_grow; eauto|]. split; apply grow_refl.
  - destruct (incr w2 l) as [v| |] eqn:E; cbn [bind]; try discriminate. intros H. injection H as <- <- <- <- <- <-.
    split; [apply grow_refl|]. split; [eapply incr_grow; eauto|apply grow_refl].
  - destruct (incr w3 l) as [v| |] eqn:E; cbn [bind]; try discriminate. intros H. injection H as <- <- <- <- <- <-.
    split; [apply grow_refl|]. split; [apply grow_refl|eapply incr_grow; eauto].
Qed.
Ltac inv := repeat match goal with
      | H : match ?x with _ => _ end = Some _ |- _ => destruct x eqn:?
      | H : Some _ = Some _ |- _ => injection H as <-
      | H : None = Some _ |- _ => discriminate H
      end.
Lemma m_step_grow max q i s s' : m_step max q i s = Some s' -> grow (counters s) (counters s').
Proof.
  intros E. destruct s as [it itl w1 w2 w3 bs num numl tot totl ths]. unfold m_step in E.
  destruct (nth_error ths i) as [t|]; [|discriminate].
  unfold counters. destruct t; inv; simp; try apply grow_refl.
  - match goal with H : m_conj _ _ _ _ _ _ = _ |- _ => apply m_conj_grow in H; destruct H as (G1 & G2 & G3) end.
    repeat apply Forall2_app; auto. apply grow_refl.
  - match goal with H : incr _ _ = _ |- _ => apply incr_grow in H end. repeat apply Forall2_app; auto; apply grow_refl.
Qed.
Lemma grow_full v v' : grow v v' -> (forall x, In x v' -> (N.of_nat x <= i32_max)%N) ->
  (exists x, In x v /\ N.of_nat x = i32_max) -> exists x, In x v' /\ N.of_nat x = i32_max.
Proof.
  induction 1 as [|x y v v' Hxy HG IH]; intros HB (z & Hz & Ez); [destruct Hz|]. destruct Hz as [->|Hz].
  - exists y. split; [now left|]. specialize (HB y (or_introl eq_refl)). lia.
  - destruct IH as (u & Hu & Eu); [intros a Ha; apply HB; now right|eauto|]. exists u. split; [now right|exact Eu].
Qed.
Lemma grow_over v v' : grow v v' -> (forall x, In x v -> (N.of_nat x <= i32_max)%N) ->
  forall y, In y v' -> ~ (N.of_nat y <= i32_max)%N -> exists x, In x v /\ N.of_nat x = i32_max.
Proof.
  induction 1 as [|x y v v' Hxy HG IH]; intros HB z Hz Hb; [destruct Hz|]. destruct Hz as [->|Hz].
  - exists x. split; [now left|]. specialize (HB x (or_introl eq_refl)). lia.
  - destruct (IH (fun a Ha => HB a (or_intror Ha)) z Hz Hb) as (u & Hu & Eu). exists u. split; [now right|exact Eu].
Qed.
Lemma i32s_false s : i32s s = false -> exists x, In x (counters s) /\ ~ (N.of_nat x <= i32_max)%N.
Proof.
  unfold i32s. induction (counters s) as [|x v IH]; [discriminate|]. cbn [forallb]. destruct (N.leb_spec (N.of_nat x) i32_max).
  - intros H1. destruct (IH H1) as (y & Hy & Ey). exists y. split; [now right|exact Ey].
  - intros _. exists x. split; [now left|lia].
Qed.
(** a step of the program is a step with unbounded counters, or a panic: because of an overflow or of poisoned locks *)
Lemma counters_same max q i s s' : m_step max q i s = Some s' ->
  (match nth_error (m_threads s) i with Some (MConj _ _ _) | Some (MNum _) => True | _ => counters s' = counters s end).
Proof.
  intros E. destruct s as [it itl w1 w2 w3 bs num numl tot totl ths]. unfold m_step in E. simp.
  destruct (nth_error ths i) as [t|]; [|discriminate]. destruct t; inv; exact I || reflexivity.
Qed.
Lemma counters_conj max q i s s' : m_step max q i s = Some s' ->
  (exists a b c, nth_error (m_threads s) i = Some (MConj a b c)) ->
  (match nth_error (m_threads s') i with Some (MConj _ _ _) | Some (MCheck _ _ _ _ _) => True | _ => counters s' = counters s end).
Proof.
  intros E (a & b & c & Et). destruct s as [it itl w1 w2 w3 bs num numl tot totl ths]. unfold m_step in E. simp.
  rewrite Et in E. inv; simp; rewrite (nth_error_upd_eq _ _ _ _ Et); try reflexivity.
  destruct (_ <? _); exact I.
Qed.
Definition panics (i : nat) (s s' : mst) : Prop := counters s' = counters s /\
  (s' = panic_none i s \/ s' = panic_num i s \/ s' = panic_both i s).
Lemma p_cases max q i s poison p' : p_step max q i (Pst s poison) = Some p' -> i32s s = true ->
  exists s', m_step max q i s = Some s' /\
   ((p' = Pst s' poison /\ i32s s' = true) \/
    (panics i s (p_st p') /\ (poison = true \/ i32s s' = false))).
Proof.
  intros E Hok. unfold p_step in E. destruct (m_step max q i s) as [s'|] eqn:Es; [|discriminate]. exists s'. split; [reflexivity|].
  pose proof (counters_same _ _ _ _ _ Es) as HS. pose proof (counters_conj _ _ _ _ _ Es) as HC.
  assert (SAME : counters s' = counters s -> i32s s' = true) by (intros X; unfold i32s; rewrite X; exact Hok).
  assert (P1 : panics i s (panic_none i s)) by (split; [destruct s; reflexivity|auto]).
  assert (P2 : panics i s (panic_num i s)) by (split; [destruct s; reflexivity|auto]).
  assert (P3 : panics i s (panic_both i s)) by (split; [destruct s; reflexivity|auto]).
  destruct (nth_error (m_threads s) i) as [t|] eqn:Et; [|injection E as <-; left; auto].
  destruct t; try (injection E as <-; left; split; [reflexivity|apply SAME; exact HS]).
  - specialize (HC ltac:(eauto)). destruct (nth_error (m_threads s') i) as [u|] eqn:Eu; [|injection E as <-; left; auto].
    destruct u; try (injection E as <-; left; split; [reflexivity|apply SAME; exact HC]).
    + destruct poison; [injection E as <-; right; auto|]. destruct (i32s s') eqn:E32; injection E as <-; [left|right]; auto.
    + destruct poison; [injection E as <-; right; auto|]. destruct (i32s s') eqn:E32; injection E as <-; [left|right]; auto.
  - destruct (i32s s') eqn:E32; injection E as <-; [left|right]; auto.
  - destruct poison; injection E as <-; [right|left]; auto.
Qed.
Lemma p_some max q i s poison : m_step max q i s <> None -> p_step max q i (Pst s poison) <> None.
Proof.
  intros H. unfold p_step. destruct (m_step max q i s) as [s'|]; [|congruence].
  repeat match goal with |- match ?x with _ => _ end <> None => destruct x end; discriminate.
Qed.
Lemma p_none max q i s poison : m_step max q i s = None -> p_step max q i (Pst s poison) = None.
Proof. intros H. unfold p_step. now rewrite H. Qed.

Lemma panics_in i s s' t : nth_error (m_threads s) i = Some t -> panics i s s' ->
  m_threads s' = upd (m_threads s) i MPanicked /\ nth_error (m_threads s') i = Some MPanicked /\
  m_iter s' = m_iter s /\ m_iter_lock s' = m_iter_lock s /\
  (m_num_lock s' = m_num_lock s \/ m_num_lock s' = Poisoned) /\ (m_total_lock s' = m_total_lock s \/ m_total_lock s' = Poisoned).
Proof.
  intros Et (_ & [->|[->| ->]]); destruct s; simp; (split; [reflexivity|]; split; [eapply nth_error_upd_eq; eauto|]; auto).
Qed.
Lemma m_step_thread max q i s s' : m_step max q i s = Some s' -> exists t, nth_error (m_threads s) i = Some t /\ t <> MPanicked /\ t <> MFinished.
Proof.
  intros E. destruct s as [it itl w1 w2 w3 bs num numl tot totl ths]. unfold m_step in E. simp.
  destruct (nth_error ths i) as [t|]; [|discriminate]. exists t. split; [reflexivity|]. split; intros ->; discriminate.
Qed.

Section O.
Context (max q : nat) (L : list str).
Hypothesis HL : forall w, In w L -> w <> [] /\ length w <= max.
Definition PInv (p : pst) : Prop := i32s (p_st p) = true /\
  ((p_poison p = false /\ exists m, MInv max L m (p_st p)) \/ full (p_st p)).
Lemma pinv_step p i p' : PInv p -> p_step max q i p = Some p' -> PInv p'.
Proof.
  intros (Hok & H) E. destruct p as (s, poison). cbn [p_st p_poison] in *.
  destruct (p_cases max q i s poison p' E Hok) as (s' & Es & [(-> & Hok')|((HC & _) & HP)]).
  - split; [exact Hok'|]. cbn [p_st p_poison]. destruct H as [(-> & m & HM)|HF].
    + left. split; [reflexivity|]. destruct (minv_step max q L HL m s i s' HM Es) as (m' & _ & HM'). eauto.
    + right. eapply grow_full; [eapply m_step_grow; eauto|now apply i32s_iff|exact HF].
  - split; [unfold i32s; rewrite HC; exact Hok|]. right. unfold full. rewrite HC. destruct H as [(-> & m & HM)|HF]; [|exact HF].
    destruct HP as [HP|HP]; [discriminate|]. destruct (i32s_false s' HP) as (x & Hx & Nx).
    eapply grow_over; [eapply m_step_grow; eauto|now apply i32s_iff|exact Hx|exact Nx].
Qed.
Lemma pinv_run sched : forall p p', PInv p -> p_run max q sched p = Some p' -> PInv p'.
Proof.
  induction sched as [|i sched IH]; intros p p' HP E; cbn [p_run] in E; [now injection E as <-|].
  destruct (p_step max q i p) as [p1|] eqn:E1; [|discriminate]. eapply IH; [|exact E]. eapply pinv_step; eauto.
Qed.
Lemma m_init_counters threads x : In x (counters (m_init max threads)) -> x = 0.
Proof. unfold counters, m_init. simp. rewrite !in_app_iff. intros [H|[H|[H|H]]]; exact (repeat_spec _ _ _ H). Qed.
Lemma i32s_init threads : i32s (m_init max threads) = true.
Proof. apply i32s_iff. intros x Hx. rewrite (m_init_counters threads x Hx). unfold i32_max. lia. Qed.
(** without a panic the program runs as with unbounded counters *)
Lemma p_panicked_stays sched : forall p p', In MPanicked (m_threads (p_st p)) -> i32s (p_st p) = true -> p_run max q sched p = Some p' -> In MPanicked (m_threads (p_st p')).
Proof.
  induction sched as [|i sched IH]; intros p p' HP Hok E; cbn [p_run] in E; [now injection E as <-|].
  destruct (p_step max q i p) as [p1|] eqn:E1; [|discriminate]. destruct p as (s, poison). cbn [p_st] in *.
  destruct (p_cases max q i s poison p1 E1 Hok) as (s' & Es & [(-> & Hok')|(HPan & HP')]).
  - apply (IH _ _) with (3 := E); [|exact Hok']. cbn [p_st]. destruct (step_upd max q i s s' Es) as (x & ->).
    destruct (m_step_thread _ _ _ _ _ Es) as (t & Et & Nt & _). destruct (In_nth_error _ _ HP) as (k & Ek).
    apply (nth_error_In _ k). rewrite nth_error_upd_ne; [exact Ek|]. intros ->. congruence.
  - destruct (m_step_thread _ _ _ _ _ Es) as (t & Et & Nt & _). destruct (panics_in i s (p_st p1) t Et HPan) as (_ & HX & _).
    eapply IH; [eapply nth_error_In; exact HX| |exact E]. destruct HPan as (HC & _). unfold i32s. now rewrite HC.
Qed.
Lemma p_sim sched : forall p p', i32s (p_st p) = true -> p_run max q sched p = Some p' -> ~ In MPanicked (m_threads (p_st p')) ->
  m_run max q sched (p_st p) = Some (p_st p') /\ i32s (p_st p') = true.
Proof.
  induction sched as [|i sched IH]; intros p p' Hok E HN; cbn [p_run] in E; [injection E as <-; split; [reflexivity|exact Hok]|].
  destruct (p_step max q i p) as [p1|] eqn:E1; [|discriminate]. destruct p as (s, poison). cbn [p_st] in *.
  destruct (p_cases max q i s poison p1 E1 Hok) as (s' & Es & [(-> & Hok')|(HPan & HP')]).
  - cbn [m_run]. rewrite Es. exact (IH (Pst s' poison) _ Hok' E HN).
  - exfalso. apply HN. destruct (m_step_thread _ _ _ _ _ Es) as (t & Et & Nt & _). destruct (panics_in i s (p_st p1) t Et HPan) as (_ & HX & _).
    eapply p_panicked_stays; [eapply nth_error_In; exact HX| |exact E]. destruct HPan as (HC & _). unfold i32s. now rewrite HC.
Qed.
(** conversely, an execution whose states all fit *)
Lemma p_lift sched (I : mst -> Prop) : (forall s i s', I s -> m_step max q i s = Some s' -> I s') -> (forall s, I s -> i32s s = true) ->
  forall s s', I s -> m_run max q sched s = Some s' -> p_run max q sched (Pst s false) = Some (Pst s' false).
Proof.
  intros HI Hok. induction sched as [|i sched IH]; intros s s' Hs E; cbn [m_run] in E; [now injection E as <-|].
  destruct (m_step max q i s) as [s1|] eqn:E1; [|discriminate]. cbn [p_run].
  destruct (p_step max q i (Pst s false)) as [p1|] eqn:E2; [|exfalso; eapply p_some; [|exact E2]; congruence].
  destruct (p_cases max q i s false p1 E2 (Hok s Hs)) as (s2 & Es & [(-> & _)|(_ & [C|C])]); [|discriminate|].
  - rewrite E1 in Es. injection Es as <-. apply IH; [eapply HI; eauto|exact E].
  - rewrite E1 in Es. injection Es as <-. rewrite (Hok s1) in C; [discriminate|eapply HI; eauto].
Qed.
End O.

(** ** every execution of the program is bounded, overflow or not *)
Section W.
Context (max q : nat) (L : list str).
Hypothesis HL : forall w, In w L -> w <> [] /\ length w <= max.
Definition wpos (w : str) (c : cit) : Prop := length w <= max /\ cit_text c = w /\ cit_pos c <= length w.
Definition wgood (t : mpc) : Prop :=
  match t with
  | MStart w => length w <= max
  | MConj w _ c | MCheck w _ c _ _ | MWrite w _ c _ _ => wpos w c
  | _ => True
  end.
Definition lock_weak (l : lockst) (h : mpc -> Prop) (ths : list mpc) : Prop :=
  match l with Held j => exists t, nth_error ths j = Some t /\ h t | _ => True end.
Definition WInv (m : nat) (s : mst) : Prop := exists L2, incl L2 L /\
  (forall k, calls lwg_next k (m_iter s) = Ok (yields L2 k)) /\ Forall wgood (m_threads s) /\
  lock_weak (m_iter_lock s) h_iter (m_threads s) /\ lock_weak (m_num_lock s) h_num (m_threads s) /\ lock_weak (m_total_lock s) h_tot (m_threads s) /\
  m = wordw max * length L2 + msum mwt (m_threads s).
Lemma weak_keep l h ths i t x : lock_weak l h ths -> nth_error ths i = Some t -> ~ h t -> lock_weak l h (upd ths i x).
Proof.
  destruct l as [|j|]; cbn [lock_weak]; auto. intros (u & Eu & Hu) Et Nt. exists u. split; [|exact Hu].
  rewrite nth_error_upd_ne; [exact Eu|]. intros ->. rewrite Et in Eu. injection Eu as <-. contradiction.
Qed.
Lemma weak_stay l h ths i t x : lock_weak l h ths -> nth_error ths i = Some t -> h x -> lock_weak l h (upd ths i x).
Proof.
  destruct l as [|j|]; cbn [lock_weak]; auto. intros (u & Eu & Hu) Et Hx. destruct (Nat.eq_dec i j) as [->|N].
  - exists x. split; [eapply nth_error_upd_eq; eauto|exact Hx].
  - exists u. split; [|exact Hu]. now rewrite nth_error_upd_ne.
Qed.
Lemma weak_held (h : mpc -> Prop) (ths : list mpc) i t x : nth_error ths i = Some t -> h x -> lock_weak (Held i) h (upd ths i x).
Proof. intros Et Hx. exists x. split; [eapply nth_error_upd_eq; eauto|exact Hx]. Qed.
Lemma m_conj_adv w r c w1 w2 w3 o c' : wpos w c -> m_conj w r c w1 w2 w3 = Ok (o, c') ->
  (o = None) \/ (o <> None /\ wpos w c' /\ cit_pos c' = cit_pos c + 1 /\ cit_pos c < length w).
Proof.
  intros (H1 & H2 & H3) E.
  assert (X : forall o' c2, cit_next c = Ok (o', c2) -> o' = None \/ (c2 = CIT w (cit_pos c + 1) /\ cit_pos c <> length w)).
  { intros o' c2 Ec. unfold cit_next in Ec. rewrite H2 in Ec. destruct (Nat.eqb_spec (cit_pos c) (length w)) as [C|C].
    - injection Ec as <- <-. now left.
    - right. destruct (for_in (range (cit_pos c) _) _ _) as [r1| |]; cbn [bind] in Ec; try discriminate.
      destruct (for_in (range 0 _) _ _) as [r2| |]; cbn [bind] in Ec; try discriminate. injection Ec as <- <-. auto. }
  unfold m_conj in E. destruct (cit_next c) as [(o', c2)| |]; cbn [bind] in E; try discriminate.
  destruct (X o' c2 eq_refl) as [->|(-> & C)]; [injection E as <- <-; now left|].
  destruct o' as [cj|]; [|injection E as <- <-; now left]. right.
  destruct (bbwt_naive cj) as [bb| |]; cbn [bind] in E; try discriminate.
  destruct (runs_of_slice bb) as [n| |]; cbn [bind] in E; try discriminate.
  destruct (sub_ (length w) 1) as [l| |]; cbn [bind] in E; try discriminate.
  match type of E with bind ?x _ = _ => destruct x as [ws| |]; cbn [bind] in E; try discriminate end.
  injection E as <- <-. split; [discriminate|]. split; [split; [exact H1|split; [reflexivity|cbn [cit_pos]; lia]]|]. split; [reflexivity|lia].
Qed.
Lemma winv_step m s i s' : WInv m s -> m_step max q i s = Some s' -> exists m', m' < m /\ WInv m' s'.
Proof.
  intros (L2 & HI & HC & HG & K1 & K2 & K3 & ->) E.
  destruct s as [it itl w1 w2 w3 bs num numl tot totl ths]. simp.
  unfold m_step in E. destruct (nth_error ths i) as [t|] eqn:Et; [|discriminate].
  destruct (upd_split ths i t Et) as (l1 & l2 & E12 & EU).
  assert (Hgt : wgood t) by (apply (proj1 (Forall_forall _ _) HG); eapply nth_error_In; eauto).
  assert (HGU : forall x, wgood x -> Forall wgood (upd ths i x)).
  { intros x Hx. rewrite EU. rewrite E12 in HG. apply Forall_app in HG. destruct HG as (G1 & G2).
    apply Forall_app. split; [exact G1|]. inversion G2; subst. now constructor. }
  assert (HM : forall x, msum mwt (upd ths i x) + mwt t = msum mwt ths + mwt x).
  { intros x. unfold msum. rewrite EU, E12, !map_app, !list_sum_app. simpl. lia. }
  assert (FIN : forall it' itl' v1 v2 v3 bs' num' numl' tot' totl' x L2', incl L2' L2 ->
    (forall k, calls lwg_next k it' = Ok (yields L2' k)) -> wgood x ->
    lock_weak itl' h_iter (upd ths i x) -> lock_weak numl' h_num (upd ths i x) -> lock_weak totl' h_tot (upd ths i x) ->
    wordw max * length L2' + mwt x < wordw max * length L2 + mwt t ->
    exists m', m' < wordw max * length L2 + msum mwt ths /\ WInv m' (Mst it' itl' v1 v2 v3 bs' num' numl' tot' totl' (upd ths i x))).
  { intros it' itl' v1 v2 v3 bs' num' numl' tot' totl' x L2' A1 A2 A3 A4 A5 A6 A7. eexists. split; cycle 1.
    - exists L2'. simp. repeat (split; [first [eassumption|auto]|]); [eapply incl_tran; eauto|]. reflexivity.
    - specialize (HM x). lia. }
  assert (KEEP1 : ~ h_iter t -> forall x, lock_weak itl h_iter (upd ths i x)) by (intros; eapply weak_keep; eauto).
  assert (KEEP2 : ~ h_num t -> forall x, lock_weak numl h_num (upd ths i x)) by (intros; eapply weak_keep; eauto).
  assert (KEEP3 : ~ h_tot t -> forall x, lock_weak totl h_tot (upd ths i x)) by (intros; eapply weak_keep; eauto).
  assert (STAY2 : forall x, h_num x -> lock_weak numl h_num (upd ths i x)) by (intros; eapply weak_stay; eauto).
  assert (STAY3 : forall x, h_tot x -> lock_weak totl h_tot (upd ths i x)) by (intros; eapply weak_stay; eauto).
  assert (HELD : forall (h : mpc -> Prop) x, h x -> lock_weak (Held i) h (upd ths i x)) by (intros; eapply weak_held; eauto).
  destruct t; try discriminate.
  2: { (* MFetching *)
    destruct (next_step it L2 HC) as (it' & En & Hn). rewrite En in E. destruct L2 as [|w L2]; cbn [hd_error tl] in *; injection E as <-.
    - apply (FIN _ _ _ _ _ _ _ _ _ _ _ []); auto using incl_refl; try exact I; try (apply KEEP2; easy); try (apply KEEP3; easy). cbn [mwt]; lia.
    - destruct (HL w (HI w (or_introl eq_refl))) as (_ & Hw).
      apply (FIN _ _ _ _ _ _ _ _ _ _ _ L2); auto using incl_refl; try exact I; try (apply KEEP2; easy); try (apply KEEP3; easy).
      + intros x Hx. now right.
      + cbn [mwt length]. unfold wordw. lia. }
  3: { (* MConj *)
    destruct (m_conj text bwt_runs it0 w1 w2 w3) as [(o, c')| |] eqn:Em.
    - destruct (m_conj_adv _ _ _ _ _ _ _ _ Hgt Em) as [->|(No & Hp & Hc & Hl)].
      + injection E as <-. apply (FIN _ _ _ _ _ _ _ _ _ _ _ L2); auto using incl_refl; try exact I. cbn [mwt]. lia.
      + destruct o as [((cj, b), ((v1, v2), v3))|]; [|congruence]. injection E as <-.
        apply (FIN _ _ _ _ _ _ _ _ _ _ _ L2); auto using incl_refl.
        * destruct (b <? bwt_runs); exact Hp.
        * destruct (b <? bwt_runs); cbn [mwt]; lia.
    - injection E as <-. apply (FIN _ _ _ _ _ _ _ _ _ _ _ L2); auto using incl_refl; try exact I. cbn [mwt]. lia.
    - injection E as <-. apply (FIN _ _ _ _ _ _ _ _ _ _ _ L2); auto using incl_refl; try exact I. cbn [mwt]. lia. }
  all: inv; apply (FIN _ _ _ _ _ _ _ _ _ _ _ L2); auto using incl_refl; try exact I;
    first [ exact Hgt | apply HELD; exact I | apply STAY2; exact I | apply STAY3; exact I
          | split; [exact Hgt|split; [reflexivity|cbn [cit_new cit_pos]; lia]]
          | idtac ];
    try (match goal with |- context [if ?a then _ else _] => destruct a end);
    try exact Hgt; try (cbn [mwt cit_new cit_pos]; lia); try (cbn [lock_weak]; exact I).
Qed.
Lemma panic_weak m s i t s' : WInv m s -> nth_error (m_threads s) i = Some t -> t <> MPanicked -> t <> MFinished ->
  panics i s s' ->
  (h_num t -> m_num_lock s' = Poisoned) -> (h_tot t -> m_total_lock s' = Poisoned) -> ~ h_iter t ->
  exists m', m' < m /\ WInv m' s'.
Proof.
  intros (L2 & HI & HC & HG & K1 & K2 & K3 & ->) Et N1 N2 HP P1 P2 P3.
  destruct (panics_in i s s' t Et HP) as (Eth & _ & Ei & Eil & En & Eto).
  destruct (upd_split _ i t Et) as (l1 & l2 & E12 & EU).
  exists (wordw max * length L2 + msum mwt (m_threads s')). split.
  - rewrite Eth, EU. unfold msum. rewrite E12, !map_app, !list_sum_app. cbn [map list_sum fold_right mwt].
    assert (0 < mwt t) by (destruct t; cbn [mwt]; try lia; congruence). lia.
  - exists L2. split; [exact HI|]. rewrite Ei. split; [exact HC|]. split.
    + rewrite Eth, EU. rewrite E12 in HG. apply Forall_app in HG. destruct HG as (G1 & G2). apply Forall_app. split; [exact G1|].
      inversion G2; subst. constructor; [exact I|assumption].
    + rewrite Eth, Eil. split; [eapply weak_keep; eauto|]. split; [|split; [|reflexivity]].
      * assert (D : h_num t \/ ~ h_num t) by (destruct t; cbn; tauto). destruct D as [D|D]; [rewrite (P1 D); exact I|].
        destruct En as [->| ->]; [eapply weak_keep; eauto|exact I].
      * assert (D : h_tot t \/ ~ h_tot t) by (destruct t; cbn; tauto). destruct D as [D|D]; [rewrite (P2 D); exact I|].
        destruct Eto as [->| ->]; [eapply weak_keep; eauto|exact I].
Qed.
Lemma winv_pstep m p i p' : WInv m (p_st p) -> p_step max q i p = Some p' -> exists m', m' < m /\ WInv m' (p_st p').
Proof.
  intros HW E. destruct p as (s, poison). cbn [p_st] in HW. unfold p_step in E.
  destruct (m_step max q i s) as [s1|] eqn:E1; [|discriminate].
  pose proof (winv_step m s i s1 HW E1) as HS.
  assert (P1 : panics i s (panic_none i s)) by (split; [destruct s; reflexivity|auto]).
  assert (P2 : panics i s (panic_num i s)) by (split; [destruct s; reflexivity|auto]).
  assert (P3 : panics i s (panic_both i s)) by (split; [destruct s; reflexivity|auto]).
  destruct (nth_error (m_threads s) i) as [t|] eqn:Et; [|injection E as <-; exact HS].
  assert (X1 : forall b, ~ h_num t -> ~ h_tot t -> ~ h_iter t -> t <> MPanicked -> t <> MFinished -> exists m', m' < m /\ WInv m' (p_st (Pst (panic_none i s) b))).
  { intros b Y1 Y2 Y3 Y4 Y5. eapply panic_weak; eauto; intros; contradiction. }
  destruct t; inv; try exact HS; try (apply X1; easy).
  - eapply panic_weak; eauto; try easy. intros _. now destruct s.
  - eapply panic_weak; eauto; try easy; intros _; now destruct s.
Qed.
Lemma winv_prun sched : forall m p p', WInv m (p_st p) -> p_run max q sched p = Some p' -> exists m', m' + length sched <= m /\ WInv m' (p_st p').
Proof.
  induction sched as [|i sched IH]; intros m p p' HW E; cbn [p_run] in E; [injection E as <-; exists m; split; [simpl; lia|exact HW]|].
  destruct (p_step max q i p) as [p1|] eqn:E1; [|discriminate]. destruct (winv_pstep m p i p1 HW E1) as (m1 & Hm1 & HW1).
  destruct (IH m1 p1 p' HW1 E) as (m2 & Hm2 & HW2). exists m2. split; [simpl; lia|exact HW2].
Qed.
Lemma winv_init threads : (forall k, calls lwg_next k (lwg_new max 2) = Ok (yields L k)) ->
  WInv (wordw max * length L + 2 * threads) (m_init max threads).
Proof.
  intros HC. exists L. unfold m_init. simp. split; [apply incl_refl|]. split; [exact HC|]. split; [|split; [exact I|split; [exact I|split; [exact I|]]]].
  - apply Forall_forall. intros x Hx. now rewrite (repeat_spec _ _ _ Hx).
  - assert (X : forall n, msum mwt (repeat MFetch n) = 2 * n).
    { unfold msum. induction n as [|n IH]; [reflexivity|]. cbn [repeat map mwt]. change (list_sum (2 :: map mwt (repeat MFetch n))) with (2 + list_sum (map mwt (repeat MFetch n))). lia. }
    rewrite X. reflexivity.
Qed.
(** nobody can move: everybody has ended, or two threads wait for each other *)
Lemma w_stuck m s : WInv m s -> (forall i, m_step max q i s = None) ->
  (forall t, In t (m_threads s) -> t = MFinished \/ t = MPanicked) \/ deadlocked s.
Proof.
  intros (L2 & HI & HC & HG & K1 & K2 & K3 & _) Hno.
  assert (D : (forall t, In t (m_threads s) -> t = MFinished \/ t = MPanicked) \/ exists t, In t (m_threads s) /\ t <> MFinished /\ t <> MPanicked).
  { induction (m_threads s) as [|t l IH]; [left; intros t []|].
    assert (E : t = MFinished \/ t = MPanicked \/ (t <> MFinished /\ t <> MPanicked)) by (destruct t; auto; right; right; split; discriminate).
    assert (HGl : Forall wgood l -> (forall t, In t l -> t = MFinished \/ t = MPanicked) \/ exists t, In t l /\ t <> MFinished /\ t <> MPanicked).
    { clear. intros _. induction l as [|t l IH]; [left; intros t []|].
      assert (E : t = MFinished \/ t = MPanicked \/ (t <> MFinished /\ t <> MPanicked)) by (destruct t; auto; right; right; split; discriminate).
      destruct E as [E|[E|E]]; [| |right; exists t; split; [now left|exact E]];
      (destruct IH as [IH|(u & Hu & Nu)]; [left; intros u [<-|Hu]; auto|right; exists u; split; [now right|exact Nu]]). }
    inversion HG; subst. specialize (HGl H2).
    destruct E as [E|[E|E]]; [| |right; exists t; split; [now left|exact E]];
    (destruct HGl as [IH'|(u & Hu & Nu)]; [left; intros u [<-|Hu]; auto|right; exists u; split; [now right|exact Nu]]). }
  destruct D as [D|(t & Ht & N1 & N2)]; [now left|]. right.
  destruct (In_nth_error _ _ Ht) as (i & Ei). clear Ht.
  (* a thread that cannot move waits for a lock that is held *)
  assert (W : forall i t, nth_error (m_threads s) i = Some t -> t <> MFinished -> t <> MPanicked ->
    (t = MFetch /\ exists j, m_iter_lock s = Held j) \/
    (((exists l, t = MWantNum l) \/ t = MPrintWantNum) /\ exists j, m_num_lock s = Held j) \/
    ((t = MWantTotal \/ t = MWantTotal2) /\ exists j, m_total_lock s = Held j)).
  { intros k u Ek A1 A2. specialize (Hno k). destruct s as [it itl w1 w2 w3 bs num numl tot totl ths]. simp. unfold m_step in Hno. rewrite Ek in Hno.
    destruct u; try congruence; repeat match goal with
      | H : match ?y with _ => _ end = None |- _ => destruct y eqn:?
      | H : Some _ = None |- _ => discriminate H
      end; eauto 8. }
  assert (WN : forall j, m_num_lock s = Held j -> nth_error (m_threads s) j = Some MWantTotal).
  { intros j Ej. rewrite Ej in K2. destruct K2 as (u & Eu & Hu).
    destruct (W j u Eu) as [(-> & _)|[([(l & ->)| ->] & _)|([-> | ->] & _)]]; try (now destruct Hu); try (intros ->; exact Hu). }
  assert (WT : forall j, m_total_lock s = Held j -> nth_error (m_threads s) j = Some MPrintWantNum).
  { intros j Ej. rewrite Ej in K3. destruct K3 as (u & Eu & Hu).
    destruct (W j u Eu) as [(-> & _)|[([(l & ->)| ->] & _)|([-> | ->] & _)]]; try (now destruct Hu); try (intros ->; exact Hu). }
  assert (FN : forall j, m_num_lock s = Held j -> deadlocked s).
  { intros j Ej. pose proof (WN j Ej) as X. destruct (W j _ X ltac:(discriminate) ltac:(discriminate)) as [(C & _)|[([(l & C)|C] & _)|(_ & k & Ek)]]; try discriminate.
    exists k, j. split; [apply WT; exact Ek|exact X]. }
  assert (FT : forall j, m_total_lock s = Held j -> deadlocked s).
  { intros j Ej. pose proof (WT j Ej) as X. destruct (W j _ X ltac:(discriminate) ltac:(discriminate)) as [(C & _)|[(_ & k & Ek)|([C|C] & _)]]; try discriminate.
    eapply FN; eauto. }
  destruct (W i t Ei N1 N2) as [(_ & j & Ej)|[(_ & j & Ej)|(_ & j & Ej)]]; [|eauto|eauto].
  rewrite Ej in K1. destruct K1 as (u & Eu & Hu). destruct u; try (now destruct Hu).
  destruct (W j _ Eu ltac:(discriminate) ltac:(discriminate)) as [(C & _)|[([(l & C)|C] & _)|([C|C] & _)]]; discriminate.
Qed.
End W.

(** ** after an overflow the counters stay as they are *)
Section F.
Context (max q : nat).
Definition winlists (s : mst) : list (list nat) := [m_bwt_win s; m_bbwt_win s; m_tie_win s].
Lemma wins_same i s s' : m_step max q i s = Some s' ->
  (match nth_error (m_threads s) i with Some (MConj _ _ _) => True | _ => winlists s' = winlists s end).
Proof.
  intros E. destruct s as [it itl w1 w2 w3 bs num numl tot totl ths]. unfold m_step in E. simp.
  destruct (nth_error ths i) as [t|]; [|discriminate]. destruct t; inv; exact I || reflexivity.
Qed.
Lemma wins_conj i s s' : m_step max q i s = Some s' ->
  (exists a b c, nth_error (m_threads s) i = Some (MConj a b c)) ->
  (match nth_error (m_threads s') i with Some (MConj _ _ _) | Some (MCheck _ _ _ _ _) => True | _ => winlists s' = winlists s end).
Proof.
  intros E (a & b & c & Et). destruct s as [it itl w1 w2 w3 bs num numl tot totl ths]. unfold m_step in E. simp.
  rewrite Et in E. inv; simp; rewrite (nth_error_upd_eq _ _ _ _ Et); try reflexivity.
  destruct (_ <? _); exact I.
Qed.
Lemma poison_step i p p' : p_poison p = true -> p_step max q i p = Some p' ->
  p_poison p' = true /\ winlists (p_st p') = winlists (p_st p).
Proof.
  destruct p as (s, poison). cbn [p_poison p_st]. intros -> E. unfold p_step in E.
  destruct (m_step max q i s) as [s'|] eqn:Es; [|discriminate].
  pose proof (wins_same _ _ _ Es) as H1. pose proof (wins_conj _ _ _ Es) as H2.
  assert (P : forall g, g = panic_none \/ g = panic_num \/ g = panic_both -> winlists (g i s) = winlists s) by (intros g [->|[->| ->]]; now destruct s).
  destruct (nth_error (m_threads s) i) as [t|]; [|injection E as <-; auto].
  destruct t; try (injection E as <-; cbn [p_poison p_st]; auto; fail).
  - specialize (H2 ltac:(eauto)). destruct (nth_error (m_threads s') i) as [u|]; [|injection E as <-; auto].
    destruct u; injection E as <-; cbn [p_poison p_st]; auto.
  - destruct (i32s s'); injection E as <-; cbn [p_poison p_st]; auto.
Qed.
Lemma poison_run sched : forall p p', p_poison p = true -> p_run max q sched p = Some p' -> winlists (p_st p') = winlists (p_st p).
Proof.
  induction sched as [|i sched IH]; intros p p' HP E; cbn [p_run] in E; [now injection E as <-|].
  destruct (p_step max q i p) as [p1|] eqn:E1; [|discriminate]. destruct (poison_step i p p1 HP E1) as (H1 & H2).
  rewrite (IH p1 p' H1 E). exact H2.
Qed.
(** num_lyndon_words poisoned *)
Definition numdead (s : mst) : Prop := m_num_lock s = Poisoned /\ forall t, In t (m_threads s) -> ~ h_num t.
Lemma in_upd {A} (l : list A) i x y : In y (upd l i x) -> y = x \/ In y l.
Proof.
  revert i. induction l as [|a l IH]; intros [|i] H; simpl in *; auto.
  - destruct H as [<-|H]; auto.
  - destruct H as [<-|H]; auto. destruct (IH i H); auto.
Qed.
Lemma numdead_step i p p' : numdead (p_st p) -> p_step max q i p = Some p' -> numdead (p_st p') /\ m_num (p_st p') = m_num (p_st p).
Proof.
  destruct p as (s, poison). cbn [p_poison p_st]. intros (H1 & H2) E. unfold p_step in E.
  destruct (m_step max q i s) as [s'|] eqn:Es; [|discriminate].
  assert (X : forall t, nth_error (m_threads s) i = Some t -> ~ h_num t) by (intros t Et; apply H2; eapply nth_error_In; eauto).
  assert (PN : numdead (panic_none i s) /\ m_num (panic_none i s) = m_num s).
  { destruct s; unfold numdead; simp. split; [|reflexivity]. split; [exact H1|]. intros t Ht. destruct (in_upd _ _ _ _ Ht) as [->|Ht']; [easy|auto]. }
  assert (SN : numdead s' /\ m_num s' = m_num s).
  { destruct s as [it itl w1 w2 w3 bs num numl tot totl ths]. unfold m_step in Es. unfold numdead. simp. subst numl.
    destruct (nth_error ths i) as [t|] eqn:Et; [|discriminate]. specialize (X t eq_refl).
    destruct t; try (now destruct X); inv; simp; try (split; [|reflexivity]; split; [reflexivity|]; intros t Ht; destruct (in_upd _ _ _ _ Ht) as [->|Ht']; [|now auto]; try easy);
    match goal with |- ~ h_num (if ?b then _ else _) => destruct b; easy end. }
  destruct (nth_error (m_threads s) i) as [t|]; [|injection E as <-; auto]. specialize (X t eq_refl).
  destruct t; try (injection E as <-; exact SN).
  - destruct (nth_error (m_threads s') i) as [u|]; [|injection E as <-; exact SN].
    destruct u; try (injection E as <-; exact SN); (destruct poison; [injection E as <-; exact PN|]; destruct (i32s s'); injection E as <-; assumption).
  - now destruct X.
  - now destruct X.
Qed.
Lemma numdead_run sched : forall p p', numdead (p_st p) -> p_run max q sched p = Some p' -> m_num (p_st p') = m_num (p_st p).
Proof.
  induction sched as [|i sched IH]; intros p p' HP E; cbn [p_run] in E; [now injection E as <-|].
  destruct (p_step max q i p) as [p1|] eqn:E1; [|discriminate]. destruct (numdead_step i p p1 HP E1) as (H1 & H2).
  rewrite (IH p1 p' H1 E). exact H2.
Qed.
(** the first panic *)
Lemma first_panic L (HL : forall w, In w L -> w <> [] /\ length w <= max) m s i p' :
  MInv max L m s -> i32s s = true -> p_step max q i (Pst s false) = Some p' -> In MPanicked (m_threads (p_st p')) ->
  (p_poison p' = true /\ winlists (p_st p') = winlists s) \/ (numdead (p_st p') /\ m_num (p_st p') = m_num s).
Proof.
  intros HM Hok E HP. unfold p_step in E. destruct (m_step max q i s) as [s'|] eqn:Es; [|discriminate].
  destruct (minv_step max q L HL m s i s' HM Es) as (m' & _ & HM').
  assert (NP : ~ In MPanicked (m_threads s')).
  { destruct HM' as (L1 & L2 & _ & _ & _ & _ & _ & _ & _ & _ & HG & _). intros H. exact (proj1 (Forall_forall _ _) HG _ H). }
  destruct (nth_error (m_threads s) i) as [t|] eqn:Et; [|injection E as <-; contradiction].
  destruct t; try (injection E as <-; contradiction).
  - destruct (nth_error (m_threads s') i) as [u|]; [|injection E as <-; contradiction].
    destruct u; try (injection E as <-; contradiction); (destruct (i32s s'); injection E as <-; [contradiction|]; left; split; [reflexivity|now destruct s]).
  - destruct (i32s s'); injection E as <-; [contradiction|]. right.
    destruct HM as (L1 & L2 & _ & _ & _ & _ & _ & _ & _ & _ & _ & _ & K2 & _).
    destruct s as [it itl w1 w2 w3 bs num numl tot totl ths]. unfold numdead. cbn [p_st panic_num] in *. simp. split; [|reflexivity]. split; [reflexivity|].
    intros t Ht C. destruct (In_nth_error _ _ Ht) as (k & Ek). destruct (Nat.eq_dec i k) as [->|N].
    + rewrite (nth_error_upd_eq _ _ _ _ Et) in Ek. injection Ek as <-. exact C.
    + rewrite nth_error_upd_ne in Ek by auto. destruct numl as [|j|]; [exact (K2 k _ Ek C)| |exact K2].
      destruct K2 as (_ & K2). apply N. rewrite (K2 i _ Et I). symmetry. exact (K2 k _ Ek C).
Qed.
End F.
