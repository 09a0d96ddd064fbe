(** ParProof4.v : a deadlock of max_lyndon_word (unfinished/parallel.rs) is reachable. *)
From Verif Require Import Base SpecStr SpecBwt SpecIo SpecPar LexFacts RunFacts ModelIo ModelCore ModelMain ModelPar ModelPar2.
From Verif Require Import DuvalProof LyndonProof BwtFacts BwtProof BbwtProof IterProof LwgProof ParProof LockFacts ParProof2 ParProof3.

Section D.
Context (max q : nat) (L : list str).
Hypothesis HL : forall w, In w L -> w <> [] /\ length w <= max.
Notation MI := (MInv max L).
Ltac simp := cbn [m_iter m_iter_lock m_bwt_win m_bbwt_win m_tie_win m_best m_num m_num_lock m_total m_total_lock m_threads] in *.

Lemma m_run_app s1 s2 : forall s, m_run max q (s1 ++ s2) s = match m_run max q s1 s with Some s' => m_run max q s2 s' | None => None end.
Proof.
  induction s1 as [|i s1 IH]; intros s; [reflexivity|]. cbn [m_run app]. destruct (m_step max q i s); [apply IH|reflexivity].
Qed.
(** let thread i run until [stop] *)
Lemma until_stop i (stop : mst -> Prop) (J : mst -> Prop) :
  (forall m s, MI m s -> J s -> stop s \/ exists s', m_step max q i s = Some s' /\ J s') ->
  forall m s, MI m s -> J s -> exists n m' s', m_run max q (repeat i n) s = Some s' /\ MI m' s' /\ J s' /\ stop s'.
Proof.
  intros H m. induction m as [m IH] using lt_wf_ind. intros s HI HJ.
  destruct (H m s HI HJ) as [St|(s1 & E1 & J1)].
  - exists 0, m, s. auto.
  - destruct (minv_step max q L HL m s i s1 HI E1) as (m1 & Hm & H1). destruct (IH m1 Hm s1 H1 J1) as (n & m' & s' & E & R).
    exists (S n), m', s'. split; [|exact R]. cbn [repeat m_run]. rewrite E1. exact E.
Qed.

Lemma lock_free_others {T} (l : lockst) (h : T -> Prop) ths i t : lock_ok l h ths -> nth_error ths i = Some t -> ~ h t ->
  (forall j u, j <> i -> nth_error ths j = Some u -> ~ h u) -> l = Free.
Proof.
  intros H E Ht Ho. destruct l as [|j|]; [reflexivity| |destruct H].
  destruct H as ((u & Eu & Hu) & _). exfalso. destruct (Nat.eq_dec j i) as [->|N].
  - rewrite E in Eu. injection Eu as <-. contradiction.
  - exact (Ho j u N Eu Hu).
Qed.
(** the other threads are about to fetch *)
Definition idle (i : nat) (s : mst) : Prop := forall j u, j <> i -> nth_error (m_threads s) j = Some u -> u = MFetch.
Lemma idle_step i k s s' : idle i s -> i = k -> m_step max q k s = Some s' -> idle i s' /\ exists x, m_threads s' = upd (m_threads s) i x.
Proof.
  intros H <- E. assert (G : exists x, m_threads s' = upd (m_threads s) i x).
  { destruct s as [it itl w1 w2 w3 bs num numl tot totl ths]. unfold m_step in E. destruct (nth_error ths i) as [t|]; [|discriminate].
    destruct t; repeat match goal with
      | H : match ?x with _ => _ end = Some _ |- _ => destruct x
      | H : Some _ = Some _ |- _ => injection H as <-
      | H : None = Some _ |- _ => discriminate H
      end; eexists; reflexivity. }
  split; [|exact G]. destruct G as (x & Gx). intros j u Nj Ej. rewrite Gx in Ej. rewrite nth_error_upd_ne in Ej by auto. eauto.
Qed.
Definition pend (t : mpc) : nat := match t with MWantTotal2 | MTotal2 | MPrintWantNum => 1 | _ => 0 end.
(** phase 1: thread 0 alone until it wants to print *)
Definition J1 (s : mst) : Prop := idle 0 s /\ exists t, nth_error (m_threads s) 0 = Some t /\ t <> MPrint /\ pend t <= m_total s < q + pend t /\ (t = MPrintWantNum -> m_total s = q).
Definition stop1 (s : mst) : Prop := nth_error (m_threads s) 0 = Some MPrintWantNum \/ nth_error (m_threads s) 0 = Some MFinished.
Lemma phase1 m s : 0 < q -> MI m s -> J1 s -> stop1 s \/ exists s', m_step max q 0 s = Some s' /\ J1 s'.
Proof.
  intros Hq HI (HA & t & Et & Np & Ht & Hp).
  assert (D : t = MPrintWantNum \/ t <> MPrintWantNum) by (destruct t; ((left; reflexivity) || (right; discriminate))).
  destruct D as [->|NP]; [left; left; exact Et|].
  assert (Hgt : mgood max L t).
  { destruct HI as (L1 & L2 & EL & HI' & HW & HB & HNl & HC & HN & HT & HG & _). apply (proj1 (Forall_forall _ _) HG). eapply nth_error_In; eauto. }
  pose proof HI as HI0. destruct HI as (L1 & L2 & EL & HI & HW & HB & HNl & HC & HN & HT & HG & K1 & K2 & K3 & HBo & KF & KN & Em).
  destruct s as [it itl w1 w2 w3 bs num numl tot totl ths]. simp.
  assert (HO : forall h : mpc -> Prop, ~ h MFetch -> forall j u, j <> 0 -> nth_error ths j = Some u -> ~ h u).
  { intros h Hh j u Nj Ej. rewrite (HA j u Nj Ej). exact Hh. }
  assert (F1 : ~ h_iter t -> itl = Free) by (intros X; eapply lock_free_others; eauto).
  assert (F2 : ~ h_num t -> numl = Free) by (intros X; eapply lock_free_others; eauto).
  assert (F3 : ~ h_tot t -> totl = Free) by (intros X; eapply lock_free_others; eauto).
  destruct (m_step max q 0 (Mst it itl w1 w2 w3 bs num numl tot totl ths)) as [s'|] eqn:E.
  - assert (HA' := HA). destruct (idle_step 0 0 _ s' HA eq_refl E) as (HA1 & x & Ex). simp.
    destruct (minv_step max q L HL _ _ _ _ HI0 E) as (m1 & _ & L1' & L2' & _ & _ & _ & _ & _ & _ & _ & _ & HG' & _).
    assert (Ex0 : nth_error (m_threads s') 0 = Some x) by (rewrite Ex; eapply nth_error_upd_eq; eauto).
    assert (Hgx : mgood max L x) by (apply (proj1 (Forall_forall _ _) HG'); eapply nth_error_In; eauto).
    destruct t; try congruence; try (right; exists s'; split; [reflexivity|]; split; [exact HA1|]; exists x; split; [exact Ex0|];
      unfold m_step in E; rewrite Et in E; simp;
      repeat match goal with
      | H : match ?y with _ => _ end = Some _ |- _ => destruct y eqn:?
      | H : Some _ = Some _ |- _ => injection H as <-
      | H : None = Some _ |- _ => discriminate H
      end; simp;
      match goal with H : upd _ _ ?y = upd _ _ ?z |- _ =>
        assert (y = z) by (apply (f_equal (fun l => nth_error l 0)) in H; rewrite !(nth_error_upd_eq _ _ _ _ Et) in H; congruence); subst z; clear H end;
      try contradiction; cbn [pend] in *;
      first [split; [discriminate|]; split; [lia|discriminate]|idtac]).
    + destruct (n <? bwt_runs); cbn [pend]; (split; [discriminate|]; split; [lia|discriminate]).
    + destruct a; cbn [pend]; (split; [discriminate|]; split; [lia|discriminate]).
    + split; [discriminate|]. split; [lia|]. intros _. apply Nat.eqb_eq in Heqb.
      destruct (Nat.eq_dec tot q); [assumption|]. rewrite Nat.mod_small in Heqb by lia. lia.
    + split; [discriminate|]. split; [|discriminate]. apply Nat.eqb_neq in Heqb. assert (tot <> q); [|lia]. intros ->. apply Heqb. apply Nat.mod_same. lia.
  - left. destruct t; try (exfalso; unfold m_step in E; rewrite Et in E; simp;
      rewrite ?F1, ?F2, ?F3 in E by easy;
      repeat match goal with
      | H : match ?y with _ => _ end = None |- _ => destruct y eqn:?
      | H : Some _ = None |- _ => discriminate H
      end; contradiction || congruence); unfold stop1; simp; auto; contradiction.
Qed.

(** phase 2: thread 1 until it holds num_lyndon_words and waits for total_counter *)
Definition busy (t : mpc) : Prop := match t with MStart _ | MConj _ _ _ | MCheck _ _ _ _ _ | MWrite _ _ _ _ _ | MWantNum _ | MNum _ | MWantTotal => True | _ => False end.
Definition J2 (s : mst) : Prop := exists t, nth_error (m_threads s) 1 = Some t /\ busy t /\
  (forall j u, j <> 1 -> nth_error (m_threads s) j = Some u -> ~ h_num u) /\ nth_error (m_threads s) 0 = Some MPrintWantNum /\ m_total s = q.
Definition stop2 (s : mst) : Prop := nth_error (m_threads s) 1 = Some MWantTotal.
Lemma step_upd i s s' : m_step max q i s = Some s' -> exists x, m_threads s' = upd (m_threads s) i x.
Proof.
  intros E. destruct s as [it itl w1 w2 w3 bs num numl tot totl ths]. unfold m_step in E. destruct (nth_error ths i) as [t|]; [|discriminate].
  destruct t; repeat match goal with
      | H : match ?x with _ => _ end = Some _ |- _ => destruct x
      | H : Some _ = Some _ |- _ => injection H as <-
      | H : None = Some _ |- _ => discriminate H
      end; eexists; reflexivity.
Qed.
Lemma phase2 m s : MI m s -> J2 s -> stop2 s \/ exists s', m_step max q 1 s = Some s' /\ J2 s'.
Proof.
  intros HI (t & Et & Hb & HA & H0 & HQ).
  assert (D : t = MWantTotal \/ t <> MWantTotal) by (destruct t; ((left; reflexivity) || (right; discriminate))).
  destruct D as [->|NP]; [left; exact Et|].
  pose proof HI as HI0. destruct HI as (L1 & L2 & EL & HI & HW & HB & HNl & HC & HN & HT & HG & K1 & K2 & K3 & HBo & KF & KN & Em).
  destruct s as [it itl w1 w2 w3 bs num numl tot totl ths]. simp. right.
  assert (F2 : ~ h_num t -> numl = Free) by (intros X; exact (lock_free_others _ _ _ _ _ K2 Et X HA)).
  destruct (m_step max q 1 (Mst it itl w1 w2 w3 bs num numl tot totl ths)) as [s'|] eqn:E.
  - exists s'. split; [reflexivity|]. destruct (step_upd 1 _ s' E) as (x & Ex). simp.
    destruct (minv_step max q L HL _ _ _ _ HI0 E) as (m1 & _ & L1' & L2' & _ & _ & _ & _ & _ & _ & _ & _ & HG' & _).
    assert (Ex0 : nth_error (m_threads s') 1 = Some x) by (rewrite Ex; eapply nth_error_upd_eq; eauto).
    assert (Hgx : mgood max L x) by (apply (proj1 (Forall_forall _ _) HG'); eapply nth_error_In; eauto).
    exists x. split; [exact Ex0|]. split; [|split; [|split]].
    + destruct t; try contradiction; try congruence; unfold m_step in E; rewrite Et in E; simp;
      repeat match goal with
      | H : match ?y with _ => _ end = Some _ |- _ => destruct y eqn:?
      | H : Some _ = Some _ |- _ => injection H as <-
      | H : None = Some _ |- _ => discriminate H
      end; simp;
      match goal with H : upd _ _ ?y = upd _ _ ?z |- _ =>
        assert (y = z) by (apply (f_equal (fun l => nth_error l 1)) in H; rewrite !(nth_error_upd_eq _ _ _ _ Et) in H; congruence); subst z; clear H end;
      try contradiction; try exact I.
      * destruct (n <? bwt_runs); exact I.
      * destruct a; exact I.
    + intros j u Nj Ej. rewrite Ex in Ej. rewrite nth_error_upd_ne in Ej by auto. eauto.
    + rewrite Ex. rewrite nth_error_upd_ne by auto. exact H0.
    + rewrite <- HQ. clear - E Et Hb NP. unfold m_step in E. rewrite Et in E. destruct t; try contradiction; try congruence;
      repeat match goal with
      | H : match ?y with _ => _ end = Some _ |- _ => destruct y
      | H : Some _ = Some _ |- _ => injection H as <-
      | H : None = Some _ |- _ => discriminate H
      end; reflexivity.
  - exfalso. destruct t; try contradiction; try congruence; unfold m_step in E; rewrite Et in E; simp;
      rewrite ?F2 in E by easy;
      repeat match goal with
      | H : match ?y with _ => _ end = None |- _ => destruct y eqn:?
      | H : Some _ = None |- _ => discriminate H
      end; contradiction || congruence.
Qed.
Theorem deadlock_reachable threads : (forall k, calls lwg_next k (lwg_new max 2) = Ok (yields L k)) ->
  0 < q < length L -> 2 <= threads -> exists sched s m, m_run max q sched (m_init max threads) = Some s /\ MI m s /\
    nth_error (m_threads s) 0 = Some MPrintWantNum /\ nth_error (m_threads s) 1 = Some MWantTotal /\ m_total s = q.
Proof.
  intros HC Hq Hth. pose proof (minv_init max L threads HC ltac:(lia)) as HI0.
  assert (HR : forall i t, nth_error (repeat MFetch threads) i = Some t -> t = MFetch).
  { intros i t H. apply nth_error_In in H. exact (repeat_spec _ _ _ H). }
  assert (HRi : forall i, i < threads -> nth_error (repeat MFetch threads) i = Some MFetch).
  { intros i Hi. destruct (nth_error (repeat MFetch threads) i) eqn:E; [now rewrite (HR _ _ E)|].
    apply nth_error_None in E. rewrite repeat_length in E. lia. }
  destruct (until_stop 0 stop1 J1 (fun m s H => phase1 m s ltac:(lia) H) _ _ HI0) as (n1 & m1 & s1 & E1 & HI1 & (HA & t & Et & _ & Ht & Hp) & HS1).
  { split; [intros j u _ Ej; exact (HR j u Ej)|]. exists MFetch. split; [apply HRi; lia|]. split; [discriminate|].
    split; [cbn [pend m_init m_total]; lia|discriminate]. }
  assert (Hlen : length (m_threads s1) = threads).
  { assert (G : forall sched s s', m_run max q sched s = Some s' -> length (m_threads s') = length (m_threads s)).
    { induction sched as [|i sched IH]; intros s s' E; cbn [m_run] in E; [now injection E as <-|].
      destruct (m_step max q i s) as [s2|] eqn:E2; [|discriminate]. rewrite (IH _ _ E). destruct (step_upd _ _ _ E2) as (x & ->). apply upd_length. }
    rewrite (G _ _ _ E1). apply repeat_length. }
  (* thread 0 has not finished *)
  pose proof HI1 as HI1'.
  destruct HI1 as (L1 & L2 & EL & HI & HW & HB & HNl & HCt & HN & HT & HG & K1 & K2 & K3 & HBo & KF & KN & Em).
  assert (HS0 : msum ftot (m_threads s1) = 0 -> length L1 = m_total s1) by lia.
  assert (Htot : length L1 = m_total s1).
  { apply HS0. unfold msum. destruct (m_threads s1) as [|t0 ths] eqn:Eth; [reflexivity|].
    rewrite (list_sum_const _ 0); [lia|]. intros x Hx. apply In_nth_error in Hx. destruct Hx as (k & Hk).
    destruct k as [|k]; [destruct HS1 as [H|H]; unfold stop1 in H; rewrite Eth in H; rewrite H in Hk; injection Hk as <-; reflexivity|].
    unfold idle in HA. rewrite Eth in HA. now rewrite (HA (S k) x ltac:(lia) Hk). }
  destruct HS1 as [HS1|HS1]; rewrite HS1 in Et; injection Et as <-.
  2: { exfalso. apply nth_error_In in HS1. rewrite (KF HS1), app_nil_r in EL. subst L1. cbn [pend] in Ht. lia. }
  specialize (Hp eq_refl).
  destruct L2 as [|w L2]; [exfalso; rewrite app_nil_r in EL; subst L1; lia|].
  destruct (next_step (m_iter s1) (w :: L2) HI) as (it' & Eit & HI').
  destruct s1 as [it itl w1 w2 w3 bs num numl tot totl ths]. simp.
  assert (T1 : nth_error ths 1 = Some MFetch).
  { destruct (nth_error ths 1) as [u|] eqn:Eu; [f_equal; apply (HA 1 u); auto|]. apply nth_error_None in Eu. lia. }
  assert (F1 : itl = Free).
  { eapply (lock_free_others itl h_iter ths 1); [exact K1|exact T1|easy|]. intros j u Nj Ej. destruct j as [|j]; [rewrite HS1 in Ej; injection Ej as <-; easy|].
    rewrite (HA (S j) u ltac:(lia) Ej). easy. }
  subst itl. set (s1 := Mst it Free w1 w2 w3 bs num numl tot totl ths) in *.
  set (s2 := Mst it' Free w1 w2 w3 bs num numl tot totl (upd (upd ths 1 MFetching) 1 (MStart w))).
  assert (E2 : m_run max q [1; 1] s1 = Some s2).
  { cbn [m_run]. unfold s1 at 1, m_step at 1. rewrite T1. cbn [m_run]. unfold m_step. rewrite (nth_error_upd_eq _ _ _ _ T1).
    rewrite Eit. reflexivity. }
  destruct (minv_run max q L HL [1; 1] m1 s1 s2 HI1' E2) as (m2 & _ & HI2).
  destruct (until_stop 1 stop2 J2 phase2 m2 s2 HI2) as (n3 & m3 & s3 & E3 & HI3 & (t3 & Et3 & _ & _ & Z & ZQ) & HS3).
  { exists (MStart w). unfold s2. simp. split; [eapply nth_error_upd_eq, nth_error_upd_eq; exact T1|]. split; [exact I|]. split.
    - intros j u Nj Ej. rewrite !nth_error_upd_ne in Ej by auto. destruct j as [|j]; [rewrite HS1 in Ej; injection Ej as <-; easy|].
      rewrite (HA (S j) u ltac:(lia) Ej). easy.
    - rewrite !nth_error_upd_ne by auto. split; [exact HS1|exact Hp]. }
  exists (repeat 0 n1 ++ [1; 1] ++ repeat 1 n3), s3, m3.
  split; [rewrite m_run_app, E1, m_run_app, E2; exact E3|]. auto.
Qed.
End D.

(** ** many binary Lyndon words *)
Lemma lyndon_block k v : (forall i, i < length v -> exists j r, j < k /\ skipn i v = repeat 0 j ++ 1 :: r) ->
  lyndon (repeat 0 k ++ 1 :: v).
Proof.
  intros H. split; [destruct k; discriminate|]. intros a b E Ha Hb.
  assert (G : forall j r, j < k -> lex_lt (repeat 0 k ++ 1 :: v) (repeat 0 j ++ 1 :: r)).
  { intros j r Hj. replace k with (j + S (k - S j)) by lia. rewrite repeat_app, <- app_assoc.
    apply lex_lt_app_same. cbn [repeat app]. constructor. lia. }
  assert (Eb : b = skipn (length a) (repeat 0 k ++ 1 :: v)).
  { rewrite E, skipn_app, skipn_all, Nat.sub_diag. reflexivity. }
  assert (La : 0 < length a) by (destruct a; [congruence|simpl; lia]).
  assert (Ll : length a + length b = k + S (length v)).
  { apply (f_equal (@length nat)) in E. rewrite !app_length, repeat_length in E. simpl in E. lia. }
  assert (0 < length b) by (destruct b; [congruence|simpl; lia]).
  rewrite Eb. rewrite skipn_app, repeat_length. destruct (Nat.le_gt_cases (length a) k) as [C|C].
  - replace (length a - k) with 0 by lia. cbn [skipn].
    replace (skipn (length a) (repeat 0 k)) with (repeat 0 (k - length a)); [apply G; lia|].
    replace k with (length a + (k - length a)) at 2 by lia. rewrite repeat_app, skipn_app, repeat_length, Nat.sub_diag.
    rewrite skipn_all2 by (rewrite repeat_length; lia). reflexivity.
  - rewrite skipn_all2 by (rewrite repeat_length; lia). cbn [app].
    replace (length a - k) with (S (length a - k - 1)) by lia. cbn [skipn].
    destruct (H (length a - k - 1) ltac:(lia)) as (j & r & Hj & ->). now apply G.
Qed.
Lemma first_one v : Forall (fun c => c < 2) v -> exists j r, j <= length v /\ v ++ [1] = repeat 0 j ++ 1 :: r.
Proof.
  induction v as [|c v IH]; intros F; [exists 0, []; split; [simpl; lia|reflexivity]|].
  inversion F; subst. destruct c as [|c].
  - destruct (IH H2) as (j & r & Hj & E). exists (S j), r. split; [simpl; lia|]. simpl. now rewrite E.
  - exists 0, (v ++ [1]). assert (c = 0) by lia. subst c. split; [simpl; lia|reflexivity].
Qed.
Lemma lyndon_padded k u : Forall (fun c => c < 2) u -> length u < k -> lyndon (repeat 0 k ++ 1 :: u ++ [1]).
Proof.
  intros F Hk. apply lyndon_block. intros i Hi. rewrite app_length in Hi. simpl in Hi.
  rewrite skipn_app. replace (i - length u) with 0 by lia. cbn [skipn].
  assert (F' : Forall (fun c => c < 2) (skipn i u)).
  { apply Forall_forall. intros x Hx. rewrite Forall_forall in F. apply F. rewrite <- (firstn_skipn i u). apply in_or_app. now right. }
  destruct (first_one _ F') as (j & r & Hj & E). exists j, r. split; [|exact E]. rewrite skipn_length in Hj. lia.
Qed.
Lemma NoDup_app_intro {A} (l1 l2 : list A) : NoDup l1 -> NoDup l2 -> (forall x, In x l1 -> In x l2 -> False) -> NoDup (l1 ++ l2).
Proof.
  induction 1 as [|x l Hx HN IH]; intros H2 HD; [exact H2|]. simpl. constructor.
  - intros Hi. apply in_app_or in Hi. destruct Hi as [Hi|Hi]; [contradiction|]. exact (HD x (or_introl eq_refl) Hi).
  - apply IH; [exact H2|]. intros y Hy. apply HD. now right.
Qed.
Fixpoint bitwords (n : nat) : list str :=
  match n with 0 => [[]] | S n => map (cons 0) (bitwords n) ++ map (cons 1) (bitwords n) end.
Lemma bitwords_ok n : length (bitwords n) = 2 ^ n /\ NoDup (bitwords n) /\ forall u, In u (bitwords n) -> length u = n /\ Forall (fun c => c < 2) u.
Proof.
  induction n as [|n (IL & IN & II)]; [repeat split; [repeat constructor; easy|destruct H; [subst|]; easy|destruct H; [subst|]; easy]|].
  cbn [bitwords]. split; [rewrite app_length, !map_length, IL; simpl; lia|]. split.
  - assert (Inj : forall c, NoDup (map (cons c) (bitwords n))).
    { intros c. apply FinFun.Injective_map_NoDup; [|exact IN]. intros x y E. now injection E. }
    apply NoDup_app_intro; [apply Inj|apply Inj|]. intros x H1 H2. apply in_map_iff in H1. apply in_map_iff in H2.
    destruct H1 as (y & <- & _). destruct H2 as (z & E & _). discriminate.
  - intros u Hu. apply in_app_or in Hu. destruct Hu as [Hu|Hu]; apply in_map_iff in Hu; destruct Hu as (v & <- & Hv); destruct (II v Hv) as (A & B); (split; [simpl; lia|]); constructor; auto.
Qed.
Lemma many_lyndon L k n max : (forall w, In w L <-> lyndon w /\ length w <= max /\ Forall (fun c => c < 2) w) ->
  n < k -> k + n + 2 <= max -> 2 ^ n <= length L.
Proof.
  intros HIn Hk Hm. destruct (bitwords_ok n) as (HLn & HN & HI). rewrite <- HLn.
  rewrite <- (map_length (fun u => repeat 0 k ++ 1 :: u ++ [1])). apply NoDup_incl_length.
  - apply FinFun.Injective_map_NoDup; [|exact HN]. intros x y E. apply app_inv_head in E. injection E as E. now apply app_inv_tail in E.
  - intros w Hw. apply in_map_iff in Hw. destruct Hw as (u & <- & Hu). destruct (HI u Hu) as (Lu & Fu). apply HIn. split; [|split].
    + apply lyndon_padded; [exact Fu|lia].
    + rewrite app_length, repeat_length. simpl. rewrite app_length. simpl. lia.
    + apply Forall_app. split; [apply Forall_forall; intros x Hx; rewrite (repeat_spec _ _ _ Hx); lia|]. constructor; [lia|].
      apply Forall_app. split; [exact Fu|repeat constructor].
Qed.
