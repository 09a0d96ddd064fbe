(** ParProof5.v : which conjugate max_lyndon_word (unfinished/parallel.rs) remembers. *)
From Verif Require Import Base SpecStr SpecBwt SpecIo SpecPar LexFacts RunFacts ModelIo ModelCore ModelMain ModelPar ModelPar2.
From Verif Require Import DuvalProof LyndonProof BwtFacts BwtProof BbwtProof IterProof LwgProof ParProof LockFacts ParProof2 ParProof3 ParProof4.

Section B.
Context (max q : nat) (L : list str).
Hypothesis HL : forall w, In w L -> w <> [] /\ length w <= max.
Notation MI := (MInv max L).
Notation b0 := (Best 0 0 []).
Ltac simp := cbn [m_iter m_iter_lock m_bwt_win m_bbwt_win m_tie_win m_best m_num m_num_lock m_total m_total_lock m_threads] in *.

Lemma m_check_val w r c cj b bs nc : seen L w r c cj b -> length bs = max -> (forall l, l < max -> best_ok L l (nth l bs b0)) ->
  m_check w r cj b bs = Ok nc ->
  let e := nth (length w - 1) bs b0 in
  (nc = true -> b_bwt e - b_bbwt e <= r - b) /\ (nc = false -> r - b <= b_bwt e - b_bbwt e).
Proof.
  intros ((Hw & _) & Hb & _) Hl HB. destruct (HL w Hw) as (H1 & H2). assert (1 <= length w) by (destruct w; [congruence|simpl; lia]).
  unfold m_check. rewrite sub_ok by lia. cbn [bind]. rewrite (get_ok bs _ b0) by lia. cbn [bind]. rewrite sub_ok by lia. cbn [bind].
  rewrite sub_ok; [cbn [bind]|].
  - intros E. injection E as <-. cbv zeta. destruct (Nat.ltb_spec (b_bwt (nth (length w - 1) bs b0) - b_bbwt (nth (length w - 1) bs b0)) (r - b)) as [C|C].
    + cbn [orb]. split; [lia|discriminate].
    + cbn [orb]. split; [intros X; apply andb_prop in X; destruct X as (X & _); apply Nat.eqb_eq in X; lia|lia].
  - destruct (HB (length w - 1) ltac:(lia)) as [->|(w' & i & _ & _ & _ & -> & H3)]; cbn [b_bwt b_bbwt]; lia.
Qed.
Lemma m_write_val w r c cj b bs bs' : seen L w r c cj b -> length bs = max -> m_write w r cj b bs = Ok bs' ->
  forall l, nth l bs' b0 = if l =? length w - 1 then Best r b cj else nth l bs b0.
Proof.
  intros ((Hw & _) & _) Hl. destruct (HL w Hw) as (H1 & H2). assert (1 <= length w) by (destruct w; [congruence|simpl; lia]).
  unfold m_write. rewrite sub_ok by lia. cbn [bind]. rewrite set_ok by lia. intros E. injection E as <-. intros l.
  destruct (Nat.eqb_spec l (length w - 1)) as [->|N]; [rewrite nth_upd_eq by lia; reflexivity|]. now rewrite nth_upd_ne by auto.
Qed.
(** the shape of the step at a conjugate *)
Lemma m_conj_val w r c w1 w2 w3 : at_pos L w r c -> (forall k, length (sel k (w1, w2, w3)) = max) ->
  (cit_pos c = length w /\ exists c', m_conj w r c w1 w2 w3 = Ok (None, c')) \/
  (cit_pos c < length w /\ exists v1 v2 v3, m_conj w r c w1 w2 w3 = Ok (Some (rot (cit_pos c) w, bbr (rot (cit_pos c) w), (v1, v2, v3)), CIT w (cit_pos c + 1)) /\
     forall l, l < max -> nth l v2 0 = nth l w2 0 + (if (length w - 1 =? l) && (cls w (cit_pos c) =? 1) then 1 else 0)).
Proof.
  intros (Hw & -> & Hc & Hp) HW. destruct c as [ct p]. cbn [cit_text cit_pos] in *. subst ct.
  destruct (Nat.eq_dec p (length w)) as [->|N].
  - left. split; [reflexivity|]. eexists. exact (m_conj_end w (w1, w2, w3)).
  - right. split; [lia|]. destruct (m_conj_ok max L HL w p (w1, w2, w3) Hw ltac:(lia) HW) as (((v1, v2), v3) & E & _ & Hv).
    exists v1, v2, v3. split; [exact E|]. intros l Hl. exact (Hv 1 l Hl).
Qed.
Lemma wins_sel it itl w1 w2 w3 bs num numl tot totl ths k : wins (Mst it itl w1 w2 w3 bs num numl tot totl ths) k = sel k (w1, w2, w3).
Proof. destruct k as [|[|k]]; reflexivity. Qed.

(** ** any number of threads: something is remembered as soon as there is something to remember *)
Definition pendl (l : nat) (t : mpc) : Prop :=
  match t with MCheck w _ _ _ _ | MWrite w _ _ _ _ => length w - 1 = l | _ => False end.
Definition Z (s : mst) : Prop := forall l, l < max -> 0 < nth l (m_bbwt_win s) 0 ->
  b_bbwt (nth l (m_best s) b0) < b_bwt (nth l (m_best s) b0) \/ exists j t, nth_error (m_threads s) j = Some t /\ pendl l t.
Lemma z_step m s i s' : MI m s -> Z s -> m_step max q i s = Some s' -> Z s'.
Proof.
  intros HI HZ E. destruct HI as (L1 & L2 & EL & HI & HW & HB & HNl & HC & HN & HT & HG & K1 & K2 & K3 & HBo & KF & KN & Em).
  destruct s as [it itl w1 w2 w3 bs num numl tot totl ths]. simp.
  unfold m_step in E. destruct (nth_error ths i) as [t|] eqn:Et; [|discriminate].
  assert (Hgt : mgood max L t) by (apply (proj1 (Forall_forall _ _) HG); eapply nth_error_In; eauto).
  assert (KEEP : forall x l, ~ pendl l t -> (exists j u, nth_error ths j = Some u /\ pendl l u) -> exists j u, nth_error (upd ths i x) j = Some u /\ pendl l u).
  { intros x l Nt (j & u & Ej & Hu). exists j, u. split; [|exact Hu]. rewrite nth_error_upd_ne; [exact Ej|]. intros ->. rewrite Et in Ej. injection Ej as <-. contradiction. }
  assert (NEW : forall x l, pendl l x -> exists j u, nth_error (upd ths i x) j = Some u /\ pendl l u).
  { intros x l Hx. exists i, x. split; [eapply nth_error_upd_eq; eauto|exact Hx]. }
  unfold Z in *. simp.
  assert (SIMPLE : (forall l, ~ pendl l t) -> bs = m_best s' -> w2 = m_bbwt_win s' -> (exists x, m_threads s' = upd ths i x) ->
    forall l, l < max -> 0 < nth l (m_bbwt_win s') 0 ->
    b_bbwt (nth l (m_best s') b0) < b_bwt (nth l (m_best s') b0) \/ exists j u, nth_error (m_threads s') j = Some u /\ pendl l u).
  { intros Nt <- <- (x & ->) l Hl Hp. destruct (HZ l Hl Hp) as [H|H]; [now left|right; apply KEEP; auto]. }
  destruct t; try (apply SIMPLE; [intros l; exact (fun x => x)|
      repeat match goal with
      | H : match ?y with _ => _ end = Some _ |- _ => destruct y eqn:?
      | H : Some _ = Some _ |- _ => injection H as <-
      | H : None = Some _ |- _ => discriminate H
      end; simp; first [reflexivity|eexists; reflexivity]..]).
  - (* MConj *)
    cbn [mgood] in Hgt. assert (HW' : forall k, length (sel k (w1, w2, w3)) = max) by (intros k; rewrite <- (HW k); f_equal; symmetry; apply wins_sel).
    destruct (m_conj_val text bwt_runs it0 w1 w2 w3 Hgt HW') as [(Hp & c' & Ec)|(Hp & v1 & v2 & v3 & Ec & Hv)]; rewrite Ec in E; injection E as <-; simp.
    + intros l Hl H2. destruct (HZ l Hl H2) as [H|H]; [now left|]. right. apply KEEP; [exact (fun x => x)|exact H].
    + intros l Hl H2. rewrite (Hv l Hl) in H2. destruct Hgt as (Hw & -> & Hct & Hcp).
      destruct (Nat.eqb_spec (length text - 1) l) as [El|Nl]; [destruct (Nat.eqb_spec (cls text (cit_pos it0)) 1) as [Ek|Nk]|]; cbn [andb] in H2.
      * right. apply NEW. unfold cls in Ek. destruct (bwr text <? bbr (rot (cit_pos it0) text)); [discriminate|].
        destruct (bbr (rot (cit_pos it0) text) <? bwr text); [exact El|discriminate].
      * rewrite Nat.add_0_r in H2. destruct (HZ l Hl H2) as [H|H]; [now left|]. right. apply KEEP; [exact (fun x => x)|exact H].
      * rewrite Nat.add_0_r in H2. destruct (HZ l Hl H2) as [H|H]; [now left|]. right. apply KEEP; [exact (fun x => x)|exact H].
  - (* MCheck *)
    cbn [mgood] in Hgt. destruct (m_check text bwt_runs cj bbwt_runs bs) as [nc| |] eqn:Ec; [|destruct (m_check_ok max L HL text bwt_runs it0 cj bbwt_runs bs Hgt HB HBo) as (nc & X); congruence..].
    injection E as <-. simp. intros l Hl H2. destruct (Nat.eq_dec (length text - 1) l) as [El|Nl].
    + destruct nc; [right; apply NEW; exact El|]. left. pose proof (proj2 (m_check_val _ _ _ _ _ _ _ Hgt HB HBo Ec) eq_refl) as C.
      rewrite El in C. destruct Hgt as (_ & Hb & _). lia.
    + destruct (HZ l Hl H2) as [H|H]; [now left|]. right. apply KEEP; [exact Nl|exact H].
  - (* MWrite *)
    cbn [mgood] in Hgt. destruct (m_write text bwt_runs cj bbwt_runs bs) as [bs'| |] eqn:Ec;
      [|destruct (m_write_ok max L HL text bwt_runs it0 cj bbwt_runs bs Hgt HB HBo) as (nc & X & _); congruence..].
    injection E as <-. simp. intros l Hl H2. rewrite (m_write_val _ _ _ _ _ _ _ Hgt HB Ec).
    destruct (Nat.eqb_spec l (length text - 1)) as [El|Nl].
    + left. cbn [b_bwt b_bbwt]. destruct Hgt as (_ & Hb & _). exact Hb.
    + destruct (HZ l Hl H2) as [H|H]; [now left|]. right. apply KEEP; [intros X; cbn [pendl] in X; congruence|exact H].
Qed.
Lemma z_run sched : forall m s s', MI m s -> Z s -> m_run max q sched s = Some s' -> Z s'.
Proof.
  induction sched as [|i sched IH]; intros m s s' H HZ E; cbn [m_run] in E; [now injection E as <-|].
  destruct (m_step max q i s) as [s1|] eqn:E1; [|discriminate]. destruct (minv_step max q L HL m s i s1 H E1) as (m1 & Hm & H1).
  exact (IH m1 s1 s' H1 (z_step m s i s1 H HZ E1) E).
Qed.
Lemma z_init threads : Z (m_init max threads).
Proof. intros l Hl H. unfold m_init in H. simp. rewrite nth_repeat in H. lia. Qed.

(** ** one thread: the remembered conjugate is a best one *)
Definition is_cur (t : mpc) (w : str) (i : nat) : Prop := match cur t with Some (w', p) => w = w' -> i < p | None => True end.
Definition diff (b : best) : nat := b_bwt b - b_bbwt b.
Definition OInv (s : mst) : Prop := exists t, m_threads s = [t] /\
  (forall w i, In w (firstn (m_total s + ftot t) L) -> i < length w -> is_cur t w i ->
     bwr w - bbr (rot i w) <= diff (nth (length w - 1) (m_best s) b0) \/
     match t with MCheck w' _ _ cj _ | MWrite w' _ _ cj _ => w = w' /\ rot i w = cj | _ => False end) /\
  match t with MWrite w r _ _ b => diff (nth (length w - 1) (m_best s) b0) <= r - b | _ => True end.
Lemma o_step m s i s' : MI m s -> OInv s -> m_step max q i s = Some s' -> OInv s'.
Proof.
  intros HI (t & Eth & HO & HO2) E. destruct HI as (L1 & L2 & EL & HI & HW & HB & HNl & HC & HN & HT & HG & K1 & K2 & K3 & HBo & KF & KN & Em).
  destruct s as [it itl w1 w2 w3 bs num numl tot totl ths]. simp. subst ths.
  assert (i = 0) by (unfold m_step in E; destruct i as [|[|i]]; [reflexivity|discriminate..]). subst i.
  unfold m_step in E. cbn [nth_error] in E. assert (Hgt : mgood max L t) by (inversion HG; assumption).
  assert (LT : tot + ftot t = length L1) by (unfold msum in HT; simpl in HT; lia).
  assert (FL : firstn (tot + ftot t) L = L1) by (rewrite LT, EL, firstn_app, Nat.sub_diag, firstn_all, app_nil_r; reflexivity).
  rewrite FL in HO.
  assert (SIMPLE : forall it' itl' v1 v2 v3 num' numl' tot' totl' x, cur t = None -> cur x = None ->
    tot' + ftot x = tot + ftot t -> OInv (Mst it' itl' v1 v2 v3 bs num' numl' tot' totl' [x])).
  { intros it' itl' v1 v2 v3 num' numl' tot' totl' x Ct Cx Ex. exists x. simp. split; [reflexivity|].
    assert (Nt : match t with MCheck _ _ _ _ _ | MWrite _ _ _ _ _ => False | _ => True end) by (destruct t; (exact I || discriminate)).
    split; [|destruct x; (exact I || discriminate)]. rewrite Ex, FL. intros w i Hw Hi _.
    destruct (HO w i Hw Hi) as [H|H]; [unfold is_cur; now rewrite Ct|now left|]. destruct t; contradiction. }
  pose proof (lock_not_poisoned _ _ _ K1) as P1. pose proof (lock_not_poisoned _ _ _ K2) as P2. pose proof (lock_not_poisoned _ _ _ K3) as P3.
  assert (IO : forall l, mgood max L (MNum l) -> exists v, incr num l = Ok v).
  { intros l Hl. destruct (incr_ok max num l HNl Hl) as (v & Ev & _). eauto. }
  destruct t; try (destruct (IO _ Hgt) as (vv & Evv); rewrite Evv in E); try (repeat match goal with
      | H : match ?y with _ => _ end = Some _ |- _ => destruct y eqn:?
      | H : Some _ = Some _ |- _ => injection H as <-
      | H : None = Some _ |- _ => discriminate H
      end; try congruence; cbn [upd]; apply SIMPLE; [reflexivity|reflexivity|first [reflexivity|unfold ftot; cbn [cur]; lia]]).
  all: try discriminate.
  - (* MFetching *)
    destruct (next_step it L2 HI) as (it' & Eit & HI'). rewrite Eit in E. destruct L2 as [|w L2]; cbn [hd_error] in E; injection E as <-; cbn [upd].
    + apply SIMPLE; reflexivity.
    + exists (MStart w). simp. split; [reflexivity|]. split; [|exact I].
      change (ftot MFetching) with 0 in *. change (ftot (MStart w)) with 1.
      assert (FL' : firstn (tot + 1) L = L1 ++ [w]).
      { rewrite Nat.add_0_r in LT. rewrite LT, EL. rewrite firstn_app, firstn_all2 by lia. replace (length L1 + 1 - length L1) with 1 by lia. reflexivity. }
      rewrite FL'. intros u i Hu Hi Hc. apply in_app_or in Hu. unfold is_cur in Hc. cbn [cur] in Hc. destruct Hu as [Hu|[Hu|[]]].
      * destruct (HO u i Hu Hi I) as [H|H]; [now left|contradiction].
      * specialize (Hc (eq_sym Hu)). lia.
  - (* MStart *)
    cbn [mgood] in Hgt. rewrite (m_start_ok max L HL text Hgt) in E. injection E as <-. cbn [upd].
    eexists. simp. split; [reflexivity|]. split; [|exact I]. change (ftot _) with (ftot (MStart text)). rewrite FL.
    intros w i Hw Hi Hc. destruct (HO w i Hw Hi Hc) as [H|H]; [now left|contradiction].
  - (* MConj *)
    cbn [mgood] in Hgt. assert (HW' : forall k, length (sel k (w1, w2, w3)) = max) by (intros k; rewrite <- (HW k); f_equal; symmetry; apply wins_sel).
    destruct (m_conj_val text bwt_runs it0 w1 w2 w3 Hgt HW') as [(Hp & c' & Ec)|(Hp & v1 & v2 & v3 & Ec & Hv)]; rewrite Ec in E; injection E as <-; cbn [upd].
    + eexists. simp. split; [reflexivity|]. split; [|exact I]. change (ftot _) with (ftot (MConj text bwt_runs it0)). rewrite FL.
      intros w i Hw Hi _. destruct (HO w i Hw Hi) as [H|H]; [|now left|contradiction]. unfold is_cur. cbn [cur]. intros ->. lia.
    + destruct Hgt as (Hw & -> & Hct & Hcp). eexists. simp. split; [reflexivity|].
      assert (G : forall u i, In u L1 -> i < length u -> (u = text -> i < cit_pos it0 + 1) ->
         bwr u - bbr (rot i u) <= diff (nth (length u - 1) bs b0) \/ (u = text /\ i = cit_pos it0)).
      { intros u i Hu Hi Hc. destruct (str_dec u text) as [->|Nu]; [|destruct (HO u i Hu Hi) as [H|H]; [intros X; contradiction|now left|contradiction]].
        destruct (Nat.eq_dec i (cit_pos it0)); [auto|]. specialize (Hc eq_refl).
        destruct (HO text i Hu Hi) as [H|H]; [intros _; lia|now left|contradiction]. }
      destruct (Nat.ltb_spec (bbr (rot (cit_pos it0) text)) (bwr text)) as [C|C].
      * split; [|exact I]. change (ftot _) with (ftot (MConj text (bwr text) it0)). rewrite FL. intros u i Hu Hi Hc.
        unfold is_cur in Hc. cbn [cur cit_pos] in Hc. destruct (G u i Hu Hi Hc) as [H|(-> & ->)]; [now left|]. right. auto.
      * split; [|exact I]. change (ftot _) with (ftot (MConj text (bwr text) it0)). rewrite FL. intros u i Hu Hi Hc.
        unfold is_cur in Hc. cbn [cur cit_pos] in Hc. destruct (G u i Hu Hi Hc) as [H|(-> & ->)]; [now left|]. left. lia.
  - (* MCheck *)
    cbn [mgood] in Hgt. destruct (m_check text bwt_runs cj bbwt_runs bs) as [nc| |] eqn:Ec; [|destruct (m_check_ok max L HL text bwt_runs it0 cj bbwt_runs bs Hgt HB HBo) as (nc & X); congruence..].
    injection E as <-. cbn [upd]. eexists. simp. split; [reflexivity|].
    destruct (m_check_val _ _ _ _ _ _ _ Hgt HB HBo Ec) as (C1 & C2). destruct nc.
    + split; [|exact (C1 eq_refl)]. change (ftot _) with (ftot (MCheck text bwt_runs it0 cj bbwt_runs)). rewrite FL. exact HO.
    + split; [|exact I]. change (ftot _) with (ftot (MCheck text bwt_runs it0 cj bbwt_runs)). rewrite FL.
      intros w i Hw Hi Hc. left. destruct (HO w i Hw Hi Hc) as [H|(-> & H)]; [exact H|]. specialize (C2 eq_refl). unfold diff.
      destruct Hgt as ((_ & -> & _) & _ & -> & _). rewrite H. exact C2.
  - (* MWrite *)
    cbn [mgood] in Hgt. destruct (m_write text bwt_runs cj bbwt_runs bs) as [bs'| |] eqn:Ec;
      [|destruct (m_write_ok max L HL text bwt_runs it0 cj bbwt_runs bs Hgt HB HBo) as (nc & X & _); congruence..].
    injection E as <-. cbn [upd]. eexists. simp. split; [reflexivity|]. split; [|exact I].
    change (ftot _) with (ftot (MWrite text bwt_runs it0 cj bbwt_runs)). rewrite FL. intros w i Hw Hi Hc. left.
    rewrite (m_write_val _ _ _ _ _ _ _ Hgt HB Ec). destruct (HO w i Hw Hi Hc) as [H|(-> & H)].
    + destruct (Nat.eqb_spec (length w - 1) (length text - 1)) as [El|Nl]; [|exact H]. rewrite El in H. unfold diff at 1. cbn [b_bwt b_bbwt]. lia.
    + rewrite Nat.eqb_refl. unfold diff. cbn [b_bwt b_bbwt]. destruct Hgt as ((_ & -> & _) & _ & -> & _). rewrite H. lia.
  - destruct (tot mod q =? 0); injection E as <-; cbn [upd]; apply SIMPLE; reflexivity.
Qed.
Lemma o_run sched : forall m s s', MI m s -> OInv s -> m_run max q sched s = Some s' -> OInv s'.
Proof.
  induction sched as [|i sched IH]; intros m s s' H HZ E; cbn [m_run] in E; [now injection E as <-|].
  destruct (m_step max q i s) as [s1|] eqn:E1; [|discriminate]. destruct (minv_step max q L HL m s i s1 H E1) as (m1 & Hm & H1).
  exact (IH m1 s1 s' H1 (o_step m s i s1 H HZ E1) E).
Qed.
Lemma o_init : OInv (m_init max 1).
Proof. exists MFetch. split; [reflexivity|]. split; [|exact I]. intros w i Hw. unfold m_init, ftot in Hw. simpl in Hw. contradiction. Qed.
End B.
