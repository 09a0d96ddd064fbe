(** ParProof6.v : with one worker, max_lyndon_word (unfinished/parallel.rs) remembers the first best conjugate. *)
From Verif Require Import Base SpecStr SpecBwt SpecIo SpecPar LexFacts RunFacts ModelIo ModelCore ModelMain ModelPar ModelPar2.
From Verif Require Import DuvalProof LyndonProof BwtFacts BwtProof BbwtProof IterProof LwgProof ParProof LockFacts ParProof2 ParProof3 ParProof4 ParProof5.

Lemma no_48 w i : Forall (fun c => c < 2) w -> filter (fun c => c =? 48) (rot i w) = [].
Proof.
  intros H. assert (H' : Forall (fun c => c < 2) (rot i w)).
  { rewrite Forall_forall in *. intros x Hx. apply H. unfold rot in Hx. apply in_app_or in Hx. rewrite <- (firstn_skipn i w).
    apply in_or_app. tauto. }
  induction H' as [|c v Hc Hv IH]; [reflexivity|]. cbn [filter]. destruct (Nat.eqb_spec c 48); [lia|exact IH].
Qed.
Definition before (w' : str) (i' : nat) (w : str) (i : nat) : Prop := lex_lt w' w \/ (w' = w /\ i' < i).
Lemma before_asym u i v j : before u i v j -> before v j u i -> False.
Proof.
  intros [A|(-> & A)] [B|(B & C)].
  - exact (lex_lt_irrefl _ (lex_lt_trans _ _ _ A B)).
  - subst. exact (lex_lt_irrefl _ A).
  - exact (lex_lt_irrefl _ B).
  - lia.
Qed.
Definition pdiff (w : str) (i : nat) : nat := bwr w - bbr (rot i w).
Definition BestOf (D : str -> nat -> Prop) (l : nat) (e : best) : Prop :=
  (e = Best 0 0 [] /\ forall w i, D w i -> length w = l + 1 -> pdiff w i = 0) \/
  (exists w i, D w i /\ length w = l + 1 /\ e = Best (bwr w) (bbr (rot i w)) (rot i w) /\ bbr (rot i w) < bwr w /\
     forall w' i', D w' i' -> length w' = l + 1 -> pdiff w' i' <= pdiff w i /\ (before w' i' w i -> pdiff w' i' < pdiff w i)).
Lemma BestOf_ext D D' l e : (forall w i, D w i <-> D' w i) -> BestOf D l e -> BestOf D' l e.
Proof.
  intros H [(-> & A)|(w & i & A1 & A2 & A3 & A4 & A5)].
  - left. split; [reflexivity|]. intros w i Hd. apply A. now apply H.
  - right. exists w, i. split; [now apply H|]. repeat split; auto; apply A5; auto; now apply H.
Qed.
Section Add.
Context (D D' : str -> nat -> Prop) (w : str) (p : nat).
Context (HD : forall u j, D u j -> before u j w p) (HD' : forall u j, D' u j <-> D u j \/ (u = w /\ j = p)).
Lemma BestOf_other l e : length w <> l + 1 -> BestOf D l e -> BestOf D' l e.
Proof.
  intros N [(-> & A)|(v & i & A1 & A2 & A3 & A4 & A5)].
  - left. split; [reflexivity|]. intros u j Hd Hl. apply HD' in Hd. destruct Hd as [Hd|(-> & ->)]; [auto|contradiction].
  - right. exists v, i. split; [apply HD'; auto|]. split; [exact A2|]. split; [exact A3|]. split; [exact A4|].
    intros u j Hd Hl. apply HD' in Hd. destruct Hd as [Hd|(-> & ->)]; [auto|contradiction].
Qed.
Lemma BestOf_keep l e : pdiff w p <= diff e -> BestOf D l e -> BestOf D' l e.
Proof.
  intros C [(-> & A)|(v & i & A1 & A2 & A3 & A4 & A5)].
  - left. split; [reflexivity|]. intros u j Hd Hl. apply HD' in Hd. destruct Hd as [Hd|(-> & ->)]; [auto|].
    unfold diff in C. cbn [b_bwt b_bbwt] in C. lia.
  - right. exists v, i. split; [apply HD'; auto|]. split; [exact A2|]. split; [exact A3|]. split; [exact A4|].
    intros u j Hd Hl. apply HD' in Hd. destruct Hd as [Hd|(-> & ->)]; [auto|]. subst e. unfold diff in C. cbn [b_bwt b_bbwt] in C.
    split; [exact C|]. intros B. exfalso. exact (before_asym _ _ _ _ (HD _ _ A1) B).
Qed.
Lemma BestOf_new l e : length w = l + 1 -> diff e < pdiff w p -> BestOf D l e -> BestOf D' l (Best (bwr w) (bbr (rot p w)) (rot p w)).
Proof.
  intros El C HB. right. exists w, p. split; [apply HD'; auto|]. split; [exact El|]. split; [reflexivity|].
  split; [unfold pdiff in C; lia|]. intros u j Hd Hl. apply HD' in Hd. destruct Hd as [Hd|(-> & ->)].
  - assert (pdiff u j < pdiff w p); [|split; [lia|auto]]. destruct HB as [(-> & A)|(v & i & A1 & A2 & A3 & A4 & A5)].
    + rewrite (A u j Hd Hl). lia.
    + destruct (A5 u j Hd Hl) as (A6 & _). subst e. unfold diff in C. cbn [b_bwt b_bbwt] in C. fold (pdiff v i) in C. lia.
  - split; [lia|]. intros B. exfalso. exact (before_asym _ _ _ _ B B).
Qed.
End Add.

Section B.
Context (max q : nat) (L : list str).
Context (HL : forall w, In w L -> w <> [] /\ length w <= max) (HS : StronglySorted lex_lt L).
Context (HA : forall w, In w L -> Forall (fun c => c < 2) w).
Notation MI := (MInv max L).
Notation b0 := (Best 0 0 []).
Ltac simp := cbn [m_iter m_iter_lock m_bwt_win m_bbwt_win m_tie_win m_best m_num m_num_lock m_total m_total_lock m_threads] in *.

(** the secondary criterion never decides *)
Lemma m_check_strict w r c cj b bs nc : seen L w r c cj b -> length bs = max -> (forall l, l < max -> best_ok L l (nth l bs b0)) ->
  m_check w r cj b bs = Ok nc -> nc = true -> diff (nth (length w - 1) bs b0) < r - b.
Proof.
  intros Hsn Hl HB. pose proof Hsn as ((Hw & _) & Hb & _ & i & Hi & Ej). destruct (HL w Hw) as (H1 & H2). assert (1 <= length w) by (destruct w; [congruence|simpl; lia]).
  unfold m_check. rewrite sub_ok by lia. cbn [bind]. rewrite (get_ok bs _ b0) by lia. cbn [bind]. rewrite sub_ok by lia. cbn [bind].
  pose proof (HB (length w - 1) ltac:(lia)) as HBo.
  rewrite sub_ok; [cbn [bind]|].
  - intros E -> . injection E as E. unfold diff. apply orb_prop in E. destruct E as [E|E]; [now apply Nat.ltb_lt in E|].
    apply andb_prop in E. destruct E as (_ & E). exfalso. unfold second_criteria in E. apply Nat.ltb_lt in E.
    destruct HBo as [Eb|(w' & i' & Hw' & _ & _ & Eb & H3)]; rewrite Eb in E; cbn [b_text] in E.
    + cbn [filter length] in E. lia.
    + rewrite (no_48 w' i' (HA w' Hw')) in E. cbn [length] in E. lia.
  - destruct HBo as [->|(w' & i' & _ & _ & _ & -> & H3)]; cbn [b_bwt b_bbwt]; lia.
Qed.
Definition dn (t : mpc) (w : str) (i : nat) : Prop :=
  match t with
  | MStart w' => w <> w'
  | MConj w' _ c => w = w' -> i < cit_pos c
  | MCheck w' _ c _ _ | MWrite w' _ c _ _ => w = w' -> i + 1 < cit_pos c
  | _ => True
  end.
Definition done (k : nat) (t : mpc) (w : str) (i : nat) : Prop := In w (firstn (k + ftot t) L) /\ i < length w /\ dn t w i.
Definition pnd (t : mpc) (bs : list best) : Prop :=
  match t with
  | MCheck w r c cj b => 1 <= cit_pos c /\ cj = rot (cit_pos c - 1) w
  | MWrite w r c cj b => 1 <= cit_pos c /\ cj = rot (cit_pos c - 1) w /\ diff (nth (length w - 1) bs b0) < r - b
  | _ => True
  end.
Definition FInv (s : mst) : Prop := exists t, m_threads s = [t] /\
  (forall l, l < max -> BestOf (done (m_total s) t) l (nth l (m_best s) b0)) /\ pnd t (m_best s) /\
  (forall w p u, cur t = Some (w, p) -> In u (firstn (m_total s + ftot t) L) -> u = w \/ lex_lt u w) /\
  (forall w p, cur t = Some (w, p) -> In w (firstn (m_total s + ftot t) L)).
Lemma sorted_app (l : list str) w l2 : StronglySorted lex_lt (l ++ w :: l2) -> forall u, In u l -> lex_lt u w.
Proof.
  induction l as [|x l IH]; intros H u Hu; [contradiction|]. cbn [app] in H. inversion H as [|? ? H1 H2]; subst.
  destruct Hu as [->|Hu]; [|now apply IH]. rewrite Forall_forall in H2. apply H2. apply in_or_app. right. now left.
Qed.
Lemma f_step m s i s' : MI m s -> FInv s -> m_step max q i s = Some s' -> FInv s'.
Proof.
  intros HI (t & Eth & HO & HP & HC1 & HC2) E. destruct HI as (L1 & L2 & EL & HI & HW & HB & HNl & HC & HN & HT & HG & K1 & K2 & K3 & HBo & KF & KN & Em).
  destruct s as [it itl w1 w2 w3 bs num numl tot totl ths]. simp. subst ths.
  assert (i = 0) by (unfold m_step in E; destruct i as [|[|i]]; [reflexivity|discriminate..]). subst i.
  unfold m_step in E. cbn [nth_error] in E. assert (Hgt : mgood max L t) by (inversion HG; assumption).
  assert (LT : tot + ftot t = length L1) by (unfold msum in HT; simpl in HT; lia).
  assert (FL : firstn (tot + ftot t) L = L1) by (rewrite LT, EL, firstn_app, Nat.sub_diag, firstn_all, app_nil_r; reflexivity).
  rewrite FL in HC1, HC2.
  assert (HO' : forall l, l < max -> BestOf (fun w i => In w L1 /\ i < length w /\ dn t w i) l (nth l bs b0)).
  { intros l Hl. eapply BestOf_ext; [|exact (HO l Hl)]. intros w i. unfold done. now rewrite FL. }
  clear HO. rename HO' into HO.
  assert (SIMPLE : forall it' itl' v1 v2 v3 num' numl' tot' totl' x, cur t = None -> cur x = None ->
    tot' + ftot x = tot + ftot t -> FInv (Mst it' itl' v1 v2 v3 bs num' numl' tot' totl' [x])).
  { intros it' itl' v1 v2 v3 num' numl' tot' totl' x Ct Cx Ex. exists x. simp. split; [reflexivity|]. rewrite Ex, FL.
    split; [|split; [destruct x; (exact I || discriminate)|split; congruence]].
    intros l Hl. eapply BestOf_ext; [|exact (HO l Hl)]. intros w i. unfold done. rewrite Ex, FL.
    destruct t; try discriminate; destruct x; try discriminate; cbn [dn]; tauto. }
  pose proof (lock_not_poisoned _ _ _ K1) as P1. pose proof (lock_not_poisoned _ _ _ K2) as P2. pose proof (lock_not_poisoned _ _ _ K3) as P3.
  assert (IO : forall l, mgood max L (MNum l) -> exists v, incr num l = Ok v).
  { intros l Hl. destruct (incr_ok max num l HNl Hl) as (v & Ev & _). eauto. }
  destruct t; try (destruct (IO _ Hgt) as (vv & Evv); rewrite Evv in E); try (repeat match goal with
      | H : match ?y with _ => _ end = Some _ |- _ => destruct y eqn:?
      | H : Some _ = Some _ |- _ => injection H as <-
      | H : None = Some _ |- _ => discriminate H
      end; try congruence; cbn [upd]; apply SIMPLE; [reflexivity|reflexivity|first [reflexivity|unfold ftot; cbn [cur]; lia]]).
  all: try discriminate.
  - (* MFetching *)
    destruct (next_step it L2 HI) as (it' & Eit & HI'). rewrite Eit in E. destruct L2 as [|w L2]; cbn [hd_error] in E; injection E as <-; cbn [upd].
    + apply SIMPLE; reflexivity.
    + exists (MStart w). simp. split; [reflexivity|].
      change (ftot MFetching) with 0 in *. change (ftot (MStart w)) with 1.
      assert (FL' : firstn (tot + 1) L = L1 ++ [w]).
      { rewrite Nat.add_0_r in LT. rewrite LT, EL. rewrite firstn_app, firstn_all2 by lia. replace (length L1 + 1 - length L1) with 1 by lia. reflexivity. }
      assert (SL : forall u, In u L1 -> lex_lt u w) by (rewrite EL in HS; exact (sorted_app L1 w L2 HS)).
      rewrite FL'. split; [|split; [exact I|split]].
      * intros l Hl. eapply BestOf_ext; [|exact (HO l Hl)]. intros u i. unfold done. change (ftot (MStart w)) with 1. rewrite FL'. cbn [dn].
        split; [intros (A1 & A2 & _); split; [apply in_or_app; auto|]; split; [exact A2|]; intros ->; exact (lex_lt_irrefl _ (SL _ A1))|].
        intros (A1 & A2 & A3). apply in_app_or in A1. destruct A1 as [A1|[A1|[]]]; [auto|]. symmetry in A1. contradiction.
      * intros v p u Ev Hu. cbn [cur] in Ev. injection Ev as <- <-. apply in_app_or in Hu. destruct Hu as [Hu|[Hu|[]]]; [right; now apply SL|left; congruence].
      * intros v p Ev. cbn [cur] in Ev. injection Ev as <- <-. apply in_or_app. right. now left.
  - (* MStart *)
    cbn [mgood] in Hgt. rewrite (m_start_ok max L HL text Hgt) in E. injection E as <-. cbn [upd].
    eexists. simp. split; [reflexivity|]. change (ftot _) with (ftot (MStart text)). rewrite FL. split; [|split; [exact I|split]].
    + intros l Hl. eapply BestOf_ext; [|exact (HO l Hl)]. intros u i. unfold done. change (ftot _) with (ftot (MStart text)). rewrite FL. cbn [dn cit_new cit_pos].
      split; intros (A1 & A2 & A3); (split; [exact A1|]); (split; [exact A2|]); [intros ->; contradiction|intros ->; specialize (A3 eq_refl); lia].
    + intros v p u Ev. cbn [cur] in Ev. injection Ev as <- <-. eapply HC1. reflexivity.
    + intros v p Ev. cbn [cur] in Ev. injection Ev as <- <-. eapply HC2. reflexivity.
  - (* MConj *)
    cbn [mgood] in Hgt. assert (HW' : forall k, length (sel k (w1, w2, w3)) = max) by (intros k; rewrite <- (HW k); f_equal; symmetry; apply wins_sel).
    destruct (m_conj_val max L HL text bwt_runs it0 w1 w2 w3 Hgt HW') as [(Hp & c' & Ec)|(Hp & v1 & v2 & v3 & Ec & Hv)]; rewrite Ec in E; injection E as <-; cbn [upd].
    + eexists. simp. split; [reflexivity|]. change (ftot _) with (ftot (MConj text bwt_runs it0)). rewrite FL. split; [|split; [exact I|split; intros; discriminate]].
      intros l Hl. eapply BestOf_ext; [|exact (HO l Hl)]. intros u i. unfold done. change (ftot _) with (ftot (MConj text bwt_runs it0)). rewrite FL. cbn [dn].
      split; intros (A1 & A2 & A3); (split; [exact A1|]); (split; [exact A2|]); [exact I|intros ->; lia].
    + destruct Hgt as (Hw & -> & Hct & Hcp). eexists. simp. split; [reflexivity|].
      assert (HCC : forall x, cur x = Some (text, cit_pos it0 + 1) -> ftot x = 1 ->
        (forall w p u, cur x = Some (w, p) -> In u (firstn (tot + ftot x) L) -> u = w \/ lex_lt u w) /\
        (forall w p, cur x = Some (w, p) -> In w (firstn (tot + ftot x) L))).
      { intros x Hx Hf. rewrite Hx, Hf. change 1 with (ftot (MConj text (bwr text) it0)). rewrite FL. split.
        - intros v p u Ev. injection Ev as <- <-. eapply HC1. reflexivity.
        - intros v p Ev. injection Ev as <- <-. eapply HC2. reflexivity. }
      destruct (Nat.ltb_spec (bbr (rot (cit_pos it0) text)) (bwr text)) as [C|C].
      * split; [|split; [cbn [pnd cit_pos]; split; [lia|]; f_equal; lia|apply HCC; reflexivity]].
        intros l Hl. eapply BestOf_ext; [|exact (HO l Hl)]. intros u i. unfold done. change (ftot _) with (ftot (MConj text (bwr text) it0)). rewrite FL. cbn [dn cit_pos].
        split; intros (A1 & A2 & A3); (split; [exact A1|]); (split; [exact A2|]); intros Q; specialize (A3 Q); lia.
      * split; [|split; [exact I|apply HCC; reflexivity]].
        intros l Hl. eapply (BestOf_keep _ _ text (cit_pos it0)); [| |unfold pdiff; lia|exact (HO l Hl)].
        -- intros u j (A1 & A2 & A3). cbn [dn] in A3. destruct (HC1 text (cit_pos it0) u eq_refl A1) as [->|B]; [right; auto|now left].
        -- intros u j. unfold done. change (ftot _) with (ftot (MConj text (bwr text) it0)). rewrite FL. cbn [dn cit_pos]. split.
           ++ intros (A1 & A2 & A3). destruct (str_dec u text) as [->|Nu]; [|left; repeat split; auto; intros; contradiction].
              specialize (A3 eq_refl). destruct (Nat.eq_dec j (cit_pos it0)); [auto|]. left. repeat split; auto. intros _. lia.
           ++ intros [(A1 & A2 & A3)|(-> & ->)]; [repeat split; auto; intros Q; specialize (A3 Q); lia|].
              split; [eapply HC2; reflexivity|]. split; [exact Hp|]. intros _. lia.
  - (* MCheck *)
    cbn [mgood] in Hgt. destruct (m_check text bwt_runs cj bbwt_runs bs) as [nc| |] eqn:Ec; [|destruct (m_check_ok max L HL text bwt_runs it0 cj bbwt_runs bs Hgt HB HBo) as (nc & X); congruence..].
    injection E as <-. cbn [upd]. eexists. simp. split; [reflexivity|]. cbn [pnd] in HP. destruct HP as (HP1 & HP2).
    pose proof (m_check_strict _ _ _ _ _ _ _ Hgt HB HBo Ec) as C1. destruct (m_check_val max L HL _ _ _ _ _ _ _ Hgt HB HBo Ec) as (_ & C2).
    assert (HCC : forall x, cur x = Some (text, cit_pos it0) -> ftot x = 1 ->
        (forall w p u, cur x = Some (w, p) -> In u (firstn (tot + ftot x) L) -> u = w \/ lex_lt u w) /\
        (forall w p, cur x = Some (w, p) -> In w (firstn (tot + ftot x) L))).
    { intros x Hx Hf. rewrite Hx, Hf. change 1 with (ftot (MCheck text bwt_runs it0 cj bbwt_runs)). rewrite FL. split.
      - intros v p u Ev. injection Ev as <- <-. eapply HC1. reflexivity.
      - intros v p Ev. injection Ev as <- <-. eapply HC2. reflexivity. }
    destruct nc.
    + split; [|split; [cbn [pnd]; auto|apply HCC; reflexivity]].
      intros l Hl. eapply BestOf_ext; [|exact (HO l Hl)]. intros u i. unfold done. change (ftot _) with (ftot (MCheck text bwt_runs it0 cj bbwt_runs)). rewrite FL. cbn [dn]. tauto.
    + split; [|split; [exact I|apply HCC; reflexivity]]. specialize (C2 eq_refl).
      destruct Hgt as ((Hw & -> & Hct & Hcp) & Hlt & -> & _). set (p := cit_pos it0 - 1) in *.
      intros l Hl. destruct (Nat.eq_dec (length text) (l + 1)) as [El|Nl].
      * eapply (BestOf_keep _ _ text p); [| |replace l with (length text - 1) by lia; unfold pdiff, diff; rewrite <- HP2; exact C2|exact (HO l Hl)].
        -- intros u j (A1 & A2 & A3). cbn [dn] in A3. destruct (HC1 text (cit_pos it0) u eq_refl A1) as [->|B]; [right; split; [auto|]; specialize (A3 eq_refl); unfold p; lia|now left].
        -- intros u j. unfold done. change (ftot _) with (ftot (MCheck text (bwr text) it0 cj (bbr cj))). rewrite FL. cbn [dn]. split.
           ++ intros (A1 & A2 & A3). destruct (str_dec u text) as [->|Nu]; [|left; repeat split; auto; intros; contradiction].
              specialize (A3 eq_refl). destruct (Nat.eq_dec j p); [auto|]. left. repeat split; auto. intros _. unfold p in *. lia.
           ++ intros [(A1 & A2 & A3)|(-> & ->)]; [repeat split; auto; intros Q; specialize (A3 Q); lia|].
              split; [eapply HC2; reflexivity|]. split; [unfold p; lia|]. intros _. unfold p. lia.
      * eapply (BestOf_other _ _ text p); [|exact Nl|exact (HO l Hl)].
        intros u j. unfold done. change (ftot _) with (ftot (MCheck text (bwr text) it0 cj (bbr cj))). rewrite FL. cbn [dn]. split.
        -- intros (A1 & A2 & A3). destruct (str_dec u text) as [->|Nu]; [|left; repeat split; auto; intros; contradiction].
           specialize (A3 eq_refl). destruct (Nat.eq_dec j p); [auto|]. left. repeat split; auto. intros _. unfold p in *. lia.
        -- intros [(A1 & A2 & A3)|(-> & ->)]; [repeat split; auto; intros Q; specialize (A3 Q); lia|].
           split; [eapply HC2; reflexivity|]. split; [unfold p; lia|]. intros _. unfold p. lia.
  - (* MWrite *)
    cbn [mgood] in Hgt. destruct (m_write text bwt_runs cj bbwt_runs bs) as [bs'| |] eqn:Ec;
      [|destruct (m_write_ok max L HL text bwt_runs it0 cj bbwt_runs bs Hgt HB HBo) as (nc & X & _); congruence..].
    injection E as <-. cbn [upd]. eexists. simp. split; [reflexivity|]. cbn [pnd] in HP. destruct HP as (HP1 & HP2 & HP3).
    pose proof (m_write_val max L HL _ _ _ _ _ _ _ Hgt HB Ec) as Hv.
    destruct Hgt as ((Hw & -> & Hct & Hcp) & Hlt & -> & _). set (p := cit_pos it0 - 1) in *.
    assert (1 <= length text) by (destruct (HL text Hw); destruct text; [congruence|simpl; lia]).
    assert (HDD : forall u j, done tot (MConj text (bwr text) it0) u j <-> (In u L1 /\ j < length u /\ dn (MWrite text (bwr text) it0 cj (bbr cj)) u j) \/ (u = text /\ j = p)).
    { intros u j. unfold done. change (ftot _) with (ftot (MWrite text (bwr text) it0 cj (bbr cj))). rewrite FL. cbn [dn]. split.
      - intros (A1 & A2 & A3). destruct (str_dec u text) as [->|Nu]; [|left; repeat split; auto; intros; contradiction].
        specialize (A3 eq_refl). destruct (Nat.eq_dec j p); [auto|]. left. repeat split; auto. intros _. unfold p in *. lia.
      - intros [(A1 & A2 & A3)|(-> & ->)]; [repeat split; auto; intros Q; specialize (A3 Q); lia|].
        split; [eapply HC2; reflexivity|]. split; [unfold p; lia|]. intros _. unfold p. lia. }
    split; [|split; [exact I|]].
    + intros l Hl. rewrite Hv. destruct (Nat.eqb_spec l (length text - 1)) as [El|Nl].
      * subst cj. eapply (BestOf_new _ _ text p); [exact HDD|lia| |exact (HO l Hl)].
        subst l. exact HP3.
      * eapply (BestOf_other _ _ text p); [exact HDD|lia|exact (HO l Hl)].
    + change (ftot _) with (ftot (MWrite text (bwr text) it0 cj (bbr cj))). rewrite FL. split.
      * intros v k u Ev. cbn [cur] in Ev. injection Ev as <- <-. eapply HC1. reflexivity.
      * intros v k Ev. cbn [cur] in Ev. injection Ev as <- <-. eapply HC2. reflexivity.
  - destruct (tot mod q =? 0); injection E as <-; cbn [upd]; apply SIMPLE; reflexivity.
Qed.
Lemma f_run sched : forall m s s', MI m s -> FInv s -> m_run max q sched s = Some s' -> FInv s'.
Proof.
  induction sched as [|i sched IH]; intros m s s' H HZ E; cbn [m_run] in E; [now injection E as <-|].
  destruct (m_step max q i s) as [s1|] eqn:E1; [|discriminate]. destruct (minv_step max q L HL m s i s1 H E1) as (m1 & Hm & H1).
  exact (IH m1 s1 s' H1 (f_step m s i s1 H HZ E1) E).
Qed.
Lemma f_init : FInv (m_init max 1).
Proof.
  exists MFetch. split; [reflexivity|]. split; [|split; [exact I|split; intros; discriminate]].
  intros l Hl. left. unfold m_init. simp. rewrite nth_repeat. split; [reflexivity|]. intros w i (A & _). unfold ftot in A. simpl in A. contradiction.
Qed.
End B.
