(** ParProof2.v : the worker threads of parallel.rs main, for every schedule. *)
From Verif Require Import Base SpecStr SpecBwt SpecIo SpecPar LexFacts RunFacts ModelIo ModelCore ModelMain ModelPar.
From Verif Require Import DuvalProof LyndonProof BwtFacts BwtProof BbwtProof IterProof LwgProof ParProof LockFacts.

Lemma slice_reader_delivers b : delivers (slice_reader b) b.
Proof. exact (reader_of_delivers b). Qed.
Lemma runs_of_slice_ok b : exists n rs, runs_of_slice b = Ok n /\ is_runs b rs /\ n = length rs.
Proof.
  unfold runs_of_slice. exists (length (runs b)), (runs b). split; [|split; [apply runs_ok|reflexivity]].
  apply (number_of_runs_ok _ _ _ (slice_reader_delivers b)). lia.
Qed.
Lemma runs_length_le b rs : is_runs b rs -> length rs <= length b.
Proof.
  intros (E & F & _). rewrite <- E. clear E. unfold expand. induction F as [|(c, l) rs H F IH]; [simpl; lia|].
  cbn [map concat length]. rewrite app_length, repeat_length. simpl in H. lia.
Qed.
Lemma bwt_runs_unique w r r' : bwt_runs_of w r -> bwt_runs_of w r' -> r = r'.
Proof.
  intros (b & rs & H1 & H2 & ->) (b' & rs' & H1' & H2' & ->).
  apply bwt_by_matrix_naive_spec in H1. apply bwt_by_matrix_naive_spec in H1'. rewrite H1 in H1'. injection H1' as <-.
  now rewrite (is_runs_unique b rs rs' H2 H2').
Qed.
Lemma bbwt_runs_unique w r r' : w <> [] -> bbwt_runs_of w r -> bbwt_runs_of w r' -> r = r'.
Proof.
  intros Hw (b & rs & H1 & H2 & ->) (b' & rs' & H1' & H2' & ->).
  apply (bbwt_naive_spec w b Hw) in H1. apply (bbwt_naive_spec w b' Hw) in H1'. rewrite H1 in H1'. injection H1' as <-.
  now rewrite (is_runs_unique b rs rs' H2 H2').
Qed.
Lemma rot_length i (w : str) : length (rot i w) = length w.
Proof. unfold rot. rewrite app_length, skipn_length, firstn_length. lia. Qed.
Lemma least_unique m w x y : w <> [] -> least_bbwt_runs m w x -> least_bbwt_runs m w y -> x = y.
Proof.
  intros Hw (A & B & C) (A' & B' & C'). apply Nat.le_antisymm.
  - destruct A' as [->|(i & Hi & H)]; [exact B|exact (C _ _ Hi H)].
  - destruct A as [->|(i & Hi & H)]; [exact B'|exact (C' _ _ Hi H)].
Qed.

Lemma number_distinct_total t : exists n, number_distinct_lyndon_factors t = Ok n.
Proof.
  destruct t as [|c t]; [now exists 0|]. destruct (duval_correct (c :: t)) as (e & fs & _ & HF & _).
  eexists. apply (number_distinct_ok _ fs HF). discriminate.
Qed.

Lemma par_work_ok max w : w <> [] -> length w <= max ->
  exists r b, par_work max w = Ok (r, b) /\ bwt_runs_of w r /\ least_bbwt_runs max w b /\ r <= max.
Proof.
  intros Hw Hl. assert (L1 : 1 <= length w) by (destruct w; [congruence|simpl; lia]).
  destruct (bwt_by_matrix_naive_ok w) as (b & Eb & Hb).
  destruct (runs_of_slice_ok b) as (r & rs & Er & Hr & Hn).
  unfold par_work. rewrite Eb. cbn [bind]. rewrite Er. cbn [bind].
  destruct (Nat.ltb_spec 0 (length w)); [|lia]. cbn [assert_ bind]. rewrite sub_ok by lia. cbn [bind].
  destruct (Nat.ltb_spec (length w - 1) max); [|lia]. cbn [assert_ bind].
  set (body := fun '(it, best) => _).
  assert (G : okp (loop (S (length w)) body (cit_new w, max)) (fun best => least_bbwt_runs max w best)).
  { apply (okp_loop (fun '(it, best) => exists p, it = CIT w p /\ p <= length w /\ best <= max /\
       (best = max \/ exists i, i < p /\ bbwt_runs_of (rot i w) best) /\
       forall i r, i < p -> bbwt_runs_of (rot i w) r -> best <= r)
      (fun '(it, _) => length w - cit_pos it)).
    - intros (it, best) (p & -> & Hp & Hb1 & Hb2 & Hb3). unfold body.
      destruct (Nat.eq_dec p (length w)) as [->|Np].
      + rewrite cit_next_end. cbn [bind]. apply okp_ok. split; [|split; auto]. destruct Hb2; auto.
      + rewrite cit_next_ok by lia. cbn [bind].
        assert (Hrw : rot p w <> []) by (intros C; apply (f_equal (@length nat)) in C; rewrite rot_length in C; simpl in C; lia).
        destruct (bbwt_naive_ok (rot p w) Hrw) as (bb & Ebb & Hbb). rewrite Ebb. cbn [bind].
        destruct (runs_of_slice_ok bb) as (n & ns & En & Hns & Ln). rewrite En. cbn [bind].
        destruct (number_distinct_total (rot p w)) as (nd & End). rewrite End. cbn [bind]. apply okp_ok.
        assert (Hn' : bbwt_runs_of (rot p w) n) by (exists bb, ns; auto).
        split; [|cbn [cit_pos]; lia]. exists (p + 1). split; [reflexivity|]. split; [lia|].
        destruct (Nat.ltb_spec n best) as [C|C].
        * split; [lia|]. split; [right; exists p; split; [lia|exact Hn']|].
          intros i x Hi Hx. destruct (Nat.eq_dec i p) as [->|Ni].
          -- rewrite (bbwt_runs_unique _ _ _ Hrw Hx Hn'). lia.
          -- specialize (Hb3 i x ltac:(lia) Hx). lia.
        * split; [exact Hb1|]. split; [destruct Hb2 as [Hb2|(i & Hi & Hb2)]; [auto|right; exists i; split; [lia|exact Hb2]]|].
          intros i x Hi Hx. destruct (Nat.eq_dec i p) as [->|Ni].
          -- rewrite (bbwt_runs_unique _ _ _ Hrw Hx Hn'). lia.
          -- exact (Hb3 i x ltac:(lia) Hx).
    - exists 0. unfold cit_new. repeat split; auto; lia.
    - simpl. lia. }
  destruct G as (best & Eg & Hg). rewrite Eg. cbn [bind]. exists r, best. split; [reflexivity|].
  split; [now exists b, rs|]. split; [exact Hg|].
  rewrite Hn. pose proof (runs_length_le b rs Hr). pose proof (Permutation_length (matrix_bwt_perm w b Hb)). lia.
Qed.

(** ** The transition system *)
Definition pair_dec : forall x y : nat * nat, {x = y} + {x <> y}.
Proof. decide equality; apply Nat.eq_dec. Defined.
Section Par.
Context (max p : nat) (L : list str).
Hypothesis HL : forall w, In w L -> w <> [] /\ length w <= max.
Definition outcome (w : str) : nat * nat := match par_work max w with Ok x => x | _ => (0, 0) end.
Definition ofp (w : str) : bool := length w =? p.
(** results on their way into the statistics, words on their way into the total counter, steps left *)
Definition ifs (t : pc) : list (nat * nat) :=
  match t with
  | Work w => if ofp w then [outcome w] else []
  | WantStats r b | InStats r b => [(r, b)]
  | _ => []
  end.
Definition ift (t : pc) : nat :=
  match t with
  | Work w => if ofp w then 1 else 0
  | WantStats _ _ | InStats _ _ | WantTotal | InTotal => 1
  | _ => 0
  end.
Definition wt (t : pc) : nat :=
  match t with
  | Fetch => 2 | Fetching => 1 | Work _ => 8 | WantStats _ _ => 7 | InStats _ _ => 6 | WantTotal => 5 | InTotal => 4
  | Finished | Panicked => 0
  end.
Definition good (t : pc) : Prop :=
  match t with
  | Work w => In w L
  | WantStats r b | InStats r b => r <= max /\ b <= max
  | Panicked => False
  | _ => True
  end.
Definition holds_iter (t : pc) : Prop := match t with Fetching => True | _ => False end.
Definition holds_stats (t : pc) : Prop := match t with InStats _ _ => True | _ => False end.
Definition holds_total (t : pc) : Prop := match t with InTotal => True | _ => False end.
Definition square (st : list (list nat)) : Prop := length st = max + 1 /\ forall r, r <= max -> length (nth r st []) = max + 1.
Definition Inv (m : nat) (s : par) : Prop :=
  exists L1 L2, L = L1 ++ L2 /\ (forall k, calls lwg_next k (p_iter s) = Ok (yields L2 k)) /\ square (p_stats s) /\
   (forall r b, r <= max -> b <= max -> nth b (nth r (p_stats s) []) 0 + count_occ pair_dec (flat_map ifs (p_threads s)) (r, b)
      = count_occ pair_dec (map outcome (filter ofp L1)) (r, b)) /\
   p_total s + list_sum (map ift (p_threads s)) = length (filter ofp L1) /\
   Forall good (p_threads s) /\
   lock_ok (p_iter_lock s) holds_iter (p_threads s) /\ lock_ok (p_stats_lock s) holds_stats (p_threads s) /\
   lock_ok (p_total_lock s) holds_total (p_threads s) /\
   m = 8 * length L2 + list_sum (map wt (p_threads s)) /\
   (In Finished (p_threads s) -> L2 = []) /\ 0 < length (p_threads s).

Lemma outcome_ok w : In w L -> par_work max w = Ok (outcome w) /\ fst (outcome w) <= max /\ snd (outcome w) <= max /\
  bwt_runs_of w (fst (outcome w)) /\ least_bbwt_runs max w (snd (outcome w)).
Proof.
  intros H. destruct (HL w H) as (H1 & H2). destruct (par_work_ok max w H1 H2) as (r & b & E & H3 & H4 & H5).
  unfold outcome. rewrite E. cbn [fst snd]. repeat split; auto; apply H4.
Qed.

Lemma bump_ok st r b : square st -> r <= max -> b <= max -> exists st', bump st r b = Ok st' /\ square st' /\
  forall r' b', r' <= max -> b' <= max -> nth b' (nth r' st' []) 0 = nth b' (nth r' st []) 0 + (if pair_dec (r, b) (r', b') then 1 else 0).
Proof.
  intros (S1 & S2) Hr Hb. unfold bump. rewrite (get_ok st r []) by lia. cbn [bind].
  pose proof (S2 r Hr) as Lr. rewrite (get_ok _ b 0) by lia. cbn [bind]. rewrite set_ok by lia. cbn [bind].
  rewrite set_ok by lia. eexists. split; [reflexivity|]. split.
  - split; [now rewrite upd_length|]. intros r' Hr'. destruct (Nat.eq_dec r' r) as [->|N].
    + rewrite nth_upd_eq by lia. now rewrite upd_length.
    + rewrite nth_upd_ne by auto. auto.
  - intros r' b' Hr' Hb'. destruct (pair_dec (r, b) (r', b')) as [E|E].
    + injection E as <- <-. rewrite nth_upd_eq by lia. rewrite nth_upd_eq by lia. reflexivity.
    + destruct (Nat.eq_dec r' r) as [->|N].
      * rewrite nth_upd_eq by lia. rewrite nth_upd_ne by congruence. lia.
      * rewrite nth_upd_ne by auto. lia.
Qed.

Lemma next_step it L2 : (forall k, calls lwg_next k it = Ok (yields L2 k)) ->
  exists it', lwg_next it = Ok (hd_error L2, it') /\ forall k, calls lwg_next k it' = Ok (yields (tl L2) k).
Proof.
  intros H. pose proof (H 1) as H1. cbn [calls] in H1. destruct (lwg_next it) as [(o, it')| |] eqn:E; try discriminate.
  exists it'. assert (G : forall k, exists r, calls lwg_next k it' = Ok r /\ yields L2 (S k) = o :: r).
  { intros k. specialize (H (S k)). cbn [calls] in H. rewrite E in H. cbn [bind] in H.
    destruct (calls lwg_next k it') as [r| |]; try discriminate. cbn [bind] in H. injection H as H. eauto. }
  assert (Ho : o = hd_error L2).
  { destruct (G 0) as (r & _ & Hr). destruct L2; [rewrite yields_nil in Hr|rewrite yields_cons in Hr]; cbn in *; congruence. }
  split; [now rewrite Ho|]. intros k. destruct (G k) as (r & Er & Hr). rewrite Er. f_equal.
  destruct L2; [rewrite yields_nil in *; simpl tl; rewrite yields_nil; cbn [repeat] in Hr|rewrite yields_cons in Hr]; simpl tl; congruence.
Qed.
Lemma Inv_intro L1 L2 s : L = L1 ++ L2 -> (forall k, calls lwg_next k (p_iter s) = Ok (yields L2 k)) -> square (p_stats s) ->
   (forall r b, r <= max -> b <= max -> nth b (nth r (p_stats s) []) 0 + count_occ pair_dec (flat_map ifs (p_threads s)) (r, b)
      = count_occ pair_dec (map outcome (filter ofp L1)) (r, b)) ->
   p_total s + list_sum (map ift (p_threads s)) = length (filter ofp L1) ->
   Forall good (p_threads s) ->
   lock_ok (p_iter_lock s) holds_iter (p_threads s) -> lock_ok (p_stats_lock s) holds_stats (p_threads s) ->
   lock_ok (p_total_lock s) holds_total (p_threads s) ->
   (In Finished (p_threads s) -> L2 = []) -> 0 < length (p_threads s) -> Inv (8 * length L2 + list_sum (map wt (p_threads s))) s.
Proof. intros. exists L1, L2. auto 14. Qed.
Ltac inst n := match goal with |- exists m', m' < _ /\ Inv m' ?s => exists (8 * n + list_sum (map wt (p_threads s))) end; cbn [p_threads].
Lemma inv_step m s i s' : Inv m s -> par_step max p i s = Some s' -> exists m', m' < m /\ Inv m' s'.
Proof.
  intros (L1 & L2 & EL & HI & HS & HC & HT & HG & K1 & K2 & K3 & -> & KF & KN) E.
  destruct s as [it itl st stl tot totl ths]. cbn [p_iter p_iter_lock p_stats p_stats_lock p_total p_total_lock p_threads] in *.
  unfold par_step in E. destruct (nth_error ths i) as [t|] eqn:Et; [|discriminate].
  destruct (upd_split ths i t Et) as (l1 & l2 & E12 & EU).
  assert (Hgt : good t) by (apply (proj1 (Forall_forall _ _) HG); eapply nth_error_In; eauto).
  assert (HGU : forall x, good x -> Forall good (upd ths i x)).
  { intros x Hx. rewrite EU. rewrite E12 in HG. apply Forall_app in HG. destruct HG as (G1 & G2).
    apply Forall_app. split; [exact G1|]. inversion G2; subst. now constructor. }
  assert (HU : forall A (g : pc -> list A) x, flat_map g (upd ths i x) = flat_map g l1 ++ g x ++ flat_map g l2).
  { intros A g x. rewrite EU, flat_map_app. reflexivity. }
  assert (HU0 : forall A (g : pc -> list A), flat_map g ths = flat_map g l1 ++ g t ++ flat_map g l2).
  { intros A g. rewrite E12, flat_map_app. reflexivity. }
  assert (HM : forall (g : pc -> nat) x, list_sum (map g (upd ths i x)) = list_sum (map g l1) + (g x + list_sum (map g l2))).
  { intros g x. rewrite EU, map_app, list_sum_app. reflexivity. }
  assert (HM0 : forall (g : pc -> nat), list_sum (map g ths) = list_sum (map g l1) + (g t + list_sum (map g l2))).
  { intros g. rewrite E12, map_app, list_sum_app. reflexivity. }
  assert (CO : forall x r b, count_occ pair_dec (flat_map ifs (upd ths i x)) (r, b) + count_occ pair_dec (ifs t) (r, b) =
                             count_occ pair_dec (flat_map ifs ths) (r, b) + count_occ pair_dec (ifs x) (r, b)).
  { intros x r b. rewrite HU, HU0, !count_occ_app. lia. }
  assert (KN' : forall x, 0 < length (upd ths i x)) by (intros x; rewrite upd_length; exact KN).
  assert (KF' : forall x, x <> Finished -> In Finished (upd ths i x) -> L2 = []).
  { intros x Hx H. apply KF. rewrite EU in H. rewrite E12. apply in_app_iff in H. apply in_app_iff.
    destruct H as [H|[H|H]]; [now left|congruence|]. right. now right. }
  destruct t; try discriminate.
  - (* Fetch *)
    destruct itl; try discriminate; [|destruct K1]. injection E as <-.
    inst (length (L2)). split; [|apply (Inv_intro L1 L2); cbn [p_iter p_iter_lock p_stats p_stats_lock p_total p_total_lock p_threads]; try eassumption; try (intros; reflexivity); try apply KN'; try (apply KF'; discriminate)].
    + rewrite HM, HM0. simpl. lia.
    + intros r b Hr Hb. specialize (CO Fetching r b). simpl in CO. specialize (HC r b Hr Hb). lia.
    + rewrite HM. rewrite HM0 in HT. simpl in *. lia.
    + apply HGU. exact I.
    + eapply lock_acquire; eauto; exact I.
    + eapply lock_keep; eauto; easy.
    + eapply lock_keep; eauto; easy.
  - (* Fetching *)
    destruct (next_step it L2 HI) as (it' & En & Hn). rewrite En in E. destruct L2 as [|w L2]; cbn [hd_error tl] in *.
    + injection E as <-. inst (length (@nil str)). split; [|apply (Inv_intro L1 []); cbn [p_iter p_iter_lock p_stats p_stats_lock p_total p_total_lock p_threads]; try eassumption; try (intros; reflexivity); try apply KN'; try (apply KF'; discriminate)].
      * rewrite HM, HM0. simpl. lia.
      * intros r b Hr Hb. specialize (CO Finished r b). simpl in CO. specialize (HC r b Hr Hb). lia.
      * rewrite HM. rewrite HM0 in HT. simpl in *. lia.
      * apply HGU. exact I.
      * eapply lock_release; eauto; easy.
      * eapply lock_keep; eauto; easy.
      * eapply lock_keep; eauto; easy.
    + injection E as <-. inst (length (L2)). split; [|apply (Inv_intro (L1 ++ [w]) L2); [ | | | | | | | | |intros HFi; exfalso; specialize (KF' (Work w) ltac:(discriminate) HFi); discriminate| ]; cbn [p_iter p_iter_lock p_stats p_stats_lock p_total p_total_lock p_threads]; try eassumption; try (intros; reflexivity); try apply KN'; try (apply KF'; discriminate)].
      * rewrite HM, HM0. simpl. lia.
      * now rewrite <- app_assoc.
      * intros r b Hr Hb. specialize (CO (Work w) r b). simpl in CO. specialize (HC r b Hr Hb).
        rewrite filter_app, map_app, count_occ_app. simpl filter. destruct (ofp w); cbn [map count_occ] in *; lia.
      * rewrite HM. rewrite HM0 in HT. rewrite filter_app, app_length. simpl in *. destruct (ofp w); cbn [length]; lia.
      * apply HGU. simpl. rewrite EL. apply in_or_app. right. now left.
      * eapply lock_release; eauto; easy.
      * eapply lock_keep; eauto; easy.
      * eapply lock_keep; eauto; easy.
  - (* Work *)
    simpl in Hgt. destruct (outcome_ok text Hgt) as (Ew & Hr0 & Hb0 & _). injection E as <-.
    set (x := if length text =? p then _ else _).
    assert (Ex : x = if ofp text then WantStats (fst (outcome text)) (snd (outcome text)) else Fetch).
    { unfold x, ofp. rewrite Ew. destruct (length text =? p); [|reflexivity]. destruct (outcome text); reflexivity. }
    clearbody x. subst x.
    inst (length (L2)). split; [|apply (Inv_intro L1 L2); cbn [p_iter p_iter_lock p_stats p_stats_lock p_total p_total_lock p_threads]; try eassumption; try (intros; reflexivity); try apply KN'; try (apply KF'; discriminate)].
    + rewrite HM, HM0. simpl. destruct (ofp text); simpl; lia.
    + intros r b Hr Hb. match goal with |- context [upd ths i ?y] => specialize (CO y r b) end.
      specialize (HC r b Hr Hb). unfold ifs at 2 4 in CO. destruct (ofp text).
      * rewrite <- (surjective_pairing (outcome text)) in CO. lia.
      * simpl in CO. lia.
    + rewrite HM. rewrite HM0 in HT. simpl in *. destruct (ofp text); simpl; lia.
    + apply HGU. destruct (ofp text); simpl; auto.
    + eapply lock_keep; eauto. destruct (ofp text); easy.
    + eapply lock_keep; eauto. destruct (ofp text); easy.
    + eapply lock_keep; eauto. destruct (ofp text); easy.
    + apply KF'. destruct (ofp text); discriminate.
  - (* WantStats *)
    destruct stl; try discriminate; [|destruct K2]. injection E as <-.
    inst (length (L2)). split; [|apply (Inv_intro L1 L2); cbn [p_iter p_iter_lock p_stats p_stats_lock p_total p_total_lock p_threads]; try eassumption; try (intros; reflexivity); try apply KN'; try (apply KF'; discriminate)].
    + rewrite HM, HM0. simpl. lia.
    + intros r' b' Hr Hb. specialize (CO (InStats r b) r' b'). simpl ifs in CO. specialize (HC r' b' Hr Hb). lia.
    + rewrite HM. rewrite HM0 in HT. simpl in *. lia.
    + apply HGU. exact Hgt.
    + eapply lock_keep; eauto; easy.
    + eapply lock_acquire; eauto; exact I.
    + eapply lock_keep; eauto; easy.
  - (* InStats *)
    destruct Hgt as (Hr0 & Hb0). destruct (bump_ok st r b HS Hr0 Hb0) as (st' & Eb & HS' & HB). rewrite Eb in E. injection E as <-.
    inst (length (L2)). split; [|apply (Inv_intro L1 L2); cbn [p_iter p_iter_lock p_stats p_stats_lock p_total p_total_lock p_threads]; try eassumption; try (intros; reflexivity); try apply KN'; try (apply KF'; discriminate)].
    + rewrite HM, HM0. simpl. lia.
    + intros r' b' Hr Hb. specialize (CO WantTotal r' b'). cbn [ifs count_occ] in CO. specialize (HC r' b' Hr Hb).
      rewrite HB by assumption. destruct (pair_dec (r, b) (r', b')); lia.
    + rewrite HM. rewrite HM0 in HT. simpl in *. lia.
    + apply HGU. exact I.
    + eapply lock_keep; eauto; easy.
    + eapply lock_release; eauto; easy.
    + eapply lock_keep; eauto; easy.
  - (* WantTotal *)
    destruct totl; try discriminate; [|destruct K3]. injection E as <-.
    inst (length (L2)). split; [|apply (Inv_intro L1 L2); cbn [p_iter p_iter_lock p_stats p_stats_lock p_total p_total_lock p_threads]; try eassumption; try (intros; reflexivity); try apply KN'; try (apply KF'; discriminate)].
    + rewrite HM, HM0. simpl. lia.
    + intros r' b' Hr Hb. specialize (CO InTotal r' b'). simpl ifs in CO. specialize (HC r' b' Hr Hb). lia.
    + rewrite HM. rewrite HM0 in HT. simpl in *. lia.
    + apply HGU. exact I.
    + eapply lock_keep; eauto; easy.
    + eapply lock_keep; eauto; easy.
    + eapply lock_acquire; eauto; exact I.
  - (* InTotal *)
    injection E as <-. inst (length (L2)). split; [|apply (Inv_intro L1 L2); cbn [p_iter p_iter_lock p_stats p_stats_lock p_total p_total_lock p_threads]; try eassumption; try (intros; reflexivity); try apply KN'; try (apply KF'; discriminate)].
    + rewrite HM, HM0. simpl. lia.
    + intros r' b' Hr Hb. specialize (CO Fetch r' b'). simpl ifs in CO. specialize (HC r' b' Hr Hb). lia.
    + rewrite HM. rewrite HM0 in HT. simpl in *. lia.
    + apply HGU. exact I.
    + eapply lock_keep; eauto; easy.
    + eapply lock_keep; eauto; easy.
    + eapply lock_release; eauto; easy.
Qed.

Lemma inv_run sched : forall m s s', Inv m s -> par_run max p sched s = Some s' -> exists m', m' + length sched <= m /\ Inv m' s'.
Proof.
  induction sched as [|i sched IH]; intros m s s' H E; cbn [par_run] in E.
  - injection E as <-. exists m. split; [simpl; lia|exact H].
  - destruct (par_step max p i s) as [s1|] eqn:E1; [|discriminate]. destruct (inv_step m s i s1 H E1) as (m1 & Hm & H1).
    destruct (IH m1 s1 s' H1 E) as (m' & Hm' & H'). exists m'. split; [simpl; lia|exact H'].
Qed.

(** if a thread has not finished, some thread can move *)
Lemma inv_progress m s i t : Inv m s -> nth_error (p_threads s) i = Some t -> t <> Finished ->
  exists j s', par_step max p j s = Some s'.
Proof.
  intros (L1 & L2 & EL & HI & HS & HC & HT & HG & K1 & K2 & K3 & -> & KF & KN) Et Ht.
  destruct s as [it itl st stl tot totl ths]. cbn [p_iter p_iter_lock p_stats p_stats_lock p_total p_total_lock p_threads] in *.
  assert (Hgt : good t) by (apply (proj1 (Forall_forall _ _) HG); eapply nth_error_In; eauto).
  assert (A1 : forall j, nth_error ths j = Some Fetching -> exists j s', par_step max p j (Par it itl st stl tot totl ths) = Some s').
  { intros j Ej. exists j. unfold par_step. rewrite Ej. destruct (lwg_next it) as [([w|], it')| |]; eauto. }
  assert (A2 : forall j r b, nth_error ths j = Some (InStats r b) -> exists j s', par_step max p j (Par it itl st stl tot totl ths) = Some s').
  { intros j r b Ej. exists j. unfold par_step. rewrite Ej. destruct (bump st r b); eauto. }
  assert (A3 : forall j, nth_error ths j = Some InTotal -> exists j s', par_step max p j (Par it itl st stl tot totl ths) = Some s').
  { intros j Ej. exists j. unfold par_step. rewrite Ej. eauto. }
  destruct t; [| | | | | | |congruence|destruct Hgt].
  - destruct itl as [|j|]; [|destruct K1 as ((u & Eu & Hu) & _); destruct u; try easy; eauto|destruct K1].
    exists i. unfold par_step. rewrite Et. eauto.
  - eauto.
  - exists i. unfold par_step. rewrite Et. eauto.
  - destruct stl as [|j|]; [|destruct K2 as ((u & Eu & Hu) & _); destruct u; try easy; eauto|destruct K2].
    exists i. unfold par_step. rewrite Et. eauto.
  - eauto.
  - destruct totl as [|j|]; [|destruct K3 as ((u & Eu & Hu) & _); destruct u; try easy; eauto|destruct K3].
    exists i. unfold par_step. rewrite Et. eauto.
  - eauto.
Qed.
End Par.

Lemma SS_NoDup L : StronglySorted lex_lt L -> NoDup L.
Proof.
  induction 1 as [|w l H IH HF]; constructor; [|exact IH]. intros Hi. rewrite Forall_forall in HF.
  exact (lex_lt_irrefl _ (HF w Hi)).
Qed.
Lemma list_sum_const {A} (f : A -> nat) c l : (forall x, In x l -> f x = c) -> list_sum (map f l) = length l * c.
Proof. induction l as [|x l IH]; intros H; [reflexivity|]. simpl. rewrite H by now left. rewrite IH; [lia|]. intros y Hy. apply H. now right. Qed.
Lemma count_occ_map_filter {A} (f : A -> nat * nat) l x :
  count_occ pair_dec (map f l) x = length (filter (fun a => if pair_dec (f a) x then true else false) l).
Proof.
  induction l as [|a l IH]; [reflexivity|]. cbn [map count_occ filter]. destruct (pair_dec (f a) x); cbn [length]; now rewrite IH.
Qed.
Lemma init_square max : square max (repeat (repeat 0 (max + 1)) (max + 1)).
Proof.
  split; [apply repeat_length|]. intros r Hr. rewrite (nth_indep _ [] (repeat 0 (max + 1))) by (rewrite repeat_length; lia).
  rewrite nth_repeat. apply repeat_length.
Qed.

Lemma init_inv max p threads L : (forall k, calls lwg_next k (lwg_new max 2) = Ok (yields L k)) ->
  0 < threads -> Inv max p L (8 * length L + 2 * threads) (par_init max threads).
Proof.
  intros HC Ht. exists [], L. unfold par_init. cbn [p_iter p_iter_lock p_stats p_stats_lock p_total p_total_lock p_threads].
  assert (HR : forall i t, nth_error (repeat Fetch threads) i = Some t -> t = Fetch).
  { intros i t H. apply nth_error_In in H. exact (repeat_spec _ _ _ H). }
  assert (HN : forall h : pc -> Prop, ~ h Fetch -> lock_ok Free h (repeat Fetch threads)).
  { intros h Hh i t H. now rewrite (HR i t H). }
  assert (HF : flat_map (ifs max p) (repeat Fetch threads) = []) by (clear; induction threads; [reflexivity|exact IHthreads]).
  split; [reflexivity|]. split; [exact HC|]. split; [apply init_square|]. split.
  { intros r b Hr Hb. rewrite HF. rewrite (nth_indep _ [] (repeat 0 (max + 1))) by (rewrite repeat_length; lia).
    rewrite nth_repeat, nth_repeat. reflexivity. }
  split; [|split; [|split; [|split; [|split; [|split; [|split]]]]]].
  - rewrite (list_sum_const _ 0) by (intros x Hx; now rewrite (repeat_spec _ _ _ Hx)). simpl. lia.
  - apply Forall_forall. intros x Hx. now rewrite (repeat_spec _ _ _ Hx).
  - apply HN. easy.
  - apply HN. easy.
  - apply HN. easy.
  - rewrite (list_sum_const _ 2) by (intros x Hx; now rewrite (repeat_spec _ _ _ Hx)). rewrite repeat_length. lia.
  - intros H. apply (repeat_spec _ _ _) in H. discriminate.
  - rewrite repeat_length. exact Ht.
Qed.

(** every execution *)
Theorem par_reachable max p threads : 1 <= max -> 1 <= threads -> exists B L,
  StronglySorted lex_lt L /\ (forall w, In w L <-> lyndon w /\ length w <= max /\ Forall (fun c => c < 2) w) /\
  forall sched s, par_run max p sched (par_init max threads) = Some s ->
    length sched <= B /\ exists m, Inv max p L m s.
Proof.
  intros Hm Ht. destruct (lwg_correct max 2 Hm ltac:(lia)) as (L & HS & HIn & HC).
  exists (8 * length L + 2 * threads), L. split; [exact HS|]. split; [exact HIn|].
  intros sched s E.
  assert (HL : forall w, In w L -> w <> [] /\ length w <= max) by (intros w Hw; apply HIn in Hw; destruct Hw as ((H & _) & H2 & _); auto).
  destruct (inv_run max p L HL sched _ _ _ (init_inv max p threads L HC Ht) E) as (m' & Hm' & HI). split; [lia|eauto].
Qed.
Theorem par_stats_ok max p threads sched s stats total : 1 <= p <= max -> 1 <= threads ->
  par_run max p sched (par_init max threads) = Some s -> par_result s = Some (stats, total) ->
  number_of (binary_lyndon p) total /\
  forall r b, r <= max -> b <= max ->
    number_of (fun w => binary_lyndon p w /\ bwt_runs_of w r /\ least_bbwt_runs max w b) (nth b (nth r stats []) 0).
Proof.
  intros Hp Hth E ER. destruct (par_reachable max p threads ltac:(lia) Hth) as (B & L & HS & HIn & HR).
  destruct (HR sched s E) as (_ & m & L1 & L2 & EL & HI & HSq & HC & HT & HG & K1 & K2 & K3 & _ & KF & KN).
  assert (HL : forall w, In w L -> w <> [] /\ length w <= max) by (intros w Hw; apply HIn in Hw; destruct Hw as ((H & _) & H2 & _); auto).
  unfold par_result in ER. destruct (forallb _ (p_threads s)) eqn:EF; [|discriminate]. injection ER as <- <-.
  rewrite forallb_forall in EF.
  assert (AF : forall t, In t (p_threads s) -> t = Finished) by (intros t Ht; specialize (EF t Ht); destruct t; congruence).
  assert (E2 : L2 = []).
  { destruct (p_threads s) as [|t ths] eqn:Eth; [simpl in KN; lia|]. apply KF. left. apply AF. now left. }
  subst L2. rewrite app_nil_r in EL. subst L1. pose proof (SS_NoDup L HS) as ND. split.
  - exists (filter (ofp p) L). split; [now apply NoDup_filter|]. split.
    + intros w. rewrite filter_In, HIn. unfold ofp, binary_lyndon. rewrite Nat.eqb_eq. intuition lia.
    + rewrite (list_sum_const _ 0) in HT by (intros t Hi; now rewrite (AF t Hi)). lia.
  - intros r b Hr Hb. specialize (HC r b Hr Hb).
    assert (HF : flat_map (ifs max p) (p_threads s) = []).
    { clear - AF. induction (p_threads s) as [|t l IH]; [reflexivity|]. simpl. rewrite (AF t) by now left. apply IH.
      intros u Hu. apply AF. now right. }
    rewrite HF in HC. cbn [count_occ] in HC. rewrite Nat.add_0_r in HC. rewrite HC, count_occ_map_filter.
    eexists. split; [|split; [|reflexivity]]; [now apply NoDup_filter, NoDup_filter|].
    intros w. rewrite !filter_In. unfold ofp, binary_lyndon. rewrite Nat.eqb_eq. split.
    + intros ((Hw & Hl) & Ho). destruct (outcome_ok max L HL w Hw) as (_ & _ & _ & H1 & H2).
      destruct (pair_dec (outcome max w) (r, b)) as [Eo|]; [|discriminate]. rewrite Eo in H1, H2. apply HIn in Hw. intuition.
    + intros ((Hly & Hl & Hb2) & H1 & H2). assert (Hw : In w L) by (apply HIn; intuition lia).
      destruct (outcome_ok max L HL w Hw) as (_ & _ & _ & H1' & H2'). split; [auto|].
      destruct (pair_dec (outcome max w) (r, b)) as [|N]; [reflexivity|]. exfalso. apply N.
      rewrite (surjective_pairing (outcome max w)). f_equal; [eapply bwt_runs_unique; eauto|].
      eapply least_unique; eauto. exact (proj1 (HL w Hw)).
Qed.
