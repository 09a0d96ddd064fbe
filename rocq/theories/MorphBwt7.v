(** MorphBwt7.v : the quaternary paperfolding words, with and without an end marker (C129) *)
From Verif Require Import Base SpecStr SpecBwt SpecWord LexFacts BwtFacts LynMorph MorphBwt MorphBwt2 MorphRuns MorphBwt3 MorphBwt4 MorphBwt5 MorphBwt6 ModelWord WordProof3.
Definition qf_phis : list (nat -> nat -> nat -> bool) := [fun y z _ => y =? 0; fun y z _ => y =? 97; fun y z _ => y =? 98; fun y z _ => y =? 99; fun y z _ => y =? 100].
Definition isac (x : nat) : bool := (x =? 97) || (x =? 99).
Definition isbd (x : nat) : bool := (x =? 98) || (x =? 100).
Definition qf_groups : list (tgroup * nat) :=
  [((at_ 0, any, 0), 0);
   ((at_ 1, isac, 0), 1); ((at_ 1, isac, 1), 1); ((at_ 1, isac, 2), 1); ((at_ 1, isac, 3), 1); ((at_ 1, isac, 4), 1);
   ((at_ 1, isbd, 0), 2); ((at_ 1, isbd, 1), 2); ((at_ 1, isbd, 2), 2); ((at_ 1, isbd, 3), 2); ((at_ 1, isbd, 4), 2);
   ((at_ 0, any, 1), 3); ((at_ 0, any, 2), 3); ((at_ 0, any, 3), 4); ((at_ 0, any, 4), 4)].
Definition qf_e := ended pfh.
Definition qf_seed (m : str) (k : nat) : str := iter_morphism pfh k [100] ++ m.
Definition qf_W (m : str) : list str := uniq (windows_of 4 (qf_seed m 5) ++ windows_of 4 (qf_seed m 6)).
Definition qf_step (ps : list str) : list str := gstep qf_e qf_phis (map fst qf_groups) (map snd qf_groups) ps.
Definition qpick (f : nat -> bool) (u : str) : str := map (before qf_e 1) (filter f u).
Lemma qf_step_eq Z A B C D : qf_step [Z; A; B; C; D] =
  [map (before qf_e 0) Z; qpick isac Z ++ qpick isac A ++ qpick isac B ++ qpick isac C ++ qpick isac D;
   qpick isbd Z ++ qpick isbd A ++ qpick isbd B ++ qpick isbd C ++ qpick isbd D;
   map (before qf_e 0) A ++ map (before qf_e 0) B; map (before qf_e 0) C ++ map (before qf_e 0) D].
Proof.
  unfold qf_step, gstep, qf_groups. cbn [map fst snd combine seq flat_map length qf_phis Nat.eqb app]. rewrite !gpiece_any. cbn [nth]. rewrite !app_nil_r. reflexivity.
Qed.
Lemma qpick_app f u v : qpick f (u ++ v) = qpick f u ++ qpick f v.
Proof. unfold qpick. now rewrite filter_app, map_app. Qed.
Lemma qpick_rep f c n : qpick f (repeat c n) = if f c then repeat (before qf_e 1 c) n else [].
Proof. unfold qpick. destruct (f c) eqn:E; induction n as [|n IH]; cbn [repeat filter]; rewrite ?E; cbn [map repeat]; congruence. Qed.
Lemma qpick_l3 (f : nat -> bool) c u : In c l2 -> (forall d, In d l3 -> f d = (d =? c)) -> Forall (fun d => In d l3) u -> qpick f u = repeat 99 (num u c).
Proof.
  intros Hc Hf H. unfold qpick, num. induction H as [|d u Hd H IH]; [reflexivity|]. cbn [filter count_occ]. rewrite (Hf d Hd). destruct (Nat.eqb_spec d c) as [->|N]; destruct (Nat.eq_dec _ _); try congruence.
  cbn [map repeat]. rewrite IH. f_equal. destruct Hc as [<-|[<-|[]]]; reflexivity.
Qed.
Lemma qf_id u : Forall (fun c => In c l3) u -> map (before qf_e 0) u = u.
Proof. induction 1 as [|c u [<-|[<-|[<-|[]]]] H IH]; [reflexivity| | |]; cbn [map]; rewrite IH; reflexivity. Qed.
(** [one] tells whether there is an end marker *)
Definition qf_inv (one : bool) (r : nat) (ps : list str) : Prop := exists p q z s t u v x y D l, z = (if one then 1 else 0) /\
  ps = [repeat 98 z; repeat 100 p ++ repeat 99 q; repeat 99 z ++ repeat 100 s ++ repeat 99 t; repeat 98 u ++ repeat 97 v ++ repeat 98 x ++ repeat 97 y; D] /\
  1 <= p /\ 1 <= q /\ 1 <= s /\ 1 <= t /\ 1 <= u /\ 1 <= v /\ 1 <= x /\ 1 <= y /\ 1 <= r /\ sh l3 98 r l D.
Lemma qf_inv_step one r ps : qf_inv one r ps -> qf_inv one (r + 4) (qf_step ps).
Proof.
  intros (p & q & z & s & t & u & v & x & y & D & l & Ez & -> & Hp & Hq & Hs & Ht & Hu & Hv & Hx & Hy & Hr & HD). pose proof (proj1 HD) as FD. rewrite qf_step_eq.
  rewrite !qpick_app, !qpick_rep, (qpick_l3 isac 97 D), (qpick_l3 isbd 98 D), !map_app, !mrep, (qf_id D FD); [|inl|intros d [<-|[<-|[<-|[]]]]; reflexivity|exact FD|inl|intros d [<-|[<-|[<-|[]]]]; reflexivity|exact FD].
  change (isac 97) with true. change (isac 98) with false. change (isac 99) with true. change (isac 100) with false. change (isbd 97) with false. change (isbd 98) with true. change (isbd 99) with false. change (isbd 100) with true. cbn iota.
  change (before qf_e 1 97) with 99. change (before qf_e 1 98) with 99. change (before qf_e 1 99) with 100. change (before qf_e 1 100) with 100. change (before qf_e 0 97) with 97. change (before qf_e 0 98) with 98. change (before qf_e 0 99) with 97. change (before qf_e 0 100) with 98.
  exists (q + (z + t)), (v + (y + num D 97)), z, (p + s), (u + (x + num D 98)), p, (q + z), s, t, (repeat 98 u ++ repeat 97 v ++ repeat 98 x ++ repeat 97 y ++ D), l.
  split; [exact Ez|]. split; [|repeat (split; [lia|]); shape].
  rewrite !repeat_app, <- !app_assoc. cbn [app]. rewrite ?app_nil_r, <- ?app_assoc. reflexivity.
Qed.
Lemma qf_inv_runs one r ps : qf_inv one r ps -> length (RunFacts.runs (concat ps)) = r + (if one then 9 else 8).
Proof.
  intros (p & q & z & s & t & u & v & x & y & D & l & Ez & -> & Hp & Hq & Hs & Ht & Hu & Hv & Hx & Hy & Hr & HD). cbn [concat]. rewrite app_nil_r, <- !app_assoc.
  apply (sh_sub l3 [0; 97; 98; 99; 100]) in HD; [|intros c [<-|[<-|[<-|[]]]]; cbn; tauto]. 
  destruct one; subst z; cbn [repeat app].
  - apply (sh_runs [0; 97; 98; 99; 100] 98 _ l). change (98 :: ?w) with ([98] ++ w). change (99 :: ?w) with ([99] ++ w). shape.
  - apply (sh_runs [0; 97; 98; 99; 100] 100 _ l). shape.
Qed.
Definition qfP (c : nat) : Prop := c = 0 \/ c = 97 \/ c = 98 \/ c = 99 \/ c = 100.
Lemma qf_mono x y s t : qfP x -> qfP y -> x < y -> lex_lt (qf_e x ++ s) (qf_e y ++ t).
Proof. intros [->|[->|[->|[->| ->]]]] [->|[->|[->|[->| ->]]]] L; try lia; cbn; lx. Qed.
Lemma qfP_h x : qfP x -> Forall qfP (qf_e x) /\ qf_e x <> [].
Proof. unfold qfP. intros [->|[->|[->|[->| ->]]]]; (split; [repeat constructor; tauto|discriminate]). Qed.
Lemma qfP_check w : forallb (fun c => existsb (Nat.eqb c) [0; 97; 98; 99; 100]) w = true -> Forall qfP w.
Proof.
  intros H. rewrite forallb_forall in H. apply Forall_forall. intros c Hc. specialize (H c Hc). cbn [existsb] in H. rewrite !orb_true_iff, !Nat.eqb_eq in H. unfold qfP. intuition discriminate.
Qed.
Lemma ended_iter0 h k w : (forall c, In c w -> c <> 0) -> (forall c, c <> 0 -> ~ In 0 (h c)) -> iter_morphism (ended h) k w = iter_morphism h k w.
Proof. intros Hw Hh. pose proof (ended_iter h k w Hw Hh) as E. enough (G : iter_morphism (ended h) k (w ++ [0]) = iter_morphism (ended h) k w ++ [0]) by (rewrite G in E; now apply app_inv_tail in E).
  clear. induction k as [|k IH]; [reflexivity|]. change (iter_morphism (ended h) (S k) ?u) with (flat_map (ended h) (iter_morphism (ended h) k u)). rewrite IH, flat_map_app. reflexivity.
Qed.
Definition mark (one : bool) : str := if one then [0] else [].
Lemma qf_word_end one k : iter_morphism qf_e k (qf_seed (mark one) 5) = iter_morphism pfh (k + 5) [100] ++ mark one.
Proof.
  assert (H1 : forall c, In c (iter_morphism pfh 5 [100]) -> c <> 0) by (vm_compute; intros c H E; subst; intuition discriminate).
  assert (H2 : forall c, c <> 0 -> ~ In 0 (pfh c)) by (intros c _ H; unfold pfh in H; destruct (c =? 100); [|destruct (c =? 98); [|destruct (c =? 99)]]; cbn in H; intuition discriminate).
  unfold qf_e, qf_seed. destruct one; cbn [mark].
  - rewrite ended_iter by assumption. now rewrite iter_add.
  - rewrite !app_nil_r, ended_iter0 by assumption. now rewrite iter_add.
Qed.
Definition qf_start (one : bool) : list str := base_parts qf_phis (qf_seed (mark one) 5).
Theorem qf_state one k : okstate qf_phis (iter_morphism pfh (k + 5) [100] ++ mark one) (Nat.iter k qf_step (qf_start one)).
Proof.
  rewrite <- qf_word_end. apply (family_iter qf_e qfP 3 (qf_W (mark one)) qf_phis (map fst qf_groups) (map snd qf_groups) (qf_seed (mark one) 5) (qf_start one) k qf_mono);
    [destruct one; vm_compute; reflexivity|destruct one; vm_compute; reflexivity|exact qfP_h| | | |].
  - apply qfP_check. destruct one; vm_compute; reflexivity.
  - destruct one; vm_compute; lia.
  - destruct one; vm_compute; reflexivity.
  - destruct one; apply base_state; vm_compute; reflexivity.
Qed.
Theorem qf_runs one k : exists b, is_matrix_bwt (iter_morphism pfh (k + 5) [100] ++ mark one) b /\ length (RunFacts.runs b) = 4 * k + (if one then 15 else 13).
Proof.
  exists (concat (Nat.iter k qf_step (qf_start one))). split; [apply (okstate_bwt qf_phis), qf_state|].
  rewrite (qf_inv_runs one (4 * k + (if one then 6 else 5))); [destruct one; lia|]. induction k as [|k IH].
  - destruct one.
    + exists 4, 3, 1, 4, 4, 2, 2, 2, 2, [98; 97; 98; 97; 97; 98; 98; 0], 0. split; [reflexivity|]. split; [vm_compute; reflexivity|]. do 9 (split; [lia|]). apply sh_check; vm_compute; reflexivity.
    + exists 4, 3, 0, 4, 5, 2, 1, 2, 3, [98; 98; 97; 97; 98; 97; 98; 98], 98. split; [reflexivity|]. split; [vm_compute; reflexivity|]. do 9 (split; [lia|]). apply sh_check; vm_compute; reflexivity.
  - replace (4 * S k + (if one then 6 else 5)) with (4 * k + (if one then 6 else 5) + 4) by (destruct one; lia). exact (qf_inv_step _ _ _ IH).
Qed.
