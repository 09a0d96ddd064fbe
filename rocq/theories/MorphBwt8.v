(** MorphBwt8.v : the binary paperfolding words, with and without an end marker (C130) *)
From Verif Require Import Base SpecStr SpecBwt SpecWord LexFacts BwtFacts LynMorph MorphBwt MorphBwt2 MorphRuns MorphBwt3 MorphBwt4 MorphBwt5 MorphBwt6 MorphBwt7 ModelWord WordProof3.
(** parts: 0 the end marker, 1 and 2 the two digits, 3 a, 4 b$, 5 bca, 6 bcb, 7 bd, 8 ca, 9 cb$, 10 cb and a letter, 11 da, 12 db *)
Definition bf_phis : list (nat -> nat -> nat -> bool) :=
  [fun y _ _ => y =? 0; fun y _ _ => y =? 48; fun y _ _ => y =? 49; fun y _ _ => y =? 97;
   fun y z _ => (y =? 98) && (z =? 0); fun y z x => (y =? 98) && (z =? 99) && (x =? 97); fun y z x => (y =? 98) && (z =? 99) && negb (x =? 97); fun y z _ => (y =? 98) && (z =? 100);
   fun y z _ => (y =? 99) && (z =? 97); fun y z x => (y =? 99) && (z =? 98) && (x =? 0); fun y z x => (y =? 99) && (z =? 98) && negb (x =? 0);
   fun y z _ => (y =? 100) && (z =? 97); fun y z _ => (y =? 100) && (z =? 98)].
(** the step of the quaternary words *)
Definition bq_groups : list (tgroup * nat) :=
  [((at_ 0, any, 0), 0);
   ((at_ 1, isac, 0), 3); ((at_ 1, isac, 3), 3); ((at_ 1, isac, 4), 3); ((at_ 1, isac, 5), 3); ((at_ 1, isac, 6), 3); ((at_ 1, isac, 7), 3);
   ((at_ 1, isac, 8), 3); ((at_ 1, isac, 9), 3); ((at_ 1, isac, 10), 3); ((at_ 1, isac, 11), 3); ((at_ 1, isac, 12), 3);
   ((at_ 1, isbd, 0), 4); ((at_ 1, isbd, 3), 5); ((at_ 1, isbd, 4), 6); ((at_ 1, isbd, 5), 6); ((at_ 1, isbd, 6), 6); ((at_ 1, isbd, 7), 6);
   ((at_ 1, isbd, 8), 7); ((at_ 1, isbd, 9), 7); ((at_ 1, isbd, 10), 7); ((at_ 1, isbd, 11), 7); ((at_ 1, isbd, 12), 7);
   ((at_ 0, any, 3), 8); ((at_ 0, any, 4), 9); ((at_ 0, any, 5), 10); ((at_ 0, any, 6), 10); ((at_ 0, any, 7), 10);
   ((at_ 0, any, 8), 11); ((at_ 0, any, 9), 11); ((at_ 0, any, 10), 11); ((at_ 0, any, 11), 12); ((at_ 0, any, 12), 12)].
(** from the quaternary word to the binary word *)
Definition be_groups : list (tgroup * nat) :=
  [((at_ 0, any, 0), 0);
   ((at_ 1, is 99, 3), 1); ((at_ 1, is 99, 4), 1); ((at_ 0, is 100, 3), 1); ((at_ 0, is 99, 3), 1); ((at_ 1, is 99, 7), 1); ((at_ 0, any, 4), 1);
   ((at_ 1, is 97, 8), 1); ((at_ 1, is 97, 9), 1); ((at_ 1, is 97, 10), 1); ((at_ 0, any, 5), 1); ((at_ 1, is 97, 11), 1); ((at_ 0, any, 6), 1); ((at_ 1, is 97, 12), 1); ((at_ 0, any, 7), 1);
   ((at_ 1, is 98, 0), 2); ((at_ 0, any, 8), 2); ((at_ 0, any, 9), 2); ((at_ 1, is 100, 3), 2); ((at_ 0, any, 10), 2);
   ((at_ 1, is 100, 5), 2); ((at_ 1, is 100, 6), 2); ((at_ 1, is 98, 8), 2); ((at_ 0, any, 11), 2); ((at_ 1, is 98, 10), 2); ((at_ 0, any, 12), 2); ((at_ 1, is 98, 11), 2); ((at_ 1, is 98, 12), 2)].
Definition bf_W (n : nat) (m : str) : list str := uniq (windows_of n (qf_seed m 6) ++ windows_of n (qf_seed m 7)).
Definition be_e := ended pfe.
Definition bq_step (ps : list str) : list str := gstep qf_e bf_phis (map fst bq_groups) (map snd bq_groups) ps.
Definition be_step (ps : list str) : list str := gstep be_e bf_phis (map fst be_groups) (map snd be_groups) ps.
Notation lq := (before qf_e 0). Notation lb := (before be_e 0).
Lemma gpiece_ac ps i : gpiece qf_e ps (at_ 1, isac, i) = qpick isac (nth i ps []). Proof. reflexivity. Qed.
Lemma gpiece_bd ps i : gpiece qf_e ps (at_ 1, isbd, i) = qpick isbd (nth i ps []). Proof. reflexivity. Qed.
Lemma gpiece_is0 h ps c i : gpiece h ps (at_ 0, is c, i) = repeat (before h 0 c) (num (nth i ps []) c).
Proof.
  unfold gpiece, num, at_. cbn [fst snd]. induction (nth i ps []) as [|d u IH]; [reflexivity|]. cbn [filter count_occ]. unfold is at 1. destruct (Nat.eqb_spec d c) as [->|N]; destruct (Nat.eq_dec _ c); try congruence; cbn [map repeat]; now rewrite IH.
Qed.
Lemma bq_step_eq Z A BE B1 B2 BD CA CE CB DA DB : bq_step [Z; []; []; A; BE; B1; B2; BD; CA; CE; CB; DA; DB] =
  [map lq Z; []; []; qpick isac (Z ++ A ++ BE ++ B1 ++ B2 ++ BD ++ CA ++ CE ++ CB ++ DA ++ DB); qpick isbd Z; qpick isbd A; qpick isbd (BE ++ B1 ++ B2 ++ BD); qpick isbd (CA ++ CE ++ CB ++ DA ++ DB);
   map lq A; map lq BE; map lq (B1 ++ B2 ++ BD); map lq (CA ++ CE ++ CB); map lq (DA ++ DB)].
Proof.
  unfold bq_step, gstep, bq_groups. cbn [map fst snd combine seq flat_map length bf_phis Nat.eqb app]. rewrite !gpiece_any, !gpiece_ac, !gpiece_bd. cbn [nth]. rewrite !app_nil_r, !qpick_app, !map_app, <- ?app_assoc. reflexivity.
Qed.
Lemma be_step_eq Z A BE B1 B2 BD CA CE CB DA DB : concat (be_step [Z; []; []; A; BE; B1; B2; BD; CA; CE; CB; DA; DB]) =
  map lb Z ++ (repeat 49 (num A 99) ++ repeat 49 (num BE 99) ++ repeat 49 (num A 100) ++ repeat 48 (num A 99) ++ repeat 49 (num BD 99) ++ map lb BE ++
    repeat 48 (num CA 97) ++ repeat 48 (num CE 97) ++ repeat 48 (num CB 97) ++ map lb B1 ++ repeat 48 (num DA 97) ++ map lb B2 ++ repeat 48 (num DB 97) ++ map lb BD) ++
  (repeat 48 (num Z 98) ++ map lb CA ++ map lb CE ++ repeat 49 (num A 100) ++ map lb CB ++ repeat 49 (num B1 100) ++ repeat 49 (num B2 100) ++ repeat 48 (num CA 98) ++
    map lb DA ++ repeat 48 (num CB 98) ++ map lb DB ++ repeat 48 (num DA 98) ++ repeat 48 (num DB 98)).
Proof.
  unfold be_step, gstep, be_groups. cbn [map fst snd combine seq flat_map length bf_phis Nat.eqb app]. rewrite !gpiece_is, !gpiece_is0, !gpiece_any. cbn [nth concat app]. rewrite !app_nil_r. reflexivity.
Qed.
Lemma num_rep c n d : num (repeat c n) d = if c =? d then n else 0.
Proof. destruct (Nat.eqb_spec c d) as [->|N]; [apply rep_num|]. apply count_occ_not_In. intros H. apply repeat_spec in H. congruence. Qed.
Definition bf_inv (one : bool) (r : nat) (ps : list str) : Prop := exists z p q s s' t u v x y a b c d D, z = (if one then 1 else 0) /\
  ps = [repeat 98 z; []; []; repeat 100 p ++ repeat 99 q; repeat 99 z; repeat 100 s; repeat 100 s'; repeat 99 t; repeat 98 u ++ repeat 97 v; repeat 97 z; repeat 98 x ++ repeat 97 y;
        repeat 98 a ++ repeat 97 b ++ repeat 98 c ++ repeat 97 d; D] /\
  1 <= p /\ 1 <= q /\ 1 <= s /\ 1 <= s' /\ 1 <= t /\ 1 <= u /\ 1 <= v /\ 1 <= x /\ 1 <= y /\ 1 <= a /\ 1 <= b /\ 1 <= c /\ 1 <= d /\ 1 <= r /\ sh l3 98 r (if one then 0 else 98) D.
Lemma bf_inv_step one r ps : bf_inv one r ps -> bf_inv one (r + 4) (bq_step ps).
Proof.
  intros (z & p & q & s & s' & t & u & v & x & y & a & b & c & d & D & Ez & -> & Hp & Hq & Hs & Hs' & Ht & Hu & Hv & Hx & Hy & Ha & Hb & Hc & Hd & Hr & HD). pose proof (proj1 HD) as FD. rewrite bq_step_eq.
  rewrite !qpick_app, !qpick_rep, (qpick_l3 isac 97 D), (qpick_l3 isbd 98 D), !map_app, !mrep, (qf_id D FD); [|inl|intros e [<-|[<-|[<-|[]]]]; reflexivity|exact FD|inl|intros e [<-|[<-|[<-|[]]]]; reflexivity|exact FD].
  change (isac 97) with true. change (isac 98) with false. change (isac 99) with true. change (isac 100) with false. change (isbd 97) with false. change (isbd 98) with true. change (isbd 99) with false. change (isbd 100) with true. cbn iota.
  change (before qf_e 1 97) with 99. change (before qf_e 1 98) with 99. change (before qf_e 1 99) with 100. change (before qf_e 1 100) with 100. change (lq 97) with 97. change (lq 98) with 98. change (lq 99) with 97. change (lq 100) with 98.
  exists z, (q + (z + t)), (v + (z + (y + (b + (d + num D 97))))), p, (s + s'), (u + (x + (a + (c + num D 98)))), p, q, (s + s'), t, u, (v + z), x, y, (repeat 98 a ++ repeat 97 b ++ repeat 98 c ++ repeat 97 d ++ D).
  split; [exact Ez|]. split; [|repeat (split; [lia|]); shape].
  rewrite !repeat_app, <- ?app_assoc. cbn [app]. rewrite ?app_nil_r, <- ?app_assoc. reflexivity.
Qed.
Lemma bf_inv_runs one r ps : bf_inv one r ps -> length (RunFacts.runs (concat (be_step ps))) = r + 19.
Proof.
  intros (z & p & q & s & s' & t & u & v & x & y & a & b & c & d & D & Ez & -> & Hp & Hq & Hs & Hs' & Ht & Hu & Hv & Hx & Hy & Ha & Hb & Hc & Hd & Hr & HD). rewrite be_step_eq.
  rewrite !num_app, !num_rep, !map_app, !mrep. cbn [Nat.eqb]. rewrite ?Nat.add_0_l, ?Nat.add_0_r. change (lb 97) with 48. change (lb 98) with 49. change (lb 99) with 48. change (lb 100) with 49.
  pose proof (num_pos _ _ (sh_hd _ _ _ _ _ HD)) as ND.
  assert (MD : sh [0; 48; 49] 49 r (lb (if one then 0 else 98)) (map lb D)) by (apply (sh_map l3 [0; 48; 49] lb 98 r _ D); [reflexivity|exact HD]).
  match goal with |- length (RunFacts.runs ?w) = _ => assert (E : w = repeat 49 (z + (q + (z + p))) ++ repeat 48 q ++ repeat 49 t ++ repeat 48 (z + (v + (z + y))) ++ repeat 49 s ++ repeat 48 (b + d) ++ repeat 49 s' ++ repeat 48 (num D 97 + (t + z)) ++
    repeat 49 u ++ repeat 48 (v + z) ++ repeat 49 (p + x) ++ repeat 48 y ++ repeat 49 (s + s') ++ repeat 48 u ++ repeat 49 a ++ repeat 48 b ++ repeat 49 c ++ repeat 48 (d + x) ++ map lb D ++ repeat 48 (a + (c + num D 98))) end.
  { rewrite ?Nat.add_0_r. rewrite !repeat_app, <- ?app_assoc. cbn [repeat app]. reflexivity. }
  rewrite E. clear E. apply (sh_runs [0; 48; 49] 49 _ 48). destruct one; [change (sh [0; 48; 49] 49 r 0 (map lb D)) in MD|change (sh [0; 48; 49] 49 r 49 (map lb D)) in MD]; (eapply sh_eq; [shs|cbn [Nat.eqb]; rewrite ?Nat.sub_0_r; lia]).
Qed.
Lemma windows_iter (h : nat -> str) m V w k : check_windows h m V = true -> 1 <= m -> check_base m V w = true -> forall s, In s (rotations (iter_morphism h k w)) -> In (firstn m s) V.
Proof.
  intros CW Hm B. induction k as [|k IH]; [now apply base_ok|]. change (iter_morphism h (S k) w) with (flat_map h (iter_morphism h k w)). now apply windows_step.
Qed.
Lemma P_iter (P : nat -> Prop) (h : nat -> str) k w : (forall x, P x -> Forall P (h x) /\ h x <> []) -> Forall P w -> Forall P (iter_morphism h k w) /\ length w <= length (iter_morphism h k w).
Proof.
  intros HP F. induction k as [|k (G & L)]; [split; [exact F|apply le_n]|]. change (iter_morphism h (S k) w) with (flat_map h (iter_morphism h k w)). split.
  - clear L. induction G as [|c u Hc G IH]; [constructor|]. cbn [flat_map]. apply Forall_app. split; [now apply HP|exact IH].
  - etransitivity; [exact L|]. clear L. induction G as [|c u Hc G IH]; [apply le_n|]. cbn [flat_map]. rewrite app_length. destruct (HP c Hc) as (_ & N). destruct (h c); [congruence|]. cbn [length]. lia.
Qed.
Lemma be_mono x y s t : qfP x -> qfP y -> x < y -> lex_lt (be_e x ++ s) (be_e y ++ t).
Proof. intros [->|[->|[->|[->| ->]]]] [->|[->|[->|[->| ->]]]] L; try lia; cbn; lx. Qed.
Lemma bq_word_end one k : iter_morphism qf_e k (qf_seed (mark one) 6) = iter_morphism pfh (k + 6) [100] ++ mark one.
Proof.
  assert (H1 : forall c, In c (iter_morphism pfh 6 [100]) -> c <> 0) by (vm_compute; intros c H E; subst; intuition discriminate).
  assert (H2 : forall c, c <> 0 -> ~ In 0 (pfh c)) by (intros c _ H; unfold pfh in H; destruct (c =? 100); [|destruct (c =? 98); [|destruct (c =? 99)]]; cbn in H; intuition discriminate).
  unfold qf_e, qf_seed. destruct one; cbn [mark].
  - rewrite ended_iter by assumption. now rewrite iter_add.
  - rewrite !app_nil_r, ended_iter0 by assumption. now rewrite iter_add.
Qed.
Definition bf_start (one : bool) : list str := base_parts bf_phis (qf_seed (mark one) 6).
Theorem bq_state one k : okstate bf_phis (iter_morphism pfh (k + 6) [100] ++ mark one) (Nat.iter k bq_step (bf_start one)).
Proof.
  rewrite <- bq_word_end. apply (family_iter qf_e qfP 6 (bf_W 7 (mark one)) bf_phis (map fst bq_groups) (map snd bq_groups) (qf_seed (mark one) 6) (bf_start one) k qf_mono);
    [destruct one; vm_compute; reflexivity|destruct one; vm_compute; reflexivity|exact qfP_h| | | |].
  - apply qfP_check. destruct one; vm_compute; reflexivity.
  - destruct one; vm_compute; lia.
  - destruct one; vm_compute; reflexivity.
  - destruct one; apply base_state; vm_compute; reflexivity.
Qed.
Lemma be_word one w : Forall quat w -> flat_map be_e (w ++ mark one) = flat_map pfe w ++ mark one.
Proof.
  intros H. rewrite flat_map_app. f_equal; [|now destruct one]. induction H as [|c w Hc H IH]; [reflexivity|]. cbn [flat_map]. rewrite IH. f_equal. destruct Hc as [->|[->|[->| ->]]]; reflexivity.
Qed.
Theorem be_state one k : okstate bf_phis (flat_map pfe (iter_morphism pfh (k + 6) [100]) ++ mark one) (be_step (Nat.iter k bq_step (bf_start one))).
Proof.
  rewrite <- be_word by apply pf_iter_quat.
  assert (F0 : Forall qfP (qf_seed (mark one) 6)) by (apply qfP_check; destruct one; vm_compute; reflexivity).
  destruct (P_iter qfP qf_e k (qf_seed (mark one) 6) qfP_h F0) as (F & L).
  assert (L0 : 6 < length (qf_seed (mark one) 6)) by (apply Nat.ltb_lt; destruct one; vm_compute; reflexivity).
  rewrite <- bq_word_end. unfold be_step. apply (family_step be_e qfP 6 (bf_W 7 (mark one)) bf_phis (map fst be_groups) (map snd be_groups)).
  - exact be_mono.
  - destruct one; vm_compute; reflexivity.
  - exact F.
  - exact (Nat.lt_le_trans _ _ _ L0 L).
  - intros s Hs. apply (windows_win 6 _ (iter_morphism qf_e k (qf_seed (mark one) 6))); [exact (Nat.lt_le_trans _ _ _ L0 L)| |exact Hs].
    apply windows_iter; [destruct one; vm_compute; reflexivity|apply le_n_S, Nat.le_0_l|destruct one; vm_compute; reflexivity].
  - rewrite bq_word_end. apply bq_state.
Qed.
Theorem bf_runs one k : exists b, is_matrix_bwt (flat_map pfe (iter_morphism pfh (k + 6) [100]) ++ mark one) b /\ length (RunFacts.runs b) = 4 * k + (if one then 25 else 24).
Proof.
  exists (concat (be_step (Nat.iter k bq_step (bf_start one)))). split; [apply (okstate_bwt bf_phis), be_state|].
  rewrite (bf_inv_runs one (4 * k + (if one then 6 else 5))); [destruct one; lia|]. induction k as [|k IH].
  - destruct one.
    + exists 1, 8, 7, 4, 4, 8, 4, 3, 4, 4, 2, 2, 2, 2, [98; 97; 98; 97; 97; 98; 98; 0]. split; [reflexivity|]. split; [vm_compute; reflexivity|]. do 14 (split; [apply Nat.leb_le; reflexivity|]). apply sh_check; vm_compute; reflexivity.
    + exists 0, 8, 7, 4, 4, 9, 4, 3, 4, 5, 2, 1, 2, 3, [98; 98; 97; 97; 98; 97; 98; 98]. split; [reflexivity|]. split; [vm_compute; reflexivity|]. do 14 (split; [apply Nat.leb_le; reflexivity|]). apply sh_check; vm_compute; reflexivity.
  - replace (4 * S k + (if one then 6 else 5)) with (4 * k + (if one then 6 else 5) + 4) by (destruct one; lia). exact (bf_inv_step _ _ _ IH).
Qed.
