(** MorphBwt6.v : ternary Thue-Morse words and period-doubling words with an end marker (C129) *)
From Verif Require Import Base SpecStr SpecBwt SpecWord LexFacts BwtFacts LynMorph MorphBwt MorphBwt2 MorphRuns MorphBwt3 MorphBwt4 MorphBwt5 ModelWord.
(** ** ternary Thue-Morse *)
Definition vt_phis : list (nat -> nat -> nat -> bool) := [fun y z _ => y =? 0; fun y z _ => y =? 97; fun y z _ => y =? 98; fun y z _ => y =? 99].
Definition t21 (x : nat) : nat := if x =? 97 then 2 else 1.
Definition isab (x : nat) : bool := (x =? 97) || (x =? 98).
Definition vt_groups : list (tgroup * nat) :=
  [((at_ 0, any, 0), 0);
   ((at_ 0, any, 1), 1); ((at_ 0, any, 2), 1);
   ((at_ 0, any, 3), 2); ((at_ 1, is 97, 0), 2); ((at_ 1, is 97, 1), 2); ((at_ 1, is 97, 2), 2); ((at_ 1, is 97, 3), 2);
   ((t21, isab, 0), 3); ((t21, isab, 1), 3); ((t21, isab, 2), 3); ((t21, isab, 3), 3)].
Definition vt_e := ended vtm_morphism.
Definition vt_seed (k : nat) : str := iter_morphism vtm_morphism k [97] ++ [0].
Definition vt_W : list str := uniq (windows_of 4 (vt_seed 5) ++ windows_of 4 (vt_seed 6)).
(** ** period doubling, two steps at a time *)
Definition pd_phis : list (nat -> nat -> nat -> bool) := [fun y z _ => y =? 0; fun y z _ => (y =? 97) && (z =? 0); fun y z _ => (y =? 97) && (z =? 97); fun y z _ => (y =? 97) && (z =? 98);
  fun y z _ => (y =? 98) && (z =? 0); fun y z _ => (y =? 98) && negb (z =? 0)].
Definition pd_groups : list (tgroup * nat) :=
  [((at_ 0, any, 0), 0);
   ((at_ 3, is 97, 0), 1);
   ((at_ 2, is 97, 0), 2);
   ((at_ 2, is 97, 1), 2); ((at_ 2, is 97, 2), 2); ((at_ 2, is 97, 3), 2); ((at_ 2, is 97, 4), 2); ((at_ 2, is 97, 5), 2);
   ((at_ 3, is 97, 1), 2); ((at_ 3, is 97, 2), 2); ((at_ 3, is 97, 3), 2); ((at_ 3, is 97, 4), 2); ((at_ 3, is 97, 5), 2);
   ((at_ 2, is 98, 0), 3); ((at_ 0, any, 1), 3); ((at_ 0, any, 2), 3); ((at_ 0, any, 3), 3); ((at_ 0, any, 4), 3);
   ((at_ 2, is 98, 1), 3); ((at_ 2, is 98, 2), 3); ((at_ 2, is 98, 3), 3); ((at_ 2, is 98, 4), 3); ((at_ 2, is 98, 5), 3); ((at_ 0, any, 5), 3);
   ((at_ 3, is 98, 0), 4);
   ((at_ 1, is 97, 0), 5); ((at_ 1, is 97, 1), 5); ((at_ 1, is 97, 2), 5); ((at_ 1, is 97, 3), 5); ((at_ 1, is 97, 4), 5); ((at_ 1, is 97, 5), 5);
   ((at_ 1, is 98, 0), 5);
   ((at_ 3, is 98, 1), 5); ((at_ 3, is 98, 2), 5); ((at_ 3, is 98, 3), 5); ((at_ 3, is 98, 4), 5); ((at_ 3, is 98, 5), 5);
   ((at_ 1, is 98, 1), 5); ((at_ 1, is 98, 2), 5); ((at_ 1, is 98, 3), 5); ((at_ 1, is 98, 4), 5); ((at_ 1, is 98, 5), 5)].
Definition pd2 (c : nat) : str := flat_map period_doubling_morphism (period_doubling_morphism c).
Definition pd_e := ended pd2.
Definition pd_seed (k : nat) : str := iter_morphism period_doubling_morphism k [97] ++ [0].
Definition pd_W : list str := uniq (windows_of 4 (pd_seed 5) ++ windows_of 4 (pd_seed 6)).
(** ** ternary Thue-Morse *)
Definition vt_step (ps : list str) : list str := gstep vt_e vt_phis (map fst vt_groups) (map snd vt_groups) ps.
Definition vt_pick (u : str) : str := map (fun x => before vt_e (t21 x) x) (filter isab u).
Lemma vt_step_eq Z A B C : vt_step [Z; A; B; C] =
  [map (before vt_e 0) Z; map (before vt_e 0) A ++ map (before vt_e 0) B;
   map (before vt_e 0) C ++ repeat 97 (num Z 97) ++ repeat 97 (num A 97) ++ repeat 97 (num B 97) ++ repeat 97 (num C 97);
   vt_pick Z ++ vt_pick A ++ vt_pick B ++ vt_pick C].
Proof.
  unfold vt_step, gstep, vt_groups. cbn [map fst snd combine seq flat_map length vt_phis Nat.eqb app]. rewrite !gpiece_is, !gpiece_any. cbn [nth]. rewrite !app_nil_r. reflexivity.
Qed.
Definition lA : list nat := [0; 98; 99].
Definition vt_inv (r : nat) (ps : list str) : Prop := exists z A p q C rA rC y, ps = [[z]; A; repeat 99 p ++ repeat 97 q; C] /\ (z = 98 \/ z = 99) /\
  sh lA 0 rA 99 A /\ In 98 A /\ 1 <= p /\ 1 <= q /\ sh l2 97 rC y C /\ (y = 97 \/ y = 98) /\ r = rA + rC + 1.
Lemma vt_pick_A A : Forall (fun c => In c lA) A -> vt_pick A = repeat 97 (num A 98).
Proof.
  unfold vt_pick. induction 1 as [|c A Hc HA IH]; [reflexivity|]. unfold num in *. destruct Hc as [<-|[<-|[<-|[]]]]; cbn [filter isab Nat.eqb orb map count_occ];
  change (isab 0) with false; change (isab 98) with true; change (isab 99) with false; cbn [map]; rewrite ?IH; reflexivity.
Qed.
Lemma vt_pick_app u v : vt_pick (u ++ v) = vt_pick u ++ vt_pick v.
Proof. unfold vt_pick. now rewrite filter_app, map_app. Qed.
Lemma vt_pick_a n : vt_pick (repeat 97 n) = repeat 98 n.
Proof. unfold vt_pick. induction n as [|n IH]; [reflexivity|]. cbn [repeat filter]. change (isab 97) with true. cbn [map]. now rewrite IH. Qed.
Lemma vt_pick_c n : vt_pick (repeat 99 n) = [].
Proof. unfold vt_pick. induction n as [|n IH]; [reflexivity|]. cbn [repeat filter]. change (isab 99) with false. exact IH. Qed.
Lemma vt_pick_ab C : Forall (fun c => In c l2) C -> vt_pick C = map (fun x => before vt_e (t21 x) x) C.
Proof.
  unfold vt_pick. induction 1 as [|c A Hc HA IH]; [reflexivity|]. destruct Hc as [<-|[<-|[]]]; cbn [filter]; [change (isab 97) with true|change (isab 98) with true]; cbn [map]; now rewrite IH.
Qed.
Lemma vt_last_ab C : Forall (fun c => In c l2) C -> map (before vt_e 0) C = repeat 99 (length C).
Proof. induction 1 as [|c A Hc HA IH]; [reflexivity|]. cbn [map length repeat]. rewrite IH. destruct Hc as [<-|[<-|[]]]; reflexivity. Qed.
Lemma mrep (g : nat -> nat) c n : map g (repeat c n) = repeat (g c) n.
Proof. induction n as [|n IH]; [reflexivity|]. cbn [repeat map]. now rewrite IH. Qed.
Lemma vt_inv_step r ps : vt_inv r ps -> vt_inv (r + 2) (vt_step ps).
Proof.
  intros (z & A & p & q & C & rA & rC & y & -> & Hz & HA & A98 & Hp & Hq & HC & Hy & ->). rewrite vt_step_eq.
  assert (MA : sh lA 0 rA 98 (map (before vt_e 0) A)) by (apply (sh_map lA lA (before vt_e 0) 0 rA 99 A); [reflexivity|exact HA]).
  assert (MC : sh l2 98 rC (before vt_e (t21 y) y) (map (fun x => before vt_e (t21 x) x) C)) by (apply (sh_map l2 l2 (fun x => before vt_e (t21 x) x) 97 rC y C); [reflexivity|exact HC]).
  pose proof (proj1 HA) as FA. pose proof (proj1 HC) as FC. rewrite (vt_pick_A A FA), vt_pick_app, vt_pick_c, vt_pick_a, (vt_pick_ab C FC), (vt_last_ab C FC).
  rewrite map_app, !mrep. change (before vt_e 0 99) with 98. change (before vt_e 0 97) with 99. pose proof (num_pos _ _ A98). pose proof (num_pos _ _ (sh_hd _ _ _ _ _ HC)).
  assert (1 <= rC) by (destruct HC as (_ & _ & _ & _ & <-); lia). assert (1 <= rA) by (destruct HA as (_ & _ & _ & _ & <-); lia).
  exists (before vt_e 0 z), (map (before vt_e 0) A ++ repeat 98 p ++ repeat 99 q), (length C), (num [z] 97 + num A 97 + num (repeat 99 p ++ repeat 97 q) 97 + num C 97),
    (vt_pick [z] ++ repeat 97 (num A 98) ++ repeat 98 q ++ map (fun x => before vt_e (t21 x) x) C), (rA + 1), (rC + 1), (before vt_e (t21 y) y).
  split; [|split; [|split; [|split; [|split; [|split; [|split; [|split]]]]]]].
  - cbn [map app]. rewrite !repeat_app, <- !app_assoc. reflexivity.
  - destruct Hz as [-> | ->]; cbn; auto.
  - shape.
  - apply in_or_app. right. apply in_or_app. left. destruct p; [lia|]. now left.
  - destruct C; [exfalso; now apply (proj1 (proj2 HC))|]. cbn [length]. lia.
  - lia.
  - destruct Hz as [-> | ->]; [change (vt_pick [98]) with [97]|change (vt_pick [99]) with (@nil nat); cbn [app]]; shape.
  - destruct Hy as [-> | ->]; cbn; auto.
  - lia.
Qed.
Lemma vt_inv_runs r ps : vt_inv r ps -> length (RunFacts.runs (concat ps)) = r.
Proof.
  intros (z & A & p & q & C & rA & rC & y & -> & Hz & HA & A98 & Hp & Hq & HC & Hy & ->). cbn [concat]. rewrite app_nil_r, <- app_assoc.
  apply (sh_runs [0; 97; 98; 99] z _ y). apply (sh_sub l2 [0; 97; 98; 99]) in HC; [|intros c [<-|[<-|[]]]; cbn; tauto]. apply (sh_sub lA [0; 97; 98; 99]) in HA; [|intros c [<-|[<-|[<-|[]]]]; cbn; tauto].
  assert (1 <= rC) by (destruct HC as (_ & _ & _ & _ & <-); lia). assert (1 <= rA) by (destruct HA as (_ & _ & _ & _ & <-); lia).
  destruct Hz as [-> | ->]; shape.
Qed.
Definition vtP (c : nat) : Prop := c = 0 \/ c = 97 \/ c = 98 \/ c = 99.
Lemma vt_mono x y s t : vtP x -> vtP y -> x < y -> lex_lt (vt_e x ++ s) (vt_e y ++ t).
Proof. intros [->|[->|[->| ->]]] [->|[->|[->| ->]]] L; try lia; cbn; lx. Qed.
Lemma vtP_h x : vtP x -> Forall vtP (vt_e x) /\ vt_e x <> [].
Proof. unfold vtP. intros [->|[->|[->| ->]]]; (split; [repeat constructor; tauto|discriminate]). Qed.
Lemma vtP_check w : forallb (fun c => existsb (Nat.eqb c) [0; 97; 98; 99]) w = true -> Forall vtP w.
Proof.
  intros H. rewrite forallb_forall in H. apply Forall_forall. intros c Hc. specialize (H c Hc). cbn [existsb] in H. rewrite !orb_true_iff, !Nat.eqb_eq in H. unfold vtP. intuition discriminate.
Qed.
Lemma vt_word_end k : iter_morphism vt_e k (vt_seed 3) = iter_morphism vtm_morphism (k + 3) [97] ++ [0].
Proof.
  unfold vt_e, vt_seed. rewrite ended_iter; [now rewrite iter_add| |].
  - vm_compute. intros c H E. subst. intuition discriminate.
  - intros c _ H. unfold vtm_morphism in H. destruct (c =? CA); [|destruct (c =? CB)]; cbn in H; intuition discriminate.
Qed.
Definition vt_start : list str := base_parts vt_phis (vt_seed 3).
Theorem vt_state k : okstate vt_phis (iter_morphism vtm_morphism (k + 3) [97] ++ [0]) (Nat.iter k vt_step vt_start).
Proof.
  rewrite <- vt_word_end. apply (family_iter vt_e vtP 3 vt_W vt_phis (map fst vt_groups) (map snd vt_groups) (vt_seed 3) vt_start k vt_mono); [vm_compute; reflexivity|vm_compute; reflexivity|exact vtP_h| | | |].
  - apply vtP_check. vm_compute. reflexivity.
  - vm_compute. lia.
  - vm_compute. reflexivity.
  - apply base_state; vm_compute; reflexivity.
Qed.
Theorem vt_end_runs k : exists b, is_matrix_bwt (iter_morphism vtm_morphism (k + 3) [97] ++ [0]) b /\ length (RunFacts.runs b) = 2 * k + 8.
Proof.
  exists (concat (Nat.iter k vt_step vt_start)). split; [apply (okstate_bwt vt_phis), vt_state|]. apply vt_inv_runs. induction k as [|k IH].
  - exists 99, [0; 98; 98; 99], 2, 2, [97;98;97;98], 3, 4, 98. split; [vm_compute; reflexivity|]. split; [now right|]. split; [apply sh_check; vm_compute; reflexivity|]. split; [cbn; tauto|]. split; [lia|]. split; [lia|]. split; [apply sh_check; vm_compute; reflexivity|]. split; [now right|reflexivity].
  - replace (2 * S k + 8) with (2 * k + 8 + 2) by lia. exact (vt_inv_step _ _ IH).
Qed.
(** ** period doubling *)
Definition pd_step (ps : list str) : list str := gstep pd_e pd_phis (map fst pd_groups) (map snd pd_groups) ps.
Lemma pd_step_eq Z A0 AA AB B0 B : pd_step [Z; A0; AA; AB; B0; B] =
  [map (before pd_e 0) Z; repeat 97 (num Z 97);
   repeat 98 (num Z 97 + (num A0 97 + (num AA 97 + (num AB 97 + (num B0 97 + num B 97))))) ++ repeat 97 (num A0 97 + (num AA 97 + (num AB 97 + (num B0 97 + num B 97))));
   repeat 98 (num Z 98) ++ map (before pd_e 0) A0 ++ map (before pd_e 0) AA ++ map (before pd_e 0) AB ++ map (before pd_e 0) B0 ++
     repeat 98 (num A0 98 + (num AA 98 + (num AB 98 + (num B0 98 + num B 98)))) ++ map (before pd_e 0) B;
   repeat 97 (num Z 98);
   repeat 97 (num Z 97 + (num A0 97 + (num AA 97 + (num AB 97 + (num B0 97 + num B 97)))) + num Z 98 +
     (num A0 98 + (num AA 98 + (num AB 98 + (num B0 98 + num B 98)))) + (num A0 98 + (num AA 98 + (num AB 98 + (num B0 98 + num B 98)))))].
Proof.
  unfold pd_step, gstep, pd_groups. cbn [map fst snd combine seq flat_map length pd_phis Nat.eqb app]. rewrite !gpiece_is, !gpiece_any. cbn [nth]. rewrite !app_nil_r, !repeat_app, <- !app_assoc. reflexivity.
Qed.
Lemma pd_id u : Forall (fun c => In c l3) u -> map (before pd_e 0) u = u.
Proof. induction 1 as [|c u [<-|[<-|[<-|[]]]] H IH]; [reflexivity| | |]; cbn [map]; rewrite IH; reflexivity. Qed.
(** odd: the word ends with b *)
Definition pd_inv (odd : bool) (r : nat) (ps : list str) : Prop := exists p q AB n,
  ps = (if odd then [[98]; []; repeat 98 p ++ repeat 97 q; AB; [97]; repeat 97 n] else [[97]; [97]; repeat 98 p ++ repeat 97 q; AB; []; repeat 97 n]) /\
  1 <= p /\ 1 <= q /\ 1 <= n /\ 1 <= r /\ sh l3 (if odd then 98 else 97) r 97 AB.
Lemma rep_num c n : num (repeat c n) c = n.
Proof. unfold num. induction n as [|n IH]; [reflexivity|]. cbn [repeat count_occ]. destruct (Nat.eq_dec c c); congruence. Qed.
Lemma num_app u v c : num (u ++ v) c = num u c + num v c. Proof. apply count_occ_app. Qed.
Lemma rep_in (ls : list nat) c n : In c ls -> Forall (fun c => In c ls) (repeat c n).
Proof. intros H. apply Forall_forall. intros d Hd. apply repeat_spec in Hd. now subst. Qed.
Lemma pd_inv_step odd r ps : pd_inv odd r ps -> pd_inv odd (r + 4) (pd_step ps).
Proof.
  intros (p & q & AB & n & -> & Hp & Hq & Hn & Hr & HA). pose proof (proj1 HA) as FA.
  assert (F1 : Forall (fun c => In c l3) (repeat 98 p ++ repeat 97 q)) by (apply Forall_app; split; apply rep_in; inl).
  assert (F2 : Forall (fun c => In c l3) (repeat 97 n)) by (apply rep_in; inl).
  destruct odd; rewrite pd_step_eq, (pd_id AB FA), (pd_id _ F1), (pd_id _ F2), !num_app, !rep_num; cbn [map];
    match goal with |- pd_inv _ _ [_; _; repeat 98 ?P ++ repeat 97 ?Q; ?X; _; repeat 97 ?N] => exists P, Q, X, N end.
  - split; [reflexivity|]. change (num [98] 97) with 0. change (num [98] 98) with 1. change (num [] 97) with 0. change (num [] 98) with 0. change (before pd_e 0 97) with 97. cbn [repeat app].
    split; [lia|]. split; [lia|]. split; [lia|]. split; [lia|]. change (98 :: ?u) with ([98] ++ u). rewrite <- app_assoc. change (97 :: ?u) with ([97] ++ u). shape.
  - split; [reflexivity|]. change (num [97] 97) with 1. change (num [97] 98) with 0. change (num [] 97) with 0. change (num [] 98) with 0. change (before pd_e 0 97) with 97. cbn [repeat app].
    split; [lia|]. split; [lia|]. split; [lia|]. split; [lia|]. rewrite <- app_assoc. change (97 :: ?u) with ([97] ++ u). shape.
Qed.
Lemma pd_inv_runs odd r ps : pd_inv odd r ps -> length (RunFacts.runs (concat ps)) = r + 2.
Proof.
  intros (p & q & AB & n & -> & Hp & Hq & Hn & Hr & HA). destruct odd; cbn [concat app]; rewrite app_nil_r, <- app_assoc.
  - apply (sh_runs l3 98 _ 97). change (98 :: ?u) with ([98] ++ u). change (97 :: ?u) with ([97] ++ u). shape.
  - apply (sh_runs l3 97 _ 97). change (97 :: 97 :: ?u) with ([97] ++ [97] ++ u). shape.
Qed.
Lemma pd_mono' x y s t : tmP x -> tmP y -> x < y -> lex_lt (pd_e x ++ s) (pd_e y ++ t).
Proof. intros [->|[->| ->]] [->|[->| ->]] L; try lia; cbn; lx. Qed.
Lemma pdP_h x : tmP x -> Forall tmP (pd_e x) /\ pd_e x <> [].
Proof. unfold tmP. intros [->|[->| ->]]; (split; [repeat constructor; tauto|discriminate]). Qed.
Lemma iter_twice (h : nat -> str) k w : iter_morphism (fun c => flat_map h (h c)) k w = iter_morphism h (2 * k) w.
Proof.
  induction k as [|k IH]; [reflexivity|]. replace (2 * S k) with (S (S (2 * k))) by lia.
  change (iter_morphism h (S (S (2 * k))) w) with (flat_map h (flat_map h (iter_morphism h (2 * k) w))).
  change (iter_morphism (fun c => flat_map h (h c)) (S k) w) with (flat_map (fun c => flat_map h (h c)) (iter_morphism (fun c => flat_map h (h c)) k w)). rewrite IH.
  generalize (iter_morphism h (2 * k) w). intros u. induction u as [|c u IHu]; [reflexivity|]. cbn [flat_map]. now rewrite flat_map_app, IHu.
Qed.
Lemma pd_word_end k j : (j = 3 \/ j = 4) -> iter_morphism pd_e k (pd_seed j) = iter_morphism period_doubling_morphism (2 * k + j) [97] ++ [0].
Proof.
  intros Hj. unfold pd_e, pd_seed. rewrite ended_iter; [unfold pd2; now rewrite iter_twice, iter_add| |].
  - destruct Hj as [-> | ->]; vm_compute; intros c H E; subst; intuition discriminate.
  - intros c _ H. unfold pd2, period_doubling_morphism in H. destruct (c =? CA); cbn in H; intuition discriminate.
Qed.
Definition pd_start (j : nat) : list str := base_parts pd_phis (pd_seed j).
Theorem pd_state k j : (j = 3 \/ j = 4) -> okstate pd_phis (iter_morphism period_doubling_morphism (2 * k + j) [97] ++ [0]) (Nat.iter k pd_step (pd_start j)).
Proof.
  intros Hj. rewrite <- pd_word_end by exact Hj. apply (family_iter pd_e tmP 3 pd_W pd_phis (map fst pd_groups) (map snd pd_groups) (pd_seed j) (pd_start j) k pd_mono'); [vm_compute; reflexivity|vm_compute; reflexivity|exact pdP_h| | | |].
  - destruct Hj as [-> | ->]; apply tmP_check; vm_compute; reflexivity.
  - destruct Hj as [-> | ->]; vm_compute; lia.
  - destruct Hj as [-> | ->]; vm_compute; reflexivity.
  - destruct Hj as [-> | ->]; apply base_state; vm_compute; reflexivity.
Qed.
Theorem pd_end_runs k : exists b, is_matrix_bwt (iter_morphism period_doubling_morphism (k + 3) [97] ++ [0]) b /\ length (RunFacts.runs b) = 2 * k + 5.
Proof.
  assert (G : forall odd j m, (j = 3 \/ j = 4) -> pd_inv odd (2 * j - 3) (pd_start j) -> exists b, is_matrix_bwt (iter_morphism period_doubling_morphism (2 * m + j) [97] ++ [0]) b /\ length (RunFacts.runs b) = 4 * m + 2 * j - 1).
  { intros odd j m Hj B. exists (concat (Nat.iter m pd_step (pd_start j))). split; [now apply (okstate_bwt pd_phis), pd_state|].
    rewrite (pd_inv_runs odd (4 * m + 2 * j - 3)); [destruct Hj as [-> | ->]; lia|]. induction m as [|m IH]; [exact B|].
    replace (4 * S m + 2 * j - 3) with (4 * m + 2 * j - 3 + 4) by (destruct Hj as [-> | ->]; lia). exact (pd_inv_step _ _ _ IH). }
  destruct (Nat.Even_or_Odd k) as [(m & ->)|(m & ->)].
  - replace (2 * (2 * m) + 5) with (4 * m + 2 * 3 - 1) by lia. apply (G true); [now left|]. exists 1, 1, [98; 0; 97], 2. split; [vm_compute; reflexivity|]. do 4 (split; [lia|]). apply sh_check; vm_compute; reflexivity.
  - replace (2 * m + 1 + 3) with (2 * m + 4) by lia. replace (2 * (2 * m + 1) + 5) with (4 * m + 2 * 4 - 1) by lia. apply (G false); [now right|]. exists 3, 2, [97; 98; 0; 98; 97], 5. split; [vm_compute; reflexivity|]. do 4 (split; [lia|]). apply sh_check; vm_compute; reflexivity.
Qed.
