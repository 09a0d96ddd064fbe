(** MorphBwt5.v : the words with an end marker: Thue-Morse, period-doubling, ternary Thue-Morse, quaternary paperfolding (C129) *)
From Verif Require Import Base SpecStr SpecBwt SpecWord LexFacts BwtFacts LynMorph MorphBwt MorphBwt2 MorphRuns MorphBwt3 MorphBwt4 ModelWord WordProof3.

(** the morphism leaves the end marker alone *)
Definition ended (h : nat -> str) (c : nat) : str := if c =? 0 then [0] else h c.
Lemma ended_iter h k w : (forall c, In c w -> c <> 0) -> (forall c, c <> 0 -> ~ In 0 (h c)) -> iter_morphism (ended h) k (w ++ [0]) = iter_morphism h k w ++ [0].
Proof.
  intros Hw Hh. enough (G : iter_morphism (ended h) k (w ++ [0]) = iter_morphism h k w ++ [0] /\ forall c, In c (iter_morphism h k w) -> c <> 0) by apply G.
  induction k as [|k (IH & Z)]; [split; [reflexivity|exact Hw]|]. change (iter_morphism (ended h) (S k) (w ++ [0])) with (flat_map (ended h) (iter_morphism (ended h) k (w ++ [0]))). change (iter_morphism h (S k) w) with (flat_map h (iter_morphism h k w)).
  rewrite IH, flat_map_app. split.
  - cbn [flat_map]. change (ended h 0) with [0]. f_equal. clear -Z. induction (iter_morphism h k w) as [|c u IHu]; [reflexivity|]. cbn [flat_map]. rewrite IHu by (intros d Hd; apply Z; now right). f_equal.
    unfold ended. specialize (Z c (or_introl eq_refl)). destruct (Nat.eqb_spec c 0); [congruence|reflexivity].
  - intros c Hc ->. apply in_flat_map in Hc. destruct Hc as (d & Hd & H0). exact (Hh d (Z d Hd) H0).
Qed.
Definition any : nat -> bool := fun _ => true.
Definition is (c : nat) : nat -> bool := fun x => x =? c.
Definition at_ (t : nat) : nat -> nat := fun _ => t.
Definition uniq (l : list str) : list str := nodup (list_eq_dec Nat.eq_dec) l.

(** ** words by their letters, first letter, number of runs, last letter *)
Definition sh (ls : list nat) (x r y : nat) (u : str) : Prop := Forall (fun c => In c ls) u /\ u <> [] /\ hd 0 u = x /\ last u 0 = y /\ S (ch u) = r.
Lemma sh_rep ls c n : 1 <= n -> In c ls -> sh ls c 1 c (repeat c n).
Proof. intros Hn Hc. split; [|split; [|split; [|split]]]; [|now apply repeat_ne|now apply hd_repeat|now apply last_repeat|now rewrite ch_repeat]. apply Forall_forall. intros d Hd. apply repeat_spec in Hd. now subst. Qed.
Lemma sh_one ls c : In c ls -> sh ls c 1 c [c].
Proof. intros H. exact (sh_rep ls c 1 (le_n _) H). Qed.
Lemma sh_app ls x r y u z s t v : sh ls x r y u -> sh ls z s t v -> sh ls x (r + s - (if y =? z then 1 else 0)) t (u ++ v).
Proof.
  intros (A1 & A2 & A3 & A4 & A5) (B1 & B2 & B3 & B4 & B5). split; [now apply Forall_app|]. split; [destruct u; [congruence|discriminate]|]. split; [now rewrite hd_app|]. split; [now rewrite last_app|].
  rewrite ch_app by assumption. rewrite A4, B3. destruct (y =? z); lia.
Qed.
Lemma sh_map ls ls' (g : nat -> nat) x r y u : forallb (fun c => forallb (fun d => negb (g c =? g d) || (c =? d)) ls && existsb (Nat.eqb (g c)) ls') ls = true ->
  sh ls x r y u -> sh ls' (g x) r (g y) (map g u).
Proof.
  intros H (A1 & A2 & A3 & A4 & A5). rewrite forallb_forall in H. rewrite Forall_forall in A1. split; [|split; [|split; [|split]]].
  - apply Forall_forall. intros d Hd. apply in_map_iff in Hd. destruct Hd as (c & <- & Hc). specialize (H c (A1 c Hc)). apply andb_true_iff in H. destruct H as (_ & H). apply existsb_exists in H. destruct H as (e & He & E). apply Nat.eqb_eq in E. now rewrite E.
  - now apply map_ne.
  - rewrite hd_map by assumption. now rewrite A3.
  - rewrite last_map by assumption. now rewrite A4.
  - rewrite ch_map; [exact A5|]. intros c d Hc Hd E. specialize (H c (A1 c Hc)). apply andb_true_iff in H. destruct H as (H & _). rewrite forallb_forall in H. specialize (H d (A1 d Hd)). rewrite E, Nat.eqb_refl in H. cbn [negb orb] in H. now apply Nat.eqb_eq.
Qed.
Lemma sh_check ls x r y u : forallb (fun c => existsb (Nat.eqb c) ls) u && negb (length u =? 0) && (hd 0 u =? x) && (last u 0 =? y) && (S (ch u) =? r) = true -> sh ls x r y u.
Proof.
  rewrite !andb_true_iff, !Nat.eqb_eq. intros ((((A & B) & C) & D) & E). split; [|split; [|auto]].
  - rewrite forallb_forall in A. apply Forall_forall. intros c Hc. specialize (A c Hc). apply existsb_exists in A. destruct A as (d & Hd & Q). apply Nat.eqb_eq in Q. now subst.
  - intros ->. discriminate B.
Qed.
Lemma sh_hd ls x r y u : sh ls x r y u -> In x u. Proof. intros (_ & N & <- & _). now apply hd_In. Qed.
Lemma sh_last ls x r y u : sh ls x r y u -> In y u. Proof. intros (_ & N & _ & <- & _). now apply last_In. Qed.
Lemma sh_eq ls x r r' y u : sh ls x r y u -> r = r' -> sh ls x r' y u. Proof. now intros H <-. Qed.
Lemma sh_sub ls ls' x r y u : incl ls ls' -> sh ls x r y u -> sh ls' x r y u.
Proof. intros I (A & B). split; [|exact B]. eapply Forall_impl; [|exact A]. intros c Hc. now apply I. Qed.
Lemma sh_runs ls x r y u : sh ls x r y u -> length (RunFacts.runs u) = r. Proof. intros (_ & N & _ & _ & <-). now apply runs_ch. Qed.
Definition num (u : str) (c : nat) : nat := count_occ Nat.eq_dec u c.
Lemma num_pos u c : In c u -> 1 <= num u c. Proof. exact (count_pos u c). Qed.
Lemma num_Forall ls u c : Forall (fun d => In d ls) u -> ~ In c ls -> num u c = 0.
Proof. intros H N. apply count_occ_not_In. intros Hc. rewrite Forall_forall in H. apply N. now apply H. Qed.
Lemma pick (h : nat -> str) e c u : map (before h (S e)) (filter (is c) u) = repeat (nth e (h c) 0) (num u c).
Proof.
  unfold num. induction u as [|d u IH]; [reflexivity|]. cbn [filter count_occ]. unfold is at 1. destruct (Nat.eqb_spec d c) as [->|N]; destruct (Nat.eq_dec _ c); try congruence; cbn [map repeat]; now rewrite IH.
Qed.
Lemma gpiece_is h ps e c i : gpiece h ps (at_ (S e), is c, i) = repeat (nth e (h c) 0) (num (nth i ps []) c).
Proof. apply (pick h). Qed.
Lemma gpiece_any h ps i : gpiece h ps (at_ 0, any, i) = map (before h 0) (nth i ps []).
Proof. unfold gpiece. cbn [fst snd]. f_equal. induction (nth i ps []) as [|c u IH]; [reflexivity|]. cbn [filter any]. now f_equal. Qed.

(** ** Thue-Morse: the rows beginning with the end marker, with a and the end marker, a and a letter, b and the end marker, b and a letter *)
Definition tm_phis : list (nat -> nat -> nat -> bool) := [fun y z _ => y =? 0; fun y z _ => (y =? 97) && (z =? 0); fun y z _ => (y =? 97) && negb (z =? 0); fun y z _ => (y =? 98) && (z =? 0); fun y z _ => (y =? 98) && negb (z =? 0)].
Definition tm_groups : list (tgroup * nat) :=
  [((at_ 0, any, 0), 0);
   ((at_ 1, is 98, 0), 1);
   ((at_ 1, is 98, 1), 2); ((at_ 1, is 98, 2), 2); ((at_ 0, any, 1), 2); ((at_ 1, is 98, 4), 2); ((at_ 0, any, 2), 2);
   ((at_ 1, is 97, 0), 3);
   ((at_ 0, any, 3), 4); ((at_ 0, any, 4), 4); ((at_ 1, is 97, 2), 4); ((at_ 1, is 97, 3), 4); ((at_ 1, is 97, 4), 4)].
Definition tm_e := ended thuemorse_morphism.
Definition tm_seed (k : nat) : str := iter_morphism thuemorse_morphism k [97] ++ [0].
Definition tm_W : list str := uniq (windows_of 4 (tm_seed 5) ++ windows_of 4 (tm_seed 6)).

Definition tm_step (ps : list str) : list str := gstep tm_e tm_phis (map fst tm_groups) (map snd tm_groups) ps.
Lemma tm_step_eq Z A0 A B0 B : tm_step [Z; A0; A; B0; B] =
  [map (before tm_e 0) Z; repeat 98 (num Z 98);
   repeat 98 (num A0 98) ++ repeat 98 (num A 98) ++ map (before tm_e 0) A0 ++ repeat 98 (num B 98) ++ map (before tm_e 0) A;
   repeat 97 (num Z 97);
   map (before tm_e 0) B0 ++ map (before tm_e 0) B ++ repeat 97 (num A 97) ++ repeat 97 (num B0 97) ++ repeat 97 (num B 97)].
Proof.
  unfold tm_step, gstep, tm_groups. cbn [map fst snd combine seq flat_map length tm_phis Nat.eqb app]. rewrite !gpiece_is, !gpiece_any. cbn [nth]. rewrite !app_nil_r. reflexivity.
Qed.

Definition l3 : list nat := [0; 97; 98].
Definition l2 : list nat := [97; 98].
Definition tm_even (r : nat) (ps : list str) : Prop := exists A B rA rB, ps = [[97]; [98]; A; []; B] /\ sh l3 98 rA 0 A /\ sh l2 98 rB 97 B /\ r = 1 + rA + rB.
Definition tm_odd (r : nat) (ps : list str) : Prop := exists A B rA rB, ps = [[98]; []; A; [97]; B] /\ sh l3 98 rA 0 A /\ In 97 A /\ sh l2 97 rB 97 B /\ In 98 B /\ r = rA + rB.
Ltac inl := first [left; reflexivity | right; inl].
Ltac shs := lazymatch goal with
  | |- sh _ _ _ _ (_ ++ _) => eapply sh_app; [shs|shs]
  | |- sh _ _ _ _ (repeat _ _) => eapply sh_rep; [lia|inl]
  | |- sh _ _ _ _ [_] => eapply sh_one; inl
  | |- _ => eassumption end.
Ltac shape := eapply sh_eq; [shs|cbn [Nat.eqb]; lia].
Lemma tm_even_step r ps : tm_even r ps -> tm_odd (r + 3) (tm_step ps).
Proof.
  intros (A & B & rA & rB & -> & HA & HB & ->). rewrite tm_step_eq. change (map (before tm_e 0) [97]) with [98]. change (num [97] 98) with 0. change (num [98] 98) with 1. change (num [97] 97) with 1. change (num [] 97) with 0. cbn [repeat app]. change (map (before tm_e 0) [98]) with [97]. cbn [map app].
  exists (98 :: repeat 98 (num A 98) ++ 97 :: repeat 98 (num B 98) ++ map (before tm_e 0) A), (map (before tm_e 0) B ++ repeat 97 (num A 97) ++ repeat 97 (num B 97)), (rA + 3), (rB + 1).
  split; [reflexivity|]. pose proof (num_pos _ _ (sh_hd _ _ _ _ _ HA)). pose proof (num_pos _ _ (sh_hd _ _ _ _ _ HB)). pose proof (num_pos _ _ (sh_last _ _ _ _ _ HB)).
  assert (MA : sh l3 97 rA 0 (map (before tm_e 0) A)) by (apply (sh_map l3 l3 (before tm_e 0) 98 rA 0 A); [reflexivity|exact HA]).
  assert (MB : sh l2 97 rB 98 (map (before tm_e 0) B)) by (apply (sh_map l2 l2 (before tm_e 0) 98 rB 97 B); [reflexivity|exact HB]).
  split; [|split; [|split; [|split]]].
  - change (sh l3 98 (rA + 3) 0 ([98] ++ repeat 98 (num A 98) ++ [97] ++ repeat 98 (num B 98) ++ map (before tm_e 0) A)). shape.
  - right. apply in_or_app. right. now left.
  - rewrite <- repeat_app. shape.
  - apply in_or_app. left. apply (sh_last _ _ _ _ _ MB).
  - lia.
Qed.
Lemma tm_odd_step r ps : tm_odd r ps -> tm_even (r + 3) (tm_step ps).
Proof.
  intros (A & B & rA & rB & -> & HA & A97 & HB & B98 & ->). rewrite tm_step_eq. change (map (before tm_e 0) [98]) with [97]. change (num [98] 98) with 1. change (num [] 98) with 0. change (num [98] 97) with 0. change (num [97] 97) with 1. cbn [repeat app]. change (map (before tm_e 0) [97]) with [98]. cbn [map app].
  exists (repeat 98 (num A 98) ++ repeat 98 (num B 98) ++ map (before tm_e 0) A), ([98] ++ map (before tm_e 0) B ++ repeat 97 (num A 97) ++ [97] ++ repeat 97 (num B 97)), (rA + 1), (rB + 1).
  split; [reflexivity|]. pose proof (num_pos _ _ (sh_hd _ _ _ _ _ HA)). pose proof (num_pos _ _ A97). pose proof (num_pos _ _ (sh_hd _ _ _ _ _ HB)). pose proof (num_pos _ _ B98).
  assert (MA : sh l3 97 rA 0 (map (before tm_e 0) A)) by (apply (sh_map l3 l3 (before tm_e 0) 98 rA 0 A); [reflexivity|exact HA]).
  assert (MB : sh l2 98 rB 98 (map (before tm_e 0) B)) by (apply (sh_map l2 l2 (before tm_e 0) 97 rB 97 B); [reflexivity|exact HB]).
  split; [|split].
  - shape.
  - shape.
  - lia.
Qed.
Definition tmP (c : nat) : Prop := c = 0 \/ c = 97 \/ c = 98.
Lemma tmP_check w : forallb (fun c => existsb (Nat.eqb c) [0; 97; 98]) w = true -> Forall tmP w.
Proof.
  intros H. rewrite forallb_forall in H. apply Forall_forall. intros c Hc. specialize (H c Hc). cbn [existsb] in H. rewrite !orb_true_iff, !Nat.eqb_eq in H. unfold tmP. intuition discriminate.
Qed.
Lemma tm_mono' x y s t : tmP x -> tmP y -> x < y -> lex_lt (tm_e x ++ s) (tm_e y ++ t).
Proof. intros [->|[->| ->]] [->|[->| ->]] L; try lia; cbn; lx. Qed.
Lemma tm_checks : checks tm_e 3 tm_W tm_phis (map fst tm_groups) (map snd tm_groups) = true.
Proof. vm_compute. reflexivity. Qed.
Lemma tm_windows : check_windows tm_e 4 tm_W = true. Proof. vm_compute. reflexivity. Qed.
Lemma tmP_h x : tmP x -> Forall tmP (tm_e x) /\ tm_e x <> [].
Proof. unfold tmP. intros [->|[->| ->]]; (split; [repeat constructor; tauto|discriminate]). Qed.
Lemma iter_add h i k w : iter_morphism h (i + k) w = iter_morphism h i (iter_morphism h k w).
Proof. induction i as [|i IH]; [reflexivity|]. cbn [Nat.add]. change (iter_morphism h (S (i + k)) w) with (flat_map h (iter_morphism h (i + k) w)). now rewrite IH. Qed.
Lemma tm_word_end k : iter_morphism tm_e k (tm_seed 3) = iter_morphism thuemorse_morphism (k + 3) [97] ++ [0].
Proof.
  unfold tm_e, tm_seed. rewrite ended_iter; [now rewrite iter_add| |].
  - vm_compute. intros c H E. subst. intuition discriminate.
  - intros c _ H. unfold thuemorse_morphism in H. destruct (c =? CA); cbn in H; intuition discriminate.
Qed.
Definition tm_start : list str := base_parts tm_phis (tm_seed 3).
Theorem tm_state k : okstate tm_phis (iter_morphism thuemorse_morphism (k + 3) [97] ++ [0]) (Nat.iter k tm_step tm_start).
Proof.
  rewrite <- tm_word_end. apply (family_iter tm_e tmP 3 tm_W tm_phis (map fst tm_groups) (map snd tm_groups) (tm_seed 3) tm_start k tm_mono' tm_checks tm_windows tmP_h).
  - apply tmP_check. vm_compute. reflexivity.
  - vm_compute. lia.
  - vm_compute. reflexivity.
  - apply base_state; vm_compute; reflexivity.
Qed.
Lemma tm_inv m : tm_odd (6 * m + 7) (Nat.iter (2 * m) tm_step tm_start) /\ tm_even (6 * m + 10) (Nat.iter (2 * m + 1) tm_step tm_start).
Proof.
  assert (G : tm_odd (6 * m + 7) (Nat.iter (2 * m) tm_step tm_start)).
  { induction m as [|m IH].
    - exists [98;97;98;0], [97;98;97], 4, 3. split; [vm_compute; reflexivity|]. split; [apply sh_check; vm_compute; reflexivity|]. split; [right; now left|]. split; [apply sh_check; vm_compute; reflexivity|]. split; [cbn; tauto|]. reflexivity.
    - replace (2 * S m) with (S (S (2 * m))) by lia. change (Nat.iter (S (S (2 * m))) tm_step tm_start) with (tm_step (tm_step (Nat.iter (2 * m) tm_step tm_start))).
      replace (6 * S m + 7) with (6 * m + 7 + 3 + 3) by lia. apply tm_even_step, tm_odd_step, IH. }
  split; [exact G|]. replace (2 * m + 1) with (S (2 * m)) by lia. replace (6 * m + 10) with (6 * m + 7 + 3) by lia. exact (tm_odd_step _ _ G).
Qed.
Lemma tm_odd_runs r ps : tm_odd r ps -> length (RunFacts.runs (concat ps)) = r.
Proof.
  intros (A & B & rA & rB & -> & HA & _ & HB & _ & ->). cbn [concat app]. rewrite app_nil_r. apply (sh_runs l3 98 _ 97).
  apply (sh_sub l2 l3) in HB; [|intros c Hc; now right]. change (sh l3 98 (rA + rB) 97 ([98] ++ A ++ [97] ++ B)). pose proof HA as (_ & NA & _). pose proof HB as (_ & NB & _). assert (1 <= rA) by (destruct HA as (_ & _ & _ & _ & <-); lia). assert (1 <= rB) by (destruct HB as (_ & _ & _ & _ & <-); lia). shape.
Qed.
Lemma tm_even_runs r ps : tm_even r ps -> length (RunFacts.runs (concat ps)) = r.
Proof.
  intros (A & B & rA & rB & -> & HA & HB & ->). cbn [concat app]. rewrite app_nil_r. apply (sh_runs l3 97 _ 97).
  apply (sh_sub l2 l3) in HB; [|intros c Hc; now right]. change (sh l3 97 (1 + rA + rB) 97 ([97] ++ [98] ++ A ++ B)). assert (1 <= rA) by (destruct HA as (_ & _ & _ & _ & <-); lia). assert (1 <= rB) by (destruct HB as (_ & _ & _ & _ & <-); lia). shape.
Qed.
Theorem tm_end_runs k : exists b, is_matrix_bwt (iter_morphism thuemorse_morphism (k + 3) [97] ++ [0]) b /\ length (RunFacts.runs b) = 3 * k + 7.
Proof.
  exists (concat (Nat.iter k tm_step tm_start)). split; [apply (okstate_bwt tm_phis), tm_state|].
  destruct (Nat.Even_or_Odd k) as [(m & ->)|(m & ->)]; destruct (tm_inv m) as (I1 & I2).
  - rewrite (tm_odd_runs _ _ I1). lia.
  - rewrite (tm_even_runs _ _ I2). lia.
Qed.
