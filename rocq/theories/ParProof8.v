(** ParProof8.v : how large the counters of max_lyndon_word (unfinished/parallel.rs) get. *)
From Verif Require Import Base SpecStr SpecBwt SpecIo SpecPar LexFacts RunFacts ModelIo ModelCore ModelMain ModelPar ModelPar2.
From Verif Require Import DuvalProof LyndonProof BwtFacts BwtProof BbwtProof IterProof LwgProof ParProof LockFacts ParProof2 ParProof3 ParProof4 ParProof7.
From Coq Require Import NArith Lia.

(** ** conjugates of Lyndon words are different words *)
Lemma rot_self_lyndon w i : lyndon w -> i < length w -> rot i w = w -> i = 0.
Proof.
  intros Hw Hi E. destruct i as [|i]; [reflexivity|]. exfalso.
  pose proof (lyndon_lt_rot w (S i) Hw ltac:(lia)) as H. rewrite E in H. now apply lex_lt_irrefl in H.
Qed.
Lemma lyndon_rot_inj w w' i j : lyndon w -> lyndon w' -> length w = length w' -> i < length w -> j < length w ->
  rot i w = rot j w' -> w = w' /\ i = j.
Proof.
  intros Hw Hw' Hl Hi Hj E.
  assert (Hn : 0 < length w) by lia.
  assert (EW : w' = rot (((length w - j) mod length w + i) mod length w) w).
  { rewrite <- rot_rot by (try apply Nat.mod_upper_bound; lia). rewrite E, Hl. symmetry. apply rot_inv. lia. }
  set (m := ((length w - j) mod length w + i) mod length w) in *.
  assert (Hm : m < length w) by (apply Nat.mod_upper_bound; lia).
  assert (M0 : m = 0).
  { destruct (Nat.eq_dec m 0) as [|N]; [assumption|exfalso].
    pose proof (lyndon_lt_rot w m Hw ltac:(lia)) as H1. rewrite <- EW in H1.
    assert (EW2 : w = rot (length w - m) w').
    { rewrite EW, rot_rot by lia. replace (length w - m + m) with (length w) by lia. rewrite Nat.mod_same by lia. now rewrite rot_0. }
    pose proof (lyndon_lt_rot w' (length w - m) Hw' ltac:(lia)) as H2. rewrite <- EW2 in H2.
    exact (lex_lt_irrefl _ (lex_lt_trans _ _ _ H1 H2)). }
  rewrite M0, rot_0 in EW. subst w'. split; [reflexivity|].
  assert (Z : m = 0 -> i = j); [|auto]. unfold m. intros Hz. destruct (Nat.eq_dec j 0) as [->|Nj].
  - rewrite Nat.sub_0_r, Nat.mod_same, Nat.add_0_l, Nat.mod_small in Hz by lia. lia.
  - rewrite (Nat.mod_small (length w - j)) in Hz by lia.
    apply Nat.mod_divides in Hz; [|lia]. destruct Hz as (c & Hc). destruct c as [|[|c]]; nia.
Qed.
Lemma bitwords_all u : Forall (fun c => c < 2) u -> In u (bitwords (length u)).
Proof.
  induction 1 as [|c u Hc Hu IH]; [now left|]. cbn [length bitwords]. apply in_or_app.
  destruct c as [|[|c]]; [left|right|lia]; apply in_map_iff; eauto.
Qed.
Definition conjs (W : list str) : list str := flat_map (fun w => map (fun i => rot i w) (seq 0 (length w))) W.
Lemma conjs_length W : length (conjs W) = list_sum (map (fun w => length w) W).
Proof.
  induction W as [|w W IH]; [reflexivity|]. unfold conjs in *. cbn [flat_map map]. rewrite app_length, map_length, seq_length, IH. reflexivity.
Qed.
Lemma conjs_NoDup n W : NoDup W -> (forall w, In w W -> lyndon w /\ length w = n) -> NoDup (conjs W).
Proof.
  induction 1 as [|w W Hw HN IH]; intros HW; [constructor|]. unfold conjs. cbn [flat_map]. apply NoDup_app_intro.
  - destruct (HW w (or_introl eq_refl)) as (Lw & Ew).
    assert (G : forall l, NoDup l -> (forall i, In i l -> i < length w) -> NoDup (map (fun i => rot i w) l)).
    { clear - Lw. induction 1 as [|i l Hi Hl IH]; intros HB; [constructor|]. cbn [map]. constructor.
      - intros C. apply in_map_iff in C. destruct C as (j & E & Hj).
        destruct (lyndon_rot_inj w w j i Lw Lw eq_refl) as (_ & ->); auto; [apply HB; now right|apply HB; now left].
      - apply IH. intros k Hk. apply HB. now right. }
    apply G; [apply seq_NoDup|]. intros i Hi. apply in_seq in Hi. lia.
  - apply IH. intros u Hu. apply HW. now right.
  - intros x H1 H2. apply in_map_iff in H1. destruct H1 as (i & <- & Hi). apply in_seq in Hi.
    apply in_flat_map in H2. destruct H2 as (u & Hu & H2). apply in_map_iff in H2. destruct H2 as (j & E & Hj). apply in_seq in Hj.
    destruct (HW w (or_introl eq_refl)) as (Lw & Ew). destruct (HW u (or_intror Hu)) as (Lu & Eu).
    destruct (lyndon_rot_inj u w j i Lu Lw) as (-> & _); auto; lia.
Qed.
Lemma rot_zeros i n : rot i (repeat 0 n) = repeat 0 n.
Proof.
  assert (G : forall x, In x (rot i (repeat 0 n)) -> x = 0).
  { intros x Hx. unfold rot in Hx. apply (repeat_spec n 0). apply in_app_or in Hx.
    rewrite <- (firstn_skipn i (repeat 0 n)). apply in_or_app. tauto. }
  assert (EL : length (rot i (repeat 0 n)) = n) by (rewrite rot_length; apply repeat_length).
  revert G EL. generalize (rot i (repeat 0 n)). induction n as [|n IH]; intros [|a u] G EL; simpl in EL; try discriminate; [reflexivity|].
  cbn [repeat]. rewrite (G a (or_introl eq_refl)). f_equal. apply IH; [intros x Hx; apply G; now right|lia].
Qed.
(** the conjugates of the binary Lyndon words of one length *)
Lemma conj_count n W : NoDup W -> (forall w, In w W -> lyndon w /\ length w = n /\ Forall (fun c => c < 2) w) ->
  (N.of_nat (list_sum (map (fun w => length w) W)) <= 2 ^ N.of_nat n)%N /\
  (2 <= n -> (N.of_nat (list_sum (map (fun w => length w) W)) < 2 ^ N.of_nat n)%N).
Proof.
  intros HN HW. rewrite <- conjs_length.
  assert (HND : NoDup (conjs W)) by (apply (conjs_NoDup n); [exact HN|]; intros w Hw; destruct (HW w Hw) as (A & B & _); auto).
  assert (HIN : incl (conjs W) (bitwords n)).
  { intros u Hu. apply in_flat_map in Hu. destruct Hu as (w & Hw & Hu). apply in_map_iff in Hu. destruct Hu as (i & <- & _).
    destruct (HW w Hw) as (_ & <- & F). rewrite <- (rot_length i w). apply bitwords_all. unfold rot.
    rewrite <- (firstn_skipn i w) in F. apply Forall_app in F. destruct F. now apply Forall_app. }
  destruct (bitwords_ok n) as (BL & _ & _).
  assert (E2 : N.of_nat (length (bitwords n)) = (2 ^ N.of_nat n)%N) by (rewrite BL, Nat2N.inj_pow; reflexivity).
  split.
  - rewrite <- E2. pose proof (NoDup_incl_length HND HIN). lia.
  - intros Hn. rewrite <- E2.
    assert (HND' : NoDup (repeat 0 n :: conjs W)).
    { constructor; [|exact HND]. intros C. apply in_flat_map in C. destruct C as (w & Hw & C). apply in_map_iff in C. destruct C as (i & E & Hi).
      apply in_seq in Hi. destruct (HW w Hw) as (Lw & Ew & _).
      assert (Ez : w = repeat 0 n).
      { rewrite <- (rot_inv w i) by lia. rewrite E. apply rot_zeros. }
      pose proof (lyndon_lt_rot w 1 Lw ltac:(lia)) as H. rewrite Ez, rot_zeros in H. now apply lex_lt_irrefl in H. }
    assert (HIN' : incl (repeat 0 n :: conjs W) (bitwords n)).
    { intros u [<-|Hu]; [|auto]. rewrite <- (repeat_length 0 n) at 2. apply bitwords_all. apply Forall_forall. intros x Hx. rewrite (repeat_spec _ _ _ Hx). lia. }
    pose proof (NoDup_incl_length HND' HIN') as H. cbn [length] in H. lia.
Qed.

(** ** bounds on the counters from the invariant *)
Lemma cnt_le k w : cnt k w 0 <= length w.
Proof.
  unfold cnt. rewrite Nat.sub_0_r. rewrite <- (seq_length (length w) 0) at 2.
  generalize (seq 0 (length w)). induction l as [|x l IH]; [simpl; lia|]. cbn [filter]. destruct (cls w x =? k); simpl; lia.
Qed.
Lemma cnt_sum w : cnt 0 w 0 + cnt 1 w 0 + cnt 2 w 0 = length w.
Proof.
  unfold cnt. rewrite Nat.sub_0_r. rewrite <- (seq_length (length w) 0) at 4.
  generalize (seq 0 (length w)). induction l as [|x l IH]; [reflexivity|]. cbn [filter length].
  assert (C : cls w x = 0 \/ cls w x = 1 \/ cls w x = 2) by (unfold cls; destruct (bwr w <? bbr (rot x w)); [|destruct (bbr (rot x w) <? bwr w)]; auto).
  destruct C as [C|[C|C]]; rewrite C; cbn [Nat.eqb length]; lia.
Qed.
Lemma list_sum_map_le {A} (f g : A -> nat) l : (forall x, In x l -> f x <= g x) -> list_sum (map f l) <= list_sum (map g l).
Proof.
  induction l as [|x l IH]; intros H; [simpl; lia|]. cbn [map]. change (f x + list_sum (map f l) <= g x + list_sum (map g l)).
  specialize (IH (fun y Hy => H y (or_intror Hy))). specialize (H x (or_introl eq_refl)). lia.
Qed.
Lemma list_sum_map_add {A} (f g : A -> nat) l : list_sum (map (fun x => f x + g x) l) = list_sum (map f l) + list_sum (map g l).
Proof.
  induction l as [|x l IH]; [reflexivity|]. cbn [map].
  change (f x + g x + list_sum (map (fun x => f x + g x) l) = f x + list_sum (map f l) + (g x + list_sum (map g l))). lia.
Qed.
Lemma filter_len {A} (f : A -> bool) l : length (filter f l) <= length l.
Proof. induction l as [|x l IH]; [simpl; lia|]. cbn [filter length]. destruct (f x); simpl; lia. Qed.
Section B.
Context (max q : nat) (L : list str).
Hypothesis HL : forall w, In w L -> w <> [] /\ length w <= max.
Lemma counters_nth m s x : MInv max L m s -> In x (counters s) ->
  exists l, l < max /\ ((exists k, x = nth l (wins s k) 0) \/ x = nth l (m_num s) 0).
Proof.
  intros (L1 & L2 & EL & HI & HW & HB & HNl & _) Hx. unfold counters in Hx. rewrite !in_app_iff in Hx.
  assert (G : forall v, length v = max -> In x v -> exists l, l < max /\ x = nth l v 0).
  { intros v Hv Hi. destruct (In_nth v x 0 Hi) as (l & Hl & <-). exists l. split; [lia|reflexivity]. }
  destruct Hx as [Hx|[Hx|[Hx|Hx]]].
  - destruct (G _ (HW 0) Hx) as (l & Hl & E). exists l. split; [exact Hl|]. left. exists 0. exact E.
  - destruct (G _ (HW 1) Hx) as (l & Hl & E). exists l. split; [exact Hl|]. left. exists 1. exact E.
  - destruct (G _ (HW 2) Hx) as (l & Hl & E). exists l. split; [exact Hl|]. left. exists 2. exact E.
  - destruct (G _ HNl Hx) as (l & Hl & E). exists l. split; [exact Hl|]. right. exact E.
Qed.
Lemma word_pos w : In w L -> 1 <= length w.
Proof. intros H. destruct (HL w H) as (N & _). destruct w; [congruence|simpl; lia]. Qed.
Lemma count_le_sum W : incl W L -> length W <= list_sum (map (fun w => length w) W).
Proof.
  induction W as [|w W IH]; intros H; [simpl; lia|]. cbn [length map]. change (S (length W) <= length w + list_sum (map (fun w => length w) W)).
  pose proof (word_pos w (H w (or_introl eq_refl))). specialize (IH (fun x Hx => H x (or_intror Hx))). lia.
Qed.
(** every counter is at most the number of conjugates of the words handed out *)
Lemma counter_bound m s x : MInv max L m s -> In x (counters s) -> exists l L1 L2, l < max /\ L = L1 ++ L2 /\
  length L1 = m_total s + msum ftot (m_threads s) /\ x <= list_sum (map (fun w => length w) (filter (isl l) L1)).
Proof.
  intros HM Hx. destruct (counters_nth m s x HM Hx) as (l & Hl & Hc).
  destruct HM as (L1 & L2 & EL & HI & HW & HB & HNl & HC & HN & HT & _). exists l, L1, L2. split; [exact Hl|]. split; [exact EL|]. split; [lia|].
  assert (Inc : incl (filter (isl l) L1) L) by (intros w Hw; apply filter_In in Hw; rewrite EL; apply in_or_app; left; apply Hw).
  destruct Hc as [(k & ->)| ->].
  - specialize (HC k l Hl). pose proof (list_sum_map_le (fun w => cnt (Nat.min k 2) w 0) (fun w => length w) (filter (isl l) L1) (fun w _ => cnt_le _ w)). lia.
  - specialize (HN l Hl). pose proof (count_le_sum _ Inc). lia.
Qed.
Lemma ftot_le t : ftot t <= 1.
Proof. unfold ftot. destruct (cur t); [lia|]. destruct t; lia. Qed.
Lemma msum_ftot_le ths : msum ftot ths <= length ths.
Proof.
  unfold msum. induction ths as [|t ths IH]; [simpl; lia|]. cbn [map length]. change (ftot t + list_sum (map ftot ths) <= S (length ths)).
  pose proof (ftot_le t). lia.
Qed.
Lemma counters_small m s : MInv max L m s -> (N.of_nat max * (N.of_nat (m_total s) + N.of_nat (length (m_threads s))) <= i32_max)%N -> i32s s = true.
Proof.
  intros HM HB. apply i32s_iff. intros x Hx. destruct (counter_bound m s x HM Hx) as (l & L1 & L2 & Hl & EL & E1 & Hle).
  assert (G : forall W, incl W L -> list_sum (map (fun w => length w) W) <= max * length W).
  { induction W as [|w W IH]; intros H; [simpl; lia|]. cbn [length map]. change (length w + list_sum (map (fun w => length w) W) <= max * S (length W)).
    pose proof (HL w (H w (or_introl eq_refl))) as (_ & Hw). specialize (IH (fun x Hx => H x (or_intror Hx))). lia. }
  assert (Inc : incl (filter (isl l) L1) L) by (intros w Hw; apply filter_In in Hw; rewrite EL; apply in_or_app; left; apply Hw).
  specialize (G _ Inc). pose proof (filter_len (isl l) L1) as Hf. pose proof (msum_ftot_le (m_threads s)) as Hm.
  assert (Hx2 : x <= max * (m_total s + length (m_threads s))) by nia.
  rewrite <- Nat2N.inj_add, <- Nat2N.inj_mul in HB. lia.
Qed.
Context (HS : StronglySorted lex_lt L) (HIn : forall w, In w L <-> lyndon w /\ length w <= max /\ Forall (fun c => c < 2) w).
Lemma L_NoDup : NoDup L.
Proof. clear - HS. induction HS as [|w l H IH F]; constructor; auto. intros C. rewrite Forall_forall in F. exact (lex_lt_irrefl _ (F w C)). Qed.
Lemma conj_bound m s : max <= 31 -> MInv max L m s -> i32s s = true.
Proof.
  intros Hmax HM. apply i32s_iff. intros x Hx. destruct (counter_bound m s x HM Hx) as (l & L1 & L2 & Hl & EL & E1 & Hle).
  assert (ND : NoDup (filter (isl l) L1)).
  { apply NoDup_filter. pose proof L_NoDup as H. rewrite EL in H. clear - H. induction L1 as [|a L1 IH]; [constructor|].
    cbn [app] in H. inversion H; subst. constructor; [|auto]. intros C. apply H2. apply in_or_app. now left. }
  destruct (conj_count (l + 1) (filter (isl l) L1) ND) as (C1 & C2).
  { intros w Hw. apply filter_In in Hw. destruct Hw as (Hw & Hi). unfold isl in Hi. apply Nat.eqb_eq in Hi.
    assert (HwL : In w L) by (rewrite EL; apply in_or_app; now left). pose proof (word_pos w HwL). apply HIn in HwL. destruct HwL as (A & _ & B).
    split; [exact A|]. split; [lia|exact B]. }
  assert (P31 : (2 ^ 31 = N.succ i32_max)%N) by reflexivity.
  destruct (Nat.le_gt_cases 2 (l + 1)) as [C|C].
  - specialize (C2 C). assert (2 ^ N.of_nat (l + 1) <= 2 ^ 31)%N by (apply N.pow_le_mono_r; lia). lia.
  - assert (2 ^ N.of_nat (l + 1) <= 2 ^ 1)%N by (apply N.pow_le_mono_r; lia). change (2 ^ 1)%N with 2%N in *. unfold i32_max in *. lia.
Qed.
End B.

(** ** more than 2^27 binary Lyndon words of length 40 *)
Definition nonzero4 : list str := tl (bitwords 4).
Fixpoint blocks (n : nat) : list str :=
  match n with 0 => [[1;1;1;1]] | S n => flat_map (fun b => map (app b) (blocks n)) nonzero4 end.
Lemma nonzero4_ok b : In b nonzero4 -> length b = 4 /\ Forall (fun c => c < 2) b /\
  forall i, i < 4 -> exists j r, j <= 3 /\ (skipn i b = repeat 0 j ++ 1 :: r \/ (skipn i b = repeat 0 j)).
Proof.
  intros H. split; [|split].
  - destruct (bitwords_ok 4) as (_ & _ & HB). apply HB. now right.
  - destruct (bitwords_ok 4) as (_ & _ & HB). apply HB. now right.
  - repeat (destruct H as [<-|H]; [intros [|[|[|[|i]]]] Hi; cbn [skipn]; try lia;
      first [ exists 0; eexists; split; [lia|left; reflexivity] | exists 1; eexists; split; [lia|left; reflexivity]
            | exists 2; eexists; split; [lia|left; reflexivity] | exists 3; eexists; split; [lia|left; reflexivity]
            | exists 1, []; split; [lia|right; reflexivity] | exists 2, []; split; [lia|right; reflexivity] | exists 3, []; split; [lia|right; reflexivity] ]|]).
    destruct H.
Qed.
Lemma nonzero4_first b : In b nonzero4 -> exists j r, j <= 3 /\ b = repeat 0 j ++ 1 :: r.
Proof.
  intros H. repeat (destruct H as [<-|H]; [
      first [ exists 0; eexists; split; [lia|reflexivity] | exists 1; eexists; split; [lia|reflexivity]
            | exists 2; eexists; split; [lia|reflexivity] | exists 3; eexists; split; [lia|reflexivity] ]|]).
  destruct H.
Qed.
Lemma blocks_first n u : In u (blocks n) -> exists j r, j <= 3 /\ u = repeat 0 j ++ 1 :: r.
Proof.
  destruct n as [|n]; cbn [blocks].
  - intros [<-|[]]. exists 0, [1;1;1]. split; [lia|reflexivity].
  - intros H. apply in_flat_map in H. destruct H as (b & Hb & H). apply in_map_iff in H. destruct H as (v & <- & _).
    destruct (nonzero4_first b Hb) as (j & r & Hj & ->). exists j, (r ++ v). split; [exact Hj|]. now rewrite <- app_assoc.
Qed.
Lemma blocks_ok n : (N.of_nat (length (blocks n)) = 15 ^ N.of_nat n)%N /\ NoDup (blocks n) /\
  forall u, In u (blocks n) -> length u = 4 * n + 4 /\ Forall (fun c => c < 2) u /\
    forall i, i < length u -> exists j r, j < 7 /\ skipn i u = repeat 0 j ++ 1 :: r.
Proof.
  induction n as [|n (IL & IN & IO)].
  - split; [reflexivity|]. split; [repeat constructor; easy|]. intros u [<-|[]]. split; [reflexivity|]. split; [repeat constructor|].
    intros [|[|[|[|i]]]] Hi; cbn [skipn]; simpl in Hi; try lia; exists 0; eexists; (split; [lia|reflexivity]).
  - split; [|split].
    + assert (E : forall l, length (flat_map (fun b => map (app b) (blocks n)) l) = length l * length (blocks n)).
      { induction l as [|b l IH]; [reflexivity|]. cbn [flat_map length]. rewrite app_length, map_length, IH. simpl. reflexivity. }
      cbn [blocks]. rewrite E. change (length nonzero4) with 15. rewrite Nat2N.inj_mul, IL, (Nat2N.inj_succ n), N.pow_succ_r'. reflexivity.
    + cbn [blocks].
      assert (G : forall l, NoDup l -> (forall b, In b l -> length b = 4) -> NoDup (flat_map (fun b => map (app b) (blocks n)) l)).
      { induction 1 as [|b l Hb Hl IH]; intros H4; [constructor|]. cbn [flat_map]. apply NoDup_app_intro.
        - apply FinFun.Injective_map_NoDup; [intros x y E; now apply app_inv_head in E|exact IN].
        - apply IH. intros c Hc. apply H4. now right.
        - intros x H1 H2. apply in_map_iff in H1. destruct H1 as (v & <- & _). apply in_flat_map in H2. destruct H2 as (c & Hc & H2).
          apply in_map_iff in H2. destruct H2 as (v' & E & _). apply Hb.
          apply (f_equal (firstn 4)) in E. rewrite !firstn_app in E. rewrite (H4 b (or_introl eq_refl)), (H4 c (or_intror Hc)) in E.
          rewrite !Nat.sub_diag, !firstn_O in E. rewrite !app_nil_r in E. rewrite !firstn_all2 in E; [now subst c| |]; [rewrite (H4 b (or_introl eq_refl)); lia|rewrite (H4 c (or_intror Hc)); lia]. }
      apply G; [|intros b Hb; apply nonzero4_ok; exact Hb].
      destruct (bitwords_ok 4) as (_ & HN & _). unfold nonzero4. change (bitwords 4) with ([0;0;0;0] :: tl (bitwords 4)) in HN. now inversion HN.
    + intros u Hu. cbn [blocks] in Hu. apply in_flat_map in Hu. destruct Hu as (b & Hb & Hu). apply in_map_iff in Hu. destruct Hu as (v & <- & Hv).
      destruct (nonzero4_ok b Hb) as (Lb & Fb & Sb). destruct (IO v Hv) as (Lv & Fv & Sv).
      split; [rewrite app_length; lia|]. split; [now apply Forall_app|]. intros i Hi. rewrite app_length in Hi.
      destruct (Nat.lt_ge_cases i 4) as [C|C].
      * rewrite skipn_app. replace (i - length b) with 0 by lia. cbn [skipn]. destruct (Sb i C) as (j & r & Hj & [E|E]); rewrite E.
        -- exists j, (r ++ v). split; [lia|]. now rewrite <- app_assoc.
        -- destruct (blocks_first n v Hv) as (j' & r' & Hj' & ->). exists (j + j'), r'. split; [lia|]. rewrite repeat_app. now rewrite <- app_assoc.
      * rewrite skipn_app, skipn_all2 by lia. cbn [app]. apply Sv. lia.
Qed.
Lemma lyndon40_many L : NoDup L -> (forall w, binary_lyndon 40 w -> In w L) -> (15 ^ 7 <= N.of_nat (length L))%N.
Proof.
  intros HN HIn. destruct (blocks_ok 7) as (BL & BN & BO). change (N.of_nat 7) with 7%N in BL. rewrite <- BL.
  assert (H : length (map (fun v => repeat 0 7 ++ 1 :: v) (blocks 7)) <= length L); [|rewrite map_length in H; lia].
  apply NoDup_incl_length.
  - apply FinFun.Injective_map_NoDup; [|exact BN]. intros x y E. now injection E.
  - intros w Hw. apply in_map_iff in Hw. destruct Hw as (v & <- & Hv). destruct (BO v Hv) as (A & B & C). apply HIn. split; [|split].
    + apply lyndon_block. exact C.
    + rewrite app_length, repeat_length. cbn [length]. lia.
    + apply Forall_app. split; [repeat constructor|]. constructor; [lia|exact B].
Qed.
