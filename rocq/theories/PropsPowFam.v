(** PropsPowFam.v : property theorems C127, the highest powers in the words of src/word.rs (src/word.rs, src/bin/word.rs). *)
From Verif Require Import Base SpecStr SpecIo SpecMain SpecWord SpecArgs SpecArgs2 SpecFs LexFacts BorderProof UnifyProof.
From Verif Require Import ModelWord ModelMain ModelFs ModelArgs ModelArgs2.
From Verif Require Import WordProof WordProof2 WordProof3 WordProof4 FibFacts LynFam LynFam5 RunFam LetFam PerFam LzTrib PowFam PropsWord PropsWord2 PropsArgs PropsArgs2 MainProof2 PropsSession PropsLynFam PropsPerFam.
From Coq Require Import NArith.

(** the highest power u u ... u that occurs, and the first k for which it does *)
Definition highest_power (v : word_name) : option (nat * nat) :=
  match v with
  | Fibonacci => Some (3, 6)
  | FibonacciLyndonFactor | PeriodDoubling | PaperFolding => Some (3, 3)
  | Tribonacci => Some (3, 7)
  | ThueMorse => Some (2, 2)
  | QuaternaryPaperFolding | Vtm => Some (1, 0)
  | Kolakoski | BinaryDeBrujin | Power2 => None
  end.
(** some factor of w is the m-th power of a non-empty word *)
Definition contains_power (w : str) (m : nat) : Prop := exists x u y, u <> [] /\ w = x ++ power u m ++ y.
Lemma power_up (w : nat -> str) h m k0 : (forall k, w (S k) = flat_map h (w k)) -> (forall c, h c <> []) -> has_power (w k0) m -> forall k, k0 <= k -> has_power (w k) m.
Proof. intros HS N H k L. induction L as [|k L IH]; [exact H|]. rewrite HS. now apply has_power_flat. Qed.
Lemma iter_add h a b w : iter_morphism h (a + b) w = iter_morphism h a (iter_morphism h b w).
Proof. induction a as [|a IH]; [reflexivity|]. cbn [Nat.add]. now rewrite !iter_S, IH. Qed.
Lemma pf_prefix_of k0 k : k0 <= k -> exists y, flat_map pfe (iter_morphism pfh k [100]) = flat_map pfe (iter_morphism pfh k0 [100]) ++ y.
Proof.
  intros H. replace k with (k0 + (k - k0)) by lia. rewrite iter_add. pose proof (q_start (k - k0)) as S0. destruct (iter_morphism pfh (k - k0) [100]) as [|a l]; [discriminate S0|].
  cbn [hd] in S0. subst a. change (100 :: l) with ([100] ++ l).
  assert (G : forall n u v, iter_morphism pfh n (u ++ v) = iter_morphism pfh n u ++ iter_morphism pfh n v) by (induction n as [|n IH]; intros u v; [reflexivity|]; rewrite !iter_S, IH; apply flat_map_app).
  rewrite G, flat_map_app. eexists. reflexivity.
Qed.
Lemma pf_up m k0 : has_power (flat_map pfe (iter_morphism pfh k0 [100])) m -> forall k, k0 <= k -> has_power (flat_map pfe (iter_morphism pfh k [100])) m.
Proof.
  intros (x & u & y & N & E) k H. destruct (pf_prefix_of k0 k H) as (z & ->). exists x, u, (y ++ z). split; [exact N|]. now rewrite E, <- !app_assoc.
Qed.
Lemma u2_nonempty h : uniform2 h -> forall c, h c <> [].
Proof. intros U c E. specialize (U c). rewrite E in U. discriminate U. Qed.
Lemma fphi_ne c : fphi c <> []. Proof. unfold fphi. destruct (c =? 97); discriminate. Qed.
Lemma lfm_ne c : lfm c <> []. Proof. unfold lfm. destruct (c =? 97); discriminate. Qed.
Lemma one_power (w : str) : w <> [] -> has_power w 1.
Proof. intros N. exists [], w, []. split; [exact N|]. cbn [power app]. now rewrite !app_nil_r. Qed.
(** a family whose words have the power from k0 on *)
Lemma exactly (w : nat -> str) m k0 k : 1 <= m -> (forall k, k0 <= k -> has_power (w k) m) -> (forall k, k < k0 -> powerb (w k) m = false) -> ~ has_power (w k) (S m) ->
  (has_power (w k) m <-> k0 <= k) /\ forall n, m < n -> ~ has_power (w k) n.
Proof.
  intros Hm U D N. split.
  - split; [|apply U]. intros H. destruct (Nat.le_gt_cases k0 k) as [C|C]; [exact C|]. exfalso. exact (no_power _ _ Hm (D k C) H).
  - intros n Hn H. apply N. now apply (has_power_le _ _ n).
Qed.
Lemma no_four w : (forall p s, 1 <= p -> ~ rept w s p (4 * p - 1)) -> ~ has_power w 4.
Proof. intros N H. apply has_power_rept in H. destruct H as (s & p & Hp & R). apply (N p s Hp). apply (rept_shorter _ _ _ _ _ R). lia. Qed.
Ltac small := repeat match goal with k : nat |- powerb _ _ = false => destruct k as [|k]; [vm_compute; reflexivity|]; try lia end.
Theorem C127_highest_power : forall v m k0 k, highest_power v = Some (m, k0) -> k <= writes_up_to v -> exists w, word_main v k = Ok w /\
  (contains_power w m <-> k0 <= k) /\ forall n, m < n -> ~ contains_power w n.
Proof.
  intros v m k0 k H B. change contains_power with has_power. unfold highest_power in H. destruct v; try discriminate H; injection H as <- <-; cbn [word_main writes_up_to] in *.
  - exists (fib_word k). split; [now apply fibonacci_word_ok|]. apply (exactly fib_word); [lia| | |].
    + apply (power_up _ fphi); [intros j; now rewrite fphi_fib|apply fphi_ne|]. exists (firstn 5 (fib_word 6)), [97; 98; 97], (skipn 14 (fib_word 6)). split; [discriminate|vm_compute; reflexivity].
    + intros j Hj. small.
    + apply no_four, fib_powers.
  - exists (lw k). split; [now apply fibonacci_lyndonfactor_ok|]. apply (exactly lw); [lia| | |].
    + apply (power_up _ lfm); [apply lw_S|apply lfm_ne|]. exists (firstn 6 (lw 3)), [97; 98; 97], (skipn 15 (lw 3)). split; [discriminate|vm_compute; reflexivity].
    + intros j Hj. small.
    + apply no_four, lw_powers.
  - exists (trib_word k). split; [now apply trib_writes|]. apply (exactly trib_word); [lia| | |].
    + apply (power_up _ tribonacci_morphism); [intros j; now rewrite trib_word_morph|apply trib_ne|]. exists (firstn 37 (trib_word 7)), [97; 98; 97; 99; 97; 98; 97], (skipn 58 (trib_word 7)). split; [discriminate|vm_compute; reflexivity].
    + intros j Hj. small.
    + apply no_four, trib_powers.
  - destruct (C44_thuemorse_word k ltac:(lia)) as (w & E & _ & _ & Ew). exists w. split; [exact E|]. rewrite Ew. change tm_image with thuemorse_morphism.
    apply (exactly (fun k => iter_morphism thuemorse_morphism k [97])); [lia| | |].
    + apply (power_up _ thuemorse_morphism); [intros j; apply iter_S|now apply u2_nonempty, tmh_u2|]. exists [97], [98], [97]. split; [discriminate|vm_compute; reflexivity].
    + intros j Hj. small.
    + intros (x & u & y & N & Eq). destruct u as [|c u]; [congruence|]. apply (C61_thuemorse_overlap_free k w E x c u (u ++ y)). rewrite Ew. change tm_image with thuemorse_morphism. rewrite Eq. cbn [power]. rewrite app_nil_r, <- !app_assoc. reflexivity.
  - exists (iter_morphism period_doubling_morphism k [97]). split; [apply period_doubling_word_ok; lia|].
    apply (exactly (fun k => iter_morphism period_doubling_morphism k [97])); [lia| | |].
    + apply (power_up _ period_doubling_morphism); [intros j; apply iter_S|now apply u2_nonempty, pdh_u2|]. exists [97; 98], [97], [98; 97; 98]. split; [discriminate|vm_compute; reflexivity].
    + intros j Hj. small.
    + intros H. apply has_power_rept in H. destruct H as (s & p & Hp & R). exact (pd_powers k p s Hp R).
  - exists (flat_map pfe (iter_morphism pfh k [100])). split; [apply paperfolding_ok; lia|].
    apply (exactly (fun k => flat_map pfe (iter_morphism pfh k [100]))); [lia| | |].
    + apply pf_up. exists (firstn 7 (flat_map pfe (iter_morphism pfh 3 [100]))), [49], (skipn 10 (flat_map pfe (iter_morphism pfh 3 [100]))). split; [discriminate|vm_compute; reflexivity].
    + intros j Hj. small.
    + intros H. apply has_power_rept in H. destruct H as (s & p & Hp & R). apply (pf_long k p s Hp). apply (rept_shorter _ _ _ _ _ R). lia.
  - exists (iter_morphism pfh k [100]). split; [apply quaternary_ok; lia|].
    apply (exactly (fun k => iter_morphism pfh k [100])); [lia| | |].
    + intros j _. apply one_power. intros E. pose proof (q_start j) as Q. rewrite E in Q. discriminate Q.
    + intros j Hj. lia.
    + intros H. apply has_power_rept in H. destruct H as (s & p & Hp & R). exact (quat_powers k p s Hp R).
  - exists (iter_morphism vtm_morphism k [97]). split; [now apply vtm_word_ok|].
    apply (exactly (fun k => iter_morphism vtm_morphism k [97])); [lia| | |].
    + intros j _. apply one_power. destruct j as [|j]; [discriminate|]. intros E. pose proof (vm_len j) as L. rewrite E in L. cbn [length] in L. pose proof (LynFam5.pow_pos j). lia.
    + intros j Hj. lia.
    + intros (x & u & y & N & Eq). apply N. apply (vtm_square_free k x u y). rewrite Eq. cbn [power]. now rewrite app_nil_r, <- !app_assoc.
Qed.
Print Assumptions C127_highest_power.
(** fibonacci, fibonacci-lyndon-factor and tribonacci do not even contain a fourth power with its last letter cut off *)
Theorem C127_almost_fourth_power : forall v k, v = Fibonacci \/ v = FibonacciLyndonFactor \/ v = Tribonacci -> k <= writes_up_to v -> exists w, word_main v k = Ok w /\
  forall x u c y, w <> x ++ power (u ++ [c]) 3 ++ u ++ y.
Proof.
  intros v k V B. enough (H : exists w, word_main v k = Ok w /\ forall p s, 1 <= p -> ~ rept w s p (4 * p - 1)).
  2: { destruct V as [-> |[-> | ->]]; cbn [word_main writes_up_to] in *.
    - exists (fib_word k). split; [now apply fibonacci_word_ok|apply fib_powers].
    - exists (lw k). split; [now apply fibonacci_lyndonfactor_ok|apply lw_powers].
    - exists (trib_word k). split; [now apply trib_writes|apply trib_powers]. }
  destruct H as (w & E & NR). exists w. split; [exact E|]. intros x u c y Ew.
  assert (G : exists s p, 1 <= p /\ rept w s p (4 * p - 1)).
  { exists (length x), (length (u ++ [c])). assert (L : length (u ++ [c]) = S (length u)) by (rewrite app_length; cbn [length]; lia). split; [lia|].
    assert (W' : w ++ [c] = x ++ power (u ++ [c]) 3 ++ u ++ y ++ [c]) by (rewrite Ew, <- !app_assoc; reflexivity).
    assert (R : rept (x ++ power (u ++ [c]) 4 ++ []) (length x) (length (u ++ [c])) (4 * length (u ++ [c]))) by (apply power_rept; destruct u; discriminate).
    destruct R as (_ & R). rewrite Ew. split; [rewrite !app_length, power_length, ?app_length; cbn [length]; lia|]. intros i I1 I2.
    assert (Z : forall q, q < length x + (4 * length (u ++ [c]) - 1) -> nth q (x ++ power (u ++ [c]) 3 ++ u ++ y) 0 = nth q (x ++ power (u ++ [c]) 4 ++ []) 0).
    { intros q Hq. assert (P : power (u ++ [c]) 4 = power (u ++ [c]) 3 ++ u ++ [c]) by (cbn [power]; rewrite app_nil_r, <- !app_assoc; reflexivity). rewrite P, app_nil_r.
      rewrite !app_assoc. rewrite !(app_nth1 ((x ++ power (u ++ [c]) 3) ++ u)) by (rewrite !app_length, power_length; lia). reflexivity. }
    rewrite !Z by lia. apply R; lia. }
  destruct G as (s & p & Hp & R). exact (NR p s Hp R).
Qed.
Print Assumptions C127_almost_fourth_power.
(** the squares in the paperfolding words: only u u with u of length 1, 3 or 5, and all three lengths occur from k = 3 on; the only cubes are of single letters *)
Theorem C127_paperfolding_squares : forall k, k <= 61 -> exists w, paperfolding_word k = Ok w /\
  (forall x u y, u <> [] -> w = x ++ u ++ u ++ y -> In (length u) [1; 3; 5]) /\
  (forall x u y, u <> [] -> w = x ++ u ++ u ++ u ++ y -> length u = 1) /\
  (3 <= k -> forall p, In p [1; 3; 5] -> exists x u y, length u = p /\ w = x ++ u ++ u ++ y).
Proof.
  intros k B. exists (flat_map pfe (iter_morphism pfh k [100])). split; [apply paperfolding_ok; lia|]. split; [|split].
  - intros x u y N E. pose proof (power_rept x u 2 y N) as R. cbn [power] in R. rewrite app_nil_r, <- (app_assoc u), <- E in R. assert (1 <= length u) by (destruct u; [congruence|cbn [length]; lia]).
    destruct (pf_squares k (length u) (length x) ltac:(assumption) R) as [Q|[Q|Q]]; rewrite Q; cbn; auto.
  - intros x u y N E. pose proof (power_rept x u 3 y N) as R. cbn [power] in R. rewrite app_nil_r, <- !(app_assoc u), <- E in R. assert (1 <= length u) by (destruct u; [congruence|cbn [length]; lia]).
    destruct (Nat.eq_dec (length u) 1) as [Q|Q]; [exact Q|exfalso]. apply (pf_long k (length u) (length x) ltac:(assumption)). apply (rept_shorter _ _ _ _ _ R). lia.
  - intros Hk p Hp. destruct (pf_prefix_of 3 k Hk) as (z & ->).
    assert (G : exists x u y, length u = p /\ flat_map pfe (iter_morphism pfh 3 [100]) = x ++ u ++ u ++ y).
    { destruct Hp as [<-|[<-|[<-|[]]]].
      - exists [], [49], (skipn 2 (flat_map pfe (iter_morphism pfh 3 [100]))). split; reflexivity.
      - exists [], [49; 49; 48], (skipn 6 (flat_map pfe (iter_morphism pfh 3 [100]))). split; reflexivity.
      - exists (firstn 3 (flat_map pfe (iter_morphism pfh 3 [100]))), (firstn 5 (skipn 3 (flat_map pfe (iter_morphism pfh 3 [100])))), (skipn 13 (flat_map pfe (iter_morphism pfh 3 [100]))). split; reflexivity. }
    destruct G as (x & u & y & L & ->). exists x, u, (y ++ z). split; [exact L|]. now rewrite <- !app_assoc.
Qed.
Print Assumptions C127_paperfolding_squares.
(** word -n NAME -k K -o F leaves a file without higher powers *)
Theorem C127_word_file : forall file_of us1 line1 s v k F w0 m k0,
  good word_options us1 line1 -> In (s, v) the_words -> makes_word us1 s k F -> highest_power v = Some (m, k0) -> k <= writes_up_to v ->
  exists p w t, word_program file_of line1 = Ran p /\ run p w0 = (w, Ok tt) /\ files w (file_of F) = Some t /\
    (contains_power t m <-> k0 <= k) /\ forall n, m < n -> ~ contains_power t n.
Proof.
  intros file_of us1 line1 s v k F w0 m k0 G1 HV (A & B & C) H L.
  destruct (C127_highest_power v m k0 k H L) as (t & ET & HP).
  destruct (C115_word file_of us1 line1 s v k F w0 G1 HV A B C (or_introl L)) as (p & w & t' & E & R & _ & W & ET' & _).
  assert (t' = t) by congruence. subst t'. exists p, w, t. do 3 (split; [assumption|]). exact HP.
Qed.
Print Assumptions C127_word_file.
(** cubes in the first words that have them *)
Example C127_case : contains_power [97;98;97;97;98;97;98;97;97;98;97;97;98;97;98;97;97;98;97;98;97] 3 /\ word_main Fibonacci 6 = Ok [97;98;97;97;98;97;98;97;97;98;97;97;98;97;98;97;97;98;97;98;97] /\
  highest_power Fibonacci = Some (3, 6) /\ contains_power [97;98;97;97] 2 /\ word_main PeriodDoubling 2 = Ok [97;98;97;97].
Proof.
  split; [exists [97;98;97;97;98], [97;98;97], [98;97;97;98;97;98;97]; split; [discriminate|reflexivity]|]. split; [vm_compute; reflexivity|]. split; [reflexivity|].
  split; [exists [97;98], [97], []; split; [discriminate|reflexivity]|vm_compute; reflexivity].
Qed.
