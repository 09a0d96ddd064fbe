(** PropsClassic.v : property theorems C68-C70: the size-two attractors of Fibonacci and period-doubling words and the
    minimal unique substrings of Fibonacci words, as the programs report them. The unit tests of the repository check
    these for a few sizes; here they hold for every size for which the word is generated. [sort] stands for
    cdivsufsort; [naive_sort] is an instance. *)
From Verif Require Import Base SpecStr SpecLz SpecAttr SpecWord SpecIo LexFacts SortFacts.
From Verif Require Import ModelWord ModelLz ModelAttr WordProof FibFacts PdFacts PropsWord PropsLz PropsAttr.
From Coq Require Import NArith.

Lemma fib_number_len k : k <= 91 -> fibonacci_number k = Ok (N.of_nat (f k)).
Proof. intros H. rewrite fibonacci_number_ok by exact H. unfold f. now rewrite fib_word_length. Qed.
Lemma ab_text w : Forall (fun c => c = 97 \/ c = 98) w -> Forall (fun x => 0 < x < 128) w.
Proof. intros H. eapply Forall_impl; [|exact H]. cbv beta. intros; lia. Qed.
(** a text with two different letters has no attractor of size one *)
Lemma no_single w i j a : i < length w -> j < length w -> nth i w 0 <> nth j w 0 -> ~ string_attractor w [a].
Proof.
  intros Hi Hj N H. destruct (H i 1) as (p & b & (_ & _ & S1) & [<-|[]] & R1); [lia|lia|].
  destruct (H j 1) as (q & b' & (_ & _ & S2) & [<-|[]] & R2); [lia|lia|].
  specialize (S1 0 ltac:(lia)). specialize (S2 0 ltac:(lia)). rewrite !Nat.add_0_r in S1, S2. assert (p = q) by lia. subst. congruence.
Qed.
Lemma F_two n : 1 <= f n /\ F n @ 0 = 97 /\ (1 <= n -> 2 <= f n /\ F n @ 1 = 98).
Proof.
  induction n as [n IH] using lt_wf_ind. destruct n as [|[|n]]; [simpl; unfold f; simpl; repeat split; lia|simpl; unfold f; simpl; repeat split; lia|].
  destruct (IH (S n) ltac:(lia)) as (H1 & H2 & H3). destruct (H3 ltac:(lia)) as (H4 & H5).
  rewrite (F_prefix (S n) 0), (F_prefix (S n) 1) by lia. rewrite f_SS. split; [lia|]. split; [exact H2|]. intros _. split; [lia|exact H5].
Qed.

(** C68 *)
Theorem C68_fibonacci_attractor : forall sort k, (forall t, is_suffix_array t (sort t)) -> 2 <= k <= 74 \/ k = 76 ->
  exists w n, fibonacci_word k = Ok w /\ fibonacci_number (k - 1) = Ok n /\
    is_attractor sort (w ++ [0]) [N.to_nat n - 1; N.to_nat n - 2] = Ok true /\
    forall a, a <= length w -> is_attractor sort (w ++ [0]) [a] = Ok false.
Proof.
  intros sort k Hs Hk. exists (F k), (N.of_nat (f (k - 1))).
  destruct (C42_exact k) as (E & _). specialize (E ltac:(lia)). split; [exact E|]. split; [apply fib_number_len; lia|]. rewrite Nat2N.id.
  destruct (F_two k) as (L1 & A0 & T). destruct (T ltac:(lia)) as (L2 & A1).
  assert (NE : F k <> []) by (intros EE; unfold f in L1; rewrite EE in L1; simpl in L1; lia).
  pose proof (ab_text _ (F_letters k)) as HL. split.
  - replace k with (S (S (k - 2))) in * by lia. remember (k - 2) as m eqn:Em. clear Em k Hk E T. replace (S (S m) - 1) with (S m) by lia.
    pose proof (f_SS m) as EL. pose proof (f_S m) as E2. unfold f in EL, E2 |- *.
    destruct (C41_is_attractor_decides sort (F (S (S m))) [length (F (S m)) - 1; length (F (S m)) - 2] Hs NE HL) as (b & Eb & Hb).
    + repeat constructor; lia.
    + rewrite Eb. f_equal. apply Hb. apply fib_attractor.
  - intros a Ha. destruct (C41_is_attractor_decides sort (F k) [a] Hs NE HL) as (b & Eb & Hb); [repeat constructor; exact Ha|].
    rewrite Eb. f_equal. destruct b; [|reflexivity]. exfalso. apply (no_single (F k) 0 1 a); [exact L1|exact L2|congruence|]. now apply Hb.
Qed.
Print Assumptions C68_fibonacci_attractor.
Example C68_case : fibonacci_word 5 = Ok [97;98;97;97;98;97;98;97;97;98;97;97;98] /\ fibonacci_number 4 = Ok 8%N /\
  is_attractor naive_sort [97;98;97;97;98;97;98;97;97;98;97;97;98;0] [7; 6] = Ok true /\
  is_attractor naive_sort [97;98;97;97;98;97;98;97;97;98;97;97;98;0] [8; 7] = Ok false.
Proof. repeat split; vm_compute; reflexivity. Qed.

(** C69 *)
Theorem C69_fibonacci_mus : forall sort k, (forall t, is_suffix_array t (sort t)) -> 4 <= k <= 74 \/ k = 76 ->
  exists w n1 n2 n3, fibonacci_word k = Ok w /\
    fibonacci_number (k - 1) = Ok n1 /\ fibonacci_number (k - 2) = Ok n2 /\ fibonacci_number (k - 3) = Ok n3 /\
    mus_main sort (w ++ [0]) = Ok [(N.to_nat n2 - 1, N.to_nat n3); (N.to_nat n1 - 1, N.to_nat n2)].
Proof.
  intros sort k Hs Hk. exists (F k), (N.of_nat (f (k - 1))), (N.of_nat (f (k - 2))), (N.of_nat (f (k - 3))).
  destruct (C42_exact k) as (E & _). specialize (E ltac:(lia)). split; [exact E|].
  split; [apply fib_number_len; lia|]. split; [apply fib_number_len; lia|]. split; [apply fib_number_len; lia|]. rewrite !Nat2N.id.
  destruct (C39_mus_with_sentinel sort (F k) Hs) as (L & EL & HSo & HM).
  { eapply Forall_impl; [|apply F_letters]. cbv beta. intros; lia. }
  rewrite EL. f_equal. replace k with (S (S (S (S (k - 4))))) in HM by lia. remember (k - 4) as m eqn:Em.
  replace (k - 1) with (S (S (S m))) by lia. replace (k - 2) with (S (S m)) by lia. replace (k - 3) with (S m) by lia.
  assert (HM' : forall i l, In (i, l) L <-> (i, l) = (f (S (S m)) - 1, f (S m)) \/ (i, l) = (f (S (S (S m))) - 1, f (S (S m)))).
  { intros i l. rewrite HM. apply fib_mus. }
  pose proof (f_SS (S m)) as E1. pose proof (f_S m) as E2. pose proof (f_S (S m)) as E3.
  set (A := (f (S (S m)) - 1, f (S m))) in *. set (B := (f (S (S (S m))) - 1, f (S (S m)))) in *.
  assert (AB : fst A < fst B) by (unfold A, B; simpl fst; lia).
  assert (IA : In A L) by (apply HM'; left; reflexivity). assert (IB : In B L) by (apply HM'; right; reflexivity).
  assert (IL : forall x, In x L -> x = A \/ x = B) by (intros [i l] Hx; now apply HM').
  clearbody A B. clear - HSo AB IA IB IL.
  destruct HSo as [|x L' HSo HF]; [easy|]. rewrite Forall_forall in HF.
  assert (x = A).
  { destruct (IL x (or_introl eq_refl)) as [| ->]; [assumption|]. destruct IA as [|IA]; [assumption|]. specialize (HF A IA). cbv beta in HF. lia. }
  subst x. f_equal. destruct IB as [IB|IB]; [rewrite IB in AB; lia|].
  assert (IL' : forall x, In x L' -> x = B) by (intros x Hx; destruct (IL x (or_intror Hx)) as [-> |]; [specialize (HF A Hx); cbv beta in HF; lia|assumption]).
  destruct HSo as [|y L'' HSo HF2]; [easy|]. rewrite (IL' y (or_introl eq_refl)). f_equal. destruct L'' as [|z L'']; [reflexivity|]. exfalso.
  rewrite Forall_forall in HF2. specialize (HF2 z (or_introl eq_refl)). cbv beta in HF2.
  rewrite (IL' y (or_introl eq_refl)), (IL' z (or_intror (or_introl eq_refl))) in HF2. lia.
Qed.
Print Assumptions C69_fibonacci_mus.
Example C69_case : fibonacci_word 5 = Ok [97;98;97;97;98;97;98;97;97;98;97;97;98] /\
  mus_main naive_sort [97;98;97;97;98;97;98;97;97;98;97;97;98;0] = Ok [(4, 3); (7, 5)].
Proof. split; vm_compute; reflexivity. Qed.

(** C70 *)
Theorem C70_period_doubling_attractor : forall sort k, (forall t, is_suffix_array t (sort t)) -> 3 <= k < 63 ->
  exists w, period_doubling_word k = Ok w /\
    is_attractor sort (w ++ [0]) [3 * 2 ^ (k - 3) - 1; 3 * 2 ^ (k - 2) - 1] = Ok true /\
    forall a, a <= length w -> is_attractor sort (w ++ [0]) [a] = Ok false.
Proof.
  intros sort k Hs Hk. destruct (C46_period_doubling k ltac:(lia)) as (w & E & L & _ & H). exists w. split; [exact E|].
  assert (Em : 2 ^ k = 8 * 2 ^ (k - 3)) by (replace k with (3 + (k - 3)) at 1 by lia; rewrite Nat.pow_add_r; reflexivity).
  assert (Ek : 2 ^ (k - 2) = 2 * 2 ^ (k - 3)) by (replace (k - 2) with (S (k - 3)) by lia; apply Nat.pow_succ_r').
  pose proof (pow2_pos (k - 3)) as P.
  assert (NE : w <> []) by (intros ->; simpl in L; lia).
  assert (A0 : nth 0 w 0 = 97) by (apply (H 0 0 0); [lia|reflexivity]).
  assert (A1 : nth 1 w 0 = 98) by (apply (H 1 1 0); [lia|reflexivity]).
  assert (HL : Forall (fun x => 0 < x < 128) w).
  { apply Forall_forall. intros x Hx. apply (In_nth _ _ 0) in Hx. destruct Hx as (i & Hi & <-).
    destruct (v2_ex (i + 1) ltac:(lia)) as (e & m & Ee). rewrite (H i e m) by lia. destruct (Nat.even e); lia. }
  split.
  - destruct (C41_is_attractor_decides sort w [3 * 2 ^ (k - 3) - 1; 6 * 2 ^ (k - 3) - 1] Hs NE HL) as (b & Eb & Hb); [repeat constructor; lia|].
    replace (3 * 2 ^ (k - 2)) with (6 * 2 ^ (k - 3)) by lia. rewrite Eb. f_equal. apply Hb. apply (pd_attractor w k L H). lia.
  - intros a Ha. destruct (C41_is_attractor_decides sort w [a] Hs NE HL) as (b & Eb & Hb); [repeat constructor; exact Ha|].
    rewrite Eb. f_equal. destruct b; [|reflexivity]. exfalso. apply (no_single w 0 1 a); [lia|lia|congruence|]. now apply Hb.
Qed.
Print Assumptions C70_period_doubling_attractor.
Example C70_case : period_doubling_word 4 = Ok [97;98;97;97;97;98;97;98;97;98;97;97;97;98;97;97] /\
  is_attractor naive_sort [97;98;97;97;97;98;97;98;97;98;97;97;97;98;97;97;0] [5; 11] = Ok true /\
  is_attractor naive_sort [97;98;97;97;97;98;97;98;97;98;97;97;97;98;97;97;0] [4; 11] = Ok false.
Proof. repeat split; vm_compute; reflexivity. Qed.
