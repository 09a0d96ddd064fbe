(** PropsWord2.v : property theorems C63 (iterating a morphism) and C64 (the word program). *)
From Verif Require Import Base SpecStr LexFacts SpecWord SpecIo ModelWord ModelIo ModelTools ModelCore ModelMain.
From Verif Require Import WordProof WordProof2 WordProof3 WordProof4 NeckProof PropsWord PropsNeck.
From Coq Require Import NArith ZArith.

(** C63. A size hint of 0 means 2^k. *)
Definition hint_fits (k : nat) (hint : N) : Prop :=
  (0 < hint < 9223372036854775808)%N \/ (hint = 0%N /\ k < 63).
Lemma hint_pow2 k : k < 63 -> (0 < 2 ^ N.of_nat k < 9223372036854775808)%N.
Proof.
  intros H. change 9223372036854775808%N with (2 ^ 63)%N. split.
  - apply N.neq_0_lt_0, N.pow_nonzero. discriminate.
  - apply N.pow_lt_mono_r; lia.
Qed.
Theorem C63_with_startsymbol : forall h k hint w, hint_fits k hint ->
  iterate_general_morphism_with_startsymbol k h hint w = Ok (iter_morphism h k w).
Proof.
  intros h k hint w [H|(-> & H)]; [now apply iterate_start_ok|].
  rewrite <- (iterate_start_ok h k (2 ^ N.of_nat k) w (hint_pow2 k H)).
  unfold iterate_general_morphism_with_startsymbol, shl1. destruct (Nat.leb_spec 64 k); [lia|].
  destruct (N.ltb_spec 0 0); [lia|]. destruct (N.ltb_spec 0 (2 ^ N.of_nat k)); [reflexivity|]. pose proof (hint_pow2 k H). lia.
Qed.
Print Assumptions C63_with_startsymbol.
(** h(a) = a u with non-empty u, images of bytes are non-empty byte strings *)
Theorem C63_general_morphism : forall h u k hint, h 97 = 97 :: u -> u <> [] ->
  (forall c, c < 256 -> h c <> [] /\ bytes (h c)) -> hint_fits k hint ->
  iterate_general_morphism k h hint = Ok (iter_morphism h k [97]).
Proof.
  intros h u k hint Ha Hu Hh H.
  assert (G : forall hint, (0 < hint < 9223372036854775808)%N -> iterate_general_morphism k h hint = Ok (iter_morphism h k [97])).
  { intros hint' H'. apply (iterate_general_ok h u Ha Hu (fun c Hc => proj1 (Hh c Hc)) (fun c Hc => proj2 (Hh c Hc)) k hint' H'). }
  destruct H as [H|(-> & H)]; [now apply G|]. rewrite <- (G _ (hint_pow2 k H)).
  unfold iterate_general_morphism, shl1. destruct (k =? 0); [reflexivity|]. destruct (Nat.leb_spec 64 k); [lia|].
  destruct (N.ltb_spec 0 0); [lia|]. destruct (N.ltb_spec 0 (2 ^ N.of_nat k)); [reflexivity|]. pose proof (hint_pow2 k H). lia.
Qed.
Print Assumptions C63_general_morphism.
(** the documented assumption "morphism(a) has a as a prefix" is not enough: the identity on a panics *)
Theorem C63_prefix_assumption_refuted : forall h k hint, h 97 = [97] -> 2 <= k ->
  iterate_general_morphism k h hint = Panic.
Proof.
  intros h k hint Ha Hk. unfold iterate_general_morphism. destruct (Nat.eqb_spec k 0); [lia|].
  destruct (if (0 <? hint)%N then Ok hint else shl1 k) as [cap| |] eqn:Ec; try reflexivity.
  - cbn [bind]. unfold capacity. destruct (cap <? 9223372036854775808)%N; [|reflexivity]. cbn [assert_ bind].
    rewrite Ha. cbn [for_in bind app]. cbn [length sub_ bind Nat.leb Nat.sub]. cbn [loop].
    destruct (Nat.ltb_spec 1 k); [|lia]. reflexivity.
  - exfalso. unfold shl1 in Ec. destruct (0 <? hint)%N; [discriminate|]. destruct (64 <=? k); discriminate.
Qed.
Print Assumptions C63_prefix_assumption_refuted.
(** morphisms with images of length two *)
Theorem C63_2morphism : forall h k, (forall c, length (h c) = 2) -> h 97 = [97; 98] ->
  iterate_2morphism k h = if k <? 63 then Ok (iter_morphism h k [97]) else Panic.
Proof.
  intros h k Hu Ha. destruct (Nat.ltb_spec k 63); [now apply iterate_2morphism_ok|now apply iterate_2morphism_panic].
Qed.
Print Assumptions C63_2morphism.
(** here, too, "morphism(a) has a as a prefix" is not enough: the second letter is always b *)
Theorem C63_2morphism_assumption_refuted : exists h, (forall c, length (h c) = 2) /\ (exists u, h 97 = 97 :: u) /\
  iterate_2morphism 1 h = Ok [97; 98] /\ iter_morphism h 1 [97] = [97; 99].
Proof. exists (fun _ => [97; 99]). split; [reflexivity|]. split; [now exists [99]|]. split; vm_compute; reflexivity. Qed.
Print Assumptions C63_2morphism_assumption_refuted.

(** the identities behind the unit tests test_thue_morse_morphism and test_fibonacci_morphism, for every k *)
Theorem C63_thuemorse_by_morphism : forall k, thuemorse_word k = iterate_2morphism k thuemorse_morphism.
Proof.
  intros k. rewrite C63_2morphism; [|exact tmh_u2|reflexivity]. destruct (Nat.ltb_spec k 63) as [H|H].
  - destruct (C44_thuemorse_word k H) as (w & -> & _ & _ & ->). reflexivity.
  - now apply C44_too_large.
Qed.
Print Assumptions C63_thuemorse_by_morphism.
Lemma fib_word_iter k : iter_morphism fibonacci_morphism k [97] = fib_word k.
Proof.
  assert (G : iter_morphism fibonacci_morphism k [97] = fib_word k /\ iter_morphism fibonacci_morphism (S k) [97] = fib_word (S k)).
  { induction k as [|k (I1 & I2)]; [split; reflexivity|]. split; [exact I2|].
    rewrite (iter_S' _ (S k)). change (flat_map fibonacci_morphism [97]) with ([97] ++ [98]). rewrite iter_app, I2.
    rewrite (iter_S' _ k [98]). change (flat_map fibonacci_morphism [98]) with [97]. rewrite I1. reflexivity. }
  exact (proj1 G).
Qed.
Lemma fib_word_nonempty j : fib_word j <> [].
Proof.
  induction j as [j IH] using lt_wf_ind. destruct j as [|[|j]]; [discriminate|discriminate|].
  change (fib_word (S (S j))) with (fib_word (S j) ++ fib_word j).
  intros C. apply app_eq_nil in C. destruct C as (C & _). apply (IH (S j)); [lia|exact C].
Qed.
Theorem C63_fibonacci_by_morphism : forall k, k <= 74 -> exists n, fibonacci_number k = Ok n /\
  fibonacci_word k = iterate_general_morphism k fibonacci_morphism n.
Proof.
  intros k Hk. exists (fib (k + 2)). split; [apply C43_fibonacci_number; lia|].
  rewrite (proj1 (C42_fibonacci_word k Hk)). symmetry. rewrite <- fib_word_iter.
  apply (C63_general_morphism fibonacci_morphism [98]); [reflexivity|discriminate| |].
  - intros c _. unfold fibonacci_morphism. destruct (c =? 97); (split; [easy|]); repeat constructor; lia.
  - left. pose proof (fib_word_length k) as L.
    split.
    + rewrite <- L. pose proof (fib_word_nonempty k). destruct (fib_word k); [congruence|simpl; lia].
    + assert (M : forall a b, a <= b -> (fib a <= fib b)%N).
      { intros a b Hab. induction Hab as [|b _ IH]; [lia|]. destruct b as [|b]; [simpl in *; lia|].
        change (fib (S (S b))) with (fib (S b) + fib b)%N. lia. }
      eapply N.le_lt_trans; [apply (M _ 76); lia|]. rewrite fib_fast. vm_compute. reflexivity.
Qed.
Print Assumptions C63_fibonacci_by_morphism.
Example C63_case : iterate_general_morphism 3 vtm_morphism 0 = Ok [97;98;99;97;99;98;97;98;99;98;97;99] /\
  iterate_2morphism 2 thuemorse_morphism = Ok [97;98;98;97].
Proof. split; vm_compute; reflexivity. Qed.

(** C64. What the program [word] has to write for a name and a number k ... *)
Definition quaternary_image (c : nat) : str :=
  if c =? 100 then [100; 98] else if c =? 98 then [99; 98] else if c =? 99 then [100; 97] else [99; 97].
Definition lyndonfactor_image (c : nat) : str := if c =? 97 then [97; 97; 98] else [97; 98].
Definition described (name : word_name) (k : nat) (w : str) : Prop :=
  match name with
  | Fibonacci => w = fib_word k
  | FibonacciLyndonFactor => w = iter_morphism lyndonfactor_image k [97; 98] /\ lyndon w
  | Tribonacci => w = trib_word k
  | Kolakoski => firstn 2 w = [98; 98] /\ exists runs, is_runs w runs /\ prefix (map (fun r => length_letter (snd r)) runs) w
  | ThueMorse => length w = 2 ^ k /\ forall i, i < 2 ^ k -> nth i w 0 = if Nat.even (ones i) then 97 else 98
  | PeriodDoubling => length w = 2 ^ k /\
      forall i e m, i < 2 ^ k -> i + 1 = 2 ^ e * (2 * m + 1) -> nth i w 0 = (if Nat.even e then 97 else 98)
  | PaperFolding => length w = 2 ^ (k + 1) /\
      forall p e m, 1 <= p <= 2 ^ (k + 1) -> p = 2 ^ e * (2 * m + 1) -> nth (p - 1) w 0 = (if Nat.even m then 49 else 48)
  | QuaternaryPaperFolding => w = iter_morphism quaternary_image k [100]
  | BinaryDeBrujin => length w <= 2 ^ (k + 1) /\ Forall (fun c => c = 97 \/ c = 98) w /\
      forall i j, i < length w -> j < length w ->
        firstn (k + 1) (skipn i (w ++ w)) = firstn (k + 1) (skipn j (w ++ w)) -> i = j
  | Power2 => length w = 2 ^ k /\ forall j, 1 <= j < 2 ^ k -> (nth (j - 1) w 0 = 98 <-> exists e, j = 2 ^ e)
  | Vtm => w = iter_morphism vtm_image k [97] /\ square_free w
  end.
(** ... and for which k it does so; for the others it aborts without writing anything *)
Definition writes_up_to (name : word_name) : nat :=
  match name with
  | Fibonacci => 74 | FibonacciLyndonFactor | Vtm => 29 | Tribonacci => 71 | Kolakoski => 60
  | ThueMorse | PeriodDoubling | QuaternaryPaperFolding | Power2 => 62 | PaperFolding => 61 | BinaryDeBrujin => 255
  end.
Definition writes (name : word_name) (k : nat) : Prop := k <= writes_up_to name \/ name = Fibonacci /\ k = 76.
Theorem C64_word_program : forall name k, writes name k ->
  exists w, word_main name k = Ok w /\ described name k w.
Proof.
  intros name k [Hk|(-> & Hk)].
  2: { exists (fib_word k). split; [|reflexivity]. cbn [word_main]. apply C42_exact. auto. }
  destruct name; cbn [writes_up_to word_main described] in *.
  - exists (fib_word k). split; [now apply C42_fibonacci_word|reflexivity].
  - exists (lw k). split; [now apply fibonacci_lyndonfactor_ok|]. split; [reflexivity|apply lw_lyndon].
  - exists (trib_word k). split; [|reflexivity]. apply C47_tribonacci_word.
    eapply N.le_lt_trans; [apply (trib_mono_le k 71 Hk)|]. rewrite trib_fast. vm_compute. reflexivity.
  - destruct (C45_kolakoski_word k Hk) as (w & runs & E & H1 & H2 & _ & _ & H3). exists w. eauto.
  - destruct (C44_thuemorse_word k ltac:(lia)) as (w & E & L & H & _). exists w. auto.
  - destruct (C46_period_doubling k ltac:(lia)) as (w & E & L & _ & H). exists w. auto.
  - destruct (C50_paperfolding k ltac:(lia)) as (w & E & L & H). exists w. auto.
  - eexists. split; [apply quaternary_ok; lia|reflexivity].
  - destruct (C52_debruijn_windows_unique k) as (w & E & L & H1 & _ & H2). exists w. repeat split; auto; lia.
  - destruct (C51_power2_sequence k ltac:(lia)) as (w & E & L & _ & H & _). exists w. auto.
  - destruct (C48_vtm_word k Hk) as (w & E & H). exists w. auto.
Qed.
Print Assumptions C64_word_program.
Theorem C64_aborts : forall name k, k < 256 -> ~ writes name k -> word_main name k = Panic.
Proof.
  intros name k Hk' Hn. assert (Hk : S (writes_up_to name) <= k).
  { destruct (Nat.le_gt_cases k (writes_up_to name)); [exfalso; apply Hn; now left|lia]. }
  destruct name; cbn [writes_up_to word_main] in *; try lia.
  - apply C42_exact. destruct (Nat.eq_dec k 76) as [E|E]; [exfalso; apply Hn; right; auto|lia].
  - now apply C49_too_large.
  - apply C47_too_large. eapply N.le_trans; [|apply (trib_mono_le 72 k Hk)]. rewrite trib_fast. vm_compute. discriminate.
  - now apply C45_too_large.
  - now apply C44_too_large.
  - now apply C46_too_large.
  - now apply C50_too_large.
  - now apply quaternary_panic.
  - now apply C51_too_large.
  - now apply C48_too_large.
Qed.
Print Assumptions C64_aborts.
Lemma writes_dec name k : writes name k \/ ~ writes name k.
Proof.
  unfold writes. destruct (Nat.le_gt_cases k (writes_up_to name)) as [C|C]; [now left; left|].
  destruct name; try (right; intros [?|(? & _)]; [lia|discriminate]).
  destruct (Nat.eq_dec k 76) as [F|F]; [left; right; auto|right; intros [?|(_ & ?)]; lia].
Qed.
(** whenever it writes something, it is the described word *)
Theorem C64_never_wrong : forall name k w, k < 256 -> word_main name k = Ok w -> described name k w.
Proof.
  intros name k w Hk E. destruct (writes_dec name k) as [C|C].
  - destruct (C64_word_program name k C) as (w' & E' & D). rewrite E in E'. now injection E' as <-.
  - rewrite C64_aborts in E by auto. discriminate.
Qed.
Print Assumptions C64_never_wrong.
Example C64_case : word_main QuaternaryPaperFolding 3 = Ok [100;98;99;98;100;97;99;98] /\ word_main Tribonacci 255 = Panic.
Proof. split; [vm_compute; reflexivity|]. apply C64_aborts; [lia|]. unfold writes. cbn. intros [H|(H & _)]; [lia|discriminate]. Qed.
