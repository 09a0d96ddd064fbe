(** PropsRevFam.v : property theorems C128, what reversing the words of src/word.rs gives (src/word.rs, src/bin/word.rs, src/bin/reverse.rs; src/bin/bwt.rs,
    src/bin/count_r.rs and src/core.rs: lyndon_conjugate for the consequences). [sort] stands for cdivsufsort; [naive_sort] is an instance. *)
From Verif Require Import Base SpecStr SpecIo SpecMain SpecWord SpecBwt SpecArgs SpecArgs2 SpecFs LexFacts BwtFacts.
From Verif Require Import ModelWord ModelCore ModelIo ModelMain ModelTools ModelFs ModelArgs ModelArgs2.
From Verif Require Import SortFacts WordProof WordProof2 WordProof3 WordProof4 MainProof2 RunFacts LetFam RevFam PropsWord PropsWord2 PropsLyndon PropsBwt PropsArgs PropsArgs2 PropsSession PropsLynFam PropsLetFam PropsPerFam PropsLzMorph.
From Coq Require Import NArith.

(** the words whose reversal is a rotation of the word *)
Definition reverses_to_rotation (v : word_name) (k : nat) : bool :=
  match v with
  | Fibonacci | FibonacciLyndonFactor | Tribonacci | ThueMorse | PeriodDoubling => true
  | Vtm => Nat.even k
  | _ => false
  end.
Lemma reversal_cases v k : reverses_to_rotation v k = true -> k <= writes_up_to v -> exists w, word_main v k = Ok w /\ rotn (rev w) w /\ w <> [] /\ ~ In 0 w.
Proof.
  intros H B. assert (NZ : forall P : nat -> Prop, (forall c, P c -> c <> 0) -> forall w, Forall P w -> ~ In 0 w) by (intros P HP w F H0; rewrite Forall_forall in F; exact (HP 0 (F 0 H0) eq_refl)).
  assert (NE : forall w, word_main v k = Ok w -> w <> []).
  { intros w E. assert (PS : exists p, period_size v k = Some p) by (unfold period_size; destruct (Nat.leb_spec k (writes_up_to v)); [|lia]; destruct v; try discriminate H; eexists; reflexivity).
    destruct PS as (p & PS). destruct (period_size_least v k p PS) as (w' & E' & N & _). congruence. }
  enough (G : exists w, word_main v k = Ok w /\ rotn (rev w) w /\ ~ In 0 w) by (destruct G as (w & E & R & Z); exists w; auto).
  clear NE. destruct v; try discriminate H; cbn [writes_up_to word_main reverses_to_rotation] in *.
  - exists (fib_word k). split; [now apply fibonacci_word_ok|]. split; [apply fib_rev|]. apply (NZ (fun c => c = 97 \/ c = 98)); [lia|apply fw_ab].
  - exists (lw k). split; [now apply fibonacci_lyndonfactor_ok|]. split; [apply lw_rev|]. apply (NZ (fun c => c = 97 \/ c = 98)); [lia|apply lw_ab].
  - exists (trib_word k). split; [now apply trib_writes|]. split; [apply trib_rev|]. apply (NZ RevFam.abc3); [unfold RevFam.abc3; lia|apply tw_abc].
  - destruct (C44_thuemorse_word k ltac:(lia)) as (w & E & _ & _ & Ew). exists w. split; [exact E|]. rewrite Ew. split; [apply tm_rotn|].
    apply (NZ two); [unfold two; lia|apply tmw_two].
  - exists (iter_morphism period_doubling_morphism k [97]). split; [apply period_doubling_word_ok; lia|]. split; [apply pd_rev|]. apply (NZ two); [unfold two; lia|apply pd_two].
  - exists (iter_morphism vtm_morphism k [97]). split; [now apply vtm_word_ok|]. split; [apply Nat.even_spec in H; destruct H as (j & ->); apply vtm_even|]. apply (NZ RevFam.abc3); [unfold RevFam.abc3; lia|apply vtm_abc].
Qed.
Theorem C128_rotation : forall v k, reverses_to_rotation v k = true -> k <= writes_up_to v ->
  exists w i, word_main v k = Ok w /\ i <= length w /\ rev w = rot i w.
Proof.
  intros v k H B. destruct (reversal_cases v k H B) as (w & E & R & _). destruct (rotn_rot _ _ R) as (i & L & Ei). exists w, i. auto.
Qed.
Print Assumptions C128_rotation.

(** hence bwt and count_r with the options matrix and no-dollar cannot tell the word from its reversal, and lyndon_conjugate finds the same word in both *)
Theorem C128_same_bwt : forall sort v k, (forall t, is_suffix_array t (sort t)) -> reverses_to_rotation v k = true -> k <= writes_up_to v ->
  exists w b n, word_main v k = Ok w /\
    bwt_main sort true w 0 true true = Ok b /\ bwt_main sort true (rev w) 0 true true = Ok b /\
    count_r_main sort true w 0 true true = Ok (length w, n) /\ count_r_main sort true (rev w) 0 true true = Ok (length w, n).
Proof.
  intros sort v k Hs H B. destruct (reversal_cases v k H B) as (w & E & R & N & Z). destruct (C14_total w) as (b & Eb & Pb).
  assert (T : forall x, prefix_read x 0 = x) by reflexivity.
  assert (Z2 : ~ In 0 (rev w)) by (rewrite <- in_rev; exact Z). assert (N2 : rev w <> []) by (intros X; apply N; rewrite <- (rev_involutive w), X; reflexivity).
  assert (B1 : bwt_main sort true w 0 true true = Ok b).
  { rewrite bwt_main_text, T, app_nil_r. cbn iota. rewrite C15_bwt_by_matrix by auto. destruct (length w <? 100); exact Eb. }
  assert (B2 : bwt_main sort true (rev w) 0 true true = Ok b).
  { rewrite bwt_main_text, T, app_nil_r. cbn iota. rewrite C15_bwt_by_matrix by auto. destruct (rotn_rot _ _ R) as (i & L & Ei).
    rewrite Ei, C14_rotation_invariant by exact L. destruct (length (rot i w) <? 100); exact Eb. }
  exists w, b, (length (runs b)). split; [exact E|]. split; [exact B1|]. split; [exact B2|]. rewrite <- (Permutation_length Pb). split; now apply count_r_ok.
Qed.
Print Assumptions C128_same_bwt.

Theorem C128_same_conjugate : forall v k, reverses_to_rotation v k = true -> k <= writes_up_to v ->
  exists w i j, word_main v k = Ok w /\ lyndon_conjugate w = Ok i /\ lyndon_conjugate (rev w) = Ok j /\ rot j (rev w) = rot i w.
Proof.
  intros v k H B. destruct (reversal_cases v k H B) as (w & E & R & N & Z).
  assert (N2 : rev w <> []) by (intros X; apply N; rewrite <- (rev_involutive w), X; reflexivity).
  destruct (C04_lyndon_conjugate_smallest_rotation w N) as (i & Ei & Li & Mi). destruct (C04_lyndon_conjugate_smallest_rotation (rev w) N2) as (j & Ej & Lj & Mj).
  exists w, i, j. do 3 (split; [assumption|]).
  assert (A : forall x y, rotn x y -> y <> [] -> exists m, m < length y /\ x = rot m y).
  { intros x y Rxy Ny. destruct (rotn_rot _ _ Rxy) as (m & Lm & Em). destruct (Nat.lt_ge_cases m (length y)) as [C|C]; [exists m; auto|].
    assert (m = length y) by lia. exists 0. split; [destruct y; [congruence|cbn [length]; lia]|]. rewrite Em, rot_0. subst m. apply rot_all. }
  apply lex_le_antisym.
  - destruct (A (rot i w) (rev w)) as (m & Lm & Em); [|exact N2|rewrite Em; apply Mj; exact Lm]. apply (rotn_trans _ w); [apply rot_rotn|apply rotn_sym, R].
  - destruct (A (rot j (rev w)) w) as (m & Lm & Em); [|exact N|rewrite Em; apply Mi; exact Lm]. apply (rotn_trans _ (rev w)); [apply rot_rotn|exact R].
Qed.
Print Assumptions C128_same_conjugate.

(** every other Thue-Morse word is a palindrome, the others become their complement *)
Definition exchange (x y c : nat) : nat := if c =? x then y else if c =? y then x else c.
Theorem C128_thuemorse : forall k, k <= 62 -> exists w, thuemorse_word k = Ok w /\ rev w = if Nat.even k then w else map (exchange 97 98) w.
Proof.
  intros k B. destruct (C44_thuemorse_word k ltac:(lia)) as (w & E & _ & _ & Ew). exists w. split; [exact E|]. rewrite Ew. exact (tm_rev k).
Qed.
Print Assumptions C128_thuemorse.
(** Fibonacci words are palindromes but for the last two letters, period-doubling words but for the last *)
Theorem C128_fibonacci : forall k, 1 <= k <= 74 -> exists w P, fibonacci_word k = Ok w /\ rev P = P /\
  w = P ++ (if Nat.even k then [98; 97] else [97; 98]) /\ rev w = (if Nat.even k then [97; 98] else [98; 97]) ++ P.
Proof.
  intros k B. destruct k as [|k]; [lia|]. destruct (fib_pal k) as (P & R & E). exists (fib_word (S k)), P. split; [apply fibonacci_word_ok; lia|]. split; [exact R|].
  rewrite E, rev_app_distr, R, Nat.even_succ, <- Nat.negb_even. destruct (Nat.even k); auto.
Qed.
Print Assumptions C128_fibonacci.
Theorem C128_period_doubling : forall k, k <= 62 -> exists w P x, period_doubling_word k = Ok w /\ rev P = P /\
  x = (if Nat.even k then 97 else 98) /\ w = P ++ [x] /\ rev w = x :: P.
Proof.
  intros k B. destruct (pd_pal k) as (P & R & E). exists (iter_morphism period_doubling_morphism k [97]), P. eexists. split; [apply period_doubling_word_ok; lia|]. split; [exact R|]. split; [reflexivity|]. split; [exact E|].
  rewrite E, rev_app_distr, R. reflexivity.
Qed.
Print Assumptions C128_period_doubling.
(** ternary Thue-Morse words with an odd number: the reversal is a rotation once a and c are exchanged, and in general not before *)
Theorem C128_vtm : forall k, k <= 29 -> Nat.even k = false -> exists w i, vtm_word k = Ok w /\ i <= length w /\ map (exchange 97 99) (rev w) = rot i w.
Proof.
  intros k B O. rewrite <- Nat.negb_odd, negb_false_iff in O. apply Nat.odd_spec in O. destruct O as (j & Ej). rewrite Ej in *. destruct (rotn_rot _ _ (vtm_odd j)) as (i & L & Ei).
  exists (iter_morphism vtm_morphism (2 * j + 1) [97]), i. split; [now apply vtm_word_ok|]. split; [exact L|]. exact Ei.
Qed.
Print Assumptions C128_vtm.
Theorem C128_vtm_odd_refuted : exists k w, vtm_word k = Ok w /\ forall i, i <= length w -> rev w <> rot i w.
Proof.
  exists 3, [97;98;99;97;99;98;97;98;99;98;97;99]. split; [vm_compute; reflexivity|]. intros i Hi. cbn [length] in Hi. do 13 (destruct i as [|i]; [vm_compute; discriminate|]). lia.
Qed.
Print Assumptions C128_vtm_odd_refuted.
Lemma nth_map_in (f : nat -> nat) l j : j < length l -> nth j (map f l) 0 = f (nth j l 0).
Proof. intros H. rewrite (nth_indep _ 0 (f 0)) by (rewrite map_length; exact H). apply map_nth. Qed.
(** the paperfolding words are what folding gives: the next word is the word, then the word backwards with 0 and 1 exchanged, where the last 1 of each word is a crease of its own *)
Theorem C128_paperfolding : forall k, k <= 60 -> exists s, paperfolding_word k = Ok (s ++ [49]) /\
  paperfolding_word (S k) = Ok (s ++ [49] ++ map (exchange 48 49) (rev s) ++ [49]).
Proof.
  intros k B. destruct (C50_paperfolding k ltac:(lia)) as (w & E & L & W). destruct (C50_paperfolding (S k) ltac:(lia)) as (w' & E' & L' & W').
  set (n := 2 ^ (k + 1)) in *. assert (n' : 2 ^ (S k + 1) = 2 * n) by (unfold n; cbn [Nat.add Nat.pow]; lia). rewrite n' in *.
  assert (Pn : 2 <= n) by (unfold n; rewrite Nat.add_1_r; cbn [Nat.pow]; pose proof (LynFam5.pow_pos k); lia).
  assert (Kn : forall e m, 2 ^ e * (2 * m + 1) <= n -> e <= k + 1).
  { intros e m H. destruct (Nat.le_gt_cases e (k + 1)) as [C|C]; [exact C|]. pose proof (Nat.pow_lt_mono_r 2 (k + 1) e ltac:(lia) C). fold n in H0. nia. }
  exists (firstn (n - 1) w). set (s := firstn (n - 1) w). assert (Ls : length s = n - 1) by (unfold s; rewrite firstn_length; lia).
  assert (EW : w = s ++ [49]).
  { apply (nth_ext_len _ _ 0); [rewrite app_length, Ls; cbn [length]; lia|]. intros i Hi. destruct (Nat.lt_ge_cases i (n - 1)) as [C|C].
    - rewrite app_nth1 by lia. unfold s. rewrite nth_firstn by lia. reflexivity.
    - assert (i = n - 1) by lia. subst i. rewrite app_nth2, Ls, Nat.sub_diag by lia. cbn [nth]. apply (W n (k + 1) 0); [lia|fold n; lia]. }
  split; [rewrite E; f_equal; exact EW|]. rewrite E'. f_equal.
  apply (nth_ext_len _ _ 0); [rewrite !app_length, map_length, rev_length, Ls; cbn [length]; lia|]. intros i Hi. rewrite L' in Hi.
  assert (Small : forall j, j < n - 1 -> nth j s 0 = nth j w' 0).
  { intros j Hj. unfold s. rewrite nth_firstn by lia. destruct (split_pow (j + 1) ltac:(lia)) as (e & m & D). replace j with (j + 1 - 1) by lia.
    rewrite (W (j + 1) e m) by (try exact D; lia). rewrite (W' (j + 1) e m) by (try exact D; lia). reflexivity. }
  destruct (Nat.lt_ge_cases i (n - 1)) as [C|C]; [rewrite app_nth1 by lia; symmetry; now apply Small|]. rewrite app_nth2, Ls by lia.
  destruct (Nat.eq_dec i (n - 1)) as [C2|C2].
  { subst i. rewrite Nat.sub_diag. cbn [app nth]. apply (W' n (k + 1) 0); [lia|fold n; lia]. }
  replace (i - (n - 1)) with (S (i - n)) by lia. cbn [app nth]. destruct (Nat.eq_dec i (2 * n - 1)) as [C3|C3].
  { subst i. rewrite app_nth2 by (rewrite map_length, rev_length; lia). rewrite map_length, rev_length, Ls. replace (2 * n - 1 - n - (n - 1)) with 0 by lia. cbn [nth].
    apply (W' (2 * n) (k + 2) 0); [lia|]. replace (k + 2) with (S (k + 1)) by lia. cbn [Nat.pow]. fold n. lia. }
  rewrite app_nth1 by (rewrite map_length, rev_length; lia). rewrite nth_map_in by (rewrite rev_length; lia).
  rewrite rev_nth by lia. rewrite Ls. rewrite Small by lia. set (p := 2 * n - (i + 1)). replace (n - 1 - S (i - n)) with (p - 1) by (unfold p; lia).
  destruct (split_pow p ltac:(unfold p; lia)) as (e & m & D). replace i with (i + 1 - 1) at 1 by lia.
  assert (He : e <= k). { pose proof (Kn e m ltac:(rewrite <- D; unfold p; lia)). destruct (Nat.eq_dec e (k + 1)) as [->|]; [|lia]. fold n in D. exfalso. unfold p in D. nia. }
  assert (Hz : n = 2 ^ e * (2 * 2 ^ (k - e))). { unfold n. replace (k + 1) with (e + S (k - e)) by lia. rewrite Nat.pow_add_r. reflexivity. }
  set (z := 2 ^ (k - e)) in *. pose proof (LynFam5.pow_pos e) as Pe. assert (Mz : m < z) by (assert (p < n) by (unfold p; lia); nia).
  assert (D2 : i + 1 = 2 ^ e * (2 * (2 * z - m - 1) + 1)).
  { replace (i + 1) with (2 * n - p) by (unfold p; lia). rewrite Hz, D. rewrite (Nat.mul_comm 2 (2 ^ e * _)), <- Nat.mul_assoc, <- Nat.mul_sub_distr_l. f_equal. lia. }
  rewrite (W' (i + 1) e (2 * z - m - 1)) by (try exact D2; lia). rewrite (W' p e m) by (try exact D; unfold p; lia).
  replace (Nat.even (2 * z - m - 1)) with (negb (Nat.even m)); [destruct (Nat.even m); reflexivity|].
  replace (2 * z - m - 1) with (2 * (z - m - 1) + (m + 1)) by lia. rewrite Nat.even_add, Nat.even_mul. cbn [Nat.even orb]. rewrite Nat.add_1_r, Nat.even_succ, <- Nat.negb_even. destruct (Nat.even m); reflexivity.
Qed.
Print Assumptions C128_paperfolding.

(** word -n NAME -k K -o F, then reverse -i F -o G: the second file is a rotation of the first; for the Thue-Morse words with an even number it is the same *)
Theorem C128_files : forall file_of us1 line1 us2 line2 s v k F G w0, good word_options us1 line1 -> In (s, v) the_words -> makes_word us1 s k F ->
  good reverse_options us2 line2 -> from_to us2 F G -> unused us2 o_prefix -> file_of F <> file_of G ->
  reverses_to_rotation v k = true -> k <= writes_up_to v ->
  exists p1 w1 p2 w2 t i, word_program file_of line1 = Ran p1 /\ run p1 w0 = (w1, Ok tt) /\ reverse_program file_of line2 = Ran p2 /\ run p2 w1 = (w2, Ok tt) /\
    files w2 (file_of F) = Some t /\ i <= length t /\ files w2 (file_of G) = Some (rot i t) /\ (v = ThueMorse -> Nat.even k = true -> rot i t = t).
Proof.
  intros file_of us1 line1 us2 line2 s v k F G w0 G1 HV (A & B & C) G2 T2 P2 N R L.
  destruct (C128_rotation v k R L) as (t & i & ET & Li & Ei).
  destruct (C115_word file_of us1 line1 s v k F w0 G1 HV A B C (or_introl L)) as (p1 & w1 & t' & E1 & R1 & _ & W1 & ET' & _).
  assert (t' = t) by congruence. subst t'.
  destruct (C115_reverse file_of us2 line2 F G w1 t G2 T2 P2 N W1) as (p2 & w2 & E2 & R2 & (O2 & _) & W2).
  exists p1, w1, p2, w2, t, i. do 4 (split; [assumption|]). split; [now rewrite (O2 _ N)|]. split; [exact Li|]. split; [now rewrite <- Ei|].
  intros -> Ek. cbn [writes_up_to word_main] in *. destruct (C128_thuemorse k L) as (t' & E' & Et). assert (t' = t) by congruence. subst t'. rewrite Ek in Et. congruence.
Qed.
Print Assumptions C128_files.
Example C128_case : word_main Vtm 2 = Ok [97;98;99;97;99;98] /\ reverses_to_rotation Vtm 2 = true /\
  rev [97;98;99;97;99;98] = rot 1 [97;98;99;97;99;98] /\ word_main Tribonacci 4 = Ok [97;98;97;99;97;98;97;97;98;97;99;97;98] /\ rev [97;98;97;99;97;98;97;97;98;97;99;97;98] = rot 1 [97;98;97;99;97;98;97;97;98;97;99;97;98] /\
  bwt_main naive_sort true [97;98;99;97;99;98] 0 true true = bwt_main naive_sort true (rev [97;98;99;97;99;98]) 0 true true /\
  paperfolding_word 1 = Ok [49;49;48;49] /\ paperfolding_word 2 = Ok [49;49;48;49;49;48;48;49].
Proof. repeat split; vm_compute; reflexivity. Qed.
