(** PropsLzMorph.v : C116, the number of LZ77 factors that count_z finds in the word families, and their lengths. *)
From Verif Require Import Base SpecStr SpecIo SpecMain SpecWord SpecLz SpecResult SpecArgs SpecArgs2 SpecFs LexFacts SortFacts.
From Verif Require Import ModelWord ModelIo ModelCore ModelLz ModelMain ModelResult ModelFs ModelArgs ModelArgs2.
From Verif Require Import WordProof WordProof2 WordProof3 WordProof4 LzMorph LzMorph2 LzTrib FibFacts LzLyn PropsLz PropsWord PropsWord2 PropsResult PropsFib PropsFib2 PropsArgs PropsArgs2 PropsSession.
From Coq Require Import NArith.

Lemma qf_agrees k : agrees (iter_morphism pfh k [100]) qf.
Proof.
  intros i Hi. rewrite (u2_iter_length _ _ _ pfh_u2) in Hi. revert i Hi. induction k as [|k IH]; intros i Hi.
  - cbn in Hi. replace i with 0 by lia. reflexivity.
  - rewrite iter_S. cbn [Nat.pow] in Hi. destruct (parity_case i) as [(q & ->)|(q & ->)].
    + unfold qf. rewrite Nat.even_mul, pf_even. cbn [Nat.even orb]. replace (2 * q) with (2 * q + 0) by lia.
      rewrite (u2_nth _ _ _ _ pfh_u2) by (try rewrite (u2_iter_length _ _ _ pfh_u2); lia). rewrite IH by lia. unfold qf. destruct (Nat.even q), (pf q =? 49); reflexivity.
    + unfold qf. rewrite Nat.even_add, Nat.even_mul, pf_odd. cbn [Nat.even orb eqb].
      rewrite (u2_nth _ _ _ _ pfh_u2) by (try rewrite (u2_iter_length _ _ _ pfh_u2); lia). rewrite IH by lia. unfold qf. destruct (Nat.even q), (pf q =? 49); reflexivity.
Qed.
Lemma split_pow p : 1 <= p -> exists e m, p = 2 ^ e * (2 * m + 1).
Proof.
  induction p as [p IH] using lt_wf_ind. intros H. destruct (parity_case p) as [(m & ->)|(m & ->)]; [|exists 0, m; cbn [Nat.pow]; lia].
  destruct (IH m ltac:(lia) ltac:(lia)) as (e & m' & E). exists (S e), m'. cbn [Nat.pow]. lia.
Qed.
Lemma pf_spec e m : pf (2 ^ e * (2 * m + 1) - 1) = if Nat.even m then 49 else 48.
Proof.
  induction e as [|e IH]; [replace (2 ^ 0 * (2 * m + 1) - 1) with (2 * m) by (cbn [Nat.pow]; lia); apply pf_even|].
  pose proof (Nat.pow_nonzero 2 e ltac:(lia)). replace (2 ^ S e * (2 * m + 1) - 1) with (2 * (2 ^ e * (2 * m + 1) - 1) + 1) by (cbn [Nat.pow]; nia). now rewrite pf_odd.
Qed.

Definition counted (sort : str -> list nat) (w : str) fs : Prop := count_z_main sort w = Ok fs /\ w <> [] /\ Forall (fun x => x < 256) w /\ (N.of_nat (length w) < 2 ^ 32)%N.
Lemma lens_count_z sort w ls : (forall t, is_suffix_array t (sort t)) -> w <> [] -> Forall (fun x => x < 256) w -> (N.of_nat (length w) < 2 ^ 32)%N -> lens w 0 ls ->
  exists fs, counted sort w fs /\ map lz_len fs = ls.
Proof.
  intros Hs N B L (fs' & P & E). destruct (C36_lz77_longest_previous_factors sort w Hs N B L) as (fs & EZ & _ & U). exists fs. split; [exact (conj EZ (conj N (conj B L)))|]. rewrite <- E. symmetry. now apply U.
Qed.
Lemma pow_small k : k <= 31 -> (N.of_nat (2 ^ k) < 2 ^ 32)%N.
Proof. intros H. rewrite Nat2N.inj_pow. change (N.of_nat 2) with 2%N. apply N.pow_lt_mono_r; lia. Qed.
Lemma bytes_of w s : agrees w s -> (forall i, s i < 256) -> Forall (fun x => x < 256) w.
Proof. intros A H. apply Forall_forall. intros x Hx. apply (In_nth _ _ 0) in Hx. destruct Hx as (i & Hi & <-). rewrite A by exact Hi. apply H. Qed.
Lemma length_map_len fs ls : map lz_len fs = ls -> length fs = length ls.
Proof. intros <-. now rewrite map_length. Qed.
Lemma flat_len {A} (g : A -> str) n l : (forall x, length (g x) = n) -> length (flat_map g l) = n * length l.
Proof. intros H. induction l as [|x l IH]; [now rewrite Nat.mul_0_r|]. cbn [flat_map length]. rewrite app_length, H, IH. lia. Qed.
Lemma not_nil (w : str) : 1 <= length w -> w <> [].
Proof. intros H ->. cbn in H. lia. Qed.
Ltac lz_lit s A := apply (lens_lit _ s); [exact A|cbn [length]; lia|intros jj Hjj; repeat (destruct jj as [|jj]; [vm_compute; discriminate|]); lia|].
Ltac lz_cop s A l := apply (lens_copy _ s _ l); [exact A|apply lpfb_ok; vm_compute; reflexivity|lia|first [left; cbn [length]; lia|right; cbn [length]; lia]|].
Ltac lz_small s A l := match goal with
  | |- lens _ _ (0 :: _) => lz_lit s A
  | |- lens _ _ [] => apply lens_end; cbn [length]; lia
  | |- lens _ _ _ => lz_cop s A l end.

Lemma z_thuemorse : forall sort k, (forall t, is_suffix_array t (sort t)) -> 1 <= k <= 31 ->
  exists w fs, thuemorse_word k = Ok w /\ counted sort w fs /\ length fs = 2 * k /\
    (4 <= k -> map lz_len fs = [0; 0; 1; 2; 1; 4] ++ flat_map (fun j => [3 * 2 ^ j; 7 * 2 ^ j]) (seq 0 (k - 4)) ++ [3 * 2 ^ (k - 4); 3 * 2 ^ (k - 4)]).
Proof.
  intros sort k Hs Hk. destruct (C44_thuemorse_word k ltac:(lia)) as (w & EW & L & H & _). exists w.
  assert (A : agrees w tm) by (intros i Hi; apply H; lia).
  assert (HL : exists ls, lens w 0 ls /\ length ls = 2 * k /\ (4 <= k -> ls = tm_lengths k)).
  { destruct (Nat.le_gt_cases 4 k) as [C|C].
    - exists (tm_lengths k). replace k with (k - 4 + 4) in L |- * by lia. split; [now apply tm_lz77|]. split; [|reflexivity].
      unfold tm_lengths. rewrite !app_length, (flat_len _ 2) by reflexivity. rewrite seq_length. cbn [length]. lia.
    - assert (K : k = 1 \/ k = 2 \/ k = 3) by lia. destruct K as [->|[->| ->]]; cbn [Nat.pow Nat.mul Nat.add] in L.
      + exists [0; 0]. split; [|split; [reflexivity|lia]]. lz_lit tm A. lz_lit tm A. apply lens_end. lia.
      + exists [0; 0; 1; 1]. split; [|split; [reflexivity|lia]]. lz_lit tm A. lz_lit tm A. lz_cop tm A 1. lz_cop tm A 2. apply lens_end. lia.
      + exists [0; 0; 1; 2; 1; 2]. split; [|split; [reflexivity|lia]]. lz_lit tm A. lz_lit tm A. lz_cop tm A 1. lz_cop tm A 2. lz_cop tm A 1. lz_cop tm A 4. apply lens_end. lia. }
  destruct HL as (ls & HL & LL & LE). destruct (lens_count_z sort w ls Hs) as (fs & EZ & ME); auto.
  { apply not_nil. rewrite L. pose proof (Nat.pow_nonzero 2 k). lia. }
  { apply (bytes_of w tm A). intros i. destruct (tm_cases i) as [->| ->]; lia. }
  { rewrite L. apply pow_small. lia. }
  exists fs. do 2 (split; [assumption|]). split; [rewrite (length_map_len _ _ ME); exact LL|]. intros C. rewrite ME, (LE C). reflexivity.
Qed.
(** Thue-Morse: 2k factors *)
Theorem C116_thuemorse : forall sort k, (forall t, is_suffix_array t (sort t)) -> 1 <= k <= 31 ->
  exists w fs, thuemorse_word k = Ok w /\ count_z_main sort w = Ok fs /\ length fs = 2 * k /\
    (4 <= k -> map lz_len fs = [0; 0; 1; 2; 1; 4] ++ flat_map (fun j => [3 * 2 ^ j; 7 * 2 ^ j]) (seq 0 (k - 4)) ++ [3 * 2 ^ (k - 4); 3 * 2 ^ (k - 4)]).
Proof. intros sort k Hs Hk. destruct (z_thuemorse sort k Hs Hk) as (w & fs & A & (B & _) & C). exists w, fs. auto. Qed.
Print Assumptions C116_thuemorse.
Lemma z_period_doubling : forall sort k, (forall t, is_suffix_array t (sort t)) -> 1 <= k <= 31 ->
  exists w fs, period_doubling_word k = Ok w /\ counted sort w fs /\ length fs = 2 * k /\
    (2 <= k -> map lz_len fs = [0; 0; 1] ++ flat_map (fun j => [2 ^ j; 2 ^ j]) (seq 1 (k - 2)) ++ [1]).
Proof.
  intros sort k Hs Hk. exists (iter_morphism period_doubling_morphism k [97]). set (w := iter_morphism period_doubling_morphism k [97]).
  assert (A : agrees w pd) by apply pd_agrees. assert (L : length w = 2 ^ k) by apply (u2_iter_length _ _ _ pdh_u2).
  assert (HL : exists ls, lens w 0 ls /\ length ls = 2 * k /\ (2 <= k -> ls = pd_lengths k)).
  { destruct (Nat.le_gt_cases 2 k) as [C|C].
    - exists (pd_lengths k). split; [|split; [|reflexivity]].
      + replace k with (k - 2 + 2) at 1 by lia. apply pd_lz77; [exact A|]. rewrite L. replace k with (2 + (k - 2)) at 1 by lia. rewrite Nat.pow_add_r. reflexivity.
      + unfold pd_lengths. rewrite !app_length, (flat_len _ 2) by reflexivity. rewrite seq_length. cbn [length]. lia.
    - assert (K : k = 1) by lia. rewrite K in L. exists [0; 0]. rewrite K. split; [|split; [reflexivity|lia]]. cbn [Nat.pow Nat.mul Nat.add] in L. lz_lit pd A. lz_lit pd A. apply lens_end. lia. }
  destruct HL as (ls & HL & LL & LE). destruct (lens_count_z sort w ls Hs) as (fs & EZ & ME); auto.
  { apply not_nil. rewrite L. pose proof (Nat.pow_nonzero 2 k). lia. }
  { apply (bytes_of w pd A). intros i. destruct (pd_cases i) as [->| ->]; lia. }
  { rewrite L. apply pow_small. lia. }
  exists fs. split; [apply period_doubling_word_ok; lia|]. split; [exact EZ|]. split; [rewrite (length_map_len _ _ ME); exact LL|]. intros C. rewrite ME, (LE C). reflexivity.
Qed.
(** period doubling: 2k factors *)
Theorem C116_period_doubling : forall sort k, (forall t, is_suffix_array t (sort t)) -> 1 <= k <= 31 ->
  exists w fs, period_doubling_word k = Ok w /\ count_z_main sort w = Ok fs /\ length fs = 2 * k /\
    (2 <= k -> map lz_len fs = [0; 0; 1] ++ flat_map (fun j => [2 ^ j; 2 ^ j]) (seq 1 (k - 2)) ++ [1]).
Proof. intros sort k Hs Hk. destruct (z_period_doubling sort k Hs Hk) as (w & fs & A & (B & _) & C). exists w, fs. auto. Qed.
Print Assumptions C116_period_doubling.
Lemma z_vtm : forall sort k, (forall t, is_suffix_array t (sort t)) -> 1 <= k <= 29 ->
  exists w fs, vtm_word k = Ok w /\ counted sort w fs /\ length fs = 3 * k /\
    (3 <= k -> map lz_len fs = [0; 0; 0; 1; 1; 1] ++ flat_map (fun j => [3 * 2 ^ j; 2 * 2 ^ j; 2 * 2 ^ j]) (seq 0 (k - 3)) ++ [3 * 2 ^ (k - 3); 2 * 2 ^ (k - 3); 1]).
Proof.
  intros sort k Hs Hk. exists (vt k). replace k with (S (k - 1)) by lia. set (m := k - 1). assert (Hm : m <= 28) by lia. clearbody m. clear k Hk.
  pose proof (vt_agrees m) as A. pose proof (vt_len m) as L. set (w := vt (S m)) in *.
  assert (HL : exists ls, lens w 0 ls /\ length ls = 3 * S m /\ (3 <= S m -> ls = vtm_lengths (S m))).
  { destruct (Nat.le_gt_cases 2 m) as [C|C].
    - exists (vtm_lengths (S m)). split; [|split; [|reflexivity]].
      + replace (S m) with (m - 2 + 3) by lia. apply vtm_lz77; [exact A|]. rewrite L. replace m with (2 + (m - 2)) at 1 by lia. rewrite Nat.pow_add_r. cbn [Nat.pow]. lia.
      + unfold vtm_lengths. rewrite !app_length, (flat_len _ 3) by reflexivity. rewrite seq_length. cbn [length]. lia.
    - assert (K : m = 0 \/ m = 1) by lia. destruct K as [K|K]; rewrite K in L |- *; cbn [Nat.pow Nat.mul Nat.add] in L.
      + exists [0; 0; 0]. split; [|split; [reflexivity|lia]]. lz_lit v A. lz_lit v A. lz_lit v A. apply lens_end. lia.
      + exists [0; 0; 0; 1; 1; 1]. split; [|split; [reflexivity|lia]]. lz_lit v A. lz_lit v A. lz_lit v A. lz_cop v A 1. lz_cop v A 1. lz_cop v A 1. apply lens_end. lia. }
  destruct HL as (ls & HL & LL & LE). destruct (lens_count_z sort w ls Hs) as (fs & EZ & ME); auto.
  { apply not_nil. rewrite L. pose proof (Nat.pow_nonzero 2 m). lia. }
  { apply (bytes_of w v A). intros i. unfold v, D. destruct (_ =? _); [lia|]. destruct (_ =? _); lia. }
  { rewrite L. apply N.le_lt_trans with (N.of_nat (2 ^ 30)); [|apply pow_small; lia]. rewrite Nat2N.inj_mul, !Nat2N.inj_pow.
    apply N.le_trans with (N.of_nat 4 * N.of_nat 2 ^ N.of_nat 28)%N; [|vm_compute; discriminate]. apply N.mul_le_mono; [lia|]. apply N.pow_le_mono_r; lia. }
  exists fs. split; [apply vtm_word_ok; lia|]. split; [exact EZ|]. split; [rewrite (length_map_len _ _ ME); exact LL|]. intros C. rewrite ME, (LE C). reflexivity.
Qed.
(** vtm: 3k factors *)
Theorem C116_vtm : forall sort k, (forall t, is_suffix_array t (sort t)) -> 1 <= k <= 29 ->
  exists w fs, vtm_word k = Ok w /\ count_z_main sort w = Ok fs /\ length fs = 3 * k /\
    (3 <= k -> map lz_len fs = [0; 0; 0; 1; 1; 1] ++ flat_map (fun j => [3 * 2 ^ j; 2 * 2 ^ j; 2 * 2 ^ j]) (seq 0 (k - 3)) ++ [3 * 2 ^ (k - 3); 2 * 2 ^ (k - 3); 1]).
Proof. intros sort k Hs Hk. destruct (z_vtm sort k Hs Hk) as (w & fs & A & (B & _) & C). exists w, fs. auto. Qed.
Print Assumptions C116_vtm.
Lemma z_power2 : forall sort k, (forall t, is_suffix_array t (sort t)) -> 2 <= k <= 31 ->
  exists w fs, power2_sequence k = Ok w /\ counted sort w fs /\ length fs = 2 * k /\
    map lz_len fs = [0; 1; 0] ++ flat_map (fun j => [2 ^ j; 2 ^ j]) (seq 1 (k - 2)) ++ [0].
Proof.
  intros sort k Hs Hk. destruct (power2_ok k ltac:(lia)) as (w & EW & L & Z & AB & B). exists w.
  pose proof (p2_lz77 w k ltac:(lia) L Z AB B) as HL. destruct (lens_count_z sort w (p2_lengths k) Hs) as (fs & EZ & ME); auto.
  { apply not_nil. rewrite L. pose proof (Nat.pow_nonzero 2 k). lia. }
  { apply Forall_forall. intros x Hx. apply (In_nth _ _ 0) in Hx. destruct Hx as (i & Hi & <-). destruct (Nat.eq_dec i (2 ^ k - 1)) as [->|N].
    - rewrite (nth_indep _ 0 1) by exact Hi. rewrite Z. lia.
    - destruct (AB (i + 1) ltac:(lia)) as [X|X]; replace (i + 1 - 1) with i in X by lia; rewrite X; lia. }
  { rewrite L. apply pow_small. lia. }
  exists fs. split; [exact EW|]. split; [exact EZ|]. split; [|exact ME]. rewrite (length_map_len _ _ ME). unfold p2_lengths. rewrite !app_length, (flat_len _ 2) by reflexivity. rewrite seq_length. cbn [length]. lia.
Qed.
(** power2: 2k factors *)
Theorem C116_power2 : forall sort k, (forall t, is_suffix_array t (sort t)) -> 2 <= k <= 31 ->
  exists w fs, power2_sequence k = Ok w /\ count_z_main sort w = Ok fs /\ length fs = 2 * k /\
    map lz_len fs = [0; 1; 0] ++ flat_map (fun j => [2 ^ j; 2 ^ j]) (seq 1 (k - 2)) ++ [0].
Proof. intros sort k Hs Hk. destruct (z_power2 sort k Hs Hk) as (w & fs & A & (B & _) & C). exists w, fs. auto. Qed.
Print Assumptions C116_power2.
Lemma z_quaternary_paperfolding : forall sort k, (forall t, is_suffix_array t (sort t)) -> 2 <= k <= 31 ->
  exists w fs, quaternary_paperfolding_word k = Ok w /\ counted sort w fs /\ length fs = 3 * k - 2 /\
    (4 <= k -> map lz_len fs = [0; 0; 0; 1; 1; 0; 3; 2; 1] ++ flat_map (fun j => [7 * 2 ^ j; 4 * 2 ^ j; 2 * 2 ^ j]) (seq 0 (k - 4)) ++ [3 * 2 ^ (k - 4) + 1]).
Proof.
  intros sort k Hs Hk. exists (iter_morphism pfh k [100]). set (w := iter_morphism pfh k [100]).
  assert (A : agrees w qf) by apply qf_agrees. assert (L : length w = 2 ^ k) by apply (u2_iter_length _ _ _ pfh_u2).
  assert (HL : exists ls, lens w 0 ls /\ length ls = 3 * k - 2 /\ (4 <= k -> ls = qf_lengths k)).
  { destruct (Nat.le_gt_cases 4 k) as [C|C].
    - exists (qf_lengths k). split; [|split; [|reflexivity]].
      + replace k with (k - 4 + 4) by lia. apply qf_lz77; [exact A|]. rewrite L. f_equal. lia.
      + unfold qf_lengths. rewrite !app_length, (flat_len _ 3) by reflexivity. rewrite seq_length. cbn [length]. lia.
    - assert (K : k = 2 \/ k = 3) by lia. destruct K as [K|K]; rewrite K in L |- *; cbn [Nat.pow Nat.mul Nat.add] in L.
      + exists [0; 0; 0; 1]. split; [|split; [reflexivity|lia]]. lz_lit qf A. lz_lit qf A. lz_lit qf A. lz_cop qf A 1. apply lens_end. lia.
      + exists [0; 0; 0; 1; 1; 0; 2]. split; [|split; [reflexivity|lia]]. lz_lit qf A. lz_lit qf A. lz_lit qf A. lz_cop qf A 1. lz_cop qf A 1. lz_lit qf A. lz_cop qf A 3. apply lens_end. lia. }
  destruct HL as (ls & HL & LL & LE). destruct (lens_count_z sort w ls Hs) as (fs & EZ & ME); auto.
  { apply not_nil. rewrite L. pose proof (Nat.pow_nonzero 2 k). lia. }
  { apply (bytes_of w qf A). intros i. unfold qf. destruct (Nat.even i), (pf i =? 49); lia. }
  { rewrite L. apply pow_small. lia. }
  exists fs. split; [apply quaternary_ok; lia|]. split; [exact EZ|]. split; [rewrite (length_map_len _ _ ME); exact LL|]. intros C. rewrite ME, (LE C). reflexivity.
Qed.
(** quaternary paperfolding: 3k - 2 factors *)
Theorem C116_quaternary_paperfolding : forall sort k, (forall t, is_suffix_array t (sort t)) -> 2 <= k <= 31 ->
  exists w fs, quaternary_paperfolding_word k = Ok w /\ count_z_main sort w = Ok fs /\ length fs = 3 * k - 2 /\
    (4 <= k -> map lz_len fs = [0; 0; 0; 1; 1; 0; 3; 2; 1] ++ flat_map (fun j => [7 * 2 ^ j; 4 * 2 ^ j; 2 * 2 ^ j]) (seq 0 (k - 4)) ++ [3 * 2 ^ (k - 4) + 1]).
Proof. intros sort k Hs Hk. destruct (z_quaternary_paperfolding sort k Hs Hk) as (w & fs & A & (B & _) & C). exists w, fs. auto. Qed.
Print Assumptions C116_quaternary_paperfolding.
Lemma z_paperfolding : forall sort k, (forall t, is_suffix_array t (sort t)) -> 3 <= k <= 30 ->
  exists w fs, paperfolding_word k = Ok w /\ counted sort w fs /\ length fs = 3 * k - 2 /\
    (5 <= k -> map lz_len fs = [0; 1; 0; 3; 3; 4; 6; 4; 6; 10; 8; 4] ++ flat_map (fun j => [28 * 2 ^ j; 16 * 2 ^ j; 8 * 2 ^ j]) (seq 0 (k - 5)) ++ [12 * 2 ^ (k - 5) + 1]).
Proof.
  intros sort k Hs Hk. destruct (C50_paperfolding k ltac:(lia)) as (w & EW & L & H). exists w.
  assert (A : agrees w pf).
  { intros i Hi. destruct (split_pow (i + 1) ltac:(lia)) as (e & m & E). specialize (H (i + 1) e m ltac:(lia) E). replace (i + 1 - 1) with i in H by lia.
    rewrite H. replace i with (2 ^ e * (2 * m + 1) - 1) by lia. now rewrite pf_spec. }
  assert (HL : exists ls, lens w 0 ls /\ length ls = 3 * k - 2 /\ (5 <= k -> ls = pf_lengths k)).
  { destruct (Nat.le_gt_cases 5 k) as [C|C].
    - exists (pf_lengths k). split; [|split; [|reflexivity]].
      + replace k with (k - 5 + 5) by lia. apply pf_lz77; [exact A|]. rewrite L. f_equal. lia.
      + unfold pf_lengths. rewrite !app_length, (flat_len _ 3) by reflexivity. rewrite seq_length. cbn [length]. lia.
    - assert (K : k = 3 \/ k = 4) by lia. destruct K as [K|K]; rewrite K in L |- *; cbn [Nat.pow Nat.mul Nat.add] in L.
      + exists [0; 1; 0; 3; 3; 4; 3]. split; [|split; [reflexivity|lia]]. lz_lit pf A. lz_cop pf A 1. lz_lit pf A. lz_cop pf A 3. lz_cop pf A 3. lz_cop pf A 4. lz_cop pf A 6. apply lens_end. lia.
      + exists [0; 1; 0; 3; 3; 4; 6; 4; 6; 3]. split; [|split; [reflexivity|lia]].
        lz_lit pf A. lz_cop pf A 1. lz_lit pf A. lz_cop pf A 3. lz_cop pf A 3. lz_cop pf A 4. lz_cop pf A 6. lz_cop pf A 4. lz_cop pf A 6. lz_cop pf A 10. apply lens_end. lia. }
  destruct HL as (ls & HL & LL & LE). destruct (lens_count_z sort w ls Hs) as (fs & EZ & ME); auto.
  { apply not_nil. rewrite L. pose proof (Nat.pow_nonzero 2 (k + 1)). lia. }
  { apply (bytes_of w pf A). intros i. destruct (pf_cases i) as [->| ->]; lia. }
  { rewrite L. apply pow_small. lia. }
  exists fs. split; [exact EW|]. split; [exact EZ|]. split; [rewrite (length_map_len _ _ ME); exact LL|]. intros C. rewrite ME, (LE C). reflexivity.
Qed.
(** paperfolding: 3k - 2 factors *)
Theorem C116_paperfolding : forall sort k, (forall t, is_suffix_array t (sort t)) -> 3 <= k <= 30 ->
  exists w fs, paperfolding_word k = Ok w /\ count_z_main sort w = Ok fs /\ length fs = 3 * k - 2 /\
    (5 <= k -> map lz_len fs = [0; 1; 0; 3; 3; 4; 6; 4; 6; 10; 8; 4] ++ flat_map (fun j => [28 * 2 ^ j; 16 * 2 ^ j; 8 * 2 ^ j]) (seq 0 (k - 5)) ++ [12 * 2 ^ (k - 5) + 1]).
Proof. intros sort k Hs Hk. destruct (z_paperfolding sort k Hs Hk) as (w & fs & A & (B & _) & C). exists w, fs. auto. Qed.
Print Assumptions C116_paperfolding.
Lemma z_tribonacci : forall sort k, (forall t, is_suffix_array t (sort t)) -> 2 <= k <= 36 ->
  exists w fs, tribonacci_word k = Ok w /\ counted sort w fs /\ length fs = k + 2 /\
    (4 <= k -> exists r, map lz_len fs = [0; 0; 1; 0; 3] ++ map (fun i => length (trib_word i)) (seq 3 (k - 4)) ++ [r]).
Proof.
  intros sort k Hs Hk. exists (trib_word k). pose proof (W_agrees k) as A. assert (SM : (trib k < 2 ^ 32)%N).
  { eapply N.le_lt_trans; [apply (trib_mono_le k 36); lia|]. rewrite trib_fast. vm_compute. reflexivity. }
  assert (HL : exists ls, lens (trib_word k) 0 ls /\ length ls = k + 2 /\ (4 <= k -> exists r, ls = trib_lengths k r)).
  { destruct (Nat.le_gt_cases 4 k) as [C|C].
    - destruct (trib_lz77 (k - 4)) as (r & _ & HL). replace (k - 4 + 4) with k in HL by lia. exists (trib_lengths k r). split; [exact HL|]. split; [|eauto].
      unfold trib_lengths. rewrite !app_length, map_length, seq_length. cbn [length]. lia.
    - assert (K : k = 2 \/ k = 3) by lia. pose proof (eq_refl : length (trib_word 2) = 4) as L2. pose proof (eq_refl : length (trib_word 3) = 7) as L3. destruct K as [K|K]; rewrite K in A |- *.
      + exists [0; 0; 1; 0]. split; [|split; [reflexivity|lia]]. lz_lit T A. lz_lit T A. lz_cop T A 1. lz_lit T A. apply lens_end. reflexivity.
      + exists [0; 0; 1; 0; 3]. split; [|split; [reflexivity|lia]]. lz_lit T A. lz_lit T A. lz_cop T A 1. lz_lit T A. lz_cop T A 3. apply lens_end. reflexivity. }
  destruct HL as (ls & HL & LL & LE). destruct (lens_count_z sort (trib_word k) ls Hs) as (fs & EZ & ME); auto.
  { apply not_nil. pose proof (W_len k). lia. }
  { apply (bytes_of _ T A). intros i. destruct (T_abc i) as [->|[->| ->]]; lia. }
  { rewrite trib_word_length. exact SM. }
  exists fs. split.
  - apply C47_tribonacci_word. eapply N.lt_trans; [exact SM|]. vm_compute. reflexivity.
  - split; [exact EZ|]. split; [rewrite (length_map_len _ _ ME); exact LL|]. intros C. destruct (LE C) as (r & E). exists r. rewrite ME, E. reflexivity.
Qed.
(** tribonacci: k + 2 factors, the lengths (but the last) are tribonacci numbers *)
Theorem C116_tribonacci : forall sort k, (forall t, is_suffix_array t (sort t)) -> 2 <= k <= 36 ->
  exists w fs, tribonacci_word k = Ok w /\ count_z_main sort w = Ok fs /\ length fs = k + 2 /\
    (4 <= k -> exists r, map lz_len fs = [0; 0; 1; 0; 3] ++ map (fun i => length (trib_word i)) (seq 3 (k - 4)) ++ [r]).
Proof. intros sort k Hs Hk. destruct (z_tribonacci sort k Hs Hk) as (w & fs & A & (B & _) & C). exists w, fs. auto. Qed.
Print Assumptions C116_tribonacci.

Lemma z_fibonacci_lyndonfactor : forall sort k, (forall t, is_suffix_array t (sort t)) -> 2 <= k <= 22 ->
  exists w fs, fibonacci_lyndonfactor k = Ok w /\ counted sort w fs /\ length fs = 2 * k + 1 /\
    map lz_len fs = [0; 1; 0; 4] ++ map (fun i => length (fib_word i)) (seq 3 (2 * k - 4)) ++ [length (fib_word (2 * k - 1)) + 1].
Proof.
  intros sort k Hs Hk. exists (lw k). destruct (lens_count_z sort (lw k) (lw_lengths k) Hs) as (fs & EZ & ME).
  { apply not_nil. rewrite lw_length. apply f_pos. }
  { apply Forall_forall. intros x Hx. pose proof (proj1 (Forall_forall _ _) (lw_ab k) x Hx) as [->| ->]; lia. }
  { rewrite lw_length. apply fib_small. lia. }
  { apply lw_lz77. lia. }
  exists fs. split; [apply fibonacci_lyndonfactor_ok; lia|]. split; [exact EZ|]. split; [|exact ME].
  rewrite (length_map_len _ _ ME). unfold lw_lengths. rewrite !app_length, map_length, seq_length. cbn [length]. lia.
Qed.
(** the Lyndon factors of the Fibonacci word: 2k + 1 factors, their lengths are Fibonacci numbers but for two *)
Theorem C116_fibonacci_lyndonfactor : forall sort k, (forall t, is_suffix_array t (sort t)) -> 2 <= k <= 22 ->
  exists w fs, fibonacci_lyndonfactor k = Ok w /\ count_z_main sort w = Ok fs /\ length fs = 2 * k + 1 /\
    map lz_len fs = [0; 1; 0; 4] ++ map (fun i => length (fib_word i)) (seq 3 (2 * k - 4)) ++ [length (fib_word (2 * k - 1)) + 1].
Proof. intros sort k Hs Hk. destruct (z_fibonacci_lyndonfactor sort k Hs Hk) as (w & fs & A & (B & _) & C). exists w, fs. auto. Qed.
Print Assumptions C116_fibonacci_lyndonfactor.

(** Together: the number of LZ77 factors of the word that [word -n s -k k] writes, for the names with a regular one *)
Definition lz77_size (v : word_name) (k : nat) : option nat :=
  match v with
  | Fibonacci => if k <=? 45 then Some (k + 1) else None
  | FibonacciLyndonFactor => if (2 <=? k) && (k <=? 22) then Some (2 * k + 1) else None
  | Tribonacci => if (2 <=? k) && (k <=? 36) then Some (k + 2) else None
  | ThueMorse | PeriodDoubling => if (1 <=? k) && (k <=? 31) then Some (2 * k) else None
  | Power2 => if (2 <=? k) && (k <=? 31) then Some (2 * k) else None
  | Vtm => if (1 <=? k) && (k <=? 29) then Some (3 * k) else None
  | PaperFolding => if (3 <=? k) && (k <=? 30) then Some (3 * k - 2) else None
  | QuaternaryPaperFolding => if (2 <=? k) && (k <=? 31) then Some (3 * k - 2) else None
  | Kolakoski | BinaryDeBrujin => None
  end.
Lemma z_sizes : forall sort v k z, (forall t, is_suffix_array t (sort t)) -> lz77_size v k = Some z ->
  exists w fs, word_main v k = Ok w /\ counted sort w fs /\ length fs = z.
Proof.
  intros sort v k z Hs H.
  destruct v; cbn [lz77_size] in H; try discriminate H;
    match type of H with (if ?b then _ else _) = _ => destruct b eqn:B; [|discriminate H] end; injection H as <-;
    try (apply andb_prop in B; destruct B as (B1 & B2); apply Nat.leb_le in B1, B2; pose proof (conj B1 B2) as BB).
  - apply Nat.leb_le in B. destruct (C105_count_z sort k Hs B) as (w & fs & E & EZ & L & _). exists w, fs. split; [exact E|]. split; [|exact L].
    destruct (C42_exact k) as (E' & _). specialize (E' ltac:(lia)). rewrite E' in E. injection E as <-.
    split; [exact EZ|]. split; [apply fib_ne|]. split; [apply F_bytes|exact (fib_small k B)].
  - destruct (z_fibonacci_lyndonfactor sort k Hs BB) as (w & fs & E & C & L & _). eauto.
  - destruct (z_tribonacci sort k Hs BB) as (w & fs & E & C & L & _). eauto.
  - destruct (z_thuemorse sort k Hs BB) as (w & fs & E & C & L & _). eauto.
  - destruct (z_period_doubling sort k Hs BB) as (w & fs & E & C & L & _). eauto.
  - destruct (z_paperfolding sort k Hs BB) as (w & fs & E & C & L & _). eauto.
  - destruct (z_quaternary_paperfolding sort k Hs BB) as (w & fs & E & C & L & _). eauto.
  - destruct (z_power2 sort k Hs BB) as (w & fs & E & C & L & _). eauto.
  - destruct (z_vtm sort k Hs BB) as (w & fs & E & C & L & _). eauto.
Qed.
Lemma lz77_size_writes v k z : lz77_size v k = Some z -> writes v k.
Proof.
  intros H. left. destruct v; cbn [lz77_size] in H; try discriminate H; unfold writes_up_to;
    match type of H with (if ?b then _ else _) = _ => destruct b eqn:B; [|discriminate H] end;
    try (apply andb_prop in B; destruct B as (B1 & B)); apply Nat.leb_le in B; lia.
Qed.
(** word -n s -k K -o F, then count_z -i F, prints this number *)
Theorem C116_word_then_count_z : forall sort time file_of us1 line1 s v k z F w0 us2 line2 input, (forall t, is_suffix_array t (sort t)) ->
  good word_options us1 line1 -> In (s, v) the_words -> makes_word us1 s k F -> good count_z_options us2 line2 -> uses_of us2 o_in = [[F]] -> unused us2 o_prefix ->
  word_like F -> lz77_size v k = Some z ->
  exists p w t, word_program file_of line1 = Ran p /\ run p w0 = (w, Ok tt) /\ files w (file_of F) = Some t /\ described v k t /\ (sees file_of w input ->
    exists l, count_z_report sort time input line2 = Ran (Ok l) /\ count_z_line F time (length t) z l).
Proof.
  intros sort time file_of us1 line1 s v k z F w0 us2 line2 input Hs G1 HV (A & B & C) G2 D E HF HZ.
  destruct (z_sizes sort v k z Hs HZ) as (t & fs & ET & (EZ & HN & HB & HL) & L).
  destruct (C115_word file_of us1 line1 s v k F w0 G1 HV A B C (lz77_size_writes v k z HZ)) as (p & w & t' & E' & R & _ & W & ET' & DE).
  rewrite ET in ET'. injection ET' as <-.
  exists p, w, t. do 4 (split; [assumption|]). intros S.
  destruct (proj1 (C112_count_z_prints sort time input line2) us2 G2) as (p' & i & Sp & Si & E2).
  rewrite (string_is _ _ _ _ Si D), (number_default _ _ _ _ Sp E), (S F _ W) in E2.
  destruct (C96_count_z sort time (Some F) t 0 t Hs) as (l & dt & dn & df & z' & EL & H1 & H2 & H3 & H4 & H5 & H6); auto.
  { split; [reflexivity|discriminate]. }
  rewrite EL in E2. exists l. split; [exact E2|]. exists dt, dn, df. do 3 (split; [assumption|]).
  destruct (C37_lz77_minimal sort t Hs HN HB HL) as (fs' & EF & P1 & P2).
  rewrite EZ in EF. injection EF as <-. specialize (P2 z' H5). specialize (H6 _ P1). replace z with z' by lia. exact H4.
Qed.
Print Assumptions C116_word_then_count_z.

(** the hypotheses are met: a suffix sorter exists, and the tool is executed on two words (those of C115_case on the command line) *)
Example C116_case : (forall t, is_suffix_array t (naive_sort t)) /\
  (exists w fs, word_main ThueMorse 5 = Ok w /\ count_z_main naive_sort w = Ok fs /\ map lz_len fs = [0; 0; 1; 2; 1; 4; 3; 7; 6; 6]) /\
  (exists w fs, word_main FibonacciLyndonFactor 3 = Ok w /\ count_z_main naive_sort w = Ok fs /\ map lz_len fs = [0; 1; 0; 4; 5; 8; 14]) /\
  (exists w fs, word_main Vtm 4 = Ok w /\ count_z_main naive_sort w = Ok fs /\ length fs = 12) /\
  (exists w fs, word_main PaperFolding 4 = Ok w /\ count_z_main naive_sort w = Ok fs /\ length fs = 10) /\
  (exists w fs, word_main Tribonacci 6 = Ok w /\ count_z_main naive_sort w = Ok fs /\ map lz_len fs = [0; 0; 1; 0; 3; 7; 13; 17]) /\
  lz77_size ThueMorse 5 = Some 10 /\ lz77_size Kolakoski 5 = None.
Proof.
  split; [apply naive_sort_ok|].
  repeat (split; [eexists _, _; split; [vm_compute; reflexivity|]; split; [vm_compute; reflexivity|]; vm_compute; reflexivity|]). split; reflexivity.
Qed.
(** word -n thue-morse -k3 -o F; count_z -i F *)
Example C116_session_case : forall file_of time w0 input,
  let us1 := [(o_name, [ascii "thue-morse"]); (o_k, [ascii "3"]); (o_out, [ascii "F"])] in let us2 := [(o_in, [ascii "F"])] in
  good word_options us1 (ws ["-n"; "thue-morse"; "-k3"; "-o"; "F"]%string) /\ makes_word us1 (ascii "thue-morse") 3 (ascii "F") /\
  good count_z_options us2 (ws ["-i"; "F"]%string) /\ word_like (ascii "F") /\
  (exists p w, word_program file_of (ws ["-n"; "thue-morse"; "-k3"; "-o"; "F"]%string) = Ran p /\ run p w0 = (w, Ok tt) /\ (sees file_of w input ->
    exists l, count_z_report naive_sort time input (ws ["-i"; "F"]%string) = Ran (Ok l) /\ count_z_line (ascii "F") time 8 6 l)).
Proof.
  intros file_of time w0 input us1 us2. destruct (C115_case file_of time w0 (fun _ => [])) as (G1 & M1 & _). fold us1 in G1, M1. split; [exact G1|]. split; [exact M1|].
  assert (G2 : good count_z_options us2 (ws ["-i"; "F"]%string)).
  { split.
    - eexists. split; [|left; reflexivity].
      change (spelled count_z_options ([(o_in, [ascii "F"])] ++ []) (ws ["-i"; "F"]%string ++ [])).
      constructor; [apply (pc_short count_z_options [] [] o_in 105 [ascii "F"]); [constructor|find_in|reflexivity|reflexivity|]|constructor].
      split; [discriminate|]. split; [|reflexivity]. constructor; [intros (x & y & X); discriminate X|constructor].
    - split; [|split; [|split]].
      + constructor; [constructor; [exists (VStr (ascii "F")); constructor|constructor]|constructor].
      + apply Forall_forall. repeat (constructor; [right; apply Nat.leb_le; vm_compute; reflexivity|]). constructor.
      + repeat constructor; discriminate.
      + intros a Ha R. exfalso. revert a Ha R. apply (proj1 (Forall_forall (fun a => arg_required a = true -> False) count_z_options)). repeat (constructor; [intros R; discriminate R|]). constructor. }
  assert (WL : word_like (ascii "F")) by (split; [discriminate|split; intros [X|[]]; discriminate X]).
  split; [exact G2|]. split; [exact WL|].
  destruct (C116_word_then_count_z naive_sort time file_of us1 _ (ascii "thue-morse") ThueMorse 3 6 (ascii "F") w0 us2 _ input naive_sort_ok G1 ltac:(find_in) M1 G2 ltac:(reflexivity) ltac:(reflexivity) WL ltac:(reflexivity))
    as (p & w & t & E & R & W & D & H). apply proj1 in D.
  exists p, w. split; [exact E|]. split; [exact R|]. intros S. destruct (H S) as (l & EL & CL). exists l. split; [exact EL|]. assert (D' : length t = 8) by exact D. rewrite D' in CL. exact CL.
Qed.
