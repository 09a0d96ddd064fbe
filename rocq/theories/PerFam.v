(** PerFam.v : the smallest periods of the words of src/word.rs (C126) *)
From Verif Require Import Base SpecStr SpecIo SpecWord LexFacts BorderProof UnifyProof ModelWord WordProof WordProof2 WordProof3 WordProof4 FibFacts LynMorph LynFam LynFam5 RunFam LetFam.
From Coq Require Import NArith.

Definition least_period (w : str) (p : nat) : Prop := is_period w p /\ forall q, is_period w q -> p <= q.
Lemma whole_period w : w <> [] -> is_period w (length w).
Proof. intros N. assert (0 < length w) by (destruct w; [congruence|cbn [length]; lia]). split; [lia|]. intros i Hi. lia. Qed.

(** a primitive word occurs in its square only at the ends *)
Lemma prim_rot u q : primitive u -> 0 < q < length u -> (forall i, i < length u -> nth i u 0 = nth ((i + q) mod length u) u 0) -> False.
Proof.
  intros P Hq H. set (n := length u) in *.
  assert (N : u <> []) by (intros ->; cbn [length] in n; lia).
  assert (V : forall i, i < 2 * n -> nth i (power u 2) 0 = nth (i mod n) u 0) by (intros i Hi; apply nth_power; fold n; lia).
  assert (L : length (power u 2) = 2 * n) by (rewrite power_length; reflexivity).
  assert (P1 : is_period (power u 2) n) by (apply power_period; [exact N|lia]).
  assert (P2 : is_period (power u 2) q).
  { split; [lia|]. intros i Hi. rewrite !V by lia. rewrite H by (apply Nat.mod_upper_bound; lia). fold n. f_equal. now rewrite Nat.add_mod_idemp_l by lia. }
  pose proof (fine_wilf (power u 2) q n P2 P1 ltac:(lia)) as G. set (d := Nat.gcd q n) in *.
  assert (D1 : Nat.divide d n) by apply Nat.gcd_divide_r. assert (D2 : Nat.divide d q) by apply Nat.gcd_divide_l.
  assert (Dq : d <= q) by (apply Nat.divide_pos_le; [lia|exact D2]). pose proof G as (Gd & GP).
  assert (PU : is_period u d).
  { split; [fold n; lia|]. intros i Hi. fold n in Hi. specialize (GP i ltac:(lia)). rewrite !V in GP by lia. now rewrite !Nat.mod_small in GP by lia. }
  apply P. exists (firstn d u), (n / d). split.
  - destruct D1 as (m & Em). rewrite Em, Nat.div_mul by lia. nia.
  - apply period_power; [exact PU|]. fold n. apply Nat.mod_divide; [lia|exact D1].
Qed.
(** words u x with x a prefix of u *)
Lemma square_prefix_period u v x y : u = v ++ y -> prefix y v -> (exists x', x = v ++ x') -> prefix x u -> length u < length x + length u -> length u - length x <= length v -> primitive u -> primitive v ->
  least_period (u ++ x) (length u).
Proof.
  intros Eu (y' & Ey) (x' & Ex) (u' & Eu') Lx Hl PU PV.
  assert (Nu : 0 < length u) by (rewrite Eu', app_length; lia).
  assert (NX : forall i, i < length x -> nth i x 0 = nth i u 0) by (intros i Hi; rewrite Eu'; now rewrite app_nth1).
  assert (IP : is_period (u ++ x) (length u)).
  { split; [rewrite app_length; lia|]. intros i Hi. rewrite app_length in Hi.
    assert (length x <= length u) by (rewrite Eu', app_length; lia). rewrite app_nth1 by lia. rewrite app_nth2 by lia. replace (i + length u - length u) with i by lia. symmetry. apply NX. lia. }
  split; [exact IP|]. intros q (Hq & HP). destruct (Nat.le_gt_cases (length u) q) as [C|C]; [exact C|exfalso]. rewrite app_length in *.
  destruct (Nat.le_gt_cases q (length x)) as [D|D].
  - apply (prim_rot u q PU ltac:(lia)). intros i Hi. specialize (HP i ltac:(lia)). rewrite app_nth1 in HP by lia. rewrite HP.
    destruct (Nat.lt_ge_cases (i + q) (length u)) as [E|E].
    + rewrite app_nth1 by lia. now rewrite Nat.mod_small by lia.
    + rewrite app_nth2 by lia. rewrite NX by lia. f_equal. apply (Nat.mod_unique _ _ 1); lia.
  - set (r := length u - q) in *. assert (Lv : length v <= length x) by (rewrite Ex, app_length; lia).
    assert (Lu : length u = length v + length y) by (rewrite Eu, app_length; reflexivity). assert (Lyv : length y <= length v) by (rewrite Ey, app_length; lia).
    assert (NY : forall i, i < length y -> nth i y 0 = nth i v 0) by (intros i Hi; rewrite Ey; now rewrite app_nth1).
    assert (UV : forall j, j < length u -> nth j u 0 = nth (j mod length v) v 0).
    { intros j Hj. rewrite Eu. destruct (Nat.lt_ge_cases j (length v)) as [E|E].
      - rewrite app_nth1 by lia. now rewrite Nat.mod_small by lia.
      - rewrite app_nth2 by lia. replace (j mod length v) with (j - length v) by (apply (Nat.mod_unique _ _ 1); lia).
        apply NY. lia. }
    apply (prim_rot v r PV).
    + subst r. lia.
    + intros i Hi. specialize (HP (r + i) ltac:(subst r; lia)). replace (r + i + q) with (length u + i) in HP by (subst r; lia).
      rewrite app_nth1 in HP by (subst r; lia). rewrite app_nth2 in HP by lia. replace (length u + i - length u) with i in HP by lia.
      rewrite Ex in HP. rewrite (app_nth1 v x') in HP by lia. rewrite <- HP. rewrite UV by (subst r; lia). f_equal. f_equal. lia.
Qed.
Lemma cnt_power u m c : cnt (power u m) c = m * cnt u c.
Proof. induction m as [|m IH]; [reflexivity|]. cbn [power]. rewrite cnt_app, IH. reflexivity. Qed.
Lemma m1 m x : 2 <= m -> m * x = 1 -> False.
Proof. destruct x; nia. Qed.
Lemma pfx_app (u v : str) : prefix u (u ++ v). Proof. now exists v. Qed.
(** Fibonacci *)
Lemma fw_primitive k : primitive (fib_word k).
Proof.
  intros (u & m & Hm & E). destruct (fw_cnt k) as (A & B). rewrite E, cnt_power in A, B. clear E.
  generalize dependent (cnt u 97). generalize dependent (cnt u 98). induction k as [|k IH]; intros y B x A.
  - change (N.to_nat (fib (0 + 1))) with 1 in A. clear B. now apply (m1 m x).
  - replace (S k + 1) with (S (S k)) in A by lia. rewrite fib_SS in A. apply (IH (x - y)  ltac:(rewrite Nat.mul_sub_distr_l; lia) y). replace (k + 1) with (S k) by lia. exact B.
Qed.
Lemma fib_least k : 2 <= k -> least_period (fib_word k) (length (fib_word (k - 1))).
Proof.
  intros H. destruct k as [|[|k]]; [lia|lia|]. replace (S (S k) - 1) with (S k) by lia. rewrite F_SS. destruct k as [|k].
  - change (F 1 ++ F 0) with [97; 98; 97]. change (length (F 1)) with 2. split; [split; [cbn [length]; lia|]|].
    + intros i Hi. cbn [length] in Hi. assert (i = 0) by lia. subst i. reflexivity.
    + intros q (Hq & HP). destruct (Nat.le_gt_cases 2 q) as [C|C]; [exact C|]. assert (q = 1) by lia. subst q. specialize (HP 0 ltac:(cbn [length]; lia)). discriminate HP.
  - pose proof (f_pos (S k)) as P1. pose proof (f_SS k) as L. unfold f in *.
    apply (square_prefix_period (F (S (S k))) (F (S k)) (F (S k)) (F k)).
    + apply F_SS.
    + destruct k as [|k]; [exists [98]; reflexivity|]. rewrite F_SS. apply pfx_app.
    + exists []. now rewrite app_nil_r.
    + rewrite F_SS. apply pfx_app.
    + lia.
    + rewrite F_SS, app_length. pose proof (f_mono k). unfold f in *. lia.
    + apply fw_primitive.
    + apply fw_primitive.
Qed.
(** tribonacci *)
Lemma no_trib m x y z k : 2 <= m -> m * x = N.to_nat (trib (S (S k))) -> m * y = N.to_nat (trib (S k)) -> m * z = N.to_nat (trib k) -> False.
Proof.
  intros Hm. revert x y z. induction k as [|k IH]; intros x y z A B C.
  - change (N.to_nat (trib 0)) with 1 in C. clear A B. now apply (m1 m z).
  - rewrite trib_S3 in A. apply (IH y z (x - y - z)); [assumption|assumption|]. rewrite !Nat.mul_sub_distr_l. lia.
Qed.
Lemma tw_primitive k : primitive (trib_word k).
Proof.
  intros (u & m & Hm & E). destruct (tw_cnt k) as (A & B & C). rewrite E, cnt_power in A, B, C. clear E. destruct k as [|[|[|k]]].
  - change (tl_before 1 0) with 1 in A. now apply (m1 m (cnt u 97)).
  - change (tl_before 1 1) with 1 in A. now apply (m1 m (cnt u 97)).
  - change (m * cnt u 99 = 1) in C. now apply (m1 m (cnt u 99)).
  - unfold tl_before in *. cbn [Nat.eqb Nat.leb Nat.ltb] in *. replace (S (S (S k)) - 1) with (S (S k)) in * by lia. replace (S (S (S k)) - 2) with (S k) in * by lia. replace (S (S (S k)) - 3) with k in * by lia.
    exact (no_trib _ _ _ _ _ Hm A B C).
Qed.
Lemma tpre k : prefix (trib_word k) (trib_word (S k)).
Proof. destruct k as [|[|k]]; [exists [98]; reflexivity|exists [97; 99]; reflexivity|]. rewrite trib_word_SSS. apply pfx_app. Qed.
Lemma least_dec w p : is_period w p -> (forall q, 1 <= q < p -> ~ is_period w q) -> least_period w p.
Proof. intros H N. split; [exact H|]. intros q Q. destruct (Nat.le_gt_cases p q) as [C|C]; [exact C|]. destruct (N q); [destruct Q; lia|exact Q]. Qed.
Definition periodb (w : str) (q : nat) : bool := forallb (fun i => nth i w 0 =? nth (i + q) w 0) (seq 0 (length w - q)).
Lemma periodb_ok w q : 1 <= q <= length w -> (periodb w q = true <-> is_period w q).
Proof.
  intros H. unfold periodb. rewrite forallb_forall. split.
  - intros A. split; [exact H|]. intros i Hi. apply Nat.eqb_eq. apply A. apply in_seq. lia.
  - intros (_ & A) i Hi. apply in_seq in Hi. apply Nat.eqb_eq. apply A. lia.
Qed.
Lemma least_compute w p : (1 <=? p) && (p <=? length w) && periodb w p && forallb (fun q => negb (periodb w q)) (seq 1 (p - 1)) = true -> least_period w p.
Proof.
  intros H. rewrite !andb_true_iff in H. destruct H as (((A & B) & C) & D). apply Nat.leb_le in A, B. apply least_dec.
  - apply periodb_ok; [lia|exact C].
  - intros q Hq P. rewrite forallb_forall in D. specialize (D q ltac:(apply in_seq; lia)). apply (periodb_ok w q) in P; [|lia]. rewrite P in D. discriminate D.
Qed.
Lemma trib_least k : 3 <= k -> least_period (trib_word k) (length (trib_word (k - 1))).
Proof.
  intros H. destruct k as [|[|[|k]]]; [lia|lia|lia|]. replace (S (S (S k)) - 1) with (S (S k)) by lia.
  destruct k as [|[|k]]; [apply least_compute; vm_compute; reflexivity|apply least_compute; vm_compute; reflexivity|].
  rewrite trib_word_SSS. set (t := trib_word).
  assert (E1 : t (S (S (S (S k)))) = t (S (S (S k))) ++ (t (S (S k)) ++ t (S k))) by (subst t; apply trib_word_SSS).
  assert (E2 : t (S (S (S k))) = t (S (S k)) ++ t (S k) ++ t k) by (subst t; apply trib_word_SSS).
  assert (LE : length (t (S k)) <= length (t (S (S k)))) by (destruct (tpre (S k)) as (r & E); fold t in E; rewrite E, app_length; lia).
  assert (LE2 : length (t (S (S k))) <= length (t (S (S (S k))))) by (destruct (tpre (S (S k))) as (r & E); fold t in E; rewrite E, app_length; lia).
  assert (P1 : 1 <= length (t (S (S k)))) by (destruct (tw_shape (S (S k))) as ((r & E) & _); fold t in E; rewrite E; cbn [length]; lia).
  apply (square_prefix_period _ (t (S (S (S k)))) _ (t (S (S k)) ++ t (S k))).
  - exact E1.
  - rewrite E2, app_assoc. apply pfx_app.
  - exists (t (S (S k))). reflexivity.
  - rewrite E1. exists (t (S k)). now rewrite <- app_assoc.
  - rewrite app_length. lia.
  - rewrite E1, !app_length. lia.
  - apply tw_primitive.
  - apply tw_primitive.
Qed.
(** Lyndon words have no border *)
Lemma lyndon_least w : lyndon w -> least_period w (length w).
Proof.
  intros L. pose proof (lyndon_length w L) as P. apply least_dec; [apply whole_period, lyndon_not_nil; exact L|].
  intros q Hq (_ & HP). destruct L as (_ & L). specialize (L (firstn q w) (skipn q w) (eq_sym (firstn_skipn q w))).
  assert (E : skipn q w = firstn (length w - q) w).
  { apply (nth_ext_len _ _ 0); [rewrite skipn_length, firstn_length; lia|]. rewrite skipn_length. intros i Hi. rewrite nth_skipn, nth_firstn by lia. rewrite (HP i) by lia. f_equal. lia. }
  assert (LT : lex_lt w (skipn q w)).
  { apply L; intros Z; apply (f_equal (@length nat)) in Z; rewrite ?firstn_length, ?skipn_length in Z; cbn [length] in Z; lia. }
  rewrite E in LT. pose proof (lex_le_prefix (firstn (length w - q) w) (skipn (length w - q) w)) as Q. rewrite firstn_skipn in Q.
  destruct Q as [Q|Q]; [rewrite Q in LT; exact (lex_lt_irrefl w LT)|exact (lex_lt_asym _ _ LT Q)].
Qed.

(** uniform morphisms *)
Lemma period_double h w q : uniform2 h -> is_period w q -> is_period (flat_map h w) (2 * q).
Proof.
  intros U (Hq & H). split; [rewrite u2_length by exact U; lia|]. intros i Hi. rewrite u2_length in Hi by exact U.
  destruct (even_odd_split i) as [(j & ->)|(j & ->)].
  - replace (2 * j) with (2 * j + 0) at 1 by lia. replace (2 * j + 2 * q) with (2 * (j + q) + 0) by lia. rewrite !(u2_nth _ _ _ _ U) by lia. now rewrite (H j) by lia.
  - replace (2 * j + 1 + 2 * q) with (2 * (j + q) + 1) by lia. rewrite !(u2_nth _ _ _ _ U) by lia. now rewrite (H j) by lia.
Qed.
Lemma period_half h (A : nat -> Prop) w q : uniform2 h -> (forall c d, A c -> A d -> nth 0 (h c) 0 = nth 0 (h d) 0 -> nth 1 (h c) 0 = nth 1 (h d) 0 -> c = d) -> Forall A w ->
  is_period (flat_map h w) (2 * q) -> is_period w q.
Proof.
  intros U I F (Hq & H). rewrite u2_length in Hq by exact U. split; [lia|]. intros i Hi. rewrite Forall_forall in F.
  apply I; [apply F, nth_In; lia|apply F, nth_In; lia| |].
  - specialize (H (2 * i) ltac:(rewrite u2_length by exact U; lia)). replace (2 * i + 2 * q) with (2 * (i + q) + 0) in H by lia. replace (2 * i) with (2 * i + 0) in H by lia.
    now rewrite !(u2_nth _ _ _ _ U) in H by lia.
  - specialize (H (2 * i + 1) ltac:(rewrite u2_length by exact U; lia)). replace (2 * i + 1 + 2 * q) with (2 * (i + q) + 1) in H by lia.
    now rewrite !(u2_nth _ _ _ _ U) in H by lia.
Qed.
Section Double.
  Context (h : nat -> str) (A : nat -> Prop) (c0 : nat) (U : uniform2 h).
  Context (I : forall c d, A c -> A d -> nth 0 (h c) 0 = nth 0 (h d) 0 -> nth 1 (h c) 0 = nth 1 (h d) 0 -> c = d).
  Context (F : forall k, Forall A (iter_morphism h k [c0])).
  Let w k := iter_morphism h k [c0].
  Lemma double_least k p : least_period (w k) p -> (forall q, 1 <= q < 2 * p -> Nat.odd q = true -> ~ is_period (w (S k)) q) -> least_period (w (S k)) (2 * p).
  Proof using U I F.
    intros (P & M) N. unfold w in *. rewrite iter_S in *. split; [now apply period_double|]. intros q Q.
    destruct (Nat.le_gt_cases (2 * p) q) as [C|C]; [exact C|exfalso]. pose proof Q as (B & _).
    destruct (even_odd_split q) as [(r & ->)|(r & ->)].
    - pose proof (M r (period_half h A _ r U I (F k) Q)). lia.
    - apply (N (2 * r + 1)); [lia| |exact Q]. rewrite Nat.add_1_r, Nat.odd_succ. apply Nat.even_spec. now exists r.
  Qed.
End Double.
(** Thue-Morse *)
Lemma tm_ab k : Forall ab (iter_morphism thuemorse_morphism k [97]).
Proof. apply ab_iter; [apply tmm_ab|repeat constructor; unfold ab; tauto]. Qed.
Lemma tmm_inj c d : ab c -> ab d -> nth 0 (thuemorse_morphism c) 0 = nth 0 (thuemorse_morphism d) 0 -> nth 1 (thuemorse_morphism c) 0 = nth 1 (thuemorse_morphism d) 0 -> c = d.
Proof. intros [-> | ->] [-> | ->]; cbn; congruence. Qed.
Lemma tm_pair k j : j < 2 ^ k -> nth (2 * j) (iter_morphism thuemorse_morphism (S k) [97]) 0 <> nth (2 * j + 1) (iter_morphism thuemorse_morphism (S k) [97]) 0.
Proof.
  intros Hj. pose proof (u2_iter_length _ k 97 tmh_u2) as L. rewrite iter_S. replace (2 * j) with (2 * j + 0) at 1 by lia. rewrite !(u2_nth _ _ _ _ tmh_u2) by lia.
  unfold thuemorse_morphism at 1 3. destruct (_ =? 97); discriminate.
Qed.
Lemma tm_start k : firstn 4 (iter_morphism thuemorse_morphism (S (S k)) [97]) = [97; 98; 98; 97].
Proof.
  induction k as [|k IH]; [reflexivity|]. rewrite iter_S. destruct (iter_morphism thuemorse_morphism (S (S k)) [97]) as [|a [|b l]]; [discriminate IH|discriminate IH|].
  cbn [firstn] in IH. injection IH as -> -> _. reflexivity.
Qed.
Lemma tm_least k : least_period (iter_morphism thuemorse_morphism (S (S k)) [97]) (3 * 2 ^ k).
Proof.
  induction k as [|k IH]; [apply least_compute; vm_compute; reflexivity|]. replace (3 * 2 ^ S k) with (2 * (3 * 2 ^ k)) by (cbn [Nat.pow]; lia).
  apply (double_least thuemorse_morphism ab 97 tmh_u2 tmm_inj tm_ab); [exact IH|]. intros q Hq Oq (_ & P). set (w := iter_morphism thuemorse_morphism (S (S (S k))) [97]) in *.
  assert (L : length w = 8 * 2 ^ k) by (unfold w; rewrite (u2_iter_length _ _ _ tmh_u2); cbn [Nat.pow]; lia). pose proof (LynFam5.pow_pos k) as P0.
  apply Nat.odd_spec in Oq. destruct Oq as (r & ->). pose proof (P 1 ltac:(lia)) as P1. pose proof (P 2 ltac:(lia)) as P2.
  pose proof (tm_start (S k)) as S0. fold w in S0. assert (E : nth 1 w 0 = nth 2 w 0).
  { rewrite <- (firstn_skipn 4 w), S0. reflexivity. }
  apply (tm_pair (S (S k)) (r + 1)); [cbn [Nat.pow]; lia|]. fold w. replace (2 * (r + 1)) with (1 + (2 * r + 1)) by lia. rewrite <- P1. replace (1 + (2 * r + 1) + 1) with (2 + (2 * r + 1)) by lia. now rewrite <- P2.
Qed.
(** period doubling *)
Lemma pd_ab k : Forall ab (iter_morphism period_doubling_morphism k [97]).
Proof. apply ab_iter; [apply pdm_ab|repeat constructor; unfold ab; tauto]. Qed.
Lemma pdm_inj c d : ab c -> ab d -> nth 0 (period_doubling_morphism c) 0 = nth 0 (period_doubling_morphism d) 0 -> nth 1 (period_doubling_morphism c) 0 = nth 1 (period_doubling_morphism d) 0 -> c = d.
Proof. intros [-> | ->] [-> | ->]; cbn; congruence. Qed.
Lemma pd_even k j : j < 2 ^ k -> nth (2 * j) (iter_morphism period_doubling_morphism (S k) [97]) 0 = 97.
Proof.
  intros Hj. pose proof (u2_iter_length _ k 97 pdh_u2) as L. rewrite iter_S. replace (2 * j) with (2 * j + 0) by lia. rewrite !(u2_nth _ _ _ _ pdh_u2) by lia.
  unfold period_doubling_morphism at 1. destruct (_ =? 97); reflexivity.
Qed.
Lemma pd_start k : firstn 2 (iter_morphism period_doubling_morphism (S k) [97]) = [97; 98].
Proof.
  induction k as [|k IH]; [reflexivity|]. rewrite iter_S. destruct (iter_morphism period_doubling_morphism (S k) [97]) as [|a l]; [discriminate IH|].
  cbn [firstn] in IH. injection IH as -> _. reflexivity.
Qed.
Lemma pd_least k : least_period (iter_morphism period_doubling_morphism (S (S k)) [97]) (3 * 2 ^ k).
Proof.
  induction k as [|k IH]; [apply least_compute; vm_compute; reflexivity|]. replace (3 * 2 ^ S k) with (2 * (3 * 2 ^ k)) by (cbn [Nat.pow]; lia).
  apply (double_least period_doubling_morphism ab 97 pdh_u2 pdm_inj pd_ab); [exact IH|]. intros q Hq Oq (_ & P). set (w := iter_morphism period_doubling_morphism (S (S (S k))) [97]) in *.
  assert (L : length w = 8 * 2 ^ k) by (unfold w; rewrite (u2_iter_length _ _ _ pdh_u2); cbn [Nat.pow]; lia). pose proof (LynFam5.pow_pos k) as P0.
  apply Nat.odd_spec in Oq. destruct Oq as (r & ->). pose proof (P 1 ltac:(lia)) as P1.
  pose proof (pd_start (S (S k))) as S0. fold w in S0. assert (E : nth 1 w 0 = 98) by (rewrite <- (firstn_skipn 2 w), S0; reflexivity).
  rewrite E in P1. replace (1 + (2 * r + 1)) with (2 * (r + 1)) in P1 by lia. unfold w in P1. rewrite pd_even in P1 by (cbn [Nat.pow]; lia). discriminate P1.
Qed.
(** paperfolding *)
Lemma pfh_inj c d : quat c -> quat d -> nth 0 (pfh c) 0 = nth 0 (pfh d) 0 -> nth 1 (pfh c) 0 = nth 1 (pfh d) 0 -> c = d.
Proof. intros [-> |[-> |[-> | ->]]] [-> |[-> |[-> | ->]]]; cbn; congruence. Qed.
Lemma pfe_inj c d : quat c -> quat d -> nth 0 (pfe c) 0 = nth 0 (pfe d) 0 -> nth 1 (pfe c) 0 = nth 1 (pfe d) 0 -> c = d.
Proof. intros [-> |[-> |[-> | ->]]] [-> |[-> |[-> | ->]]]; cbn; congruence. Qed.
Lemma q_parity k j : j < 2 ^ k -> (let w := iter_morphism pfh (S k) [100] in (nth (2 * j) w 0 = 100 \/ nth (2 * j) w 0 = 99) /\ (nth (2 * j + 1) w 0 = 98 \/ nth (2 * j + 1) w 0 = 97)).
Proof.
  intros Hj. cbv zeta. pose proof (u2_iter_length _ k 100 pfh_u2) as L. rewrite iter_S. set (w := iter_morphism pfh k [100]) in *.
  assert (A0 : nth (2 * j) (flat_map pfh w) 0 = nth 0 (pfh (nth j w 0)) 0) by (rewrite <- (u2_nth _ _ _ 0 pfh_u2) by lia; f_equal; lia).
  assert (A1 : nth (2 * j + 1) (flat_map pfh w) 0 = nth 1 (pfh (nth j w 0)) 0) by (apply (u2_nth _ _ _ 1 pfh_u2); lia).
  rewrite A0, A1. unfold pfh. destruct (_ =? 100); [cbn; auto|]. destruct (_ =? 98); [cbn; auto|]. destruct (_ =? 99); cbn; auto.
Qed.
Lemma q_start k : hd 0 (iter_morphism pfh k [100]) = 100.
Proof.
  induction k as [|k IH]; [reflexivity|]. rewrite iter_S. destruct (iter_morphism pfh k [100]) as [|a l]; [discriminate IH|]. cbn [hd] in IH. subst a. reflexivity.
Qed.
Lemma hd_nth (w : str) : hd 0 w = nth 0 w 0. Proof. destruct w; reflexivity. Qed.
Lemma q_least k : least_period (iter_morphism pfh k [100]) (2 ^ k).
Proof.
  induction k as [|k IH]; [apply least_compute; vm_compute; reflexivity|]. replace (2 ^ S k) with (2 * 2 ^ k) by (cbn [Nat.pow]; lia).
  apply (double_least pfh quat 100 pfh_u2 pfh_inj pf_iter_quat); [exact IH|]. intros q Hq Oq (_ & P). apply Nat.odd_spec in Oq. destruct Oq as (r & ->).
  rewrite (u2_iter_length _ _ _ pfh_u2) in P. specialize (P 0 ltac:(cbn [Nat.pow]; lia)). rewrite <- hd_nth, q_start in P. destruct (q_parity k r ltac:(lia)) as (_ & [Q|Q]); cbn [Nat.add] in P; congruence.
Qed.
Lemma nth_last (w : str) d : w <> [] -> nth (length w - 1) w d = last w d.
Proof.
  intros N. destruct (exists_last N) as (r & a & ->). rewrite last_last, app_length. cbn [length]. rewrite app_nth2 by lia. replace (length r + 1 - 1 - length r) with 0 by lia. reflexivity.
Qed.
Lemma pf_even4 k j : j < 2 ^ k -> nth (4 * j) (flat_map pfe (iter_morphism pfh (S k) [100])) 0 = 49 /\ nth (4 * j + 2) (flat_map pfe (iter_morphism pfh (S k) [100])) 0 = 48.
Proof.
  intros Hj. pose proof (u2_iter_length _ (S k) 100 pfh_u2) as L. destruct (q_parity k j Hj) as (P0 & P1). set (w := iter_morphism pfh (S k) [100]) in *. cbn [Nat.pow] in L.
  assert (A0 : nth (4 * j) (flat_map pfe w) 0 = nth 0 (pfe (nth (2 * j) w 0)) 0) by (rewrite <- (u2_nth _ _ _ 0 pfe_u2) by lia; f_equal; lia).
  assert (A1 : nth (4 * j + 2) (flat_map pfe w) 0 = nth 0 (pfe (nth (2 * j + 1) w 0)) 0) by (rewrite <- (u2_nth _ _ _ 0 pfe_u2) by lia; f_equal; lia).
  rewrite A0, A1. split; [destruct P0 as [-> | ->]; reflexivity|destruct P1 as [-> | ->]; reflexivity].
Qed.
Lemma q_start2 k : firstn 2 (iter_morphism pfh (S k) [100]) = [100; 98].
Proof.
  induction k as [|k IH]; [reflexivity|]. rewrite iter_S. destruct (iter_morphism pfh (S k) [100]) as [|a [|b l]]; [discriminate IH|discriminate IH|].
  cbn [firstn] in IH. injection IH as -> ->. reflexivity.
Qed.
Lemma pf_least k : least_period (flat_map pfe (iter_morphism pfh k [100])) (2 * 2 ^ k - 1).
Proof.
  destruct k as [|k]; [apply least_compute; vm_compute; reflexivity|]. pose proof (LynFam5.pow_pos k) as P0.
  pose proof (q_least (S k)) as (_ & QM). pose proof (pf_even4 k) as E4. pose proof (q_start2 k) as S2. pose proof (pf_last (S k)) as QL. pose proof (pf_iter_quat (S k)) as QF.
  pose proof (u2_iter_length _ (S k) 100 pfh_u2) as LQ. set (Q := iter_morphism pfh (S k) [100]) in *. cbn [Nat.eqb] in QL.
  pose proof (u2_length pfe Q pfe_u2) as L. assert (NQ : Q <> []) by (intros E; rewrite E in S2; discriminate S2). cbn [Nat.pow] in *.
  assert (W : firstn 4 (flat_map pfe Q) = [49; 49; 48; 49]).
  { destruct Q as [|a [|b l]]; [discriminate S2|discriminate S2|]. cbn [firstn] in S2. injection S2 as -> ->. reflexivity. }
  assert (WL : nth (length (flat_map pfe Q) - 1) (flat_map pfe Q) 0 = 49).
  { rewrite (app_removelast_last 0 NQ), QL, flat_map_app. cbn [flat_map]. rewrite app_nil_r. change (pfe 98) with [48; 49]. rewrite app_length. cbn [length].
    rewrite app_nth2 by lia. match goal with |- nth ?x _ _ = _ => replace x with 1 by lia end. reflexivity. }
  set (w := flat_map pfe Q) in *.
  assert (W0 : nth 0 w 0 = 49) by (rewrite <- (firstn_skipn 4 w), W; reflexivity).
  assert (W1 : nth 1 w 0 = 49) by (rewrite <- (firstn_skipn 4 w), W; reflexivity).
  assert (W3 : nth 3 w 0 = 49) by (rewrite <- (firstn_skipn 4 w), W; reflexivity).
  apply least_dec.
  - split; [lia|]. intros i Hi. replace i with 0 by lia. rewrite W0, <- WL. f_equal. lia.
  - intros q Hq P. destruct (even_odd_split q) as [(r & ->)|(r & ->)].
    + pose proof (QM r (period_half pfe quat Q r pfe_u2 pfe_inj QF P)). lia.
    + destruct P as (_ & P). destruct (even_odd_split r) as [(s & ->)|(s & ->)].
      * specialize (P 1 ltac:(lia)). rewrite W1 in P. destruct (E4 s ltac:(lia)) as (_ & A). replace (1 + (2 * (2 * s) + 1)) with (4 * s + 2) in P by lia. rewrite A in P. discriminate P.
      * specialize (P 3 ltac:(lia)). rewrite W3 in P. destruct (E4 (s + 1) ltac:(lia)) as (_ & A). replace (3 + (2 * (2 * s + 1) + 1)) with (4 * (s + 1) + 2) in P by lia. rewrite A in P. discriminate P.
Qed.
(** a word whose last letter occurs only there *)
Lemma last_only w : w <> [] -> (forall i, i < length w - 1 -> nth i w 0 <> nth (length w - 1) w 0) -> least_period w (length w).
Proof.
  intros N H. split; [now apply whole_period|]. intros q (Hq & P). destruct (Nat.le_gt_cases (length w) q) as [C|C]; [exact C|exfalso].
  apply (H (length w - 1 - q)); [lia|]. rewrite P by lia. f_equal. lia.
Qed.
(** more than half of the length *)
Lemma least_primitive w p : least_period w p -> length w < 2 * p -> primitive w.
Proof.
  intros (P & M) L (u & m & Hm & E). assert (N : u <> []). { intros ->. destruct P as (P & _). rewrite E, power_length in P. cbn [length] in P. lia. }
  pose proof (power_period u m N ltac:(lia)) as Q. rewrite <- E in Q. specialize (M _ Q). rewrite E, power_length in L. nia.
Qed.
