(** PdFacts.v : the period-doubling word of length 2^k has an attractor of size two. *)
From Verif Require Import Base SpecStr SpecLz SpecAttr.
From Coq Require Import Psatz.

Definition v2 (q e : nat) : Prop := exists m, q = 2 ^ e * (2 * m + 1).
Lemma v2_ex q : 1 <= q -> exists e, v2 q e.
Proof.
  induction q as [q IH] using lt_wf_ind. intros Hq. destruct (Nat.Even_or_Odd q) as [(r & E)|(r & E)].
  - destruct (IH r) as (e & m & Er); [lia|lia|]. exists (S e), m. rewrite Nat.pow_succ_r'. lia.
  - exists 0, r. simpl. lia.
Qed.
Lemma pow2_pos e : 1 <= 2 ^ e.
Proof. induction e as [|e IH]; [simpl; lia|rewrite Nat.pow_succ_r'; lia]. Qed.
Lemma v2_uniq q e e' : v2 q e -> v2 q e' -> e = e'.
Proof.
  assert (G : forall e e' q, v2 q e -> v2 q e' -> e <= e').
  { clear. induction e as [|e IH]; intros e' q (m & E) (m' & E'); [lia|].
    destruct e' as [|e'].
    - rewrite Nat.pow_succ_r' in E. simpl in E'. lia.
    - apply le_n_S. rewrite Nat.pow_succ_r' in E, E'. apply (IH e' (2 ^ e * (2 * m + 1))); [exists m; reflexivity|exists m'; lia]. }
  intros H1 H2. apply Nat.le_antisymm; eauto.
Qed.
Lemma v2_cong x y t c e : 1 <= y -> x = y + 2 ^ t * c -> (forall d, y <> 2 ^ t * d) -> v2 y e -> v2 x e.
Proof.
  intros Hy E N (m & Ey). assert (C : e < t).
  { destruct (Nat.lt_ge_cases e t) as [C|C]; [exact C|]. exfalso. apply (N (2 ^ (e - t) * (2 * m + 1))).
    rewrite Nat.mul_assoc, <- Nat.pow_add_r. replace (t + (e - t)) with e by lia. exact Ey. }
  exists (m + 2 ^ (t - e - 1) * c). rewrite E, Ey.
  replace (2 ^ t) with (2 ^ e * (2 * 2 ^ (t - e - 1))); [nia|].
  rewrite <- Nat.pow_succ_r', <- Nat.pow_add_r. f_equal. lia.
Qed.

Section PD.
Context (w : str) (k : nat).
Context (Lw : length w = 2 ^ k).
Context (Hw : forall i e m, i < 2 ^ k -> i + 1 = 2 ^ e * (2 * m + 1) -> nth i w 0 = (if Nat.even e then 97 else 98)).
(** the letter at the 1-based position q *)
Let d (q : nat) := nth (q - 1) w 0.
Lemma pd_letter q e : 1 <= q <= 2 ^ k -> v2 q e -> d q = (if Nat.even e then 97 else 98).
Proof. intros H (m & E). unfold d. apply (Hw (q - 1) e m); lia. Qed.
Lemma pd_cong x y t c : 1 <= y -> x <= 2 ^ k -> x = y + 2 ^ t * c -> (forall a, y <> 2 ^ t * a) -> d x = d y.
Proof.
  intros Hy Hx E N. destruct (v2_ex y Hy) as (e & V). pose proof (v2_cong x y t c e Hy E N V) as V'.
  rewrite (pd_letter x e), (pd_letter y e); auto; lia.
Qed.
(** moving an interval of 1-based positions *)
Lemma pd_move p p' l : 1 <= p -> 1 <= p' -> p + l <= 2 ^ k + 1 -> p' + l <= 2 ^ k + 1 ->
  (forall x, x < l -> d (p' + x) = d (p + x)) -> same_substring w (p' - 1) (p - 1) l.
Proof.
  intros H1 H2 H3 H4 H. split; [lia|]. split; [lia|]. intros x Hx. specialize (H x Hx). unfold d in H.
  replace (p' + x - 1) with (p' - 1 + x) in H by lia. replace (p + x - 1) with (p - 1 + x) in H by lia. exact H.
Qed.
Context (K3 : 3 <= k).
Let m := 2 ^ (k - 3).
Lemma pd_m : 2 ^ k = 8 * m.
Proof. unfold m. replace k with (3 + (k - 3)) at 1 by lia. rewrite Nat.pow_add_r. reflexivity. Qed.
Definition hits (p l : nat) : Prop := exists j a, same_substring w j (p - 1) l /\ In a [3 * m - 1; 6 * m - 1] /\ j <= a < j + l.
Lemma pd_hit p p' l T : 1 <= p -> 1 <= p' -> p + l <= 2 ^ k + 1 -> p' + l <= 2 ^ k + 1 ->
  (forall x, x < l -> d (p' + x) = d (p + x)) -> T = 3 * m \/ T = 6 * m -> p' <= T < p' + l -> hits p l.
Proof.
  intros H1 H2 H3 H4 H HT HC. exists (p' - 1), (T - 1). split; [now apply pd_move|]. split; [|lia].
  destruct HT as [-> | ->]; simpl; auto.
Qed.
(** the interval contains one multiple of 2^t, and it is odd *)
Lemma pd_small p l t a : 1 <= p -> p + l <= 2 ^ k + 1 -> t <= k - 3 -> p <= 2 ^ t * a < p + l ->
  (forall b, ~ p <= 2 ^ (S t) * b < p + l) -> hits p l.
Proof.
  intros H1 H2 Ht Ha Hb. pose proof pd_m as Em. pose proof (pow2_pos t) as P. set (z := 2 ^ t) in *.
  assert (Hb' : forall b, ~ p <= z * (2 * b) < p + l) by (intros b; specialize (Hb b); rewrite Nat.pow_succ_r' in Hb; fold z in Hb; lia).
  assert (Odd : exists b, a = 2 * b + 1) by (destruct (Nat.Even_or_Odd a) as [(b & E)|(b & E)]; [exfalso; apply (Hb' b); subst; lia|eauto]).
  destruct Odd as (b & Ea).
  assert (Lo : z * (2 * b) < p) by (destruct (Nat.lt_ge_cases (z * (2 * b)) p); [lia|]; exfalso; apply (Hb' b); nia).
  assert (Hi : p + l <= z * (2 * (b + 1))) by (destruct (Nat.le_gt_cases (p + l) (z * (2 * (b + 1)))); [lia|]; exfalso; apply (Hb' (b + 1)); nia).
  assert (ZM : exists g, m = z * g /\ 1 <= g).
  { exists (2 ^ (k - 3 - t)). split; [|apply pow2_pos]. unfold m, z. rewrite <- Nat.pow_add_r. f_equal. lia. }
  destruct ZM as (g & Eg & Hg).
  assert (TE : exists T c e, (T = 3 * m \/ T = 6 * m) /\ T = z * c /\ v2 T e /\ Nat.even e = Nat.even t).
  { destruct (Bool.bool_dec (Nat.even (k - 3)) (Nat.even t)) as [E|E].
    - exists (3 * m), (3 * g), (k - 3). split; [auto|]. split; [nia|]. split; [|exact E]. exists 1. fold m. lia.
    - exists (6 * m), (6 * g), (S (k - 3)). split; [auto|]. split; [nia|]. split; [exists 1; rewrite Nat.pow_succ_r'; fold m; lia|].
      rewrite Nat.even_succ, <- Nat.negb_even. destruct (Nat.even (k - 3)), (Nat.even t); simpl; congruence. }
  destruct TE as (T & c & e & HT & Ec & VT & Ev).
  assert (BT : 3 * m <= T <= 6 * m) by (destruct HT; lia).
  assert (Zle : z <= m) by nia.
  apply (pd_hit p (p + T - z * a) l T); [exact H1|nia|exact H2|nia| |exact HT|nia].
  intros x Hx. destruct (Nat.eq_dec (p + x) (z * a)) as [E|N].
  - replace (p + T - z * a + x) with T by lia. rewrite E. rewrite (pd_letter T e), (pd_letter (z * a) t), Ev; [reflexivity|nia| |nia|exact VT].
    exists b. fold z. now rewrite Ea.
  - assert (NM : forall q, p + x <> z * q) by (intros q Eq; assert (q = 2 * b + 1) by nia; subst; lia).
    destruct (Nat.le_gt_cases a c) as [C|C].
    + apply (pd_cong _ _ t (c - a)); [lia|nia|fold z; nia|exact NM].
    + symmetry. apply (pd_cong _ _ t (a - c)); [nia|nia|fold z; nia|]. fold z. intros q Eq. apply (NM (q + (a - c))). nia.
Qed.
Lemma pd_level p l t : t <= k - 2 -> 1 <= l -> 1 <= p -> (forall b, ~ p <= 2 ^ t * b < p + l) ->
  exists t' a, t' < t /\ p <= 2 ^ t' * a < p + l /\ forall b, ~ p <= 2 ^ (S t') * b < p + l.
Proof.
  induction t as [|t IH]; intros Ht Hl Hp H.
  - exfalso. apply (H p). simpl. lia.
  - destruct (Nat.lt_ge_cases (p + l - 1) (2 ^ t * ((p + l - 1) / 2 ^ t))) as [C|C].
    { pose proof (Nat.mul_div_le (p + l - 1) (2 ^ t)). pose proof (pow2_pos t). lia. }
    pose proof (pow2_pos t) as P. pose proof (Nat.mul_succ_div_gt (p + l - 1) (2 ^ t) ltac:(lia)) as G.
    set (a := (p + l - 1) / 2 ^ t) in *.
    destruct (Nat.le_gt_cases p (2 ^ t * a)) as [C2|C2].
    + exists t, a. split; [lia|]. split; [lia|]. exact H.
    + destruct IH as (t' & a' & L & H1 & H2); [lia|exact Hl|exact Hp| |exists t', a'; split; [lia|auto]].
      intros b Hb. assert (b < S a) by nia. assert (a < b) by nia. lia.
Qed.
Lemma pd_attr_1 p l : 1 <= l -> 1 <= p -> p + l <= 2 ^ k + 1 -> hits p l.
Proof.
  intros Hl Hp H. pose proof pd_m as Em. pose proof (pow2_pos (k - 3)) as Pm. fold m in Pm.
  assert (V1 : forall y e, e <= 2 -> v2 y e -> v2 (y * m) (e + (k - 3))).
  { intros y e _ (b & E). exists b. rewrite Nat.pow_add_r. fold m. rewrite E. ring. }
  assert (V : forall x y e, y * m = x -> v2 y e -> 1 <= x <= 2 ^ k -> d x = (if Nat.even (e + (k - 3)) then 97 else 98)).
  { intros x y e <- (b & E) Hx. apply pd_letter; [exact Hx|]. exists b. rewrite Nat.pow_add_r. fold m. rewrite E. ring. }
  assert (ID : forall T, (T = 3 * m \/ T = 6 * m) -> p <= T < p + l -> hits p l) by (intros T HT HC; apply (pd_hit p p l T); auto).
  destruct (Nat.le_gt_cases p (3 * m)) as [A1|A1]; [destruct (Nat.le_gt_cases (p + l) (3 * m)) as [A2|A2]; [|apply (ID (3 * m)); auto]|];
  (destruct (Nat.le_gt_cases p (6 * m)) as [B1|B1]; [destruct (Nat.le_gt_cases (p + l) (6 * m)) as [B2|B2]; [|apply (ID (6 * m)); [auto|lia]]|]); try lia.
  - (* inside [1, 3m-1] *)
    destruct (Nat.le_gt_cases p (2 * m)) as [C|C]; [destruct (Nat.le_gt_cases (p + l) (2 * m)) as [C2|C2]|].
    1, 3: destruct (pd_level p l (k - 2)) as (t & a & L & Ha & Hb); [lia|exact Hl|exact Hp| |apply (pd_small p l t a); auto; lia];
      intros b Hb; replace (2 ^ (k - 2)) with (2 * m) in Hb by (unfold m; rewrite <- Nat.pow_succ_r'; f_equal; lia);
      destruct b as [|[|b]]; nia.
    apply (pd_hit p (p + 4 * m) l (6 * m)); auto; try lia. intros x Hx. apply (pd_cong _ _ (k - 1) 1); [lia|lia| |];
      replace (2 ^ (k - 1)) with (4 * m) by (unfold m; replace (k - 1) with (S (S (k - 3))) by lia; rewrite !Nat.pow_succ_r'; lia); [lia|].
    intros a Ea. destruct a as [|a]; nia.
  - (* inside [3m+1, 6m-1] *)
    destruct (Nat.le_gt_cases p (4 * m)) as [C|C]; [destruct (Nat.le_gt_cases (p + l) (4 * m)) as [C2|C2]|].
    1, 3: destruct (pd_level p l (k - 2)) as (t & a & L & Ha & Hb); [lia|exact Hl|exact Hp| |apply (pd_small p l t a); auto; lia];
      intros b Hb; replace (2 ^ (k - 2)) with (2 * m) in Hb by (unfold m; rewrite <- Nat.pow_succ_r'; f_equal; lia);
      destruct b as [|[|[|b]]]; nia.
    apply (pd_hit p (p - m) l (3 * m)); auto; try lia. intros x Hx.
    destruct (Nat.eq_dec (p + x) (4 * m)) as [E4|N4]; [|destruct (Nat.eq_dec (p + x) (5 * m)) as [E5|N5]].
    + rewrite (V (p + x) 4 2), (V (p - m + x) 3 0); [|lia|exists 1; reflexivity|lia|lia|exists 0; reflexivity|lia]. reflexivity.
    + rewrite (V (p + x) 5 0), (V (p - m + x) 4 2); [|lia|exists 0; reflexivity|lia|lia|exists 2; reflexivity|lia]. reflexivity.
    + symmetry. apply (pd_cong _ _ (k - 3) 1); fold m; [lia|lia|lia|].
      intros a Ea. assert (a < 5) by nia. assert (2 < a + 0) by nia. assert (a = 3 \/ a = 4) as [-> | ->] by lia; lia.
  - (* inside [6m+1, 8m] *)
    destruct (Nat.le_gt_cases (p + l) (8 * m)) as [C2|C2].
    { destruct (pd_level p l (k - 2)) as (t & a & L & Ha & Hb); [lia|exact Hl|exact Hp| |apply (pd_small p l t a); auto; lia].
      intros b Hb; replace (2 ^ (k - 2)) with (2 * m) in Hb by (unfold m; rewrite <- Nat.pow_succ_r'; f_equal; lia).
      destruct b as [|[|[|[|b]]]]; nia. }
    apply (pd_hit p (p - 2 * m) l (6 * m)); auto; try lia. intros x Hx.
    destruct (Nat.eq_dec (p + x) (8 * m)) as [E4|N4]; [|destruct (Nat.eq_dec (p + x) (7 * m)) as [E5|N5]].
    + rewrite (V (p + x) 8 3), (V (p - 2 * m + x) 6 1); [|lia|exists 1; reflexivity|lia|lia|exists 0; reflexivity|lia].
      change (3 + (k - 3)) with (S (S (1 + (k - 3)))). reflexivity.
    + rewrite (V (p + x) 7 0), (V (p - 2 * m + x) 5 0); [|lia|exists 2; reflexivity|lia|lia|exists 3; reflexivity|lia]. reflexivity.
    + symmetry. apply (pd_cong _ _ (k - 3) 2); fold m; [lia|lia|lia|].
      intros a Ea. assert (a < 6) by nia. assert (4 < a + 0) by nia. assert (a = 5) as -> by lia. lia.
Qed.
Theorem pd_attractor : string_attractor w [3 * m - 1; 6 * m - 1].
Proof.
  intros i l Hl Hi. destruct (pd_attr_1 (i + 1) l) as (j & a & HS & HA); [exact Hl|lia|lia|].
  exists j, a. replace (i + 1 - 1) with i in HS by lia. auto.
Qed.
End PD.
