(** LzMorph2.v : the LZ77 factorizations of the paperfolding words. *)
From Coq Require Import PArith Pnat.
From Verif Require Import Base SpecStr SpecWord SpecLz ModelLz LzMorph.

(** the paperfolding sequence, by the binary digits of the position + 1 *)
Fixpoint pf_pos (p : positive) : nat :=
  match p with xO q => pf_pos q | xH => 49 | xI xH => 48 | xI (xO _) => 49 | xI (xI _) => 48 end.
Definition pf (i : nat) : nat := pf_pos (Pos.of_succ_nat i).
Lemma pf_odd i : pf (2 * i + 1) = pf i.
Proof.
  unfold pf. assert (E : Pos.of_succ_nat (2 * i + 1) = xO (Pos.of_succ_nat i)); [|rewrite E; reflexivity].
  apply Pos2Nat.inj. rewrite Pos2Nat.inj_xO, !SuccNat2Pos.id_succ. lia.
Qed.
Lemma pf_even i : pf (2 * i) = if Nat.even i then 49 else 48.
Proof.
  unfold pf. destruct (parity_case i) as [(m & ->)|(m & ->)].
  - rewrite Nat.even_mul. cbn [Nat.even orb]. destruct m as [|m]; [reflexivity|].
    assert (E : Pos.of_succ_nat (2 * (2 * S m)) = xI (xO (Pos.of_nat (S m)))); [|rewrite E; reflexivity].
    apply Pos2Nat.inj. rewrite Pos2Nat.inj_xI, Pos2Nat.inj_xO, SuccNat2Pos.id_succ, Nat2Pos.id by lia. lia.
  - rewrite Nat.even_add, Nat.even_mul. cbn [Nat.even orb eqb]. destruct m as [|m]; [reflexivity|].
    assert (E : Pos.of_succ_nat (2 * (2 * S m + 1)) = xI (xI (Pos.of_nat (S m)))); [|rewrite E; reflexivity].
    apply Pos2Nat.inj. rewrite !Pos2Nat.inj_xI, SuccNat2Pos.id_succ, Nat2Pos.id by lia. lia.
Qed.
Lemma pf_cases i : pf i = 49 \/ pf i = 48.
Proof. unfold pf. generalize (Pos.of_succ_nat i). intros p. induction p as [[q|q|]|q IH|]; cbn; auto. Qed.
(** the quaternary sequence tells the parity, too *)
Definition qf (i : nat) : nat := if Nat.even i then (if pf i =? 49 then 100 else 99) else (if pf i =? 49 then 98 else 97).
Lemma qf_inv i j : qf i = qf j -> Nat.even i = Nat.even j /\ pf i = pf j.
Proof. unfold qf. destruct (pf_cases i) as [->| ->], (pf_cases j) as [->| ->], (Nat.even i), (Nat.even j); cbn; intros E; try discriminate; auto. Qed.
Lemma qf_eq i j : Nat.even i = Nat.even j -> pf i = pf j -> qf i = qf j.
Proof. unfold qf. intros -> ->. reflexivity. Qed.
Lemma qf_lpf_double i l : 1 <= l -> lpf qf i l -> lpf qf (2 * i + 1) (2 * l).
Proof.
  intros Hl ((j & Hj & O) & M). split.
  - exists (2 * j + 1). split; [lia|]. pose proof (O 0 ltac:(lia)) as O0. rewrite !Nat.add_0_r in O0. destruct (qf_inv _ _ O0) as (EV & _). intros x Hx.
    apply qf_eq; [rewrite !Nat.even_add, !Nat.even_mul; reflexivity|]. destruct (parity_case x) as [(y & ->)|(y & ->)].
    + replace (2 * j + 1 + 2 * y) with (2 * (j + y) + 1) by lia. replace (2 * i + 1 + 2 * y) with (2 * (i + y) + 1) by lia. rewrite !pf_odd. apply qf_inv, O. lia.
    + replace (2 * j + 1 + (2 * y + 1)) with (2 * (j + y + 1)) by lia. replace (2 * i + 1 + (2 * y + 1)) with (2 * (i + y + 1)) by lia. rewrite !pf_even, !Nat.even_add, EV. reflexivity.
  - intros j' Hj' O'. pose proof (O' 0 ltac:(lia)) as O0. rewrite !Nat.add_0_r in O0. destruct (qf_inv _ _ O0) as (EV & _). destruct (parity_case j') as [(m & ->)|(m & ->)].
    { rewrite Nat.even_add, !Nat.even_mul in EV. discriminate. }
    assert (E1 : Nat.even m = Nat.even i).
    { specialize (O' 1 ltac:(lia)). replace (2 * m + 1 + 1) with (2 * (m + 1)) in O' by lia. replace (2 * i + 1 + 1) with (2 * (i + 1)) in O' by lia.
      apply qf_inv in O'. destruct O' as (_ & O'). rewrite !pf_even, !Nat.even_add in O'. destruct (Nat.even m), (Nat.even i); try reflexivity; discriminate. }
    apply (M m ltac:(lia)). intros y Hy. apply qf_eq; [now rewrite !Nat.even_add, E1|].
    specialize (O' (2 * y) ltac:(lia)). apply qf_inv in O'. destruct O' as (_ & O'). replace (2 * m + 1 + 2 * y) with (2 * (m + y) + 1) in O' by lia.
    replace (2 * i + 1 + 2 * y) with (2 * (i + y) + 1) in O' by lia. rewrite !pf_odd in O'. exact O'.
Qed.
Lemma qf_lpf_pow i l j : 1 <= l -> lpf qf i l -> lpf qf ((i + 1) * 2 ^ j - 1) (l * 2 ^ j).
Proof.
  intros Hl H. induction j as [|j IH]; [rewrite !Nat.mul_1_r; now replace (i + 1 - 1) with i by lia|].
  assert (1 <= 2 ^ j) by (pose proof (Nat.pow_nonzero 2 j); lia).
  replace ((i + 1) * 2 ^ S j - 1) with (2 * ((i + 1) * 2 ^ j - 1) + 1) by (cbn [Nat.pow]; nia).
  replace (l * 2 ^ S j) with (2 * (l * 2 ^ j)) by (cbn [Nat.pow]; nia). apply qf_lpf_double; [nia|exact IH].
Qed.
(** long occurrences in the binary sequence keep the parity *)
Lemma pf_even_odd a b l : occ pf (2 * a) (2 * b + 1) l -> l <= 6.
Proof.
  intros H. destruct (Nat.le_gt_cases l 6) as [|G]; [assumption|exfalso].
  assert (A : forall y, y <= 3 -> pf (b + y) = if Nat.even (a + y) then 49 else 48).
  { intros y Hy. specialize (H (2 * y) ltac:(lia)). replace (2 * a + 2 * y) with (2 * (a + y)) in H by lia.
    replace (2 * b + 1 + 2 * y) with (2 * (b + y) + 1) in H by lia. rewrite pf_even, pf_odd in H. congruence. }
  assert (C : forall c, pf (2 * c) <> pf (2 * (c + 1))).
  { intros c. rewrite !pf_even, Nat.even_add. cbn [Nat.even]. destruct (Nat.even c); discriminate. }
  destruct (parity_case b) as [(c & ->)|(c & ->)].
  - apply (C c). pose proof (A 0 ltac:(lia)) as A0. pose proof (A 2 ltac:(lia)) as A2. rewrite Nat.even_add in A0, A2. cbn [Nat.even] in A0, A2.
    replace (2 * c + 0) with (2 * c) in A0 by lia. replace (2 * c + 2) with (2 * (c + 1)) in A2 by lia. rewrite A0, A2. reflexivity.
  - apply (C (c + 1)). pose proof (A 1 ltac:(lia)) as A0. pose proof (A 3 ltac:(lia)) as A2. rewrite Nat.even_add in A0, A2. cbn [Nat.even] in A0, A2.
    replace (2 * c + 1 + 1) with (2 * (c + 1)) in A0 by lia. replace (2 * c + 1 + 3) with (2 * (c + 1 + 1)) in A2 by lia. rewrite A0, A2. reflexivity.
Qed.
Lemma pf_parity j i l : 7 <= l -> occ pf j i l -> Nat.even j = Nat.even i.
Proof.
  intros Hl O. destruct (parity_case j) as [(a & ->)|(a & ->)], (parity_case i) as [(b & ->)|(b & ->)]; rewrite ?Nat.even_add, !Nat.even_mul; try reflexivity; exfalso.
  - apply pf_even_odd in O. lia.
  - assert (O' : occ pf (2 * b) (2 * a + 1) l) by (intros x Hx; symmetry; now apply O). apply pf_even_odd in O'. lia.
Qed.
Lemma pf_lpf i l : 6 <= l -> lpf qf i l -> lpf pf i l.
Proof.
  intros Hl ((j & Hj & O) & M). split; [exists j; split; [exact Hj|]; intros x Hx; apply qf_inv, O, Hx|].
  intros j' Hj' O'. apply (M j' Hj'). intros x Hx. apply qf_eq; [|now apply O'].
  rewrite !Nat.even_add, (pf_parity j' i (l + 1)); [reflexivity|lia|exact O'].
Qed.

Definition qf_lengths (k : nat) : list nat :=
  [0; 0; 0; 1; 1; 0; 3; 2; 1] ++ flat_map (fun j => [7 * 2 ^ j; 4 * 2 ^ j; 2 * 2 ^ j]) (seq 0 (k - 4)) ++ [3 * 2 ^ (k - 4) + 1].
(** from the positions (a1, a2, a3) 2^j - 1 with lengths (l1, l2, l3) 2^j on *)
Lemma three_lens t s k a1 l1 l2 l3 n : agrees t s -> 1 <= l1 -> 1 <= l2 -> 1 <= l3 -> a1 + l1 + l2 + l3 = 2 * a1 -> a1 <= n -> n <= a1 + l1 -> length t = n * 2 ^ k ->
  (forall j, lpf s (a1 * 2 ^ j - 1) (l1 * 2 ^ j)) -> (forall j, lpf s ((a1 + l1) * 2 ^ j - 1) (l2 * 2 ^ j)) -> (forall j, lpf s ((a1 + l1 + l2) * 2 ^ j - 1) (l3 * 2 ^ j)) ->
  (n - a1) * 2 ^ k + 1 <= l1 * 2 ^ k ->
  forall d j, j + d = k -> lens t (a1 * 2 ^ j - 1) (flat_map (fun j => [l1 * 2 ^ j; l2 * 2 ^ j; l3 * 2 ^ j]) (seq j d) ++ [(n - a1) * 2 ^ k + 1]).
Proof.
  intros A H1 H2 H3 E3 N1 N2 L B1 B2 B3 HR. assert (P : forall j, 1 <= 2 ^ j) by (intros j; pose proof (Nat.pow_nonzero 2 j); lia).
  induction d as [|d IH]; intros j E.
  - cbn [seq flat_map app]. rewrite Nat.add_0_r in E. subst j. specialize (P k).
    assert (T : a1 * 2 ^ k - 1 + ((n - a1) * 2 ^ k + 1) = length t) by (rewrite L, Nat.mul_sub_distr_r; nia).
    apply (lens_copy t s _ (l1 * 2 ^ k)); [exact A|apply B1|apply Nat.le_add_l|right; split; [exact T|exact HR]|]. apply lens_end. exact T.
  - cbn [seq flat_map app]. assert (Q : 2 * 2 ^ j <= 2 ^ k) by (change (2 * 2 ^ j) with (2 ^ S j); apply Nat.pow_le_mono_r; lia). specialize (P j).
    assert (T : 2 * a1 * 2 ^ j <= length t) by (rewrite L; replace (2 * a1 * 2 ^ j) with (a1 * (2 * 2 ^ j)) by lia; now apply Nat.mul_le_mono).
    assert (T3 : (a1 + l1 + l2 + l3) * 2 ^ j = 2 * a1 * 2 ^ j) by (rewrite E3; reflexivity).
    apply (lens_copy t s _ (l1 * 2 ^ j)); [exact A|apply B1|nia|left; split; [reflexivity|nia]|]. replace (a1 * 2 ^ j - 1 + l1 * 2 ^ j) with ((a1 + l1) * 2 ^ j - 1) by nia.
    apply (lens_copy t s _ (l2 * 2 ^ j)); [exact A|apply B2|nia|left; split; [reflexivity|nia]|]. replace ((a1 + l1) * 2 ^ j - 1 + l2 * 2 ^ j) with ((a1 + l1 + l2) * 2 ^ j - 1) by nia.
    apply (lens_copy t s _ (l3 * 2 ^ j)); [exact A|apply B3|nia|left; split; [reflexivity|nia]|].
    replace ((a1 + l1 + l2) * 2 ^ j - 1 + l3 * 2 ^ j) with (a1 * 2 ^ S j - 1) by (cbn [Nat.pow]; nia). apply IH. lia.
Qed.
Ltac copied s A l := apply (lens_copy _ s _ l); [exact A|apply lpfb_ok; vm_compute; reflexivity|lia|left; lia|].
Ltac literal s A := apply (lens_lit _ s); [exact A|lia|intros jj Hjj; repeat (destruct jj as [|jj]; [vm_compute; discriminate|]); lia|].
Theorem qf_lz77 t k : agrees t qf -> length t = 2 ^ (k + 4) -> lens t 0 (qf_lengths (k + 4)).
Proof.
  intros A L. rewrite Nat.pow_add_r in L. change (2 ^ 4) with 16 in L. rewrite Nat.mul_comm in L. unfold qf_lengths. replace (k + 4 - 4) with k by lia.
  assert (1 <= 2 ^ k) by (pose proof (Nat.pow_nonzero 2 k); lia). cbn [app].
  literal qf A. literal qf A. literal qf A. copied qf A 1. copied qf A 1. literal qf A. copied qf A 3. copied qf A 2. copied qf A 1.
  assert (B1 : lpf qf 12 7) by (apply lpfb_ok; vm_compute; reflexivity). assert (B2 : lpf qf 19 4) by (apply lpfb_ok; vm_compute; reflexivity).
  assert (B3 : lpf qf 23 2) by (apply lpfb_ok; vm_compute; reflexivity).
  apply (three_lens t qf k 13 7 4 2 16) with (d := k) (j := 0); try lia; try assumption; intros j.
  - apply (qf_lpf_pow 12 7); [lia|exact B1].
  - apply (qf_lpf_pow 19 4); [lia|exact B2].
  - apply (qf_lpf_pow 23 2); [lia|exact B3].
Qed.
Definition pf_lengths (k : nat) : list nat :=
  [0; 1; 0; 3; 3; 4; 6; 4; 6; 10; 8; 4] ++ flat_map (fun j => [28 * 2 ^ j; 16 * 2 ^ j; 8 * 2 ^ j]) (seq 0 (k - 5)) ++ [12 * 2 ^ (k - 5) + 1].
Theorem pf_lz77 t k : agrees t pf -> length t = 2 ^ (k + 6) -> lens t 0 (pf_lengths (k + 5)).
Proof.
  intros A L. rewrite Nat.pow_add_r in L. change (2 ^ 6) with 64 in L. rewrite Nat.mul_comm in L. unfold pf_lengths. replace (k + 5 - 5) with k by lia.
  assert (P : forall j, 1 <= 2 ^ j) by (intros j; pose proof (Nat.pow_nonzero 2 j); lia). pose proof (P k). cbn [app].
  literal pf A. copied pf A 1. literal pf A. copied pf A 3. copied pf A 3. copied pf A 4. copied pf A 6. copied pf A 4. copied pf A 6. copied pf A 10. copied pf A 8. copied pf A 4.
  assert (B1 : lpf qf 51 28) by (apply lpfb_ok; vm_compute; reflexivity). assert (B2 : lpf qf 79 16) by (apply lpfb_ok; vm_compute; reflexivity).
  assert (B3 : lpf qf 95 8) by (apply lpfb_ok; vm_compute; reflexivity).
  apply (three_lens t pf k 52 28 16 8 64) with (d := k) (j := 0); try lia; try assumption; intros j; specialize (P j).
  - apply pf_lpf; [lia|]. apply (qf_lpf_pow 51 28); [lia|exact B1].
  - apply pf_lpf; [lia|]. apply (qf_lpf_pow 79 16); [lia|exact B2].
  - apply pf_lpf; [lia|]. apply (qf_lpf_pow 95 8); [lia|exact B3].
Qed.
