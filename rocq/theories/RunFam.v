(** RunFam.v : the number of maximal runs of equal letters of the words of src/word.rs (C124) *)
From Verif Require Import Base SpecStr SpecIo SpecWord LexFacts RunFacts ModelWord WordProof WordProof2 WordProof3 WordProof4 FibFacts LynMorph LynFam LynFam5 TextRuns.
From Coq Require Import NArith.

Definition rho (w : str) : nat := length (runs w).
Lemma rho_cons a b w : rho (a :: b :: w) = rho (b :: w) + (if b =? a then 0 else 1).
Proof. apply runs_cons. Qed.
(** joining two words *)
Lemma rho_join u v : u <> [] -> v <> [] -> rho (u ++ v) + (if hd 0 v =? last u 0 then 1 else 0) = rho u + rho v.
Proof.
  intros Hu Hv. induction u as [|a u IH]; [congruence|]. destruct u as [|b u].
  - destruct v as [|c v]; [congruence|]. cbn [app hd last]. rewrite rho_cons. change (rho [a]) with 1. destruct (c =? a); lia.
  - specialize (IH ltac:(discriminate)). change (last (a :: b :: u) 0) with (last (b :: u) 0). cbn [app] in *. rewrite !rho_cons. lia.
Qed.
Section Morph.
  Context (h : nat -> str) (A : nat -> Prop) (Hne : forall c, A c -> h c <> []).
  Lemma rho_morph a b w : Forall A (a :: b :: w) ->
    rho (flat_map h (a :: b :: w)) + (if hd 0 (h b) =? last (h a) 0 then 1 else 0) = rho (h a) + rho (flat_map h (b :: w)).
  Proof.
    intros H. inversion H as [|? ? Ha H']; subst. inversion H' as [|? ? Hb _]; subst. specialize (Hne a Ha) as Na. specialize (Hne b Hb) as Nb.
    change (flat_map h (a :: b :: w)) with (h a ++ flat_map h (b :: w)).
    assert (Nf : flat_map h (b :: w) <> []) by (cbn [flat_map]; destruct (h b); [congruence|discriminate]).
    rewrite <- (rho_join (h a) (flat_map h (b :: w)) Na Nf). f_equal.
    assert (Eh : hd 0 (flat_map h (b :: w)) = hd 0 (h b)) by (cbn [flat_map]; destruct (h b); [congruence|reflexivity]). now rewrite Eh.
  Qed.
End Morph.
Definition cnt (w : str) (c : nat) : nat := count_occ Nat.eq_dec w c.
Lemma cnt_cons a w c : cnt (a :: w) c = cnt w c + (if a =? c then 1 else 0).
Proof. unfold cnt. cbn [count_occ]. destruct (Nat.eq_dec a c), (Nat.eqb_spec a c); congruence || lia. Qed.
Lemma last_cons2 (a b : nat) w : last (a :: b :: w) 0 = last (b :: w) 0. Proof. reflexivity. Qed.

(** Thue-Morse *)
Lemma tmm_ne c : ab c -> thuemorse_morphism c <> []. Proof. intros [-> | ->]; discriminate. Qed.
Lemma tm_step w : w <> [] -> Forall ab w -> rho (flat_map thuemorse_morphism w) + rho w = 2 * length w + 1.
Proof.
  induction w as [|a w IH]; intros N F; [congruence|]. destruct w as [|b w].
  - inversion F as [|? ? [-> | ->] _]; subst; reflexivity.
  - pose proof (rho_morph thuemorse_morphism ab tmm_ne a b w F) as J. rewrite rho_cons. inversion F as [|? ? Ha F']; subst.
    specialize (IH ltac:(discriminate) F'). inversion F' as [|? ? Hb _]; subst.
    change (length (a :: b :: w)) with (S (length (b :: w))).
    destruct Ha as [-> | ->], Hb as [-> | ->]; cbn in J |- *; cbn in IH; cbn [Nat.eqb] in *; lia.
Qed.
Lemma ab_flat (h : nat -> str) w : (forall c, Forall ab (h c)) -> Forall ab (flat_map h w).
Proof. intros H. induction w as [|c w IH]; [constructor|]. cbn [flat_map]. apply Forall_app. split; [apply H|exact IH]. Qed.
Lemma ab_iter (h : nat -> str) w k : (forall c, Forall ab (h c)) -> Forall ab w -> Forall ab (iter_morphism h k w).
Proof. intros H Hw. destruct k as [|k]; [exact Hw|]. rewrite iter_S. now apply ab_flat. Qed.
Lemma tmm_ab c : Forall ab (thuemorse_morphism c).
Proof. unfold thuemorse_morphism. destruct (c =? 97); repeat (apply Forall_cons; [unfold ab; tauto|]); constructor. Qed.
Lemma u2_ne h k c : uniform2 h -> iter_morphism h k [c] <> [].
Proof. intros U E. pose proof (u2_iter_length h k c U) as L. rewrite E in L. cbn [length] in L. pose proof (LynFam5.pow_pos k). lia. Qed.
Lemma even_S k : Nat.even (S k) = negb (Nat.even k).
Proof. rewrite Nat.even_succ. now rewrite <- Nat.negb_even. Qed.
Lemma rho_tm k : 3 * rho (iter_morphism thuemorse_morphism k [97]) = 2 ^ S k + (if Nat.even k then 1 else 2).
Proof.
  induction k as [|k IH]; [reflexivity|]. rewrite iter_S.
  pose proof (tm_step (iter_morphism thuemorse_morphism k [97]) (u2_ne _ k 97 tmh_u2) (ab_iter _ [97] k tmm_ab ltac:(repeat constructor; unfold ab; tauto))) as J.
  rewrite (u2_iter_length _ _ _ tmh_u2) in J. rewrite even_S. cbn [Nat.pow] in *. destruct (Nat.even k); cbn [negb]; lia.
Qed.

(** period doubling: 2 #a + [the last letter is b] *)
Definition isb (c : nat) : nat := if c =? 98 then 1 else 0.
Lemma pdm_ne c : ab c -> period_doubling_morphism c <> []. Proof. intros [-> | ->]; discriminate. Qed.
Lemma pdm_ab c : Forall ab (period_doubling_morphism c).
Proof. unfold period_doubling_morphism. destruct (c =? 97); repeat (apply Forall_cons; [unfold ab; tauto|]); constructor. Qed.
Lemma pd_step w : w <> [] -> Forall ab w -> rho (flat_map period_doubling_morphism w) = 2 * cnt w 97 + isb (last w 0).
Proof.
  induction w as [|a w IH]; intros N F; [congruence|]. destruct w as [|b w].
  - inversion F as [|? ? [-> | ->] _]; subst; reflexivity.
  - pose proof (rho_morph period_doubling_morphism ab pdm_ne a b w F) as J. rewrite last_cons2, cnt_cons. inversion F as [|? ? Ha F']; subst.
    specialize (IH ltac:(discriminate) F'). inversion F' as [|? ? Hb _]; subst. revert J IH. set (l := b :: w).
    generalize (rho (flat_map period_doubling_morphism (a :: l))), (rho (flat_map period_doubling_morphism l)), (cnt l 97), (isb (last l 0)).
    intros x y z t. destruct Ha as [-> | ->], Hb as [-> | ->]; cbn; lia.
Qed.
Lemma pd_a w : Forall ab w -> cnt (flat_map period_doubling_morphism w) 97 + cnt w 97 = 2 * length w.
Proof.
  induction 1 as [|c w [-> | ->] F IH]; [reflexivity| |]; cbn [flat_map]; unfold period_doubling_morphism at 1; cbn [Nat.eqb app]; rewrite !cnt_cons; cbn [length Nat.eqb]; lia.
Qed.
Lemma last_app2 (u v : str) : v <> [] -> last (u ++ v) 0 = last v 0.
Proof. intros H. destruct (exists_last H) as (q & x & ->). rewrite app_assoc, !last_last. reflexivity. Qed.
Lemma last_flat h (w : str) : w <> [] -> h (last w 0) <> [] -> last (flat_map h w) 0 = last (h (last w 0)) 0.
Proof.
  intros N H. destruct (exists_last N) as (q & x & ->). rewrite last_last in *. rewrite flat_map_app. cbn [flat_map]. rewrite app_nil_r. now apply last_app2.
Qed.
Lemma pd_last k : last (iter_morphism period_doubling_morphism k [97]) 0 = if Nat.even k then 97 else 98.
Proof.
  induction k as [|k IH]; [reflexivity|]. rewrite iter_S, even_S.
  rewrite last_flat; [rewrite IH; destruct (Nat.even k); reflexivity|apply u2_ne, pdh_u2|rewrite IH; destruct (Nat.even k); discriminate].
Qed.
Lemma pd_cnt k : 3 * cnt (iter_morphism period_doubling_morphism k [97]) 97 = 2 ^ S k + (if Nat.even k then 1 else 0) - (if Nat.even k then 0 else 1).
Proof.
  induction k as [|k IH]; [reflexivity|]. rewrite iter_S.
  pose proof (pd_a (iter_morphism period_doubling_morphism k [97]) (ab_iter _ [97] k pdm_ab ltac:(repeat constructor; unfold ab; tauto))) as J.
  rewrite (u2_iter_length _ _ _ pdh_u2) in J. rewrite even_S. cbn [Nat.pow] in *. pose proof (LynFam5.pow_pos k). destruct (Nat.even k); cbn [negb]; lia.
Qed.
Lemma rho_pd k : 3 * rho (iter_morphism period_doubling_morphism k [97]) = 2 ^ S k + (if Nat.even k then 1 else 2).
Proof.
  destruct k as [|k]; [reflexivity|]. rewrite iter_S, pd_step by first [apply u2_ne, pdh_u2|apply ab_iter; [apply pdm_ab|repeat constructor; unfold ab; tauto]].
  rewrite pd_last. pose proof (pd_cnt k). pose proof (LynFam5.pow_pos k). rewrite even_S. cbn [Nat.pow] in *. destruct (Nat.even k); unfold isb; cbn [negb Nat.eqb]; cbn; lia.
Qed.

(** Fibonacci *)
Lemma fw_shape k : (exists r, fib_word k = 97 :: r) /\ last (fib_word k) 0 = (if Nat.even k then 97 else 98).
Proof.
  enough (G : forall k, ((exists r, fib_word k = 97 :: r) /\ last (fib_word k) 0 = (if Nat.even k then 97 else 98)) /\
    ((exists r, fib_word (S k) = 97 :: r) /\ last (fib_word (S k)) 0 = (if Nat.even (S k) then 97 else 98))) by apply G.
  clear k. induction k as [|k (IH1 & IH2)]; [split; (split; [eexists; reflexivity|reflexivity])|]. split; [exact IH2|].
  destruct IH1 as ((r1 & E1) & L1), IH2 as ((r2 & E2) & L2). rewrite F_SS. split.
  - rewrite E2. cbn [app]. eexists. reflexivity.
  - rewrite last_app2 by (rewrite E1; discriminate). rewrite L1. rewrite !even_S. now destruct (Nat.even k).
Qed.
Lemma hd_of (w : str) a r : w = a :: r -> hd 0 w = a. Proof. now intros ->. Qed.
Lemma rho_fib k : rho (fib_word k) = 2 * N.to_nat (fib k) + (if Nat.even k then 1 else 0).
Proof.
  enough (G : forall k, rho (fib_word k) = 2 * N.to_nat (fib k) + (if Nat.even k then 1 else 0) /\
    rho (fib_word (S k)) = 2 * N.to_nat (fib (S k)) + (if Nat.even (S k) then 1 else 0)) by apply G.
  clear k. induction k as [|k (IH1 & IH2)]; [split; reflexivity|]. split; [exact IH2|].
  rewrite F_SS. destruct (fw_shape k) as ((r1 & E1) & _), (fw_shape (S k)) as ((r2 & E2) & L2).
  pose proof (rho_join (fib_word (S k)) (fib_word k) ltac:(rewrite E2; discriminate) ltac:(rewrite E1; discriminate)) as J.
  rewrite (hd_of _ _ _ E1), L2, IH1, IH2 in J. change (fib (S (S k))) with (fib (S k) + fib k)%N. rewrite !even_S in *.
  destruct (Nat.even k); cbn [negb Nat.eqb] in *; [change (97 =? 98) with false in J|change (97 =? 97) with true in J]; cbv iota in J; lia.
Qed.
(** the Lyndon factors of the Fibonacci words *)
Lemma lfm_ne c : ab c -> fibonacci_lyndonfactor_morphism c <> []. Proof. intros [-> | ->]; discriminate. Qed.
Lemma lfm_step w : w <> [] -> Forall ab w -> rho (flat_map fibonacci_lyndonfactor_morphism w) = 2 * length w.
Proof.
  induction w as [|a w IH]; intros N F; [congruence|]. destruct w as [|b w].
  - inversion F as [|? ? [-> | ->] _]; subst; reflexivity.
  - pose proof (rho_morph fibonacci_lyndonfactor_morphism ab lfm_ne a b w F) as J. inversion F as [|? ? Ha F']; subst.
    specialize (IH ltac:(discriminate) F'). inversion F' as [|? ? Hb _]; subst. change (length (a :: b :: w)) with (S (length (b :: w))). revert J IH. set (l := b :: w).
    generalize (rho (flat_map fibonacci_lyndonfactor_morphism (a :: l))), (rho (flat_map fibonacci_lyndonfactor_morphism l)), (length l).
    intros x y z. destruct Ha as [-> | ->], Hb as [-> | ->]; cbn; lia.
Qed.
Lemma lw_ab k : Forall ab (lw k).
Proof. unfold lw. apply ab_iter; [intros c; apply lfm_ab|repeat constructor; unfold ab; tauto]. Qed.
Lemma rho_lw k : rho (lw k) = 2 * N.to_nat (fib (2 * k + 1)).
Proof.
  destruct k as [|k]; [reflexivity|]. unfold lw. rewrite iter_S. fold (lw k).
  assert (NE : lw k <> []). { intros E. pose proof (lw_len k) as L. rewrite E in L. pose proof (f_pos (2 * k + 1)) as P. unfold f in P. cbn [length] in L. lia. }
  rewrite (lfm_step _ NE (lw_ab k)).
  rewrite lw_len. pose proof (fib_word_length (2 * k + 1)) as L. replace (2 * S k + 1) with (2 * k + 1 + 2) by lia. rewrite <- L. lia.
Qed.

(** tribonacci *)
Lemma tw_shape k : (exists r, trib_word k = 97 :: r) /\ last (trib_word k) 0 = 97 + k mod 3.
Proof.
  enough (G : forall k, let P k := (exists r, trib_word k = 97 :: r) /\ last (trib_word k) 0 = 97 + k mod 3 in P k /\ P (S k) /\ P (S (S k))) by apply (G k).
  clear k. intros k P. unfold P; clear P. induction k as [|k (IH1 & IH2 & IH3)]; [split; [|split]; (split; [eexists; reflexivity|reflexivity])|]. split; [exact IH2|]. split; [exact IH3|].
  destruct IH1 as ((r1 & E1) & L1), IH2 as ((r2 & E2) & L2), IH3 as ((r3 & E3) & L3). rewrite trib_word_SSS. split.
  - rewrite E3. cbn [app]. eexists. reflexivity.
  - rewrite app_assoc, last_app2 by (rewrite E1; discriminate). rewrite L1. f_equal. replace (S (S (S k))) with (k + 1 * 3) by lia. now rewrite Nat.mod_add by lia.
Qed.
Lemma rho_trib3 k : rho (trib_word (S (S (S k)))) + (if k mod 3 =? 0 then 0 else 1) = rho (trib_word (S (S k))) + rho (trib_word (S k)) + rho (trib_word k).
Proof.
  rewrite trib_word_SSS. destruct (tw_shape k) as ((r1 & E1) & _), (tw_shape (S k)) as ((r2 & E2) & L2), (tw_shape (S (S k))) as ((r3 & E3) & L3).
  assert (N1 : trib_word k <> []) by (rewrite E1; discriminate). assert (N2 : trib_word (S k) <> []) by (rewrite E2; discriminate). assert (N3 : trib_word (S (S k)) <> []) by (rewrite E3; discriminate).
  pose proof (rho_join (trib_word (S k)) (trib_word k) N2 N1) as J1. rewrite (hd_of _ _ _ E1), L2 in J1.
  assert (H12 : hd 0 (trib_word (S k) ++ trib_word k) = 97) by (rewrite E2; reflexivity).
  assert (N12 : trib_word (S k) ++ trib_word k <> []) by (rewrite E2; discriminate).
  pose proof (rho_join (trib_word (S (S k))) (trib_word (S k) ++ trib_word k) N3 N12) as J2. rewrite H12, L3 in J2.
  pose proof (Nat.div_mod k 3 ltac:(lia)) as DM. pose proof (Nat.mod_upper_bound k 3 ltac:(lia)) as MB.
  assert (K : k mod 3 = 0 \/ k mod 3 = 1 \/ k mod 3 = 2) by lia.
  assert (M1 : S k mod 3 = match k mod 3 with 0 => 1 | 1 => 2 | _ => 0 end).
  { destruct K as [K|[K|K]]; rewrite K in *; [symmetry; apply (Nat.mod_unique _ 3 (k / 3))|symmetry; apply (Nat.mod_unique _ 3 (k / 3))|symmetry; apply (Nat.mod_unique _ 3 (k / 3 + 1))]; lia. }
  assert (M2 : S (S k) mod 3 = match k mod 3 with 0 => 2 | 1 => 0 | _ => 1 end).
  { destruct K as [K|[K|K]]; rewrite K in *; [symmetry; apply (Nat.mod_unique _ 3 (k / 3))|symmetry; apply (Nat.mod_unique _ 3 (k / 3 + 1))|symmetry; apply (Nat.mod_unique _ 3 (k / 3 + 1))]; lia. }
  rewrite M1 in J1. rewrite M2 in J2. destruct K as [K|[K|K]]; rewrite K in *; cbn in J1, J2 |- *; lia.
Qed.
Definition trib_runs (k : nat) : nat := if k <? 4 then N.to_nat (trib k) else N.to_nat (trib k) - N.to_nat (trib (k - 4)) + (if k mod 3 =? 0 then 1 else 0).
Lemma trib_S3 k : trib (S (S (S k))) = (trib (S (S k)) + trib (S k) + trib k)%N. Proof. reflexivity. Qed.
Lemma trib_up k : (trib k <= trib (S k))%N /\ (trib (S k) <= trib (S (S k)))%N.
Proof. induction k as [|k (I1 & I2)]; [split; cbn; lia|]. split; [exact I2|]. rewrite trib_S3. lia. Qed.
Lemma rho_trib4 k : rho (trib_word (k + 4)) + N.to_nat (trib k) = N.to_nat (trib (k + 4)) + (if (k + 4) mod 3 =? 0 then 1 else 0).
Proof.
  enough (G : forall k, let P k := rho (trib_word (k + 4)) + N.to_nat (trib k) = N.to_nat (trib (k + 4)) + (if (k + 4) mod 3 =? 0 then 1 else 0) in P k /\ P (S k) /\ P (S (S k))) by apply (G k).
  clear k. intros k P. unfold P; clear P. induction k as [|k (IH1 & IH2 & IH3)]; [split; [|split]; vm_compute; reflexivity|]. split; [exact IH2|]. split; [exact IH3|].
  pose proof (rho_trib3 (k + 4)) as J. change (S (S (S k)) + 4) with (S (S (S (k + 4)))). change (S (S k) + 4) with (S (S (k + 4))) in *. change (S k + 4) with (S (k + 4)) in *.
  rewrite (trib_S3 (k + 4)), (trib_S3 k). generalize dependent (k + 4). intros m IH1 IH2 IH3 J.
  pose proof (Nat.div_mod m 3 ltac:(lia)) as DM. pose proof (Nat.mod_upper_bound m 3 ltac:(lia)) as MB.
  assert (K : m mod 3 = 0 \/ m mod 3 = 1 \/ m mod 3 = 2) by lia.
  assert (M1 : S m mod 3 = match m mod 3 with 0 => 1 | 1 => 2 | _ => 0 end).
  { destruct K as [K|[K|K]]; rewrite K in *; [symmetry; apply (Nat.mod_unique _ 3 (m / 3))|symmetry; apply (Nat.mod_unique _ 3 (m / 3))|symmetry; apply (Nat.mod_unique _ 3 (m / 3 + 1))]; lia. }
  assert (M2 : S (S m) mod 3 = match m mod 3 with 0 => 2 | 1 => 0 | _ => 1 end).
  { destruct K as [K|[K|K]]; rewrite K in *; [symmetry; apply (Nat.mod_unique _ 3 (m / 3))|symmetry; apply (Nat.mod_unique _ 3 (m / 3 + 1))|symmetry; apply (Nat.mod_unique _ 3 (m / 3 + 1))]; lia. }
  assert (M3 : S (S (S m)) mod 3 = m mod 3) by (replace (S (S (S m))) with (m + 1 * 3) by lia; now rewrite Nat.mod_add by lia).
  rewrite M1 in *. rewrite M2 in *. rewrite M3. destruct K as [K|[K|K]]; rewrite K in *; cbn [Nat.eqb] in *; lia.
Qed.
Lemma trib_le k j : (trib k <= trib (k + j))%N.
Proof. induction j as [|j IH]; [rewrite Nat.add_0_r; lia|]. rewrite Nat.add_succ_r. pose proof (proj1 (trib_up (k + j))). lia. Qed.
Lemma rho_trib k : rho (trib_word k) = trib_runs k.
Proof.
  unfold trib_runs. destruct (Nat.ltb_spec k 4) as [C|C].
  - assert (K : k = 0 \/ k = 1 \/ k = 2 \/ k = 3) by lia. destruct K as [->|[->|[->| ->]]]; vm_compute; reflexivity.
  - destruct (k - 4) as [|j] eqn:E; [assert (k = 4) by lia; subst k; vm_compute; reflexivity|].
    pose proof (rho_trib4 (S j)) as J. replace (S j + 4) with k in J by lia. pose proof (trib_le (S j) 4) as U. replace (S j + 4) with k in U by lia. lia.
Qed.

(** no two equal letters side by side *)
Lemma rho_square_free w : w <> [] -> square_free w -> rho w = length w.
Proof.
  induction w as [|a w IH]; intros N H; [congruence|]. destruct w as [|b w]; [reflexivity|]. rewrite rho_cons, IH; [|discriminate|].
  - destruct (Nat.eqb_spec b a) as [->|D]; [|cbn [length]; lia]. specialize (H [] [a] w eq_refl). discriminate H.
  - intros u x v E. apply (H (a :: u) x v). cbn [app]. now f_equal.
Qed.
Definition vm := vtm_morphism.
Definition abc3 (c : nat) : Prop := c = 97 \/ c = 98 \/ c = 99.
Lemma vm_counts w : Forall abc3 w -> Forall abc3 (flat_map vm w) /\ cnt (flat_map vm w) 97 = cnt w 97 + cnt w 98 /\
  cnt (flat_map vm w) 98 = cnt w 97 + cnt w 99 /\ cnt (flat_map vm w) 99 = cnt w 97 + cnt w 98 /\ length w = cnt w 97 + cnt w 98 + cnt w 99.
Proof.
  induction 1 as [|c w C F (I1 & I2 & I3 & I4 & I5)]; [repeat split; constructor|]. change (length (c :: w)) with (S (length w)). destruct C as [-> |[-> | ->]].
  - change (flat_map vm (97 :: w)) with (97 :: 98 :: 99 :: flat_map vm w). split; [repeat (apply Forall_cons; [unfold abc3; tauto|]); exact I1|]. rewrite !cnt_cons. cbn [Nat.eqb]. lia.
  - change (flat_map vm (98 :: w)) with (97 :: 99 :: flat_map vm w). split; [repeat (apply Forall_cons; [unfold abc3; tauto|]); exact I1|]. rewrite !cnt_cons. cbn [Nat.eqb]. lia.
  - change (flat_map vm (99 :: w)) with (98 :: flat_map vm w). split; [repeat (apply Forall_cons; [unfold abc3; tauto|]); exact I1|]. rewrite !cnt_cons. cbn [Nat.eqb]. lia.
Qed.
Lemma vm_len k : length (iter_morphism vtm_morphism (S k) [97]) = 3 * 2 ^ k.
Proof.
  enough (G : let w := iter_morphism vm (S k) [97] in Forall abc3 w /\ cnt w 97 = 2 ^ k /\ cnt w 98 = 2 ^ k /\ cnt w 99 = 2 ^ k).
  { cbv zeta in G. destruct G as (F & A & B & C). destruct (vm_counts _ F) as (_ & _ & _ & _ & L). change vtm_morphism with vm. lia. }
  cbv zeta. induction k as [|k (F & A & B & C)].
  - split; [|split; [|split]; reflexivity]. change (iter_morphism vm 1 [97]) with [97; 98; 99]. repeat (apply Forall_cons; [unfold abc3; tauto|]). constructor.
  - rewrite iter_S. destruct (vm_counts _ F) as (F' & A' & B' & C' & _). rewrite A', B', C', A, B, C. cbn [Nat.pow]. split; [exact F'|]. lia.
Qed.
Lemma rho_vtm k : rho (iter_morphism vtm_morphism k [97]) = if k =? 0 then 1 else 3 * 2 ^ (k - 1).
Proof.
  destruct k as [|k]; [reflexivity|]. rewrite rho_square_free; [|intros E; pose proof (vm_len k) as L; rewrite E in L; cbn [length] in L; pose proof (LynFam5.pow_pos k); lia|apply vtm_square_free].
  rewrite vm_len. cbn [Nat.eqb]. now rewrite Nat.sub_succ, Nat.sub_0_r.
Qed.

(** paperfolding *)
Lemma pfh_ne c : quat c -> pfh c <> []. Proof. intros [-> |[-> |[-> | ->]]]; discriminate. Qed.
Lemma pfh_step w : Forall quat w -> rho (flat_map pfh w) = 2 * length w.
Proof.
  induction w as [|a w IH]; intros F; [reflexivity|]. destruct w as [|b w].
  - inversion F as [|? ? [-> |[-> |[-> | ->]]] _]; subst; reflexivity.
  - pose proof (rho_morph pfh quat pfh_ne a b w F) as J. inversion F as [|? ? Ha F']; subst.
    specialize (IH F'). inversion F' as [|? ? Hb _]; subst. change (length (a :: b :: w)) with (S (length (b :: w))). revert J IH. set (l := b :: w).
    generalize (rho (flat_map pfh (a :: l))), (rho (flat_map pfh l)), (length l).
    intros x y z. destruct Ha as [-> |[-> |[-> | ->]]], Hb as [-> |[-> |[-> | ->]]]; cbn; lia.
Qed.
Lemma rho_quat k : rho (iter_morphism pfh k [100]) = 2 ^ k.
Proof. destruct k as [|k]; [reflexivity|]. rewrite iter_S, pfh_step by apply pf_iter_quat. rewrite (u2_iter_length _ _ _ pfh_u2). reflexivity. Qed.
Definition pg (c : nat) : str := flat_map pfe (pfh c).
Lemma pg_ne c : quat c -> pg c <> []. Proof. intros [-> |[-> |[-> | ->]]]; discriminate. Qed.
Definition db (c : nat) : nat := if c =? 100 then 1 else if c =? 98 then 1 else 0.
Lemma pg_step w : w <> [] -> Forall quat w -> rho (flat_map pg w) = 2 * length w + db (last w 0).
Proof.
  induction w as [|a w IH]; intros N F; [congruence|]. destruct w as [|b w].
  - inversion F as [|? ? [-> |[-> |[-> | ->]]] _]; subst; reflexivity.
  - pose proof (rho_morph pg quat pg_ne a b w F) as J. inversion F as [|? ? Ha F']; subst.
    specialize (IH ltac:(discriminate) F'). inversion F' as [|? ? Hb _]; subst. rewrite last_cons2. change (length (a :: b :: w)) with (S (length (b :: w))). revert J IH. set (l := b :: w).
    generalize (rho (flat_map pg (a :: l))), (rho (flat_map pg l)), (length l), (db (last l 0)).
    intros x y z t. destruct Ha as [-> |[-> |[-> | ->]]], Hb as [-> |[-> |[-> | ->]]]; cbn; lia.
Qed.
Lemma pf_last k : last (iter_morphism pfh k [100]) 0 = if k =? 0 then 100 else 98.
Proof.
  induction k as [|k IH]; [reflexivity|]. rewrite iter_S, last_flat; [rewrite IH; destruct k; reflexivity|apply u2_ne, pfh_u2|rewrite IH; destruct k; discriminate].
Qed.
Lemma flat_flat (g h : nat -> str) w : flat_map g (flat_map h w) = flat_map (fun c => flat_map g (h c)) w.
Proof. induction w as [|c w IH]; [reflexivity|]. cbn [flat_map]. now rewrite flat_map_app, IH. Qed.
Lemma rho_pf k : rho (flat_map pfe (iter_morphism pfh k [100])) = if k =? 0 then 1 else 2 ^ k + 1.
Proof.
  destruct k as [|k]; [reflexivity|]. rewrite iter_S, flat_flat. change (fun c => flat_map pfe (pfh c)) with pg.
  rewrite pg_step; [|apply u2_ne, pfh_u2|apply pf_iter_quat]. rewrite (u2_iter_length _ _ _ pfh_u2), pf_last. destruct k; reflexivity.
Qed.

(** power2 *)
Lemma rho_rep c n : rho (repeat c (S n)) = 1.
Proof. induction n as [|n IH]; [reflexivity|]. change (repeat c (S (S n))) with (c :: c :: repeat c n). rewrite rho_cons, Nat.eqb_refl. change (c :: repeat c n) with (repeat c (S n)). lia. Qed.
Lemma last_rep c n : last (repeat c (S n)) 0 = c.
Proof. induction n as [|n IH]; [reflexivity|]. exact IH. Qed.
Lemma blk_shape j : 1 <= j -> exists n, blk j = repeat 97 (S n) ++ [98].
Proof. intros H. unfold blk. exists (2 ^ j - 2). f_equal. f_equal. destruct j as [|j]; [lia|]. pose proof (LynFam5.pow_pos j). cbn [Nat.pow] in *. lia. Qed.
Lemma rho_V n : last (V n) 0 = 98 /\ rho (V (S n)) = 2 * n + 1.
Proof.
  induction n as [|n (L & IH)]; [split; reflexivity|]. 
  assert (L' : last (V (S n)) 0 = 98). { rewrite V_S. unfold blk. rewrite app_assoc. apply last_last. }
  split; [exact L'|]. rewrite V_S. destruct (blk_shape (S n) ltac:(lia)) as (m & E). rewrite E.
  assert (N : V (S n) <> []) by (unfold V; discriminate).
  pose proof (rho_join (V (S n)) (repeat 97 (S m) ++ [98]) N ltac:(discriminate)) as J. rewrite L' in J. change (hd 0 (repeat 97 (S m) ++ [98])) with 97 in J.
  pose proof (rho_join (repeat 97 (S m)) [98] ltac:(discriminate) ltac:(discriminate)) as J2. rewrite last_rep, rho_rep in J2. change (rho [98]) with 1 in J2. cbn [hd] in J2.
  change (97 =? 98) with false in J. change (98 =? 97) with false in J2. cbv iota in J, J2. lia.
Qed.
Lemma rho_p2 k : 1 <= k -> rho (V (k - 1) ++ repeat 97 (2 ^ (k - 1) - 1) ++ [0]) = if k =? 1 then 2 else 2 * k - 1.
Proof.
  intros H. destruct k as [|k]; [lia|]. destruct k as [|k]; [reflexivity|]. replace (S (S k) - 1) with (S k) by lia.
  destruct (rho_V (S k)) as (L & _), (rho_V k) as (_ & R). assert (E : exists m, 2 ^ S k - 1 = S m). { exists (2 ^ S k - 2). pose proof (LynFam5.pow_pos k). cbn [Nat.pow] in *. lia. }
  destruct E as (m & ->). assert (N : V (S k) <> []) by (unfold V; discriminate).
  pose proof (rho_join (V (S k)) (repeat 97 (S m) ++ [0]) N ltac:(discriminate)) as J. rewrite L in J. change (hd 0 (repeat 97 (S m) ++ [0])) with 97 in J.
  pose proof (rho_join (repeat 97 (S m)) [0] ltac:(discriminate) ltac:(discriminate)) as J2. rewrite last_rep, rho_rep in J2. change (rho [0]) with 1 in J2. cbn [hd] in J2.
  change (97 =? 98) with false in J. change (0 =? 97) with false in J2. cbv iota in J, J2. cbn [Nat.eqb]. lia.
Qed.
