(** WordProof3.v : Thue-Morse, period doubling, paperfolding, powers of two, ternary Thue-Morse. *)
From Verif Require Import Base SpecStr SpecWord ModelWord WordProof WordProof2.
From Coq Require Import NArith ZArith.

(** ** counting one bits *)
Definition onesm (m i : nat) : nat := length (filter (Nat.testbit i) (seq 0 m)).
Lemma onesm_S m i : onesm (S m) i = onesm m i + (if Nat.testbit i m then 1 else 0).
Proof.
  unfold onesm. rewrite seq_S. rewrite filter_app, app_length. simpl. destruct (Nat.testbit i m); reflexivity.
Qed.
Lemma testbit_high i m : i < 2 ^ m -> Nat.testbit i m = false.
Proof. intros H. rewrite Nat.testbit_eqb. rewrite Nat.div_small by exact H. reflexivity. Qed.
Lemma onesm_stable m m' i : i < 2 ^ m -> m <= m' -> onesm m' i = onesm m i.
Proof.
  intros H. induction 1 as [|m' Hm IH]; [reflexivity|]. rewrite onesm_S, IH.
  rewrite testbit_high; [lia|]. pose proof (Nat.pow_le_mono_r 2 m m' ltac:(lia) Hm). lia.
Qed.
Lemma lt_pow2 i : i < 2 ^ i.
Proof. induction i as [|i IH]; simpl; lia. Qed.
Lemma ones_onesm m i : i < 2 ^ m -> ones i = onesm m i.
Proof.
  intros H. unfold ones. fold (onesm (S i) i). pose proof (lt_pow2 i).
  rewrite <- (onesm_stable m (m + S i) i H) by lia. symmetry. apply onesm_stable; [simpl; lia|lia].
Qed.
Lemma onesm_cons m i : onesm (S m) i = (if Nat.odd i then 1 else 0) + onesm m (Nat.div2 i).
Proof.
  unfold onesm. simpl seq. cbn [filter]. rewrite <- seq_shift.
  assert (E : forall l, length (filter (Nat.testbit i) (map S l)) = length (filter (Nat.testbit (Nat.div2 i)) l)).
  { induction l as [|x l IH]; [reflexivity|]. cbn [map filter].
    change (Nat.testbit i (S x)) with (Nat.testbit (Nat.div2 i) x). destruct (Nat.testbit (Nat.div2 i) x); simpl; now rewrite IH. }
  change (Nat.testbit i 0) with (Nat.odd i). destruct (Nat.odd i); cbn [length]; rewrite E; reflexivity.
Qed.
Lemma div2_double' i : Nat.div2 (2 * i) = i. Proof. apply Nat.div2_double. Qed.
Lemma div2_double1 i : Nat.div2 (2 * i + 1) = i.
Proof. replace (2 * i + 1) with (S (2 * i)) by lia. apply Nat.div2_succ_double. Qed.
Lemma odd_double i : Nat.odd (2 * i) = false.
Proof. rewrite Nat.odd_mul. reflexivity. Qed.
Lemma odd_double1 i : Nat.odd (2 * i + 1) = true.
Proof. rewrite Nat.odd_add, odd_double. reflexivity. Qed.
Lemma ones_double i : ones (2 * i) = ones i.
Proof.
  pose proof (lt_pow2 i). rewrite (ones_onesm (S i) (2 * i)) by (simpl; lia). rewrite (ones_onesm i i) by lia.
  rewrite onesm_cons, odd_double, div2_double'. reflexivity.
Qed.
Lemma ones_double1 i : ones (2 * i + 1) = S (ones i).
Proof.
  pose proof (lt_pow2 i). rewrite (ones_onesm (S i) (2 * i + 1)) by (simpl; lia). rewrite (ones_onesm i i) by lia.
  rewrite onesm_cons, odd_double1, div2_double1. reflexivity.
Qed.
Lemma ones_pow2_add j k : k < 2 ^ j -> ones (2 ^ j + k) = S (ones k).
Proof.
  revert k. induction j as [|j IH]; intros k Hk; [simpl in Hk; assert (k = 0) by lia; subst; reflexivity|].
  pose proof (Nat.div2_odd k) as E. set (q := Nat.div2 k) in *. simpl in Hk.
  destruct (Nat.odd k); simpl Nat.b2n in E.
  - rewrite E. replace (2 ^ S j + (2 * q + 1)) with (2 * (2 ^ j + q) + 1) by (simpl; lia).
    rewrite !ones_double1. rewrite IH by lia. reflexivity.
  - rewrite E. replace (2 ^ S j + (2 * q + 0)) with (2 * (2 ^ j + q)) by (simpl; lia).
    replace (2 * q + 0) with (2 * q) by lia. rewrite !ones_double. apply IH. lia.
Qed.

(** ** Thue-Morse *)
Definition tm (i : nat) : nat := if Nat.even (ones i) then 97 else 98.
Lemma tm_cases i : tm i = 97 \/ tm i = 98.
Proof. unfold tm. destruct (Nat.even (ones i)); auto. Qed.
Lemma tm_double i : tm (2 * i) = tm i.
Proof. unfold tm. now rewrite ones_double. Qed.
Lemma tm_double1 i : tm (2 * i + 1) = (if tm i =? 97 then 98 else 97).
Proof.
  unfold tm. rewrite ones_double1, Nat.even_succ, <- Nat.negb_even. destruct (Nat.even (ones i)); reflexivity.
Qed.
Lemma tm_pow2 j k : k < 2 ^ j -> tm (2 ^ j + k) = (if tm k =? 97 then 98 else 97).
Proof.
  intros H. unfold tm. rewrite ones_pow2_add by exact H. rewrite Nat.even_succ, <- Nat.negb_even.
  destruct (Nat.even (ones k)); reflexivity.
Qed.

Theorem thuemorse_word_ok k : k < 63 ->
  exists w, thuemorse_word k = Ok w /\ length w = 2 ^ k /\ forall i, i < 2 ^ k -> nth i w 0 = tm i.
Proof.
  intros Hk. unfold thuemorse_word. rewrite vec_pow_bind. destruct (Nat.ltb_spec k 63); [|lia].
  pose proof (pow2_pos k) as Hp.
  rewrite set_ok by (rewrite repeat_length; lia). cbn [bind].
  match goal with |- exists w, ?e = Ok w /\ _ => cut (okp e (fun w => length w = 2 ^ k /\ forall i, i < 2 ^ k -> nth i w 0 = tm i)) end.
  { intros (w & -> & H1). exists w. auto. }
  apply (okp_for_range (fun j w => length w = 2 ^ k /\ forall i, i < 2 ^ j -> nth i w 0 = tm i)); [lia| |].
  - split; [now rewrite upd_length, repeat_length|]. intros i Hi. simpl in Hi. assert (i = 0) by lia. subst.
    rewrite nth_upd_eq by (rewrite repeat_length; lia). reflexivity.
  - intros j w Hj (L & HI). cbv zeta.
    pose proof (Nat.pow_le_mono_r 2 (S j) k ltac:(lia) ltac:(lia)) as Hp1. simpl in Hp1.
    eapply okp_imp.
    + apply (okp_for_range (fun x w => length w = 2 ^ k /\ forall i, i < 2 ^ j + x -> nth i w 0 = tm i)); [lia| |].
      * split; [exact L|]. intros i Hi. apply HI. lia.
      * intros x w' Hx (L' & HI'). rewrite (get_ok _ _ 0) by lia. cbn [bind]. apply okp_set; [lia|].
        split; [now rewrite upd_length|]. intros i Hi. destruct (Nat.eq_dec i (2 ^ j + x)) as [->|Ne].
        -- rewrite nth_upd_eq by lia. rewrite HI' by lia. rewrite tm_pow2 by lia. reflexivity.
        -- rewrite nth_upd_ne by lia. apply HI'. lia.
    + cbv beta. intros w' (L' & HI'). split; [exact L'|]. intros i Hi. apply HI'. simpl in Hi. lia.
Qed.
Theorem thuemorse_word_panic k : 63 <= k -> thuemorse_word k = Panic.
Proof.
  intros H. unfold thuemorse_word. rewrite vec_pow_bind. destruct (Nat.ltb_spec k 63); [lia|]. reflexivity.
Qed.
Lemma tmh_u2 : uniform2 thuemorse_morphism.
Proof. intros c. unfold thuemorse_morphism. destruct (c =? 97); reflexivity. Qed.
Lemma tm_iter k i : i < 2 ^ k -> nth i (iter_morphism thuemorse_morphism k [97]) 0 = tm i.
Proof.
  revert i. induction k as [|k IH]; intros i Hi.
  - simpl in Hi. assert (i = 0) by lia. subst. reflexivity.
  - rewrite iter_S. simpl in Hi. pose proof (Nat.div2_odd i) as E. set (q := Nat.div2 i) in *.
    destruct (Nat.odd i); simpl Nat.b2n in E; rewrite E;
      rewrite (u2_nth _ _ _ _ tmh_u2) by (try rewrite (u2_iter_length _ _ _ tmh_u2); lia); rewrite IH by lia.
    + rewrite tm_double1. unfold thuemorse_morphism. destruct (tm q =? 97); reflexivity.
    + replace (2 * q + 0) with (2 * q) by lia. rewrite tm_double. unfold thuemorse_morphism.
      destruct (tm_cases q) as [->| ->]; reflexivity.
Qed.
Lemma tm_word_iter k w : length w = 2 ^ k -> (forall i, i < 2 ^ k -> nth i w 0 = tm i) ->
  w = iter_morphism thuemorse_morphism k [97].
Proof.
  intros L H. apply (nth_ext_len _ _ 0).
  - rewrite (u2_iter_length _ _ _ tmh_u2). exact L.
  - intros i Hi. rewrite L in Hi. rewrite H by exact Hi. now rewrite tm_iter.
Qed.

(** Thue-Morse has no overlap *)
Lemma tm_pair m : tm (2 * m) <> tm (2 * m + 1).
Proof. rewrite tm_double, tm_double1. destruct (tm_cases m) as [->| ->]; simpl; lia. Qed.
Lemma tm_double_eq a b : tm (2 * a + 1) = tm (2 * b + 1) -> tm a = tm b.
Proof. rewrite !tm_double1. destruct (tm_cases a) as [->| ->], (tm_cases b) as [->| ->]; simpl; lia. Qed.
Lemma even_odd_split i : (exists m, i = 2 * m) \/ (exists m, i = 2 * m + 1).
Proof. destruct (Nat.Even_or_Odd i) as [(m & H)|(m & H)]; [left|right]; exists m; lia. Qed.
Lemma tm_three i : tm i = tm (i + 1) -> tm (i + 1) = tm (i + 2) -> False.
Proof.
  intros H1 H2. destruct (even_odd_split i) as [(m & ->)|(m & ->)].
  - exact (tm_pair m H1).
  - apply (tm_pair (m + 1)). replace (2 * (m + 1)) with (2 * m + 1 + 1) by lia.
    replace (2 * m + 1 + 1 + 1) with (2 * m + 1 + 2) by lia. exact H2.
Qed.
Lemma tm_ne_trans a b c : tm a <> tm b -> tm b <> tm c -> tm a = tm c.
Proof. destruct (tm_cases a) as [->| ->], (tm_cases b) as [->| ->], (tm_cases c) as [->| ->]; lia. Qed.
Lemma tm_alt5 i : (forall j, i <= j < i + 4 -> tm j <> tm (j + 1)) -> False.
Proof.
  intros H.
  assert (E1 : tm i = tm (i + 2)).
  { apply (tm_ne_trans i (i + 1) (i + 2)); [apply H; lia|]. replace (i + 2) with (i + 1 + 1) by lia. apply H. lia. }
  assert (E2 : tm (i + 2) = tm (i + 4)).
  { apply (tm_ne_trans (i + 2) (i + 3) (i + 4)).
    - replace (i + 3) with (i + 2 + 1) by lia. apply H. lia.
    - replace (i + 4) with (i + 3 + 1) by lia. apply H. lia. }
  destruct (even_odd_split i) as [(m & ->)|(m & ->)].
  - apply (tm_three m).
    + rewrite <- (tm_double m), <- (tm_double (m + 1)). replace (2 * (m + 1)) with (2 * m + 2) by lia. exact E1.
    + rewrite <- (tm_double (m + 2)), <- (tm_double (m + 1)). replace (2 * (m + 1)) with (2 * m + 2) by lia.
      replace (2 * (m + 2)) with (2 * m + 4) by lia. exact E2.
  - apply (tm_three m).
    + apply tm_double_eq. replace (2 * (m + 1) + 1) with (2 * m + 1 + 2) by lia. exact E1.
    + apply tm_double_eq. replace (2 * (m + 1) + 1) with (2 * m + 1 + 2) by lia.
      replace (2 * (m + 2) + 1) with (2 * m + 1 + 4) by lia. exact E2.
Qed.
Theorem tm_overlap_free : forall p i, 1 <= p -> (forall j, i <= j <= i + p -> tm j = tm (j + p)) -> False.
Proof.
  induction p as [p IH] using lt_wf_ind. intros i Hp H. destruct (even_odd_split p) as [(q & Eq)|(q & Eq)].
  - destruct (even_odd_split i) as [(m & ->)|(m & ->)].
    + apply (IH q ltac:(lia) m ltac:(lia)). intros j Hj. rewrite <- (tm_double j), <- (tm_double (j + q)).
      replace (2 * (j + q)) with (2 * j + p) by lia. apply H. lia.
    + apply (IH q ltac:(lia) m ltac:(lia)). intros j Hj. apply tm_double_eq.
      replace (2 * (j + q) + 1) with (2 * j + 1 + p) by lia. apply H. lia.
  - destruct (Nat.eq_dec p 1) as [->|Np].
    + apply (tm_three i); [apply H; lia|]. replace (i + 2) with (i + 1 + 1) by lia. apply H. lia.
    + (* odd period at least 3: the first half alternates *)
      assert (A : forall j, i <= j < i + p -> tm j <> tm (j + 1)).
      { intros j Hj. destruct (even_odd_split j) as [(m & ->)|(m & ->)]; [apply tm_pair|].
        rewrite (H (2 * m + 1)) by lia. rewrite (H (2 * m + 1 + 1)) by lia.
        replace (2 * m + 1 + p) with (2 * (m + q + 1)) by lia.
        replace (2 * m + 1 + 1 + p) with (2 * (m + q + 1) + 1) by lia. apply tm_pair. }
      apply (tm_alt5 i). intros j Hj. destruct (Nat.lt_ge_cases j (i + p)) as [C|C]; [apply A; lia|].
      assert (Ej : j = i + p) by lia. subst j. rewrite <- (H i) by lia.
      replace (i + p + 1) with (i + 1 + p) by lia. rewrite <- (H (i + 1)) by lia. apply A. lia.
Qed.

(** ** period doubling *)
Lemma pdh_u2 : uniform2 period_doubling_morphism.
Proof. intros c. unfold period_doubling_morphism. destruct (c =? 97); reflexivity. Qed.
Lemma pd_iter k : forall i, i < 2 ^ k -> forall e m, i + 1 = 2 ^ e * (2 * m + 1) ->
  nth i (iter_morphism period_doubling_morphism k [97]) 0 = (if Nat.even e then 97 else 98).
Proof.
  induction k as [|k IH]; intros i Hi e m E.
  - simpl in Hi. assert (i = 0) by lia. subst. destruct e as [|e]; [reflexivity|]. simpl in E. lia.
  - rewrite iter_S. simpl in Hi. destruct (even_odd_split i) as [(q & ->)|(q & ->)].
    + replace (2 * q) with (2 * q + 0) at 1 by lia.
      rewrite (u2_nth _ _ _ _ pdh_u2) by (try rewrite (u2_iter_length _ _ _ pdh_u2); lia).
      destruct e as [|e]; [|simpl in E; lia]. unfold period_doubling_morphism. destruct (_ =? 97); reflexivity.
    + rewrite (u2_nth _ _ _ _ pdh_u2) by (try rewrite (u2_iter_length _ _ _ pdh_u2); lia).
      destruct e as [|e]; [simpl in E; lia|]. rewrite (IH q ltac:(lia) e m) by (simpl in E; lia).
      rewrite Nat.even_succ, <- Nat.negb_even. unfold period_doubling_morphism. destruct (Nat.even e); reflexivity.
Qed.
Theorem period_doubling_word_ok k : k < 63 -> period_doubling_word k = Ok (iter_morphism period_doubling_morphism k [97]).
Proof. intros H. apply iterate_2morphism_ok; [exact pdh_u2|reflexivity|exact H]. Qed.

(** ** paperfolding *)
Definition pfh (c : nat) : str :=
  if c =? 100 then [100; 98] else if c =? 98 then [99; 98] else if c =? 99 then [100; 97] else [99; 97].
Definition pfe (c : nat) : str :=
  if c =? 100 then [49; 49] else if c =? 98 then [48; 49] else if c =? 99 then [49; 48] else [48; 48].
Definition quat (c : nat) : Prop := c = 97 \/ c = 98 \/ c = 99 \/ c = 100.
Lemma pfh_u2 : uniform2 pfh.
Proof. intros c. unfold pfh. destruct (c =? 100); [reflexivity|]. destruct (c =? 98); [reflexivity|]. destruct (c =? 99); reflexivity. Qed.
Lemma pfe_u2 : uniform2 pfe.
Proof. intros c. unfold pfe. destruct (c =? 100); [reflexivity|]. destruct (c =? 98); [reflexivity|]. destruct (c =? 99); reflexivity. Qed.
Lemma pfh_quat c : Forall quat (pfh c).
Proof.
  unfold pfh, quat. destruct (c =? 100); [repeat constructor; tauto|]. destruct (c =? 98); [repeat constructor; tauto|].
  destruct (c =? 99); repeat constructor; tauto.
Qed.
Lemma pf_iter_quat k : Forall quat (iter_morphism pfh k [100]).
Proof.
  destruct k as [|k]; [repeat constructor; unfold quat; tauto|]. rewrite iter_S.
  induction (iter_morphism pfh k [100]) as [|c w IH]; [constructor|]. cbn [flat_map]. apply Forall_app.
  split; [apply pfh_quat|exact IH].
Qed.

Theorem quaternary_ok k : k < 63 -> quaternary_paperfolding_word k = Ok (iter_morphism pfh k [100]).
Proof.
  intros Hk. unfold quaternary_paperfolding_word. rewrite vec_pow_bind. destruct (Nat.ltb_spec k 63); [|lia].
  cbv zeta. rewrite repeat_length. pose proof (pow2_pos k) as Hp. set (n := 2 ^ k) in *.
  destruct (set_next (repeat 0 n) 0 100) as (t0 & E0 & L0 & F0 & _); [rewrite repeat_length; lia|].
  rewrite repeat_length in L0. rewrite E0. cbn [bind]. change (firstn 0 (repeat 0 n) ++ [100]) with [100] in F0.
  destruct k as [|r].
  { simpl in n. subst n. change (range 0 (1 / 2)) with (@nil nat). cbn [for_in]. f_equal.
    rewrite <- (firstn_all2 t0 (n := 1)) by lia. exact F0. }
  assert (En : n = 2 * 2 ^ r) by reflexivity. replace (n / 2) with (2 ^ r) by (rewrite En, Nat.mul_comm, Nat.div_mul; lia).
  match goal with |- ?e = _ => cut (okp e (fun text => text = iter_morphism pfh (S r) [100])) end.
  { intros (x & -> & ->). reflexivity. }
  eapply okp_imp.
  - apply (okp_for_range (fun x text => length text = n /\ firstn 1 text = [100] /\
      firstn (2 * x) text = flat_map pfh (firstn x text) /\ Forall quat (firstn (max 1 (2 * x)) text))); [lia| |].
    + split; [exact L0|]. split; [exact F0|]. split; [reflexivity|]. simpl max. rewrite F0. apply Forall_cons; [unfold quat; tauto|apply Forall_nil].
    + intros x text Hx (L & H1 & H2 & H3).
      assert (Hq : quat (nth x text 0)).
      { rewrite Forall_forall in H3. apply H3. rewrite <- (nth_firstn text (max 1 (2 * x)) x 0) by lia.
        apply nth_In. rewrite firstn_length. lia. }
      rewrite (get_ok _ _ 0) by lia. cbn [bind]. cbv zeta.
      assert (G : forall y z, pfh (nth x text 0) = [y; z] -> okp (text <- set text (2 * x) y ;; set text (2 * x + 1) z)
         (fun text => length text = n /\ firstn 1 text = [100] /\
            firstn (2 * S x) text = flat_map pfh (firstn (S x) text) /\ Forall quat (firstn (max 1 (2 * S x)) text))).
      { intros y z Ehc. destruct (set_next text (2 * x) y) as (u & Eu & Lu & Fu & Gu & _); [lia|]. rewrite Eu. cbn [bind].
        destruct (set_next u (2 * x + 1) z) as (v & Ev & Lv & Fv & Gv & _); [lia|]. rewrite Ev.
        apply okp_ok. split; [lia|].
        assert (Fin : firstn (2 * S x) v = flat_map pfh (firstn (S x) text)).
        { replace (2 * S x) with (S (2 * x + 1)) by lia. rewrite Fv. replace (2 * x + 1) with (S (2 * x)) by lia.
          rewrite Fu, H2, (firstn_snoc_nth text x 0) by lia. rewrite flat_map_app. simpl. rewrite Ehc, <- app_assoc. reflexivity. }
        assert (E1 : firstn 1 v = [100]).
        { destruct x as [|x].
          - rewrite (firstn_snoc_nth v 0 0) by lia. simpl. f_equal.
            rewrite <- (nth_firstn v 2 0 0) by lia. change 2 with (2 * 1). rewrite Fin. rewrite H1. reflexivity.
          - rewrite Gv by lia. rewrite Gu by lia. exact H1. }
        split; [exact E1|].
        assert (Esx : firstn (S x) v = firstn (S x) text).
        { destruct x as [|x]; [rewrite E1; now symmetry|]. rewrite Gv by lia. apply Gu. lia. }
        rewrite Esx. split; [exact Fin|]. rewrite Nat.max_r by lia. rewrite Fin.
        clear. induction (firstn (S x) text) as [|c w IH]; [constructor|]. cbn [flat_map]. apply Forall_app.
        split; [apply pfh_quat|exact IH]. }
      destruct Hq as [Eq|[Eq|[Eq|Eq]]]; rewrite Eq in *; apply G; reflexivity.
  - cbv beta. intros text (L & H1 & H2 & H3). rewrite <- En in H2.
    rewrite firstn_all2 in H2 by lia.
    pose proof (u2_fixed pfh text r 100 pfh_u2 H1 L H2 (S r) (le_n _)) as E. fold n in E. rewrite <- E.
    symmetry. apply firstn_all2. lia.
Qed.
Lemma quaternary_panic k : 63 <= k -> quaternary_paperfolding_word k = Panic.
Proof.
  intros H. unfold quaternary_paperfolding_word. rewrite vec_pow_bind. destruct (Nat.ltb_spec k 63); [lia|]. reflexivity.
Qed.

Lemma q2b_ok text : Forall quat text -> (2 * N.of_nat (length text) < 9223372036854775808)%N ->
  quaternary_to_binary text = Ok (flat_map pfe text).
Proof.
  intros HQ HL. unfold quaternary_to_binary. rewrite vec_zero_ok by exact HL. cbn [bind].
  replace (N.to_nat (2 * N.of_nat (length text))) with (2 * length text) by lia.
  match goal with |- ?e = _ => cut (okp e (fun out => out = flat_map pfe text)) end.
  { intros (x & -> & ->). reflexivity. }
  eapply okp_imp.
  - apply (okp_for_range (fun x out => length out = 2 * length text /\ firstn (2 * x) out = flat_map pfe (firstn x text))); [lia| |].
    + split; [now rewrite repeat_length|reflexivity].
    + intros x out Hx (L & H2).
      assert (Hq : quat (nth x text 0)) by (rewrite Forall_forall in HQ; apply HQ, nth_In; lia).
      rewrite (get_ok _ _ 0) by lia. cbn [bind].
      assert (G : forall y z, pfe (nth x text 0) = [y; z] -> okp (out <- set out (2 * x) y ;; set out (2 * x + 1) z)
         (fun out => length out = 2 * length text /\ firstn (2 * S x) out = flat_map pfe (firstn (S x) text))).
      { intros y z Ehc. destruct (set_next out (2 * x) y) as (u & Eu & Lu & Fu & Gu & _); [lia|]. rewrite Eu. cbn [bind].
        destruct (set_next u (2 * x + 1) z) as (v & Ev & Lv & Fv & Gv & _); [lia|]. rewrite Ev.
        apply okp_ok. split; [lia|].
        replace (2 * S x) with (S (2 * x + 1)) by lia. rewrite Fv. replace (2 * x + 1) with (S (2 * x)) by lia.
        rewrite Fu, H2, (firstn_snoc_nth text x 0) by lia. rewrite flat_map_app. simpl. rewrite Ehc, <- app_assoc. reflexivity. }
      destruct Hq as [Eq|[Eq|[Eq|Eq]]]; rewrite Eq in *; apply G; reflexivity.
  - cbv beta. intros out (L & H). rewrite !firstn_all2 in H by lia. exact H.
Qed.
Lemma of_pow2 k : N.of_nat (2 ^ k) = (2 ^ N.of_nat k)%N.
Proof. rewrite <- to_nat_pow2, N2Nat.id. reflexivity. Qed.
Theorem paperfolding_ok k : k < 62 -> paperfolding_word k = Ok (flat_map pfe (iter_morphism pfh k [100])).
Proof.
  intros Hk. unfold paperfolding_word. rewrite quaternary_ok by lia. cbn [bind]. apply q2b_ok; [apply pf_iter_quat|].
  rewrite (u2_iter_length _ _ _ pfh_u2). rewrite of_pow2.
  pose proof (pow2_63 (S k) ltac:(lia)) as H. rewrite Nat2N.inj_succ, N.pow_succ_r in H by lia. lia.
Qed.
Theorem paperfolding_panic k : 62 <= k -> paperfolding_word k = Panic.
Proof.
  intros Hk. unfold paperfolding_word. destruct (Nat.eq_dec k 62) as [Ek|N].
  - rewrite quaternary_ok by lia. cbn [bind]. unfold quaternary_to_binary.
    rewrite (u2_iter_length _ _ _ pfh_u2), vec_zero_panic; [reflexivity|].
    rewrite of_pow2. assert (E : N.of_nat k = 62%N) by lia. rewrite E. vm_compute. discriminate.
  - rewrite quaternary_panic by lia. reflexivity.
Qed.

(** the binary word: B'(4j)=1, B'(4j+2)=0, B'(2i+1)=B(i) *)
Lemma pf_word_nth k : forall i, i < 2 ^ S k -> forall e m, i + 1 = 2 ^ e * (2 * m + 1) ->
  nth i (flat_map pfe (iter_morphism pfh k [100])) 0 = (if Nat.even m then 49 else 48).
Proof.
  induction k as [|k IH]; intros i Hi e m E.
  - simpl in Hi. destruct i as [|[|i]]; [| |lia].
    + destruct e as [|e]; [|simpl in E; lia]. simpl in E. assert (m = 0) by lia. subst. reflexivity.
    + destruct e as [|[|e]]; simpl in E; try lia. assert (m = 0) by lia. subst. reflexivity.
  - set (w := iter_morphism pfh k [100]) in *. rewrite iter_S. fold w.
    assert (Lw : length w = 2 ^ k) by apply (u2_iter_length _ _ _ pfh_u2).
    assert (Lh : length (flat_map pfh w) = 2 * 2 ^ k) by (rewrite (u2_length _ _ pfh_u2), Lw; reflexivity).
    assert (K : forall c, pfe (nth 0 (pfh c) 0) = [49; nth 0 (pfe c) 0] /\ pfe (nth 1 (pfh c) 0) = [48; nth 1 (pfe c) 0]).
    { intros c. unfold pfh. destruct (c =? 100) eqn:E1.
      - apply Nat.eqb_eq in E1. subst c. split; reflexivity.
      - destruct (c =? 98) eqn:E2; [apply Nat.eqb_eq in E2; subst c; split; reflexivity|].
        destruct (c =? 99) eqn:E3; [apply Nat.eqb_eq in E3; subst c; split; reflexivity|].
        unfold pfe at 2 4. rewrite E1, E2, E3. split; reflexivity. }
    change (2 ^ S (S k)) with (2 * (2 * 2 ^ k)) in Hi.
    assert (N1 : forall j e, j < 2 ^ S k -> e < 2 -> nth (2 * j + e) (flat_map pfe (flat_map pfh w)) 0 =
       nth e (pfe (nth j (flat_map pfh w) 0)) 0).
    { intros j e' Hj He. apply (u2_nth _ _ _ _ pfe_u2); [rewrite Lh; exact Hj|exact He]. }
    destruct (even_odd_split i) as [(q & ->)|(q & ->)].
    + destruct e as [|e]; [|simpl in E; lia]. simpl in E.
      replace (2 * q) with (2 * q + 0) by lia. rewrite N1 by (simpl in *; lia).
      assert (Em : m = q) by lia. subst m.
      destruct (even_odd_split q) as [(r & ->)|(r & ->)].
      * replace (2 * r) with (2 * r + 0) at 1 by lia. rewrite (u2_nth _ _ _ _ pfh_u2) by lia.
        rewrite (proj1 (K _)). rewrite Nat.even_mul. reflexivity.
      * rewrite (u2_nth _ _ _ _ pfh_u2) by lia. rewrite (proj2 (K _)). rewrite Nat.even_add, Nat.even_mul. reflexivity.
    + destruct e as [|e]; [simpl in E; lia|]. rewrite N1 by (simpl in *; lia).
      assert (Eq1 : nth 1 (pfe (nth q (flat_map pfh w) 0)) 0 = nth q (flat_map pfe w) 0).
      { destruct (even_odd_split q) as [(r & ->)|(r & ->)].
        - replace (2 * r) with (2 * r + 0) by lia. rewrite (u2_nth _ _ _ _ pfh_u2) by lia.
          rewrite (u2_nth _ _ _ _ pfe_u2) by lia. rewrite (proj1 (K _)). reflexivity.
        - rewrite (u2_nth _ _ _ _ pfh_u2) by lia.
          rewrite (u2_nth _ _ _ _ pfe_u2) by lia. rewrite (proj2 (K _)). reflexivity. }
      rewrite Eq1. apply (IH q ltac:(simpl; lia) e m). simpl in E. lia.
Qed.
