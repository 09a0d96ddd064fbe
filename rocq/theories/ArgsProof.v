(** ArgsProof.v : the parser of ModelArgs.v against the grammar of SpecArgs.v. *)
From Verif Require Import Base SpecStr SpecArgs ModelMain ModelResult ModelArgs.
From Coq Require Import NArith ZArith.

(** ** values *)
Lemma fold_dec_ge s : forall acc, (acc <= fold_left (fun a d => 10 * a + N.of_nat (d - 48)) s acc)%N.
Proof. induction s as [|c s IH]; intros acc; cbn [fold_left]; [lia|]. specialize (IH (10 * acc + N.of_nat (c - 48))%N). lia. Qed.
Lemma digits_max_ok max s : forall acc n, (acc <= max)%N ->
  (digits_max max acc s = Some n <-> Forall (fun d => 48 <= d <= 57) s /\ fold_left (fun a d => 10 * a + N.of_nat (d - 48))%N s acc = n /\ (n <= max)%N).
Proof.
  induction s as [|c s IH]; intros acc n Ha.
  - cbn. split; [intros [= <-]; auto|]. intros (_ & <- & _). reflexivity.
  - cbn [digits_max fold_left].
    destruct (Nat.leb_spec 48 c) as [L1|L1]; cbn [andb]; [destruct (Nat.leb_spec c 57) as [L2|L2]|].
    + destruct (N.leb_spec (10 * acc + N.of_nat (c - 48)) max) as [L3|L3].
      * rewrite IH by exact L3. split; intros (F & H); (split; [|exact H]); [now constructor|now inversion F].
      * split; [discriminate|]. intros (_ & <- & H). pose proof (fold_dec_ge s (10 * acc + N.of_nat (c - 48))%N). lia.
    + split; [discriminate|]. intros (F & _). inversion F; lia.
    + split; [discriminate|]. intros (F & _). inversion F; lia.
Qed.
Lemma digits_of_max max s n : s <> [] -> (digits_max max 0 s = Some n <-> digits_of s n /\ (n <= max)%N).
Proof.
  intros N0. rewrite digits_max_ok by lia. unfold digits_of, decimal_N. tauto.
Qed.
Lemma digits_max_minus max s : digits_max max 0 (45 :: s) = None.
Proof. reflexivity. Qed.
Lemma digits_of_not_sign c s n : digits_of (c :: s) n -> c <> 43 /\ c <> 45.
Proof. intros (_ & F & _). inversion F; lia. Qed.
Lemma from_str_unsigned_ok max s n : from_str_unsigned max s = Some n <->
  (digits_of s n \/ exists ds, s = 43 :: ds /\ digits_of ds n) /\ (n <= max)%N.
Proof.
  unfold from_str_unsigned. destruct s as [|c s].
  - split; [discriminate|]. intros ([(H & _)|(ds & H & _)] & _); [contradiction|discriminate].
  - destruct (Nat.eqb_spec c 43) as [->|Nc].
    + destruct s as [|d s].
      * split; [discriminate|]. intros ([H|(ds & [= <-] & (H & _))] & _); [apply digits_of_not_sign in H; tauto|contradiction].
      * rewrite digits_of_max by discriminate. split.
        -- intros (H & L). split; [right; eauto|exact L].
        -- intros ([H|(ds & [= <-] & H)] & L); [apply digits_of_not_sign in H; tauto|auto].
    + rewrite digits_of_max by discriminate. split.
      * intros (H & L). auto.
      * intros ([H|(ds & [= -> _] & _)] & L); [auto|contradiction].
Qed.
Lemma parse_u8_ok s n : parse_u8 s = Some n <->
  ((digits_of s n \/ exists ds, s = 43 :: ds /\ digits_of ds n) /\ (n <= 255)%N) \/ (n = 0%N /\ exists ds, s = 45 :: ds /\ digits_of ds 0).
Proof.
  assert (G : forall s, (forall r, s <> 45 :: r) ->
    (match from_str_unsigned 9223372036854775807 s with Some n => if (n <=? 255)%N then Some n else None | None => None end = Some n <->
     ((digits_of s n \/ exists ds, s = 43 :: ds /\ digits_of ds n) /\ (n <= 255)%N) \/ (n = 0%N /\ exists ds, s = 45 :: ds /\ digits_of ds 0))).
  { intros s' Hs. destruct (from_str_unsigned 9223372036854775807 s') as [k|] eqn:E.
    - apply from_str_unsigned_ok in E. destruct (N.leb_spec k 255) as [L|L].
      + split.
        * intros [= <-]. left. tauto.
        * intros [(H & L')|(_ & ds & -> & _)]; [|now destruct (Hs ds)]. f_equal.
          assert (E2 : from_str_unsigned 9223372036854775807 s' = Some n) by (apply from_str_unsigned_ok; split; [exact H|lia]).
          assert (E1 : from_str_unsigned 9223372036854775807 s' = Some k) by now apply from_str_unsigned_ok. congruence.
      + split; [discriminate|]. intros [(H & L')|(_ & ds & -> & _)]; [|now destruct (Hs ds)].
        assert (E2 : from_str_unsigned 9223372036854775807 s' = Some n) by (apply from_str_unsigned_ok; split; [exact H|lia]).
        assert (E1 : from_str_unsigned 9223372036854775807 s' = Some k) by now apply from_str_unsigned_ok. rewrite E1 in E2. injection E2 as ->. lia.
    - split; [discriminate|]. intros [(H & L')|(_ & ds & -> & _)]; [|now destruct (Hs ds)].
      assert (E2 : from_str_unsigned 9223372036854775807 s' = Some n) by (apply from_str_unsigned_ok; split; [exact H|lia]). congruence. }
  assert (Q : (forall r, s <> 45 :: r) \/ exists r, s = 45 :: r).
  { destruct s as [|c s']; [left; discriminate|]. destruct (Nat.eq_dec c 45) as [->|N]; [right; eauto|left; intros r [= -> _]; contradiction]. }
  destruct Q as [Q|(r & ->)].
  - rewrite <- (G s Q). unfold parse_u8. destruct s as [|c s']; [reflexivity|].
    do 46 (destruct c as [|c]; [try reflexivity|]); try reflexivity. exfalso. now apply (Q s').
  - unfold parse_u8. destruct r as [|d r].
    + split; [discriminate|]. intros [([H|(ds & [=] & _)] & _)|(_ & ds & [= <-] & (H & _))]; [apply digits_of_not_sign in H; tauto|contradiction].
    + destruct (digits_max 9223372036854775808 0 (d :: r)) as [k|] eqn:E.
      * apply digits_of_max in E; [|discriminate]. destruct E as (E & _). destruct k as [|k].
        -- split; [intros [= <-]; right; eauto|]. intros [([H|(ds & [=] & _)] & _)|(-> & _)]; [apply digits_of_not_sign in H; tauto|reflexivity].
        -- split; [discriminate|]. intros [([H|(ds & [=] & _)] & _)|(_ & ds & [= <-] & H)]; [apply digits_of_not_sign in H; tauto|].
           destruct E as (_ & _ & E). destruct H as (_ & _ & H). congruence.
      * split; [discriminate|]. intros [([H|(ds & [=] & _)] & _)|(_ & ds & [= <-] & H)]; [apply digits_of_not_sign in H; tauto|].
        assert (X : digits_max 9223372036854775808 0 (d :: r) = Some 0%N) by (apply digits_of_max; [discriminate|split; [exact H|lia]]). congruence.
Qed.
Lemma index_of_ok s names : forall i j, index_of s names i = Some j -> i <= j /\ nth_error names (j - i) = Some s.
Proof.
  induction names as [|n names IH]; intros i j E; [discriminate|]. cbn [index_of] in E. destruct (list_eq_dec Nat.eq_dec s n) as [->|Ne].
  - injection E as <-. rewrite Nat.sub_diag. auto.
  - apply IH in E. destruct E as (L & E). split; [lia|]. replace (j - i) with (S (j - S i)) by lia. exact E.
Qed.
Lemma index_of_some s names : forall i k, nth_error names k = Some s -> exists j, index_of s names i = Some j.
Proof.
  induction names as [|n names IH]; intros i k E; [destruct k; discriminate|]. cbn [index_of]. destruct (list_eq_dec Nat.eq_dec s n) as [->|Ne]; [eauto|].
  destruct k as [|k]; [injection E as ->; contradiction|]. apply (IH (S i) k E).
Qed.
Definition type_ok (t : vtype) : Prop := forall names, t = OneOf names -> NoDup names.
Lemma parse_value_ok t s v : type_ok t -> (parse_value t s = Some v <-> reads_as t s v).
Proof.
  intros HT. destruct t as [| | | |names]; cbn [parse_value].
  - split; [intros [= <-]; constructor|intros H; now inversion H].
  - destruct (from_str_unsigned 18446744073709551615 s) as [n|] eqn:E.
    + apply from_str_unsigned_ok in E. destruct E as (E & L). assert (L' : (n < 2 ^ 64)%N) by (change (2 ^ 64)%N with 18446744073709551616%N; lia). split.
      * intros [= <-]. destruct E as [E|(ds & -> & E)]; constructor; assumption.
      * intros H. f_equal.
        assert (G : forall k, (digits_of s k \/ exists ds, s = 43 :: ds /\ digits_of ds k) -> k = n).
        { intros k [K|(ds & -> & K)]; destruct E as [E|(es & E1 & E)].
          - destruct K as (_ & _ & <-). now destruct E as (_ & _ & <-).
          - subst s. apply digits_of_not_sign in K. tauto.
          - apply digits_of_not_sign in E. tauto.
          - injection E1 as <-. destruct K as (_ & _ & <-). now destruct E as (_ & _ & <-). }
        inversion H; subst; f_equal; symmetry; apply G; eauto.
    + split; [discriminate|]. intros H. exfalso.
      assert (X : exists n, from_str_unsigned 18446744073709551615 s = Some n).
      { inversion H; subst; exists n; apply from_str_unsigned_ok; change (2 ^ 64)%N with 18446744073709551616%N in *; (split; [eauto|lia]). }
      destruct X as (n & X). congruence.
  - destruct (parse_u8 s) as [n|] eqn:E.
    + split.
      * intros [= <-]. apply parse_u8_ok in E. destruct E as [([E|(ds & -> & E)] & L)|(-> & ds & -> & E)]; constructor; try assumption; change (2 ^ 8)%N with 256%N; lia.
      * intros H. f_equal.
        assert (G : forall k, parse_u8 s = Some k -> VNum n = VNum k) by (intros k K; congruence).
        inversion H; subst; apply G; apply parse_u8_ok; change (2 ^ 8)%N with 256%N in *; [left|left|right]; (split; [eauto|]); try lia; eauto.
    + split; [discriminate|]. intros H. exfalso.
      assert (X : exists n, parse_u8 s = Some n).
      { inversion H; subst; eexists; apply parse_u8_ok; change (2 ^ 8)%N with 256%N in *; [left|left|right]; (split; [eauto|]); try lia; eauto. }
      destruct X as (n & X). congruence.
  - destruct (from_str_unsigned 18446744073709551615 s) as [n|] eqn:E.
    + apply from_str_unsigned_ok in E. destruct E as (E & L). assert (L' : (n < 2 ^ 64)%N) by (change (2 ^ 64)%N with 18446744073709551616%N; lia). split.
      * intros [= <-]. destruct E as [E|(ds & -> & E)]; constructor; assumption.
      * intros H. f_equal.
        assert (G : forall k, (digits_of s k \/ exists ds, s = 43 :: ds /\ digits_of ds k) -> k = n).
        { intros k [K|(ds & -> & K)]; destruct E as [E|(es & E1 & E)].
          - destruct K as (_ & _ & <-). now destruct E as (_ & _ & <-).
          - subst s. apply digits_of_not_sign in K. tauto.
          - apply digits_of_not_sign in E. tauto.
          - injection E1 as <-. destruct K as (_ & _ & <-). now destruct E as (_ & _ & <-). }
        inversion H; subst; f_equal; symmetry; apply G; eauto.
    + split; [discriminate|]. intros H. exfalso.
      assert (X : exists n, from_str_unsigned 18446744073709551615 s = Some n).
      { inversion H; subst; exists n; apply from_str_unsigned_ok; change (2 ^ 64)%N with 18446744073709551616%N in *; (split; [eauto|lia]). }
      destruct X as (n & X). congruence.
  - destruct (index_of s names 0) as [j|] eqn:E.
    + apply index_of_ok in E. destruct E as (_ & E). rewrite Nat.sub_0_r in E. pose proof (HT names eq_refl) as ND. split.
      * intros [= <-]. now constructor.
      * intros H. inversion H; subst. do 2 f_equal. rewrite NoDup_nth_error in ND. apply ND; [apply nth_error_Some; congruence|congruence].
    + split; [discriminate|]. intros H. inversion H; subst. exfalso.
      match goal with X : nth_error _ _ = Some _ |- _ => destruct (index_of_some _ _ 0 _ X) as (j & X2) end. congruence.
Qed.
Lemma parse_values_ok t vs : type_ok t -> forall xs, (parse_values t vs = Some xs <-> Forall2 (reads_as t) vs xs).
Proof.
  intros HT. induction vs as [|v vs IH]; intros xs; cbn [parse_values].
  - split; [intros [= <-]; constructor|intros H; now inversion H].
  - destruct (parse_value t v) as [x|] eqn:E.
    + apply parse_value_ok in E; [|exact HT]. destruct (parse_values t vs) as [ys|] eqn:E2.
      * split.
        -- intros [= <-]. constructor; [exact E|]. now apply IH.
        -- intros H. inversion H; subst. apply (parse_value_ok t v x HT) in E.
           match goal with X : reads_as t v _ |- _ => apply (parse_value_ok t v _ HT) in X; rewrite E in X; injection X as -> end.
           match goal with X : Forall2 _ vs _ |- _ => apply IH in X; congruence end.
      * split; [discriminate|]. intros H. inversion H; subst. match goal with X : Forall2 _ vs _ |- _ => apply IH in X; congruence end.
    + split; [discriminate|]. intros H. inversion H; subst. match goal with X : reads_as t v _ |- _ => apply (parse_value_ok t v _ HT) in X; congruence end.
Qed.
