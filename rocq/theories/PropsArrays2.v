(** PropsArrays2.v : further theorems on C06, C09, C12 and C24: the inputs outside the main theorems. *)
From Verif Require Import Base SpecStr LexFacts ModelCore PermFacts SortFacts BorderProof LcpProof IterProof.
From Coq Require Import NArith.

(** C06: the empty text has period 0; an empty table is no border array and panics *)
Theorem C06_empty : border_array [] = Ok [0] /\ smallest_period [0] = Ok 0 /\ smallest_period [] = Panic.
Proof. repeat split. Qed.
Print Assumptions C06_empty.

(** C09: what is returned for any table of positions, permutation or not: for an entry its last position, 0 elsewhere *)
Theorem C09_any_table : forall arr, Forall (fun x => x < length arr) arr ->
  exists inv, inverse_permutation arr = Ok inv /\ length inv = length arr /\
    (forall v, ~ In v arr -> nth v inv 0 = 0) /\
    (forall v, In v arr -> nth_error arr (nth v inv 0) = Some v /\
       forall i, nth_error arr i = Some v -> i <= nth v inv 0).
Proof.
  intros arr Hr.
  assert (Hlt : forall i, i < length arr -> nth i arr 0 < length arr).
  { intros i Hi. rewrite Forall_forall in Hr. apply Hr. now apply nth_In. }
  enough (G : okp (inverse_permutation arr) (fun inv => length inv = length arr /\
    (forall v, ~ In v arr -> nth v inv 0 = 0) /\
    (forall v, In v arr -> nth_error arr (nth v inv 0) = Some v /\ forall i, nth_error arr i = Some v -> i <= nth v inv 0))).
  { destruct G as (inv & E & H). exists inv. tauto. }
  unfold inverse_permutation.
  eapply okp_imp; [apply (okp_for_range (fun k inv => length inv = length arr /\
    forall v, ((forall i, i < k -> nth i arr 0 <> v) -> nth v inv 0 = 0) /\
      forall i, i < k -> nth i arr 0 = v -> i <= nth v inv 0 /\ nth v inv 0 < k /\ nth (nth v inv 0) arr 0 = v)); [lia| |]|].
  - split; [apply repeat_length|]. intros v. split; [intros _; apply nth_repeat|]. intros; lia.
  - intros i inv Hi (L & H). apply okp_bind, (okp_get _ _ 0); [lia|]. apply okp_set; [rewrite L; apply Hlt; lia|].
    split; [now rewrite upd_length|]. intros v. destruct (H v) as [H0 H1].
    destruct (Nat.eq_dec (nth i arr 0) v) as [E|Ne].
    + rewrite <- E. rewrite nth_upd_eq by (rewrite L; apply Hlt; lia). split.
      * intros Hn. exfalso. apply (Hn i); auto; lia.
      * intros j Hj _. split; [lia|]. split; [lia|reflexivity].
    + rewrite nth_upd_ne by auto. split.
      * intros Hn. apply H0. intros j Hj. apply Hn. lia.
      * intros j Hj Ej. assert (j <> i) by (intros ->; auto). destruct (H1 j ltac:(lia) Ej) as (A & B & C). repeat split; auto; lia.
  - intros inv (L & H). split; [exact L|]. split.
    + intros v Hv. apply H. intros i Hi E. apply Hv. rewrite <- E. now apply nth_In.
    + intros v Hv. destruct (In_nth arr v 0 Hv) as (i & Hi & Ei). destruct (H v) as [_ H1]. destruct (H1 i Hi Ei) as (A & B & C). split.
      * rewrite (nth_error_nth' arr 0) by exact B. now rewrite C.
      * intros j Hj. assert (Hj' : j < length arr) by (apply nth_error_Some; congruence).
        apply H1; [exact Hj'|]. now apply nth_error_nth with (d := 0) in Hj.
Qed.
Print Assumptions C09_any_table.
Example C09_any_case : Forall (fun x => x < 4) [2;0;2;0] /\ inverse_permutation [2;0;2;0] = Ok [3;0;2;0].
Proof. split; [repeat constructor|reflexivity]. Qed.

(** C12: tables of 2^32 entries and more. Positions are stored in 32 bits and the position 2^32-1 is taken for the
    marker "none": on an increasing table entry 2^32 is said to have no smaller one before it *)
Lemma psv_chain_first (arr : list nat) (psv : list N) i j v : j < length arr -> i < length arr -> nth j arr 0 < nth i arr 0 ->
  v = (N.of_nat j mod 4294967296)%N -> psv_chain arr psv i (N.of_nat j) = Ok v.
Proof.
  intros Hj Hi Hlt ->. unfold psv_chain. cbn [loop]. destruct (N.eqb_spec (N.of_nat j) INVALID_VALUE) as [E|Ne].
  - cbn [bind]. rewrite E. reflexivity.
  - rewrite Nnat.Nat2N.id, (get_ok arr j 0) by auto. cbn [bind]. rewrite (get_ok arr i 0) by auto. cbn [bind].
    destruct (Nat.ltb_spec (nth j arr 0) (nth i arr 0)); [|lia]. cbn [bind]. reflexivity.
Qed.
Lemma psv_increasing arr : arr <> [] -> (forall i, S i < length arr -> nth i arr 0 < nth (S i) arr 0) ->
  okp (compute_psv arr) (fun psv => length psv = length arr /\
    forall i, S i < length arr -> nth (S i) psv 0%N = (N.of_nat i mod 4294967296)%N).
Proof.
  intros Hne Hinc. assert (H0 : 0 < length arr) by (destruct arr; [easy|simpl; lia]).
  unfold compute_psv. apply okp_bind, okp_set; [rewrite repeat_length; lia|].
  eapply okp_imp; [eapply (okp_for_range (fun k psv => length psv = length arr /\
     forall i, S i < k -> nth (S i) psv 0%N = (N.of_nat i mod 4294967296)%N)); [lia| |]|].
  - split; [now rewrite upd_length, repeat_length|]. intros i Hi. lia.
  - intros i psv Hi (L & H). apply okp_bind, okp_sub; [lia|]. apply okp_bind, okp_set; [lia|].
    rewrite (psv_chain_first arr _ i (i - 1) (N.of_nat (i - 1) mod 4294967296)%N); [| lia|lia| |reflexivity].
    + cbn [bind]. apply okp_set; [rewrite upd_length; lia|]. split; [now rewrite !upd_length|].
      intros j Hj. destruct (Nat.eq_dec (S j) i) as [E|Ne].
      * rewrite E, nth_upd_eq by (rewrite upd_length; lia). now replace (i - 1) with j by lia.
      * rewrite !nth_upd_ne by lia. apply H. lia.
    + replace i with (S (i - 1)) at 2 by lia. apply Hinc. lia.
  - auto.
Qed.
Theorem C12_large_table_refuted : forall n, (2 ^ 32 < N.of_nat n)%N ->
  exists i psv, N.of_nat (S i) = (2 ^ 32)%N /\ compute_psv (seq 0 n) = Ok psv /\
    nth i (seq 0 n) 0 < nth (S i) (seq 0 n) 0 /\ nth (S i) psv 0%N = 4294967295%N.
Proof.
  intros n Hn. change (2 ^ 32)%N with 4294967296%N in *.
  destruct (psv_increasing (seq 0 n)) as (psv & E & L & H).
  - intros E. apply (f_equal (@length nat)) in E. rewrite seq_length in E. change (length (@nil nat)) with 0 in E. lia.
  - intros i Hi. rewrite seq_length in Hi. rewrite !seq_nth by lia. lia.
  - assert (Hi : exists i, N.of_nat (S i) = 4294967296%N).
    { exists (N.to_nat 4294967295). rewrite Nnat.Nat2N.inj_succ, Nnat.N2Nat.id. reflexivity. }
    destruct Hi as (i & Ei). exists i, psv. rewrite seq_length in H.
    assert (Hin : S i < n) by lia.
    split; [exact Ei|]. split; [exact E|]. split; [rewrite !seq_nth by lia; lia|].
    rewrite H by exact Hin. replace (N.of_nat i) with 4294967295%N by lia. reflexivity.
Qed.
Print Assumptions C12_large_table_refuted.

(** C24: every range [s, e) and every logarithm 1..64 of the alphabet size; values of the counter used: s+1, s+2, .. up to
    half of e. No random letter is ever drawn *)
Theorem C24_any_range : forall s e l k, (1 <= l <= 64)%N -> (e < 2^64 - 1)%N -> (2 * s < 2^64)%N ->
  exists L, calls rsg_next k (RSG s e l) = Ok (yields L k) /\
    length L = N.to_nat ((e + 1) / 2 - s) /\
    (forall j, j < length L -> nth j L [] =
       map (fun i => N.to_nat ((((s + N.of_nat (S j)) / 2 ^ (l * N.of_nat i)) mod 2 ^ l + 1) mod 256))
           (seq 1 (N.to_nat (N.size (s + N.of_nat (S j)) / l) - 1)) ++ [0]).
Proof.
  intros s e l k Hl He Hs. change (2 ^ 64 - 1)%N with 18446744073709551615%N in He. change (2 ^ 64)%N with 18446744073709551616%N in Hs.
  set (n := N.to_nat ((e + 1) / 2 - s)).
  assert (Hn : (e <= (s + N.of_nat n) * 2)%N /\ ((0 < n)%nat -> ((s + N.of_nat n) * 2 <= e + 1)%N)).
  { unfold n. clear n. rewrite Nnat.N2Nat.id. pose proof (N.div_mod (e + 1) 2 ltac:(lia)) as E1.
    pose proof (N.mod_upper_bound (e + 1) 2 ltac:(lia)) as E2. clear - E1 E2.
    generalize dependent ((e + 1) mod 2)%N. generalize dependent ((e + 1) / 2)%N. intros; lia. }
  exists (map (fun i => rsg_string l (s + N.of_nat (S i))) (seq 0 n)).
  split; [|split].
  - pose proof (calls_list rsg_next (fun i => RSG (s + N.of_nat i) e l) (fun i => rsg_string l (s + N.of_nat (S i))) n k) as H.
    cbv beta in H. replace (RSG s e l) with (RSG (s + N.of_nat 0) e l) by (f_equal; lia). rewrite H with (i := 0).
    + now rewrite Nat.sub_0_r.
    + intros i Hi. rewrite rsg_next_some by lia.
      replace (s + N.of_nat i + 1)%N with (s + N.of_nat (S i))%N by lia. reflexivity.
    + apply rsg_next_none; [lia|]. change (2 ^ 64)%N with 18446744073709551616%N. destruct n; lia.
    + lia.
  - now rewrite map_length, seq_length.
  - intros j Hj. rewrite map_length, seq_length in Hj.
    rewrite (nth_map _ _ j 0) by (now rewrite seq_length). rewrite seq_nth by auto. reflexivity.
Qed.
Print Assumptions C24_any_range.
(** the other alphabet sizes panic on the first call *)
Theorem C24_bad_alphabet_panics : forall s e l, (l = 0 \/ 64 < l)%N -> (2 * s < e)%N -> rsg_next (RSG s e l) = Panic.
Proof.
  intros s e l Hl He. unfold rsg_next. cbn [rsg_start rsg_end rsg_log].
  destruct (N.leb_spec 18446744073709551616 (s * 2)); [reflexivity|].
  destruct (N.leb_spec e (s * 2)); [lia|]. destruct (N.leb_spec e s); [lia|].
  destruct (N.ltb_spec 64 l); [reflexivity|]. destruct Hl as [->|]; [reflexivity|lia].
Qed.
Print Assumptions C24_bad_alphabet_panics.
Example C24_any_case : calls rsg_next 4 (RSG 2 9 1) = Ok [Some [2;0]; Some [1;2;0]; Some [1;2;0]; None].
Proof. reflexivity. Qed.
