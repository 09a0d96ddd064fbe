(** EntropyProof5.v : the entropies of periodic texts in closed form. *)
From Verif Require Import Base SpecStr SpecIo SpecEntropy EntropyProof EntropyProof2 EntropyProof3 EntropyProof4.
From Coq Require Import Reals Lra Psatz.

Lemma nodup_const c x : x <> [] -> (forall a, In a x -> a = c) -> nodup Nat.eq_dec x = [c].
Proof.
  intros Hne H. assert (I : In c (nodup Nat.eq_dec x)) by (apply nodup_In; destruct x as [|a x]; [easy|]; rewrite (H a) by (now left); now left).
  assert (A : forall a, In a (nodup Nat.eq_dec x) -> a = c) by (intros a Ha; apply nodup_In in Ha; auto).
  pose proof (NoDup_nodup Nat.eq_dec x) as ND. destruct (nodup Nat.eq_dec x) as [|a [|b l]]; [easy|f_equal; apply A; now left|].
  exfalso. rewrite (A a), (A b) in ND by (simpl; auto). inversion ND as [|? ? N1 _]. apply N1. now left.
Qed.
Lemma occ_const c x : (forall a, In a x -> a = c) -> occ x c = length x.
Proof. intros H. unfold occ. induction x as [|a x IH]; [reflexivity|]. simpl. rewrite (H a) by now left. destruct (Nat.eq_dec c c); [|contradiction]. rewrite IH; [reflexivity|]. intros b Hb. apply H. now right. Qed.
Lemma nH_const c x : (forall a, In a x -> a = c) -> nH x = 0%R.
Proof.
  intros H. destruct x as [|a0 x0]; [unfold nH; simpl; lra|]. set (x := a0 :: x0) in *. rewrite nH_sum, (nodup_const c x) by (auto; discriminate).
  unfold sumR. cbn [map fold_right]. rewrite occ_const by exact H.
  assert (0 < INR (length x))%R by (apply lt_0_INR; simpl; lia). replace (INR (length x) / INR (length x))%R with 1%R by (field; lra). rewrite lg_1. lra.
Qed.
Lemma nH_two c d f : c <> d -> 0 < f -> nH (repeat c f ++ [d]) = (INR f * lg ((INR f + 1) / INR f) + lg (INR f + 1))%R.
Proof.
  intros N Hf. rewrite nH_sum. rewrite (sumR_set Nat.eq_dec _ _ [c; d]).
  - unfold sumR. cbn [map fold_right]. rewrite app_length, repeat_length. cbn [length].
    assert (O1 : occ (repeat c f ++ [d]) c = f).
    { unfold occ. rewrite count_occ_app, count_occ_repeat_eq by reflexivity. simpl. destruct (Nat.eq_dec d c); [congruence|lia]. }
    assert (O2 : occ (repeat c f ++ [d]) d = 1).
    { unfold occ. rewrite count_occ_app, count_occ_repeat_neq by congruence. simpl. destruct (Nat.eq_dec d d); [lia|congruence]. }
    rewrite O1, O2, plus_INR. simpl (INR 1). replace ((INR f + 1) / 1)%R with (INR f + 1)%R by field. lra.
  - apply NoDup_nodup.
  - constructor; [simpl; intuition|repeat constructor; auto].
  - intros a. rewrite nodup_In, in_app_iff. simpl. split.
    + intros [H|[<-|[]]]; [apply repeat_spec in H; auto|auto].
    + intros [<-|[<-|[]]]; [left|auto]. destruct f; [lia|]. now left.
Qed.
(** the numbers up to N congruent to N *)
Lemma congruent_upto p : 0 < p -> forall N, exists l, filter (fun i => i mod p =? N mod p) (seq 0 (S N)) = l ++ [N] /\
  length l = N / p /\ forall i, In i l -> i < N.
Proof.
  intros Hp. assert (NONE : forall a m N, a + m = N -> m < p -> filter (fun i => i mod p =? N mod p) (seq a m) = []).
  { intros a m N E Hm. assert (H : forall i, In i (seq a m) -> (i mod p =? N mod p) = false).
    { intros i Hi. apply in_seq in Hi. apply Nat.eqb_neq. intros Em.
      pose proof (Nat.div_mod N p ltac:(lia)) as D1. pose proof (Nat.div_mod i p ltac:(lia)) as D2. rewrite Em in D2.
      destruct (Nat.lt_trichotomy (i / p) (N / p)) as [C|[C|C]]; [|rewrite C in D2; lia|].
      - assert (p * (i / p + 1) <= p * (N / p)) by (apply Nat.mul_le_mono_l; lia). lia.
      - assert (p * (N / p) < p * (i / p)) by (apply Nat.mul_lt_mono_pos_l; lia). lia. }
    revert H. clear. induction (seq a m) as [|x l IH]; intros H; [reflexivity|]. simpl. rewrite (H x) by now left. apply IH. intros; apply H. now right. }
  induction N as [N IH] using lt_wf_ind. destruct (Nat.lt_ge_cases N p) as [C|C].
  - exists []. rewrite seq_S, filter_app, (NONE 0 N N) by lia. cbn [Nat.add filter]. rewrite Nat.eqb_refl. split; [reflexivity|].
    split; [now rewrite Nat.div_small|intros i []].
  - destruct (IH (N - p) ltac:(lia)) as (l & E & L & H).
    assert (EM : (N - p) mod p = N mod p) by (replace N with ((N - p) + 1 * p) at 2 by lia; now rewrite Nat.mod_add by lia). rewrite EM in E.
    exists (l ++ [N - p]). split; [|split].
    + rewrite seq_S. replace (seq 0 N) with (seq 0 (S (N - p)) ++ seq (S (N - p)) (p - 1)).
      * rewrite !filter_app, E, (NONE (S (N - p)) (p - 1) N) by lia. cbn [Nat.add filter]. rewrite Nat.eqb_refl, app_nil_r. reflexivity.
      * replace (S (N - p)) with (0 + S (N - p)) at 2 by lia. rewrite <- seq_app. f_equal. lia.
    + rewrite app_length, L. cbn [length]. replace N with ((N - p) + 1 * p) at 2 by lia. now rewrite Nat.div_add by lia.
    + intros i Hi. apply in_app_iff in Hi. destruct Hi as [Hi|[<-|[]]]; [specialize (H i Hi); lia|lia].
Qed.

Section PERIODIC.
Context (u s : str) (k : nat).
Context (ND : NoDup u) (Hne : u <> []) (Hz : ~ In 0 u).
Context (HP : forall i, i < length s -> nth i s 0 = nth (i mod length u) u 0).
Context (Hk1 : 1 <= k) (Hkl : k + length u <= length s).
Let p := length u.
Let t := s ++ [0].
Let L := length s.
Lemma pp_pos : 0 < p.
Proof. unfold p. destruct u; [easy|simpl; lia]. Qed.
Lemma pp_t i : i < L -> nth i t 0 = nth (i mod p) u 0.
Proof. intros H. unfold t. rewrite app_nth1 by exact H. now apply HP. Qed.
Lemma pp_end : nth L t 0 = 0.
Proof. unfold t, L. rewrite app_nth2 by lia. now rewrite Nat.sub_diag. Qed.
Lemma pp_len : length t = S L.
Proof. unfold t, L. rewrite app_length. simpl. lia. Qed.
Lemma pp_nz i : i < L -> nth i t 0 <> 0.
Proof. intros H E. rewrite pp_t in E by exact H. apply Hz. rewrite <- E. apply nth_In. apply Nat.mod_upper_bound. pose proof pp_pos. unfold p in *. lia. Qed.
Lemma pp_key i j : i + k <= L -> j + k <= L -> (firstn k (skipn i t) = firstn k (skipn j t) <-> i mod p = j mod p).
Proof.
  intros Hi Hj. pose proof pp_pos as Hp. pose proof pp_len as Lt. split.
  - intros E. apply (f_equal (fun x => nth 0 x 0)) in E. rewrite !nth_firstn, !nth_skipn, !Nat.add_0_r in E by lia.
    rewrite !pp_t in E by lia. apply (proj1 (NoDup_nth u 0) ND) in E; auto; unfold p; apply Nat.mod_upper_bound; unfold p in Hp; lia.
  - intros E. apply (nth_ext _ _ 0 0).
    + rewrite !firstn_length, !skipn_length. lia.
    + intros x Hx. rewrite firstn_length, skipn_length in Hx. rewrite !nth_firstn, !nth_skipn by lia. rewrite !pp_t by lia. f_equal.
      rewrite (Nat.add_mod i), (Nat.add_mod j), E by lia. reflexivity.
Qed.
Let w0 := firstn k (skipn (L - k) t).
Lemma pp_w0_len : length w0 = k.
Proof. unfold w0. rewrite firstn_length, skipn_length, pp_len. lia. Qed.
Lemma pp_followers w i0 : i0 + k <= L -> w = firstn k (skipn i0 t) ->
  followers t w = map (fun i => nth (i + k) t 0) (filter (fun i => i mod p =? i0 mod p) (seq 0 (S (L - k)))).
Proof.
  intros Hi Ew. pose proof pp_len as Lt. assert (Lw : length w = k) by (rewrite Ew, firstn_length, skipn_length; lia).
  unfold followers. rewrite Lw, Lt. f_equal.
  assert (ES : seq 0 (S L) = seq 0 (S (L - k)) ++ seq (S (L - k)) k) by (change (S (L - k)) with (0 + S (L - k)) at 2; rewrite <- seq_app; f_equal; unfold L in *; lia).
  rewrite ES, filter_app. clear ES.
  assert (Z : filter (fun i => eqb_str (firstn k (skipn i t)) w && (i + k <? S L)) (seq (S (L - k)) k) = []).
  { assert (H : forall i, In i (seq (S (L - k)) k) -> (i + k <? S L) = false) by (intros i Hin; apply in_seq in Hin; apply Nat.ltb_ge; unfold L in *; lia).
    revert H. clear. induction (seq (S (L - k)) k) as [|x l IH]; intros H; [reflexivity|]. simpl. rewrite (H x) by now left. rewrite andb_false_r. apply IH. intros; apply H. now right. }
  rewrite Z, app_nil_r. apply filter_ext_in. intros i Hin. apply in_seq in Hin. assert (Hi2 : i + k <= L) by (unfold L in *; lia).
  replace (i + k <? S L) with true by (symmetry; apply Nat.ltb_lt; lia). rewrite andb_true_r.
  destruct (Nat.eqb_spec (i mod p) (i0 mod p)) as [E|E].
  - apply eqb_str_eq. rewrite Ew. now apply pp_key.
  - destruct (eqb_str (firstn k (skipn i t)) w) eqn:E2; [|reflexivity]. apply eqb_str_eq in E2. exfalso. apply E. apply (pp_key i i0); auto. congruence.
Qed.
Lemma pp_sum W : contexts t k W -> let f := (L - k) / p in
  Hk t W = ((INR f * lg ((INR f + 1) / INR f) + lg (INR f + 1)) / INR (L + 1))%R.
Proof.
  intros (NW & HW) f. pose proof pp_len as Lt. pose proof pp_pos as Hp.
  assert (Hf : 0 < f) by (apply Nat.div_str_pos; unfold L, p in *; lia).
  unfold Hk. rewrite Lt. replace (L + 1) with (S L) by lia. f_equal.
  change (sumR (map (fun w => nH (followers t w)) W) = (INR f * lg ((INR f + 1) / INR f) + lg (INR f + 1))%R).
  assert (EC : L mod p = ((L - k) mod p + k) mod p) by (rewrite Nat.add_mod_idemp_l by lia; f_equal; unfold L; lia).
  rewrite (sumR_support strdec _ W [w0]).
  - unfold sumR. cbn [map fold_right]. rewrite Rplus_0_r, (pp_followers w0 (L - k)) by (unfold w0, L; auto; lia).
    destruct (congruent_upto p Hp (L - k)) as (l & E & Ll & Hl). 
    assert (Hc : forall i, In i l -> nth (i + k) t 0 = nth (L mod p) u 0).
    { intros i Hi. pose proof (Hl i Hi) as B. rewrite pp_t by (unfold L in *; lia). f_equal. rewrite EC, <- Nat.add_mod_idemp_l by lia. f_equal. f_equal.
      assert (I : In i (filter (fun i => i mod p =? (L - k) mod p) (seq 0 (S (L - k))))) by (rewrite E; apply in_app_iff; now left).
      apply filter_In in I. destruct I as (_ & I). now apply Nat.eqb_eq in I. }
    rewrite E, map_app. cbn [map]. replace (L - k + k) with L by (unfold L; lia). rewrite pp_end.
    replace (map (fun i => nth (i + k) t 0) l) with (repeat (nth (L mod p) u 0) f).
    + apply nH_two; [|exact Hf]. intros E0. apply Hz. rewrite <- E0. apply nth_In. apply Nat.mod_upper_bound. unfold p in Hp. unfold p. lia.
    + unfold f. rewrite <- Ll. clear - Hc. induction l as [|i l IH]; [reflexivity|]. cbn [length repeat map]. rewrite IH by (intros; apply Hc; now right). rewrite Hc by now left. reflexivity.
  - exact NW.
  - repeat constructor; auto.
  - intros w [<-|[]]. apply HW. split; [apply pp_w0_len|]. exists (L - k). unfold context_at, occurs_at. rewrite pp_w0_len, Lt. split; [split; [unfold L in *; lia|reflexivity]|unfold L in *; lia].
  - intros w Hw Hn. apply HW in Hw. destruct Hw as (Lw & i & (O1 & O2) & O3). rewrite Lw, Lt in *.
    apply (nH_const (nth ((i + k) mod p) u 0)). intros a Ha. rewrite (pp_followers w i) in Ha by (auto; lia).
    apply in_map_iff in Ha. destruct Ha as (j & <- & Hj). apply filter_In in Hj. destruct Hj as (Hj & Ej). apply Nat.eqb_eq in Ej. apply in_seq in Hj.
    destruct (Nat.eq_dec (j + k) L) as [EL|NL].
    + exfalso. apply Hn. left. unfold w0. rewrite <- O2. apply pp_key; [unfold L in *; lia|lia|]. rewrite <- Ej. f_equal. unfold L in *. lia.
    + rewrite pp_t by (unfold L in *; lia). f_equal. rewrite (Nat.add_mod j), (Nat.add_mod i), Ej by lia. reflexivity.
Qed.
End PERIODIC.

(** zero order: only the relative frequencies count *)
Lemma occ_power u m c : occ (power u m) c = m * occ u c.
Proof. unfold occ. induction m as [|m IH]; [reflexivity|]. cbn [power]. rewrite count_occ_app, IH. reflexivity. Qed.
Lemma length_power (u : str) m : length (power u m) = m * length u.
Proof. induction m as [|m IH]; [reflexivity|]. cbn [power]. rewrite app_length, IH. reflexivity. Qed.
Lemma H0_power u m : 0 < m -> H0 (power u m) = H0 u.
Proof.
  intros Hm. destruct u as [|a u0]; [replace (power [] m) with (@nil nat) by (clear Hm; induction m as [|m IH]; [reflexivity|exact IH]); reflexivity|]. set (u := a :: u0).
  assert (Hn : (0 < INR (length u))%R) by (apply lt_0_INR; simpl; lia). assert (HM : (0 < INR m)%R) by (apply lt_0_INR; lia).
  unfold H0. rewrite (sumR_set Nat.eq_dec _ _ (nodup Nat.eq_dec u)).
  - apply sumR_map_ext. intros c Hc. pose proof (occ_pos u c Hc). rewrite occ_power, length_power, !mult_INR. f_equal; [field; lra|]. f_equal. field. lra.
  - apply NoDup_nodup.
  - apply NoDup_nodup.
  - intros c. rewrite !nodup_In, !(count_occ_In Nat.eq_dec). fold (occ (power u m) c) (occ u c). rewrite occ_power. split; intros H; nia.
Qed.
Lemma H0_const c m : H0 (repeat c m) = 0%R.
Proof.
  destruct m as [|m]; [reflexivity|]. assert (E : nH (repeat c (S m)) = 0%R) by (apply (nH_const c); intros a Ha; now apply repeat_spec in Ha).
  unfold nH in E. apply Rmult_integral in E. destruct E as [E|E]; [|exact E]. exfalso. rewrite repeat_length in E. apply (not_0_INR (S m)) in E; auto.
Qed.
