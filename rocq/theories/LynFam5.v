(** LynFam5.v : the Lyndon factorization of the power2 words. *)
From Verif Require Import Base SpecStr LexFacts SpecWord ModelWord LynMorph.

Definition blk (j : nat) : str := repeat 97 (2 ^ j - 1) ++ [98].
Lemma rep_lt n : forall m, m < n -> lex_lt (repeat 97 n ++ [98]) (repeat 97 m ++ [98]).
Proof. induction n as [|n IH]; intros m H; [lia|]. destruct m as [|m]; [apply lex_head; lia|]. cbn [repeat app]. apply lex_tail. apply IH. lia. Qed.
Lemma rep_split n : forall u v, repeat 97 n ++ [98] = u ++ v -> u <> [] -> v <> [] -> exists m, m < n /\ v = repeat 97 m ++ [98].
Proof.
  induction n as [|n IH]; intros u v E Hu Hv; destruct u as [|c u]; try congruence; cbn [repeat app] in E; injection E as <- E.
  - destruct u, v; try congruence; discriminate E.
  - destruct u as [|c u]; [exists n; split; [lia|symmetry; exact E]|]. destruct (IH _ _ E ltac:(discriminate) Hv) as (m & Hm & ->). exists m. split; [lia|reflexivity].
Qed.
Lemma blk_lyndon j : lyndon (blk j).
Proof. unfold blk. split; [destruct (repeat 97 _); discriminate|]. intros u v E Hu Hv. destruct (rep_split _ _ _ E Hu Hv) as (m & Hm & ->). now apply rep_lt. Qed.
Lemma pow_pos j : 1 <= 2 ^ j. Proof. pose proof (Nat.pow_nonzero 2 j). lia. Qed.
Lemma blk_down j : lex_le (blk (S j)) (blk j).
Proof. right. apply rep_lt. pose proof (pow_pos j). cbn [Nat.pow]. lia. Qed.
Lemma blk_len j : length (blk j) = 2 ^ j.
Proof. unfold blk. rewrite app_length, repeat_length. pose proof (pow_pos j). cbn [length]. lia. Qed.
Definition V (n : nat) : str := 98 :: concat (map blk (seq 0 n)).
Lemma V_S n : V (S n) = V n ++ blk n.
Proof. unfold V. rewrite seq_S, map_app, concat_app. cbn [map concat Nat.add]. rewrite app_nil_r. reflexivity. Qed.
Lemma V_len n : length (V n) = 2 ^ n.
Proof. induction n as [|n IH]; [reflexivity|]. rewrite V_S, app_length, IH, blk_len. cbn [Nat.pow]. lia. Qed.
Definition pow2 (i : nat) : Prop := exists e, i = 2 ^ e.
Lemma pow2_between n i : 2 ^ n < i -> i < 2 ^ S n -> ~ pow2 i.
Proof.
  intros A C (e & ->). apply Nat.pow_lt_mono_r_iff in A; [|lia]. apply Nat.pow_lt_mono_r_iff in C; lia.
Qed.
Lemma nth_rep d n i : i < n -> nth i (repeat 97 n) d = 97.
Proof. revert i. induction n as [|n IH]; intros i H; [lia|]. destruct i as [|i]; [reflexivity|]. cbn [repeat nth]. apply IH. lia. Qed.
Lemma V_nth n i : i < 2 ^ n -> (nth i (V n) 0 = 98 /\ pow2 (i + 1)) \/ (nth i (V n) 0 = 97 /\ ~ pow2 (i + 1)).
Proof.
  induction n as [|n IH]; intros H; [cbn in H; replace i with 0 by lia; left; split; [reflexivity|exists 0; reflexivity]|].
  rewrite V_S. destruct (Nat.lt_ge_cases i (2 ^ n)) as [C|C]; [rewrite app_nth1 by (rewrite V_len; exact C); auto|]. rewrite app_nth2 by (rewrite V_len; exact C). rewrite V_len.
  pose proof (pow_pos n). cbn [Nat.pow] in H. unfold blk. destruct (Nat.eq_dec i (2 ^ S n - 1)) as [E|N]; cbn [Nat.pow] in *.
  - left. rewrite app_nth2; rewrite repeat_length; [|lia]. replace (i - 2 ^ n - (2 ^ n - 1)) with 0 by lia. split; [reflexivity|]. exists (S n). cbn [Nat.pow]. lia.
  - right. rewrite app_nth1 by (rewrite repeat_length; lia). split; [apply nth_rep; lia|]. apply (pow2_between n); cbn [Nat.pow]; lia.
Qed.
Definition p2_factors (k : nat) : list str := ([98] :: map blk (seq 0 (k - 1))) ++ repeat [97] (2 ^ (k - 1) - 1) ++ [[0]].
Lemma concat_rep n : concat (repeat [97] n) = repeat 97 n.
Proof. induction n as [|n IH]; [reflexivity|]. cbn [repeat concat app]. now rewrite IH. Qed.
Lemma p2_concat k w : 1 <= k -> length w = 2 ^ k -> nth (2 ^ k - 1) w 1 = 0 -> (forall j, 1 <= j < 2 ^ k -> nth (j - 1) w 0 = 97 \/ nth (j - 1) w 0 = 98) ->
  (forall j, 1 <= j < 2 ^ k -> (nth (j - 1) w 0 = 98 <-> exists e, j = 2 ^ e)) -> w = V (k - 1) ++ repeat 97 (2 ^ (k - 1) - 1) ++ [0].
Proof.
  intros Hk L Z A P. destruct k as [|k]; [lia|]. replace (S k - 1) with k by lia. pose proof (pow_pos k) as Hp. cbn [Nat.pow] in *. apply (nth_ext_len _ _ 0).
  - rewrite L, !app_length, V_len, repeat_length. cbn [length]. lia.
  - intros i Hi. rewrite L in Hi. destruct (Nat.eq_dec i (2 * 2 ^ k - 1)) as [->|N].
    + rewrite (nth_indep _ 0 1) by lia. rewrite Z. rewrite app_nth2; rewrite V_len; [|lia]. rewrite app_nth2; rewrite repeat_length; [|lia]. replace (2 * 2 ^ k - 1 - 2 ^ k - (2 ^ k - 1)) with 0 by lia. reflexivity.
    + specialize (A (i + 1) ltac:(lia)). specialize (P (i + 1) ltac:(lia)). replace (i + 1 - 1) with i in * by lia. destruct (Nat.lt_ge_cases i (2 ^ k)) as [C|C].
      * rewrite app_nth1 by (rewrite V_len; exact C). destruct (V_nth k i C) as [(-> & Q)|(-> & Q)]; [now apply P|]. destruct A as [A|A]; [exact A|]. exfalso. apply Q. now apply P.
      * rewrite app_nth2; rewrite V_len; [|lia]. rewrite app_nth1 by (rewrite repeat_length; lia). rewrite nth_rep by lia. destruct A as [A|A]; [exact A|]. exfalso. apply P in A. revert A. apply (pow2_between k); cbn [Nat.pow]; lia.
Qed.
Lemma rep_factors n : lyndon_factorization (repeat 97 n) (repeat [97] n).
Proof.
  split; [apply concat_rep|]. split; [apply Forall_forall; intros x Hx; apply repeat_spec in Hx; subst x; apply lyndonb_ok; reflexivity|].
  induction n as [|n IH]; [exact I|]. destruct n as [|n]; [exact (conj I I)|]. split; [left; reflexivity|exact IH].
Qed.
Lemma rep_last {A} (x : A) n r f : repeat x n = r ++ [f] -> f = x.
Proof. intros E. apply (repeat_spec n). rewrite E. apply in_or_app. right. left. reflexivity. Qed.
Lemma V_factors n : lyndon_factorization (V n) ([98] :: map blk (seq 0 n)).
Proof.
  apply (factors_app [[98]] (map blk (seq 0 n)) [98] (concat (map blk (seq 0 n)))); [apply factors_one, lyndonb_ok; reflexivity|apply (down_chain blk); [apply blk_lyndon|apply blk_down]|].
  intros f r g s E1 E2. apply (last_inj [] r _ f) in E1. subst f. destruct n as [|n]; [discriminate E2|]. injection E2 as <- _. left. reflexivity.
Qed.
Lemma single_le w : lyndon w -> Forall (fun c => 97 <= c) w -> lex_le [97] w.
Proof.
  intros (N & _) H. destruct w as [|c w]; [congruence|]. inversion H as [|? ? Hc _]; subst. destruct (Nat.eq_dec c 97) as [->|D]; [|right; apply lex_head; lia].
  destruct w as [|d w]; [left; reflexivity|right; apply lex_tail; constructor].
Qed.
Theorem p2_factors_ok k w : 1 <= k -> w = V (k - 1) ++ repeat 97 (2 ^ (k - 1) - 1) ++ [0] -> lyndon_factorization w (p2_factors k).
Proof.
  intros Hk ->. unfold p2_factors. apply factors_app; [apply V_factors|apply factors_app; [apply rep_factors|apply factors_one, lyndonb_ok; reflexivity|]|].
  - intros f r g s E1 E2. injection E2 as <- _. apply rep_last in E1. subst f. right. apply lex_head. lia.
  - intros f r g s E1 E2.
    assert (F : lyndon f /\ Forall (fun c => 97 <= c) f).
    { destruct (V_factors (k - 1)) as (_ & H & _). rewrite E1 in H. apply Forall_app in H. destruct H as (_ & H). inversion H as [|? ? Hf _]; subst. split; [exact Hf|].
      assert (I : In f ([98] :: map blk (seq 0 (k - 1)))) by (rewrite E1; apply in_or_app; right; left; reflexivity). destruct I as [<-|I]; [constructor; [lia|constructor]|].
      apply in_map_iff in I. destruct I as (j & <- & _). unfold blk. apply Forall_app. split; [|constructor; [lia|constructor]]. apply Forall_forall. intros x Hx. apply repeat_spec in Hx. lia. }
    destruct F as (F1 & F2). destruct (2 ^ (k - 1) - 1) as [|n]; injection E2 as <- _.
    + destruct F1 as (N & _). destruct f as [|c f]; [congruence|]. inversion F2; subst. right. apply lex_head. lia.
    + now apply single_le.
Qed.
Lemma p2_factors_len k : 1 <= k -> length (p2_factors k) = k + 2 ^ (k - 1).
Proof. intros H. unfold p2_factors. rewrite !app_length. cbn [length]. rewrite map_length, seq_length, repeat_length. pose proof (pow_pos (k - 1)). lia. Qed.
Lemma p2_factors_lengths k : 1 <= k -> map (@length nat) (p2_factors k) = 1 :: map (fun j => 2 ^ j) (seq 0 (k - 1)) ++ repeat 1 (2 ^ (k - 1)).
Proof.
  intros H. unfold p2_factors. rewrite !map_app. cbn [map length app]. f_equal. f_equal; [rewrite map_map; apply map_ext; intros; apply blk_len|].
  pose proof (pow_pos (k - 1)). replace (2 ^ (k - 1)) with (2 ^ (k - 1) - 1 + 1) at 2 by lia. rewrite repeat_app. f_equal. induction (2 ^ (k - 1) - 1) as [|n IH]; [reflexivity|]. cbn [repeat map length]. now rewrite IH.
Qed.
