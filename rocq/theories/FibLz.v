(** FibLz.v : the LZ77 factorization of the Fibonacci words. *)
From Verif Require Import Base SpecStr SpecLz SpecAttr SpecWord ModelLz FibFacts.

Lemma F_prefix_le n k i : n <= k -> i < f n -> F k @ i = F n @ i.
Proof.
  intros H. induction H as [|k H IH]; intros Hi; [reflexivity|]. rewrite F_prefix; [now apply IH|].
  assert (f n <= f k) by (clear -H; induction H; [lia|]; pose proof (f_mono m); lia). lia.
Qed.
Lemma f_le n k : n <= k -> f n <= f k.
Proof. induction 1 as [|k H IH]; [lia|]. pose proof (f_mono k). lia. Qed.
Lemma same_prefix_le n k j i l : n <= k -> same_substring (F n) j i l -> same_substring (F k) j i l.
Proof. induction 1; intros; [assumption|]. apply same_prefix. auto. Qed.
Lemma same_down n k j i l : n <= k -> j + l <= f n -> i + l <= f n -> same_substring (F k) j i l -> same_substring (F n) j i l.
Proof.
  intros Hk Hj Hi (_ & _ & H). split; [exact Hj|]. split; [exact Hi|]. intros x Hx.
  rewrite <- (F_prefix_le n k) by lia. rewrite <- (F_prefix_le n k (i + x)) by lia. now apply H.
Qed.

(** the factors number 3, 4, ...: [fib_factors j d] are those starting at position f j - 2, up to f (j+d) - 2 *)
Fixpoint fib_factors (j d : nat) : list lzfactor :=
  match d with
  | 0 => [LZ (f (j - 1)) 2]
  | S d' => LZ (f (j - 1)) (f (j - 1)) :: fib_factors (S j) d'
  end.
Lemma fib_factor_at m k : m + 4 <= k -> is_lz77_factor (F k) (f (m + 3) - 2) (LZ (f (m + 2)) (f (m + 2))).
Proof.
  intros Hk. right. cbn [lz_len lz_pos].
  pose proof (f_SS m) as E2. pose proof (f_SS (S m)) as E3. pose proof (f_SS (S (S m))) as E4.
  pose proof (f_pos m) as P0. pose proof (f_S m) as P1. pose proof (f_S (S m)) as P2.
  replace (m + 3) with (S (S (S m))) in * by lia. replace (m + 2) with (S (S m)) in * by lia.
  split; [lia|]. split; [lia|]. split.
  - apply (same_prefix_le (S (S (S (S m))))); [lia|].
    pose proof (same_shift (S (S m)) (f (S m) - 2) (f (S (S m))) ltac:(lia)) as SS.
    replace (f (S m) - 2 + f (S (S m))) with (f (S (S (S m))) - 2) in SS by lia.
    replace (f (S (S (S m))) - 2 - f (S (S m))) with (f (S m) - 2) by lia. apply same_sym. exact SS.
  - intros j l Hj Hs. destruct (Nat.le_gt_cases l (f (S (S m)))) as [|Hl]; [assumption|exfalso].
    pose proof (singular_unique (S m)) as (U1 & U). pose proof (f_SS (S (S (S m)))) as E5.
    (* the first f(m+2)+1 letters contain the unique word of F (m+5), which ends at f(m+4)-1 *)
    destruct (Nat.le_gt_cases (m + 5) k) as [Hk5|Hk5].
    + assert (S5 : same_substring (F (S (S (S (S (S m)))))) (j + 1) (f (S (S (S m))) - 1) (f (S (S m)))).
      { apply (same_down _ k); [lia|lia|lia|]. destruct Hs as (A & B & C). split; [lia|]. split; [lia|]. intros x Hx.
        specialize (C (x + 1) ltac:(lia)). replace (j + (x + 1)) with (j + 1 + x) in C by lia.
        replace (f (S (S (S m))) - 2 + (x + 1)) with (f (S (S (S m))) - 1 + x) in C by lia. exact C. }
      specialize (U (j + 1) S5). lia.
    + assert (k = S (S (S (S m)))) by lia. subst k.
      apply (same_prefix_le _ (S (S (S (S (S m)))))) in Hs; [|lia]. destruct Hs as (A & B & C).
      assert (S5 : same_substring (F (S (S (S (S (S m)))))) (j + 1) (f (S (S (S m))) - 1) (f (S (S m)))).
      { split; [lia|]. split; [unfold f in *; lia|]. intros x Hx.
        specialize (C (x + 1) ltac:(lia)). replace (j + (x + 1)) with (j + 1 + x) in C by lia.
        replace (f (S (S (S m))) - 2 + (x + 1)) with (f (S (S (S m))) - 1 + x) in C by lia. exact C. }
      specialize (U (j + 1) S5). lia.
Qed.
Lemma fib_last_factor k : 3 <= k -> is_lz77_factor (F k) (f k - 2) (LZ (f (k - 1)) 2).
Proof.
  intros Hk. right. cbn [lz_len lz_pos]. replace k with (S (S (k - 2))) by lia. set (m := k - 2). replace (S (S m) - 1) with (S m) by lia.
  pose proof (f_SS m) as E2. assert (Hm : 2 <= f m) by (replace m with (S (m - 1)) by lia; apply f_S). pose proof (f_S m).
  split; [lia|]. split; [lia|]. split.
  - apply same_end; lia.
  - intros j l _ (_ & B & _). fold (f (S (S m))) in B. lia.
Qed.
Lemma fib_parsing k : forall d j, 3 <= j -> j + d = k -> is_lz77_parsing (F k) (f j - 2) (fib_factors j d).
Proof.
  induction d as [|d IH]; intros j Hj Hd; cbn [fib_factors is_lz77_parsing lz_len].
  - assert (j = k) by lia. subst j. assert (2 <= f k) by (replace k with (S (k - 1)) by lia; apply f_S).
    split; [fold (f k); lia|]. split; [now apply fib_last_factor|]. fold (f k). lia.
  - pose proof (fib_factor_at (j - 3) k ltac:(lia)) as A. replace (j - 3 + 3) with j in A by lia. replace (j - 3 + 2) with (j - 1) in A by lia.
    pose proof (f_SS (j - 1)) as E. replace (S (j - 1)) with j in E by lia.
    assert (2 <= f j) by (replace j with (S (j - 1)) by lia; apply f_S). pose proof (f_pos (j - 1)).
    pose proof (f_le (S j) k ltac:(lia)).
    split; [fold (f k); lia|]. split; [exact A|]. rewrite Nat.max_r by lia.
    replace (f j - 2 + f (j - 1)) with (f (S j) - 2) by lia. apply IH; lia.
Qed.
Theorem fib_lz77 k : 3 <= k -> is_lz77_parsing (F k) 0 (LZ 97 0 :: LZ 98 0 :: LZ 2 1 :: fib_factors 3 (k - 3)).
Proof.
  intros Hk. pose proof (f_le 3 k Hk) as L. change (f 3) with 5 in L.
  assert (N : forall i, i < 5 -> F k @ i = nth i [97;98;97;97;98] 0) by (intros i Hi; rewrite (F_prefix_le 3 k); [reflexivity|lia|exact Hi]).
  cbn [is_lz77_parsing lz_len Nat.max Nat.add]. fold (f k).
  split; [lia|]. split.
  { left. cbn [lz_len lz_pos]. split; [reflexivity|]. split; [now rewrite N by lia|]. intros; lia. }
  split; [lia|]. split.
  { left. cbn [lz_len lz_pos]. split; [reflexivity|]. split; [now rewrite N by lia|]. intros j Hj. replace j with 0 by lia. rewrite !N by lia. discriminate. }
  split; [lia|]. split.
  { right. cbn [lz_len lz_pos]. split; [lia|]. split; [lia|]. split.
    - split; [fold (f k); lia|]. split; [fold (f k); lia|]. intros x Hx. replace x with 0 by lia. cbn [Nat.sub Nat.add]. now rewrite !N by lia.
    - intros j l Hj (_ & _ & C). destruct (Nat.le_gt_cases l 1) as [|Hl]; [assumption|exfalso].
      pose proof (C 0 ltac:(lia)) as C0. pose proof (C 1 ltac:(lia)) as C1. rewrite !N in C0 by lia. rewrite !N in C1 by lia.
      destruct j as [|[|j]]; [discriminate C1|discriminate C0|lia]. }
  change 3 with (f 3 - 2) at 1. apply fib_parsing; lia.
Qed.
Lemma fib_factors_len d : forall j, length (fib_factors j d) = S d.
Proof. induction d as [|d IH]; intros j; cbn [fib_factors length]; [reflexivity|]. now rewrite IH. Qed.
Lemma fib_factors_lens d : forall j, 1 <= j -> map lz_len (fib_factors j d) = map f (seq (j - 1) d) ++ [2].
Proof.
  induction d as [|d IH]; intros j Hj; cbn [fib_factors map seq lz_len]; [reflexivity|]. rewrite IH by lia.
  replace (S j - 1) with (S (j - 1)) by lia. reflexivity.
Qed.
