(** LzLyn.v : the LZ77 factorization of the Lyndon factors of the Fibonacci word: they are a y b, where y a b is a Fibonacci word. *)
From Verif Require Import Base SpecStr SpecLz SpecAttr SpecWord ModelLz ModelWord WordProof WordProof4 FibFacts FibLz LzMorph.

Lemma fib_odd_ends k : exists y, F (2 * k + 1) = y ++ [97; 98] /\ lw k = 97 :: y ++ [98].
Proof.
  induction k as [|k (y & EF & EL)]; [exists []; split; reflexivity|].
  exists (flat_map f2 y ++ [97; 98; 97]). split.
  - replace (2 * S k + 1) with (S (S (2 * k + 1))) by lia. rewrite <- f2_fib, EF, flat_map_app, <- app_assoc. reflexivity.
  - rewrite lw_S, EL. cbn [flat_map]. rewrite flat_map_app. change (lfm 97) with ([97] ++ [97; 98]). rewrite <- app_assoc, app_assoc, <- (app_assoc [97]).
    rewrite (app_assoc [97; 98]), lfm_f2, <- !app_assoc. reflexivity.
Qed.
Lemma fib_even_ends k : exists y, F (2 * k + 2) = y ++ [98; 97].
Proof.
  induction k as [|k (y & E)]; [exists [97]; reflexivity|].
  exists (flat_map f2 y ++ [97; 98; 97] ). replace (2 * S k + 2) with (S (S (2 * k + 2))) by lia. rewrite <- f2_fib, E, flat_map_app, <- app_assoc. reflexivity.
Qed.
Lemma lw_length k : length (lw k) = f (2 * k + 1).
Proof. destruct (fib_odd_ends k) as (y & EF & EL). unfold f. rewrite EF, EL. cbn [length]. rewrite !app_length. cbn [length]. lia. Qed.
(** the letters of lw k *)
Lemma lw_first k : lw k @ 0 = 97.
Proof. destruct (fib_odd_ends k) as (y & EF & EL). now rewrite EL. Qed.
Lemma lw_mid k i : i + 2 < f (2 * k + 1) -> lw k @ (i + 1) = F (2 * k + 1) @ i.
Proof.
  destruct (fib_odd_ends k) as (y & EF & EL). unfold f. rewrite EF, EL, app_length. cbn [length]. intros H. rewrite Nat.add_1_r. cbn [nth].
  rewrite !app_nth1 by lia. reflexivity.
Qed.
Lemma lw_last k i : i + 1 = f (2 * k + 1) -> lw k @ i = 98.
Proof.
  destruct (fib_odd_ends k) as (y & EF & EL). unfold f. rewrite EF, EL, app_length. cbn [length]. intros H. replace i with (S (length y)) by lia. cbn [nth].
  now rewrite app_nth2, Nat.sub_diag by lia.
Qed.
Lemma F_ends n K : 1 <= n -> n <= K -> F K @ (f n - 2) <> F K @ (f n - 1).
Proof.
  intros H HK. pose proof (f_S (n - 1)) as L. replace (S (n - 1)) with n in L by lia. rewrite (F_prefix_le n K (f n - 2)), (F_prefix_le n K (f n - 1)) by lia.
  destruct (parity_case n) as [(m & ->)|(m & ->)].
  - destruct (fib_even_ends (m - 1)) as (y & E). replace (2 * (m - 1) + 2) with (2 * m) in E by lia. unfold f. rewrite E, app_length. cbn [length].
    rewrite !app_nth2 by lia. replace (length y + 2 - 2 - length y) with 0 by lia. replace (length y + 2 - 1 - length y) with 1 by lia. discriminate.
  - destruct (fib_odd_ends m) as (y & E & _). unfold f. rewrite E, app_length. cbn [length].
    rewrite !app_nth2 by lia. replace (length y + 2 - 2 - length y) with 0 by lia. replace (length y + 2 - 1 - length y) with 1 by lia. discriminate.
Qed.
Lemma lens_last t i j m : j < i -> 1 <= m -> i + m = length t -> (forall x, x < m -> t @ (j + x) = t @ (i + x)) -> lens t i [m].
Proof.
  intros Hj Hm E H. exists [LZ (i - j) m]. split; [|reflexivity]. cbn [is_lz77_parsing lz_len]. split; [lia|]. split; [|lia].
  right. cbn [lz_len lz_pos]. split; [lia|]. split; [lia|]. split.
  - split; [lia|]. split; [lia|]. replace (i - (i - j)) with j by lia. exact H.
  - intros j' l' _ (_ & A & _). lia.
Qed.
Lemma lens_factor t i p l ls : 1 <= l -> i < length t -> is_lz77_factor t i (LZ p l) -> lens t (i + l) ls -> lens t i (l :: ls).
Proof.
  intros Hl Hi HF (fs & P & E). exists (LZ p l :: fs). split; [|cbn; now rewrite E]. split; [exact Hi|]. split; [exact HF|]. cbn [lz_len].
  replace (Nat.max 1 l) with l by lia. exact P.
Qed.
Lemma lw_factor_at k m : m + 4 <= 2 * k -> is_lz77_factor (lw k) (f (m + 3) - 1) (LZ (f (m + 2)) (f (m + 2))).
Proof.
  intros Hk. destruct (fib_factor_at m (2 * k + 1) ltac:(lia)) as [(E & _)|(P & PI & SS & M)].
  { cbn [lz_len] in E. pose proof (f_pos (m + 2)). lia. }
  cbn [lz_len lz_pos] in *. right. cbn [lz_len lz_pos].
  pose proof (f_SS (m + 2)) as E4. pose proof (f_SS (m + 1)) as E3. replace (S (S (m + 2))) with (m + 4) in E4 by lia. replace (S (m + 2)) with (m + 3) in E4 by lia.
  replace (S (S (m + 1))) with (m + 3) in E3 by lia. replace (S (m + 1)) with (m + 2) in E3 by lia.
  pose proof (f_S m) as L1. replace (S m) with (m + 1) in L1 by lia. pose proof (f_S (m + 1)) as L2. replace (S (m + 1)) with (m + 2) in L2 by lia.
  pose proof (f_le (m + 4) (2 * k) Hk) as LE. pose proof (f_SS (2 * k - 1)) as EN. replace (S (S (2 * k - 1))) with (2 * k + 1) in EN by lia. replace (S (2 * k - 1)) with (2 * k) in EN by lia.
  pose proof (f_S (2 * k - 2)) as L3. replace (S (2 * k - 2)) with (2 * k - 1) in L3 by lia.
  split; [lia|]. split; [lia|]. destruct SS as (_ & _ & SS). split.
  - split; [rewrite lw_length; lia|]. split; [rewrite lw_length; lia|]. intros x Hx. specialize (SS x Hx).
    replace (f (m + 3) - 1 - f (m + 2) + x) with (f (m + 3) - 2 - f (m + 2) + x + 1) by lia. replace (f (m + 3) - 1 + x) with (f (m + 3) - 2 + x + 1) by lia.
    rewrite !lw_mid by lia. exact SS.
  - intros j l Hj (A & B & C). rewrite lw_length in A, B. destruct (Nat.le_gt_cases l (f (m + 2))) as [|G]; [assumption|exfalso]. destruct j as [|j].
    + (* at the beginning: aa *)
      pose proof (C 0 ltac:(lia)) as C0. pose proof (C 1 ltac:(lia)) as C1. cbn [Nat.add] in C0, C1.
      apply (F_ends (m + 3) (2 * k + 1)); [lia|lia|]. 
      replace (f (m + 3) - 1 + 0) with (f (m + 3) - 2 + 1) in C0 by lia. rewrite lw_first, lw_mid in C0 by lia.
      replace 1 with (0 + 1) in C1 at 1 by lia. rewrite lw_mid in C1 by lia. rewrite lw_mid in C1 by lia.
      rewrite <- C0, <- C1. rewrite (F_prefix_le 0 (2 * k + 1)) by (try (unfold f; cbn [fib_word length]); lia). reflexivity.
    + assert (X : f (m + 2) + 1 <= f (m + 2)); [|lia]. apply (M j); [lia|]. split; [fold (f (2 * k + 1)); lia|]. split; [fold (f (2 * k + 1)); lia|].
      intros x Hx. specialize (C x ltac:(lia)). replace (S j + x) with (j + x + 1) in C by lia. replace (f (m + 3) - 1 + x) with (f (m + 3) - 2 + x + 1) in C by lia.
      rewrite !lw_mid in C by lia. exact C.
Qed.
Lemma lw_tail k d j : 2 <= k -> 4 <= j -> j + d = 2 * k -> lens (lw k) (f j - 1) (map f (seq (j - 1) d) ++ [f (2 * k - 1) + 1]).
Proof.
  intros Hk. revert j. induction d as [|d IH]; intros j Hj Hd.
  - replace j with (2 * k) by lia. cbn [seq map app].
    pose proof (f_SS (2 * k - 1)) as EN. replace (S (S (2 * k - 1))) with (2 * k + 1) in EN by lia. replace (S (2 * k - 1)) with (2 * k) in EN by lia.
    pose proof (f_SS (2 * k - 2)) as E2. replace (S (S (2 * k - 2))) with (2 * k) in E2 by lia. replace (S (2 * k - 2)) with (2 * k - 1) in E2 by lia.
    pose proof (f_S (2 * k - 3)) as L. replace (S (2 * k - 3)) with (2 * k - 2) in L by lia. pose proof (f_S (2 * k - 2)) as L'. replace (S (2 * k - 2)) with (2 * k - 1) in L' by lia.
    apply (lens_last _ _ (f (2 * k) - 1 - f (2 * k - 1))); [lia|lia|rewrite lw_length; lia|]. intros x Hx.
    destruct (Nat.eq_dec x (f (2 * k - 1))) as [->|N].
    + rewrite (lw_last k (f (2 * k) - 1 + f (2 * k - 1))) by lia. replace (f (2 * k) - 1 - f (2 * k - 1) + f (2 * k - 1)) with (f (2 * k) - 2 + 1) by lia.
      rewrite lw_mid by lia. rewrite (F_prefix_le (2 * k) (2 * k + 1)) by lia. destruct (fib_even_ends (k - 1)) as (y & E). replace (2 * (k - 1) + 2) with (2 * k) in E by lia.
      unfold f. rewrite E, app_length. cbn [length]. rewrite app_nth2 by lia. replace (length y + 2 - 2 - length y) with 0 by lia. reflexivity.
    + pose proof (same_shift (2 * k - 1) (f (2 * k) - 2 - f (2 * k - 1)) (f (2 * k - 1))) as (_ & _ & SS); [replace (S (S (2 * k - 1))) with (2 * k + 1) by lia; lia|].
      specialize (SS x ltac:(lia)). replace (S (S (2 * k - 1))) with (2 * k + 1) in SS by lia.
      replace (f (2 * k) - 1 - f (2 * k - 1) + x) with (f (2 * k) - 2 - f (2 * k - 1) + x + 1) by lia. replace (f (2 * k) - 1 + x) with (f (2 * k) - 2 - f (2 * k - 1) + f (2 * k - 1) + x + 1) by lia.
      rewrite !lw_mid by lia. symmetry. exact SS.
  - cbn [seq map app]. pose proof (f_SS (j - 1)) as E. replace (S (S (j - 1))) with (j + 1) in E by lia. replace (S (j - 1)) with j in E by lia.
    pose proof (f_S (j - 1)) as L. replace (S (j - 1)) with j in L by lia. pose proof (f_S (j - 2)) as L'. replace (S (j - 2)) with (j - 1) in L' by lia.
    apply (lens_factor _ _ (f (j - 1))); [lia|rewrite lw_length; pose proof (f_le (j + 1) (2 * k + 1)); lia| |].
    + pose proof (lw_factor_at k (j - 3) ltac:(lia)) as X. replace (j - 3 + 3) with j in X by lia. replace (j - 3 + 2) with (j - 1) in X by lia. exact X.
    + specialize (IH (j + 1) ltac:(lia) ltac:(lia)). replace (j + 1 - 1) with j in IH by lia. replace (S (j - 1)) with j by lia.
      replace (f j - 1 + f (j - 1)) with (f (j + 1) - 1) by lia. exact IH.
Qed.
Lemma lw_start k i : 2 <= k -> i < 12 -> lw k @ i = [97;97;98;97;97;98;97;98;97;97;98;97] @ i.
Proof.
  intros Hk Hi. pose proof (f_le 5 (2 * k + 1) ltac:(lia)) as L. change (f 5) with 13 in L. destruct i as [|i]; [apply lw_first|].
  rewrite <- Nat.add_1_r, lw_mid by lia. rewrite (F_prefix_le 5) by (change (f 5) with 13; lia). do 11 (destruct i as [|i]; [reflexivity|]). lia.
Qed.
Definition lw_lengths (k : nat) : list nat := [0; 1; 0; 4] ++ map f (seq 3 (2 * k - 4)) ++ [f (2 * k - 1) + 1].
Theorem lw_lz77 k : 2 <= k -> lens (lw k) 0 (lw_lengths k).
Proof.
  intros Hk. pose proof (f_le 5 (2 * k + 1) ltac:(lia)) as L. change (f 5) with 13 in L. rewrite <- lw_length in L. set (s := fun i => lw k @ i).
  assert (A : agrees (lw k) s) by (intros i _; reflexivity). assert (N : forall i, i < 12 -> s i = [97;97;98;97;97;98;97;98;97;97;98;97] @ i) by (intros; now apply lw_start).
  assert (lit : forall i ls, i < 12 -> (forall j, j < i -> [97;97;98;97;97;98;97;98;97;97;98;97] @ j <> [97;97;98;97;97;98;97;98;97;97;98;97] @ i) -> lens (lw k) (i + 1) ls -> lens (lw k) i (0 :: ls)).
  { intros i ls Hi H. apply (lens_lit _ s); [exact A|lia|]. intros j Hj. rewrite !N by lia. now apply H. }
  assert (cop : forall i l ls, 1 <= l -> i + l < 12 -> lpf (fun i => [97;97;98;97;97;98;97;98;97;97;98;97] @ i) i l -> lens (lw k) (i + l) ls -> lens (lw k) i (l :: ls)).
  { intros i l ls Hl Hi ((j & Hj & O) & M). apply (lens_copy _ s _ l); [exact A| |exact Hl|left; lia]. split.
    - exists j. split; [exact Hj|]. intros x Hx. rewrite !N by lia. now apply O.
    - intros j' Hj' O'. apply (M j' Hj'). intros x Hx. specialize (O' x Hx). rewrite !N in O' by lia. exact O'. }
  unfold lw_lengths. cbn [app].
  apply lit; [lia|intros; lia|]. apply cop; [lia|lia|apply lpfb_ok; vm_compute; reflexivity|].
  apply lit; [cbn; lia|intros [|[|j]] Hj; [discriminate|discriminate|lia]|]. apply cop; [lia|lia|apply lpfb_ok; vm_compute; reflexivity|].
  change (0 + 1 + 1 + 1 + 4) with (f 4 - 1). apply (lw_tail k (2 * k - 4) 4); lia.
Qed.
