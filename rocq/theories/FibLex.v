(** FibLex.v : the lexparse of the Fibonacci words of even index. *)
From Verif Require Import Base SpecStr SpecBwt SpecLz SpecAttr SpecWord SpecLex LexFacts ModelCore ModelLz PermFacts SortFacts BorderProof BwtFacts BwtProof
  MusProof LexProof FibFacts FibBwt FibBwt2 FibLz.

Section Swap3.
  Context (P : str) (x y s : nat).
  Let w := P ++ [y; x].
  Let n := length w.
  Context (Hxy : x < y) (Hs : 2 <= s < n) (Hrot : rot s w = P ++ [x; y]) (Hg : Nat.gcd n s = 1).
  Let p := sw2_p P x y s.
  Lemma sw3_index q : q < n -> exists j, j < n /\ q = p j.
  Proof.
    intros Hq. pose proof (sw2_perm P x y s Hxy Hs Hrot Hg) as HP. destruct (is_perm_surj _ _ q HP Hq) as (j & Hj & Ej).
    exists j. split; [exact Hj|]. rewrite <- Ej. now apply (sw2_I_nth P x y s Hxy Hs Hg).
  Qed.
  Lemma sw3_lt i j : j < n -> i < j -> lex_lt (skipn (p i) w) (skipn (p j) w).
  Proof.
    intros Hj Hij. pose proof (sw2_chain P x y s Hxy Hs Hg (fun q => skipn q w)) as C. cbv beta in C.
    replace j with (i + S (j - i - 1)) by lia. apply C; [|fold w; fold n; lia]. intros k Hk. now apply (sw2_suf_step P x y s Hxy Hs Hrot Hg).
  Qed.
  Lemma sw3_pred q : q < n -> q <> n - 1 -> is_lex_pred w ((q + s) mod n) q.
  Proof.
    intros Hq Hne. destruct (sw3_index q Hq) as (j & Hj & ->). destruct j as [|j]; [exfalso; apply Hne; exact (sw2_0 P x y s Hxy Hs Hg)|].
    assert (EJ : (p (S j) + s) mod n = p j) by (symmetry; exact (sw2_p_S P x y s Hxy Hs Hg j)). rewrite EJ. split; [apply (sw2_p_lt P x y s Hxy Hs Hg)|]. split.
    - apply sw3_lt; lia.
    - intros k Hk Hlt. destruct (sw3_index k Hk) as (i & Hi & ->). destruct (Nat.lt_trichotomy i j) as [L|[->|L]].
      + right. apply sw3_lt; lia.
      + now left.
      + exfalso. destruct (Nat.eq_dec i (S j)) as [->|].
        * revert Hlt. apply lex_lt_irrefl.
        * apply (lex_lt_irrefl (skipn (p i) w)). eapply lex_lt_trans; [exact Hlt|]. apply sw3_lt; lia.
  Qed.
  Lemma sw3_first j : ~ is_lex_pred w j (n - 1).
  Proof.
    intros (Hj & Hlt & _). destruct (sw3_index j Hj) as (i & Hi & ->). unfold n in Hlt. fold n in Hlt.
    assert (E0 : p 0 = n - 1) by exact (sw2_0 P x y s Hxy Hs Hg). rewrite <- E0 in Hlt. destruct i as [|i]; [revert Hlt; apply lex_lt_irrefl|].
    apply (lex_lt_irrefl (skipn (p 0) w)). eapply lex_lt_trans; [|exact Hlt]. apply sw3_lt; lia.
  Qed.
End Swap3.

Lemma nth_skipn' (t : str) i j : nth j (skipn i t) 0 = nth (i + j) t 0.
Proof. revert i. induction t as [|c t IH]; intros [|i]; cbn [skipn]; try reflexivity; [now destruct j|]. rewrite IH. reflexivity. Qed.
Lemma is_lcp_nth t i j l : i + l <= length t -> j + l <= length t -> (forall x, x < l -> nth (i + x) t 0 = nth (j + x) t 0) ->
  (i + l < length t -> j + l < length t -> nth (i + l) t 0 <> nth (j + l) t 0) -> is_lcp (skipn i t) (skipn j t) l.
Proof.
  intros Hi Hj H Hne. split; [|split; [|split]].
  - apply (nth_ext_len _ _ 0).
    + rewrite !firstn_length, !skipn_length. lia.
    + intros x Hx. rewrite firstn_length, skipn_length in Hx. rewrite !nth_firstn by lia. rewrite !nth_skipn'. apply H. lia.
  - rewrite skipn_length. lia.
  - rewrite skipn_length. lia.
  - rewrite !skipn_length, !nth_skipn'. intros; apply Hne; lia.
Qed.

Lemma fib_even_pred m : let n := f (2 * m + 2) in let s := f (2 * m + 1) in
  (forall q, q < n -> q <> n - 1 -> is_lex_pred (F (2 * m + 2)) ((q + s) mod n) q) /\
  (forall j, ~ is_lex_pred (F (2 * m + 2)) j (n - 1)) /\ (exists P, F (2 * m + 2) = P ++ [98; 97] /\ F (2 * m) ++ F (S (2 * m)) = P ++ [97; 98]).
Proof.
  replace (2 * m + 2) with (S (S (2 * m))) by lia. replace (2 * m + 1) with (S (2 * m)) by lia.
  destruct (near_commute_parity m) as ((P & E1 & E2) & _).
  pose proof (f_pos (2 * m)) as L0. pose proof (f_S (2 * m)) as L1. pose proof (f_SS (2 * m)) as LS.
  rewrite <- F_SS in E1. set (k := 2 * m) in *. clearbody k. cbv zeta.
  assert (HW : f (S (S k)) = length (P ++ [98; 97])) by (unfold f; now rewrite E1).
  assert (A1 : 97 < 98) by lia. assert (A2 : 2 <= f (S k) < length (P ++ [98; 97])) by lia.
  assert (A3 : rot (f (S k)) (P ++ [98; 97]) = P ++ [97; 98]) by (rewrite <- E1, <- E2, F_SS; unfold f; apply rot_app).
  assert (A4 : Nat.gcd (length (P ++ [98; 97])) (f (S k)) = 1) by (rewrite <- HW; apply f_coprime).
  split; [|split; [|exists P; auto]].
  - intros q Hq Hne. rewrite HW in *. rewrite E1. exact (sw3_pred P 97 98 (f (S k)) A1 A2 A3 A4 q Hq Hne).
  - intros j. rewrite HW, E1. exact (sw3_first P 97 98 (f (S k)) A1 A2 A3 A4 j).
Qed.

Theorem fib_even_lexparse m : 1 <= m ->
  is_lexparse (F (2 * m + 2)) 0 [LZ (f (2 * m + 1)) (f (2 * m)); LZ 0 (f (2 * m + 1) - 2); LZ 98 0; LZ 97 0].
Proof.
  intros Hm. destruct (fib_even_pred m) as (HP & H1 & P & EP & EQ).
  replace (2 * m + 2) with (S (S (2 * m))) in * by lia. replace (2 * m + 1) with (S (2 * m)) in * by lia.
  pose proof (f_SS (2 * m)) as LS. set (k := 2 * m) in *.
  assert (Lk : 3 <= f k) by (pose proof (f_le 2 k ltac:(unfold k; lia)) as X; exact X).
  assert (Lk1 : 5 <= f (S k)) by (pose proof (f_le 3 (S k) ltac:(unfold k; lia)) as X; exact X).
  clearbody k. set (w := F (S (S k))) in *. assert (Lw : length w = f (S (S k))) by reflexivity.
  assert (LP : length P = f (S (S k)) - 2) by (rewrite <- Lw, EP, app_length; simpl; lia).
  cbn [is_lexparse lz_len lz_pos]. rewrite Lw. rewrite !Nat.max_r by lia. cbn [Nat.max].
  split; [lia|]. split.
  { right. cbn [lz_len lz_pos]. split; [lia|]. split.
    - specialize (HP 0 ltac:(lia) ltac:(lia)). rewrite Nat.add_0_l, Nat.mod_small in HP by lia. exact HP.
    - apply is_lcp_nth; [lia|lia| |lia]. intros x Hx. unfold w. rewrite F_tail.
      cbn [Nat.add]. symmetry. apply F_prefix_le; lia. }
  split; [lia|]. split.
  { right. cbn [lz_len lz_pos]. split; [lia|]. split.
    - specialize (HP (f k) ltac:(lia) ltac:(lia)). replace (f k + f (S k)) with (f (S (S k))) in HP by lia. rewrite Nat.mod_same in HP by lia. exact HP.
    - apply is_lcp_nth; [lia|lia| |].
      + intros x Hx. cbn [Nat.add]. rewrite (Nat.add_comm (f k)). symmetry. apply F_period. lia.
      + intros _ _. cbn [Nat.add]. destruct (F_mismatch k) as (a & b & Hab & M1 & M2 & M3 & M4). unfold w.
        rewrite M1. replace (f k + (f (S k) - 2)) with (f (S k) - 2 + f k) by lia. rewrite M3. congruence. }
  replace (0 + f k + (f (S k) - 2)) with (f (S (S k)) - 2) by lia.
  split; [lia|]. split.
  { left. cbn [lz_len lz_pos]. split; [reflexivity|]. split.
    - rewrite EP, app_nth2, LP by lia. now rewrite Nat.sub_diag.
    - intros j Hj. pose proof (HP (f (S (S k)) - 2) ltac:(lia) ltac:(lia)) as HQ.
      replace (f (S (S k)) - 2 + f (S k)) with (f (S k) - 2 + 1 * f (S (S k))) in HQ by lia. rewrite Nat.mod_add, Nat.mod_small in HQ by lia.
      rewrite (lex_pred_unique _ _ _ _ Hj HQ). apply is_lcp_nth; [lia|lia|lia|]. intros _ _.
      destruct (F_mismatch k) as (a & b & Hab & M1 & M2 & M3 & M4). rewrite !Nat.add_0_r. unfold w.
      rewrite M1. replace (f (S (S k)) - 2) with (f (S k) - 2 + f k) by lia. rewrite M3. congruence. }
  replace (f (S (S k)) - 2 + 1) with (f (S (S k)) - 1) by lia.
  split; [lia|]. split.
  { left. cbn [lz_len lz_pos]. split; [reflexivity|]. split.
    - rewrite EP, app_nth2, LP by lia. replace (f (S (S k)) - 1 - (f (S (S k)) - 2)) with 1 by lia. reflexivity.
    - intros j Hj. now apply H1 in Hj. }
  lia.
Qed.
