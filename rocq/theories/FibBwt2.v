(** FibBwt2.v : the suffix-array BWT of a word ending with its larger letter before its smaller one, a rotation of
    which swaps these two letters; Fibonacci words of even and of odd index. *)
From Verif Require Import Base SpecStr SpecBwt SpecIo LexFacts ModelCore PermFacts SortFacts BorderProof BwtFacts BwtProof RunFacts SpecWord FibFacts FibBwt.

Section Swap2.
Context (P : str) (x y s : nat).
Let w := P ++ [y; x].
Let n := length w.
Context (Hxy : x < y).
Context (Hs : 2 <= s < n).
Context (Hrot : rot s w = P ++ [x; y]).
Context (Hg : Nat.gcd n s = 1).

Lemma sw2_n : n = length P + 2.
Proof. unfold n, w. rewrite app_length. simpl. lia. Qed.
Definition sw2_p (j : nat) : nat := (n - 1 + (n - s) * j) mod n.
Lemma sw2_p_lt j : sw2_p j < n.
Proof. apply Nat.mod_upper_bound. lia. Qed.
Lemma sw2_p_S j : sw2_p j = (sw2_p (S j) + s) mod n.
Proof.
  unfold sw2_p. rewrite Nat.add_mod_idemp_l by lia. replace (n - 1 + (n - s) * S j + s) with (n - 1 + (n - s) * j + 1 * n) by lia.
  now rewrite Nat.mod_add by lia.
Qed.
Lemma sw2_0 : sw2_p 0 = n - 1.
Proof. unfold sw2_p. rewrite Nat.mul_0_r, Nat.add_0_r. apply Nat.mod_small. lia. Qed.
Lemma sw2_ne j : S j < n -> sw2_p (S j) <> n - 1.
Proof.
  intros Hj E. unfold sw2_p in E.
  assert (D : Nat.divide n ((n - s) * S j)).
  { exists ((n - 1 + (n - s) * S j) / n). pose proof (Nat.div_mod (n - 1 + (n - s) * S j) n ltac:(lia)) as D. rewrite E in D. lia. }
  apply Nat.gauss in D; [apply Nat.divide_pos_le in D; lia|].
  apply Nat.divide_1_r. rewrite <- Hg. apply Nat.gcd_greatest; [apply Nat.gcd_divide_l|].
  replace s with (n - (n - s)) at 2 by lia. apply Nat.divide_sub_r; [apply Nat.gcd_divide_l|apply Nat.gcd_divide_r].
Qed.
Lemma sw2_rot_S j : rot (sw2_p j) w = rot (sw2_p (S j)) (P ++ [x; y]).
Proof. rewrite <- Hrot, rot_rot; [|apply sw2_p_lt|fold n; lia]. now rewrite <- sw2_p_S. Qed.
(** rotations *)
Lemma sw2_rot_step j : S j < n -> lex_lt (rot (sw2_p j) w) (rot (sw2_p (S j)) w).
Proof.
  intros Hj. pose proof (sw2_ne j Hj) as N. pose proof (sw2_p_lt (S j)) as L. pose proof sw2_n as En.
  rewrite sw2_rot_S. unfold w, rot. rewrite !skipn_app, !firstn_app.
  replace (sw2_p (S j) - length P) with 0 by lia. cbn [skipn firstn]. rewrite <- !app_assoc.
  apply lex_lt_app_same. cbn [app]. now apply lex_head.
Qed.
(** suffixes *)
Lemma sw2_suf_step j : S j < n -> lex_lt (skipn (sw2_p j) w) (skipn (sw2_p (S j)) w).
Proof.
  intros Hj. pose proof (sw2_ne j Hj) as N. pose proof (sw2_p_lt (S j)) as L. pose proof sw2_n as En.
  set (i := sw2_p (S j)) in *. set (q := sw2_p j).
  assert (Lq : q < n) by apply sw2_p_lt.
  assert (Eq : q = (i + s) mod n) by apply sw2_p_S.
  assert (A : skipn i w = skipn i P ++ [y; x]) by (unfold w; rewrite skipn_app; replace (i - length P) with 0 by lia; reflexivity).
  assert (B : rot q w = skipn i P ++ [x; y] ++ firstn i P).
  { unfold q, i. rewrite sw2_rot_S. unfold rot. rewrite skipn_app, firstn_app. fold i. replace (i - length P) with 0 by lia. cbn [skipn firstn].
    rewrite app_nil_r, <- app_assoc. reflexivity. }
  assert (Lk : length (skipn q w) = n - q) by (rewrite skipn_length; reflexivity).
  assert (C : skipn q w = firstn (n - q) (rot q w)).
  { unfold rot. rewrite firstn_app, Lk, Nat.sub_diag, app_nil_r. rewrite firstn_all2; [reflexivity|lia]. }
  destruct (Nat.lt_ge_cases (i + s) n) as [H|H].
  - rewrite Nat.mod_small in Eq by exact H. rewrite C, B, A. rewrite firstn_app.
    assert (Lp : length (skipn i P) = length P - i) by apply skipn_length. rewrite Lp.
    replace (n - q - (length P - i)) with 0 by lia. rewrite app_nil_r.
    rewrite <- (firstn_skipn (n - q) (skipn i P)) at 2. rewrite <- app_assoc. apply lex_lt_prefix.
    intros E. apply (f_equal (@length nat)) in E. rewrite app_length in E. simpl in E. lia.
  - assert (Eq' : q = i + s - n).
    { rewrite Eq. replace (i + s) with (i + s - n + 1 * n) at 1 by lia. rewrite Nat.mod_add by lia. apply Nat.mod_small. lia. }
    rewrite C, B, A. rewrite firstn_app.
    assert (Lp : length (skipn i P) = length P - i) by apply skipn_length. rewrite Lp.
    rewrite firstn_all2 by (rewrite Lp; lia). apply lex_lt_app_same.
    replace (n - q - (length P - i)) with (S (n - q - (length P - i) - 1)) by lia. cbn [firstn app]. now apply lex_head.
Qed.
Definition sw2_I : list nat := map sw2_p (seq 0 n).
Lemma sw2_I_nth j : j < n -> nth j sw2_I 0 = sw2_p j.
Proof. intros H. unfold sw2_I. rewrite (nth_indep _ 0 (sw2_p 0)) by (rewrite map_length, seq_length; lia). rewrite map_nth, seq_nth by exact H. reflexivity. Qed.
Lemma sw2_chain (g : nat -> str) : (forall j, S j < n -> lex_lt (g (sw2_p j)) (g (sw2_p (S j)))) ->
  forall j d, j + S d < n -> lex_lt (g (sw2_p j)) (g (sw2_p (j + S d))).
Proof.
  intros St j. induction d as [|d IH]; intros H.
  - replace (j + 1) with (S j) by lia. apply St. lia.
  - eapply lex_lt_trans; [apply IH; lia|]. replace (j + S (S d)) with (S (j + S d)) by lia. apply St. lia.
Qed.
Lemma sw2_perm : is_perm n sw2_I.
Proof.
  assert (K : forall i j, i < j -> j < n -> sw2_p i <> sw2_p j).
  { intros i j H1 H2 E. apply (lex_lt_irrefl (rot (sw2_p i) w)). rewrite E at 2. replace j with (i + S (j - i - 1)) by lia.
    apply (sw2_chain (fun p => rot p w)); [exact sw2_rot_step|lia]. }
  apply is_perm_intro.
  - unfold sw2_I. now rewrite map_length, seq_length.
  - intros i Hi. rewrite sw2_I_nth by exact Hi. apply sw2_p_lt.
  - intros i j Hi Hj. rewrite !sw2_I_nth by assumption. intros E.
    destruct (Nat.lt_trichotomy i j) as [H|[H|H]]; [|exact H|]; exfalso; [eapply K; eauto|eapply K; eauto].
Qed.
Lemma sw2_sorted (g : nat -> str) : (forall j, S j < n -> lex_lt (g (sw2_p j)) (g (sw2_p (S j)))) ->
  StronglySorted (fun i j => lex_lt (g i) (g j)) sw2_I.
Proof.
  intros St. unfold sw2_I. assert (G : forall m a, a + m <= n -> StronglySorted (fun i j => lex_lt (g i) (g j)) (map sw2_p (seq a m))).
  { induction m as [|m IH]; intros a Ha; [constructor|]. cbn [seq map]. constructor; [apply IH; lia|].
    apply Forall_forall. intros q Hq. apply in_map_iff in Hq. destruct Hq as (j & <- & Hj). apply in_seq in Hj.
    replace j with (a + S (j - a - 1)) by lia. apply sw2_chain; [exact St|lia]. }
  apply G. lia.
Qed.
Lemma sw2_sa : is_suffix_array w sw2_I.
Proof. split; [exact sw2_perm|]. apply (sw2_sorted (fun i => skipn i w)). exact sw2_suf_step. Qed.
Lemma sw2_matrix : is_matrix_bwt w (sa_letters w sw2_I).
Proof.
  apply sorted_rot_matrix; [exact sw2_perm|]. eapply StronglySorted_imp_in; [|apply (sw2_sorted (fun i => rot i w)); exact sw2_rot_step].
  intros a b _ _ H. now right.
Qed.
(** the position of 0 in the suffix array: the first x of the transform *)
Lemma sw2_zero : exists A B, sw2_I = A ++ 0 :: B /\ A <> [] /\ nth (length A - 1) (sa_letters w sw2_I) 0 = y /\ nth (length A) (sa_letters w sw2_I) 0 = x.
Proof.
  pose proof sw2_n as En. destruct (is_perm_surj n sw2_I 0 sw2_perm ltac:(lia)) as (j0 & Hj0 & E0).
  assert (LI : length sw2_I = n) by (unfold sw2_I; now rewrite map_length, seq_length).
  exists (firstn j0 sw2_I), (skipn (S j0) sw2_I).
  assert (LA : length (firstn j0 sw2_I) = j0) by (rewrite firstn_length; lia). rewrite LA.
  assert (J : 0 < j0) by (destruct j0; [rewrite sw2_I_nth, sw2_0 in E0 by exact Hj0|]; lia).
  split; [|split].
  - rewrite <- (firstn_skipn j0 sw2_I) at 1. f_equal. rewrite <- E0. apply skipn_cons_nth. lia.
  - intros E. rewrite E in LA. simpl in LA. lia.
  - rewrite sw2_I_nth in E0 by exact Hj0. unfold sa_letters.
    assert (M : forall j, j < n -> nth j (map (fun p => last (rot p w) 0) sw2_I) 0 = last (rot (sw2_p j) w) 0).
    { intros j Hj. rewrite (nth_indep _ 0 (last (rot 0 w) 0)) by (rewrite map_length; lia). rewrite (map_nth (fun p => last (rot p w) 0)), sw2_I_nth by exact Hj. reflexivity. }
    rewrite !M by lia. rewrite E0, rot_0. split.
    + rewrite (sw2_rot_S (j0 - 1)). replace (S (j0 - 1)) with j0 by lia. rewrite E0, rot_0.
      replace (P ++ [x; y]) with ((P ++ [x]) ++ [y]) by now rewrite <- app_assoc. apply last_last.
    + unfold w. replace (P ++ [y; x]) with ((P ++ [y]) ++ [x]) by now rewrite <- app_assoc. apply last_last.
Qed.
End Swap2.

(** SA of w$ *)
Lemma sa_dollar w sa : ~ In 0 w -> is_suffix_array w sa -> is_suffix_array (w ++ [0]) (length w :: sa).
Proof.
  intros HZ (HP & HS). split.
  - unfold is_perm. rewrite app_length. cbn [length]. rewrite seq_app. cbn [seq plus]. rewrite <- Permutation_cons_append. now constructor.
  - constructor.
    + eapply StronglySorted_imp_in; [|exact HS]. intros a b Ha Hb H. cbv beta in H.
      apply (is_perm_In _ _ _ HP) in Ha. apply (is_perm_In _ _ _ HP) in Hb.
      rewrite !skipn_app. replace (a - length w) with 0 by lia. replace (b - length w) with 0 by lia. cbn [skipn].
      assert (HZ' : ~ In 0 (skipn b w)) by (intros C; apply HZ; rewrite <- (firstn_skipn b w); apply in_or_app; now right).
      revert H HZ'. generalize (skipn a w) (skipn b w). clear. intros u v H. induction H as [z zs|c d us vs L|c us vs L IH]; intros HZ.
      * cbn [app]. apply lex_head. destruct z; [exfalso; apply HZ; now left|lia].
      * cbn [app]. now apply lex_head.
      * cbn [app]. apply lex_tail. apply IH. intros C. apply HZ. now right.
    + apply Forall_forall. intros p Hp. apply (is_perm_In _ _ _ HP) in Hp.
      rewrite !skipn_app, skipn_all, Nat.sub_diag. replace (p - length w) with 0 by lia. cbn [skipn app].
      destruct (skipn p w) as [|c u] eqn:E; [apply (f_equal (@length nat)) in E; rewrite skipn_length in E; simpl in E; lia|].
      cbn [app]. apply lex_head. destruct c; [exfalso|lia]. apply HZ. rewrite <- (firstn_skipn p w), E. apply in_or_app. right. now left.
Qed.

(** ** Fibonacci words *)
Lemma nth_repeat_lt (c d a i : nat) : i < a -> nth i (repeat c a) d = c.
Proof. revert i. induction a as [|a IH]; intros [|i] H; simpl; try lia; auto. apply IH. lia. Qed.
Lemma app_inj_len (a b c d : str) : length a = length c -> a ++ b = c ++ d -> a = c /\ b = d.
Proof. revert c. induction a as [|x a IH]; intros [|z c] L E; simpl in *; try discriminate; auto. injection E as -> E. destruct (IH c ltac:(lia) E) as (-> & ->). auto. Qed.
Lemma near_commute_parity m : (exists P, F (S (2 * m)) ++ F (2 * m) = P ++ [98; 97] /\ F (2 * m) ++ F (S (2 * m)) = P ++ [97; 98]) /\
  (exists P, F (S (S (2 * m))) ++ F (S (2 * m)) = P ++ [97; 98] /\ F (S (2 * m)) ++ F (S (S (2 * m))) = P ++ [98; 97]).
Proof.
  assert (St : forall n a b, (exists P, F (S n) ++ F n = P ++ [a; b] /\ F n ++ F (S n) = P ++ [b; a]) ->
      exists P, F (S (S n)) ++ F (S n) = P ++ [b; a] /\ F (S n) ++ F (S (S n)) = P ++ [a; b]).
  { intros n a b (P & E1 & E2). exists (F (S n) ++ P). rewrite F_SS, <- !app_assoc, E1, E2. auto. }
  induction m as [|m (IH1 & IH2)].
  - assert (H : exists P, F 1 ++ F 0 = P ++ [98; 97] /\ F 0 ++ F 1 = P ++ [97; 98]) by (exists [97]; split; reflexivity).
    split; [exact H|]. apply (St 0). exact H.
  - replace (2 * S m) with (S (S (2 * m))) by lia.
    assert (H : exists P, F (S (S (S (2 * m)))) ++ F (S (S (2 * m))) = P ++ [98; 97] /\ F (S (S (2 * m))) ++ F (S (S (S (2 * m)))) = P ++ [97; 98]) by (apply St; exact IH2).
    split; [exact H|]. apply St. exact H.
Qed.
Lemma F_no0 k : ~ In 0 (F k).
Proof. intros H. pose proof (F_letters k) as A. rewrite Forall_forall in A. specialize (A _ H). lia. Qed.
Lemma ba_split a b j : nth (j - 1) (repeat 98 a ++ repeat 97 b) 0 = 98 -> nth j (repeat 98 a ++ repeat 97 b) 0 = 97 -> 0 < j -> j = a.
Proof.
  intros H1 H2 Hj. assert (j - 1 < a).
  { destruct (Nat.lt_ge_cases (j - 1) a) as [L|L]; [exact L|]. rewrite app_nth2 in H1 by (rewrite repeat_length; lia). rewrite repeat_length in H1.
    destruct (Nat.lt_ge_cases (j - 1 - a) b) as [L2|L2]; [rewrite nth_repeat_lt in H1 by exact L2; discriminate|].
    rewrite nth_overflow in H1 by (rewrite repeat_length; lia). discriminate. }
  destruct (Nat.lt_ge_cases j a) as [L|L]; [|lia]. rewrite app_nth1 in H2 by (rewrite repeat_length; lia).
  rewrite nth_repeat_lt in H2 by exact L. discriminate.
Qed.
Theorem fib_even_sa sa m : is_suffix_array (F (2 * m + 2)) sa ->
  sa_letters (F (2 * m + 2)) sa = repeat 98 (f (2 * m)) ++ repeat 97 (f (S (2 * m))) /\
  sa_letters (F (2 * m + 2) ++ [0]) (f (2 * m + 2) :: sa) = 97 :: repeat 98 (f (2 * m)) ++ 0 :: repeat 97 (f (S (2 * m)) - 1).
Proof.
  replace (2 * m + 2) with (S (S (2 * m))) by lia. intros HSA. destruct (near_commute_parity m) as ((P & E1 & E2) & _).
  pose proof (f_pos (2 * m)) as L0. pose proof (f_S (2 * m)) as L1. pose proof (f_SS (2 * m)) as LS.
  rewrite <- F_SS in E1. set (k := 2 * m) in *. clearbody k.
  assert (HW : f (S (S k)) = length (P ++ [98; 97])) by (unfold f; now rewrite E1).
  assert (A1 : 97 < 98) by lia. assert (A2 : 2 <= f (S k) < length (P ++ [98; 97])) by lia.
  assert (A3 : rot (f (S k)) (P ++ [98; 97]) = P ++ [97; 98]) by (rewrite <- E1, <- E2, F_SS; unfold f; apply rot_app).
  assert (A4 : Nat.gcd (length (P ++ [98; 97])) (f (S k)) = 1) by (rewrite <- HW; apply f_coprime).
  pose proof (sw2_sa P 97 98 (f (S k)) A1 A2 A3 A4) as S1. pose proof (sw2_matrix P 97 98 (f (S k)) A1 A2 A3 A4) as S2.
  pose proof (sw2_zero P 97 98 (f (S k)) A1 A2 A3 A4) as S3.
  rewrite <- E1 in S1, S2, S3. rewrite <- (suffix_array_unique _ _ _ HSA S1) in S2, S3.
  pose proof (matrix_bwt_unique _ _ _ S2 (fib_bwt k)) as EB. split; [exact EB|].
  destruct S3 as (A & B & EI & NA & Y & X). rewrite EB in Y, X.
  assert (JA : length A = f k) by (apply (ba_split _ (f (S k))); auto; destruct A; [easy|simpl; lia]).
  assert (HLw : length (F (S (S k))) = f (S (S k))) by reflexivity. set (w := F (S (S k))) in *.
  assert (HL : length (w ++ [0]) = S (f (S (S k)))) by (rewrite app_length; simpl; lia).
  assert (HP := proj1 HSA). rewrite HLw in HP.
  unfold sa_letters at 1. cbn [map]. f_equal.
  - rewrite last_rot by lia. rewrite HL.
    replace (f (S (S k)) + S (f (S (S k))) - 1) with (f (S (S k)) - 1 + 1 * S (f (S (S k)))) by lia. rewrite Nat.mod_add, Nat.mod_small by lia.
    rewrite app_nth1 by lia. rewrite E1, HW. rewrite app_length. cbn [length].
    rewrite app_nth2 by lia. replace (length P + 2 - 1 - length P) with 1 by lia. reflexivity.
  - assert (G : forall p, p <> 0 -> p < f (S (S k)) -> last (rot p (w ++ [0])) 0 = last (rot p w) 0).
    { intros p Hp Hl. rewrite !last_rot by lia. rewrite HL, HLw.
      replace (p + S (f (S (S k))) - 1) with (p - 1 + 1 * S (f (S (S k)))) by lia. rewrite Nat.mod_add, Nat.mod_small by lia.
      replace (p + f (S (S k)) - 1) with (p - 1 + 1 * f (S (S k))) by lia. rewrite Nat.mod_add, Nat.mod_small by lia.
      apply app_nth1. lia. }
    unfold sa_letters in EB. rewrite EI in EB |- *. rewrite map_app in EB |- *. cbn [map] in EB |- *.
    pose proof (is_perm_NoDup _ _ HP) as ND. rewrite EI in ND. apply NoDup_remove in ND. destruct ND as (_ & ND).
    assert (LT : forall p, In p (A ++ 0 :: B) -> p < f (S (S k))) by (intros p Hp; apply (is_perm_In _ _ _ HP); now rewrite EI).
    assert (GA : map (fun p => last (rot p (w ++ [0])) 0) A = map (fun p => last (rot p w) 0) A).
    { apply map_ext_in. intros p Hp. apply G; [|apply LT, in_or_app; now left]. intros ->. apply ND, in_or_app. now left. }
    assert (GB : map (fun p => last (rot p (w ++ [0])) 0) B = map (fun p => last (rot p w) 0) B).
    { apply map_ext_in. intros p Hp. apply G; [|apply LT, in_or_app; right; now right]. intros ->. apply ND, in_or_app. now right. }
    rewrite GA, GB. clear G GA GB. rewrite rot_0, last_last.
    replace (f (S k)) with (S (f (S k) - 1)) in EB by lia. cbn [repeat] in EB.
    apply app_inj_len in EB; [|rewrite map_length, repeat_length; exact JA]. destruct EB as (-> & EB). injection EB as _ ->. reflexivity.
Qed.

(** odd indices *)
Lemma F_begin k : exists R, F (S (S k)) = 97 :: 98 :: 97 :: R.
Proof. induction k as [|k (R & E)]; [exists []; reflexivity|]. exists (R ++ F (S k)). rewrite F_SS, E. reflexivity. Qed.
Lemma F_odd_end m : exists Q, F (2 * m + 3) = Q ++ [98; 97; 97; 98].
Proof.
  induction m as [|m (Q & E)]; [exists [97]; reflexivity|].
  exists (F (2 * m + 4) ++ Q). replace (2 * S m + 3) with (S (S (2 * m + 3))) by lia. rewrite F_SS, E, <- app_assoc.
  now replace (S (2 * m + 3)) with (2 * m + 4) by lia.
Qed.
Lemma three_runs b rs i j l c d : is_runs b rs -> i < j -> j < l -> l < length b -> c <> d ->
  nth i b 0 = c -> nth j b 0 = d -> nth l b 0 = c -> 3 <= length rs.
Proof.
  intros (E & _) H1 H2 H3 N I J L. destruct rs as [|(e1, n1) [|(e2, n2) [|? rs]]]; [| | |simpl; lia]; exfalso.
  - subst b. simpl in H3. lia.
  - unfold expand in E. cbn in E. rewrite app_nil_r in E. subst b. rewrite repeat_length in H3. rewrite nth_repeat_lt in I by lia. rewrite nth_repeat_lt in J by lia. lia.
  - unfold expand in E. cbn in E. rewrite app_nil_r in E. subst b. rewrite app_length, !repeat_length in H3.
    destruct (Nat.lt_ge_cases j n1) as [C|C].
    + rewrite app_nth1 in I by (rewrite repeat_length; lia). rewrite app_nth1 in J by (rewrite repeat_length; lia).
      rewrite nth_repeat_lt in I by lia. rewrite nth_repeat_lt in J by lia. lia.
    + rewrite app_nth2 in L by (rewrite repeat_length; lia). rewrite app_nth2 in J by (rewrite repeat_length; lia). rewrite repeat_length in L, J.
      rewrite nth_repeat_lt in L by lia. rewrite nth_repeat_lt in J by lia. lia.
Qed.
Theorem fib_odd_sa sa m rs : is_suffix_array (F (2 * m + 3)) sa -> is_runs (sa_letters (F (2 * m + 3)) sa) rs -> 3 <= length rs.
Proof.
  intros HSA HR. destruct (F_odd_end m) as (Q & EQ). destruct (F_begin (2 * m + 1)) as (R & ER).
  replace (S (S (2 * m + 1))) with (2 * m + 3) in ER by lia. set (w := F (2 * m + 3)) in *. clearbody w.
  assert (LQ : length w = length Q + 4) by (rewrite EQ, app_length; reflexivity).
  assert (HP := proj1 HSA). pose proof (is_perm_length _ _ HP) as LS.
  destruct (is_perm_surj _ _ (length Q + 1) HP ltac:(lia)) as (i & Hi & Ei).
  destruct (is_perm_surj _ _ (length Q + 2) HP ltac:(lia)) as (j & Hj & Ej).
  destruct (is_perm_surj _ _ 0 HP ltac:(lia)) as (l & Hl & El).
  assert (S1 : skipn (length Q + 1) w = [97; 97; 98]) by (rewrite EQ, skipn_app, skipn_all2 by lia; replace (length Q + 1 - length Q) with 1 by lia; reflexivity).
  assert (S2 : skipn (length Q + 2) w = [97; 98]) by (rewrite EQ, skipn_app, skipn_all2 by lia; replace (length Q + 2 - length Q) with 2 by lia; reflexivity).
  assert (IJ : i < j).
  { apply (sa_lt_iff w sa i j HSA Hi Hj). rewrite Ei, Ej, S1, S2. apply lex_tail, lex_head. lia. }
  assert (JL : j < l).
  { apply (sa_lt_iff w sa j l HSA Hj Hl). rewrite Ej, El, S2, ER. cbn [skipn]. do 2 apply lex_tail. apply lex_nil. }
  assert (M : forall q, q < length w -> nth q (sa_letters w sa) 0 = last (rot (nth q sa 0) w) 0).
  { intros q Hq. unfold sa_letters. rewrite (nth_indep _ 0 (last (rot 0 w) 0)) by (rewrite map_length; lia). now rewrite (map_nth (fun p => last (rot p w) 0)). }
  apply (three_runs (sa_letters w sa) rs i j l 98 97 HR IJ JL).
  - unfold sa_letters. rewrite map_length. lia.
  - discriminate.
  - rewrite M, Ei, last_rot by lia. replace (length Q + 1 + length w - 1) with (length Q + 1 * length w) by lia. rewrite Nat.mod_add, Nat.mod_small by lia.
    rewrite EQ, app_nth2, Nat.sub_diag by lia. reflexivity.
  - rewrite M, Ej, last_rot by lia. replace (length Q + 2 + length w - 1) with (length Q + 1 + 1 * length w) by lia. rewrite Nat.mod_add, Nat.mod_small by lia.
    rewrite EQ, app_nth2 by lia. replace (length Q + 1 - length Q) with 1 by lia. reflexivity.
  - rewrite M, El, last_rot by lia. rewrite Nat.mod_small by lia.
    rewrite EQ, app_nth2 by (rewrite app_length; simpl; lia). rewrite app_length. cbn [length]. replace (0 + (length Q + 4) - 1 - length Q) with 3 by lia. reflexivity.
Qed.
