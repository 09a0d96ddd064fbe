(** FibBwt.v : the matrix BWT of a word whose rotation swaps its last two letters; Fibonacci words. *)
From Verif Require Import Base SpecStr SpecBwt SpecIo LexFacts ModelCore PermFacts SortFacts BorderProof BwtFacts BwtProof RunFacts SpecWord FibFacts.

Section Swap.
Context (P : str) (x y s : nat).
Let w := P ++ [x; y].
Let n := length w.
Context (Hxy : x < y).
Context (Hs : 0 < s < n).
Context (Hrot : rot s w = P ++ [y; x]).
Context (Hg : Nat.gcd n s = 1).

Lemma swap_n : n = length P + 2.
Proof. unfold n, w. rewrite app_length. simpl. lia. Qed.
Definition swap_p (j : nat) : nat := (n - 1 + s * (j + 1)) mod n.
Lemma swap_p_lt j : swap_p j < n.
Proof. apply Nat.mod_upper_bound. lia. Qed.
Lemma swap_p_S j : swap_p (S j) = (swap_p j + s) mod n.
Proof. unfold swap_p. rewrite Nat.add_mod_idemp_l by lia. f_equal. lia. Qed.
Lemma swap_rot_S j : rot (swap_p (S j)) w = rot (swap_p j) (P ++ [y; x]).
Proof. rewrite <- Hrot, rot_rot; [|apply swap_p_lt|fold n; lia]. now rewrite swap_p_S. Qed.
Lemma swap_ne j : j < n - 1 -> swap_p j <> n - 1.
Proof.
  intros Hj E. unfold swap_p in E.
  assert (D : Nat.divide n (s * (j + 1))).
  { exists ((n - 1 + s * (j + 1)) / n). pose proof (Nat.div_mod (n - 1 + s * (j + 1)) n ltac:(lia)) as D. rewrite E in D. lia. }
  apply Nat.gauss in D; [|exact Hg]. apply Nat.divide_pos_le in D; lia.
Qed.
Lemma swap_last : swap_p (n - 1) = n - 1.
Proof. unfold swap_p. replace (n - 1 + s * (n - 1 + 1)) with (n - 1 + s * n) by lia. rewrite Nat.mod_add by lia. apply Nat.mod_small. lia. Qed.
Lemma swap_lt_step j : j < n - 1 -> lex_lt (rot (swap_p j) w) (rot (swap_p (S j)) w).
Proof.
  intros Hj. pose proof (swap_ne j Hj) as N. pose proof (swap_p_lt j) as L. pose proof swap_n as En.
  rewrite swap_rot_S. unfold w, rot.
  rewrite !skipn_app, !firstn_app. replace (swap_p j - length P) with 0 by lia. cbn [skipn firstn]. rewrite <- !app_assoc.
  apply lex_lt_app_same. cbn [app]. now apply lex_head.
Qed.
Lemma swap_lt j d : j + S d < n -> lex_lt (rot (swap_p j) w) (rot (swap_p (j + S d)) w).
Proof.
  induction d as [|d IH]; intros H.
  - replace (j + 1) with (S j) by lia. apply swap_lt_step. lia.
  - eapply lex_lt_trans; [apply IH; lia|]. replace (j + S (S d)) with (S (j + S d)) by lia. apply swap_lt_step. lia.
Qed.
Definition swap_I : list nat := map swap_p (seq 0 n).
Lemma swap_I_nth j : j < n -> nth j swap_I 0 = swap_p j.
Proof. intros H. unfold swap_I. rewrite (nth_indep _ 0 (swap_p 0)) by (rewrite map_length, seq_length; lia). rewrite map_nth, seq_nth by exact H. reflexivity. Qed.
Lemma swap_inj i j : i < j -> j < n -> swap_p i <> swap_p j.
Proof. intros H1 H2 E. apply (lex_lt_irrefl (rot (swap_p i) w)). rewrite E at 2. replace j with (i + S (j - i - 1)) by lia. apply swap_lt. lia. Qed.
Lemma swap_perm : is_perm n swap_I.
Proof.
  apply is_perm_intro.
  - unfold swap_I. now rewrite map_length, seq_length.
  - intros i Hi. rewrite swap_I_nth by exact Hi. apply swap_p_lt.
  - intros i j Hi Hj. rewrite !swap_I_nth by assumption. intros E.
    destruct (Nat.lt_trichotomy i j) as [H|[H|H]]; [|exact H|]; exfalso; [eapply swap_inj; eauto|eapply swap_inj; eauto].
Qed.
Lemma swap_sorted : StronglySorted (fun i j => lex_le (rot i w) (rot j w)) swap_I.
Proof.
  unfold swap_I. assert (G : forall m a, a + m <= n -> StronglySorted (fun i j => lex_le (rot i w) (rot j w)) (map swap_p (seq a m))).
  { induction m as [|m IH]; intros a Ha; [constructor|]. cbn [seq map]. constructor; [apply IH; lia|].
    apply Forall_forall. intros q Hq. apply in_map_iff in Hq. destruct Hq as (j & <- & Hj). apply in_seq in Hj. right.
    replace j with (a + S (j - a - 1)) by lia. apply swap_lt. lia. }
  apply G. lia.
Qed.
Definition swap_letter (j : nat) : nat := last (rot (swap_p j) w) 0.
Lemma swap_letter_step j : j < n - 1 -> swap_p j <> 0 -> swap_letter (S j) = swap_letter j.
Proof.
  intros Hj N0. pose proof (swap_ne j Hj) as N. pose proof (swap_p_lt j) as L. pose proof swap_n as En.
  unfold swap_letter. rewrite swap_rot_S. rewrite last_rot by (rewrite app_length; simpl; lia). rewrite last_rot by exact L.
  unfold w. rewrite !app_length. cbn [length]. rewrite <- En.
  replace (swap_p j + n - 1) with (swap_p j - 1 + 1 * n) by lia. rewrite Nat.mod_add, Nat.mod_small by lia. now rewrite !app_nth1 by lia.
Qed.
Lemma swap_letter_0 j : j < n - 1 -> swap_p j = 0 -> swap_letter j = y /\ swap_letter (S j) = x.
Proof.
  intros Hj N0. pose proof swap_n as En. unfold swap_letter. rewrite swap_rot_S, N0, !rot_0. unfold w.
  replace (P ++ [x; y]) with ((P ++ [x]) ++ [y]) by now rewrite <- app_assoc.
  replace (P ++ [y; x]) with ((P ++ [y]) ++ [x]) by now rewrite <- app_assoc. now rewrite !last_last.
Qed.
Theorem swap_bwt : exists a b, 1 <= a /\ 1 <= b /\ a + b = n /\ is_matrix_bwt w (repeat y a ++ repeat x b).
Proof.
  pose proof swap_n as En. destruct (is_perm_surj n swap_I 0 swap_perm ltac:(lia)) as (j0 & Hj0 & E0). rewrite swap_I_nth in E0 by exact Hj0.
  assert (J : j0 < n - 1) by (destruct (Nat.eq_dec j0 (n - 1)) as [->|]; [rewrite swap_last in E0|]; lia).
  destruct (swap_letter_0 j0 J E0) as (Ly & Lx).
  assert (U : forall j, j < n -> j <> j0 -> swap_p j <> 0).
  { intros j Hj N E. destruct (Nat.lt_trichotomy j j0) as [H|[H|H]]; [|lia|]; [apply (swap_inj j j0)|apply (swap_inj j0 j)]; auto; lia. }
  assert (D : forall d, d <= j0 -> swap_letter (j0 - d) = y).
  { induction d as [|d IH]; intros Hd; [replace (j0 - 0) with j0 by lia; exact Ly|].
    rewrite <- IH by lia. replace (j0 - d) with (S (j0 - S d)) by lia. symmetry. apply swap_letter_step; [lia|apply U; lia]. }
  assert (V : forall d, S j0 + d < n -> swap_letter (S j0 + d) = x).
  { induction d as [|d IH]; intros Hd; [replace (S j0 + 0) with (S j0) by lia; exact Lx|].
    rewrite <- IH by lia. replace (S j0 + S d) with (S (S j0 + d)) by lia. apply swap_letter_step; [lia|apply U; lia]. }
  exists (S j0), (n - S j0). split; [lia|]. split; [lia|]. split; [lia|].
  replace (repeat y (S j0) ++ repeat x (n - S j0)) with (sa_letters w swap_I); [apply sorted_rot_matrix; [exact swap_perm|exact swap_sorted]|].
  unfold sa_letters, swap_I. rewrite map_map. change (fun q => last (rot (swap_p q) w) 0) with swap_letter.
  replace n with (S j0 + (n - S j0)) at 1 by lia. rewrite seq_app, map_app. f_equal.
  - assert (G : forall m a, a + m <= S j0 -> map swap_letter (seq a m) = repeat y m).
    { induction m as [|m IH]; intros a Ha; [reflexivity|]. cbn [seq map repeat]. rewrite IH by lia. f_equal.
      rewrite <- (D (j0 - a)) by lia. f_equal. lia. }
    apply G. lia.
  - assert (G : forall m a, S j0 <= a -> a + m <= n -> map swap_letter (seq a m) = repeat x m).
    { induction m as [|m IH]; intros a Ha Hm; [reflexivity|]. cbn [seq map repeat]. rewrite IH by lia. f_equal.
      rewrite <- (V (a - S j0)) by lia. f_equal. lia. }
    apply G; lia.
Qed.
End Swap.

(** ** Fibonacci words *)
Lemma f_coprime k : Nat.gcd (f (S k)) (f k) = 1.
Proof.
  induction k as [|k IH]; [reflexivity|]. rewrite f_SS, Nat.gcd_comm, (Nat.add_comm (f (S k))).
  rewrite Nat.gcd_add_diag_r. exact IH.
Qed.
Lemma F_count k : count_occ Nat.eq_dec (F (S (S k))) 97 = f (S k) /\ count_occ Nat.eq_dec (F (S (S k))) 98 = f k.
Proof.
  assert (G : forall k, (count_occ Nat.eq_dec (F (S (S k))) 97 = f (S k) /\ count_occ Nat.eq_dec (F (S (S k))) 98 = f k) /\
                (count_occ Nat.eq_dec (F (S (S (S k)))) 97 = f (S (S k)) /\ count_occ Nat.eq_dec (F (S (S (S k)))) 98 = f (S k))); [|apply G].
  clear k. induction k as [|k ((A1 & B1) & A2 & B2)]; [repeat split|].
  split; [split; assumption|]. rewrite (F_SS (S (S k))), !count_occ_app, A1, A2, B1, B2, !f_SS. lia.
Qed.
Lemma rot_app (u v : str) : rot (length u) (u ++ v) = v ++ u.
Proof. unfold rot. rewrite skipn_app, firstn_app, skipn_all, firstn_all, Nat.sub_diag. simpl. now rewrite app_nil_r. Qed.
Lemma count_repeat c d m : count_occ Nat.eq_dec (repeat c m) d = if Nat.eq_dec c d then m else 0.
Proof. induction m as [|m IH]; simpl; [now destruct (Nat.eq_dec c d)|]. rewrite IH. now destruct (Nat.eq_dec c d). Qed.
Theorem fib_bwt k : is_matrix_bwt (F (S (S k))) (repeat 98 (f k) ++ repeat 97 (f (S k))).
Proof.
  destruct (near_commute k) as (P & x & y & N & E1 & E2).
  pose proof (f_pos k) as L0. pose proof (f_pos (S k)) as L1. pose proof (f_SS k) as LS.
  assert (HL : Forall (fun c => c = 97 \/ c = 98) (P ++ [x; y])) by (rewrite <- E1, <- F_SS; apply F_letters).
  apply Forall_app in HL. destruct HL as (_ & HL). inversion HL as [|? ? Hx HL']. inversion HL' as [|? ? Hy _]. subst.
  assert (G : forall c d, c = 97 -> d = 98 -> (exists a b, 1 <= a /\ 1 <= b /\ a + b = f (S (S k)) /\ is_matrix_bwt (F (S (S k))) (repeat d a ++ repeat c b)) ->
     is_matrix_bwt (F (S (S k))) (repeat 98 (f k) ++ repeat 97 (f (S k)))).
  { intros c d -> -> (a & b & Ha & Hb & Hab & HM). pose proof (matrix_bwt_perm _ _ HM) as HP. destruct (F_count k) as (C1 & C2).
    rewrite <- (proj1 (Permutation_count_occ Nat.eq_dec _ _) HP 97) in C1. rewrite <- (proj1 (Permutation_count_occ Nat.eq_dec _ _) HP 98) in C2.
    rewrite count_occ_app, !count_repeat in C1, C2. simpl in C1, C2. rewrite <- C1, <- C2. replace (a + 0) with a by lia. exact HM. }
  destruct Hx as [-> | ->], Hy as [-> | ->]; try (exfalso; apply N; reflexivity).
  - apply (G 97 98); auto. destruct (swap_bwt P 97 98 (f (S k))) as (a & b & Ha & Hb & Hab & HM).
    + lia.
    + rewrite <- E1, <- F_SS. fold (f (S (S k))). lia.
    + rewrite <- E1, <- E2. unfold f. apply rot_app.
    + rewrite <- E1, <- F_SS. fold (f (S (S k))). apply f_coprime.
    + exists a, b. rewrite <- E1, <- F_SS in Hab, HM. repeat split; auto.
  - apply (G 97 98); auto. destruct (swap_bwt P 97 98 (f k)) as (a & b & Ha & Hb & Hab & HM).
    + lia.
    + rewrite <- E2, app_length. fold (f (S k)) (f k). lia.
    + rewrite <- E1, <- E2. unfold f. apply rot_app.
    + rewrite <- E2, app_length. fold (f (S k)) (f k). rewrite Nat.gcd_comm, (Nat.add_comm (f k)), Nat.gcd_add_diag_r, Nat.gcd_comm. apply f_coprime.
    + exists a, b. split; [exact Ha|]. split; [exact Hb|]. split.
      * rewrite Hab, <- E2, app_length. fold (f (S k)) (f k). lia.
      * rewrite <- E2 in HM. rewrite F_SS. replace (F k ++ F (S k)) with (rot (f (S k)) (F (S k) ++ F k)) in HM by (unfold f; apply rot_app).
        apply matrix_bwt_rot in HM; [exact HM|]. rewrite app_length. fold (f (S k)) (f k). lia.
Qed.
