(** NeckProof2.v : for every even k >= 4 the windows of the cyclic word aa(ab)^m b (k = 2m) form a cycle of the shift register of
    binary_debruijn_word that does not contain the start a^(k+1). *)
From Verif Require Import Base SpecStr LexFacts DuvalProof LwgProof BorderProof BbwtSurj ModelWord NeckProof.

Definition ab : str := [97; 98].
Notation P j := (power ab j).
Lemma P_S j : P (S j) = 97 :: 98 :: P j. Proof. reflexivity. Qed.
Lemma P_snoc j : P (S j) = P j ++ ab.
Proof. induction j as [|j IH]; [reflexivity|]. rewrite P_S, IH at 1. reflexivity. Qed.
Lemma P_len j : length (P j) = 2 * j. Proof. rewrite power_length. unfold ab. simpl. lia. Qed.
Lemma P_isab j : Forall isab (P j).
Proof. induction j as [|j IH]; [constructor|]. rewrite P_S. constructor; [now left|]. constructor; [now right|exact IH]. Qed.

(** ** Lyndon words *)
Lemma lyn_ab z j : lyndon (97 :: z ++ P j) -> nth 0 (z ++ P j) 0 = 97 -> lyndon (97 :: z ++ P (S j)).
Proof.
  intros HL H0. set (u := 97 :: z ++ P j) in *.
  assert (E : 97 :: z ++ P (S j) = (u ++ [97]) ++ [98]) by (unfold u; rewrite P_snoc; cbn [app]; rewrite <- !app_assoc; reflexivity).
  rewrite E. apply (lyndon_extend _ (length u)).
  - apply lynper_same; [now apply lynper_full|]. rewrite Nat.sub_diag. reflexivity.
  - rewrite app_length. cbn [length Nat.add]. replace (length u + 1 - length u) with 1 by lia.
    assert (L : 1 < length u) by (unfold u; cbn [length]; destruct (z ++ P j); [discriminate|cbn [length]; lia]).
    rewrite app_nth1 by lia. unfold u. cbn [nth]. rewrite H0. lia.
Qed.
Lemma lyn1 j : lyndon (97 :: P (S j)).
Proof.
  induction j as [|j IH].
  - apply (lyndon_extend [97; 97] 1); [|simpl; lia]. apply (lynper_same [97] 1); [apply lynper_single|reflexivity].
  - apply (lyn_ab [] (S j)); [exact IH|reflexivity].
Qed.
Lemma lyn2 j : lyndon (97 :: 97 :: P (S j)).
Proof.
  induction j as [|j IH].
  - apply (lyndon_extend [97; 97; 97] 1); [|simpl; lia]. apply (lynper_same [97; 97] 1); [|reflexivity].
    apply (lynper_same [97] 1); [apply lynper_single|reflexivity].
  - apply (lyn_ab [97] (S j)); [exact IH|reflexivity].
Qed.
Lemma lyn3 j : lyndon (97 :: 97 :: P j ++ [98]).
Proof.
  destruct j as [|j].
  - apply (lyndon_extend [97; 97] 1); [|simpl; lia]. apply (lynper_same [97] 1); [apply lynper_single|reflexivity].
  - change (lyndon ((97 :: 97 :: P (S j)) ++ [98])). apply (lyndon_extend _ (length (97 :: 97 :: P (S j)))); [apply lynper_full, lyn2|].
    rewrite Nat.sub_diag. simpl. lia.
Qed.
Lemma lynper_P j : lynper (P (S j)) 2.
Proof.
  induction j as [|j IH].
  - apply (lynper_full [97; 98]). apply (lyndon_extend [97] 1); [apply lynper_single|simpl; lia].
  - rewrite P_snoc. change (P (S j) ++ ab) with (P (S j) ++ [97] ++ [98]). rewrite app_assoc.
    assert (E : nth (length (P (S j)) - 2) (P (S j)) 0 = 97).
    { rewrite P_snoc, app_length, app_nth2; cbn [length ab]; [|lia]. now replace (length (P j) + 2 - 2 - length (P j)) with 0 by lia. }
    apply lynper_same; [apply lynper_same; [exact IH|now rewrite E]|].
    rewrite P_snoc, <- app_assoc, !app_length, app_nth2; cbn [length ab]; [|lia].
    match goal with |- _ = nth ?x _ _ => replace x with 1 by lia end. reflexivity.
Qed.
Lemma lyn4 j : lyndon (P (S j) ++ [98]).
Proof.
  apply (lyndon_extend _ 2); [apply lynper_P|]. rewrite P_snoc, app_length, app_nth2; cbn [length ab]; [|lia].
  replace (length (P j) + 2 - 2 - length (P j)) with 0 by lia. cbn. lia.
Qed.
Lemma lyn_pre w : lyndon w -> prenecklace w.
Proof. intros H. exists []. rewrite app_nil_r. rewrite <- (app_nil_r w). exact (power_lyndon_necklace w 1 H). Qed.
Lemma pre5 j : prenecklace (P (S j) ++ [98] ++ ab).
Proof.
  exists (P j ++ [98]). replace ((P (S j) ++ [98] ++ ab) ++ P j ++ [98]) with (power (P (S j) ++ [98]) 2).
  - apply power_lyndon_necklace, lyn4.
  - change (power (P (S j) ++ [98]) 2) with ((P (S j) ++ [98]) ++ (P (S j) ++ [98]) ++ []). rewrite app_nil_r, <- !app_assoc. reflexivity.
Qed.
(** ** words that are not prenecklaces *)
Lemma not_pre t i d : i + d < length t -> (forall x, x < d -> nth (i + x) t 0 = nth x t 0) -> nth (i + d) t 0 < nth d t 0 -> ~ prenecklace t.
Proof.
  intros Hl HE Hlt (u & HN). specialize (HN i). rewrite app_length in HN. specialize (HN ltac:(lia)).
  assert (R : forall x, x <= d -> nth x (rot i (t ++ u)) 0 = nth (i + x) t 0).
  { intros x Hx. rewrite nth_rot by (rewrite app_length; lia). destruct (Nat.ltb_spec (i + x) (length (t ++ u))) as [C|C];
      [apply app_nth1; lia|rewrite app_length in C; lia]. }
  assert (HG : lex_lt (rot i (t ++ u)) (t ++ u)).
  { apply (lex_lt_mismatch _ _ d).
    - rewrite rot_length, app_length. lia.
    - rewrite app_length. lia.
    - intros x Hx. rewrite R by lia. rewrite HE by lia. symmetry. apply app_nth1. lia.
    - rewrite R by lia. rewrite (app_nth1 t) by lia. exact Hlt. }
  destruct HN as [HN|HN]; [rewrite <- HN in HG; revert HG; apply lex_lt_irrefl|]. exact (lex_lt_irrefl _ (lex_lt_trans _ _ _ HG HN)).
Qed.
Lemma not_pre_b x y : ~ prenecklace (98 :: x ++ 97 :: y).
Proof.
  apply (not_pre _ (S (length x)) 0); cbn [length]; rewrite ?app_length; cbn [length]; [lia|intros ? ?; lia|].
  rewrite Nat.add_0_r. cbn [nth]. rewrite app_nth2, Nat.sub_diag by lia. cbn. lia.
Qed.
Lemma not_pre_ab x y : ~ prenecklace (97 :: 98 :: x ++ 97 :: 97 :: y).
Proof.
  apply (not_pre _ (S (S (length x))) 1); cbn [length]; rewrite ?app_length; cbn [length]; [lia| |].
  - intros z Hz. replace z with 0 by lia. rewrite Nat.add_0_r. cbn [nth]. rewrite app_nth2, Nat.sub_diag by lia. reflexivity.
  - rewrite Nat.add_1_r. cbn [nth]. rewrite app_nth2 by lia. replace (S (length x) - length x) with 1 by lia. cbn. lia.
Qed.
(** ** the second cycle *)
Inductive cyc (m : nat) : str -> Prop :=
| W0 : cyc m (97 :: 97 :: P (m - 1) ++ [97])
| W1 : cyc m (97 :: P m)
| W2 : cyc m (P m ++ [98])
| W3 : cyc m (98 :: P (m - 1) ++ [98; 97])
| WE s : 1 <= s <= m -> cyc m (P (m - s) ++ [98; 97; 97] ++ P (s - 1))
| WO s : 1 <= s < m -> cyc m (98 :: P (m - 1 - s) ++ [98; 97; 97] ++ P (s - 1) ++ [97]).
Lemma nxt_yes x r : prenecklace (r ++ [98]) -> nxt (x :: r) = r ++ [reverse x].
Proof. intros H. unfold nxt. cbn [tl out_letter]. destruct (neckb_ok (r ++ [98])) as (_ & HB); [destruct r; easy|]. now rewrite (proj2 HB H). Qed.
Lemma nxt_no x r : ~ prenecklace (r ++ [98]) -> nxt (x :: r) = r ++ [x].
Proof.
  intros H. unfold nxt. cbn [tl out_letter]. destruct (neckb_ok (r ++ [98])) as (_ & HB); [destruct r; easy|].
  destruct (neckb (r ++ [98])); [exfalso; apply H; now apply HB|reflexivity].
Qed.
Lemma cyc_nxt m w : 2 <= m -> cyc m w -> cyc m (nxt w).
Proof.
  intros Hm HC. destruct m as [|[|m]]; [lia|lia|]. destruct HC as [| | | |s Hs|s Hs].
  - replace (S (S m) - 1) with (S m) by lia.
    assert (E : forall z, (97 :: P (S m) ++ [97]) ++ [z] = 97 :: P (S m) ++ [97; z]) by (intros; cbn [app]; rewrite <- app_assoc; reflexivity).
    rewrite nxt_yes; rewrite E.
    + change (reverse 97) with 98. change [97;98] with ab. rewrite <- P_snoc. apply W1.
    + change [97;98] with ab. rewrite <- P_snoc. apply lyn_pre, lyn1.
  - rewrite nxt_yes; [apply W2|]. apply lyn_pre, lyn4.
  - rewrite P_S. cbn [app]. rewrite nxt_no.
    + change ((98 :: P (S m) ++ [98]) ++ [97]) with (98 :: (P (S m) ++ [98]) ++ [97]). rewrite <- app_assoc.
      pose proof (W3 (S (S m))) as H. replace (S (S m) - 1) with (S m) in H by lia. exact H.
    + rewrite P_S. apply (not_pre_b [] _).
  - replace (S (S m) - 1) with (S m) by lia. rewrite nxt_yes.
    + pose proof (WE (S (S m)) 1 ltac:(lia)) as H. replace (S (S m) - 1) with (S m) in H by lia. cbn [Nat.sub power] in H.
      rewrite app_nil_r in H. change (reverse 98) with 97. rewrite <- app_assoc. exact H.
    + rewrite <- app_assoc. exact (pre5 m).
  - destruct (Nat.eq_dec s (S (S m))) as [->|N].
    + rewrite Nat.sub_diag. cbn [power app]. replace (S (S m) - 1) with (S m) by lia. rewrite nxt_yes.
      * change (reverse 98) with 97. pose proof (W0 (S (S m))) as H. replace (S (S m) - 1) with (S m) in H by lia. exact H.
      * apply lyn_pre. exact (lyn3 (S m)).
    + replace (S (S m) - s) with (S (S m - s)) by lia. rewrite P_S. cbn [app]. rewrite nxt_no.
      * pose proof (WO (S (S m)) s ltac:(lia)) as H. replace (S (S m) - 1 - s) with (S m - s) in H by lia.
        cbn [app] in *. rewrite <- !app_assoc. exact H.
      * cbn [app]. rewrite <- app_assoc. cbn [app]. intros H. revert H.
        change (98 :: P (S m - s) ++ 98 :: 97 :: 97 :: P (s - 1) ++ [98]) with (98 :: P (S m - s) ++ [98] ++ 97 :: 97 :: P (s - 1) ++ [98]).
        rewrite app_assoc. apply not_pre_b.
  - assert (E : forall z, (P (S (S m) - 1 - s) ++ [98; 97; 97] ++ P (s - 1) ++ [97]) ++ [z] = P (S (S m) - 1 - s) ++ [98; 97; 97] ++ P (s - 1) ++ [97; z]).
    { intros z. now rewrite <- !app_assoc. }
    rewrite nxt_no; rewrite E.
    + change [97; 98] with ab. rewrite <- P_snoc. pose proof (WE (S (S m)) (S s) ltac:(lia)) as H.
      replace (S (S m) - S s) with (S (S m) - 1 - s) in H by lia. replace (S s - 1) with (S (s - 1)) in H by lia. exact H.
    + replace (S (S m) - 1 - s) with (S m - s) by lia. destruct (S m - s) as [|j] eqn:Ej.
      * cbn [power app]. apply (not_pre_b []).
      * rewrite P_S. cbn [app].
        change (P j ++ 98 :: 97 :: 97 :: P (s - 1) ++ [97;98]) with (P j ++ [98] ++ 97 :: 97 :: P (s - 1) ++ [97;98]).
        rewrite app_assoc. apply not_pre_ab.
Qed.
Lemma cyc_not_start m w n : 2 <= m -> cyc m w -> w <> repeat 97 n.
Proof.
  intros Hm HC E. assert (HB : In 98 w).
  { destruct m as [|[|m]]; [lia|lia|]. destruct HC; try (now left); cbn [Nat.sub].
    - right. right. apply in_or_app. left. simpl. auto.
    - right. simpl. auto.
    - apply in_or_app. right. simpl. auto.
    - apply in_or_app. right. simpl. auto. }
  rewrite E in HB. apply repeat_spec in HB. discriminate.
Qed.
Lemma st_not_cyc m n q w : 2 <= m -> 1 <= n -> cyc m w -> state_ok n w -> st n q <> w.
Proof.
  intros Hm Hn HC HS E. subst w.
  assert (HA : forall d, cyc m (st n (d + q))).
  { induction d as [|d IH]; [exact HC|]. change (S d + q) with (S (d + q)). rewrite st_S. now apply cyc_nxt. }
  destruct (first_return n Hn) as (p & Hp & Er & _).
  assert (HR : forall i, st n (p * i) = st n 0).
  { induction i as [|i IH]; [now rewrite Nat.mul_0_r|].
    replace (p * S i) with (p * i + p) by lia.
    assert (G : forall d, st n (p * i + d) = st n d).
    { induction d as [|d IHd]; [rewrite Nat.add_0_r; exact IH|]. rewrite Nat.add_succ_r, !st_S. now rewrite IHd. }
    rewrite G. exact Er. }
  apply (cyc_not_start m (st n (p * (S q) - q + q)) n Hm (HA _)).
  replace (p * S q - q + q) with (p * S q) by nia. exact (HR (S q)).
Qed.
(** v = aa(ab)^(m-1)a is missing *)
Lemma debruijn_odd m : 2 <= m -> exists w, binary_debruijn_word (2 * m) = Ok w /\ length w < 2 ^ (2 * m + 1) /\
  forall v, cyc m v -> length v = 2 * m + 1 -> Forall isab v ->
    forall i, i < length w -> firstn (2 * m + 1) (skipn i (w ++ w)) <> v.
Proof.
  intros Hm. destruct (debruijn_full (2 * m)) as (w & E & HL & HF & _ & HW & HU). exists w. split; [exact E|].
  assert (HV : forall v, cyc m v -> length v = 2 * m + 1 -> Forall isab v ->
    forall i, i < length w -> firstn (2 * m + 1) (skipn i (w ++ w)) <> v).
  { intros v HC L HA i Hi. destruct (HW i Hi) as (q & ->). apply (st_not_cyc m); [lia|lia|exact HC|now split]. }
  split; [|exact HV]. set (n := 2 * m + 1) in *.
  set (v := 97 :: P m).
  assert (Lv : length v = n) by (unfold v, n; cbn [length]; rewrite P_len; lia).
  assert (Av : Forall isab v) by (constructor; [now left|apply P_isab]).
  assert (ND : NoDup (v :: map (fun i => firstn n (skipn i (w ++ w))) (seq 0 (length w)))).
  { constructor.
    - intros H. apply in_map_iff in H. destruct H as (i & H & Hi). apply in_seq in Hi. exact (HV v (W1 m) Lv Av i ltac:(lia) H).
    - clear - HU. assert (G : forall l, NoDup l -> (forall i, In i l -> i < length w) -> NoDup (map (fun i => firstn n (skipn i (w ++ w))) l)).
      { induction 1 as [|a l Ha HN IH]; intros Hl; [constructor|]. cbn [map]. constructor.
        - intros H. apply in_map_iff in H. destruct H as (b & Eb & Hb). apply HU in Eb; [congruence|apply Hl; now right|apply Hl; now left].
        - apply IH. intros i Hi. apply Hl. now right. }
      apply G; [apply seq_NoDup|]. intros i Hi. apply in_seq in Hi. lia. }
  pose proof (NoDup_incl_length (l' := words_over [97; 98] n) ND) as HI. rewrite words_count in HI.
  cbn [length] in HI. rewrite map_length, seq_length in HI. enough (S (length w) <= 2 ^ n) by lia. apply HI.
  intros x Hx. apply in_words_over. destruct Hx as [<-|Hx].
  - split; [exact Lv|]. intros y Hy. rewrite Forall_forall in Av. destruct (Av y Hy) as [->| ->]; simpl; auto.
  - apply in_map_iff in Hx. destruct Hx as (i & <- & Hi). apply in_seq in Hi. destruct (HW i ltac:(lia)) as (q & ->).
    destruct (st_ok n q ltac:(unfold n; lia)) as (L & HA). split; [exact L|]. intros y Hy. rewrite Forall_forall in HA. destruct (HA y Hy) as [->| ->]; simpl; auto.
Qed.
