(** RunAttr.v : the positions of the first letters of the BWT runs are a string attractor. *)
From Verif Require Import Base SpecStr LexFacts ModelCore PermFacts SortFacts LcpProof ModelLz SpecLz LzProof MusProof SpecLex LexProof
  BbwtProof SpecBwt BwtFacts BwtProof SpecIo RunFacts LexRuns SpecAttr.

Section RA.
Context (s : str) (Hz : ~ In 0 s).
Let t := s ++ [0].
Context (sa isa phi plcp : list nat).
Context (HSA : is_suffix_array t sa) (Ei : inverse_permutation sa = Ok isa) (HPi : is_perm (length t) isa)
  (HPp : is_perm (length t) phi) (Lp : length plcp = length t)
  (Hi1 : forall i, i < length t -> nth (nth i sa 0) isa 0 = i)
  (Hi2 : forall j, j < length t -> nth (nth j isa 0) sa 0 = j)
  (Hp1 : forall i, 0 < i < length t -> nth (nth i sa 0) phi 0 = nth (i - 1) sa 0)
  (Hp0 : nth (nth 0 sa 0) phi 0 = nth (length t - 1) sa 0)
  (Hplcp : forall i, i < length t -> lcpv t (nth i phi 0) i (nth i plcp 0)).
Let b := sa_letters t sa.
Let ir := irr s sa isa.
Definition heads : list nat := filter (fun a => ir (S a)) (seq 0 (length s)).

Lemma heads_nodup : NoDup heads.
Proof. apply NoDup_filter, seq_NoDup. Qed.
Lemma heads_length : S (length heads) = length (runs b).
Proof.
  unfold b, t. rewrite <- (irr_runs s sa isa HSA HPi). fold t ir.
  assert (El : length t = S (length s)) by (unfold t; rewrite app_length; simpl; lia). rewrite El.
  cbn [seq filter]. assert (E0 : ir 0 = true) by (eapply irr_0; eauto). rewrite E0. cbn [length]. f_equal.
  rewrite <- seq_shift, length_filter_map. reflexivity.
Qed.
Lemma first_occ n : forall p l, 1 <= l -> p + l <= length s -> nth p isa 0 <= n ->
  exists q y, agree t q p l /\ q < y <= q + l /\ ir y = true.
Proof.
  assert (El : length t = S (length s)) by (unfold t; rewrite app_length; simpl; lia).
  induction n as [|n IH]; intros p l Hl Hp Hn.
  - exists p. destruct (filter_pos ir (seq (S p) l)) as [(y & Hy & Ey)|H].
    + exists y. apply in_seq in Hy. split; [|split; [lia|exact Ey]]. split; [lia|]. split; [lia|]. reflexivity.
    + exfalso. pose proof (proj1 HSA) as HPs.
      assert (E : nth 0 sa 0 = p) by (rewrite <- (Hi2 p) by lia; f_equal; lia).
      assert (Hx : lex_lt (skipn (length s) t) (skipn p t)).
      { unfold t. rewrite skipn_app, skipn_all, Nat.sub_diag. cbn [skipn app]. rewrite skipn_app.
        replace (p - length s) with 0 by lia. cbn [skipn]. destruct (skipn p s) as [|c w] eqn:Ew.
        - assert (length (skipn p s) = 0) by now rewrite Ew. rewrite skipn_length in *. lia.
        - cbn [app]. constructor. assert (In c s) by (rewrite <- (firstn_skipn p s), Ew; apply in_or_app; right; now left).
          destruct c; [contradiction|lia]. }
      apply (isa_lt_iff t sa isa) in Hx; auto; lia.
  - destruct (le_lt_dec l (nth p plcp 0)) as [Hc|Hc].
    + destruct (Nat.eq_dec (nth p isa 0) 0) as [E0|E0]; [apply (IH p l); lia|].
      destruct (phi_pred t sa isa phi HSA Ei HPi HPp Hi2 Hp1 Hp0 p ltac:(lia) ltac:(lia)) as (Q1 & Q2 & _).
      apply (isa_lt_iff t sa isa) in Q2; auto; try lia.
      destruct (Hplcp p ltac:(lia)) as ((A1 & A2 & A3) & _).
      set (q := nth p phi 0) in *.
      assert (Hq : q + l <= length s).
      { destruct (Nat.eq_dec (q + l) (length t)) as [C|]; [|lia]. exfalso. specialize (A3 (l - 1) ltac:(lia)).
        replace (q + (l - 1)) with (length s) in A3 by lia. unfold t in A3. rewrite app_nth2, Nat.sub_diag in A3 by lia. cbn [nth] in A3.
        rewrite app_nth1 in A3 by lia. apply Hz. rewrite A3. apply nth_In. lia. }
      destruct (IH q l Hl Hq ltac:(lia)) as (r & y & (B1 & B2 & B3) & Hy & Ey).
      exists r, y. split; [|auto]. split; [lia|]. split; [lia|]. intros x Hx. rewrite B3 by lia. apply A3. lia.
    + exists p. destruct (filter_pos ir (seq (S p) l)) as [(y & Hy & Ey)|H].
      * exists y. apply in_seq in Hy. split; [|split; [lia|exact Ey]]. split; [lia|]. split; [lia|]. reflexivity.
      * exfalso. assert (D : nth (p + l) plcp 0 + l <= nth p plcp 0); [|lia].
        eapply (descend s Hz sa isa phi plcp); eauto; fold t; [lia|]. intros y Hy. apply H, in_seq. lia.
Qed.
Lemma heads_attractor : string_attractor s heads.
Proof.
  assert (El : length t = S (length s)) by (unfold t; rewrite app_length; simpl; lia).
  intros i l Hl Hi. destruct (first_occ _ i l Hl Hi (le_n _)) as (q & y & (B1 & B2 & B3) & Hy & Ey).
  assert (Hq : q + l <= length s).
  { destruct (Nat.eq_dec (q + l) (length t)) as [C|]; [|lia]. exfalso. specialize (B3 (l - 1) ltac:(lia)).
    replace (q + (l - 1)) with (length s) in B3 by lia. unfold t in B3. rewrite app_nth2, Nat.sub_diag in B3 by lia. cbn [nth] in B3.
    rewrite app_nth1 in B3 by lia. apply Hz. rewrite B3. apply nth_In. lia. }
  exists q, (y - 1). split; [|split; [|lia]].
  - split; [lia|]. split; [lia|]. intros x Hx. specialize (B3 x Hx). unfold t in B3. rewrite !app_nth1 in B3 by lia. exact B3.
  - unfold heads. apply filter_In. split; [apply in_seq; lia|]. now replace (S (y - 1)) with y by lia.
Qed.
Lemma heads_in a : In a heads <-> a < length s /\ exists i, i < length t /\ nth i sa 0 = S a /\ (i = 0 \/ nth i b 0 <> nth (i - 1) b 0).
Proof.
  assert (El : length t = S (length s)) by (unfold t; rewrite app_length; simpl; lia).
  unfold heads. rewrite filter_In, in_seq. unfold ir, irr, change. fold t b.
  assert (G : forall i, ((i =? 0) || negb (nth i b 0 =? nth (i - 1) b 0) = true) <-> (i = 0 \/ nth i b 0 <> nth (i - 1) b 0)).
  { intros i. rewrite orb_true_iff, Nat.eqb_eq, negb_true_iff, Nat.eqb_neq. reflexivity. }
  rewrite G. split.
  - intros (Ha & H). split; [lia|]. exists (nth (S a) isa 0). split; [apply is_perm_nth; auto; lia|]. split; [apply Hi2; lia|exact H].
  - intros (Ha & i & Hi & E & H). split; [lia|]. rewrite <- E, Hi1 by lia. exact H.
Qed.
End RA.

(** everything at once *)
Lemma bwt_heads_attractor s sa : ~ In 0 s -> is_suffix_array (s ++ [0]) sa ->
  exists A, NoDup A /\ S (length A) = length (runs (sa_letters (s ++ [0]) sa)) /\
    (forall a, In a A <-> a < length s /\ exists i, i < length (s ++ [0]) /\ nth i sa 0 = S a /\
      (i = 0 \/ nth i (sa_letters (s ++ [0]) sa) 0 <> nth (i - 1) (sa_letters (s ++ [0]) sa) 0)) /\
    string_attractor s A /\
    (forall i a, i < length (s ++ [0]) -> nth i sa 0 = S a -> nth i (sa_letters (s ++ [0]) sa) 0 = nth a (s ++ [0]) 0).
Proof.
  intros Hz Hs. assert (Hne : s ++ [0] <> []) by (destruct s; easy).
  destruct (lcp_structures' (s ++ [0]) sa Hne Hs) as (isa & phi & plcp & lcp & E1 & E2 & E3 & E4 & HPi & HPp & Lp & Ll & Hi1 & Hi2 & Hp1 & Hp0 & Hplcp & _ & _).
  exists (heads s sa isa). split; [apply heads_nodup|]. split; [eapply (heads_length s Hz sa isa phi plcp); eauto|]. split.
  - intros a. eapply (heads_in s sa isa phi plcp); eauto.
  - split; [eapply (heads_attractor s Hz sa isa phi plcp); eauto|].
    intros i a Hi E. rewrite (b_nth s sa phi plcp Hs Lp Hp0 i Hi), E. cbn [Nat.eqb]. now replace (S a - 1) with a by lia.
Qed.
