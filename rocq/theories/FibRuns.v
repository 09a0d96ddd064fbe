(** FibRuns.v : the Burrows-Wheeler transform by suffix array of the Fibonacci words of odd index: the exact number of runs. *)
From Verif Require Import Base SpecStr SpecBwt SpecIo SpecLz SpecAttr SpecWord LexFacts ModelCore PermFacts SortFacts BorderProof BwtFacts BwtProof RunFacts
  FibFacts FibBwt FibBwt2 FibLz FibLex.

(** ** S1: the letter before a rotation tells on which side of the word itself the rotation is *)
Section Cut.
  Context (P : str) (x y s : nat).
  Let w := P ++ [x; y].
  Let n := length w.
  Context (Hxy : x < y) (Hs : 0 < s < n) (Hrot : rot s w = P ++ [y; x]) (Hg : Nat.gcd n s = 1).
  Let p := swap_p P x y s.
  Lemma cut_rot q : q < n -> (last (rot q w) 0 = y /\ lex_le (rot q w) w) \/ (last (rot q w) 0 = x /\ lex_lt w (rot q w)).
  Proof.
    assert (HPm : is_perm n (swap_I P x y s)) by exact (swap_perm P x y s Hxy Hs Hrot Hg).
    assert (Hnth : forall j, j < n -> nth j (swap_I P x y s) 0 = p j) by (intros j Hj; exact (swap_I_nth P x y s Hxy Hs Hg j Hj)).
    assert (HL : forall j d, j + S d < n -> lex_lt (rot (p j) w) (rot (p (j + S d)) w)) by exact (swap_lt P x y s Hxy Hs Hrot Hg).
    assert (Hst : forall j, j < n - 1 -> p j <> 0 -> last (rot (p (S j)) w) 0 = last (rot (p j) w) 0) by exact (swap_letter_step P x y s Hxy Hs Hrot Hg).
    assert (H0 : forall j, j < n - 1 -> p j = 0 -> last (rot (p j) w) 0 = y /\ last (rot (p (S j)) w) 0 = x) by exact (swap_letter_0 P x y s Hxy Hs Hrot Hg).
    assert (Hinj : forall i j, i < j -> j < n -> p i <> p j) by exact (swap_inj P x y s Hxy Hs Hrot Hg).
    assert (Hla : p (n - 1) = n - 1) by exact (swap_last P x y s Hxy Hs Hg).
    destruct (is_perm_surj n _ 0 HPm ltac:(lia)) as (j0 & Hj0 & E0). rewrite Hnth in E0 by exact Hj0.
    assert (Hn2 : 2 <= n) by (unfold n, w; rewrite app_length; simpl; lia).
    assert (J : j0 < n - 1) by (destruct (Nat.eq_dec j0 (n - 1)) as [Q|]; [rewrite Q, Hla in E0|]; lia).
    destruct (H0 j0 J E0) as (Ly & Lx).
    assert (U : forall j, j < n -> j <> j0 -> p j <> 0).
    { intros j Hj N E. destruct (Nat.lt_trichotomy j j0) as [H|[H|H]]; [|lia|]; [apply (Hinj j j0)|apply (Hinj j0 j)]; auto; congruence. }
    assert (D : forall d, d <= j0 -> last (rot (p (j0 - d)) w) 0 = y).
    { induction d as [|d IH]; intros Hd; [replace (j0 - 0) with j0 by lia; exact Ly|].
      rewrite <- IH by lia. replace (j0 - d) with (S (j0 - S d)) by lia. symmetry. apply Hst; [lia|apply U; lia]. }
    assert (V : forall d, S j0 + d < n -> last (rot (p (S j0 + d)) w) 0 = x).
    { induction d as [|d IH]; intros Hd; [replace (S j0 + 0) with (S j0) by lia; exact Lx|].
      rewrite <- IH by lia. replace (S j0 + S d) with (S (S j0 + d)) by lia. apply Hst; [lia|apply U; lia]. }
    intros Hq. destruct (is_perm_surj n _ q HPm Hq) as (j & Hj & Ej). rewrite Hnth in Ej by exact Hj. subst q.
    destruct (Nat.le_gt_cases j j0) as [C|C]; [left|right].
    - split; [replace j with (j0 - (j0 - j)) by lia; apply D; lia|].
      destruct (Nat.eq_dec j j0) as [->|]; [left; rewrite E0; apply rot_0|right].
      rewrite <- (rot_0 w) at 2. rewrite <- E0. replace j0 with (j + S (j0 - j - 1)) by lia. apply HL. lia.
    - split; [replace j with (S j0 + (j - S j0)) by lia; apply V; lia|].
      rewrite <- (rot_0 w) at 1. rewrite <- E0. replace j with (j0 + S (j - j0 - 1)) by lia. apply HL. lia.
  Qed.
End Cut.

(** ** S2 *)
Lemma lex_lt_app_inv (u a v b : str) : lex_lt (u ++ a) (v ++ b) -> lex_le u v \/ exists t, u = v ++ t.
Proof.
  revert v. induction u as [|c u IH]; intros v H; [left; destruct v; [left; reflexivity|right; constructor]|].
  destruct v as [|d v]; [right; exists (c :: u); reflexivity|]. cbn [app] in H. inversion H; subst.
  - left. right. now constructor.
  - destruct (IH v ltac:(eassumption)) as [[->|L]|(t & ->)]; [left; now left|left; right; now constructor|right; exists t; reflexivity].
Qed.
Lemma sandwich l (u v z : str) : lex_le u v -> lex_lt v z -> firstn l u = firstn l z -> firstn l v = firstn l u.
Proof.
  intros H1 H2 E. pose proof (lex_le_firstn l _ _ H1) as A. pose proof (lex_le_firstn l _ _ (or_intror H2)) as B. rewrite <- E in B.
  destruct A as [A|A]; [now symmetry|]. destruct B as [B|B]; [exact B|]. exfalso. exact (lex_lt_asym _ _ A B).
Qed.

(** ** words of odd and even index *)
Lemma F_even_last m : exists Q, F (2 * m) = Q ++ [97].
Proof.
  induction m as [|m (Q & E)]; [exists []; reflexivity|]. exists (F (S (2 * m)) ++ Q).
  replace (2 * S m) with (S (S (2 * m))) by lia. rewrite F_SS, E, <- app_assoc. reflexivity.
Qed.
Lemma F_odd_last m : exists Q, F (2 * m + 1) = Q ++ [98].
Proof.
  induction m as [|m (Q & E)]; [exists [97]; reflexivity|]. exists (F (2 * m + 2) ++ Q).
  replace (2 * S m + 1) with (S (S (2 * m + 1))) by lia. rewrite F_SS, E, <- app_assoc. now replace (S (2 * m + 1)) with (2 * m + 2) by lia.
Qed.
Lemma F_odd_suffix j d : exists Q, F (2 * (j + d) + 1) = Q ++ F (2 * j + 1).
Proof.
  induction d as [|d (Q & E)]; [exists []; now rewrite Nat.add_0_r|]. exists (F (2 * (j + d) + 2) ++ Q).
  replace (2 * (j + S d) + 1) with (S (S (2 * (j + d) + 1))) by lia. rewrite F_SS, E, <- app_assoc. now replace (S (2 * (j + d) + 1)) with (2 * (j + d) + 2) by lia.
Qed.
Lemma F_pre j k : j <= k -> exists Q, F k = F j ++ Q.
Proof.
  intros H. induction H as [|k H (Q & E)]; [exists []; now rewrite app_nil_r|]. destruct k as [|k].
  - exists [98]. replace j with 0 by lia. reflexivity.
  - exists (Q ++ F k). rewrite F_SS, E, <- app_assoc. reflexivity.
Qed.

(** ** B: the borders of a word of odd index *)
Lemma border_odd m : forall i, 0 < i < f (2 * m + 1) -> same_substring (F (2 * m + 1)) 0 i (f (2 * m + 1) - i) -> exists j, j < m /\ i = f (2 * m + 1) - f (2 * j + 1).
Proof.
  induction m as [|m IH]; intros i Hi HS.
  - exfalso. change (2 * 0 + 1) with 1 in *. assert (E : f 1 = 2) by reflexivity. rewrite E in *. assert (i = 1) by lia. subst i.
    destruct HS as (_ & _ & H). specialize (H 0 ltac:(lia)). discriminate.
  - set (n := f (2 * S m + 1)) in *. assert (En : n = f (2 * m + 2) + f (2 * m + 1)).
    { unfold n. replace (2 * S m + 1) with (S (S (2 * m + 1))) by lia. rewrite f_SS. now replace (S (2 * m + 1)) with (2 * m + 2) by lia. }
    assert (EF : F (2 * S m + 1) = F (2 * m + 2) ++ F (2 * m + 1)).
    { replace (2 * S m + 1) with (S (S (2 * m + 1))) by lia. rewrite F_SS. now replace (S (2 * m + 1)) with (2 * m + 2) by lia. }
    pose proof (f_pos (2 * m + 1)) as P1. pose proof (f_pos (2 * m + 2)) as P2.
    destruct (Nat.lt_trichotomy (n - i) (f (2 * m + 1))) as [C|[C|C]].
    + (* a border of the word of index 2m+1 *)
      destruct (IH (f (2 * m + 1) - (n - i))) as (j & Hj & Ej).
      * lia.
      * replace (f (2 * m + 1) - (f (2 * m + 1) - (n - i))) with (n - i) by lia.
        destruct HS as (A & B & H). split; [fold (f (2 * m + 1)); lia|]. split; [fold (f (2 * m + 1)); lia|].
        intros x Hx. specialize (H x Hx). rewrite EF in H at 2. rewrite app_nth2 in H by (fold (f (2 * m + 2)); lia). fold (f (2 * m + 2)) in H.
        replace (f (2 * m + 1) - (n - i) + x) with (i + x - f (2 * m + 2)) by lia. rewrite <- H. destruct (F_pre (2 * m + 1) (2 * S m + 1) ltac:(lia)) as (Q & ->).
        rewrite app_nth1; [reflexivity|]. fold (f (2 * m + 1)). lia.
      * exists j. split; [lia|]. pose proof (F_odd_suffix j (m - j)) as (Q & EQ). replace (j + (m - j)) with m in EQ by lia.
        assert (f (2 * m + 1) = length Q + f (2 * j + 1)) by (unfold f; now rewrite EQ, app_length). lia.
    + exists m. split; [lia|]. lia.
    + exfalso. destruct m as [|m].
      * (* F 3 *) change (2 * 0 + 1) with 1 in *. change (2 * 1 + 1) with 3 in *. assert (N5 : n = 5) by reflexivity. rewrite N5 in *. assert (E1 : f 1 = 2) by reflexivity. rewrite E1 in *.
        destruct HS as (_ & _ & H). assert (i = 1 \/ i = 2) as [-> | ->] by lia; [specialize (H 0 ltac:(lia)); discriminate|specialize (H 1 ltac:(lia)); discriminate].
      * assert (HM : is_mus (F (S (S (S (S (2 * m + 1)))))) (f (S (S (S (2 * m + 1)))) - 1) (f (S (S (2 * m + 1))))) by (apply fib_mus; now right).
        replace (S (S (S (S (2 * m + 1))))) with (2 * S (S m) + 1) in HM by lia. replace (S (S (S (2 * m + 1)))) with (2 * S m + 2) in HM by lia.
        replace (S (S (2 * m + 1))) with (2 * S m + 1) in HM by lia. destruct HM as (Hl & HU & _). destruct HU as (HU1 & HU).
        specialize (HU (f (2 * S m + 2) - 1 - i)).
        assert (f (2 * S m + 2) - 1 - i = f (2 * S m + 2) - 1); [|lia]. apply HU.
        destruct HS as (A & B & H). fold n in HU1, A, B. split; [fold n; lia|]. split; [fold n; lia|].
        intros x Hx. specialize (H (f (2 * S m + 2) - 1 - i + x) ltac:(lia)). rewrite Nat.add_0_l in H. rewrite H. f_equal. lia.
Qed.

(** ** no cube of a letter *)
Fixpoint trail (s : nat) (w : str) : option nat :=
  match w with [] => Some s | c :: w' => if c =? 97 then if 2 <=? s then None else trail (S s) w' else trail 0 w' end.
Lemma trail_app u v s : trail s (u ++ v) = match trail s u with None => None | Some s' => trail s' v end.
Proof. revert s. induction u as [|c u IH]; intros s; [reflexivity|]. cbn [app trail]. destruct (c =? 97); [|apply IH]. destruct (2 <=? s); [reflexivity|apply IH]. Qed.
Lemma trail_F k : forall s, s <= 1 -> trail s (F (S k)) = Some (if Nat.even k then 0 else 1).
Proof.
  assert (G : forall k, (forall s, s <= 1 -> trail s (F (S k)) = Some (if Nat.even k then 0 else 1)) /\ (forall s, s <= 1 -> trail s (F (S (S k))) = Some (if Nat.even (S k) then 0 else 1))); [|apply G].
  clear k. induction k as [|k (A & B)].
  - split; intros s Hs; (assert (s = 0 \/ s = 1) as [-> | ->] by lia); reflexivity.
  - split; [exact B|]. intros s Hs. rewrite F_SS, trail_app, B by exact Hs. rewrite A by (destruct (Nat.even (S k)); lia). reflexivity.
Qed.
Lemma trail_aaa s v : trail s (97 :: 97 :: 97 :: v) = None.
Proof. destruct s as [|[|s]]; reflexivity. Qed.
Lemma F_no_aaa k u v : F (S k) <> u ++ 97 :: 97 :: 97 :: v.
Proof.
  intros E. pose proof (trail_F k 0 ltac:(lia)) as H. rewrite E, trail_app in H. destruct (trail 0 u) as [s|]; [rewrite trail_aaa in H|]; discriminate.
Qed.

Lemma SSorted_split {A} (R : A -> A -> Prop) (X : list A) p Y : StronglySorted R (X ++ p :: Y) -> (forall q, In q X -> R q p) /\ (forall q, In q Y -> R p q) /\
  (forall q r, In q X -> In r Y -> R q r) /\ StronglySorted R X /\ StronglySorted R Y.
Proof.
  induction X as [|x X IH]; cbn [app]; intros H; inversion H as [|? ? HS HF]; subst.
  - rewrite Forall_forall in HF. split; [easy|]. split; [exact HF|]. split; [easy|]. split; [constructor|assumption].
  - destruct (IH HS) as (A1 & A2 & A3 & A4 & A5). rewrite Forall_forall in HF. split; [|split; [|split; [|split]]].
    + intros q [->|Hq]; [apply HF, in_or_app; right; now left|now apply A1].
    + exact A2.
    + intros q r [->|Hq] Hr; [apply HF, in_or_app; right; now right|now apply A3].
    + constructor; [exact A4|]. apply Forall_forall. intros q Hq. apply HF, in_or_app. now left.
    + exact A5.
Qed.
Lemma map_all_repeat {A} (g : A -> nat) c l : (forall q, In q l -> g q = c) -> map g l = repeat c (length l).
Proof. induction l as [|a l IH]; intros H; [reflexivity|]. cbn. rewrite IH by (intros q Hq; apply H; now right). f_equal. apply H. now left. Qed.

Section Odd.
  Context (m : nat).
  Let w := F (2 * m + 5).
  Let n := f (2 * m + 5).
  Let lw : length w = n. Proof. reflexivity. Qed.
  Let np t := n - f (2 * t + 1).
  Definition Lt_ (q : nat) : nat := last (rot q w) 0.

  Lemma f_odd_le t : t <= m + 2 -> f (2 * t + 1) <= n.
  Proof. intros H. unfold n, f. destruct (F_pre (2 * t + 1) (2 * m + 5) ltac:(lia)) as (Q & ->). rewrite app_length. lia. Qed.
  Lemma n_ge : 13 <= n.
  Proof. pose proof (f_odd_le 2 ltac:(lia)) as H. exact H. Qed.
  Lemma Lt_pos q : 0 < q < n -> Lt_ q = nth (q - 1) w 0.
  Proof. intros H. unfold Lt_. rewrite last_rot by (rewrite lw; lia). rewrite lw. replace (q + n - 1) with (q - 1 + 1 * n) by lia. rewrite Nat.mod_add, Nat.mod_small by lia. reflexivity. Qed.
  Lemma cut q : q < n -> (Lt_ q = 98 /\ lex_le (rot q w) w) \/ (Lt_ q = 97 /\ lex_lt w (rot q w)).
  Proof.
    destruct (near_commute_parity (S m)) as (_ & (P & E1 & E2)).
    assert (EW : w = P ++ [97; 98]). { rewrite <- E1. unfold w. replace (2 * m + 5) with (S (S (S (2 * S m)))) by lia. apply F_SS. }
    unfold Lt_. pose proof (cut_rot P 97 98 (f (S (S (2 * S m))))) as G. rewrite <- EW in G. rewrite lw in G. apply G.
    - lia.
    - pose proof (f_SS (S (2 * S m))) as A. replace (S (S (S (2 * S m)))) with (2 * m + 5) in A by lia. fold n in A. pose proof (f_pos (S (2 * S m))). pose proof (f_pos (S (S (2 * S m)))). lia.
    - rewrite <- E2, EW, <- E1. unfold f. apply rot_app.
    - unfold n. replace (2 * m + 5) with (S (S (S (2 * S m)))) by lia. apply f_coprime.
  Qed.
  Lemma Lt_0 : Lt_ 0 = 98.
  Proof. destruct (cut 0 ltac:(pose proof n_ge; lia)) as [(A & _)|(_ & A)]; [exact A|]. rewrite rot_0 in A. exfalso. exact (lex_lt_irrefl _ A). Qed.
  Lemma suf_odd t : t <= m + 2 -> skipn (np t) w = F (2 * t + 1).
  Proof.
    intros H. destruct (F_odd_suffix t (m + 2 - t)) as (Q & E). replace (2 * (t + (m + 2 - t)) + 1) with (2 * m + 5) in E by lia. fold w in E.
    assert (LQ : n = length Q + f (2 * t + 1)) by (rewrite <- lw, E, app_length; reflexivity).
    unfold np. rewrite E. replace (n - f (2 * t + 1)) with (length Q) by lia. rewrite skipn_app, skipn_all, Nat.sub_diag. reflexivity.
  Qed.
  Lemma np_lt t : np t < n.
  Proof. unfold np. pose proof (f_pos (2 * t + 1)). pose proof n_ge. lia. Qed.
  Lemma f_odd_step t : f (2 * S t + 1) = f (2 * t + 2) + f (2 * t + 1).
  Proof. replace (2 * S t + 1) with (S (S (2 * t + 1))) by lia. rewrite f_SS. now replace (S (2 * t + 1)) with (2 * t + 2) by lia. Qed.
  Lemma np_pos t : t <= m + 1 -> 0 < np t.
  Proof. intros H. unfold np. pose proof (f_odd_le (S t) ltac:(lia)) as A. rewrite f_odd_step in A. pose proof (f_pos (2 * t + 2)). lia. Qed.
  Lemma np_letter t : t <= m + 1 -> Lt_ (np t) = 97.
  Proof.
    intros H. pose proof (np_pos t H). pose proof (np_lt t). rewrite Lt_pos by lia.
    destruct (F_odd_suffix (S t) (m + 1 - t)) as (Q & E). replace (2 * (S t + (m + 1 - t)) + 1) with (2 * m + 5) in E by lia. fold w in E.
    replace (2 * S t + 1) with (S (S (2 * t + 1))) in E by lia. rewrite F_SS in E. destruct (F_even_last (S t)) as (R & ER). replace (2 * S t) with (S (2 * t + 1)) in ER by lia. rewrite ER in E.
    assert (LQ : n = length Q + length R + 1 + f (2 * t + 1)) by (rewrite <- lw, E, !app_length; cbn [length]; unfold f; lia).
    unfold np. rewrite E. replace (n - f (2 * t + 1) - 1) with (length Q + length R) by lia. rewrite app_nth2_plus, <- app_assoc, app_nth2, Nat.sub_diag by lia. reflexivity.
  Qed.
  Lemma fp_letter t : t <= m + 1 -> Lt_ (f (2 * t + 1)) = 98.
  Proof.
    intros H. pose proof (f_pos (2 * t + 1)). pose proof (f_odd_le (S t) ltac:(lia)) as A. rewrite f_odd_step in A. pose proof (f_pos (2 * t + 2)).
    rewrite Lt_pos by lia. destruct (F_pre (2 * t + 1) (2 * m + 5) ltac:(lia)) as (Q & E). fold w in E. rewrite E.
    rewrite app_nth1 by (fold (f (2 * t + 1)); lia). destruct (F_odd_last t) as (R & ER). unfold f. rewrite ER, app_length. cbn [length].
    rewrite app_nth2 by lia. replace (length R + 1 - 1 - length R) with 0 by lia. reflexivity.
  Qed.
  Lemma fp_lt t : t <= m + 1 -> f (2 * t + 1) < n.
  Proof. intros H. pose proof (f_odd_le (S t) ltac:(lia)) as A. rewrite f_odd_step in A. pose proof (f_pos (2 * t + 2)). lia. Qed.

  (** comparisons between suffixes of odd index *)
  Lemma odd_lt t u : t < u -> lex_lt (F (2 * t + 1)) (F (2 * u + 1)).
  Proof.
    intros H. destruct (F_pre (2 * t + 1) (2 * u + 1) ltac:(lia)) as (Q & E). rewrite E. apply lex_lt_prefix. intros ->. rewrite app_nil_r in E.
    pose proof (f_equal (@length nat) E) as EL. fold (f (2 * u + 1)) (f (2 * t + 1)) in EL.
    assert (f (2 * t + 1) < f (2 * u + 1)); [|lia].
    assert (G : forall d, f (2 * t + 1) < f (2 * (t + S d) + 1)).
    { induction d as [|d IH]; [replace (t + 1) with (S t) by lia|replace (t + S (S d)) with (S (t + S d)) by lia]; rewrite f_odd_step; [pose proof (f_pos (2 * t + 2))|pose proof (f_pos (2 * (t + S d) + 2))]; lia. }
    replace u with (t + S (u - t - 1)) by lia. apply G.
  Qed.
  (** D *)
  Lemma mid t : 1 <= t <= m + 1 -> lex_lt (F (2 * t + 1)) (skipn (f (2 * t + 1)) w) /\ lex_lt (skipn (f (2 * t + 1)) w) (F (2 * S t + 1)).
  Proof.
    intros H. destruct (near_commute_parity t) as ((P & E1 & E2) & _). replace (S (2 * t)) with (2 * t + 1) in * by lia.
    destruct (F_pre (2 * S t + 1) (2 * m + 5) ltac:(lia)) as (Q & E). fold w in E.
    assert (EF : F (2 * S t + 1) = F (2 * t + 1) ++ F (2 * t) ++ F (2 * t + 1)).
    { replace (2 * S t + 1) with (S (S (S (2 * t)))) by lia. rewrite !F_SS. now replace (S (2 * t)) with (2 * t + 1) by lia; rewrite <- app_assoc. }
    assert (ES : skipn (f (2 * t + 1)) w = P ++ [97; 98] ++ Q).
    { rewrite E, EF, E2. unfold f. rewrite <- !app_assoc, skipn_app, skipn_all, Nat.sub_diag. reflexivity. }
    assert (LP : f (2 * t + 1) <= length P).
    { pose proof (f_equal (@length nat) E1) as EL. rewrite !app_length in EL. cbn [length] in EL. fold (f (2 * t + 1)) (f (2 * t)) in EL.
      assert (2 <= f (2 * t)) by (replace (2 * t) with (S (2 * t - 1)) by lia; apply f_S). lia. }
    assert (EP : exists R, P = F (2 * t + 1) ++ R).
    { exists (skipn (f (2 * t + 1)) P). apply (f_equal (firstn (f (2 * t + 1)))) in E1. unfold f in E1 at 1. rewrite firstn_app, firstn_all, Nat.sub_diag in E1. cbn [firstn] in E1. rewrite app_nil_r in E1.
      rewrite firstn_app in E1. replace (f (2 * t + 1) - length P) with 0 in E1 by lia. cbn [firstn] in E1. rewrite app_nil_r in E1. rewrite E1 at 1. symmetry. apply firstn_skipn. }
    split.
    - rewrite ES. destruct EP as (R & ->). rewrite <- app_assoc. apply lex_lt_prefix. destruct R; discriminate.
    - rewrite ES, EF, (app_assoc (F (2 * t + 1))), E1, <- (app_assoc P). apply lex_lt_app_same. apply lex_head. lia.
  Qed.

  (** A *)
  Lemma claim0 j : j < n -> Lt_ j = 98 -> lex_le (skipn j w) w.
  Proof.
    intros Hj HL. destruct (cut j Hj) as [(_ & [E|H])|(E & _)]; [| |congruence].
    - rewrite <- E at 2. unfold rot. destruct j as [|j]; [cbn; left; now rewrite app_nil_r|]. right. apply lex_lt_prefix. intros Z. apply (f_equal (@length nat)) in Z. rewrite firstn_length, lw in Z. cbn [length] in Z. lia.
    - unfold rot in H. rewrite <- (app_nil_r w) in H at 3. apply lex_lt_app_inv in H. destruct H as [H|(t & E)]; [exact H|]. left.
      pose proof (f_equal (@length nat) E) as EL. rewrite app_length, skipn_length, lw in EL. destruct t as [|c t]; [now rewrite app_nil_r in E|]. cbn in EL. lia.
  Qed.
  Lemma claimA i j : i < n -> j < n -> Lt_ i = 97 -> Lt_ j = 98 -> lex_lt (skipn j w) (skipn i w) \/ exists t, t <= m + 1 /\ i = np t.
  Proof.
    intros Hi Hj Li Lj. destruct (cut i Hi) as [(E & _)|(_ & HI)]; [congruence|]. destruct (cut j Hj) as [(_ & HJ)|(E & _)]; [|congruence].
    pose proof (lex_le_lt_trans _ _ _ HJ HI) as HL. unfold rot in HL. apply lex_lt_app_inv in HL. destruct HL as [[E|H]|(t & E)].
    - exfalso. pose proof (f_equal (@length nat) E) as EL. rewrite !skipn_length, lw in EL. assert (i = j) by lia. congruence.
    - left. exact H.
    - right. assert (EI : firstn (n - i) w = skipn i w).
      { rewrite (sandwich (n - i) (rot j w) w (rot i w) HJ HI).
        - unfold rot. rewrite E, <- app_assoc, firstn_app, skipn_length, lw, Nat.sub_diag. cbn [firstn]. rewrite app_nil_r. apply firstn_all2. rewrite skipn_length, lw. lia.
        - unfold rot. rewrite E, <- app_assoc, !firstn_app, skipn_length, lw, Nat.sub_diag. reflexivity. }
      assert (Hi0 : 0 < i) by (destruct i; [rewrite Lt_0 in Li; discriminate|lia]).
      destruct (border_odd (m + 2) i) as (u & Hu & Eu).
      + replace (2 * (m + 2) + 1) with (2 * m + 5) by lia. fold n. lia.
      + replace (2 * (m + 2) + 1) with (2 * m + 5) by lia. fold n w. split; [rewrite lw; lia|]. split; [rewrite lw; lia|]. intros x Hx.
        rewrite <- (nth_skipn' w i x), <- EI, nth_firstn by exact Hx. reflexivity.
      + replace (2 * (m + 2) + 1) with (2 * m + 5) in Eu by lia. fold n in Eu. exists u. split; [lia|exact Eu].
  Qed.
  Lemma all_b i : i < n -> (forall t, t <= m + 1 -> i <> np t) -> lex_lt (skipn i w) (skipn (f (2 * m + 3)) w) -> Lt_ i = 98.
  Proof.
    intros Hi HB HL. destruct (cut i Hi) as [(E & _)|(E & _)]; [exact E|]. exfalso.
    assert (E3 : 2 * m + 3 = 2 * (m + 1) + 1) by lia. rewrite E3 in HL.
    destruct (claimA i (f (2 * (m + 1) + 1)) Hi (fp_lt (m + 1) ltac:(lia)) E (fp_letter (m + 1) ltac:(lia))) as [G|(t & Ht & Et)].
    - exact (lex_lt_asym _ _ G HL).
    - exact (HB t Ht Et).
  Qed.

  Section SA.
    Context (sa : list nat) (HSA : is_suffix_array w sa).
    Let HP : is_perm n sa. Proof. exact (proj1 HSA). Qed.
    Lemma in_sa q : In q sa <-> q < n.
    Proof. apply (is_perm_In _ _ _ HP). Qed.
    Lemma sa_split A p B : sa = A ++ p :: B -> p < n /\ (forall q, In q A <-> q < n /\ lex_lt (skipn q w) (skipn p w)) /\ (forall q, In q B <-> q < n /\ lex_lt (skipn p w) (skipn q w)).
    Proof.
      intros E. pose proof (proj2 HSA) as HS. rewrite E in HS. apply SSorted_split in HS. destruct HS as (S1 & S2 & _).
      assert (IN : forall q, In q (A ++ p :: B) <-> q < n) by (intros q; rewrite <- E; apply in_sa).
      split; [apply IN, in_or_app; right; now left|]. split; intros q; split.
      - intros Hq. split; [apply IN, in_or_app; now left|now apply S1].
      - intros (Hq & HL). apply IN, in_app_or in Hq. destruct Hq as [Hq|[->|Hq]]; [exact Hq| |]; exfalso; [exact (lex_lt_irrefl _ HL)|exact (lex_lt_asym _ _ HL (S2 _ Hq))].
      - intros Hq. split; [apply IN, in_or_app; right; now right|now apply S2].
      - intros (Hq & HL). apply IN, in_app_or in Hq. destruct Hq as [Hq|[->|Hq]]; [| |exact Hq]; exfalso; [exact (lex_lt_asym _ _ HL (S1 _ Hq))|exact (lex_lt_irrefl _ HL)].
    Qed.
    Context (z e : nat) (Hz : z = 98 /\ e = 2 \/ (z <> 98 /\ z <> 97 /\ e = 3)).
    Let g (q : nat) : nat := if q =? 0 then z else Lt_ q.
    Lemma shape d : forall t, t + d = m + 1 -> 1 <= t -> forall A B, sa = A ++ np t :: B ->
      exists l rs, is_runs (map g B) ((98, l) :: rs) /\ S (length rs) = e + 2 * d.
    Proof.
      induction d as [|d IH]; intros t Ht Ht1 A B E; destruct (sa_split _ _ _ E) as (_ & HA & HB); rewrite suf_odd in HA, HB by lia.
      - assert (Et : t = m + 1) by lia. subst t. replace (2 * (m + 1) + 1) with (2 * m + 3) in * by lia.
        assert (I0 : In 0 B). { apply HB. split; [pose proof n_ge; lia|]. cbn [skipn]. unfold w. replace (2 * m + 3) with (2 * (m + 1) + 1) by lia. replace (2 * m + 5) with (2 * (m + 2) + 1) by lia. apply odd_lt. lia. }
        destruct (in_split _ _ I0) as (X & Y & EB). assert (E' : sa = (A ++ np (m + 1) :: X) ++ 0 :: Y) by (rewrite E, EB, <- app_assoc; reflexivity).
        destruct (sa_split _ _ _ E') as (_ & HX & HY). cbn [skipn] in HX, HY.
        assert (GX : forall q, In q X -> g q = 98).
        { intros q Hq. assert (Q1 : In q (A ++ np (m + 1) :: X)) by (apply in_or_app; right; now right). apply HX in Q1. destruct Q1 as (Q1 & Q2).
          unfold g. destruct (Nat.eqb_spec q 0) as [->|N0]; [exfalso; exact (lex_lt_irrefl _ Q2)|].
          destruct (cut q Q1) as [(C & _)|(C & _)]; [exact C|]. exfalso.
          destruct (claimA q 0 Q1 ltac:(pose proof n_ge; lia) C Lt_0) as [G|(t & Ht' & ->)]; [exact (lex_lt_asym _ _ Q2 G)|].
          assert (Q3 : In (np t) B) by (rewrite EB; apply in_or_app; now left). apply HB in Q3. destruct Q3 as (_ & Q3). rewrite suf_odd in Q3 by lia.
          destruct (Nat.eq_dec t (m + 1)) as [->|]; [replace (2 * (m + 1) + 1) with (2 * m + 3) in Q3 by lia; exact (lex_lt_irrefl _ Q3)|].
          pose proof (odd_lt t (m + 1) ltac:(lia)) as Q4. replace (2 * (m + 1) + 1) with (2 * m + 3) in Q4 by lia. exact (lex_lt_asym _ _ Q3 Q4). }
        assert (GY : forall q, In q Y -> g q = 97).
        { intros q Hq. apply HY in Hq. destruct Hq as (Q1 & Q2). unfold g. destruct (Nat.eqb_spec q 0) as [->|N0]; [exfalso; exact (lex_lt_irrefl _ Q2)|].
          destruct (cut q Q1) as [(C & _)|(C & _)]; [|exact C]. exfalso. exact (lex_le_not_lt _ _ (claim0 q Q1 C) Q2). }
        assert (NX : X <> []).
        { intros ->. assert (Q : In (f (2 * m + 3)) (A ++ [np (m + 1)])).
          { apply HX. replace (2 * m + 3) with (2 * (m + 1) + 1) by lia. split; [apply fp_lt; lia|]. pose proof (mid (m + 1) ltac:(lia)) as (_ & M). replace (2 * S (m + 1) + 1) with (2 * m + 5) in M by lia. exact M. }
          pose proof (mid (m + 1) ltac:(lia)) as (M & _). replace (2 * (m + 1) + 1) with (2 * m + 3) in M by lia.
          apply in_app_or in Q. destruct Q as [Q|[Q|[]]].
          - apply HA in Q. destruct Q as (_ & Q). exact (lex_lt_asym _ _ Q M).
          - rewrite <- Q in M. rewrite suf_odd in M by lia. replace (2 * (m + 1) + 1) with (2 * m + 3) in M by lia. exact (lex_lt_irrefl _ M). }
        assert (NY : Y <> []).
        { intros ->. assert (Q : In 1 []); [|exact Q]. apply HY. split; [pose proof n_ge; lia|]. destruct (F_begin (2 * m + 3)) as (R & ER). replace (S (S (2 * m + 3))) with (2 * m + 5) in ER by lia. fold w in ER. rewrite ER. cbn [skipn]. apply lex_head. lia. }
        rewrite EB, map_app. cbn [map]. rewrite (map_all_repeat g 98 X GX), (map_all_repeat g 97 Y GY). replace (g 0) with z by reflexivity.
        destruct X as [|x X]; [easy|]. destruct Y as [|y Y]; [easy|]. set (lx := length (x :: X)) in *. set (ly := length (y :: Y)) in *.
        assert (Px : 1 <= lx) by (unfold lx; cbn; lia). assert (Py : 1 <= ly) by (unfold ly; cbn; lia). clearbody lx ly.
        assert (RY : is_runs (repeat 97 ly) [(97, ly)]) by (rewrite <- (app_nil_r (repeat 97 ly)); apply is_runs_cons; [exact Py|discriminate|apply (runs_ok [])]).
        destruct Hz as [(Z1 & Z2)|(Z1 & Z2 & Z3)].
        + exists (lx + 1), [(97, ly)]. split; [|cbn; lia]. replace (repeat 98 lx ++ z :: repeat 97 ly) with (repeat 98 (lx + 1) ++ repeat 97 ly) by (rewrite Z1, repeat_app, <- app_assoc; reflexivity).
          apply is_runs_cons; [lia|intros ? ? ? Q; injection Q as <- _ _; discriminate|exact RY].
        + exists lx, [(z, 1); (97, ly)]. split; [|cbn; lia]. apply is_runs_cons; [lia|intros ? ? ? Q; injection Q as <- _ _; exact Z1|].
          apply (is_runs_cons z 1); [lia|intros ? ? ? Q; injection Q as <- _ _; congruence|exact RY].
      - assert (I1 : In (np (S t)) B) by (apply HB; split; [apply np_lt|]; rewrite suf_odd by lia; apply odd_lt; lia).
        destruct (in_split _ _ I1) as (M & B' & EB). assert (E' : sa = (A ++ np t :: M) ++ np (S t) :: B') by (rewrite E, EB, <- app_assoc; reflexivity).
        destruct (IH (S t) ltac:(lia) ltac:(lia) _ _ E') as (l & rs & HR & HLn). destruct (sa_split _ _ _ E') as (_ & HX & _). rewrite suf_odd in HX by lia.
        assert (GM : forall q, In q M -> g q = 98).
        { intros q Hq. assert (Q1 : In q (A ++ np t :: M)) by (apply in_or_app; right; now right). apply HX in Q1. destruct Q1 as (Q1 & Q2).
          assert (Q3 : In q B) by (rewrite EB; apply in_or_app; now left). apply HB in Q3. destruct Q3 as (_ & Q3).
          unfold g. destruct (Nat.eqb_spec q 0) as [->|N0].
          - exfalso. cbn [skipn] in Q2. pose proof (odd_lt (S t) (m + 2) ltac:(lia)) as Q4. replace (2 * (m + 2) + 1) with (2 * m + 5) in Q4 by lia. exact (lex_lt_asym _ _ Q2 Q4).
          - apply all_b; [exact Q1| |].
            + intros u Hu ->. rewrite suf_odd in Q2, Q3 by lia. destruct (Nat.lt_trichotomy u t) as [C|[->|C]]; [exact (lex_lt_asym _ _ Q3 (odd_lt _ _ C))|exact (lex_lt_irrefl _ Q3)|].
              destruct (Nat.eq_dec u (S t)) as [->|]; [exact (lex_lt_irrefl _ Q2)|]. exact (lex_lt_asym _ _ Q2 (odd_lt (S t) u ltac:(lia))).
            + eapply lex_lt_trans; [exact Q2|]. pose proof (mid (m + 1) ltac:(lia)) as (M1 & _). replace (2 * m + 3) with (2 * (m + 1) + 1) by lia.
              destruct (Nat.eq_dec (S t) (m + 1)) as [Q|]; [rewrite Q; exact M1|]. eapply lex_lt_trans; [apply (odd_lt (S t) (m + 1)); lia|exact M1]. }
        assert (NM : M <> []).
        { intros ->. assert (Q : In (f (2 * t + 1)) (A ++ [np t])) by (apply HX; split; [apply fp_lt; lia|apply mid; lia]).
          pose proof (mid t ltac:(lia)) as (M & _). apply in_app_or in Q. destruct Q as [Q|[Q|[]]].
          - apply HA in Q. destruct Q as (_ & Q). exact (lex_lt_asym _ _ Q M).
          - rewrite <- Q in M. rewrite suf_odd in M by lia. exact (lex_lt_irrefl _ M). }
        exists (length M), ((97, 1) :: (98, l) :: rs). split; [|cbn [length] in *; lia].
        rewrite EB, map_app. cbn [map]. rewrite (map_all_repeat g 98 M GM). apply is_runs_cons; [destruct M; [easy|cbn; lia]|intros ? ? ? Q; injection Q as <- _ _; discriminate|].
        replace (g (np (S t))) with 97 by (unfold g; pose proof (np_pos (S t) ltac:(lia)); destruct (Nat.eqb_spec (np (S t)) 0); [lia|symmetry; apply np_letter; lia]).
        apply (is_runs_cons 97 1); [lia|intros ? ? ? Q; injection Q as <- _ _; discriminate|exact HR].
    Qed.
    (** E *)
    Lemma no_mid q : q < n -> lex_lt (F 1) (skipn q w) -> ~ lex_lt (skipn q w) (F 3).
    Proof.
      intros Hq H1 H2. destruct (F_odd_last (m + 2)) as (Q & EQ). replace (2 * (m + 2) + 1) with (2 * m + 5) in EQ by lia. fold w in EQ.
      assert (LAST : last (skipn q w) 0 = 98).
      { rewrite EQ. rewrite skipn_app. replace (q - length Q) with 0 by (apply (f_equal (@length nat)) in EQ; rewrite app_length, lw in EQ; cbn [length] in EQ; lia). cbn [skipn]. apply last_last. }
      pose proof (F_no_aaa (2 * m + 4) (firstn q w ++ [97; 98])) as NA. replace (S (2 * m + 4)) with (2 * m + 5) in NA by lia. fold w in NA.
      pose proof (F_letters (2 * m + 5)) as FL. fold w in FL. rewrite <- (firstn_skipn q w) in FL. apply Forall_app in FL. destruct FL as (_ & FL).
      assert (NB : forall t, skipn q w <> 97 :: 98 :: 97 :: 97 :: 97 :: t) by (intros t Et; apply (NA t); rewrite <- app_assoc; cbn [app]; rewrite <- Et; symmetry; apply firstn_skipn). clear NA.
      set (v := skipn q w) in *. clearbody v. clear HSA HP. 
      change (F 1) with [97; 98] in H1. change (F 3) with [97; 98; 97; 97; 98] in H2.
      destruct v as [|a v]; [exact (lex_lt_nil_r _ H1)|]. inversion FL as [|? ? Fa FL1]; subst. inversion H2 as [|? ? ? ? C|? ? ? H2' ]; subst; [lia|].
      inversion H1 as [|? ? ? ? C|? ? ? H1']; subst; [lia|]. clear H1 H2.
      destruct v as [|b v]; [exact (lex_lt_nil_r _ H1')|]. inversion FL1 as [|? ? Fb FL2]; subst.
      assert (b = 98). { inversion H1'; subst; [lia|reflexivity]. } subst b.
      inversion H1' as [|? ? ? ? C|? ? ? H1]; subst; [lia|]. inversion H2' as [|? ? ? ? C|? ? ? H2]; subst; [lia|].
      destruct v as [|c v]; [exact (lex_lt_nil_r _ H1)|]. inversion FL2 as [|? ? Fc FL3]; subst. inversion H2 as [|? ? ? ? C|? ? ? H3]; subst; [lia|].
      destruct v as [|d v]; [discriminate|]. inversion FL3 as [|? ? Fd FL4]; subst. inversion H3 as [|? ? ? ? C|? ? ? H4]; subst; [lia|].
      destruct v as [|c v]; [discriminate|]. inversion FL4 as [|? ? Fe FL5]; subst. inversion H4 as [|? ? ? ? C|? ? ? H5]; subst; [|exact (lex_lt_nil_r _ H5)].
      assert (c = 97) by lia. subst c. exact (NB v eq_refl).
    Qed.
    Theorem odd_runs : exists l rs, is_runs (map g sa) ((98, l) :: (97, 2) :: rs) /\ length rs = e + 2 * m /\ exists l2 rs2, rs = (98, l2) :: rs2.
    Proof.
      assert (I1 : In (np 1) sa) by (apply in_sa, np_lt). destruct (in_split _ _ I1) as (A & B & E). destruct (sa_split _ _ _ E) as (_ & HA & HB). rewrite suf_odd in HA, HB by lia.
      destruct (shape m 1 ltac:(lia) ltac:(lia) _ _ E) as (l & rs & HR & HL).
      assert (I0 : In (np 0) A) by (apply HA; split; [apply np_lt|]; rewrite suf_odd by lia; apply (odd_lt 0 1); lia).
      destruct (in_split _ _ I0) as (X & M & EA). assert (E' : sa = X ++ np 0 :: (M ++ np 1 :: B)) by (rewrite E, EA, <- app_assoc; reflexivity).
      destruct (sa_split _ _ _ E') as (_ & HX & HY). rewrite suf_odd in HX, HY by lia. change (2 * 0 + 1) with 1 in *. change (2 * 1 + 1) with 3 in *.
      assert (EM : M = []).
      { destruct M as [|q M]; [reflexivity|]. exfalso. assert (Q1 : In q ((q :: M) ++ np 1 :: B)) by now left. apply HY in Q1. destruct Q1 as (Q1 & Q2).
        assert (Q3 : In q A) by (rewrite EA; apply in_or_app; right; right; now left). apply HA in Q3. destruct Q3 as (_ & Q3). exact (no_mid q Q1 Q2 Q3). }
      assert (GX : forall q, In q X -> g q = 98).
      { intros q Hq. apply HX in Hq. destruct Hq as (Q1 & Q2). unfold g. destruct (Nat.eqb_spec q 0) as [->|N0].
        - exfalso. cbn [skipn] in Q2. pose proof (odd_lt 0 (m + 2) ltac:(lia)) as Q4. replace (2 * (m + 2) + 1) with (2 * m + 5) in Q4 by lia. exact (lex_lt_asym _ _ Q2 Q4).
        - apply all_b; [exact Q1| |].
          + intros u Hu ->. rewrite suf_odd in Q2 by lia. destruct u as [|u]; [exact (lex_lt_irrefl _ Q2)|]. exact (lex_lt_asym _ _ Q2 (odd_lt 0 (S u) ltac:(lia))).
          + eapply lex_lt_trans; [exact Q2|]. pose proof (mid (m + 1) ltac:(lia)) as (M1 & _). replace (2 * m + 3) with (2 * (m + 1) + 1) by lia.
            eapply lex_lt_trans; [apply (odd_lt 0 (m + 1)); lia|exact M1]. }
      assert (NX : X <> []).
      { intros ->. destruct (F_odd_end (m + 1)) as (Q & EQ). replace (2 * (m + 1) + 3) with (2 * m + 5) in EQ by lia. fold w in EQ.
        assert (LQ : n = length Q + 4) by (rewrite <- lw, EQ, app_length; reflexivity).
        assert (QQ : In (length Q + 1) []); [|exact QQ]. apply HX. split; [lia|]. rewrite EQ, skipn_app, skipn_all2 by lia. replace (length Q + 1 - length Q) with 1 by lia. cbn. apply lex_tail, lex_head. lia. }
      exists (length X), ((98, l) :: rs). split; [|split; [cbn; lia|exists l, rs; reflexivity]].
      rewrite E', EM, map_app. cbn [app map]. rewrite (map_all_repeat g 98 X GX). apply is_runs_cons; [destruct X; [easy|cbn; lia]|intros ? ? ? Q; injection Q as <- _ _; discriminate|].
      assert (GN : forall t, t <= m + 1 -> g (np t) = 97) by (intros t Ht; unfold g; pose proof (np_pos t Ht); destruct (Nat.eqb_spec (np t) 0); [lia|now apply np_letter]).
      rewrite !GN by lia. apply (is_runs_cons 97 2); [lia|intros ? ? ? Q; injection Q as <- _ _; discriminate|exact HR].
    Qed.
  End SA.
End Odd.
