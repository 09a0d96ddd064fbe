(** MusProof.v : lexparse (count_lexparse) and minimal unique substrings (mus). *)
From Verif Require Import Base SpecStr LexFacts ModelCore PermFacts SortFacts LcpProof ModelLz SpecLz LzProof.
From Coq Require Import NArith.

(** all letters equal *)
Definition unary (t : str) : Prop := forall i j, i < length t -> j < length t -> nth i t 0 = nth j t 0.

Lemma lcp_structures' t sa : t <> [] -> is_suffix_array t sa ->
  exists isa phi plcp lcp, inverse_permutation sa = Ok isa /\
    compute_phi sa = Ok phi /\ compute_plcp t phi = Ok plcp /\ compute_lcp plcp sa = Ok lcp /\
    is_perm (length t) isa /\ is_perm (length t) phi /\ length plcp = length t /\ length lcp = length t /\
    (forall i, i < length t -> nth (nth i sa 0) isa 0 = i) /\
    (forall j, j < length t -> nth (nth j isa 0) sa 0 = j) /\
    (forall i, 0 < i < length t -> nth (nth i sa 0) phi 0 = nth (i - 1) sa 0) /\
    nth (nth 0 sa 0) phi 0 = nth (length t - 1) sa 0 /\
    (forall i, i < length t -> lcpv t (nth i phi 0) i (nth i plcp 0)) /\
    (forall i, 0 < i < length t -> lcpv t (nth (i - 1) sa 0) (nth i sa 0) (nth i lcp 0)) /\
    lcpv t (nth (length t - 1) sa 0) (nth 0 sa 0) (nth 0 lcp 0).
Proof.
  intros Hne HSA. assert (Hn : 0 < length t) by (destruct t; [easy|simpl; lia]).
  pose proof HSA as [HP _].
  destruct (inverse_permutation_spec _ _ HP) as (isa & Ei & HPi & Hi1 & Hi2).
  destruct (compute_phi_ok _ sa Hn HP) as (phi & Ephi & HPp & Hp1 & Hp0).
  destruct (lcp_structures t sa Hne HSA) as (phi' & plcp & lcp & E1 & E2 & E3 & L1 & L2 & H1 & H2 & H3).
  rewrite Ephi in E1. injection E1 as <-.
  exists isa, phi, plcp, lcp. repeat (split; [assumption|]).
  assert (Hlt : forall i, i < length t -> nth i sa 0 <= length t) by
    (intros; apply Nat.lt_le_incl, is_perm_nth; auto).
  assert (Hltp : forall i, i < length t -> nth i phi 0 <= length t) by
    (intros; apply Nat.lt_le_incl, is_perm_nth; auto).
  split; [|split].
  - intros i Hi. apply lcpv_is_lcp; auto; lia.
  - intros i Hi. apply lcpv_is_lcp; auto; apply Hlt; lia.
  - apply lcpv_is_lcp; auto; apply Hlt; lia.
Qed.

(** first and last suffix share a letter only in unary texts *)
Lemma ring_lcp_unary t sa : is_suffix_array t sa -> agree t (nth (length t - 1) sa 0) (nth 0 sa 0) 1 -> unary t.
Proof.
  intros HSA HA. pose proof HSA as [HP _].
  assert (Hlt : forall i, i < length t -> nth i sa 0 < length t) by (intros; apply is_perm_nth; auto).
  assert (G : forall i, i < length t -> nth i t 0 = nth (nth 0 sa 0) t 0).
  { intros i Hi. destruct (is_perm_surj _ sa i HP Hi) as (r & Hr & Er).
    pose proof (Hlt 0 ltac:(lia)). pose proof (Hlt (length t - 1) ltac:(lia)).
    assert (L1 : lex_le (skipn (nth 0 sa 0) t) (skipn i t)).
    { destruct (Nat.eq_dec r 0) as [->|]; [rewrite <- Er; apply lex_le_refl|].
      right. rewrite <- Er. apply (sa_lt t sa); auto. lia. }
    assert (L2 : lex_le (skipn i t) (skipn (nth (length t - 1) sa 0) t)).
    { destruct (Nat.eq_dec r (length t - 1)) as [->|]; [rewrite <- Er; apply lex_le_refl|].
      right. rewrite <- Er. apply (sa_lt t sa); auto. lia. }
    destruct (agree_sandwich t (nth 0 sa 0) i (nth (length t - 1) sa 0) 1) as [(_ & _ & A) _]; auto; try lia.
    { now apply agree_sym. }
    specialize (A 0 ltac:(lia)). rewrite !Nat.add_0_r in A. auto. }
  intros i j Hi Hj. rewrite G, (G j) by auto. reflexivity.
Qed.

Lemma nth_rep (d n i : nat) : i < n -> nth i (repeat d n) 0 = d.
Proof. intros H. rewrite (nth_indep _ 0 d) by now rewrite repeat_length. apply nth_repeat. Qed.

(** ** lexparse *)
Definition is_lexfactor (t : str) (plcp phi : list nat) (i : nat) (f : lzfactor) : Prop :=
  (nth i plcp 0 = 0 /\ f = LZ (nth i t 0) 0) \/ (0 < nth i plcp 0 /\ f = LZ (nth i phi 0) (nth i plcp 0)).
Fixpoint lexparse_upto (t : str) (plcp phi : list nat) (a b : nat) (fs : list lzfactor) : Prop :=
  match fs with
  | [] => a = b
  | f :: fs' => a < length t /\ is_lexfactor t plcp phi a f /\ lexparse_upto t plcp phi (a + Nat.max 1 (lz_len f)) b fs'
  end.
Lemma lexparse_upto_snoc t plcp phi fs : forall a b f, lexparse_upto t plcp phi a b fs -> b < length t ->
  is_lexfactor t plcp phi b f -> lexparse_upto t plcp phi a (b + Nat.max 1 (lz_len f)) (fs ++ [f]).
Proof.
  induction fs as [|g fs IH]; cbn [lexparse_upto app]; intros a b f H Hb Hf.
  - subst. repeat (split; [assumption|]). reflexivity.
  - destruct H as (H1 & H2 & H3). repeat (split; [assumption|]). now apply IH.
Qed.
Lemma compute_lexparse_ok t plcp phi : length plcp = length t -> length phi = length t ->
  (forall i, i < length t -> i + nth i plcp 0 <= length t) ->
  exists fs, compute_lexparse t plcp phi = Ok fs /\ lexparse_upto t plcp phi 0 (length t) fs.
Proof.
  intros L1 L2 Hb.
  enough (G : okp (compute_lexparse t plcp phi) (lexparse_upto t plcp phi 0 (length t))) by exact G.
  unfold compute_lexparse.
  apply (okp_loop (fun '(i, fs) => i <= length t /\ lexparse_upto t plcp phi 0 i fs) (fun '(i, _) => length t - i)).
  2: { split; [lia|reflexivity]. }
  2: { lia. }
  intros (i, fs) (Hi & HP). destruct (Nat.ltb_spec i (length t)) as [Lt|Ge].
  2: { apply okp_ok. now replace (length t) with i by lia. }
  apply okp_bind, (okp_get _ _ 0); [lia|]. specialize (Hb i Lt).
  destruct (Nat.eqb_spec (nth i plcp 0) 0) as [E|E].
  - apply okp_bind, (okp_get _ _ 0); [lia|]. apply okp_ok. split; [|lia]. split; [lia|].
    apply (lexparse_upto_snoc t plcp phi fs 0 i (LZ (nth i t 0) 0)); auto. left. auto.
  - apply okp_bind, (okp_get _ _ 0); [lia|]. apply okp_ok. split; [|lia]. split; [lia|].
    pose proof (lexparse_upto_snoc t plcp phi fs 0 i (LZ (nth i phi 0) (nth i plcp 0)) HP Lt) as S.
    cbn [lz_len] in S. replace (Nat.max 1 (nth i plcp 0)) with (nth i plcp 0) in S by lia. apply S.
    right. split; [lia|auto].
Qed.

Lemma lexparse_consistent t plcp phi fs : (forall i, i < length t -> lcpv t (nth i phi 0) i (nth i plcp 0)) ->
  forall a, lexparse_upto t plcp phi a (length t) fs -> consistent t a fs.
Proof.
  intros HL. induction fs as [|f fs IH]; intros a H; cbn [lexparse_upto consistent] in *; auto.
  destruct H as (Ha & Hf & H). split; [|now apply IH].
  destruct Hf as [(E & ->)|(E & ->)]; cbn [lz_len lz_pos].
  - cbn [Nat.eqb]. auto.
  - destruct (Nat.eqb_spec (nth a plcp 0) 0); [lia|]. apply HL. exact Ha.
Qed.

(** every position lies in some factor *)
Lemma lexparse_cover t plcp phi fs : forall a, lexparse_upto t plcp phi a (length t) fs ->
  forall x, consistent x a fs -> length x = length t -> forall i, a <= i < length t ->
  exists s, s <= i < length t /\
    ((s = i /\ nth i plcp 0 = 0 /\ nth i x 0 = nth i t 0) \/
     (i < s + nth s plcp 0 /\ same_substring x (nth s phi 0) s (nth s plcp 0))).
Proof.
  induction fs as [|f fs IH]; intros a H x Hx Lx i Hi; cbn [lexparse_upto consistent] in *; [lia|].
  destruct H as (Ha & Hf & H), Hx as (Hx1 & Hx).
  destruct (Nat.le_gt_cases (a + Nat.max 1 (lz_len f)) i) as [C|C].
  - destruct (IH _ H x Hx Lx i ltac:(lia)) as (s & Hs & R). exists s. auto.
  - exists a. split; [lia|]. destruct Hf as [(E & ->)|(E & ->)]; cbn [lz_len lz_pos] in *.
    + left. assert (a = i) by (simpl in C; lia). subst i. cbn [Nat.eqb] in Hx1. tauto.
    + right. destruct (Nat.eqb_spec (nth a plcp 0) 0); [lia|]. split; [lia|exact Hx1].
Qed.

Lemma agree_lex_shift t a b l : agree t a b l -> lex_lt (skipn a t) (skipn b t) -> forall x, x <= l ->
  lex_lt (skipn (a + x) t) (skipn (b + x) t).
Proof.
  intros (H1 & H2 & H3) HL. induction x as [|x IH]; intros Hx; [now rewrite !Nat.add_0_r|].
  rewrite <- !plus_n_Sm. apply (proj1 (lex_lt_shift t (a + x) (b + x) ltac:(lia) ltac:(lia) (H3 x ltac:(lia)))). apply IH; lia.
Qed.

Lemma lexparse_ok sort t : (forall t, is_suffix_array t (sort t)) -> t <> [] ->
  exists fs, count_lexparse_main sort t = Ok fs /\ consistent t 0 fs /\
    (~ unary t -> forall x, length x = length t -> consistent x 0 fs -> x = t) /\
    (unary t -> forall d, consistent (repeat d (length t)) 0 fs).
Proof.
  intros Hs Hne. specialize (Hs t). unfold count_lexparse_main. set (sa := sort t) in *. clearbody sa.
  pose proof Hs as (HP & _). assert (Hn : 0 < length t) by (destruct t; [easy|simpl; lia]).
  destruct (lcp_structures' t sa Hne Hs) as (isa & phi & plcp & lcp & E1 & E2 & E3 & E4 & HPi & HPp & Lp & Ll & Hi1 & Hi2 & Hp1 & Hp0 & Hplcp & _ & _).
  rewrite E2. cbn [bind]. rewrite E3. cbn [bind].
  destruct (compute_lexparse_ok t plcp phi Lp (is_perm_length _ _ HPp)) as (fs & E & Hfs).
  { intros i Hi. destruct (Hplcp i Hi) as ((_ & H & _) & _). exact H. }
  exists fs. split; [exact E|]. split; [now apply (lexparse_consistent t plcp phi)|]. split.
  - intros Hu x Lx Hx. apply (nth_ext_len _ _ 0); [exact Lx|]. rewrite Lx.
    enough (G : forall r i, i < length t -> nth i isa 0 < r -> nth i x 0 = nth i t 0).
    { intros i Hi. apply (G (length t)); auto. now apply is_perm_nth. }
    induction r as [|r IH]; intros i Hi Hr; [lia|].
    destruct (lexparse_cover t plcp phi fs 0 Hfs x Hx Lx i ltac:(lia)) as (s & Hs' & [(_ & _ & G)|(Hlt & G)]); auto.
    assert (Hsl : s < length t) by lia.
    pose proof (Hplcp s Hsl) as (HA & _).
    assert (Hr0 : 0 < nth s isa 0).
    { destruct (Nat.eq_dec (nth s isa 0) 0) as [E0|]; [|lia]. exfalso. apply Hu.
      apply (ring_lcp_unary t sa Hs). pose proof (Hi2 s Hsl) as Es. rewrite E0 in Es.
      rewrite Es in Hp0 |- *. rewrite <- Hp0. apply (agree_le _ _ _ _ _ HA). lia. }
    pose proof (is_perm_nth _ isa s HPi Hsl) as Hrs.
    pose proof (Hp1 (nth s isa 0) ltac:(lia)) as Eph. rewrite Hi2 in Eph by lia.
    assert (HL : lex_lt (skipn (nth s phi 0) t) (skipn s t)).
    { rewrite Eph. rewrite <- (Hi2 s Hsl) at 2. apply (sa_lt t sa); auto. lia. }
    pose proof (agree_lex_shift t _ _ _ HA HL (i - s) ltac:(lia)) as HL2.
    replace (s + (i - s)) with i in HL2 by lia.
    destruct HA as (HA1 & HA2 & HA3). destruct G as (G1 & G2 & G3).
    specialize (HA3 (i - s) ltac:(lia)). specialize (G3 (i - s) ltac:(lia)).
    replace (s + (i - s)) with i in HA3, G3 by lia. rewrite <- G3, <- HA3.
    apply IH; [lia|].
    enough (nth (nth s phi 0 + (i - s)) isa 0 < nth i isa 0) by lia.
    rewrite (isa_lt_iff t sa isa) in HL2; auto. lia.
  - intros Hu d.
    assert (Hpos : forall i, i < length t -> 0 < nth i plcp 0).
    { intros i Hi. destruct (Hplcp i Hi) as (HA & Hmax).
      destruct (Nat.eq_dec (nth i plcp 0) 0) as [E0|]; [|lia]. exfalso. rewrite E0, !Nat.add_0_r in Hmax.
      pose proof (is_perm_nth _ phi i HPp Hi). apply Hmax; auto. }
    enough (G : forall a, lexparse_upto t plcp phi a (length t) fs -> consistent (repeat d (length t)) a fs) by auto.
    clear E Hfs. induction fs as [|f fs IH]; intros a H; cbn [lexparse_upto consistent] in *.
    + now rewrite repeat_length.
    + destruct H as (Ha & Hf & H). split; [|now apply IH]. specialize (Hpos a Ha).
      destruct Hf as [(E0 & ->)|(E0 & ->)]; cbn [lz_len lz_pos]; [lia|].
      destruct (Nat.eqb_spec (nth a plcp 0) 0); [lia|]. destruct (Hplcp a Ha) as ((A1 & A2 & _) & _).
      split; [now rewrite repeat_length|]. split; [now rewrite repeat_length|].
      intros y Hy. rewrite !nth_rep by lia. reflexivity.
Qed.

(** ** minimal unique substrings *)
Section Mus.
Context (t : str) (sa isa lcp : list nat).
Context (HSA : is_suffix_array t sa) (HPi : is_perm (length t) isa)
  (Hi1 : forall i, i < length t -> nth (nth i sa 0) isa 0 = i)
  (Hi2 : forall j, j < length t -> nth (nth j isa 0) sa 0 = j)
  (Ll : length lcp = length t)
  (Hl : forall r, 0 < r < length t -> lcpv t (nth (r - 1) sa 0) (nth r sa 0) (nth r lcp 0))
  (Hl0 : lcpv t (nth (length t - 1) sa 0) (nth 0 sa 0) (nth 0 lcp 0))
  (H2 : 2 <= length t).

Let Lsa : length sa = length t.
Proof. destruct HSA as (HP & _). now apply is_perm_length. Qed.
Let salt : forall i, i < length t -> nth i sa 0 < length t.
Proof. intros i Hi. destruct HSA as (HP & _). now apply is_perm_nth. Qed.
Let isalt : forall i, i < length t -> nth i isa 0 < length t.
Proof. intros i Hi. now apply is_perm_nth. Qed.

Lemma lcp0_le_lcp1 : nth 0 lcp 0 <= nth 1 lcp 0.
Proof.
  assert (Hle : forall a b, a <= b < length t -> lex_le (skipn (nth a sa 0) t) (skipn (nth b sa 0) t))
    by (intros a b Hab; destruct (Nat.eq_dec a b) as [->|]; [apply lex_le_refl|right; apply (sa_lt t sa); auto; lia]).
  apply (lcpv_max _ _ _ _ _ (Hl 1 ltac:(lia))).
  apply (agree_sandwich t (nth 0 sa 0) (nth 1 sa 0) (nth (length t - 1) sa 0)); auto;
    try (apply Nat.lt_le_incl, salt; lia); try (apply Hle; lia). apply agree_sym, Hl0.
Qed.

(** e is the length of the longest prefix of t[i..] that occurs elsewhere *)
Definition is_rep (i e : nat) : Prop :=
  (exists j, j <> i /\ agree t j i e) /\ forall j l, j <> i -> agree t j i l -> l <= e.

Lemma getlength_ok i : i < length t -> exists e, mus_getlength sa isa lcp i = Ok e /\ is_rep i e.
Proof.
  intros Hi. pose proof (isalt i Hi) as Hr.
  unfold mus_getlength. rewrite (get_ok isa i 0) by now rewrite (is_perm_length _ _ HPi). cbn [bind].
  set (r := nth i isa 0) in *. assert (Er : nth r sa 0 = i) by (unfold r; auto). rewrite Lsa.
  assert (Hle : forall a b, a <= b < length t -> lex_le (skipn (nth a sa 0) t) (skipn (nth b sa 0) t))
    by (intros a b Hab; destruct (Nat.eq_dec a b) as [->|]; [apply lex_le_refl|right; apply (sa_lt t sa); auto; lia]).
  assert (Hlow : forall j l, j < length t -> nth j isa 0 < r -> agree t j i l -> 0 < r /\ l <= nth r lcp 0).
  { intros j l Hj Hjr HA. split; [lia|]. specialize (Hl r ltac:(lia)). rewrite Er in Hl.
    apply (lcpv_max _ _ _ _ _ Hl). rewrite <- Er. rewrite <- (Hi2 j Hj), <- Er in HA.
    apply (agree_sandwich t (nth (nth j isa 0) sa 0) (nth (r - 1) sa 0) (nth r sa 0)); auto;
      try (apply Nat.lt_le_incl, salt; lia); apply Hle; lia. }
  assert (Hhigh : forall j l, j < length t -> r < nth j isa 0 -> agree t j i l -> r + 1 < length t /\ l <= nth (r + 1) lcp 0).
  { intros j l Hj Hjr HA. pose proof (isalt j Hj). split; [lia|].
    specialize (Hl (r + 1) ltac:(lia)). replace (r + 1 - 1) with r in Hl by lia.
    apply (lcpv_max _ _ _ _ _ Hl). apply agree_sym in HA. rewrite <- (Hi2 j Hj), <- Er in HA.
    apply (agree_sandwich t (nth r sa 0) (nth (r + 1) sa 0) (nth (nth j isa 0) sa 0)); auto;
      try (apply Nat.lt_le_incl, salt; lia); apply Hle; lia. }
  assert (Htri : forall j, j <> i -> j < length t -> nth j isa 0 < r \/ r < nth j isa 0).
  { intros j Hj Hjl. unfold r. destruct (Nat.lt_trichotomy (nth j isa 0) (nth i isa 0)) as [?|[E|?]]; auto.
    exfalso. apply Hj. now apply (is_perm_inj (length t) isa). }
  assert (Hneq : forall q, q < length t -> q <> r -> nth q sa 0 <> i).
  { intros q Hq Hqr E. apply Hqr. rewrite <- (Hi1 q Hq), E. reflexivity. }
  assert (Hend : forall j l, j <> i -> agree t j i l -> j >= length t -> l = 0).
  { intros j l _ (A & _) Hj. lia. }
  destruct (Nat.eqb_spec (r + 1) (length t)) as [El|Nl].
  - rewrite (get_ok lcp r 0) by lia. exists (nth r lcp 0). split; [reflexivity|]. split.
    + specialize (Hl r ltac:(lia)). exists (nth (r - 1) sa 0). split; [apply Hneq; lia|]. rewrite <- Er. apply Hl.
    + intros j l Hj HA. destruct (Nat.lt_ge_cases j (length t)) as [Hjl|Hjl].
      * destruct (Htri j Hj Hjl) as [C|C].
        -- eapply Hlow; eauto.
        -- pose proof (isalt j Hjl). lia.
      * rewrite (Hend j l Hj HA Hjl). lia.
  - rewrite (get_ok lcp r 0) by lia. cbn [bind]. rewrite (get_ok lcp (r + 1) 0) by lia. cbn [bind].
    eexists. split; [reflexivity|]. split.
    + pose proof (Hl (r + 1) ltac:(lia)) as H1. replace (r + 1 - 1) with r in H1 by lia. rewrite Er in H1.
      destruct (Nat.le_gt_cases (nth r lcp 0) (nth (r + 1) lcp 0)) as [C|C].
      * rewrite Nat.max_r by lia. exists (nth (r + 1) sa 0). split; [apply Hneq; lia|]. apply agree_sym, H1.
      * rewrite Nat.max_l by lia. assert (r <> 0) by (intros E0; rewrite E0 in C; pose proof lcp0_le_lcp1; simpl in C; lia).
        pose proof (Hl r ltac:(lia)) as H1'. rewrite Er in H1'. exists (nth (r - 1) sa 0). split; [apply Hneq; lia|]. apply H1'.
    + intros j l Hj HA. destruct (Nat.lt_ge_cases j (length t)) as [Hjl|Hjl].
      * destruct (Htri j Hj Hjl) as [C|C].
        -- destruct (Hlow j l Hjl C HA). lia.
        -- destruct (Hhigh j l Hjl C HA). lia.
      * rewrite (Hend j l Hj HA Hjl). lia.
Qed.

Lemma rep_unique i e l : is_rep i e -> i + l <= length t -> (unique_substring t i l <-> e < l).
Proof.
  intros ((j & Hj & HA) & Hmax) Hil. split.
  - intros (_ & HU). destruct (Nat.lt_ge_cases e l) as [|C]; auto. exfalso. apply Hj. apply HU.
    apply (agree_le _ _ _ _ _ HA C).
  - intros C. split; [exact Hil|]. intros j' HA'. destruct (Nat.eq_dec j' i) as [|N]; auto.
    specialize (Hmax j' l N HA'). lia.
Qed.

Lemma rep_mus i e e' l : S i < length t -> is_rep i e -> is_rep (S i) e' ->
  (is_mus t i l <-> l = e + 1 /\ i + l <= length t /\ e <= e').
Proof.
  intros Hi Hr Hr'. split.
  - intros (H1 & HU & Hmin). pose proof (proj1 HU) as Hil. pose proof (proj1 (rep_unique i e l Hr Hil) HU) as Hel.
    assert (El : l = e + 1).
    { destruct (Nat.eq_dec l (e + 1)); auto. exfalso. apply (Hmin i (e + 1)); try lia.
      apply (rep_unique i e); auto; lia. }
    split; [exact El|]. split; [exact Hil|].
    destruct (Nat.le_gt_cases e e') as [|C]; auto. exfalso. apply (Hmin (S i) e); try lia.
    apply (rep_unique (S i) e'); auto. lia.
  - intros (-> & Hil & Hee). split; [lia|]. split; [apply (rep_unique i e); auto; lia|].
    intros i' l' Hi' Hil' Hl' HU.
    destruct (Nat.eq_dec i' i) as [->|Ne].
    + apply (rep_unique i e) in HU; auto; lia.
    + destruct Hr' as ((j & Hj & HA) & _). pose proof (agree_le _ _ _ _ _ HA Hee) as HA'.
      assert (j + (i' - S i) = i').
      { apply HU. pose proof (same_shift t j (S i) e (i' - S i) HA' ltac:(lia)) as S'.
        replace (S i + (i' - S i)) with i' in S' by lia. apply (agree_le _ _ _ _ _ S'). lia. }
      apply Hj. lia.
Qed.

Lemma get_mus_ok :
  (forall i j, S i < length t -> j <> i -> ~ agree t j i (length t - i)) ->
  exists L, get_mus sa isa lcp = Ok L /\ StronglySorted (fun p q => fst p < fst q) L /\
    forall i l, In (i, l) L <-> is_mus t i l /\ i + l < length t.
Proof.
  intros Hnp.
  enough (G : okp (get_mus sa isa lcp) (fun L => StronglySorted (fun p q => fst p < fst q) L /\
    forall i l, In (i, l) L <-> is_mus t i l /\ i + l < length t)) by exact G.
  unfold get_mus. rewrite Lsa. apply okp_bind, okp_sub; [lia|].
  eapply okp_imp; [apply (okp_for_range (fun k L => StronglySorted (fun p q : nat * nat => fst p < fst q) L /\
    forall i l, In (i, l) L <-> i < k /\ is_mus t i l /\ i + l < length t)); [lia| |]|].
  - split; [constructor|]. intros i l. simpl. lia.
  - intros i L Hi (HS & HL).
    destruct (getlength_ok i ltac:(lia)) as (e & -> & He). cbn [bind].
    assert (Hei : e + i < length t).
    { destruct He as ((j & Hj & HA) & _). destruct (Nat.lt_ge_cases (e + i) (length t)) as [|C]; auto. exfalso.
      apply (Hnp i j ltac:(lia) Hj). apply (agree_le _ _ _ _ _ HA). lia. }
    apply okp_bind, okp_assert; [now apply Nat.ltb_lt|].
    destruct (getlength_ok (S i) ltac:(lia)) as (e' & Ee' & He').
    pose proof (fun l => rep_mus i e e' l ltac:(lia) He He') as Hm.
    assert (Hskip : (forall l, ~ (is_mus t i l /\ i + l < length t)) ->
      StronglySorted (fun p q : nat * nat => fst p < fst q) L /\
      forall i0 l, In (i0, l) L <-> i0 < S i /\ is_mus t i0 l /\ i0 + l < length t).
    { intros Hno. split; [exact HS|]. intros i0 l. rewrite HL. split.
      - intros (A & B). split; [lia|exact B].
      - intros (A & B). split; [|exact B]. destruct (Nat.eq_dec i0 i) as [->|]; [|lia].
        exfalso. exact (Hno l B). }
    destruct (Nat.leb_spec (length t - 1) (e + i)) as [C|C].
    + apply okp_ok. apply Hskip. intros l (B1 & B2). apply Hm in B1. lia.
    + rewrite Nat.add_1_r, Ee'. cbn [bind]. destruct (Nat.leb_spec e e') as [D|D].
      * apply okp_ok. split.
        -- assert (Hb : Forall (fun p : nat * nat => fst p < i) L).
           { apply Forall_forall. intros (i0, l) Hin. apply HL in Hin. simpl. lia. }
           clear HL Hskip. induction HS as [|p L HS IH HF]; simpl; [repeat constructor|].
           inversion Hb; subst. constructor; [now apply IH|]. apply Forall_app. split; [exact HF|].
           repeat constructor. simpl. lia.
        -- intros i0 l. rewrite in_app_iff, HL. simpl. split.
           ++ intros [(A & B)|[E|[]]]; [split; [lia|exact B]|]. injection E as <- <-.
              split; [lia|]. split; [apply Hm; lia|lia].
           ++ intros (A & B1 & B2). destruct (Nat.eq_dec i0 i) as [->|]; [|left; lia + (split; [lia|auto])].
              right. left. apply Hm in B1. f_equal. lia.
      * apply okp_ok. apply Hskip. intros l (B1 & B2). apply Hm in B1. lia.
  - cbv beta. intros L (HS & HL). split; [exact HS|]. intros i l. rewrite HL. split; [tauto|].
    intros (A & B). split; [|auto]. destruct A as (A & _). lia.
Qed.

Lemma get_mus_panic i j : S i < length t -> j <> i -> agree t j i (length t - i) -> get_mus sa isa lcp = Panic.
Proof.
  intros Hi Hj HA. unfold get_mus. rewrite Lsa, sub_ok by lia. cbn [bind].
  assert (Hp : forall k n L, k <= i < k + n -> k + n = length t - 1 ->
     for_in (seq k n) (fun i mus =>
        elli <- mus_getlength sa isa lcp i ;;
        assert_ (elli + i <? length t) ;;;
        if length t - 1 <=? elli + i then Ok mus else
        nextell <- mus_getlength sa isa lcp (i + 1) ;;
        if elli <=? nextell then Ok (mus ++ [(i, elli + 1)]) else Ok mus) L = Panic).
  { intros k n. revert k. induction n as [|n IH]; intros k L Hk Hn; [lia|]. cbn [seq for_in].
    destruct (getlength_ok k ltac:(lia)) as (e & -> & He). cbn [bind].
    destruct (Nat.eq_dec k i) as [->|Ne].
    - destruct He as (_ & Hmax). specialize (Hmax j _ Hj HA).
      destruct (Nat.ltb_spec (e + i) (length t)); [lia|reflexivity].
    - destruct (Nat.ltb_spec (e + k) (length t)); [|reflexivity]. cbn [assert_ bind].
      destruct (Nat.leb_spec (length t - 1) (e + k)); [cbn [bind]; apply IH; lia|].
      destruct (getlength_ok (k + 1) ltac:(lia)) as (e' & -> & _). cbn [bind].
      destruct (e <=? e'); cbn [bind]; apply IH; lia. }
  unfold range. apply Hp; lia.
Qed.
End Mus.

Lemma mus_main_long sort t : (forall t, is_suffix_array t (sort t)) -> 2 <= length t ->
  ((forall i j, S i < length t -> j <> i -> ~ same_substring t j i (length t - i)) ->
   exists L, mus_main sort t = Ok L /\ StronglySorted (fun p q => fst p < fst q) L /\
    forall i l, In (i, l) L <-> is_mus t i l /\ i + l < length t) /\
  (forall i j, S i < length t -> j <> i -> same_substring t j i (length t - i) -> mus_main sort t = Panic).
Proof.
  intros Hs Hu. specialize (Hs t). unfold mus_main. set (sa := sort t) in *. clearbody sa.
  assert (Hne : t <> []) by (intros ->; simpl in Hu; lia).
  destruct (lcp_structures' t sa Hne Hs) as (isa & phi & plcp & lcp & E1 & E2 & E3 & E4 & HPi & HPp & Lp & Ll & Hi1 & Hi2 & Hp1 & Hp0 & Hplcp & Hl & Hl0).
  rewrite E1. cbn [bind]. rewrite E2. cbn [bind]. rewrite E3. cbn [bind]. rewrite E4. cbn [bind].
  split.
  - intros H. now apply (get_mus_ok t).
  - intros i j Hi Hj HA. now apply (get_mus_panic t sa isa lcp Hs HPi Hi1 Hi2 Ll Hl Hl0 Hu i j).
Qed.

(** with a sentinel *)
Lemma sentinel_agree s j i l : Forall (fun x => x <> 0) s -> j <> i ->
  (agree (s ++ [0]) j i l /\ (0 < l \/ i <= length s /\ j <= length s) <-> same_substring s j i l).
Proof.
  intros HF Hj. unfold agree, same_substring. rewrite app_length. simpl. split.
  - intros ((H1 & H2 & H3) & H0).
    assert (Hend : forall a b, a <> b -> a <= length s -> b <= length s -> nth a (s ++ [0]) 0 = nth b (s ++ [0]) 0 -> a < length s /\ b < length s).
    { intros a b Hab Ha Hb E. destruct (Nat.eq_dec a (length s)) as [->|]; [|destruct (Nat.eq_dec b (length s)) as [->|]; [|lia]].
      - rewrite app_nth2, Nat.sub_diag, app_nth1 in E by lia. simpl in E. exfalso.
        rewrite Forall_forall in HF. apply (HF (nth b s 0)); [apply nth_In; lia|auto].
      - rewrite app_nth1, app_nth2, Nat.sub_diag in E by lia. simpl in E. exfalso.
        rewrite Forall_forall in HF. apply (HF (nth a s 0)); [apply nth_In; lia|auto]. }
    destruct l as [|l].
    + split; [lia|]. split; [lia|]. intros; lia.
    + destruct (Hend (j + l) (i + l)) as [A B]; try lia; [apply H3; lia|].
      split; [lia|]. split; [lia|]. intros x Hx. specialize (H3 x Hx).
      rewrite !app_nth1 in H3 by lia. exact H3.
  - intros (H1 & H2 & H3). split; [|lia]. split; [lia|]. split; [lia|]. intros x Hx.
    rewrite !app_nth1 by lia. auto.
Qed.

Lemma sentinel_unique s i l : Forall (fun x => x <> 0) s -> 0 < l -> i + l <= length s ->
  (unique_substring (s ++ [0]) i l <-> unique_substring s i l).
Proof.
  intros HF Hl Hi. unfold unique_substring. rewrite app_length. simpl. split; intros (H1 & H2); (split; [lia|]); intros j HA.
  - destruct (Nat.eq_dec j i) as [|N]; auto. apply H2. now apply (sentinel_agree s j i l).
  - destruct (Nat.eq_dec j i) as [|N]; auto. apply H2. apply (sentinel_agree s j i l); auto.
Qed.
Lemma not_unique_empty s i : 1 <= length s -> i <= length s -> ~ unique_substring s i 0.
Proof.
  intros Hs Hi (_ & H). assert (G : forall j, j <= length s -> j = i).
  { intros j Hj. apply H. split; [lia|]. split; [lia|]. intros; lia. }
  pose proof (G 0 ltac:(lia)). pose proof (G 1 ltac:(lia)). lia.
Qed.
Lemma sentinel_mus s i l : Forall (fun x => x <> 0) s ->
  (is_mus (s ++ [0]) i l /\ i + l < length (s ++ [0]) <-> is_mus s i l).
Proof.
  intros HF. rewrite app_length. simpl. split.
  - intros ((H1 & H2 & H3) & H4). split; [exact H1|]. split; [apply sentinel_unique; auto; lia|].
    intros i' l' A B C HU. destruct (Nat.eq_dec l' 0) as [->|].
    + apply (not_unique_empty s i') in HU; auto; lia.
    + apply (H3 i' l'); auto. apply sentinel_unique; auto; lia.
  - intros (H1 & H2 & H3). pose proof (proj1 H2) as H2'. split; [|lia]. split; [exact H1|].
    split; [apply sentinel_unique; auto; lia|].
    intros i' l' A B C HU. destruct (Nat.eq_dec l' 0) as [->|].
    + apply (not_unique_empty (s ++ [0]) i') in HU; rewrite ?app_length; simpl; auto; lia.
    + apply (H3 i' l'); auto. apply sentinel_unique; auto; lia.
Qed.

Lemma mus_sentinel sort s : (forall t, is_suffix_array t (sort t)) -> Forall (fun x => x <> 0) s ->
  exists L, mus_main sort (s ++ [0]) = Ok L /\ StronglySorted (fun p q => fst p < fst q) L /\
    forall i l, In (i, l) L <-> is_mus s i l.
Proof.
  intros Hs HF. destruct s as [|c s'] eqn:Es.
  - exists []. pose proof (Hs [0]) as (HP & _). apply Permutation_sym, Permutation_length_1_inv in HP.
    unfold mus_main. simpl app. rewrite HP. split; [reflexivity|]. split; [constructor|].
    intros i l. split; [intros []|]. intros (H1 & (H2 & _) & _). simpl in H2. lia.
  - rewrite <- Es in *. assert (Hlen : 1 <= length s) by (subst s; simpl; lia).
    destruct (mus_main_long sort (s ++ [0]) Hs) as (G & _).
    { rewrite app_length. simpl. lia. }
    destruct G as (L & E & HSo & HL).
    { intros i j Hi Hj HA. rewrite app_length in *. simpl in *.
      assert (HA' : same_substring s j i (length s + 1 - i)).
      { apply (sentinel_agree s j i); auto. split; [exact HA|lia]. }
      destruct HA' as (_ & HA' & _). lia. }
    exists L. split; [exact E|]. split; [exact HSo|]. intros i l. rewrite HL. apply sentinel_mus. exact HF.
Qed.
