(** LwgCount.v : how many Lyndon words there are of each length: the words of length at most n are in bijection with
    the prenecklaces of length n, whose number doubles at least every two letters. *)
From Verif Require Import Base SpecStr LexFacts DuvalProof LwgProof NeckProof.
From Coq Require Import Permutation.

(** the first n letters of w w w ... *)
Definition fillw (n : nat) (w : str) : str := map (fun i => nth (i mod length w) w 0) (seq 0 n).
Lemma fillw_length n w : length (fillw n w) = n.
Proof. unfold fillw. now rewrite map_length, seq_length. Qed.
Lemma fillw_nth n w i : i < n -> nth i (fillw n w) 0 = nth (i mod length w) w 0.
Proof.
  intros H. unfold fillw. set (g := fun i => nth (i mod length w) w 0). rewrite (nth_indep _ 0 (g 0)) by (rewrite map_length, seq_length; lia).
  rewrite map_nth, seq_nth by lia. reflexivity.
Qed.
Lemma fillw_firstn n w : 0 < length w <= n -> firstn (length w) (fillw n w) = w.
Proof.
  intros H. apply (nth_ext_len _ _ 0); [rewrite firstn_length_le; [reflexivity|rewrite fillw_length; lia]|].
  intros i Hi. rewrite firstn_length_le in Hi by (rewrite fillw_length; lia). rewrite nth_firstn, fillw_nth by lia.
  now rewrite Nat.mod_small by lia.
Qed.
Lemma fillw_lynper n w : lyndon w -> length w <= n -> lynper (fillw n w) (length w).
Proof.
  intros HL H. pose proof (lyndon_length w HL) as Hp. split; [rewrite fillw_length; lia|].
  split; [rewrite fillw_firstn by lia; exact HL|]. intros x Hx. rewrite fillw_length in Hx.
  rewrite !fillw_nth by lia. f_equal. replace (x + length w) with (x + 1 * length w) by lia. now rewrite Nat.mod_add by lia.
Qed.
Lemma lynper_fillw t p : lynper t p -> fillw (length t) (firstn p t) = t.
Proof.
  intros H. pose proof H as (Hp & HL & _). apply (nth_ext_len _ _ 0); [apply fillw_length|]. rewrite fillw_length. intros i Hi.
  rewrite fillw_nth by lia. rewrite firstn_length_le by lia. rewrite nth_firstn by (apply Nat.mod_upper_bound; lia).
  symmetry. now apply lynper_mod.
Qed.
Lemma fillw_over n sigma w : 0 < length w -> over sigma w -> over sigma (fillw n w).
Proof.
  intros Hp H. apply over_intro. rewrite fillw_length. intros i Hi. rewrite fillw_nth by lia. apply over_nth; [exact H|].
  apply Nat.mod_upper_bound. lia.
Qed.

(** two Lyndon words with the same continuation are equal *)
Lemma lynper_unique_le t p q : lynper t p -> lynper t q -> q <= p.
Proof.
  intros (Hp & HLp & Pp) (Hq & HLq & Pq). destruct (Nat.le_gt_cases q p) as [|G]; auto. exfalso.
  apply lyndon_idx in HLq. destruct HLq as [_ HLq]. rewrite firstn_length_le in HLq by lia.
  destruct (HLq p ltac:(lia)) as (y & H1 & _ & H3). rewrite !nth_firstn in H3 by lia.
  rewrite (Nat.add_comm p y), Pp in H3 by lia. lia.
Qed.
Lemma fillw_inj n w v : lyndon w -> lyndon v -> length w <= n -> length v <= n -> fillw n w = fillw n v -> w = v.
Proof.
  intros Hw Hv Lw Lv E. pose proof (fillw_lynper n w Hw Lw) as A. pose proof (fillw_lynper n v Hv Lv) as B. rewrite <- E in B.
  pose proof (lynper_unique_le _ _ _ A B). pose proof (lynper_unique_le _ _ _ B A).
  pose proof (lyndon_length w Hw). pose proof (lyndon_length v Hv).
  rewrite <- (fillw_firstn n w), <- (fillw_firstn n v) by lia. rewrite <- E. f_equal. lia.
Qed.

(** no suffix of t is below the prefix of the same length *)
Definition nodesc (t : str) : Prop := forall i d, 1 <= i -> i + d < length t ->
  (forall x, x < d -> nth (i + x) t 0 = nth x t 0) -> nth d t 0 <= nth (i + d) t 0.
Lemma lynper_nodesc t p : lynper t p -> nodesc t.
Proof.
  intros H i d Hi Hd HE. destruct (Nat.le_gt_cases (nth d t 0) (nth (i + d) t 0)) as [|G]; auto. exfalso.
  apply (descent_not_prenecklace t i (i + d)); try lia; [| |now apply (lynper_prenecklace t p)].
  - intros x Hx. rewrite Nat.add_comm. apply HE. lia.
  - replace (i + d - i) with d by lia. exact G.
Qed.
Lemma nodesc_lynper t : t <> [] -> nodesc t -> exists p, lynper t p.
Proof.
  intros Ht HN.
  assert (G : forall j, 1 <= j <= length t -> exists i, neck_inv t i j).
  { induction j as [|j IH]; [lia|]. intros Hj. destruct (Nat.eq_dec j 0) as [->|].
    - exists 0. apply neck_inv_first. lia.
    - destruct IH as (i & HI); [lia|]. pose proof HI as (Hij & HP). pose proof HP as (Hp & _ & HE).
      rewrite firstn_length_le in Hp, HE by lia.
      assert (Le : nth i t 0 <= nth j t 0).
      { replace j with ((j - i) + i) by lia. apply HN; [lia|lia|]. intros x Hx.
        specialize (HE x ltac:(lia)). rewrite !nth_firstn in HE by lia. now rewrite Nat.add_comm. }
      pose proof (neck_step t i j HI ltac:(lia) Le) as S1. cbv zeta in S1. rewrite (Nat.add_1_r j) in S1. eexists. exact S1. }
  destruct (G (length t)) as (i & Hi & HP); [destruct t; [easy|cbn [length]; lia]|].
  exists (length t - i). now rewrite firstn_all in HP.
Qed.
(** framing by zeros keeps the property *)
Lemma nodesc_frame y : nodesc y -> nodesc (0 :: y ++ [0]).
Proof.
  intros HN i d Hi Hd HE. set (t := 0 :: y ++ [0]) in *.
  assert (Lt : length t = S (S (length y))) by (unfold t; cbn [length]; rewrite app_length; cbn [length]; lia). rewrite Lt in Hd.
  destruct (Nat.eq_dec (nth d t 0) 0) as [Z|NZ]; [lia|]. exfalso.
  assert (Ty : forall x, x < length y -> nth (S x) t 0 = nth x y 0) by (intros x Hx; unfold t; cbn [nth]; apply app_nth1; exact Hx).
  destruct d as [|d]; [cbn [t nth] in NZ; lia|].
  (* the first non-zero letter of y *)
  assert (K : exists k, k <= d /\ 0 < nth k y 0 /\ forall x, x < k -> nth x y 0 = 0).
  { rewrite Ty in NZ by lia. clear - NZ. induction d as [d IH] using lt_wf_ind.
    destruct (Forall_Exists_dec (fun x => nth x y 0 = 0) (fun x => Nat.eq_dec _ _) (seq 0 d)) as [A|A].
    - exists d. split; [lia|]. split; [lia|]. intros x Hx. rewrite Forall_forall in A. apply A, in_seq. lia.
    - apply Exists_exists in A. destruct A as (x & Hx & Nx). apply in_seq in Hx. destruct (IH x ltac:(lia) Nx) as (k & H1 & H2). exists k. split; [lia|]. exact H2. }
  destruct K as (k & Hk & Kp & Kz). destruct i as [|i]; [lia|].
  assert (B : forall x, x <= k -> nth (i + x) y 0 = 0).
  { intros x Hx. rewrite <- Ty by lia. replace (S (i + x)) with (S i + x) by lia. rewrite HE by lia.
    destruct x as [|x]; [reflexivity|]. rewrite Ty by lia. apply Kz. lia. }
  destruct i as [|i]; [specialize (B k (le_n k)); cbn [plus] in B; lia|].
  specialize (HN (S i) k ltac:(lia) ltac:(lia)).
  rewrite B in HN by lia. assert (nth k y 0 <= 0); [|lia]. apply HN. intros x Hx. rewrite B by lia. symmetry. apply Kz. lia.
Qed.
Lemma lynper_append u p c : lynper u p -> nth (length u - p) u 0 <= c -> exists q, lynper (u ++ [c]) q.
Proof.
  intros H Hc. destruct (Nat.eq_dec c (nth (length u - p) u 0)) as [E|NE].
  - exists p. now apply lynper_same.
  - exists (length (u ++ [c])). apply lynper_full. apply (lyndon_extend u p); [exact H|lia].
Qed.

(** ** counting *)
Definition enum (n sigma : nat) (L : list str) : Prop := NoDup L /\ forall w, In w L <-> valid n sigma w.
Lemma enum_same n sigma L L' : enum n sigma L -> enum n sigma L' -> Permutation L L'.
Proof. intros (N1 & H1) (N2 & H2). apply NoDup_Permutation; auto. intros w. now rewrite H1, H2. Qed.
Lemma SSorted_NoDup L : StronglySorted lex_lt L -> NoDup L.
Proof.
  induction 1 as [|w L HS IH HF]; constructor; auto. intros HI. rewrite Forall_forall in HF. apply (lex_lt_irrefl w). auto.
Qed.
Lemma enum_exists n sigma : 1 <= n -> 1 <= sigma <= 256 -> exists L, enum n sigma L.
Proof.
  intros Hn Hs. destruct (lwg_correct n sigma Hn Hs) as (L & HS & HI & _). exists L. split; [now apply SSorted_NoDup|].
  intros w. rewrite HI. reflexivity.
Qed.
Lemma enum_mono n sigma L L' : enum n sigma L -> enum (S n) sigma L' -> length L <= length L'.
Proof.
  intros (N1 & H1) (N2 & H2). apply NoDup_incl_length; [exact N1|]. intros w Hw. apply H2. apply H1 in Hw.
  destruct Hw as (A & B & C). repeat split; auto; try apply A. 
Qed.
Lemma map_inj_NoDup {A B} (f : A -> B) l : (forall x y, In x l -> In y l -> f x = f y -> x = y) -> NoDup l -> NoDup (map f l).
Proof.
  intros HI HN. induction HN as [|x l Hx HN IH]; cbn [map]; constructor.
  - intros H. apply in_map_iff in H. destruct H as (y & E & Hy). apply Hx. rewrite (HI x y); auto; [left; reflexivity|right; exact Hy].
  - apply IH. intros a b Ha Hb. apply HI; right; auto.
Qed.
Lemma enum_double n sigma L L' : 2 <= sigma -> enum n sigma L -> enum (S (S n)) sigma L' -> 2 * length L <= length L'.
Proof.
  intros Hs (N1 & H1) (N2 & H2). set (m := S (S n)).
  set (f1 := fun w => 0 :: fillw n w ++ [0]). set (f2 := fun w => fillw (S n) w ++ [sigma - 1]).
  assert (V : forall w, In w L -> lyndon w /\ 0 < length w <= n /\ over sigma w).
  { intros w Hw. apply H1 in Hw. destruct Hw as (A & B & C). pose proof (lyndon_length w A). repeat split; auto; try apply A. }
  assert (Surj : forall t p, lynper t p -> length t = m -> over sigma t -> In t (map (fillw m) L')).
  { intros t p HP Lt Ho. pose proof HP as (Hp & HL & _). apply in_map_iff. exists (firstn p t). split.
    - rewrite <- Lt. now apply lynper_fillw.
    - apply H2. split; [exact HL|]. split; [rewrite firstn_length_le by lia; unfold m in *; lia|].
      unfold over in *. rewrite <- (firstn_skipn p t) in Ho. now apply Forall_app in Ho. }
  assert (G : length (map f1 L ++ map f2 L) <= length (map (fillw m) L')).
  { apply NoDup_incl_length.
    - apply NoDup_app_remove_l with (l := []) || idtac. 
      assert (D : forall t, In t (map f1 L) -> ~ In t (map f2 L)).
      { intros t A B. apply in_map_iff in A. apply in_map_iff in B. destruct A as (w & <- & _). destruct B as (v & E & _).
        unfold f1, f2 in E. rewrite app_comm_cons in E. apply app_inj_tail in E. destruct E as [_ E]. lia. }
      assert (ND1 : NoDup (map f1 L)).
      { apply map_inj_NoDup; [|exact N1]. intros x y Hx Hy E. unfold f1 in E. inversion E as [E']. apply app_inv_tail in E'.
        destruct (V x Hx) as (A1 & A2 & _), (V y Hy) as (B1 & B2 & _). apply (fillw_inj n); auto; lia. }
      assert (ND2 : NoDup (map f2 L)).
      { apply map_inj_NoDup; [|exact N1]. intros x y Hx Hy E. unfold f2 in E. apply app_inv_tail in E.
        destruct (V x Hx) as (A1 & A2 & _), (V y Hy) as (B1 & B2 & _). apply (fillw_inj (S n)); auto; lia. }
      clear - D ND1 ND2. induction (map f1 L) as [|x l IH]; [exact ND2|]. inversion ND1; subst. cbn [app]. constructor.
      + rewrite in_app_iff. intros [A|A]; [auto|]. apply (D x); [left; reflexivity|exact A].
      + apply IH; auto. intros t Ht. apply D. right. exact Ht.
    - intros t Ht. apply in_app_or in Ht. destruct Ht as [Ht|Ht]; apply in_map_iff in Ht; destruct Ht as (w & <- & Hw); destruct (V w Hw) as (A1 & A2 & A3).
      + assert (ND : nodesc (f1 w)). { apply nodesc_frame. apply (lynper_nodesc _ (length w)). apply fillw_lynper; [exact A1|lia]. }
        apply nodesc_lynper in ND; [|easy]. destruct ND as (p & HP). apply (Surj _ p HP).
        * unfold f1. cbn [length]. rewrite app_length, fillw_length. cbn [length]. unfold m. lia.
        * unfold f1. constructor; [lia|]. apply Forall_app. split; [apply fillw_over; [lia|exact A3]|repeat constructor; lia].
      + assert (HP := fillw_lynper (S n) w A1 ltac:(lia)).
        pose proof (fillw_over (S n) sigma w ltac:(lia) A3) as HO.
        destruct (lynper_append _ _ (sigma - 1) HP) as (q & HQ).
        { pose proof (over_nth _ _ (length (fillw (S n) w) - length w) HO). rewrite fillw_length in *. specialize (H ltac:(lia)). lia. }
        apply (Surj _ q HQ).
        * unfold f2. rewrite app_length, fillw_length. cbn [length]. unfold m. lia.
        * apply Forall_app. split; [exact HO|repeat constructor; lia]. }
  rewrite app_length, !map_length in G. lia.
Qed.

(** the letters missing to length n, over all words *)
Definition slack (n : nat) (L : list str) : nat := list_sum (map (fun w => n - length w) L).
Lemma slack_perm n L L' : Permutation L L' -> slack n L = slack n L'.
Proof. unfold slack. induction 1; cbn [map list_sum fold_right] in *; unfold list_sum in *; cbn [map fold_right] in *; lia. Qed.
Lemma slack_step n sigma L L' : enum n sigma L -> enum (S n) sigma L' -> slack (S n) L' = slack n L + length L.
Proof.
  intros (N1 & H1) (N2 & H2).
  assert (P : Permutation L (filter (fun w => length w <=? n) L')).
  { apply NoDup_Permutation; [exact N1|now apply NoDup_filter|]. intros w. rewrite filter_In, H1, H2. rewrite Nat.leb_le.
    unfold valid. split; [intros (A & B & C)|intros ((A & B & C) & D)]; repeat split; auto; try apply A. }
  assert (E1 : slack (S n) L' = slack (S n) (filter (fun w => length w <=? n) L')).
  { clear - H2. assert (H : forall w, In w L' -> length w <= S n) by (intros w Hw; apply H2 in Hw; apply Hw). clear H2.
    unfold slack. induction L' as [|w l IH]; [reflexivity|]. cbn [map filter]. specialize (H w (or_introl eq_refl)) as Hw.
    specialize (IH (fun v Hv => H v (or_intror Hv))). destruct (Nat.leb_spec (length w) n); cbn [map list_sum fold_right] in *; unfold list_sum in *; cbn [fold_right] in *; lia. }
  rewrite E1, <- (slack_perm _ _ _ P). clear - H1. assert (H : forall w, In w L -> length w <= n) by (intros w Hw; apply H1 in Hw; apply Hw).
  clear H1. unfold slack. induction L as [|w l IH]; [reflexivity|]. specialize (H w (or_introl eq_refl)) as Hw.
  specialize (IH (fun v Hv => H v (or_intror Hv))). cbn [map length]. unfold list_sum in *. cbn [fold_right]. lia.
Qed.
Lemma enum_one sigma L : enum 1 sigma L -> slack 1 L = 0.
Proof.
  intros (_ & H). assert (G : forall w, In w L -> 1 <= length w) by (intros w Hw; apply H in Hw; destruct Hw as (A & _); apply lyndon_length in A; lia).
  clear H. unfold slack. induction L as [|w l IH]; [reflexivity|]. specialize (G w (or_introl eq_refl)) as Hw.
  specialize (IH (fun v Hv => G v (or_intror Hv))). cbn [map]. unfold list_sum in *. cbn [fold_right]. lia.
Qed.
Lemma slack_bound sigma : 2 <= sigma <= 256 -> forall n L, 1 <= n -> enum n sigma L -> slack n L <= 3 * length L.
Proof.
  intros Hs. induction n as [n IH] using lt_wf_ind. intros L Hn HL.
  destruct n as [|[|[|n]]]; [lia|rewrite (enum_one sigma) by exact HL; lia| |].
  - destruct (enum_exists 1 sigma) as (L1 & E1); [lia|lia|]. rewrite (slack_step 1 sigma L1 L E1 HL), (enum_one sigma) by exact E1.
    pose proof (enum_mono _ _ _ _ E1 HL). lia.
  - destruct (enum_exists (S n) sigma) as (L1 & E1); [lia|lia|]. destruct (enum_exists (S (S n)) sigma) as (L2 & E2); [lia|lia|].
    rewrite (slack_step _ sigma L2 L E2 HL), (slack_step _ sigma L1 L2 E1 E2).
    pose proof (IH (S n) ltac:(lia) L1 ltac:(lia) E1). pose proof (enum_double _ _ _ _ (proj1 Hs) E1 HL). pose proof (enum_mono _ _ _ _ E2 HL). lia.
Qed.
