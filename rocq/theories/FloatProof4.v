(** FloatProof4.v : kth_order_entropy over any arithmetic: which operations are carried out. *)
From Verif Require Import Base SpecStr SpecIo SpecEntropy LexFacts PermFacts LcpProof ModelIo ModelCore ModelEntropy EntropyProof EntropyProof2 ModelFloat FloatProof3.
From Coq Require Import Reals Lra.
Close Scope R_scope. Open Scope nat_scope.

Definition group_val (A : arith) (t : str) (k : nat) (g : list nat) : a_num A :=
  a_mul A (a_of A (length g)) (zoe A (map (follow t k) g)).
Definition groups_sum (A : arith) (t : str) (k : nat) (gs : list (list nat)) : a_num A :=
  fold_left (fun s g => a_add A s (group_val A t k g)) gs (a_zero A).
Lemma groups_sum_snoc A t k gs g : groups_sum A t k (gs ++ [g]) = a_add A (groups_sum A t k gs) (group_val A t k g).
Proof. unfold groups_sum. now rewrite fold_left_app. Qed.

Definition good_group_ (t : str) (k : nat) (g : list nat) : Prop := 2 <= length g /\ bytes (map (follow t k) g).
Section KTH.
Context (A : arith) (s : str) (k : nat) (sa : list nat).
Context (Hz : Forall (fun x => x <> 0) s) (HB : bytes s) (Hk : 0 < k).
Let t := s ++ [0].
Context (HS : is_suffix_array t sa).
Notation grp := (grp sa).

Notation good_group := (good_group_ t k).
Lemma context_a_ok a b : a + 2 <= b -> b <= length t ->
  (forall r, a <= r < b -> key t k (nth r sa 0) = key t k (nth a sa 0)) ->
  compute_context_a A t sa k a (b - a) = Ok (group_val A t k (grp a b)) /\ good_group (grp a b).
Proof.
  intros Hab Hb Hg. unfold compute_context_a. fold (grp a b).
  assert (HV : forall i, In i (grp a b) -> i + k < length t).
  { intros i Hi. destruct (in_grp s k sa Hk HS a b i ltac:(lia) Hb Hi) as (r & Hr & ->).
    set (r' := if r =? a then S a else a).
    assert (Hr' : a <= r' < b /\ r' <> r) by (unfold r'; destruct (Nat.eqb_spec r a); lia).
    apply (key_eq_valid s k Hz Hk (nth r sa 0) (nth r' sa 0)).
    - intros C. apply (is_perm_inj (length t)) in C; try lia; [exact (sa_perm s sa HS)].
    - apply (sa_lt s sa HS). fold t. lia.
    - apply (sa_lt s sa HS). fold t. lia.
    - fold t. rewrite (Hg r), (Hg r') by lia. reflexivity. }
  assert (E : forall l acc, (forall i, In i l -> i + k < length t) ->
    for_in l (fun savalue v => let pos := savalue + k in
      if pos <? length t then c <- get t pos ;; Ok (v ++ [c]) else Ok v) acc = Ok (acc ++ map (follow t k) l)).
  { induction l as [|i l IH]; intros acc Hl; cbn [for_in map]; [now rewrite app_nil_r|].
    pose proof (Hl i (or_introl eq_refl)). cbn zeta. destruct (Nat.ltb_spec (i + k) (length t)); [|lia].
    rewrite (get_ok _ _ 0) by lia. cbn [bind]. rewrite IH by (intros; apply Hl; now right). now rewrite <- app_assoc. }
  rewrite E by exact HV. cbn [bind app].
  assert (Lg : length (grp a b) = b - a) by (apply (grp_length s k sa Hk HS); fold t; lia).
  assert (BY : bytes (map (follow t k) (grp a b))).
  { apply Forall_map, Forall_forall. intros i Hi. unfold follow. specialize (HV i Hi).
    pose proof (t_bytes s k HB Hk) as TB. fold t in TB. unfold bytes in TB. rewrite Forall_forall in TB. apply TB. apply nth_In. lia. }
  rewrite zoe_ok by exact BY. cbn [bind]. unfold group_val. rewrite Lg. split; [reflexivity|]. split; [lia|exact BY].
Qed.

Definition gstate (i : nat) (sum : a_num A) : Prop := exists gs, sum = groups_sum A t k gs /\
  Forall good_group gs /\ sumR (map (gF t k) gs) = gsum t k (firstn i sa) /\ length (concat gs) <= i.
Lemma sumR_snoc (x : R) l : sumR (l ++ [x]) = (sumR l + x)%R.
Proof. rewrite sumR_app. unfold sumR. cbn [fold_right]. now rewrite Rplus_0_r. Qed.
Lemma gstate_ext a b sum : a < b -> b <= length t -> gstate a sum -> good_group (grp a b) ->
  gsum t k (firstn b sa) = (gsum t k (firstn a sa) + gF t k (grp a b))%R ->
  gstate b (a_add A sum (group_val A t k (grp a b))).
Proof.
  intros Hab Hb (gs & -> & F & S1 & L) G E. exists (gs ++ [grp a b]). rewrite groups_sum_snoc. split; [reflexivity|]. split.
  - apply Forall_app. split; [exact F|]. constructor; [exact G|constructor].
  - rewrite map_app. cbn [map]. rewrite sumR_snoc, S1, E. split; [reflexivity|].
    rewrite concat_app. cbn [concat]. rewrite app_nil_r, app_length, (grp_length s k sa Hk HS) by (fold t; lia). lia.
Qed.
Lemma gstate_skip a b sum : a <= b -> gstate a sum -> gsum t k (firstn b sa) = gsum t k (firstn a sa) -> gstate b sum.
Proof. intros Hab (gs & -> & F & S1 & L) E. exists gs. rewrite E. repeat split; auto. lia. Qed.

Definition kinv_a (i : nat) (st : a_num A * nat) : Prop :=
  let '(sum, cc) := st in
  (i = 0 -> sum = a_zero A /\ cc = 0) /\
  (0 < i -> cc < i /\ gstate (i - 1 - cc) sum /\
     (forall r, i - 1 - cc <= r < i -> key t k (nth r sa 0) = key t k (nth (i - 1 - cc) sa 0)) /\
     (i - 1 - cc = 0 \/ key t k (nth (i - 1 - cc - 1) sa 0) <> key t k (nth (i - 1 - cc) sa 0))).

Lemma first_lcp lcp (Hs : 0 < length s) : is_lcp (skipn (nth (length t - 1) sa 0) t) (skipn (nth 0 sa 0) t) (nth 0 lcp 0) -> nth 0 lcp 0 = 0.
Proof.
  pose proof (t_len s) as TL. fold t in TL. pose proof (sa_len s sa HS) as SL. fold t in SL.
  intros (L1 & L2 & L3 & _). destruct (Nat.eq_dec (nth 0 lcp 0) 0) as [|N]; auto. exfalso.
  set (l := nth 0 lcp 0) in *. pose proof (sa_lt s sa HS 0 ltac:(fold t; lia)) as B0. pose proof (sa_lt s sa HS (length t - 1) ltac:(fold t; lia)) as B1. fold t in B0, B1.
  assert (C : nth 0 (skipn (nth (length t - 1) sa 0) t) 1 = nth 0 (skipn (nth 0 sa 0) t) 1).
  { rewrite <- (nth_firstn (skipn (nth (length t - 1) sa 0) t) l 0 1), <- (nth_firstn (skipn (nth 0 sa 0) t) l 0 1) by lia. now rewrite L1. }
  rewrite !nth_skipn, !Nat.add_0_r in C.
  assert (R0 : nth 0 sa 0 = length s).
  { destruct (is_perm_surj (length t) sa (length s) (sa_perm s sa HS) ltac:(lia)) as (r & Hr & Er).
    destruct (Nat.eq_dec r 0) as [->|Nr]; auto. exfalso.
    destruct HS as (_ & HSo).
    assert (X : lex_lt (skipn (nth 0 sa 0) t) (skipn (nth r sa 0) t)).
    { assert (Hrl : r < length sa) by lia. clear - HSo Hrl Nr.
      destruct HSo as [|x l H F]; [simpl in Hrl; lia|]. destruct r as [|r]; [lia|]. simpl in *.
      rewrite Forall_forall in F. apply F. apply nth_In. lia. }
    rewrite Er in X. assert (Esk : skipn (length s) t = [0]) by (unfold t; rewrite skipn_app, skipn_all, Nat.sub_diag; reflexivity).
    rewrite Esk in X. inversion X as [y ys Hnil| x y xs ys Hlt |x xs ys Hlt]; subst.
    - apply (f_equal (@length nat)) in Hnil. rewrite skipn_length in Hnil. simpl in Hnil. lia.
    - lia.
    - now apply lex_lt_nil_r in Hlt. }
  pose proof (t_end s k Hk) as TE. fold t in TE. rewrite R0, TE in C.
  assert (N1 : nth (length t - 1) sa 0 <> nth 0 sa 0).
  { intros D. apply (is_perm_inj (length t)) in D; try lia; [exact (sa_perm s sa HS)]. }
  apply (t_nz s k Hz Hk (nth (length t - 1) sa 0)); [lia|]. fold t. rewrite (nth_indep _ 0 1) by lia. exact C.
Qed.

Lemma kth_a_ok sort : sort t = sa -> 0 < length s -> exists gs,
  kth_order_entropy_a A sort t k = Ok (a_div A (groups_sum A t k gs) (a_of A (length t))) /\
  Forall good_group gs /\ sumR (map (gF t k) gs) = gsum t k sa /\ length (concat gs) <= length t.
Proof.
  intros Hsort Hs. unfold kth_order_entropy_a. pose proof (t_len s) as TL. fold t in TL. pose proof (sa_len s sa HS) as SL. fold t in SL.
  destruct (Nat.ltb_spec 0 k); [|lia]. cbn [assert_ bind]. rewrite sub_ok by lia. cbn [bind].
  assert (Hzz : existsb (fun x => x =? 0) (firstn (length t - 1) t) = false).
  { apply not_true_is_false. intros C. apply existsb_exists in C. destruct C as (x & Hx & Ex). apply Nat.eqb_eq in Ex. subst x.
    unfold t in Hx. rewrite app_length in Hx. simpl in Hx. replace (length s + 1 - 1) with (length s) in Hx by lia.
    rewrite firstn_app, Nat.sub_diag, firstn_all in Hx. simpl in Hx. rewrite app_nil_r in Hx.
    rewrite Forall_forall in Hz. now apply (Hz 0 Hx). }
  rewrite Hzz. cbn [negb assert_ bind]. rewrite Hsort.
  destruct (lcp_structures t sa) as (phi & plcp & lcp & E1 & E2 & E3 & Lp & Ll & _ & HL & HL0); auto.
  { unfold t. destruct s; easy. }
  rewrite E1. cbn [bind]. rewrite E2. cbn [bind]. rewrite E3. cbn [bind]. rewrite Ll.
  pose proof (first_lcp lcp Hs HL0) as L0.
  assert (HF : okp (for_in (range 0 (length t)) (context_step_a A t sa lcp k) (a_zero A, 0)) (fun st => kinv_a (length t) st /\
     (snd st = 0 <-> nth (length t - 1) lcp 0 < k))).
  { apply (okp_imp _ (fun st => kinv_a (length t) st /\ (0 < length t -> (snd st = 0 <-> nth (length t - 1) lcp 0 < k)))).
    2: { intros a (A1 & A2). split; auto. apply A2. lia. }
    apply (okp_for_range (fun i st => kinv_a i st /\ (0 < i -> (snd st = 0 <-> nth (i - 1) lcp 0 < k)))); [lia| |].
    - split; [|lia]. split; [auto|lia].
    - intros i (sum, cc) Hi (HI & _). unfold context_step_a. rewrite (get_ok _ _ 0) by lia. cbn [bind].
      set (l := nth i lcp 0). destruct HI as (HI0 & HI1).
      assert (Hend : forall cc' : nat, (cc' = 0 <-> l < k) -> 0 < S i -> (cc' = 0 <-> nth (S i - 1) lcp 0 < k)).
      { intros cc' Hcc _. replace (S i - 1) with i by lia. exact Hcc. }
      destruct (Nat.eq_dec i 0) as [->|Ni].
      + destruct (HI0 eq_refl) as (-> & ->). unfold l. rewrite L0. cbn [Nat.ltb Nat.leb andb].
        destruct (Nat.leb_spec k 0); [lia|]. apply okp_ok. split; [|apply Hend; unfold l; cbn [snd]; lia].
        split; [lia|]. intros _. split; [lia|]. replace (1 - 1 - 0) with 0 by lia. split; [|split; [|auto]].
        * exists []. cbn [map firstn concat length]. repeat split; auto. 
        * intros r Hr. replace r with 0 by lia. reflexivity.
      + destruct HI1 as (C1 & C2 & C3 & C4); [lia|]. set (a := i - 1 - cc) in *.
        pose proof (link s k sa Hk HS lcp i ltac:(fold t; lia) (HL i ltac:(lia))) as LK. fold t l in LK.
        destruct (Nat.ltb_spec l k) as [Clt|Cge].
        * assert (Hdiff : key t k (nth (i - 1) sa 0) <> key t k (nth i sa 0)) by (intros E; apply LK in E; lia).
          assert (HG : gsum t k (firstn i sa) = (gsum t k (firstn a sa) + gF t k (grp a i))%R).
          { apply (gsum_group s k sa Hk HS); fold t; try lia; auto. }
          assert (HI' : forall sum', gstate i sum' -> kinv_a (S i) (sum', 0)).
          { intros sum' HG'. split; [lia|]. intros _. replace (S i - 1 - 0) with i by lia. split; [lia|]. split; [exact HG'|]. split.
            - intros r Hr. replace r with i by lia. reflexivity.
            - right. exact Hdiff. }
          destruct (Nat.ltb_spec 0 cc) as [Cc|Cc]; cbn [andb].
          -- destruct (Nat.ltb_spec 0 i); [|lia]. cbn [assert_ bind].
             rewrite (sub_ok i cc) by lia. cbn [bind]. rewrite sub_ok by lia. cbn [bind].
             replace (i - cc - 1) with a by lia. replace (cc + 1) with (i - a) by lia.
             destruct (context_a_ok a i ltac:(lia) ltac:(lia) C3) as (CE & CG).
             rewrite CE. cbn [bind]. apply okp_ok. split; [|apply Hend; cbn [snd]; lia].
             apply HI'. apply gstate_ext; auto; lia.
          -- destruct (Nat.leb_spec k l); [lia|]. apply okp_ok. assert (cc = 0) by lia. subst cc.
             split; [|apply Hend; cbn [snd]; lia]. apply HI'. apply (gstate_skip a); auto; [lia|].
             rewrite HG, (gF_small s k Hk), Rplus_0_r; auto. rewrite (grp_length s k sa Hk HS); fold t; lia.
        * rewrite andb_false_r. destruct (Nat.leb_spec k l); [|lia]. apply okp_ok.
          split; [|apply Hend; cbn [snd]; lia]. split; [lia|]. intros _.
          replace (S i - 1 - (cc + 1)) with a by lia. split; [lia|]. split; [exact C2|]. split; [|exact C4].
          intros r Hr. destruct (Nat.eq_dec r i) as [->|]; [|apply C3; lia].
          rewrite <- (proj1 LK Cge). apply C3. lia. }
  destruct HF as ((sum & cc) & -> & (HI & HE)). cbn [bind snd] in *. rewrite sub_ok by lia. cbn [bind].
  rewrite (get_ok _ _ 0) by lia. cbn [bind].
  destruct HI as (_ & HI). destruct HI as (C1 & C2 & C3 & C4); [lia|]. set (a := length t - 1 - cc) in *.
  assert (HG : gsum t k (firstn (length t) sa) = (gsum t k (firstn a sa) + gF t k (grp a (length t)))%R).
  { apply (gsum_group s k sa Hk HS); fold t; try lia; auto. }
  assert (FIN : forall sum', gstate (length t) sum' -> exists gs,
    Ok (a_div A sum' (a_of A (length t))) = Ok (a_div A (groups_sum A t k gs) (a_of A (length t))) /\
    Forall good_group gs /\ sumR (map (gF t k) gs) = gsum t k sa /\ length (concat gs) <= length t).
  { intros sum' (gs & -> & F & S1 & L). exists gs. rewrite <- SL, firstn_all in S1. auto. }
  destruct (Nat.leb_spec k (nth (length t - 1) lcp 0)) as [Ck|Ck]; cbn [andb].
  - destruct (Nat.ltb_spec 0 cc); [|exfalso; assert (Hc0 : cc = 0) by lia; apply HE in Hc0; lia].
    rewrite (sub_ok (length t) cc) by lia. cbn [bind]. rewrite sub_ok by lia. cbn [bind].
    replace (length t - cc - 1) with a by lia. replace (cc + 1) with (length t - a) by lia.
    destruct (context_a_ok a (length t) ltac:(lia) ltac:(lia) C3) as (CE & CG).
    rewrite CE. cbn [bind]. apply FIN. apply gstate_ext; auto; lia.
  - cbn [bind]. apply FIN. assert (Ec : cc = 0) by (apply HE; exact Ck). apply (gstate_skip a); auto; [lia|].
    rewrite HG, (gF_small s k Hk), Rplus_0_r; auto. rewrite (grp_length s k sa Hk HS); fold t; lia.
Qed.
End KTH.
