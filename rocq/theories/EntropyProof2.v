(** EntropyProof2.v : kth_order_entropy *)
From Verif Require Import Base SpecStr SpecIo SpecEntropy LexFacts PermFacts LcpProof ModelIo ModelCore ModelEntropy EntropyProof.
From Coq Require Import Reals Lra.

Notation strdec := (list_eq_dec Nat.eq_dec).
Lemma eqb_str_eq u v : eqb_str u v = true <-> u = v.
Proof. unfold eqb_str. destruct (strdec u v); split; intros; auto; discriminate. Qed.

Definition key (t : str) (k i : nat) : str := firstn k (skipn i t).
Definition follow (t : str) (k i : nat) : nat := nth (i + k) t 0.
(** contribution of a group of positions *)
Definition gF (t : str) (k : nat) (g : list nat) : R :=
  if 2 <=? length g then (INR (length g) * H0 (map (follow t k) g))%R else 0%R.
Definition gsel (t : str) (k : nat) (l : list nat) (w : str) : list nat := filter (fun i => eqb_str (key t k i) w) l.
Definition gsum (t : str) (k : nat) (l : list nat) : R :=
  sumR (map (fun w => gF t k (gsel t k l w)) (nodup strdec (map (key t k) l))).

Lemma gsel_all t k g w : (forall i, In i g -> key t k i = w) -> gsel t k g w = g.
Proof.
  unfold gsel. induction g as [|i g IH]; intros H; simpl; auto.
  rewrite (proj2 (eqb_str_eq _ _)) by (apply H; now left). f_equal. apply IH. intros; apply H; now right.
Qed.
Lemma gsel_none t k g w : (forall i, In i g -> key t k i <> w) -> gsel t k g w = [].
Proof.
  unfold gsel. induction g as [|i g IH]; intros H; simpl; auto.
  destruct (eqb_str (key t k i) w) eqn:E.
  - apply eqb_str_eq in E. exfalso. apply (H i); [now left|exact E].
  - apply IH. intros; apply H; now right.
Qed.

Lemma gsum_app t k l g w : g <> [] -> (forall i, In i g -> key t k i = w) -> (forall i, In i l -> key t k i <> w) ->
  gsum t k (l ++ g) = (gsum t k l + gF t k g)%R.
Proof.
  intros Hg H1 H2. unfold gsum.
  rewrite (sumR_set strdec _ (nodup strdec (map (key t k) (l ++ g))) (w :: nodup strdec (map (key t k) l))).
  - cbn [map]. unfold sumR. cbn [fold_right]. fold (sumR (map (fun w => gF t k (gsel t k (l ++ g) w)) (nodup strdec (map (key t k) l)))).
    fold (sumR (map (fun w => gF t k (gsel t k l w)) (nodup strdec (map (key t k) l)))).
    rewrite (sumR_map_ext (fun w => gF t k (gsel t k (l ++ g) w)) (fun w => gF t k (gsel t k l w))).
    + assert (E : gsel t k (l ++ g) w = g); [|rewrite E; lra].
      unfold gsel. rewrite filter_app. fold (gsel t k l w). fold (gsel t k g w).
      now rewrite gsel_none, gsel_all by auto.
    + intros w' Hw'. apply nodup_In, in_map_iff in Hw'. destruct Hw' as (i & <- & Hi). f_equal.
      unfold gsel. rewrite filter_app. fold (gsel t k l (key t k i)). fold (gsel t k g (key t k i)).
      rewrite (gsel_none t k g), app_nil_r; auto. intros j Hj E. rewrite (H1 j Hj) in E. apply (H2 i Hi). auto.
  - apply NoDup_nodup.
  - constructor; [|apply NoDup_nodup]. intros Hin. apply nodup_In, in_map_iff in Hin. destruct Hin as (i & E & Hi). now apply (H2 i Hi).
  - intros w'. rewrite nodup_In, map_app, in_app_iff. cbn [In]. rewrite nodup_In. split.
    + intros [H|H]; auto. left. apply in_map_iff in H. destruct H as (i & <- & Hi). symmetry. now apply H1.
    + intros [<-|H]; auto. right. destruct g as [|i g]; [easy|]. apply in_map_iff. exists i. split; [apply H1|]; now left.
Qed.

Section KTH.
Context (s : str) (k : nat) (sa : list nat).
Context (Hz : Forall (fun x => x <> 0) s) (HB : bytes s) (Hk : 0 < k).
Let t := s ++ [0].
Context (HS : is_suffix_array t sa).

Lemma t_len : length t = length s + 1.
Proof. unfold t. now rewrite app_length. Qed.
Lemma t_nz i : i < length s -> nth i t 0 <> 0.
Proof. intros H. unfold t. rewrite app_nth1 by lia. rewrite Forall_forall in Hz. apply Hz. now apply nth_In. Qed.
Lemma t_end : nth (length s) t 1 = 0.
Proof. unfold t. now rewrite app_nth2, Nat.sub_diag by lia. Qed.
Lemma t_bytes : bytes t.
Proof. unfold t. apply Forall_app. split; [exact HB|]. constructor; [lia|constructor]. Qed.

Lemma key_length i : length (key t k i) = Nat.min k (length t - i).
Proof. unfold key. now rewrite firstn_length, skipn_length. Qed.
Lemma nth_key i y d : y < k -> nth y (key t k i) d = nth (i + y) t d.
Proof. intros H. unfold key. rewrite nth_firstn by exact H. apply nth_skipn. Qed.

Lemma key_eq_valid i j : i <> j -> i < length t -> j < length t -> key t k i = key t k j -> i + k < length t.
Proof.
  intros Hij Hi Hj E. assert (L := f_equal (@length nat) E). rewrite !key_length in L.
  pose proof t_len as TL.
  destruct (Nat.lt_ge_cases (i + k) (length t)) as [|G]; auto. exfalso.
  assert (Ei : i + k = length t) by lia.
  assert (Hn : nth (k - 1) (key t k i) 1 = nth (k - 1) (key t k j) 1) by now rewrite E.
  rewrite !nth_key in Hn by lia. replace (i + (k - 1)) with (length s) in Hn by lia. rewrite t_end in Hn.
  apply (t_nz (j + (k - 1))); [lia|]. rewrite (nth_indep _ 0 1) by lia. auto.
Qed.

Lemma sa_perm : is_perm (length t) sa. Proof. apply HS. Qed.
Lemma sa_len : length sa = length t. Proof. apply is_perm_length, sa_perm. Qed.
Lemma sa_lt r : r < length t -> nth r sa 0 < length t.
Proof. apply is_perm_nth, sa_perm. Qed.

Lemma key_mono a b : a < b -> b < length t -> lex_le (key t k (nth a sa 0)) (key t k (nth b sa 0)).
Proof.
  intros Hab Hb. apply lex_le_firstn. right. destruct HS as (_ & HSo).
  assert (Hl : b < length sa) by (rewrite sa_len; exact Hb). clear Hb.
  revert a b Hab Hl. clear - HSo. induction HSo as [|x l H IH F]; intros a b Hab Hl; [simpl in Hl; lia|].
  destruct b as [|b]; [lia|]. simpl in Hl. destruct a as [|a]; simpl.
  - rewrite Forall_forall in F. apply F. apply nth_In. lia.
  - apply IH; lia.
Qed.
Lemma key_contig a b c : a < b -> b < c -> c < length t ->
  key t k (nth a sa 0) = key t k (nth c sa 0) -> key t k (nth b sa 0) = key t k (nth c sa 0).
Proof.
  intros Hab Hbc Hc E. apply lex_le_antisym; [apply key_mono; lia|]. rewrite <- E. apply key_mono; lia.
Qed.

(** the links between neighbours in the suffix array *)
Lemma link lcp i : 0 < i < length t ->
  is_lcp (skipn (nth (i - 1) sa 0) t) (skipn (nth i sa 0) t) (nth i lcp 0) ->
  (k <= nth i lcp 0 <-> key t k (nth (i - 1) sa 0) = key t k (nth i sa 0)).
Proof.
  intros Hi (L1 & L2 & L3 & L4). set (l := nth i lcp 0) in *. unfold key. split.
  - intros Hl. rewrite <- (Nat.min_l k l Hl), <- !firstn_firstn. now rewrite L1.
  - intros E. destruct (Nat.le_gt_cases k l) as [|G]; auto. exfalso.
    assert (Hne : nth (i - 1) sa 0 <> nth i sa 0).
    { intros C. apply (is_perm_inj (length t)) in C; try lia; [exact sa_perm]. }
    assert (L := f_equal (@length nat) E). rewrite !firstn_length, !skipn_length in *.
    pose proof (sa_lt i ltac:(lia)). pose proof (sa_lt (i - 1) ltac:(lia)).
    apply L4; try lia.
    rewrite <- (nth_firstn (skipn (nth (i - 1) sa 0) t) k l 0 G), <- (nth_firstn (skipn (nth i sa 0) t) k l 0 G). now rewrite E.
Qed.

Definition grp (a b : nat) : list nat := firstn (b - a) (skipn a sa).
Lemma in_grp a b i : a <= b -> b <= length t -> In i (grp a b) -> exists r, a <= r < b /\ i = nth r sa 0.
Proof.
  intros Hab Hb Hi. unfold grp in Hi. apply (In_nth _ _ 0) in Hi. destruct Hi as (r & Hr & <-).
  rewrite firstn_length, skipn_length, sa_len in Hr.
  exists (a + r). split; [lia|]. rewrite nth_firstn by lia. apply nth_skipn.
Qed.
Lemma grp_length a b : a <= b -> b <= length t -> length (grp a b) = b - a.
Proof. intros. unfold grp. rewrite firstn_length, skipn_length, sa_len. lia. Qed.
Lemma firstn_grp a b : a <= b -> firstn b sa = firstn a sa ++ grp a b.
Proof.
  intros H. unfold grp. rewrite <- (firstn_skipn a (firstn b sa)) at 1.
  rewrite firstn_firstn, Nat.min_l by lia. f_equal. now rewrite skipn_firstn_comm.
Qed.

Lemma context_ok a b : a + 2 <= b -> b <= length t ->
  (forall r, a <= r < b -> key t k (nth r sa 0) = key t k (nth a sa 0)) ->
  compute_context t sa k a (b - a) = Ok (Some (gF t k (grp a b))).
Proof.
  intros Hab Hb Hg. unfold compute_context. fold (grp a b).
  assert (HV : forall i, In i (grp a b) -> i + k < length t).
  { intros i Hi. destruct (in_grp a b i ltac:(lia) Hb Hi) as (r & Hr & ->).
    set (r' := if r =? a then S a else a).
    assert (Hr' : a <= r' < b /\ r' <> r) by (unfold r'; destruct (Nat.eqb_spec r a); lia).
    apply (key_eq_valid (nth r sa 0) (nth r' sa 0)).
    - intros C. apply (is_perm_inj (length t)) in C; try lia; [exact sa_perm].
    - apply sa_lt. lia.
    - apply sa_lt. lia.
    - rewrite (Hg r), (Hg r') by lia. reflexivity. }
  assert (E : forall l acc, (forall i, In i l -> i + k < length t) ->
    for_in l (fun savalue v => let pos := savalue + k in
      if pos <? length t then c <- get t pos ;; Ok (v ++ [c]) else Ok v) acc = Ok (acc ++ map (follow t k) l)).
  { induction l as [|i l IH]; intros acc Hl; cbn [for_in map]; [now rewrite app_nil_r|].
    pose proof (Hl i (or_introl eq_refl)). cbn zeta. destruct (Nat.ltb_spec (i + k) (length t)); [|lia].
    rewrite (get_ok _ _ 0) by lia. cbn [bind]. rewrite IH by (intros; apply Hl; now right). now rewrite <- app_assoc. }
  rewrite E by exact HV. cbn [bind app].
  assert (Lg : length (grp a b) = b - a) by (apply grp_length; lia).
  rewrite zero_order_ok.
  - cbn [bind f_mul]. unfold gF. rewrite Lg. destruct (Nat.leb_spec 2 (b - a)); [reflexivity|lia].
  - apply Forall_map, Forall_forall. intros i Hi. unfold follow. specialize (HV i Hi).
    pose proof t_bytes as TB. unfold bytes in TB. rewrite Forall_forall in TB. apply TB. apply nth_In. lia.
  - intros C. apply (f_equal (@length nat)) in C. rewrite map_length, Lg in C. simpl in C. lia.
Qed.

(** a complete group [a, b) extends the sum *)
Lemma gsum_group a b : a < b -> b <= length t ->
  (forall r, a <= r < b -> key t k (nth r sa 0) = key t k (nth a sa 0)) ->
  (a = 0 \/ key t k (nth (a - 1) sa 0) <> key t k (nth a sa 0)) ->
  gsum t k (firstn b sa) = (gsum t k (firstn a sa) + gF t k (grp a b))%R.
Proof.
  intros Hab Hb Hg Ha. rewrite (firstn_grp a b) by lia. apply (gsum_app t k _ _ (key t k (nth a sa 0))).
  - intros C. apply (f_equal (@length nat)) in C. rewrite grp_length in C by lia. simpl in C. lia.
  - intros i Hi. destruct (in_grp a b i ltac:(lia) Hb Hi) as (r & Hr & ->). now apply Hg.
  - intros i Hi E. apply (In_nth _ _ 0) in Hi. destruct Hi as (r & Hr & <-).
    rewrite firstn_length, sa_len in Hr. rewrite nth_firstn in E by lia.
    destruct Ha as [->|Ha]; [lia|]. apply Ha.
    destruct (Nat.eq_dec r (a - 1)) as [->|N]; [exact E|]. apply (key_contig r (a - 1) a); auto; lia.
Qed.

Definition kinv (i : nat) (st : f64 * nat) : Prop :=
  let '(sum, cc) := st in
  (i = 0 -> sum = Some 0%R /\ cc = 0) /\
  (0 < i -> cc < i /\ sum = Some (gsum t k (firstn (i - 1 - cc) sa)) /\
     (forall r, i - 1 - cc <= r < i -> key t k (nth r sa 0) = key t k (nth (i - 1 - cc) sa 0)) /\
     (i - 1 - cc = 0 \/ key t k (nth (i - 1 - cc - 1) sa 0) <> key t k (nth (i - 1 - cc) sa 0))).

Lemma gF_small g : length g <= 1 -> gF t k g = 0%R.
Proof. intros H. unfold gF. destruct (Nat.leb_spec 2 (length g)); [lia|reflexivity]. Qed.

Lemma kth_ok sort : sort t = sa -> 0 < length s ->
  kth_order_entropy sort t k = Ok (Some (gsum t k sa / INR (length t)))%R.
Proof.
  intros Hsort Hs. unfold kth_order_entropy. pose proof t_len as TL.
  destruct (Nat.ltb_spec 0 k); [|lia]. cbn [assert_ bind]. rewrite sub_ok by lia. cbn [bind].
  assert (Hzz : existsb (fun x => x =? 0) (firstn (length t - 1) t) = false).
  { apply not_true_is_false. intros C. apply existsb_exists in C. destruct C as (x & Hx & Ex). apply Nat.eqb_eq in Ex. subst x.
    unfold t in Hx. rewrite app_length in Hx. simpl in Hx. replace (length s + 1 - 1) with (length s) in Hx by lia.
    rewrite firstn_app, Nat.sub_diag, firstn_all in Hx. simpl in Hx. rewrite app_nil_r in Hx.
    rewrite Forall_forall in Hz. now apply (Hz 0 Hx). }
  rewrite Hzz. cbn [negb assert_ bind]. rewrite Hsort.
  destruct (lcp_structures t sa) as (phi & plcp & lcp & E1 & E2 & E3 & Lp & Ll & _ & HL & HL0); auto.
  { unfold t. destruct s; easy. }
  rewrite E1. cbn [bind]. rewrite E2. cbn [bind]. rewrite E3. cbn [bind]. rewrite Ll.
  assert (L0 : nth 0 lcp 0 = 0).
  { destruct HL0 as (L1 & L2 & L3 & _). destruct (Nat.eq_dec (nth 0 lcp 0) 0) as [|N]; auto. exfalso.
    set (l := nth 0 lcp 0) in *. pose proof (sa_lt 0 ltac:(lia)) as B0. pose proof (sa_lt (length t - 1) ltac:(lia)) as B1.
    assert (C : nth 0 (skipn (nth (length t - 1) sa 0) t) 1 = nth 0 (skipn (nth 0 sa 0) t) 1).
    { rewrite <- (nth_firstn (skipn (nth (length t - 1) sa 0) t) l 0 1), <- (nth_firstn (skipn (nth 0 sa 0) t) l 0 1) by lia. now rewrite L1. }
    rewrite !nth_skipn, !Nat.add_0_r in C.
    (* the suffix of rank 0 is the sentinel *)
    assert (R0 : nth 0 sa 0 = length s).
    { destruct (is_perm_surj (length t) sa (length s) sa_perm ltac:(lia)) as (r & Hr & Er).
      destruct (Nat.eq_dec r 0) as [->|Nr]; auto. exfalso.
      destruct HS as (_ & HSo).
      assert (X : lex_lt (skipn (nth 0 sa 0) t) (skipn (nth r sa 0) t)).
      { assert (Hrl : r < length sa) by (rewrite sa_len; lia). clear - HSo Hrl Nr.
        destruct HSo as [|x l H F]; [simpl in Hrl; lia|]. destruct r as [|r]; [lia|]. simpl in *.
        rewrite Forall_forall in F. apply F. apply nth_In. lia. }
      rewrite Er in X. assert (Esk : skipn (length s) t = [0]) by (unfold t; rewrite skipn_app, skipn_all, Nat.sub_diag; reflexivity).
      rewrite Esk in X. inversion X as [y ys Hnil| x y xs ys Hlt |x xs ys Hlt]; subst.
      - apply (f_equal (@length nat)) in Hnil. rewrite skipn_length in Hnil. simpl in Hnil. lia.
      - lia.
      - now apply lex_lt_nil_r in Hlt. }
    rewrite R0, t_end in C.
    assert (N1 : nth (length t - 1) sa 0 <> nth 0 sa 0).
    { intros D. apply (is_perm_inj (length t)) in D; try lia; [exact sa_perm]. }
    apply (t_nz (nth (length t - 1) sa 0)); [lia|]. rewrite (nth_indep _ 0 1) by lia. exact C. }
  assert (HF : okp (for_in (range 0 (length t)) (context_step t sa lcp k) (Some 0%R, 0)) (fun st => kinv (length t) st /\
     (snd st = 0 <-> nth (length t - 1) lcp 0 < k))).
  { apply (okp_imp _ (fun st => kinv (length t) st /\ (0 < length t -> (snd st = 0 <-> nth (length t - 1) lcp 0 < k)))).
    2: { intros a (A1 & A2). split; auto. apply A2. lia. }
    apply (okp_for_range (fun i st => kinv i st /\ (0 < i -> (snd st = 0 <-> nth (i - 1) lcp 0 < k)))); [lia| |].
    - split; [|lia]. split; [auto|lia].
    - intros i (sum, cc) Hi (HI & _). unfold context_step. rewrite (get_ok _ _ 0) by lia. cbn [bind].
      set (l := nth i lcp 0). destruct HI as (HI0 & HI1).
      assert (Hend : forall cc' : nat, (cc' = 0 <-> l < k) -> 0 < S i -> (cc' = 0 <-> nth (S i - 1) lcp 0 < k)).
      { intros cc' Hcc _. replace (S i - 1) with i by lia. exact Hcc. }
      destruct (Nat.eq_dec i 0) as [->|Ni].
      + destruct (HI0 eq_refl) as (-> & ->). unfold l. rewrite L0. cbn [Nat.ltb Nat.leb andb].
        destruct (Nat.leb_spec k 0); [lia|]. apply okp_ok. split; [|apply Hend; unfold l; simpl; lia].
        split; [lia|]. intros _. split; [lia|]. simpl. split; [|split; [|auto]].
        * unfold gsum. simpl. reflexivity.
        * intros r Hr. replace r with 0 by lia. reflexivity.
      + destruct HI1 as (C1 & C2 & C3 & C4); [lia|]. set (a := i - 1 - cc) in *.
        pose proof (link lcp i ltac:(lia) (HL i ltac:(lia))) as LK. fold l in LK.
        destruct (Nat.ltb_spec l k) as [Clt|Cge].
        * assert (Hdiff : key t k (nth (i - 1) sa 0) <> key t k (nth i sa 0)) by (intros E; apply LK in E; lia).
          assert (HG : gsum t k (firstn i sa) = (gsum t k (firstn a sa) + gF t k (grp a i))%R).
          { apply gsum_group; try lia; auto. }
          assert (HI' : kinv (S i) (Some (gsum t k (firstn i sa)), 0)).
          { split; [lia|]. intros _. replace (S i - 1 - 0) with i by lia. split; [lia|]. split; [reflexivity|]. split.
            - intros r Hr. replace r with i by lia. reflexivity.
            - right. exact Hdiff. }
          destruct (Nat.ltb_spec 0 cc) as [Cc|Cc]; cbn [andb].
          -- destruct (Nat.ltb_spec 0 i); [|lia]. cbn [assert_ bind].
             rewrite (sub_ok i cc) by lia. cbn [bind]. rewrite sub_ok by lia. cbn [bind].
             replace (i - cc - 1) with a by lia. replace (cc + 1) with (i - a) by lia.
             rewrite context_ok by (try lia; auto). cbn [bind]. apply okp_ok. split; [|apply Hend; simpl; lia].
             rewrite C2. cbn [f_add]. rewrite <- HG. exact HI'.
          -- destruct (Nat.leb_spec k l); [lia|]. apply okp_ok. assert (cc = 0) by lia. subst cc.
             split; [|apply Hend; simpl; lia]. rewrite C2. rewrite gF_small, Rplus_0_r in HG by (rewrite grp_length; lia).
             rewrite <- HG. exact HI'.
        * rewrite andb_false_r. destruct (Nat.leb_spec k l); [|lia]. apply okp_ok.
          split; [|apply Hend; simpl; lia]. split; [lia|]. intros _.
          replace (S i - 1 - (cc + 1)) with a by lia. split; [lia|]. split; [exact C2|]. split; [|exact C4].
          intros r Hr. destruct (Nat.eq_dec r i) as [->|]; [|apply C3; lia].
          rewrite <- (proj1 LK Cge). apply C3. lia. }
  destruct HF as ((sum & cc) & -> & (HI & HE)). cbn [bind snd] in *. rewrite sub_ok by lia. cbn [bind].
  rewrite (get_ok _ _ 0) by lia. cbn [bind].
  destruct HI as (_ & HI). destruct HI as (C1 & C2 & C3 & C4); [lia|]. set (a := length t - 1 - cc) in *.
  assert (HG : gsum t k sa = (gsum t k (firstn a sa) + gF t k (grp a (length t)))%R).
  { rewrite <- (firstn_all sa) at 1. rewrite sa_len. apply gsum_group; try lia; auto. }
  unfold f_div. 
  destruct (Nat.leb_spec k (nth (length t - 1) lcp 0)) as [Ck|Ck]; cbn [andb].
  - destruct (Nat.ltb_spec 0 cc); [|exfalso; assert (Hc0 : cc = 0) by lia; apply HE in Hc0; lia].
    rewrite (sub_ok (length t) cc) by lia. cbn [bind]. rewrite sub_ok by lia. cbn [bind].
    replace (length t - cc - 1) with a by lia. replace (cc + 1) with (length t - a) by lia.
    rewrite context_ok by (try lia; auto). cbn [bind]. rewrite C2. cbn [f_add].
    destruct (Nat.eqb_spec (length t) 0); [lia|]. rewrite <- HG. reflexivity.
  - cbn [bind]. rewrite C2. destruct (Nat.eqb_spec (length t) 0); [lia|].
    assert (Ec : cc = 0) by (apply HE; exact Ck). rewrite gF_small, Rplus_0_r in HG by (rewrite grp_length; lia).
    rewrite <- HG. reflexivity.
Qed.

(** the sum over the groups is the sum over the contexts *)
Lemma gsel_perm l l' w : Permutation l l' -> Permutation (gsel t k l w) (gsel t k l' w).
Proof.
  unfold gsel. induction 1; simpl; auto.
  - destruct (eqb_str (key t k x) w); auto.
  - destruct (eqb_str (key t k x) w), (eqb_str (key t k y) w); auto. apply perm_swap.
  - eapply perm_trans; eauto.
Qed.

Lemma followers_sel w : length w = k -> (exists i, context_at t w i) ->
  followers t w = map (follow t k) (gsel t k (seq 0 (length t)) w).
Proof.
  intros Lw (i0 & (O1 & O2) & O3). unfold followers, follow, gsel. rewrite Lw in *. f_equal. apply filter_ext_in.
  intros i Hi. apply in_seq in Hi. fold (key t k i). destruct (eqb_str (key t k i) w) eqn:E; auto. cbn [andb].
  apply Nat.ltb_lt. apply eqb_str_eq in E. destruct (Nat.eq_dec i i0) as [->|N]; auto.
  apply (key_eq_valid i i0); auto; try lia. rewrite E. symmetry. exact O2.
Qed.

Lemma gsum_contexts W : contexts t k W ->
  gsum t k sa = sumR (map (fun w => INR (length (followers t w)) * H0 (followers t w))%R W).
Proof.
  intros (NW & HW). unfold gsum.
  assert (P : forall w, Permutation (gsel t k sa w) (gsel t k (seq 0 (length t)) w))
    by (intros; apply gsel_perm, sa_perm).
  assert (PF : forall g g', Permutation g g' -> gF t k g = gF t k g').
  { intros g g' Hg. unfold gF. rewrite (Permutation_length Hg). now rewrite (H0_perm _ _ (Permutation_map (follow t k) Hg)). }
  assert (HinS : forall w i, In i (gsel t k sa w) <-> i < length t /\ key t k i = w).
  { intros w i. unfold gsel. rewrite filter_In, eqb_str_eq, (is_perm_In _ _ _ sa_perm). reflexivity. }
  assert (ND : forall w, NoDup (gsel t k sa w)).
  { intros w. apply NoDup_filter. apply (Permutation_NoDup (Permutation_sym sa_perm)), seq_NoDup. }
  rewrite (sumR_support strdec _ (nodup strdec (map (key t k) sa)) W).
  - apply sumR_map_ext. intros w Hw. apply HW in Hw. destruct Hw as (Lw & Hc).
    rewrite (followers_sel w Lw Hc), (PF _ _ (P w)), map_length. unfold gF.
    destruct (Nat.leb_spec 2 (length (gsel t k (seq 0 (length t)) w))); [reflexivity|].
    rewrite <- (map_length (follow t k)). symmetry. apply H0_unary_le1. rewrite map_length. lia.
  - apply NoDup_nodup.
  - exact NW.
  - intros w Hw. apply HW in Hw. destruct Hw as (Lw & i & (O1 & O2) & O3). apply nodup_In, in_map_iff. exists i.
    rewrite Lw in O2. split; [exact O2|]. apply (is_perm_In _ _ _ sa_perm). lia.
  - intros w _ Hn. apply gF_small. destruct (gsel t k sa w) as [|i [|j g]] eqn:E; simpl; try lia. exfalso.
    assert (Hij : i <> j) by (specialize (ND w); rewrite E in ND; inversion ND; subst; simpl in *; intuition).
    assert (Hi : i < length t /\ key t k i = w) by (apply HinS; rewrite E; simpl; auto).
    assert (Hj : j < length t /\ key t k j = w) by (apply HinS; rewrite E; simpl; auto).
    assert (HV : i + k < length t) by (apply (key_eq_valid i j); try tauto; destruct Hi, Hj; congruence).
    apply Hn. apply HW. destruct Hi as (_ & Hi). assert (Lw : length w = k) by (rewrite <- Hi, key_length; lia).
    split; [exact Lw|]. exists i. unfold context_at, occurs_at. rewrite Lw. split; [split; [lia|exact Hi]|exact HV].
Qed.
End KTH.
