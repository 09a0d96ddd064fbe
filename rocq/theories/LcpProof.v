(** LcpProof.v : [compute_plcp], [compute_lcp], [compute_psv], [compute_nsv]. *)
From Verif Require Import Base SpecStr LexFacts ModelCore PermFacts SortFacts.
From Coq Require Import NArith.

(** positions a and b of t agree on l letters *)
Definition agree (t : str) (a b l : nat) : Prop :=
  a + l <= length t /\ b + l <= length t /\ forall x, x < l -> nth (a + x) t 0 = nth (b + x) t 0.

Lemma agree_firstn t a b l : a <= length t -> b <= length t ->
  (agree t a b l <-> l <= length t - a /\ l <= length t - b /\
     firstn l (skipn a t) = firstn l (skipn b t)).
Proof.
  intros Ha Hb. unfold agree. split.
  - intros (H1 & H2 & H3). split; [lia|]. split; [lia|].
    apply (nth_ext_len _ _ 0); [rewrite !firstn_length, !skipn_length; lia|].
    intros i Hi. rewrite firstn_length, skipn_length in Hi. rewrite !nth_firstn, !nth_skipn by lia.
    apply H3. lia.
  - intros (H1 & H2 & H3). split; [lia|]. split; [lia|]. intros x Hx.
    apply (f_equal (fun l => nth x l 0)) in H3. rewrite !nth_firstn, !nth_skipn in H3 by lia. exact H3.
Qed.

Lemma agree_sym t a b l : agree t a b l -> agree t b a l.
Proof. intros (H1 & H2 & H3). split; [auto|]. split; [auto|]. intros x Hx. symmetry. auto. Qed.
Lemma agree_trans t a b c l : agree t a b l -> agree t b c l -> agree t a c l.
Proof.
  intros (H1 & H2 & H3) (H4 & H5 & H6). split; [auto|]. split; [auto|].
  intros x Hx. rewrite H3 by auto. auto.
Qed.
Lemma agree_le t a b l l' : agree t a b l -> l' <= l -> agree t a b l'.
Proof.
  intros (H1 & H2 & H3) Hl. split; [lia|]. split; [lia|]. intros x Hx. apply H3. lia.
Qed.
Lemma agree_0 t a b : a <= length t -> b <= length t -> agree t a b 0.
Proof. intros. repeat split; try lia. Qed.
Lemma agree_shift t a b l : agree t a b (S l) -> agree t (S a) (S b) l.
Proof.
  intros (H1 & H2 & H3). split; [lia|]. split; [lia|]. intros x Hx.
  replace (S a + x) with (a + S x) by lia. replace (S b + x) with (b + S x) by lia. apply H3. lia.
Qed.

(** longest agreement *)
Definition lcpv (t : str) (a b l : nat) : Prop :=
  agree t a b l /\ (a + l < length t -> b + l < length t -> nth (a + l) t 0 <> nth (b + l) t 0).

Lemma lcpv_is_lcp t a b l : a <= length t -> b <= length t ->
  (lcpv t a b l <-> is_lcp (skipn a t) (skipn b t) l).
Proof.
  intros Ha Hb. unfold lcpv, is_lcp. rewrite agree_firstn by auto.
  rewrite !skipn_length, !nth_skipn. split.
  - intros ((H1 & H2 & H3) & H4). repeat split; auto. intros. apply H4; lia.
  - intros (H3 & H1 & H2 & H4). repeat split; auto. intros. apply H4; lia.
Qed.

Lemma lcpv_max t a b l l' : lcpv t a b l -> agree t a b l' -> l' <= l.
Proof.
  intros (_ & H) (H1 & H2 & H3). destruct (Nat.le_gt_cases l' l) as [|G]; auto. exfalso.
  apply H; try lia. apply H3. lia.
Qed.
Lemma lcpv_unique t a b l l' : lcpv t a b l -> lcpv t a b l' -> l = l'.
Proof.
  intros H H'. apply Nat.le_antisymm.
  - apply (lcpv_max t a b); auto. apply H.
  - apply (lcpv_max t a b); auto. apply H'.
Qed.
Lemma lcpv_sym t a b l : lcpv t a b l -> lcpv t b a l.
Proof.
  intros (H1 & H2). split; [now apply agree_sym|]. intros A B E. apply (H2 B A). auto.
Qed.

(** sandwich *)
Lemma agree_sandwich t a b c l : a <= length t -> b <= length t -> c <= length t ->
  lex_le (skipn a t) (skipn b t) -> lex_le (skipn b t) (skipn c t) -> agree t a c l ->
  agree t a b l /\ agree t b c l.
Proof.
  intros Ha Hb Hc H1 H2 H. apply agree_firstn in H; auto. destruct H as (L1 & L2 & E).
  apply (lex_le_firstn l) in H1, H2. rewrite <- E in H2.
  assert (Eb : firstn l (skipn b t) = firstn l (skipn a t)) by (apply lex_le_antisym; auto).
  assert (Lb : l <= length t - b).
  { apply (f_equal (@length nat)) in Eb. rewrite !firstn_length, !skipn_length in Eb. lia. }
  split; apply agree_firstn; auto; repeat split; auto; congruence.
Qed.

Lemma lex_lt_shift t a b : a < length t -> b < length t -> nth a t 0 = nth b t 0 ->
  (lex_lt (skipn a t) (skipn b t) <-> lex_lt (skipn (S a) t) (skipn (S b) t)).
Proof.
  intros Ha Hb E. rewrite (skipn_cons_nth t a 0 Ha), (skipn_cons_nth t b 0 Hb), E.
  split; [inversion 1; [lia|assumption]|now constructor].
Qed.

Lemma plcp_extend_ok t pa pb len0 : agree t pa pb len0 ->
  okp (plcp_extend t pa pb len0) (fun l => lcpv t pa pb l /\ len0 <= l).
Proof.
  intros H0. unfold plcp_extend.
  eapply (okp_loop (fun len => agree t pa pb len /\ len0 <= len) (fun len => length t - len)).
  - intros len (Ha & Hle). cbv beta. pose proof Ha as (H1 & H2 & H3).
    destruct (Nat.ltb_spec (pa + len) (length t)) as [La|Ga]; simpl.
    + destruct (Nat.ltb_spec (pb + len) (length t)) as [Lb|Gb]; simpl.
      * apply okp_bind, (okp_get _ _ 0); [lia|]. apply okp_bind, (okp_get _ _ 0); [lia|].
        destruct (Nat.eqb_spec (nth (pa + len) t 0) (nth (pb + len) t 0)) as [E|Ne]; apply okp_ok.
        -- split; [split; [|lia]|lia]. split; [lia|]. split; [lia|]. intros x Hx.
           destruct (Nat.eq_dec x len) as [->|]; [exact E|apply H3; lia].
        -- split; [|lia]. split; auto.
      * apply okp_ok. split; [|lia]. split; auto. intros; lia.
    + apply okp_ok. split; [|lia]. split; auto. intros; lia.
  - split; [exact H0|lia].
  - lia.
Qed.

Section Plcp.
  Context (t : str) (sa : list nat) (HSA : is_suffix_array t sa) (Hne : 0 < length t).
  Let n := length t.
  Let HP : is_perm n sa := proj1 HSA.

  Lemma sa_nth_lt i : i < n -> nth i sa 0 < n.
  Proof. intros Hi. now apply (is_perm_nth n sa). Qed.

  Lemma sa_min x : x < n -> lex_le (skipn (nth 0 sa 0) t) (skipn x t).
  Proof.
    intros Hx. destruct (is_perm_surj n sa x HP Hx) as (i & Hi & <-).
    destruct (Nat.eq_dec i 0) as [->|Ni]; [apply lex_le_refl|]. right.
    apply (sa_lt t sa); auto. unfold n in *. lia.
  Qed.
  Lemma sa_max x : x < n -> lex_le (skipn x t) (skipn (nth (n - 1) sa 0) t).
  Proof.
    intros Hx. destruct (is_perm_surj n sa x HP Hx) as (i & Hi & <-).
    destruct (Nat.eq_dec i (n - 1)) as [->|Ni]; [apply lex_le_refl|]. right.
    apply (sa_lt t sa); auto. unfold n in *. lia.
  Qed.

  (** if the smallest and the largest suffix share a letter the text is unary and the smallest
      suffix is the last one *)
  Lemma wrap_last l : agree t (nth 0 sa 0) (nth (n - 1) sa 0) (S l) -> nth 0 sa 0 = n - 1.
  Proof.
    intros HA. pose proof (sa_nth_lt 0 Hne) as H0. pose proof (sa_nth_lt (n - 1) ltac:(unfold n; lia)) as Hl.
    assert (HA1 : agree t (nth 0 sa 0) (nth (n - 1) sa 0) 1) by (apply (agree_le _ _ _ (S l)); [exact HA|lia]).
    assert (Hall : forall x, x < n -> nth x t 0 = nth (nth 0 sa 0) t 0).
    { intros x Hx. destruct (agree_sandwich t (nth 0 sa 0) x (nth (n - 1) sa 0) 1) as [H1 _]; auto;
        try (unfold n in *; lia).
      - now apply sa_min.
      - now apply sa_max.
      - destruct H1 as (_ & _ & H1). specialize (H1 0 ltac:(lia)). rewrite !Nat.add_0_r in H1. auto. }
    destruct (sa_min (n - 1) ltac:(unfold n in *; lia)) as [E|L].
    - apply skipn_inj_len in E; unfold n in *; lia.
    - exfalso. apply (lex_lt_irrefl (skipn (nth 0 sa 0) t)). eapply lex_lt_le_trans; [exact L|].
      replace (skipn (n - 1) t) with (firstn 1 (skipn (nth 0 sa 0) t)).
      + rewrite <- (firstn_skipn 1 (skipn (nth 0 sa 0) t)) at 2. apply lex_le_prefix.
      + apply (nth_ext_len _ _ 0).
        * rewrite firstn_length, !skipn_length. unfold n in *. lia.
        * intros i Hi. rewrite firstn_length, skipn_length in Hi.
          rewrite nth_firstn, !nth_skipn by lia.
          rewrite (Hall (nth 0 sa 0 + i)), (Hall (n - 1 + i)) by (unfold n in *; lia). reflexivity.
  Qed.

  Context (phi : list nat) (Hphi : compute_phi sa = Ok phi).

  Lemma phi_facts : is_perm n phi /\
    (forall i, 0 < i < n -> nth (nth i sa 0) phi 0 = nth (i - 1) sa 0) /\
    nth (nth 0 sa 0) phi 0 = nth (n - 1) sa 0.
  Proof.
    destruct (compute_phi_ok n sa Hne HP) as (phi' & E & H). rewrite Hphi in E. injection E as <-. exact H.
  Qed.

  (** Kasai / Karkkainen-Manzini-Puglisi: the next value drops by at most one *)
  Lemma plcp_drop i l : S i < n -> agree t (nth i phi 0) i (S l) -> agree t (nth (S i) phi 0) (S i) l.
  Proof.
    intros Hi HA. destruct phi_facts as (HPp & Hp1 & Hp0).
    destruct (is_perm_surj n sa i HP ltac:(lia)) as (r & Hr & Er).
    destruct (Nat.eq_dec r 0) as [->|Nr].
    - (* wrap-around *)
      exfalso. rewrite <- Er in HA, Hi. rewrite Hp0 in HA. apply agree_sym in HA.
      pose proof (wrap_last l HA). lia.
    - pose proof (Hp1 r ltac:(lia)) as Ep. rewrite Er in Ep. rewrite Ep in HA.
      set (j := nth (r - 1) sa 0) in *.
      assert (Hj : j < n) by (apply sa_nth_lt; lia).
      assert (Hlt : lex_lt (skipn j t) (skipn i t)).
      { rewrite <- Er. apply (sa_lt t sa); auto. unfold n in *. lia. }
      pose proof HA as (A1 & A2 & A3). specialize (A3 0 ltac:(lia)) as A30. rewrite !Nat.add_0_r in A30.
      rewrite lex_lt_shift in Hlt by (auto; unfold n in *; lia).
      apply agree_shift in HA.
      destruct (is_perm_surj n sa (S i) HP Hi) as (r' & Hr' & Er').
      (* l = 0 is trivial; otherwise S j is a position *)
      destruct (Nat.eq_dec l 0) as [->|Nl].
      { apply agree_0; [|unfold n in *; lia]. pose proof (is_perm_nth n phi (S i) HPp Hi). unfold n in *. lia. }
      assert (HSj : S j < n) by (unfold n in *; lia).
      destruct (is_perm_surj n sa (S j) HP HSj) as (r'' & Hr'' & Er'').
      assert (Hrr : r'' < r').
      { rewrite <- Er', <- Er'' in Hlt. apply (sa_lt_iff t sa) in Hlt; auto. }
      pose proof (Hp1 r' ltac:(lia)) as Ep'. rewrite Er' in Ep'. rewrite Ep'.
      pose proof (sa_nth_lt (r' - 1) ltac:(lia)) as Hq.
      destruct (agree_sandwich t (S j) (nth (r' - 1) sa 0) (S i) l) as [_ H]; auto; try (unfold n in *; lia).
      + rewrite <- Er''. destruct (Nat.eq_dec r'' (r' - 1)) as [->|Ne]; [apply lex_le_refl|].
        right. apply (sa_lt t sa); auto. unfold n in *. lia.
      + rewrite <- Er'. right. apply (sa_lt t sa); auto. unfold n in *. lia.
  Qed.

  Lemma compute_plcp_ok : okp (compute_plcp t phi) (fun plcp => length plcp = n /\
     forall i, i < n -> lcpv t (nth i phi 0) i (nth i plcp 0)).
  Proof.
    destruct phi_facts as (HPp & _ & _). pose proof (is_perm_length n phi HPp) as Lphi.
    unfold compute_plcp. apply okp_bind, okp_assert; [apply Nat.eqb_eq; unfold n in *; lia|].
    apply okp_bind.
    eapply okp_imp; [eapply (okp_for_range (fun i '(plcp, len) => length plcp = n /\
      (i < n -> agree t (nth i phi 0) i len) /\
      forall j, j < i -> lcpv t (nth j phi 0) j (nth j plcp 0))); [lia| |]|].
    - split; [apply repeat_length|]. split; [|intros; lia]. intros _. apply agree_0; [|lia].
      pose proof (is_perm_nth n phi 0 HPp Hne). unfold n in *. lia.
    - intros i [plcp len] Hi (L & HA & Hd). cbv beta iota.
      apply okp_bind, (okp_get _ _ 0); [unfold n in *; lia|].
      apply okp_bind. eapply okp_imp; [apply plcp_extend_ok; apply HA; unfold n; lia|].
      intros len' (HL & Hle). apply okp_bind, okp_set; [unfold n in *; lia|]. apply okp_ok.
      split; [now rewrite upd_length|]. split.
      + intros Hi'. destruct len' as [|l'].
        * simpl. apply agree_0; [|unfold n in *; lia]. pose proof (is_perm_nth n phi (S i) HPp Hi').
          unfold n in *. lia.
        * simpl. rewrite Nat.sub_0_r. apply plcp_drop; [exact Hi'|]. apply HL.
      + intros j Hj. destruct (Nat.eq_dec j i) as [->|Ne].
        * rewrite nth_upd_eq by (unfold n in *; lia). exact HL.
        * rewrite nth_upd_ne by lia. apply Hd. lia.
    - intros [plcp len] (L & _ & Hd). cbv beta iota. apply okp_ok. split; [exact L|exact Hd].
  Qed.
End Plcp.

Lemma compute_lcp_ok n plcp sa : is_perm n sa -> length plcp = n ->
  okp (compute_lcp plcp sa) (fun lcp => length lcp = n /\
     forall i, i < n -> nth i lcp 0 = nth (nth i sa 0) plcp 0).
Proof.
  intros HP L. pose proof (is_perm_length n sa HP) as Ls. unfold compute_lcp.
  apply okp_bind, okp_assert; [apply Nat.eqb_eq; lia|].
  eapply okp_imp; [eapply (okp_for_range (fun k lcp => length lcp = n /\
     forall i, i < k -> nth i lcp 0 = nth (nth i sa 0) plcp 0)); [lia| |]|].
  - split; [now rewrite repeat_length|]. intros; lia.
  - intros i lcp Hi (Ll & H). apply okp_bind, (okp_get _ _ 0); [lia|].
    pose proof (is_perm_nth n sa i HP ltac:(lia)).
    apply okp_bind, (okp_get _ _ 0); [lia|]. apply okp_set; [lia|]. split; [now rewrite upd_length|].
    intros j Hj. destruct (Nat.eq_dec j i) as [->|Ne].
    + apply nth_upd_eq. lia.
    + rewrite nth_upd_ne by lia. apply H. lia.
  - cbv beta. intros lcp (Ll & H). split; [exact Ll|]. intros i Hi. apply H. lia.
Qed.

Lemma lcp_structures t sa : t <> [] -> is_suffix_array t sa ->
  exists phi plcp lcp, compute_phi sa = Ok phi /\ compute_plcp t phi = Ok plcp /\
    compute_lcp plcp sa = Ok lcp /\
    length plcp = length t /\ length lcp = length t /\
    (forall i, i < length t -> is_lcp (skipn (nth i phi 0) t) (skipn i t) (nth i plcp 0)) /\
    (forall i, 0 < i < length t -> is_lcp (skipn (nth (i - 1) sa 0) t) (skipn (nth i sa 0) t) (nth i lcp 0)) /\
    is_lcp (skipn (nth (length t - 1) sa 0) t) (skipn (nth 0 sa 0) t) (nth 0 lcp 0).
Proof.
  intros Hne HSA. assert (Hn : 0 < length t) by (destruct t; [easy|simpl; lia]).
  pose proof HSA as [HP _].
  destruct (compute_phi_ok _ sa Hn HP) as (phi & Ephi & HPp & Hp1 & Hp0).
  destruct (compute_plcp_ok t sa HSA Hn phi Ephi) as (plcp & Eplcp & Lplcp & Hplcp).
  destruct (compute_lcp_ok _ plcp sa HP Lplcp) as (lcp & Elcp & Llcp & Hlcp).
  exists phi, plcp, lcp. repeat (split; [assumption|]).
  assert (Hlt := fun i => is_perm_nth _ sa i HP). assert (Hltp := fun i => is_perm_nth _ phi i HPp).
  split; [|split].
  - intros i Hi. apply lcpv_is_lcp; [apply Nat.lt_le_incl; auto|lia|auto].
  - intros i Hi. pose proof (Hplcp (nth i sa 0) (Hlt i ltac:(lia))) as H.
    rewrite Hp1 in H by lia. rewrite Hlcp by lia.
    apply lcpv_is_lcp; [apply Nat.lt_le_incl; apply Hlt; lia|apply Nat.lt_le_incl; apply Hlt; lia|exact H].
  - pose proof (Hplcp (nth 0 sa 0) (Hlt 0 ltac:(lia))) as H.
    rewrite Hp0 in H. rewrite Hlcp by lia.
    apply lcpv_is_lcp; [apply Nat.lt_le_incl; apply Hlt; lia|apply Nat.lt_le_incl; apply Hlt; lia|exact H].
Qed.

(** ** previous / next smaller values *)
Definition is_psv (arr : list nat) (i : nat) (v : N) : Prop :=
  (v = INVALID_VALUE /\ forall q, q < i -> nth i arr 0 <= nth q arr 0) \/
  (exists p, v = N.of_nat p /\ p < i /\ nth p arr 0 < nth i arr 0 /\
     forall q, p < q < i -> nth i arr 0 <= nth q arr 0).
Definition is_nsv (arr : list nat) (i : nat) (v : N) : Prop :=
  (v = INVALID_VALUE /\ forall q, i < q < length arr -> nth i arr 0 <= nth q arr 0) \/
  (exists p, v = N.of_nat p /\ i < p < length arr /\ nth p arr 0 < nth i arr 0 /\
     forall q, i < q < p -> nth i arr 0 <= nth q arr 0).

Lemma small_not_invalid (arr : list nat) p : (N.of_nat (length arr) < 2^32)%N -> p < length arr ->
  N.of_nat p <> INVALID_VALUE.
Proof. unfold INVALID_VALUE. change (2^32)%N with 4294967296%N. intros. lia. Qed.
Lemma small_as_u32 (arr : list nat) p : (N.of_nat (length arr) < 2^32)%N -> p < length arr ->
  as_u32 (N.of_nat p) = N.of_nat p.
Proof. unfold as_u32. change (2^32)%N with 4294967296%N. intros. apply N.mod_small. lia. Qed.

Lemma psv_chain_ok arr psv i p0 : (N.of_nat (length arr) < 2^32)%N ->
  length psv = length arr -> 0 < i < length arr ->
  (forall j, j < i -> is_psv arr j (nth j psv 0%N)) ->
  p0 = N.of_nat (i - 1) ->
  okp (psv_chain arr psv i p0) (is_psv arr i).
Proof.
  intros Hn Hl Hi Htab ->. unfold psv_chain. apply okp_bind.
  eapply okp_imp with (P := is_psv arr i); [|intros a Ha; now apply okp_ok].
  eapply (okp_loop (fun p => (p = INVALID_VALUE /\ forall q, q < i -> nth i arr 0 <= nth q arr 0) \/
     (exists k, p = N.of_nat k /\ k < i /\ forall q, k < q < i -> nth i arr 0 <= nth q arr 0))
     (fun p => if (p =? INVALID_VALUE)%N then 0 else S (N.to_nat p))).
  - intros p [(-> & H)|(k & -> & Hk & H)].
    + rewrite N.eqb_refl. apply okp_ok. now left.
    + pose proof (small_not_invalid arr k Hn ltac:(lia)) as Hni.
      destruct (N.eqb_spec (N.of_nat k) INVALID_VALUE) as [|_]; [contradiction|].
      rewrite Nnat.Nat2N.id.
      apply okp_bind, (okp_get _ _ 0); [lia|]. apply okp_bind, (okp_get _ _ 0); [lia|].
      destruct (Nat.ltb_spec (nth k arr 0) (nth i arr 0)) as [Lt|Ge].
      * apply okp_ok. rewrite (small_as_u32 arr) by (auto; lia). right. exists k. auto.
      * apply okp_bind, (okp_get _ _ 0%N); [lia|]. apply okp_ok.
        destruct (Htab k Hk) as [(E & Hq)|(k' & E & Hk' & Hlt & Hq)]; rewrite E.
        -- split.
           ++ left. split; [reflexivity|]. intros q Hq'.
              destruct (Nat.lt_trichotomy q k) as [L|[->|G]]; [|lia|apply H; lia].
              specialize (Hq q L). lia.
           ++ rewrite N.eqb_refl. lia.
        -- pose proof (small_not_invalid arr k' Hn ltac:(lia)) as Hni'. split.
           ++ right. exists k'. split; [reflexivity|]. split; [lia|]. intros q Hq'.
              destruct (Nat.lt_trichotomy q k) as [L|[->|G]]; [|lia|apply H; lia].
              specialize (Hq q ltac:(lia)). lia.
           ++ destruct (N.eqb_spec (N.of_nat k') INVALID_VALUE) as [|_]; [contradiction|].
              rewrite Nnat.Nat2N.id. lia.
  - right. exists (i - 1). split; [reflexivity|]. split; [lia|]. intros; lia.
  - destruct (N.eqb_spec (N.of_nat (i - 1)) INVALID_VALUE) as [|_]; [lia|]. rewrite Nnat.Nat2N.id. lia.
Qed.

Lemma compute_psv_correct arr : arr <> [] -> (N.of_nat (length arr) < 2^32)%N ->
  exists psv, compute_psv arr = Ok psv /\ length psv = length arr /\
    forall i, i < length arr -> is_psv arr i (nth i psv 0%N).
Proof.
  intros Hne Hn. assert (H0 : 0 < length arr) by (destruct arr; [easy|simpl; lia]).
  enough (G : okp (compute_psv arr) (fun psv => length psv = length arr /\
     forall i, i < length arr -> is_psv arr i (nth i psv 0%N))).
  { destruct G as (psv & E & H). exists psv. tauto. }
  unfold compute_psv. apply okp_bind, okp_set; [rewrite repeat_length; lia|].
  eapply okp_imp; [eapply (okp_for_range (fun k psv => length psv = length arr /\
     forall i, i < k -> is_psv arr i (nth i psv 0%N))); [lia| |]|].
  - split; [now rewrite upd_length, repeat_length|]. intros i Hi. assert (i = 0) by lia. subst i.
    rewrite nth_upd_eq by (rewrite repeat_length; lia). left. split; [reflexivity|]. intros; lia.
  - intros i psv Hi (L & H). apply okp_bind, okp_sub; [lia|]. apply okp_bind, okp_set; [lia|].
    apply okp_bind. eapply okp_imp; [apply (psv_chain_ok arr); auto|].
    + now rewrite upd_length.
    + intros j Hj. rewrite nth_upd_ne by lia. auto.
    + intros v Hv. apply okp_set; [rewrite upd_length; lia|]. split; [now rewrite !upd_length|].
      intros j Hj. destruct (Nat.eq_dec j i) as [->|Ne].
      * rewrite nth_upd_eq by (rewrite upd_length; lia). exact Hv.
      * rewrite !nth_upd_ne by lia. apply H. lia.
  - auto.
Qed.

Lemma nsv_chain_ok arr nsv i p0 : (N.of_nat (length arr) < 2^32)%N ->
  length nsv = length arr -> S i < length arr ->
  (forall j, i < j < length arr -> is_nsv arr j (nth j nsv 0%N)) ->
  p0 = N.of_nat (i + 1) ->
  okp (psv_chain arr nsv i p0) (is_nsv arr i).
Proof.
  intros Hn Hl Hi Htab ->. unfold psv_chain. apply okp_bind.
  eapply okp_imp with (P := is_nsv arr i); [|intros a Ha; now apply okp_ok].
  eapply (okp_loop (fun p => (p = INVALID_VALUE /\ forall q, i < q < length arr -> nth i arr 0 <= nth q arr 0) \/
     (exists k, p = N.of_nat k /\ i < k < length arr /\ forall q, i < q < k -> nth i arr 0 <= nth q arr 0))
     (fun p => if (p =? INVALID_VALUE)%N then 0 else length arr - N.to_nat p)).
  - intros p [(-> & H)|(k & -> & Hk & H)].
    + rewrite N.eqb_refl. apply okp_ok. now left.
    + pose proof (small_not_invalid arr k Hn ltac:(lia)) as Hni.
      destruct (N.eqb_spec (N.of_nat k) INVALID_VALUE) as [|_]; [contradiction|].
      rewrite Nnat.Nat2N.id.
      apply okp_bind, (okp_get _ _ 0); [lia|]. apply okp_bind, (okp_get _ _ 0); [lia|].
      destruct (Nat.ltb_spec (nth k arr 0) (nth i arr 0)) as [Lt|Ge].
      * apply okp_ok. rewrite (small_as_u32 arr) by (auto; lia). right. exists k. auto.
      * apply okp_bind, (okp_get _ _ 0%N); [lia|]. apply okp_ok.
        destruct (Htab k Hk) as [(E & Hq)|(k' & E & Hk' & Hlt & Hq)]; rewrite E.
        -- split.
           ++ left. split; [reflexivity|]. intros q Hq'.
              destruct (Nat.lt_trichotomy q k) as [L|[->|G]]; [apply H; lia|lia|].
              specialize (Hq q ltac:(lia)). lia.
           ++ rewrite N.eqb_refl. lia.
        -- pose proof (small_not_invalid arr k' Hn ltac:(lia)) as Hni'. split.
           ++ right. exists k'. split; [reflexivity|]. split; [lia|]. intros q Hq'.
              destruct (Nat.lt_trichotomy q k) as [L|[->|G]]; [apply H; lia|lia|].
              specialize (Hq q ltac:(lia)). lia.
           ++ destruct (N.eqb_spec (N.of_nat k') INVALID_VALUE) as [|_]; [contradiction|].
              rewrite Nnat.Nat2N.id. lia.
  - right. exists (i + 1). split; [reflexivity|]. split; [lia|]. intros; lia.
  - destruct (N.eqb_spec (N.of_nat (i + 1)) INVALID_VALUE) as [|_]; [lia|]. rewrite Nnat.Nat2N.id. lia.
Qed.

Lemma okp_for_rev {S} (Inv : nat -> S -> Prop) (body : nat -> S -> res S) hi s :
  Inv hi s ->
  (forall i s, i < hi -> Inv (Datatypes.S i) s -> okp (body i s) (Inv i)) ->
  okp (for_in (rev (range 0 hi)) body s) (Inv 0).
Proof.
  unfold range. rewrite Nat.sub_0_r. revert s. induction hi as [|h IH]; intros s H0 Hb.
  - apply okp_ok. exact H0.
  - rewrite seq_S, rev_app_distr. simpl.
    destruct (Hb h s ltac:(lia) H0) as (s' & Es & HI). rewrite Es. cbn [bind].
    apply IH; [exact HI|]. intros i u Hi. apply Hb. lia.
Qed.

Lemma compute_nsv_correct arr : arr <> [] -> (N.of_nat (length arr) < 2^32)%N ->
  exists nsv, compute_nsv arr = Ok nsv /\ length nsv = length arr /\
    forall i, i < length arr -> is_nsv arr i (nth i nsv 0%N).
Proof.
  intros Hne Hn. assert (H0 : 0 < length arr) by (destruct arr; [easy|simpl; lia]).
  enough (G : okp (compute_nsv arr) (fun nsv => length nsv = length arr /\
     forall i, i < length arr -> is_nsv arr i (nth i nsv 0%N))).
  { destruct G as (nsv & E & H). exists nsv. tauto. }
  unfold compute_nsv. apply okp_bind, okp_sub; [lia|].
  apply okp_bind, okp_set; [rewrite repeat_length; lia|].
  eapply okp_imp; [eapply (okp_for_rev (fun k nsv => length nsv = length arr /\
     forall i, k <= i < length arr -> is_nsv arr i (nth i nsv 0%N)))|].
  - split; [now rewrite upd_length, repeat_length|]. intros i Hi. assert (i = length arr - 1) by lia. subst i.
    rewrite nth_upd_eq by (rewrite repeat_length; lia). left. split; [reflexivity|]. intros; lia.
  - intros i nsv Hi (L & H). apply okp_bind, okp_set; [lia|].
    apply okp_bind. eapply okp_imp; [apply (nsv_chain_ok arr); auto|].
    + now rewrite upd_length.
    + lia.
    + intros j Hj. rewrite nth_upd_ne by lia. apply H. lia.
    + intros v Hv. apply okp_set; [rewrite upd_length; lia|]. split; [now rewrite !upd_length|].
      intros j Hj. destruct (Nat.eq_dec j i) as [->|Ne].
      * rewrite nth_upd_eq by (rewrite upd_length; lia). exact Hv.
      * rewrite !nth_upd_ne by lia. apply H. lia.
  - cbv beta. intros nsv (L & H). split; [exact L|]. intros i Hi. apply H. lia.
Qed.
