(** BorderProof.v : [border_array], [smallest_period], [is_primitive]. *)
From Verif Require Import Base SpecStr LexFacts ModelCore.

(** index form of "b is a proper border of the prefix of length i" *)
Definition bd (t : str) (i b : nat) : Prop :=
  b < i /\ forall x, x < b -> nth x t 0 = nth (i - b + x) t 0.

Lemma is_border_bd t i b : i <= length t -> (is_border (firstn i t) b <-> bd t i b).
Proof.
  intros Hi. unfold is_border, bd. rewrite firstn_length_le by lia. split; intros [Hb H]; split; auto.
  - intros x Hx. apply (f_equal (fun l => nth x l 0)) in H.
    rewrite nth_skipn, !nth_firstn in H by lia. exact H.
  - apply (nth_ext_len _ _ 0).
    + rewrite skipn_length, !firstn_length. lia.
    + intros x Hx. rewrite !firstn_length in Hx. rewrite nth_skipn, !nth_firstn by lia. apply H. lia.
Qed.

Lemma bd_step t i b : bd t (S i) (S b) <-> bd t i b /\ nth b t 0 = nth i t 0.
Proof.
  unfold bd. split.
  - intros [Hb H]. split; [split; [lia|]|].
    + intros x Hx. rewrite H by lia. f_equal. 
    + rewrite H by lia. f_equal. lia.
  - intros [[Hb H] E]. split; [lia|]. intros x Hx.
    destruct (Nat.eq_dec x b) as [->|Ne].
    + rewrite E. f_equal. lia.
    + rewrite H by lia. f_equal.
Qed.

Lemma bd_nest t i b b' : bd t i b -> bd t i b' -> b' < b -> bd t b b'.
Proof.
  intros [Hb H] [Hb' H'] Hlt. split; [exact Hlt|]. intros x Hx.
  rewrite H' by lia. rewrite (H (b - b' + x)) by lia. f_equal. lia.
Qed.
Lemma bd_trans t i b b' : bd t i b -> bd t b b' -> bd t i b'.
Proof.
  intros [Hb H] [Hb' H']. split; [lia|]. intros x Hx.
  rewrite H' by lia. rewrite (H (b - b' + x)) by lia. f_equal. lia.
Qed.

(** longest border of the prefix of length i *)
Definition maxbd (t : str) (i b : nat) : Prop := bd t i b /\ forall b', bd t i b' -> b' <= b.

(** table invariant: shifted by one during construction *)
Definition btab (t : str) (B : list nat) (i : nat) : Prop :=
  length B = S i /\ nth 0 B 0 = 0 /\ forall j, 1 <= j <= i -> 1 <= nth j B 0 /\ maxbd t j (nth j B 0 - 1).

Lemma border_descend_ok t B i : i < length t -> btab t B i ->
  okp (border_descend t B i (nth i B 0)) (fun len => maxbd t (S i) len).
Proof.
  intros Hi (HB & H0 & Htab). unfold border_descend.
  eapply (okp_loop (fun len => (len = 0 \/ (1 <= len /\ bd t i (len - 1))) /\
     forall b, bd t i b -> nth b t 0 = nth i t 0 -> b + 1 <= len) (fun len => len)).
  - intros len (Hlen & Hmax). cbv beta.
    destruct (Nat.ltb_spec 0 len) as [Lt|Ge].
    + destruct Hlen as [->|(_ & Hbd)]; [lia|]. pose proof Hbd as [Hlt _].
      apply okp_bind, okp_sub; [lia|].
      apply okp_bind, (okp_get _ _ 0); [lia|]. apply okp_bind, (okp_get _ _ 0); [lia|].
      destruct (Nat.eqb_spec (nth (len - 1) t 0) (nth i t 0)) as [E|Ne].
      * apply okp_ok. split.
        -- replace len with (S (len - 1)) by lia. apply bd_step. auto.
        -- intros [|b'] Hb'; [lia|]. apply bd_step in Hb'. destruct Hb' as [Hb' E'].
           specialize (Hmax b' Hb' E'). lia.
      * apply okp_bind, (okp_get _ _ 0); [lia|]. apply okp_ok.
        destruct (Nat.eq_dec (len - 1) 0) as [Z|NZ].
        -- rewrite Z, H0. split; [|lia]. split; [now left|].
           intros b Hb E. exfalso. specialize (Hmax b Hb E). replace b with (len - 1) in E by lia.
           rewrite Z in E. congruence.
        -- destruct (Htab (len - 1) ltac:(lia)) as (Hge & Hm & Hmm).
           pose proof Hm as [Hm1 _]. split; [|lia]. split.
           ++ right. split; [exact Hge|]. exact (bd_trans _ _ _ _ Hbd Hm).
           ++ intros b Hb E. specialize (Hmax b Hb E).
              assert (b < len - 1).
              { destruct (Nat.eq_dec b (len - 1)) as [->|]; [congruence|lia]. }
              specialize (Hmm b (bd_nest _ _ _ _ Hbd Hb H)). lia.
    + apply okp_ok. assert (len = 0) by lia. subst len. split.
      * split; [lia|]. intros; lia.
      * intros [|b'] Hb'; [lia|]. apply bd_step in Hb'. destruct Hb' as [Hb' E'].
        specialize (Hmax b' Hb' E'). lia.
  - destruct (Nat.eq_dec i 0) as [->|Ne].
    + rewrite H0. split; [now left|]. intros b [Hb _]. lia.
    + destruct (Htab i ltac:(lia)) as (Hge & Hm & Hmm). split.
      * right. auto.
      * intros b Hb _. specialize (Hmm b Hb). lia.
  - lia.
Qed.

Lemma border_array_ok t :
  okp (border_array t) (fun B => length B = S (length t) /\ nth 0 B 0 = 0 /\
     forall i, 1 <= i <= length t -> maxbd t i (nth i B 0)).
Proof.
  unfold border_array. apply okp_bind.
  eapply okp_imp; [eapply (okp_for_range (fun i B => btab t B i)); [lia| |]|].
  - split; [reflexivity|]. split; [reflexivity|]. intros; lia.
  - intros i B Hi HB. pose proof HB as (L & H0 & Htab).
    apply okp_bind, (okp_get _ _ 0); [lia|].
    apply okp_bind. eapply okp_imp; [apply border_descend_ok; [lia|exact HB]|].
    intros len Hm. apply okp_ok. split; [rewrite app_length; simpl; lia|]. split.
    + rewrite app_nth1 by lia. exact H0.
    + intros j Hj. destruct (Nat.eq_dec j (S i)) as [->|Ne].
      * rewrite app_nth2 by lia. replace (S i - length B) with 0 by lia. simpl.
        split; [lia|]. replace (len + 1 - 1) with len by lia. exact Hm.
      * rewrite app_nth1 by lia. apply Htab. lia.
  - intros B (L & H0 & Htab). cbv beta. rewrite L.
    eapply okp_imp; [eapply (okp_for_range (fun i C => length C = S (length t) /\ nth 0 C 0 = 0 /\
      (forall j, 1 <= j < i -> maxbd t j (nth j C 0)) /\
      (forall j, i <= j <= length t -> nth j C 0 = nth j B 0))); [lia| |]|].
    + split; [exact L|]. split; [exact H0|]. split; [intros; lia|auto].
    + intros i C Hi (LC & HC0 & Hlo & Hhi).
      apply okp_bind, (okp_get _ _ 0); [lia|].
      rewrite Hhi by lia. destruct (Htab i ltac:(lia)) as (Hge & Hm).
      apply okp_bind, okp_sub; [lia|]. apply okp_set; [lia|].
      split; [now rewrite upd_length|]. split; [rewrite nth_upd_ne by lia; exact HC0|]. split.
      * intros j Hj. destruct (Nat.eq_dec j i) as [->|Ne].
        -- rewrite nth_upd_eq by lia. exact Hm.
        -- rewrite nth_upd_ne by lia. apply Hlo. lia.
      * intros j Hj. rewrite nth_upd_ne by lia. apply Hhi. lia.
    + intros C (LC & HC0 & Hlo & _). split; [exact LC|]. split; [exact HC0|].
      intros i Hi. apply Hlo. lia.
Qed.

Lemma border_array_correct t : exists B, border_array t = Ok B /\
  length B = S (length t) /\ nth 0 B 0 = 0 /\
  forall i, 1 <= i <= length t ->
    is_border (firstn i t) (nth i B 0) /\
    forall b, is_border (firstn i t) b -> b <= nth i B 0.
Proof.
  destruct (border_array_ok t) as (B & E & L & H0 & H). exists B. split; [exact E|].
  split; [exact L|]. split; [exact H0|]. intros i Hi. destruct (H i Hi) as [H1 H2]. split.
  - apply is_border_bd; [lia|exact H1].
  - intros b Hb. apply H2. apply is_border_bd; [lia|exact Hb].
Qed.

(** ** periods *)
Lemma period_bd t p : 1 <= p <= length t -> (is_period t p <-> bd t (length t) (length t - p)).
Proof.
  intros Hp. unfold is_period, bd. split.
  - intros [_ H]. split; [lia|]. intros x Hx. rewrite H by lia. f_equal. lia.
  - intros [_ H]. split; [exact Hp|]. intros i Hi. rewrite H by lia. f_equal. lia.
Qed.

Lemma smallest_period_ok t : t <> [] ->
  exists B p, border_array t = Ok B /\ smallest_period B = Ok p /\
    is_period t p /\ forall q, is_period t q -> p <= q.
Proof.
  intros Hne. assert (Hn : 0 < length t) by (destruct t; [easy|simpl; lia]).
  destruct (border_array_ok t) as (B & E & L & H0 & H).
  destruct (H (length t) ltac:(lia)) as [H1 H2]. pose proof H1 as [H1' _].
  exists B, (length t - nth (length t) B 0). split; [exact E|]. split; [|split].
  - unfold smallest_period. rewrite sub_ok by lia. cbn [bind].
    replace (length B - 1) with (length t) by lia.
    rewrite (get_ok _ _ 0) by lia. cbn [bind]. apply sub_ok. lia.
  - apply period_bd; [lia|]. replace (length t - (length t - nth (length t) B 0)) with (nth (length t) B 0) by lia.
    exact H1.
  - intros q Hq. pose proof Hq as [Hq' _]. apply period_bd in Hq; [|exact Hq'].
    specialize (H2 _ Hq). lia.
Qed.

(** Fine and Wilf (weak form) *)
Lemma fine_wilf t p q : is_period t p -> is_period t q -> p + q <= length t ->
  is_period t (Nat.gcd p q).
Proof.
  remember (p + q) as s eqn:Es. revert p q Es.
  induction s as [s IH] using lt_wf_ind. intros p q -> Hp Hq Hs.
  destruct (Nat.lt_trichotomy p q) as [Lt|[->|Gt]].
  - assert (Hd : is_period t (q - p)).
    { destruct Hp as [Hp1 Hp2]. destruct Hq as [Hq1 Hq2]. split; [lia|]. intros i Hi.
      destruct (Nat.lt_ge_cases (i + q) (length t)) as [L|G].
      - rewrite (Hq2 i L). rewrite (Hp2 (i + (q - p))) by lia. f_equal. lia.
      - pose proof (Hp2 (i - p) ltac:(lia)) as E1. pose proof (Hq2 (i - p) ltac:(lia)) as E2.
        replace (i - p + p) with i in E1 by lia. replace (i - p + q) with (i + (q - p)) in E2 by lia.
        congruence. }
    pose proof Hp as [Hp1 _].
    replace (Nat.gcd p q) with (Nat.gcd p (q - p)).
    + apply (IH (p + (q - p))); auto; lia.
    + rewrite Nat.gcd_sub_diag_r by lia. reflexivity.
  - rewrite Nat.gcd_diag. exact Hq.
  - assert (Hd : is_period t (p - q)).
    { destruct Hp as [Hp1 Hp2]. destruct Hq as [Hq1 Hq2]. split; [lia|]. intros i Hi.
      destruct (Nat.lt_ge_cases (i + p) (length t)) as [L|G].
      - rewrite (Hp2 i L). rewrite (Hq2 (i + (p - q))) by lia. f_equal. lia.
      - pose proof (Hq2 (i - q) ltac:(lia)) as E1. pose proof (Hp2 (i - q) ltac:(lia)) as E2.
        replace (i - q + q) with i in E1 by lia. replace (i - q + p) with (i + (p - q)) in E2 by lia.
        congruence. }
    pose proof Hq as [Hq1 _].
    replace (Nat.gcd p q) with (Nat.gcd (p - q) q).
    + apply (IH (p - q + q)); auto; lia.
    + rewrite (Nat.gcd_comm (p - q) q), Nat.gcd_sub_diag_r by lia. apply Nat.gcd_comm.
Qed.

Lemma power_length u m : length (power u m) = m * length u.
Proof. induction m as [|m IH]; simpl; auto. rewrite app_length, IH. reflexivity. Qed.

Lemma nth_power u m i : i < m * length u -> nth i (power u m) 0 = nth (i mod length u) u 0.
Proof.
  revert i. induction m as [|m IH]; intros i Hi; [lia|]. simpl.
  destruct (Nat.lt_ge_cases i (length u)) as [L|G].
  - rewrite app_nth1 by lia. now rewrite Nat.mod_small by lia.
  - rewrite app_nth2 by lia. simpl in Hi. rewrite IH by lia. f_equal.
    replace i with ((i - length u) + 1 * length u) at 2 by lia.
    rewrite Nat.mod_add; [reflexivity|]. intros E. rewrite E in Hi. rewrite Nat.mul_0_r in Hi. lia.
Qed.

Lemma period_mod t p i : is_period t p -> i < length t -> nth i t 0 = nth (i mod p) t 0.
Proof.
  intros [Hp H]. induction i as [i IH] using lt_wf_ind. intros Hi.
  destruct (Nat.lt_ge_cases i p) as [L|G]; [now rewrite Nat.mod_small|].
  replace i with ((i - p) + p) at 1 by lia. rewrite <- H by lia. rewrite IH by lia. f_equal.
  replace i with ((i - p) + 1 * p) at 2 by lia. now rewrite Nat.mod_add by lia.
Qed.

Lemma power_period u m : u <> [] -> 1 <= m -> is_period (power u m) (length u).
Proof.
  intros Hne Hm. assert (0 < length u) by (destruct u; [easy|simpl; lia]).
  assert (HL := power_length u m).
  assert (length u <= m * length u) by (destruct m; simpl; lia).
  split; [lia|]. intros i Hi. rewrite !nth_power by lia. f_equal.
  replace (i + length u) with (i + 1 * length u) by lia. now rewrite Nat.mod_add by lia.
Qed.

Lemma period_power t p : is_period t p -> length t mod p = 0 ->
  t = power (firstn p t) (length t / p).
Proof.
  intros HP Hm. pose proof HP as [Hp _].
  assert (Hd : length t = p * (length t / p)) by (apply Nat.div_exact; lia).
  assert (Lf : length (firstn p t) = p) by (apply firstn_length_le; lia).
  apply (nth_ext_len _ _ 0).
  - rewrite power_length, Lf. lia.
  - intros i Hi. rewrite nth_power by (rewrite Lf; lia). rewrite Lf.
    rewrite nth_firstn by (apply Nat.mod_upper_bound; lia). now apply period_mod.
Qed.

Lemma is_primitive_correct t : t <> [] ->
  exists b, is_primitive t = Ok b /\ (b = true <-> primitive t).
Proof.
  intros Hne. assert (Hn : 0 < length t) by (destruct t; [easy|simpl; lia]).
  destruct (smallest_period_ok t Hne) as (B & p & EB & Ep & HP & Hmin).
  pose proof HP as [Hp _].
  assert (Hpow : forall u m, 2 <= m -> t = power u m -> p < length t /\ length t mod p = 0).
  { intros u m Hm E.
    assert (Hu : u <> []).
    { intros ->. apply (f_equal (@length nat)) in E. rewrite power_length in E. simpl in E. lia. }
    assert (Hul : 0 < length u) by (destruct u; [easy|simpl; lia]).
    assert (Hlen : length t = m * length u) by (rewrite E; apply power_length).
    assert (HPu : is_period t (length u)) by (rewrite E; apply power_period; [exact Hu|lia]).
    assert (Hpu := Hmin _ HPu).
    assert (H2 : 2 * length u <= length t) by (rewrite Hlen; apply Nat.mul_le_mono_r; lia).
    split; [lia|].
    assert (HG := fine_wilf t p (length u) HP HPu ltac:(lia)).
    specialize (Hmin _ HG).
    assert (Hdiv : Nat.gcd p (length u) = p).
    { pose proof (Nat.gcd_divide_l p (length u)) as Hd. apply Nat.divide_pos_le in Hd; lia. }
    assert (Hpd : Nat.divide p (length u)).
    { rewrite <- Hdiv. apply Nat.gcd_divide_r. }
    apply Nat.mod_divide; [lia|]. rewrite Hlen. now apply Nat.divide_mul_r. }
  unfold is_primitive. rewrite EB. cbn [bind]. rewrite Ep. cbn [bind].
  destruct (Nat.eqb_spec p (length t)) as [E|Ne].
  - exists true. split; [reflexivity|]. split; [|auto]. intros _ (u & m & Hm & Eu).
    destruct (Hpow u m Hm Eu). lia.
  - rewrite mod_ok by lia. cbn [bind].
    destruct (Nat.eqb_spec (length t mod p) 0) as [Z|NZ]; simpl.
    + exists false. split; [reflexivity|]. split; [easy|]. intros HPr. exfalso. apply HPr.
      exists (firstn p t), (length t / p). split; [|now apply period_power].
      assert (Hd : length t = p * (length t / p)) by (apply Nat.div_exact; lia).
      destruct (length t / p) as [|[|k]]; lia.
    + exists true. split; [reflexivity|]. split; [|auto]. intros _ (u & m & Hm & Eu).
      destruct (Hpow u m Hm Eu). lia.
Qed.

Lemma is_primitive_empty : is_primitive [] = Ok true.
Proof. reflexivity. Qed.
