(** ToolsProof.v : mtf, rle, escape, count_sigma, reverse, file/stdin. *)
From Verif Require Import Base SpecStr PermFacts ModelIo SpecIo ModelTools RunFacts.

(** ** mtf *)
Lemma position_ok c v : In c v -> exists p, position_ c v = Ok p /\ p < length v /\ nth p v 0 = c /\
  forall q, q < p -> nth q v 0 <> c.
Proof.
  induction v as [|x v IH]; [easy|]. intros Hc. simpl. destruct (Nat.eqb_spec x c) as [->|Ne].
  - exists 0. repeat split; try lia.
  - destruct Hc as [->|Hc]; [easy|]. destruct (IH Hc) as (p & E & H1 & H2 & H3). rewrite E. cbn [bind].
    exists (S p). repeat split; auto; try lia. intros [|q] Hq; auto. apply H3. lia.
Qed.
Lemma position_panic c v : ~ In c v -> position_ c v = Panic.
Proof.
  induction v as [|x v IH]; [easy|]. intros Hc. simpl in *. destruct (Nat.eqb_spec x c) as [->|Ne]; [tauto|].
  rewrite IH by tauto. reflexivity.
Qed.

Lemma mtf_step_ok c v out : In c v -> length v <= 255 ->
  exists p, position_ c v = Ok p /\ nth_error v p = Some c /\ p < length v /\
   mtf_step c (v, out) = Ok (c :: remove_nth p v, out ++ [p]).
Proof.
  intros Hc Hlen. destruct (position_ok c v Hc) as (p & E & H1 & H2 & H3).
  exists p. split; [auto|]. split; [rewrite (nth_error_nth' v 0 H1); now rewrite H2|]. split; [auto|].
  unfold mtf_step. rewrite E. cbn [bind].
  match goal with |- bind ?e _ = _ => enough (G : okp e (fun w => length w = length v /\
     forall i, i < length v -> nth i w 0 = if (0 <? i) && (i <=? p) then nth (i - 1) v 0 else nth i v 0)) end.
  { destruct G as (w & -> & Hw1 & Hw2). cbn [bind]. rewrite set_ok by lia. cbn [bind].
    rewrite Nat.mod_small by lia. do 2 f_equal.
    apply (nth_ext_len _ _ 0).
    - rewrite upd_length. unfold remove_nth. cbn [length]. rewrite app_length, firstn_length, skipn_length. lia.
    - intros i Hi. rewrite upd_length in Hi. destruct i as [|i]; [now rewrite nth_upd_eq by lia|].
      rewrite nth_upd_ne by lia. rewrite Hw2 by lia. cbn [nth]. unfold remove_nth.
      replace (0 <? S i) with true by reflexivity. cbn [andb].
      assert (Lf : length (firstn p v) = p) by (rewrite firstn_length; lia).
      destruct (Nat.leb_spec (S i) p).
      + rewrite app_nth1 by lia. rewrite nth_firstn by lia. f_equal. lia.
      + rewrite app_nth2 by lia. rewrite Lf, nth_skipn. f_equal. lia. }
  eapply okp_imp; [eapply (okp_for_range (fun j w => length w = length v /\
     forall i, i < length v -> nth i w 0 = if (p - j <? i) && (i <=? p) then nth (i - 1) v 0 else nth i v 0)); [lia| |]|].
  - split; [auto|]. intros i Hi. destruct (Nat.ltb_spec (p - 0) i), (Nat.leb_spec i p); simpl; auto; lia.
  - intros j w Hj (Hw1 & Hw2). apply okp_bind, okp_sub; [lia|]. apply okp_bind, okp_sub; [lia|].
    apply okp_bind, (okp_get _ _ 0); [lia|]. apply okp_set; [lia|]. rewrite upd_length. split; [auto|].
    intros i Hi. destruct (Nat.eq_dec i (p - j)) as [->|Ne].
    + rewrite nth_upd_eq by lia. rewrite Hw2 by lia.
      destruct (Nat.ltb_spec (p - j) (p - j - 1)); [lia|]. simpl.
      destruct (Nat.ltb_spec (p - S j) (p - j)); [|lia]. destruct (Nat.leb_spec (p - j) p); [|lia]. reflexivity.
    + rewrite nth_upd_ne by lia. rewrite Hw2 by lia.
      destruct (Nat.ltb_spec (p - j) i), (Nat.ltb_spec (p - S j) i), (Nat.leb_spec i p); simpl; auto; lia.
  - simpl. intros w (Hw1 & Hw2). split; auto. intros i Hi. rewrite Hw2 by auto. now rewrite Nat.sub_diag.
Qed.

Lemma remove_nth_perm p (v : str) c : nth_error v p = Some c -> Permutation (c :: remove_nth p v) v.
Proof.
  intros H. apply nth_error_split in H. destruct H as (l1 & l2 & -> & <-).
  unfold remove_nth. rewrite firstn_app, Nat.sub_diag, firstn_all. simpl firstn. rewrite app_nil_r.
  replace (S (length l1)) with (length (l1 ++ [c])) by (rewrite app_length; simpl; lia).
  replace (l1 ++ c :: l2) with ((l1 ++ [c]) ++ l2) by (now rewrite <- app_assoc).
  rewrite skipn_app, Nat.sub_diag, skipn_all. simpl. rewrite <- app_assoc. apply Permutation_middle.
Qed.

Lemma mtf_for_ok t : forall v out, length v <= 255 -> (forall c, In c t -> In c v) ->
  exists w code, for_in t mtf_step (v, out) = Ok (w, out ++ code) /\ length code = length t /\
    mtf_decode v code = Some t /\ Forall (fun p => p < length v) code.
Proof.
  induction t as [|c t IH]; intros v out Hv Ht; cbn [for_in].
  - exists v, []. rewrite app_nil_r. repeat split; auto.
  - destruct (mtf_step_ok c v out ltac:(apply Ht; now left) Hv) as (p & E & Hp & Hlt & ES).
    rewrite ES. cbn [bind].
    pose proof (remove_nth_perm p v c Hp) as HP.
    pose proof (Permutation_length HP) as HL.
    destruct (IH (c :: remove_nth p v) (out ++ [p])) as (w & code & E1 & E2 & E3 & E4).
    + lia.
    + intros d Hd. apply Permutation_sym in HP. eapply Permutation_in; [exact HP|]. apply Ht. now right.
    + exists w, (p :: code). rewrite E1, <- app_assoc. split; [reflexivity|]. split; [simpl; lia|]. split.
      * cbn [mtf_decode]. rewrite Hp, E3. reflexivity.
      * constructor; auto. now rewrite <- HL.
Qed.

Lemma mtf_ok rd bs fuel : delivers rd bs -> length bs < fuel -> Forall (fun c => c < 255) bs ->
  exists code, mtf fuel rd = Ok code /\ length code = length bs /\ bytes code /\
    mtf_decode (seq 0 255) code = Some bs.
Proof.
  intros HD HF HB. unfold mtf. rewrite (delivers_all rd bs) by auto.
  destruct (mtf_for_ok bs (seq 0 255) []) as (w & code & E & H1 & H2 & H3).
  - now rewrite seq_length.
  - intros c Hc. apply in_seq. rewrite Forall_forall in HB. specialize (HB c Hc). lia.
  - exists code. rewrite E. repeat split; auto. eapply Forall_impl; [|exact H3]. intros a. rewrite seq_length. lia.
Qed.

Lemma for_in_panic_at {S I} p (x : I) q (body : I -> S -> res S) s s' :
  for_in p body s = Ok s' -> body x s' = Panic -> for_in (p ++ x :: q) body s = Panic.
Proof. intros H1 H2. rewrite for_in_app, H1. simpl. now rewrite H2. Qed.

Lemma first_in (P : nat -> bool) l : existsb P l = true ->
  exists p x q, l = p ++ x :: q /\ P x = true /\ forallb (fun y => negb (P y)) p = true.
Proof.
  induction l as [|y l IH]; simpl; [easy|]. destruct (P y) eqn:E.
  - intros _. exists [], y, l. auto.
  - simpl. intros H. destruct (IH H) as (p & x & q & -> & H1 & H2). exists (y :: p), x, q.
    simpl. rewrite E. auto.
Qed.

Lemma mtf_panic rd bs fuel : delivers rd bs -> length bs < fuel -> ~ Forall (fun c => c < 255) bs ->
  mtf fuel rd = Panic.
Proof.
  intros HD HF HB. unfold mtf. rewrite (delivers_all rd bs) by auto.
  assert (HE : existsb (fun c => 255 <=? c) bs = true).
  { destruct (existsb (fun c => 255 <=? c) bs) eqn:E; auto. exfalso. apply HB. apply Forall_forall.
    intros c Hc. destruct (Nat.lt_ge_cases c 255); auto. exfalso.
    assert (existsb (fun c => 255 <=? c) bs = true); [|congruence].
    apply existsb_exists. exists c. split; auto. now apply Nat.leb_le. }
  destruct (first_in _ _ HE) as (p & x & q & -> & Hx & Hp).
  rewrite forallb_forall in Hp. apply Nat.leb_le in Hx.
  assert (HPv : forall c, In c p -> In c (seq 0 255)).
  { intros c Hc. apply in_seq. specialize (Hp c Hc). apply negb_true_iff, Nat.leb_gt in Hp. lia. }
  assert (G : exists w code, for_in p mtf_step (seq 0 255, []) = Ok (w, code) /\ Permutation w (seq 0 255)).
  { clear - HPv. revert HPv. generalize (@nil nat) as out.
    assert (K : forall p v out, Permutation v (seq 0 255) -> (forall c, In c p -> In c (seq 0 255)) ->
      exists w code, for_in p mtf_step (v, out) = Ok (w, code) /\ Permutation w (seq 0 255)).
    { clear. induction p as [|c p IH]; intros v out HP H; cbn [for_in]; [eauto|].
      destruct (mtf_step_ok c v out) as (k & _ & Hk & _ & ES).
      - apply (Permutation_in _ (Permutation_sym HP)). apply H. now left.
      - rewrite (Permutation_length HP), seq_length. lia.
      - rewrite ES. cbn [bind]. apply IH.
        + rewrite (remove_nth_perm k v c Hk). exact HP.
        + intros d Hd. apply H. now right. }
    intros out H. apply K; auto. }
  destruct G as (w & code & E & HW).
  assert (Hxw : ~ In x w).
  { intros Hi. apply (Permutation_in _ HW) in Hi. apply in_seq in Hi. lia. }
  erewrite (for_in_panic_at p x q mtf_step); [reflexivity|exact E|].
  unfold mtf_step. now rewrite position_panic.
Qed.

(** ** rle *)
Definition rle_code (rs : list (nat * nat)) : str := flat_map (fun '(c, l) => [c; l - 1]) rs.
Lemma rle_decode_code rs : Forall (fun r => 1 <= snd r) rs -> rle_decode (rle_code rs) = Some (expand rs).
Proof.
  induction 1 as [|[c l] rs Hl HF IH]; [reflexivity|]. simpl in Hl.
  change (rle_code ((c, l) :: rs)) with (c :: (l - 1) :: rle_code rs).
  cbn [rle_decode]. rewrite IH. cbn [option_map]. f_equal. rewrite expand_cons.
  replace (S (l - 1)) with l by lia. reflexivity.
Qed.

(** run lists accepted by rle: all but the last run <= 255, the last <= 256 *)
Definition rle_fits (rs : list (nat * nat)) : Prop :=
  forall i, i < length rs -> snd (nth i rs (0, 0)) <= (if S i =? length rs then 256 else 255).

Lemma rle_fits_cons c l r rs : rle_fits ((c, l) :: r :: rs) <-> l <= 255 /\ rle_fits (r :: rs).
Proof.
  unfold rle_fits. split.
  - intros H. split; [apply (H 0); simpl; lia|]. intros i Hi. specialize (H (S i) ltac:(simpl in *; lia)). exact H.
  - intros [H1 H2] [|i] Hi; [simpl; auto|]. simpl in Hi. exact (H2 i ltac:(simpl; lia)).
Qed.

Lemma runs_from_le c t : forall l, exists l' rs, runs_from c l t = (c, l') :: rs /\ l <= l'.
Proof.
  induction t as [|x t IH]; simpl; intros l; [eauto|].
  destruct (x =? c); [|eauto]. destruct (IH (S l)) as (l' & rs & E & H). exists l', rs. split; auto. lia.
Qed.

Lemma rle_for t : forall c l out, 1 <= l <= 256 ->
  (rle_fits (runs_from c l t) -> exists p n, for_in t rle_step (l - 1, c, out) =
     Ok (n, p, out ++ rle_code (removelast (runs_from c l t))) /\ last (runs_from c l t) (0,0) = (p, n + 1)) /\
  (~ rle_fits (runs_from c l t) -> for_in t rle_step (l - 1, c, out) = Panic).
Proof.
  induction t as [|d t IH]; intros c l out Hl; cbn [for_in runs_from].
  - split.
    + intros _. exists c, (l - 1). simpl. rewrite app_nil_r. split; auto. f_equal. lia.
    + intros H. exfalso. apply H. intros [|i] Hi; simpl in *; lia.
  - unfold rle_step at 1 3. destruct (Nat.eqb_spec d c) as [->|Ne]; cbn [negb].
    + unfold inc_u8. destruct (Nat.leb_spec 255 (l - 1)).
      * cbn [bind]. split; [|auto]. intros HF. exfalso. assert (l = 256) by lia. subst l.
        destruct (runs_from_le c t 257) as (l' & rs & E & Hl').
        rewrite E in HF. specialize (HF 0 ltac:(simpl; lia)). cbn [nth snd length] in HF.
        destruct (1 =? S (length rs)); lia.
      * cbn [bind]. replace (l - 1 + 1) with (S l - 1) by lia. apply IH. lia.
    + destruct (runs_from_head d 1 t) as (l' & rs & E).
      unfold assert_. destruct (Nat.ltb_spec (l - 1) 255); cbn [bind].
      * destruct (IH d 1 (out ++ [c; l - 1]) ltac:(lia)) as [I1 I2]. change (1 - 1) with 0 in I1, I2. split.
        -- intros HF. rewrite E, rle_fits_cons in HF. rewrite <- E in HF. destruct HF as [_ HF].
           destruct (I1 HF) as (p & n & F1 & F2). exists p, n. rewrite F1. split.
           ++ do 2 f_equal. rewrite <- app_assoc. f_equal. rewrite E. reflexivity.
           ++ rewrite <- F2. rewrite E. reflexivity.
        -- intros HF. apply I2. intros HF2. apply HF. rewrite E, rle_fits_cons, <- E. split; [lia|auto].
      * split; [|auto]. intros HF. rewrite E, rle_fits_cons in HF. lia.
Qed.

Lemma rle_code_app a b : rle_code (a ++ b) = rle_code a ++ rle_code b.
Proof. apply flat_map_app. Qed.

Lemma rle_ok rd bs fuel : delivers rd bs -> length bs < fuel -> rle_fits (runs bs) ->
  rle fuel rd = Ok (rle_code (runs bs)).
Proof.
  intros HD HF HR. unfold rle. destruct bs as [|c bs].
  - pose proof (delivers_nil _ HD) as E. destruct (read_char rd 0) as [o p]. simpl in E. now subst o.
  - unfold read_char at 1. rewrite (delivers_read0 _ _ _ HD).
    rewrite (delivers_cons rd c bs) by (auto; simpl in HF; lia). simpl runs in *.
    destruct (rle_for bs c 1 [] ltac:(lia)) as [I _]. destruct (I HR) as (p & n & E1 & E2).
    change (1 - 1) with 0 in E1. rewrite E1. cbn [bind]. simpl app. f_equal.
    destruct (runs_from_head c 1 bs) as (l' & rs & E3).
    assert (Hne : runs_from c 1 bs <> []) by (rewrite E3; discriminate).
    rewrite (app_removelast_last (0, 0) Hne) at 2. rewrite rle_code_app, E2. simpl.
    now rewrite Nat.add_sub.
Qed.
Lemma rle_panic rd bs fuel : delivers rd bs -> length bs < fuel -> ~ rle_fits (runs bs) ->
  rle fuel rd = Panic.
Proof.
  intros HD HF HR. unfold rle. destruct bs as [|c bs].
  - exfalso. apply HR. intros i Hi. simpl in Hi. lia.
  - unfold read_char at 1. rewrite (delivers_read0 _ _ _ HD).
    rewrite (delivers_cons rd c bs) by (auto; simpl in HF; lia). simpl runs in *.
    destruct (rle_for bs c 1 [] ltac:(lia)) as [_ I]. change (1 - 1) with 0 in I. now rewrite (I HR).
Qed.

(** ** rle_text *)
Definition text_code (rs : list (nat * nat)) : str := flat_map (fun '(c, l) => fmt_run c l) rs.
Definition text_fits (rs : list (nat * nat)) : Prop := Forall (fun r => snd r <= 255) rs.

Lemma rle_text_for t : forall c l out, 1 <= l <= 256 ->
  (text_fits (runs_from c l t) -> exists p n, for_in t rle_text_step (l - 1, c, out) =
     Ok (n, p, out ++ text_code (removelast (runs_from c l t))) /\ last (runs_from c l t) (0,0) = (p, n + 1) /\ n < 255) /\
  (~ text_fits (runs_from c l t) -> for_in t rle_text_step (l - 1, c, out) = Panic \/
     exists p o, for_in t rle_text_step (l - 1, c, out) = Ok (255, p, o)).
Proof.
  induction t as [|d t IH]; intros c l out Hl; cbn [for_in runs_from].
  - split.
    + intros HF. inversion HF; subst. simpl in *. exists c, (l - 1). rewrite app_nil_r. split; auto. split; [f_equal; lia|lia].
    + intros H. right. exists c, out. do 3 f_equal. destruct (Nat.eq_dec l 256); [lia|]. exfalso. apply H.
      constructor; [simpl; lia|constructor].
  - unfold rle_text_step at 1 3 5. destruct (Nat.eqb_spec d c) as [->|Ne]; cbn [negb].
    + unfold inc_u8. destruct (Nat.leb_spec 255 (l - 1)).
      * cbn [bind]. split; [|auto]. intros HF. exfalso. assert (l = 256) by lia. subst l.
        destruct (runs_from_le c t 257) as (l' & rs & E & Hl').
        rewrite E in HF. inversion HF; subst. simpl in *. lia.
      * cbn [bind]. replace (l - 1 + 1) with (S l - 1) by lia. apply IH. lia.
    + destruct (runs_from_head d 1 t) as (l' & rs & E).
      unfold inc_u8. destruct (Nat.leb_spec 255 (l - 1)); cbn [bind].
      * split; [|auto]. intros HF. exfalso. inversion HF; subst. simpl in *. lia.
      * replace (l - 1 + 1) with l by lia.
        destruct (IH d 1 (out ++ fmt_run c l) ltac:(lia)) as [I1 I2]. change (1 - 1) with 0 in I1, I2. split.
        -- intros HF. inversion HF as [|? ? Ha Hb]; subst. destruct (I1 Hb) as (p & n & F1 & F2 & F3). exists p, n. rewrite F1. split.
           ++ do 2 f_equal. rewrite <- app_assoc. f_equal. rewrite E. reflexivity.
           ++ rewrite <- F2. rewrite E. split; [reflexivity|exact F3].
        -- intros HF. apply I2. intros HF2. apply HF. constructor; [simpl; lia|auto].
Qed.

Lemma rle_text_ok rd bs fuel : delivers rd bs -> length bs < fuel -> text_fits (runs bs) ->
  rle_text fuel rd = Ok (text_code (runs bs)).
Proof.
  intros HD HF HR. unfold rle_text. destruct bs as [|c bs].
  - pose proof (delivers_nil _ HD) as E. destruct (read_char rd 0) as [o p]. simpl in E. now subst o.
  - unfold read_char at 1. rewrite (delivers_read0 _ _ _ HD).
    rewrite (delivers_cons rd c bs) by (auto; simpl in HF; lia). simpl runs in *.
    destruct (rle_text_for bs c 1 [] ltac:(lia)) as [I _]. destruct (I HR) as (p & n & E1 & E2 & E4).
    change (1 - 1) with 0 in E1. rewrite E1. cbn [bind]. simpl app. unfold inc_u8.
    destruct (Nat.leb_spec 255 n); [lia|]. cbn [bind]. f_equal.
    destruct (runs_from_head c 1 bs) as (l' & rs & E3).
    assert (Hne : runs_from c 1 bs <> []) by (rewrite E3; discriminate).
    rewrite (app_removelast_last (0, 0) Hne) at 2. unfold text_code. rewrite flat_map_app, E2.
    f_equal. cbn [flat_map]. now rewrite app_nil_r.
Qed.
Lemma rle_text_panic rd bs fuel : delivers rd bs -> length bs < fuel -> ~ text_fits (runs bs) ->
  rle_text fuel rd = Panic.
Proof.
  intros HD HF HR. unfold rle_text. destruct bs as [|c bs].
  - exfalso. apply HR. constructor.
  - unfold read_char at 1. rewrite (delivers_read0 _ _ _ HD).
    rewrite (delivers_cons rd c bs) by (auto; simpl in HF; lia). simpl runs in *.
    destruct (rle_text_for bs c 1 [] ltac:(lia)) as [_ I]. change (1 - 1) with 0 in I.
    destruct (I HR) as [->|(p & o & ->)]; reflexivity.
Qed.

(** unique decodability of the text format *)
Lemma dec_u8_inj_sep n m u v : n <= 255 -> m <= 255 -> dec_u8 n ++ 41 :: u = dec_u8 m ++ 41 :: v -> n = m /\ u = v.
Proof.
  intros Hn Hm. unfold dec_u8.
  pose proof (Nat.div_mod n 10 ltac:(lia)). pose proof (Nat.mod_upper_bound n 10 ltac:(lia)).
  pose proof (Nat.div_mod m 10 ltac:(lia)). pose proof (Nat.mod_upper_bound m 10 ltac:(lia)).
  pose proof (Nat.div_mod (n / 10) 10 ltac:(lia)). pose proof (Nat.mod_upper_bound (n / 10) 10 ltac:(lia)).
  pose proof (Nat.div_mod (m / 10) 10 ltac:(lia)). pose proof (Nat.mod_upper_bound (m / 10) 10 ltac:(lia)).
  assert (n / 100 = n / 10 / 10) by (rewrite Nat.div_div by lia; reflexivity).
  assert (m / 100 = m / 10 / 10) by (rewrite Nat.div_div by lia; reflexivity).
  set (n1 := n / 10) in *. set (m1 := m / 10) in *. set (n0 := n mod 10) in *. set (m0 := m mod 10) in *.
  set (n2 := n / 100) in *. set (m2 := m / 100) in *. set (n3 := n1 / 10) in *. set (m3 := m1 / 10) in *.
  set (n4 := n1 mod 10) in *. set (m4 := m1 mod 10) in *.
  clearbody n4 m4 n3 m3 n0 m0 n2 m2. clearbody n1 m1.
  destruct (Nat.ltb_spec n 10), (Nat.ltb_spec n 100), (Nat.ltb_spec m 10), (Nat.ltb_spec m 100); try lia;
    cbn [app]; intros E; injection E; intros; try lia; split; auto; lia.
Qed.
Lemma utf8_inj_sep c d u v : c < 256 -> d < 256 -> utf8_char c ++ u = utf8_char d ++ v -> c = d /\ u = v.
Proof.
  intros Hc Hd. unfold utf8_char.
  pose proof (Nat.div_mod c 64 ltac:(lia)). pose proof (Nat.div_mod d 64 ltac:(lia)).
  set (c1 := c / 64) in *. set (d1 := d / 64) in *. set (c0 := c mod 64) in *. set (d0 := d mod 64) in *.
  clearbody c1 d1 c0 d0.
  destruct (Nat.ltb_spec c 128), (Nat.ltb_spec d 128); cbn [app]; intros E; injection E; intros; try lia; split; auto; lia.
Qed.
Lemma text_code_inj rs rs' : text_fits rs -> text_fits rs' ->
  Forall (fun r => fst r < 256) rs -> Forall (fun r => fst r < 256) rs' ->
  text_code rs = text_code rs' -> rs = rs'.
Proof.
  revert rs'. induction rs as [|[c l] rs IH]; intros [|[d m] rs'] H1 H2 H3 H4 E; auto.
  - discriminate.
  - discriminate.
  - inversion H1; inversion H2; inversion H3; inversion H4; subst. simpl in *.
    unfold fmt_run in E. injection E as E. rewrite <- !app_assoc in E. apply utf8_inj_sep in E; auto.
    destruct E as [-> E]. cbn [app] in E. injection E as E. rewrite <- !app_assoc in E. cbn [app] in E.
    apply dec_u8_inj_sep in E; auto. destruct E as [-> E]. f_equal. apply IH; auto.
Qed.
Lemma runs_letters t : bytes t -> Forall (fun r => fst r < 256) (runs t).
Proof.
  intros HB. pose proof (runs_ok t) as (HE & HF & _). revert HE HF. generalize (runs t) as rs.
  intros rs HE HF. apply Forall_forall. intros [c l] Hr. simpl.
  rewrite Forall_forall in HF. specialize (HF _ Hr). simpl in HF.
  unfold bytes in HB. rewrite Forall_forall in HB. apply HB. rewrite <- HE. unfold expand.
  apply in_concat. exists (repeat c l). split.
  - apply in_map_iff. exists (c, l). auto.
  - destruct l; [lia|]. now left.
Qed.
