(** ReleaseProof.v : the release-build variants of the run-length encoders and count_sigma. *)
From Verif Require Import Base SpecStr ModelIo SpecIo ModelTools ModelRelease RunFacts ToolsProof ToolsProof2.

Lemma mod_succ l : 1 <= l -> ((l - 1) mod 256 + 1) mod 256 = l mod 256.
Proof. intros H. rewrite Nat.add_mod_idemp_l by lia. f_equal. lia. Qed.
Lemma mod_255 l : 1 <= l -> (l - 1) mod 256 < 255 <-> l mod 256 <> 0.
Proof.
  intros H. pose proof (Nat.mod_upper_bound (l - 1) 256 ltac:(lia)). rewrite <- (mod_succ l H).
  destruct (Nat.eq_dec ((l - 1) mod 256) 255) as [->|]; [split; [lia|intros C; exfalso; apply C; reflexivity]|].
  rewrite (Nat.mod_small ((l - 1) mod 256 + 1)) by lia. lia.
Qed.

(** ** rle *)
Definition fits_release (rs : list (nat * nat)) : Prop :=
  forall i, S i < length rs -> snd (nth i rs (0, 0)) mod 256 <> 0.
Definition code_release (rs : list (nat * nat)) : str := flat_map (fun r => [fst r; (snd r - 1) mod 256]) rs.
Lemma fits_release_cons c l r rs : fits_release ((c, l) :: r :: rs) <-> l mod 256 <> 0 /\ fits_release (r :: rs).
Proof.
  split.
  - intros H. split; [apply (H 0); simpl; lia|]. intros i Hi. apply (H (S i)). simpl in *. lia.
  - intros (H1 & H2) [|i] Hi; [exact H1|]. apply (H2 i). simpl in *. lia.
Qed.
Lemma rle_release_for t : forall c l out, 1 <= l ->
  (fits_release (runs_from c l t) -> exists p n, for_in t rle_step_release ((l - 1) mod 256, c, out) =
     Ok (n, p, out ++ code_release (removelast (runs_from c l t))) /\
     exists l', last (runs_from c l t) (0,0) = (p, l') /\ n = (l' - 1) mod 256) /\
  (~ fits_release (runs_from c l t) -> for_in t rle_step_release ((l - 1) mod 256, c, out) = Panic).
Proof.
  induction t as [|d t IH]; intros c l out Hl; cbn [for_in runs_from].
  - split.
    + intros _. exists c, ((l - 1) mod 256). cbn [removelast last]. split; [cbn; now rewrite app_nil_r|]. exists l. auto.
    + intros H. exfalso. apply H. intros [|i] Hi; simpl in *; lia.
  - unfold rle_step_release at 1 3. destruct (Nat.eqb_spec d c) as [->|Ne]; cbn [negb].
    + cbn [bind]. unfold inc_u8_release. rewrite mod_succ by lia.
      replace (l mod 256) with ((S l - 1) mod 256) by (f_equal; lia). apply IH. lia.
    + destruct (runs_from_head d 1 t) as (l' & rs & E).
      unfold assert_. destruct (Nat.ltb_spec ((l - 1) mod 256) 255) as [HX|HX]; cbn [bind].
      * destruct (IH d 1 (out ++ [c; (l - 1) mod 256]) ltac:(lia)) as [I1 I2].
        change ((1 - 1) mod 256) with 0 in I1, I2. split.
        -- intros HF. rewrite E, fits_release_cons in HF. rewrite <- E in HF. destruct HF as [_ HF].
           destruct (I1 HF) as (p & n & F1 & l2 & F2 & F3). exists p, n. rewrite F1. split.
           ++ do 2 f_equal. rewrite <- app_assoc. f_equal. rewrite E. reflexivity.
           ++ exists l2. split; [|exact F3]. rewrite <- F2. rewrite E. reflexivity.
        -- intros HF. apply I2. intros HF2. apply HF. rewrite E, fits_release_cons, <- E. split; [now apply mod_255|auto].
      * split; [|auto]. intros HF. rewrite E, fits_release_cons in HF. destruct HF as (HF & _). apply mod_255 in HF; lia.
Qed.
Lemma rle_release_ok rd bs fuel : delivers rd bs -> length bs < fuel -> fits_release (runs bs) ->
  rle_release fuel rd = Ok (code_release (runs bs)).
Proof.
  intros HD HF HR. unfold rle_release. destruct bs as [|c bs].
  - pose proof (delivers_nil _ HD) as E. destruct (read_char rd 0) as [o p]. simpl in E. now subst o.
  - unfold read_char at 1. rewrite (delivers_read0 _ _ _ HD).
    rewrite (delivers_cons rd c bs) by (auto; simpl in HF; lia). simpl runs in *.
    destruct (rle_release_for bs c 1 [] ltac:(lia)) as [I _]. destruct (I HR) as (p & n & E1 & l2 & E2 & E4).
    change ((1 - 1) mod 256) with 0 in E1. rewrite E1. cbn [bind]. simpl app. f_equal.
    destruct (runs_from_head c 1 bs) as (l' & rs & E3).
    assert (Hne : runs_from c 1 bs <> []) by (rewrite E3; discriminate).
    rewrite (app_removelast_last (0, 0) Hne) at 2. unfold code_release. rewrite flat_map_app, E2, E4. reflexivity.
Qed.
Lemma rle_release_panic rd bs fuel : delivers rd bs -> length bs < fuel -> ~ fits_release (runs bs) ->
  rle_release fuel rd = Panic.
Proof.
  intros HD HF HR. unfold rle_release. destruct bs as [|c bs].
  - exfalso. apply HR. intros i Hi. simpl in Hi. lia.
  - unfold read_char at 1. rewrite (delivers_read0 _ _ _ HD).
    rewrite (delivers_cons rd c bs) by (auto; simpl in HF; lia). simpl runs in *.
    destruct (rle_release_for bs c 1 [] ltac:(lia)) as [_ I]. change ((1 - 1) mod 256) with 0 in I. now rewrite (I HR).
Qed.
Lemma fits_release_dec rs : fits_release rs \/ exists i, S i < length rs /\ snd (nth i rs (0, 0)) mod 256 = 0.
Proof.
  induction rs as [|(c, l) [|r rs] IH]; [left; intros i Hi; simpl in Hi; lia|left; intros i Hi; simpl in Hi; lia|].
  destruct IH as [IH|(i & Hi & H)].
  - destruct (Nat.eq_dec (l mod 256) 0) as [E|E]; [right; exists 0; split; [simpl; lia|exact E]|].
    left. now apply fits_release_cons.
  - right. exists (S i). split; [simpl in *; lia|exact H].
Qed.

(** ** rle_text *)
Lemma rle_text_release_for t : forall c l out, 1 <= l ->
  exists p n, for_in t rle_text_step_release ((l - 1) mod 256, c, out) =
     Ok (n, p, out ++ flat_map (fun r => fmt_run (fst r) (snd r mod 256)) (removelast (runs_from c l t))) /\
     exists l', last (runs_from c l t) (0,0) = (p, l') /\ 1 <= l' /\ n = (l' - 1) mod 256.
Proof.
  induction t as [|d t IH]; intros c l out Hl; cbn [for_in runs_from].
  - exists c, ((l - 1) mod 256). cbn [removelast last]. split; [cbn; now rewrite app_nil_r|]. exists l. auto.
  - unfold rle_text_step_release at 1. destruct (Nat.eqb_spec d c) as [->|Ne]; cbn [negb bind]; unfold inc_u8_release; rewrite mod_succ by lia.
    + replace (l mod 256) with ((S l - 1) mod 256) by (f_equal; lia). apply IH. lia.
    + destruct (runs_from_head d 1 t) as (l' & rs & E).
      destruct (IH d 1 (out ++ fmt_run c (l mod 256)) ltac:(lia)) as (p & n & F1 & l2 & F2 & F3).
      change ((1 - 1) mod 256) with 0 in F1. exists p, n. rewrite F1. split.
      * do 2 f_equal. rewrite <- app_assoc. f_equal. rewrite E. reflexivity.
      * exists l2. split; [|exact F3]. rewrite <- F2. rewrite E. reflexivity.
Qed.
Lemma rle_text_release_ok rd bs fuel : delivers rd bs -> length bs < fuel ->
  rle_text_release fuel rd = Ok (flat_map (fun r => fmt_run (fst r) (snd r mod 256)) (runs bs)).
Proof.
  intros HD HF. unfold rle_text_release. destruct bs as [|c bs].
  - pose proof (delivers_nil _ HD) as E. destruct (read_char rd 0) as [o p]. simpl in E. now subst o.
  - unfold read_char at 1. rewrite (delivers_read0 _ _ _ HD).
    rewrite (delivers_cons rd c bs) by (auto; simpl in HF; lia). simpl runs in *.
    destruct (rle_text_release_for bs c 1 [] ltac:(lia)) as (p & n & E1 & l2 & E2 & E4 & E5).
    change ((1 - 1) mod 256) with 0 in E1. rewrite E1. cbn [bind]. simpl app. f_equal.
    destruct (runs_from_head c 1 bs) as (l' & rs & E3).
    assert (Hne : runs_from c 1 bs <> []) by (rewrite E3; discriminate).
    rewrite (app_removelast_last (0, 0) Hne) at 2. rewrite flat_map_app, E2. f_equal. cbn [flat_map fst snd]. rewrite app_nil_r.
    f_equal. subst n. now apply mod_succ.
Qed.

(** ** rle_zero *)
Definition rz_out_release (b : str * nat * nat) : str :=
  let '(w, k, c) := b in w ++ (if k mod 256 =? 0 then [c] else [48; k mod 256 - 1]).
Definition rz_block_release (b : str * nat * nat) : Prop := let '(w, k, c) := b in ~ In 48 w /\ 1 <= k /\ c <> 48.
Lemma rzr_word w out : ~ In 48 w -> for_in w rle_zero_step_release (0, out) = Ok (0, out ++ w).
Proof.
  revert out. induction w as [|c w IH]; intros out H; cbn [for_in]; [now rewrite app_nil_r|].
  unfold rle_zero_step_release at 1. unfold CHR_ZERO. destruct (Nat.eqb_spec c 48) as [->|]; [exfalso; apply H; now left|].
  cbn [negb Nat.eqb bind]. rewrite IH by (intros C; apply H; now right). now rewrite <- app_assoc.
Qed.
Lemma rzr_zeros k n out : n < 256 -> for_in (repeat 48 k) rle_zero_step_release (n, out) = Ok ((n + k) mod 256, out).
Proof.
  revert n. induction k as [|k IH]; intros n Hn; cbn [repeat for_in].
  - rewrite Nat.add_0_r, Nat.mod_small by lia. reflexivity.
  - unfold rle_zero_step_release at 1. change (negb (48 =? CHR_ZERO)) with false. cbn iota. cbn [bind]. unfold inc_u8_release. rewrite IH by (apply Nat.mod_upper_bound; lia).
    rewrite Nat.add_mod_idemp_l by lia. do 3 f_equal. lia.
Qed.
Lemma rzr_blocks bs out : Forall rz_block_release bs ->
  for_in (concat (map rz_in bs)) rle_zero_step_release (0, out) = Ok (0, out ++ concat (map rz_out_release bs)).
Proof.
  revert out. induction bs as [|((w, k), c) bs IH]; intros out H; [cbn; now rewrite app_nil_r|].
  inversion H as [|? ? HX H4]; subst. cbn [rz_block_release] in HX. destruct HX as (H1 & H2 & H3). cbn [map concat]. rewrite for_in_app. unfold rz_in at 1.
  rewrite for_in_app, rzr_word by exact H1. cbn [bind]. rewrite for_in_app, rzr_zeros by lia. cbn [bind for_in].
  change (0 + k) with k. unfold rle_zero_step_release at 1. unfold CHR_ZERO. destruct (Nat.eqb_spec c 48) as [|_]; [contradiction|]. cbn [negb].
  unfold rz_out_release at 1. pose proof (Nat.mod_upper_bound k 256 ltac:(lia)).
  destruct (Nat.eqb_spec (k mod 256) 0) as [E|E].
  - rewrite E. cbn [bind]. rewrite IH by exact H4. now rewrite <- !app_assoc.
  - unfold assert_. destruct (Nat.ltb_spec (k mod 256 - 1) 255); [|lia]. cbn [bind]. rewrite IH by exact H4. now rewrite <- !app_assoc.
Qed.
Lemma rle_zero_release_for rd bs fuel : delivers rd bs -> length bs < fuel ->
  rle_zero_release fuel rd = '(run_counter, out) <- for_in bs rle_zero_step_release (0, []) ;;
    if 0 <? run_counter then Ok (out ++ [CHR_ZERO; run_counter]) else Ok out.
Proof.
  intros HD HF. unfold rle_zero_release. destruct bs as [|c bs].
  - pose proof (delivers_nil _ HD) as E. destruct (read_char rd 0) as [o p]. simpl in E. now subst o.
  - unfold read_char at 1. rewrite (delivers_read0 _ _ _ HD).
    rewrite (delivers_cons rd c bs) by (auto; simpl in HF; lia). cbn [for_in].
    unfold rle_zero_step_release at 2. destruct (c =? CHR_ZERO); reflexivity.
Qed.
Lemma rle_zero_release_ok rd bs w k fuel : let t := concat (map rz_in bs) ++ w ++ repeat 48 k in
  Forall rz_block_release bs -> ~ In 48 w -> delivers rd t -> length t < fuel ->
  rle_zero_release fuel rd = Ok (concat (map rz_out_release bs) ++ w ++ (if k mod 256 =? 0 then [] else [48; k mod 256])).
Proof.
  intros t HB Hw HD HF. rewrite (rle_zero_release_for rd t) by auto. unfold t.
  rewrite !for_in_app, rzr_blocks by exact HB. cbn [bind app]. rewrite for_in_app, rzr_word by exact Hw. cbn [bind].
  rewrite rzr_zeros by lia. cbn [bind]. change (0 + k) with k.
  destruct (k mod 256) as [|m] eqn:E; cbn [Nat.ltb Nat.leb Nat.eqb]; now rewrite ?app_nil_r, <- ?app_assoc.
Qed.
Lemma rz_decompose_release t : exists bs w k, t = concat (map rz_in bs) ++ w ++ repeat 48 k /\
  Forall rz_block_release bs /\ ~ In 48 w.
Proof.
  remember (length t) as n eqn:En. revert t En. induction n as [n IH] using lt_wf_ind; intros t En.
  destruct (span_zero_free t) as (w & r & E & Hw & Hr).
  destruct Hr as [->|(r' & ->)]; [exists [], w, 0; rewrite E; simpl; rewrite app_nil_r; auto|].
  destruct (span_zeros (48 :: r')) as (k & r2 & E2 & Hr2).
  assert (Hk : 1 <= k).
  { destruct k as [|k]; [|lia]. simpl in E2. destruct Hr2 as [->|(c & r3 & -> & Hc)]; [discriminate|]. injection E2 as <- _. contradiction. }
  destruct Hr2 as [->|(c & r3 & -> & Hc)].
  - exists [], w, k. rewrite E, E2. simpl. rewrite app_nil_r. auto.
  - destruct (IH (length r3)) with (t := r3) as (bs & w' & k' & E3 & HB & Hw'); [|reflexivity|].
    + rewrite En, E, E2, !app_length. simpl. lia.
    + exists ((w, k, c) :: bs), w', k'. split; [|split; [constructor; [simpl; auto|exact HB]|exact Hw']].
      rewrite E, E2, E3. cbn [map concat rz_in]. rewrite <- !app_assoc. reflexivity.
Qed.

(** ** a release build returns what a checked build returns, whenever the latter does not panic *)
Lemma for_in_refine {S I} (l : list I) (body body' : I -> S -> res S) (Inv : S -> Prop) s s' :
  (forall i x y, In i l -> Inv x -> body i x = Ok y -> body' i x = Ok y /\ Inv y) -> Inv s ->
  for_in l body s = Ok s' -> for_in l body' s = Ok s' /\ Inv s'.
Proof.
  revert s. induction l as [|i l IH]; intros s H HI E; cbn [for_in] in *; [injection E as <-; auto|].
  destruct (body i s) as [y| |] eqn:Eb; cbn [bind] in E; try discriminate.
  destruct (H i s y (or_introl eq_refl) HI Eb) as (-> & HY). cbn [bind]. apply IH; auto. intros j x z Hj. apply H. now right.
Qed.

(** ** count_sigma *)
Definition cs_body (c : nat) (st : nat * list nat) : res (nat * list nat) :=
  let '(inc, al) := st in
     v <- get al c ;;
     if v =? 0 then let inc' := inc_u8_release inc in al' <- set al c inc' ;; Ok (inc', al')
     else Ok (inc, al).
Lemma cs_seen t : forall inc al, length al = 256 -> (forall c, In c t -> c < 256 /\ nth c al 0 <> 0) ->
  for_in t cs_body (inc, al) = Ok (inc, al).
Proof.
  induction t as [|c t IH]; intros inc al L H; cbn [for_in]; [reflexivity|].
  destruct (H c (or_introl eq_refl)) as (Hc & Hn). unfold cs_body at 1. rewrite get_ok with (d := 0) by lia. cbn [bind].
  destruct (Nat.eqb_spec (nth c al 0) 0); [contradiction|]. cbn [bind]. apply IH; auto. intros d Hd. apply H. now right.
Qed.
Lemma cs_for t : bytes t -> length (nodup Nat.eq_dec t) <= 255 ->
  exists al, for_in t cs_body (0, repeat 0 256) = Ok (length (nodup Nat.eq_dec t), al) /\ length al = 256 /\
    forall c, c < 256 -> (nth c al 0 <> 0 <-> In c t).
Proof.
  induction t as [|c t IH] using rev_ind; intros HB HL.
  - exists (repeat 0 256). split; [reflexivity|]. split; [apply repeat_length|]. intros c Hc.
    rewrite nth_repeat. simpl. lia.
  - apply Forall_app in HB. destruct HB as (HB & HC). inversion HC as [|? ? Hc _]; subst.
    rewrite nodup_snoc_length in *. destruct (in_dec Nat.eq_dec c t) as [Hi|Hi].
    + destruct (IH HB ltac:(lia)) as (al & E & L & H). exists al. rewrite for_in_app, E. cbn [bind]. split.
      * rewrite Nat.add_0_r. apply cs_seen; auto. intros d [<-|[]]. split; [exact Hc|]. now apply H.
      * split; [exact L|]. intros d Hd. rewrite H by exact Hd. rewrite in_app_iff. simpl. intuition (subst; auto).
    + destruct (IH HB ltac:(lia)) as (al & E & L & H). rewrite for_in_app, E. cbn [bind for_in].
      unfold cs_body at 1. rewrite get_ok with (d := 0) by lia. cbn [bind].
      destruct (Nat.eqb_spec (nth c al 0) 0) as [E0|E0]; [|exfalso; apply Hi; now apply H].
      unfold inc_u8_release. rewrite Nat.mod_small by lia. rewrite set_ok by lia. cbn [bind].
      eexists. split; [reflexivity|]. split; [now rewrite upd_length|]. intros d Hd. rewrite in_app_iff. simpl.
      destruct (Nat.eq_dec d c) as [->|Ne].
      * rewrite nth_upd_eq by lia. split; [auto|lia].
      * rewrite nth_upd_ne by auto. rewrite H by exact Hd. intuition congruence.
Qed.
Lemma nodup_bytes t : bytes t -> length (nodup Nat.eq_dec t) <= 256.
Proof.
  intros HB. rewrite <- (seq_length 256 0). apply NoDup_incl_length; [apply NoDup_nodup|].
  intros x Hx. apply nodup_In in Hx. unfold bytes in HB. rewrite Forall_forall in HB. apply in_seq. specialize (HB x Hx). lia.
Qed.
Lemma last_letter t : bytes t -> 255 < length (nodup Nat.eq_dec t) ->
  exists p c q, t = p ++ c :: q /\ ~ In c p /\ length (nodup Nat.eq_dec p) = 255 /\ bytes p /\ c < 256 /\ bytes q.
Proof.
  induction t as [|c t IH] using rev_ind; intros HB HL; [simpl in HL; lia|].
  apply Forall_app in HB. destruct HB as (HB & HC). inversion HC as [|? ? Hc _]; subst.
  destruct (Nat.le_gt_cases (length (nodup Nat.eq_dec t)) 255) as [H|H].
  - exists t, c, []. rewrite nodup_snoc_length in HL. destruct (in_dec Nat.eq_dec c t) as [Hi|Hi]; [lia|].
    split; [reflexivity|]. split; [exact Hi|]. split; [lia|]. split; [exact HB|]. split; [exact Hc|constructor].
  - destruct (IH HB H) as (p & d & q & -> & H1 & H2 & H3 & H4 & H5). exists p, d, (q ++ [c]).
    split; [now rewrite <- app_assoc|]. repeat split; auto. apply Forall_app. auto.
Qed.
Lemma full_all p c : bytes p -> c < 256 -> ~ In c p -> length (nodup Nat.eq_dec p) = 255 -> forall b, b < 256 -> b <> c -> In b p.
Proof.
  intros HB Hc Hi HL b Hb Hne. destruct (in_dec Nat.eq_dec b p) as [|N]; auto. exfalso.
  assert (HN : NoDup (b :: c :: nodup Nat.eq_dec p)).
  { constructor; [|constructor; [|apply NoDup_nodup]].
    - intros [E|H]; [congruence|]. apply nodup_In in H. contradiction.
    - intros H. apply nodup_In in H. contradiction. }
  assert (HI : incl (b :: c :: nodup Nat.eq_dec p) (seq 0 256)).
  { intros x [<-|[<-|Hx]]; apply in_seq; [lia|lia|]. apply nodup_In in Hx. unfold bytes in HB. rewrite Forall_forall in HB. specialize (HB x Hx). lia. }
  pose proof (NoDup_incl_length HN HI) as HX. rewrite seq_length in HX. cbn [length] in HX. lia.
Qed.
Lemma count_sigma_release_full p c q : bytes p -> c < 256 -> bytes q -> ~ In c p -> length (nodup Nat.eq_dec p) = 255 ->
  count_sigma_release (p ++ c :: q) = Ok (if in_dec Nat.eq_dec c q then 1 else 0).
Proof.
  intros HB Hc HQ Hi HL. unfold count_sigma_release.
  change (fun c '(inc, al) => _) with cs_body. destruct (cs_for p HB ltac:(lia)) as (al & E & L & H).
  rewrite for_in_app, E. cbn [bind for_in]. rewrite HL. unfold cs_body at 1. rewrite get_ok with (d := 0) by lia. cbn [bind].
  destruct (Nat.eqb_spec (nth c al 0) 0) as [E0|E0]; [|exfalso; apply Hi; now apply H].
  change (inc_u8_release 255) with 0. rewrite set_ok by lia. cbn [bind].
  pose proof (full_all p c HB Hc Hi HL) as HA.
  set (al' := upd al c 0). assert (L' : length al' = 256) by (unfold al'; now rewrite upd_length).
  assert (H0 : nth c al' 0 = 0) by (unfold al'; now rewrite nth_upd_eq by lia).
  assert (HO : forall b, b < 256 -> b <> c -> nth b al' 0 <> 0).
  { intros b Hb Hne. unfold al'. rewrite nth_upd_ne by auto. apply H; auto. }
  clearbody al'. clear - HQ Hc L' H0 HO.
  destruct (in_dec Nat.eq_dec c q) as [Hq|Hq].
  - apply in_split in Hq. destruct Hq as (q1 & q2 & ->).
    destruct (first_in (Nat.eqb c) (q1 ++ c :: q2)) as (r1 & x & r2 & E & Hx & Hr1).
    { apply existsb_exists. exists c. split; [apply in_or_app; right; now left|apply Nat.eqb_refl]. }
    apply Nat.eqb_eq in Hx. subst x. rewrite E in *. apply Forall_app in HQ. destruct HQ as (HQ1 & HQ2). inversion HQ2 as [|? ? _ HQ3]; subst.
    rewrite for_in_app, cs_seen; [|exact L'|].
    2:{ intros d Hd. rewrite Forall_forall in HQ1. split; [now apply HQ1|]. apply HO; [now apply HQ1|].
        intros ->. rewrite forallb_forall in Hr1. specialize (Hr1 c Hd). now rewrite Nat.eqb_refl in Hr1. }
    cbn [bind for_in]. unfold cs_body at 1. rewrite get_ok with (d := 0) by lia. cbn [bind]. rewrite H0. cbn [Nat.eqb].
    change (inc_u8_release 0) with 1. rewrite set_ok by lia. cbn [bind]. rewrite cs_seen; [reflexivity|now rewrite upd_length|].
    intros d Hd. rewrite Forall_forall in HQ3. split; [now apply HQ3|]. destruct (Nat.eq_dec d c) as [->|Ne].
    + rewrite nth_upd_eq by lia. lia.
    + rewrite nth_upd_ne by auto. apply HO; auto.
  - rewrite cs_seen; [reflexivity|exact L'|]. intros d Hd. unfold bytes in HQ. rewrite Forall_forall in HQ. split; [now apply HQ|].
    apply HO; [now apply HQ|]. intros ->. contradiction.
Qed.
Lemma count_sigma_release_ok t : bytes t -> length (nodup Nat.eq_dec t) <= 255 -> count_sigma_release t = Ok (length (nodup Nat.eq_dec t)).
Proof.
  intros HB HL. unfold count_sigma_release. change (fun c '(inc, al) => _) with cs_body.
  destruct (cs_for t HB HL) as (al & E & _). now rewrite E.
Qed.
