(** ToolsProof2.v : rle_zero, escape, count_sigma, reverse, file/stdin. *)
From Verif Require Import Base SpecStr PermFacts ModelIo SpecIo ModelTools RunFacts ToolsProof.

(** ** rle_zero *)
(** a block: zero-free bytes, then k zeros, then the byte ending the zero run *)
Definition rz_in (b : str * nat * nat) : str := let '(w, k, c) := b in w ++ repeat 48 k ++ [c].
Definition rz_out (b : str * nat * nat) : str := let '(w, k, c) := b in w ++ [48; k - 1].
Definition rz_block (b : str * nat * nat) : Prop :=
  let '(w, k, c) := b in ~ In 48 w /\ 1 <= k <= 255 /\ c <> 48.

Lemma rz_word w out : ~ In 48 w -> for_in w rle_zero_step (0, out) = Ok (0, out ++ w).
Proof.
  revert out. induction w as [|c w IH]; intros out H; cbn [for_in]; [now rewrite app_nil_r|].
  unfold rle_zero_step at 1. unfold CHR_ZERO. destruct (Nat.eqb_spec c 48) as [->|Ne]; [exfalso; apply H; now left|].
  cbn [negb]. change (0 =? 0) with true. cbv iota. cbn [bind]. rewrite IH by (intros Hi; apply H; now right).
  now rewrite <- app_assoc.
Qed.
Lemma rz_zeros k n out : n + k <= 255 -> for_in (repeat 48 k) rle_zero_step (n, out) = Ok (n + k, out).
Proof.
  revert n. induction k as [|k IH]; intros n H; cbn [for_in repeat]; [now rewrite Nat.add_0_r|].
  unfold rle_zero_step at 1. unfold CHR_ZERO. change (48 =? 48) with true. cbn [negb]. unfold inc_u8.
  destruct (Nat.leb_spec 255 n); [lia|]. cbn [bind]. rewrite IH by lia. do 2 f_equal. lia.
Qed.
Lemma rz_blocks bs out : Forall rz_block bs ->
  for_in (concat (map rz_in bs)) rle_zero_step (0, out) = Ok (0, out ++ concat (map rz_out bs)).
Proof.
  intros H. revert out. induction H as [|[[w k] c] bs Hb HF IH]; intros out; [cbn; now rewrite app_nil_r|].
  destruct Hb as (H1 & H2 & H3). cbn [map concat rz_in rz_out]. rewrite <- !app_assoc, !for_in_app.
  rewrite rz_word by auto. cbn [bind]. rewrite for_in_app, rz_zeros by lia. cbn [bind app for_in].
  change (0 + k) with k.
  unfold rle_zero_step at 1. unfold CHR_ZERO. destruct (Nat.eqb_spec c 48); [easy|]. cbn [negb].
  destruct (Nat.eqb_spec k 0); [lia|]. rewrite sub_ok by lia. cbn [bind]. unfold assert_.
  destruct (Nat.ltb_spec (k - 1) 255); [|lia]. cbn [bind]. rewrite IH. now rewrite <- !app_assoc.
Qed.

(** rle_zero run from the very first byte is the same as the loop started with an empty state *)
Lemma rle_zero_for rd bs fuel : delivers rd bs -> length bs < fuel ->
  rle_zero fuel rd = ('(n, out) <- for_in bs rle_zero_step (0, []) ;;
                      if 0 <? n then Ok (out ++ [CHR_ZERO; n]) else Ok out).
Proof.
  intros HD HF. unfold rle_zero. destruct bs as [|c bs].
  - pose proof (delivers_nil _ HD) as E. destruct (read_char rd 0) as [o p]. simpl in E. subst o. reflexivity.
  - unfold read_char at 1. rewrite (delivers_read0 _ _ _ HD).
    rewrite (delivers_cons rd c bs) by (auto; simpl in HF; lia).
    cbn [for_in]. unfold rle_zero_step at 2. unfold CHR_ZERO. destruct (c =? 48); reflexivity.
Qed.

Lemma rle_zero_ok rd bs w k fuel : let t := concat (map rz_in bs) ++ w ++ repeat 48 k in
  delivers rd t -> length t < fuel -> Forall rz_block bs -> ~ In 48 w -> k <= 255 ->
  rle_zero fuel rd = Ok (concat (map rz_out bs) ++ w ++ (if k =? 0 then [] else [48; k])).
Proof.
  intros t HD HF HB Hw Hk. rewrite (rle_zero_for rd t) by auto. unfold t.
  rewrite !for_in_app, rz_blocks by auto. cbn [bind]. rewrite for_in_app, rz_word by auto. cbn [bind].
  rewrite rz_zeros by lia. cbn [bind]. simpl plus. simpl app.
  destruct (Nat.ltb_spec 0 k), (Nat.eqb_spec k 0); try lia; unfold CHR_ZERO.
  - now rewrite <- app_assoc.
  - now rewrite app_nil_r.
Qed.

(** every string without a run of 256 zeros has such a decomposition; otherwise rle_zero panics *)
Lemma rz_zeros_panic k n out q : n <= 255 -> 255 < n + k ->
  for_in (repeat 48 k ++ q) rle_zero_step (n, out) = Panic.
Proof.
  revert n. induction k as [|k IH]; intros n H1 H2; [lia|]. cbn [for_in repeat app].
  unfold rle_zero_step at 1. unfold CHR_ZERO. change (48 =? 48) with true. cbn [negb]. unfold inc_u8.
  destruct (Nat.leb_spec 255 n); [reflexivity|]. cbn [bind]. apply IH; lia.
Qed.
Lemma span_zero_free (t : str) : exists w r, t = w ++ r /\ ~ In 48 w /\ (r = [] \/ exists r', r = 48 :: r').
Proof.
  induction t as [|c t (w & r & -> & Hw & Hr)]; [exists [], []; auto|].
  destruct (Nat.eq_dec c 48) as [->|Ne].
  - exists [], (48 :: w ++ r). repeat split; auto. right. eauto.
  - exists (c :: w), r. repeat split; auto. intros [E|E]; auto.
Qed.
Lemma span_zeros (t : str) : exists k r, t = repeat 48 k ++ r /\ (r = [] \/ exists c r', r = c :: r' /\ c <> 48).
Proof.
  induction t as [|c t (k & r & -> & Hr)]; [exists 0, []; auto|].
  destruct (Nat.eq_dec c 48) as [->|Ne].
  - exists (S k), r. auto.
  - exists 0, (c :: repeat 48 k ++ r). split; auto. right. eauto.
Qed.
(** the length of a maximal block of zeros somewhere in t *)
Definition long_zero_run (t : str) : Prop := exists p q, t = p ++ repeat 48 256 ++ q.
Lemma rz_decompose t : (exists bs w k, t = concat (map rz_in bs) ++ w ++ repeat 48 k /\
    Forall rz_block bs /\ ~ In 48 w /\ k <= 255) \/
  (long_zero_run t /\ forall out, for_in t rle_zero_step (0, out) = Panic).
Proof.
  remember (length t) as n eqn:Hn. revert t Hn. induction n as [n IH] using lt_wf_ind. intros t ->.
  destruct (span_zero_free t) as (w & r & E & Hw & Hr). destruct Hr as [->|(r' & ->)].
  - left. exists [], w, 0. rewrite E. simpl. repeat split; auto. lia.
  - destruct (span_zeros (48 :: r')) as (k & s & E2 & Hs).
    assert (Hk1 : 1 <= k).
    { destruct k; [|lia]. simpl in E2. destruct Hs as [->|(c & s' & -> & Hc)]; [discriminate|].
      injection E2 as <- _. easy. }
    destruct (Nat.le_gt_cases k 255) as [Hk|Hk].
    + destruct Hs as [->|(c & s' & -> & Hc)].
      * left. exists [], w, k. rewrite E, E2, app_nil_r. auto.
      * destruct (IH (length s')) with (t := s') as [(bs & w' & k' & E3 & H3 & H4 & H5)|(HL & HP)]; auto.
        { rewrite E, E2, !app_length. simpl. lia. }
        -- left. exists ((w, k, c) :: bs), w', k'. split; [|split; [constructor; auto; repeat split; auto; lia|auto]].
           cbn [map concat rz_in]. rewrite E, E2, E3. rewrite <- !app_assoc. reflexivity.
        -- right. split.
           ++ destruct HL as (p & q & ->). exists (w ++ repeat 48 k ++ c :: p), q.
              rewrite E, E2. rewrite <- !app_assoc. cbn [app]. reflexivity.
           ++ intros out. rewrite E, E2. rewrite for_in_app, rz_word by auto. cbn [bind].
              rewrite for_in_app, rz_zeros by lia. cbn [bind for_in].
              unfold rle_zero_step at 1. unfold CHR_ZERO. destruct (Nat.eqb_spec c 48); [easy|]. cbn [negb].
              change (0 + k) with k. destruct (Nat.eqb_spec k 0); [lia|]. rewrite sub_ok by lia. cbn [bind]. unfold assert_.
              destruct (Nat.ltb_spec (k - 1) 255); [|lia]. cbn [bind]. apply HP.
    + right. split.
      * exists w, (repeat 48 (k - 256) ++ s). rewrite E, E2. f_equal. rewrite app_assoc, <- repeat_app.
        do 2 f_equal. lia.
      * intros out. rewrite E, E2, for_in_app, rz_word by auto. cbn [bind]. apply rz_zeros_panic; lia.
Qed.

(** ** escape *)
Lemma build_map_ok a b : length a = length b -> build_map a b = Ok (rev (combine a b)).
Proof.
  intros HL. unfold build_map.
  match goal with |- ?e = Ok ?r => enough (G : okp e (fun x => x = r)) end.
  { destruct G as (x & -> & ->). reflexivity. }
  eapply okp_imp; [eapply (okp_for_range (fun i m => m = rev (combine (firstn i a) (firstn i b)))); [lia|reflexivity|]|].
  - intros i m Hi ->. apply okp_bind, (okp_get _ _ 0); [lia|]. apply okp_bind, (okp_get _ _ 0); [lia|].
    apply okp_ok. rewrite !(firstn_snoc_nth _ _ 0) by lia.
    assert (E : forall (u v u' v' : str), length u = length v -> combine (u ++ u') (v ++ v') = combine u v ++ combine u' v').
    { clear. induction u as [|x u IH]; intros [|y v] u' v' H; simpl in *; try lia; auto. now rewrite IH by lia. }
    rewrite E by (rewrite !firstn_length; lia). simpl. now rewrite rev_app_distr.
  - simpl. intros m ->. rewrite !firstn_all2 by lia. reflexivity.
Qed.

Lemma hm_get_some a b k v : length a = length b -> hm_get (rev (combine a b)) k = Some v ->
  exists i, i < length a /\ nth i a 0 = k /\ nth i b 0 = v.
Proof.
  intros HL H. unfold hm_get in H. destruct (find _ _) as [[x y]|] eqn:E; [|discriminate].
  injection H as H. simpl in H. subst y. apply find_some in E. destruct E as [E1 E2]. simpl in E2. apply Nat.eqb_eq in E2. subst x.
  apply in_rev in E1. apply (In_nth _ _ (0, 0)) in E1. destruct E1 as (i & Hi & E).
  rewrite combine_length in Hi. rewrite combine_nth in E by auto. injection E as <- <-. exists i. split; [lia|auto].
Qed.
Lemma hm_get_none a b k : length a = length b -> (hm_get (rev (combine a b)) k = None <-> ~ In k a).
Proof.
  intros HL. unfold hm_get. destruct (find _ _) as [[x y]|] eqn:E.
  - split; [discriminate|]. intros H. exfalso. apply H. apply find_some in E. destruct E as [E1 E2].
    simpl in E2. apply Nat.eqb_eq in E2. subst x. apply in_rev in E1. now apply in_combine_l in E1.
  - split; [intros _ Hk|auto].
    apply (In_nth _ _ 0) in Hk. destruct Hk as (i & Hi & Ei).
    assert (Hin : In (k, nth i b 0) (rev (combine a b))).
    { apply -> in_rev. rewrite <- Ei. rewrite <- combine_nth by auto. apply nth_In. rewrite combine_length. lia. }
    apply (find_none _ _ E) in Hin. simpl in Hin. rewrite Nat.eqb_refl in Hin. discriminate.
Qed.

(** the code of a single byte *)
Definition esc1 (esc : nat) (m : list (nat * nat)) (c : nat) : str :=
  if c =? esc then [esc; esc] else match hm_get m c with Some r => [esc; r] | None => [c] end.

Lemma escape_fwd_ok rd bs esc m : forall n pos out,
  (forall i, i < length bs -> rd (pos + i) = Byte (nth i bs 0)) ->
  (rd (pos + length bs) = Eof \/ rd (pos + length bs) = IoErr) ->
  escape_fwd n rd pos esc m out = Ok (out ++ flat_map (esc1 esc m) (firstn n bs)).
Proof.
  induction bs as [|c bs IH]; intros n pos out H1 H2; (destruct n as [|n]; [simpl; now rewrite app_nil_r|]).
  - cbn [escape_fwd]. unfold read_char. simpl in H2. rewrite Nat.add_0_r in H2. simpl.
    destruct H2 as [-> | ->]; now rewrite app_nil_r.
  - pose proof (H1 0 ltac:(simpl; lia)) as H0. rewrite Nat.add_0_r in H0. simpl in H0.
    assert (K1 : forall i, i < length bs -> rd (S pos + i) = Byte (nth i bs 0)).
    { intros i Hi. replace (S pos + i) with (pos + S i) by lia. rewrite H1 by (simpl; lia). reflexivity. }
    assert (K2 : rd (S pos + length bs) = Eof \/ rd (S pos + length bs) = IoErr).
    { replace (S pos + length bs) with (pos + length (c :: bs)) by (simpl; lia). exact H2. }
    cbn [escape_fwd firstn flat_map]. unfold read_char. rewrite H0. unfold esc1 at 1.
    destruct (c =? esc).
    + rewrite IH by auto. now rewrite <- app_assoc.
    + destruct (hm_get m c); rewrite IH by auto; now rewrite <- app_assoc.
Qed.

Lemma checks_iff esc from to : escape_checks esc from to = true <->
  length from = length to /\ ~ In esc from /\ ~ In esc to /\ (forall x, In x from -> ~ In x to).
Proof.
  unfold escape_checks. rewrite !andb_true_iff, !negb_true_iff, Nat.eqb_eq.
  assert (E : forall c l, existsb (Nat.eqb c) l = false <-> ~ In c l).
  { intros c l. split.
    - intros H Hi. assert (existsb (Nat.eqb c) l = true); [|congruence].
      apply existsb_exists. exists c. split; auto. apply Nat.eqb_refl.
    - intros H. destruct (existsb (Nat.eqb c) l) eqn:E; auto. exfalso. apply existsb_exists in E.
      destruct E as (x & Hx & E). apply Nat.eqb_eq in E. now subst. }
  rewrite !E. split.
  - intros (((H1 & H2) & H3) & H4). repeat split; auto. intros x Hx Hi.
    assert (existsb (fun i => existsb (Nat.eqb i) to) from = true); [|congruence].
    apply existsb_exists. exists x. split; auto. apply existsb_exists. exists x. split; auto. apply Nat.eqb_refl.
  - intros (H1 & H2 & H3 & H4). repeat split; auto.
    destruct (existsb (fun i => existsb (Nat.eqb i) to) from) eqn:E5; auto. exfalso.
    apply existsb_exists in E5. destruct E5 as (x & Hx & E5). apply existsb_exists in E5.
    destruct E5 as (y & Hy & E5). apply Nat.eqb_eq in E5. subst y. now apply (H4 x).
Qed.

Lemma escape_main_fwd p esc from to rd bs : escape_checks esc from to = true -> delivers rd bs ->
  escape_main p esc from to false rd = Ok (flat_map (esc1 esc (rev (combine from to))) (firstn p bs)).
Proof.
  intros HC [H1 H2]. unfold escape_main. rewrite HC. cbn [assert_ bind].
  apply checks_iff in HC. destruct HC as (HL & _). rewrite build_map_ok by auto. cbn [bind].
  rewrite (escape_fwd_ok rd bs); auto.
Qed.

Lemma escape_no_from p esc from to rd bs out : escape_checks esc from to = true -> delivers rd bs ->
  escape_main p esc from to false rd = Ok out -> forall c, In c from -> ~ In c out.
Proof.
  intros HC HD HE c Hc Hi. rewrite (escape_main_fwd p esc from to rd bs HC HD) in HE. injection HE as <-.
  apply checks_iff in HC. destruct HC as (HL & H1 & H2 & H3).
  apply in_flat_map in Hi. destruct Hi as (y & _ & Hx). unfold esc1 in Hx.
  revert Hx. destruct (Nat.eqb_spec y esc) as [E0|Ne]; [subst y|]; intros Hx.
  - simpl in Hx. destruct Hx as [<-|[<-|[]]]; contradiction.
  - destruct (hm_get (rev (combine from to)) y) as [r|] eqn:E.
    + apply hm_get_some in E; auto. destruct E as (i & Hi & E1 & E2).
      destruct Hx as [<-|[<-|[]]]; [contradiction|]. apply (H3 r Hc). rewrite <- E2. apply nth_In. lia.
    + apply hm_get_none in E; auto. destruct Hx as [<-|[]]. contradiction.
Qed.

Lemma flat_map_esc_read rd esc m c bs pos :
  (forall i, i < length (flat_map (esc1 esc m) (c :: bs)) -> rd (pos + i) = Byte (nth i (flat_map (esc1 esc m) (c :: bs)) 0)) ->
  forall i, i < length (esc1 esc m c) -> rd (pos + i) = Byte (nth i (esc1 esc m c) 0).
Proof.
  intros H i Hi. cbn [flat_map] in H. rewrite H by (rewrite app_length; lia). now rewrite app_nth1.
Qed.

Lemma escape_rev_ok rd esc from to bs : escape_checks esc from to = true ->
  (forall i j, i < length to -> j < length to -> nth i to 0 = nth j to 0 -> nth i from 0 = nth j from 0) ->
  forall n pos out, length bs <= n ->
  (forall i, i < length (flat_map (esc1 esc (rev (combine from to))) bs) ->
     rd (pos + i) = Byte (nth i (flat_map (esc1 esc (rev (combine from to))) bs) 0)) ->
  (let e := pos + length (flat_map (esc1 esc (rev (combine from to))) bs) in rd e = Eof \/ rd e = IoErr) ->
  escape_rev n rd pos esc (rev (combine to from)) out = Ok (out ++ bs).
Proof.
  intros HC Hinj. apply checks_iff in HC. destruct HC as (HL & C1 & C2 & C3).
  set (m := rev (combine from to)).
  induction bs as [|c bs IH]; intros n pos out Hn H1 H2.
  - simpl in H2. rewrite Nat.add_0_r in H2. rewrite app_nil_r. destruct n; [reflexivity|].
    cbn [escape_rev]. unfold read_char. destruct H2 as [-> | ->]; reflexivity.
  - destruct n as [|n]; [simpl in Hn; lia|]. cbn [length] in Hn.
    pose proof (flat_map_esc_read rd esc m c bs pos H1) as HR.
    assert (K1 : forall i, i < length (flat_map (esc1 esc m) bs) ->
       rd (pos + length (esc1 esc m c) + i) = Byte (nth i (flat_map (esc1 esc m) bs) 0)).
    { intros i Hi. cbn [flat_map] in H1. rewrite <- Nat.add_assoc, H1 by (rewrite app_length; lia).
      rewrite app_nth2 by lia. do 2 f_equal. lia. }
    assert (K2 : let e := pos + length (esc1 esc m c) + length (flat_map (esc1 esc m) bs) in rd e = Eof \/ rd e = IoErr).
    { cbn [flat_map] in H2. rewrite app_length in H2. rewrite <- Nat.add_assoc. exact H2. }
    assert (KI : forall out, escape_rev n rd (pos + length (esc1 esc m c)) esc (rev (combine to from)) out = Ok (out ++ bs)).
    { intros o. apply IH; auto. lia. }
    clear IH K1 K2 H1 H2.
    cbn [escape_rev]. unfold read_char. unfold esc1 in HR, KI.
    destruct (Nat.eqb_spec c esc) as [->|Ne].
    + pose proof (HR 0 ltac:(simpl; lia)) as R0. pose proof (HR 1 ltac:(simpl; lia)) as R1.
      rewrite Nat.add_0_r in R0. rewrite Nat.add_1_r in R1. simpl in R0, R1. rewrite R0, R1, Nat.eqb_refl.
      simpl length in KI. replace (pos + 2) with (S (S pos)) in KI by lia. rewrite KI. now rewrite <- app_assoc.
    + destruct (hm_get m c) as [r|] eqn:E.
      * pose proof (HR 0 ltac:(simpl; lia)) as R0. pose proof (HR 1 ltac:(simpl; lia)) as R1.
        rewrite Nat.add_0_r in R0. rewrite Nat.add_1_r in R1. simpl in R0, R1. rewrite R0, R1, Nat.eqb_refl.
        apply hm_get_some in E; auto. destruct E as (i & Hi & E1 & E2).
        assert (Hr : In r to) by (rewrite <- E2; apply nth_In; lia).
        destruct (Nat.eqb_spec r esc) as [->|Nr]; [contradiction|].
        destruct (hm_get (rev (combine to from)) r) as [c'|] eqn:E3.
        2:{ apply hm_get_none in E3; auto. contradiction. }
        apply hm_get_some in E3; auto. destruct E3 as (j & Hj & E4 & E5).
        assert (c' = c). { rewrite <- E5, <- E1. apply Hinj; try lia; congruence. } rewrite H in *. clear H.
        simpl length in KI. replace (pos + 2) with (S (S pos)) in KI by lia. rewrite KI. now rewrite <- app_assoc.
      * pose proof (HR 0 ltac:(simpl; lia)) as R0. rewrite Nat.add_0_r in R0. simpl in R0. rewrite R0.
        destruct (Nat.eqb_spec c esc); [easy|].
        simpl length in KI. replace (pos + 1) with (S pos) in KI by lia. rewrite KI. now rewrite <- app_assoc.
Qed.

Lemma escape_roundtrip p p' esc from to rd rd' bs out : escape_checks esc from to = true ->
  (forall i j, i < length to -> j < length to -> nth i to 0 = nth j to 0 -> nth i from 0 = nth j from 0) ->
  delivers rd bs -> escape_main p esc from to false rd = Ok out -> delivers rd' out ->
  length (firstn p bs) <= p' ->
  escape_main p' esc from to true rd' = Ok (firstn p bs).
Proof.
  intros HC Hinj HD HE [D1 D2] Hp. rewrite (escape_main_fwd p esc from to rd bs HC HD) in HE. injection HE as <-.
  unfold escape_main. rewrite HC. cbn [assert_ bind].
  pose proof HC as HC2. apply checks_iff in HC2. destruct HC2 as (HL & _). rewrite build_map_ok by auto. cbn [bind].
  rewrite (escape_rev_ok rd' esc from to (firstn p bs)); auto.
Qed.

(** ** count_sigma *)
Lemma nodup_snoc_length (t : str) c : length (nodup Nat.eq_dec (t ++ [c])) =
  length (nodup Nat.eq_dec t) + (if in_dec Nat.eq_dec c t then 0 else 1).
Proof.
  assert (P : Permutation (nodup Nat.eq_dec (t ++ [c])) (nodup Nat.eq_dec (c :: t))).
  { apply NoDup_Permutation; try apply NoDup_nodup. intros x. rewrite !nodup_In, in_app_iff. simpl. tauto. }
  rewrite (Permutation_length P). simpl. destruct (in_dec Nat.eq_dec c t); simpl; lia.
Qed.

Lemma count_sigma_for t : bytes t -> length (nodup Nat.eq_dec t) <= 255 ->
  okp (count_sigma t) (fun n => n = length (nodup Nat.eq_dec t)).
Proof.
  intros HB HN. unfold count_sigma. apply okp_bind.
  eapply okp_imp; [eapply (okp_for_list (fun p '(inc, al) =>
     inc = length (nodup Nat.eq_dec p) /\ length al = 256 /\ forall c, c < 256 -> (nth c al 0 <> 0 <-> In c p)))|].
  - split; [reflexivity|]. split; [reflexivity|]. intros c Hc. split.
    + intros H. exfalso. apply H. apply nth_repeat.
    + intros [].
  - intros p c q [inc al] E (-> & HA & HI).
    assert (Hc : c < 256). { unfold bytes in HB. rewrite Forall_forall in HB. apply HB. rewrite E, in_app_iff. right. now left. }
    assert (Hle : length (nodup Nat.eq_dec (p ++ [c])) <= 255).
    { etransitivity; [|exact HN]. apply NoDup_incl_length; [apply NoDup_nodup|].
      intros x. rewrite !nodup_In, E, !in_app_iff. simpl. tauto. }
    rewrite nodup_snoc_length in Hle. apply okp_bind, (okp_get _ _ 0); [lia|].
    destruct (Nat.eqb_spec (nth c al 0) 0) as [Z|Z].
    + destruct (in_dec Nat.eq_dec c p) as [Hin|Hn]; [apply HI in Hin; [contradiction|auto]|].
      apply okp_bind. unfold inc_u8. destruct (Nat.leb_spec 255 (length (nodup Nat.eq_dec p))); [lia|].
      apply okp_ok, okp_bind, okp_set; [lia|]. apply okp_ok. rewrite nodup_snoc_length.
      destruct (in_dec Nat.eq_dec c p); [contradiction|]. split; [auto|]. rewrite upd_length. split; [auto|].
      intros d Hd. rewrite in_app_iff. simpl. destruct (Nat.eq_dec c d) as [<-|Ne].
      * rewrite nth_upd_eq by lia. split; [auto|lia].
      * rewrite nth_upd_ne by auto. rewrite HI by auto. intuition.
    + apply okp_ok. rewrite nodup_snoc_length. apply HI in Z; auto. destruct (in_dec Nat.eq_dec c p); [|contradiction].
      split; [lia|]. split; [auto|]. intros d Hd. rewrite HI by auto. rewrite in_app_iff. simpl. split; [auto|].
      intros [H|[<-|[]]]; auto.
  - intros [inc al] (-> & _). now apply okp_ok.
Qed.

Lemma count_sigma_panic t : bytes t -> 255 < length (nodup Nat.eq_dec t) -> count_sigma t = Panic.
Proof.
  intros HB HN.
  (* shortest prefix with 256 distinct bytes *)
  assert (G : exists p c q, t = p ++ c :: q /\ length (nodup Nat.eq_dec p) = 255 /\ ~ In c p).
  { assert (K : forall l p, length (nodup Nat.eq_dec p) <= 255 -> 255 < length (nodup Nat.eq_dec (p ++ l)) ->
       exists l1 c q, l = l1 ++ c :: q /\ length (nodup Nat.eq_dec (p ++ l1)) = 255 /\ ~ In c (p ++ l1)).
    { clear. induction l as [|c l IH]; intros p H1 H2; [rewrite app_nil_r in H2; lia|].
      destruct (Nat.le_gt_cases (length (nodup Nat.eq_dec (p ++ [c]))) 255) as [H|H].
      - destruct (IH (p ++ [c])) as (l1 & d & q & -> & E1 & E2); auto; [now rewrite <- app_assoc|].
        exists (c :: l1), d, q. rewrite <- app_assoc in E1, E2. auto.
      - rewrite nodup_snoc_length in H. destruct (in_dec Nat.eq_dec c p); [lia|].
        exists [], c, l. rewrite app_nil_r. split; auto. split; [lia|auto]. }
    destruct (K t []) as (p & c & q & E & H1 & H2); [simpl; lia|auto|]. exists p, c, q. auto. }
  destruct G as (p & c & q & -> & HP & Hc).
  assert (Hcb : c < 256). { unfold bytes in HB. rewrite Forall_forall in HB. apply HB. rewrite in_app_iff. right. now left. }
  assert (HBp : bytes p) by (apply Forall_app in HB; apply HB).
  assert (G : okp (for_in p (fun c '(inc, al) =>
     v <- get al c ;;
     if v =? 0 then inc' <- inc_u8 inc ;; al' <- set al c inc' ;; Ok (inc', al')
     else Ok (inc, al)) (0, repeat 0 256)) (fun '(inc, al) => inc = 255 /\ length al = 256 /\ nth c al 0 = 0)).
  { eapply okp_imp; [eapply (okp_for_list (fun p '(inc, al) =>
     inc = length (nodup Nat.eq_dec p) /\ length al = 256 /\ forall c, c < 256 -> (nth c al 0 <> 0 <-> In c p)))|].
    - split; [reflexivity|]. split; [reflexivity|]. intros d Hd. split.
      + intros H. exfalso. apply H. apply nth_repeat.
      + intros [].
    - intros p' c' q' [inc al] E (-> & HA & HI).
      assert (Hc' : c' < 256). { unfold bytes in HBp. rewrite Forall_forall in HBp. apply HBp. rewrite E, in_app_iff. right. now left. }
      assert (Hle : length (nodup Nat.eq_dec (p' ++ [c'])) <= 255).
      { rewrite <- HP. apply NoDup_incl_length; [apply NoDup_nodup|].
        intros x. rewrite !nodup_In, E, !in_app_iff. simpl. tauto. }
      rewrite nodup_snoc_length in Hle. apply okp_bind, (okp_get _ _ 0); [lia|].
      destruct (Nat.eqb_spec (nth c' al 0) 0) as [Z|Z].
      + destruct (in_dec Nat.eq_dec c' p') as [Hin|Hn]; [apply HI in Hin; [contradiction|auto]|].
        apply okp_bind. unfold inc_u8. destruct (Nat.leb_spec 255 (length (nodup Nat.eq_dec p'))); [lia|].
        apply okp_ok, okp_bind, okp_set; [lia|]. apply okp_ok. rewrite nodup_snoc_length.
        destruct (in_dec Nat.eq_dec c' p'); [contradiction|]. split; [auto|]. rewrite upd_length. split; [auto|].
        intros d Hd. rewrite in_app_iff. simpl. destruct (Nat.eq_dec c' d) as [<-|Ne].
        * rewrite nth_upd_eq by lia. split; [auto|lia].
        * rewrite nth_upd_ne by auto. rewrite HI by auto. intuition.
      + apply okp_ok. rewrite nodup_snoc_length. apply HI in Z; auto. destruct (in_dec Nat.eq_dec c' p'); [|contradiction].
        split; [lia|]. split; [auto|]. intros d Hd. rewrite HI by auto. rewrite in_app_iff. simpl. split; [auto|].
        intros [H|[<-|[]]]; auto.
    - intros [inc al] (-> & HA & HI). split; auto. split; auto.
      destruct (Nat.eq_dec (nth c al 0) 0); auto. exfalso. apply Hc. now apply HI. }
  destruct G as ([inc al] & E & -> & HA & HZ). unfold count_sigma.
  erewrite for_in_panic_at; [reflexivity|exact E|]. cbv beta iota. rewrite (get_ok _ _ 0) by lia. cbn [bind]. rewrite HZ. reflexivity.
Qed.

(** ** files and stdin *)
Lemma file_ok content p : file_or_stdin2byte_vector true content p =
  Ok (if 0 <? p then firstn p content else content).
Proof.
  unfold file_or_stdin2byte_vector, file2byte_vector. destruct (Nat.ltb_spec 0 p).
  - destruct (Nat.leb_spec (Nat.min p (length content)) (length content)); [|lia].
    f_equal. destruct (Nat.le_gt_cases p (length content)).
    + now rewrite Nat.min_l.
    + rewrite Nat.min_r by lia. now rewrite !firstn_all2 by lia.
  - rewrite Nat.leb_refl. now rewrite firstn_all.
Qed.
Lemma stdin_ok content p : p <= length content -> file_or_stdin2byte_vector false content p =
  file_or_stdin2byte_vector true content p.
Proof.
  intros H. rewrite file_ok. unfold file_or_stdin2byte_vector, stdin2byte_vector.
  destruct (Nat.ltb_spec 0 p); auto. destruct (Nat.leb_spec p (length content)); [auto|lia].
Qed.
Lemma stdin_panic content p : length content < p -> file_or_stdin2byte_vector false content p = Panic.
Proof.
  intros H. unfold file_or_stdin2byte_vector, stdin2byte_vector.
  destruct (Nat.ltb_spec 0 p); [|lia]. destruct (Nat.leb_spec p (length content)); [lia|auto].
Qed.
Lemma file_shrunk_panic content metalen p : length content < metalen -> (p = 0 \/ length content < p) ->
  file2byte_vector content metalen p = Panic.
Proof.
  intros H1 H2. unfold file2byte_vector. destruct (Nat.ltb_spec 0 p).
  - destruct (Nat.leb_spec (Nat.min p metalen) (length content)); [lia|auto].
  - destruct (Nat.leb_spec metalen (length content)); [lia|auto].
Qed.
