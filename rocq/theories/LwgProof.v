(** LwgProof.v : [LyndonWordGenerator] enumerates the Lyndon words in order. *)
From Verif Require Import Base SpecStr LexFacts ModelCore PermFacts SortFacts DuvalProof LyndonProof.

Definition over (sigma : nat) (w : str) : Prop := Forall (fun c => c < sigma) w.

(** every non-empty prefix of a Lyndon word has a Lyndon period, and the next letter is not
    smaller than the periodic continuation *)
Lemma lyndon_prefix_lynper w k : lyndon w -> 1 <= k <= length w ->
  exists p, lynper (firstn k w) p /\ (k < length w -> nth (k - p) w 0 <= nth k w 0).
Proof.
  intros HL. pose proof HL as HLi. apply lyndon_idx in HLi. destruct HLi as [_ Hidx].
  assert (Hstep : forall k p, k < length w -> lynper (firstn k w) p -> nth (k - p) w 0 <= nth k w 0).
  { clear k. intros k p Hk HP. pose proof HP as (Hp & _ & Hper).
    rewrite firstn_length_le in Hp, Hper by lia.
    destruct (Nat.le_gt_cases (nth (k - p) w 0) (nth k w 0)) as [|G]; auto. exfalso.
    destruct (Hidx p ltac:(lia)) as (y & H1 & H2 & H3).
    assert (Hq : forall x, x < k - p -> nth (p + x) w 0 = nth x w 0).
    { intros x Hx. specialize (Hper x ltac:(lia)). rewrite !nth_firstn in Hper by lia.
      rewrite <- Hper. f_equal. lia. }
    destruct (Nat.lt_trichotomy y (k - p)) as [Lt|[E|Gt]].
    - rewrite (Hq y Lt) in H3. lia.
    - subst y. replace (p + (k - p)) with k in H3 by lia. lia.
    - specialize (H2 (k - p) Gt). replace (p + (k - p)) with k in H2 by lia. lia. }
  intros Hk.
  assert (Hex : exists p, lynper (firstn k w) p).
  { induction k as [|k IH]; [lia|].
    destruct k as [|k].
    - exists 1. destruct w as [|a w]; [simpl in Hk; lia|]. simpl. apply lynper_single.
    - destruct IH as (p & HP); [lia|].
      pose proof HP as (Hp & _ & _). rewrite firstn_length_le in Hp by lia.
      specialize (Hstep (S k) p ltac:(lia) HP).
      assert (Ex : nth (length (firstn (S k) w) - p) (firstn (S k) w) 0 = nth (S k - p) w 0).
      { rewrite firstn_length_le by lia. now rewrite nth_firstn by lia. }
      rewrite (firstn_snoc_nth w (S k) 0) by lia.
      destruct (Nat.eq_dec (nth (S k - p) w 0) (nth (S k) w 0)) as [E|E].
      + exists p. apply lynper_same; [exact HP|]. now rewrite Ex.
      + assert (HL2 : lyndon (firstn (S k) w ++ [nth (S k) w 0])).
        { apply (lyndon_extend _ p); [exact HP|]. rewrite Ex. lia. }
        exists (S (S k)). set (u := firstn (S k) w ++ [nth (S k) w 0]) in *.
        assert (Lu : length u = S (S k)).
        { unfold u. rewrite app_length, firstn_length_le by lia. simpl. lia. }
        split; [lia|]. split; [now rewrite firstn_all2 by lia|]. intros x Hx. lia. }
  destruct Hex as (p & HP). exists p. split; [exact HP|]. intros Hk2. now apply Hstep.
Qed.

(** increasing the last letter of a prefix of a power of a Lyndon word gives a Lyndon word *)
Lemma bump_lyndon w x k c : lyndon w -> (forall i, i < length x -> nth i x 0 = nth (i mod length w) w 0) ->
  k < length x -> nth k x 0 < c -> lyndon (firstn k x ++ [c]).
Proof.
  intros HL Hx Hk Hc. pose proof (lyndon_length _ HL) as Hp.
  destruct k as [|k]; [apply lyndon_single|].
  destruct (Nat.le_gt_cases (length w) (S k)) as [Le|Gt].
  - apply (lyndon_extend _ (length w)).
    + split; [rewrite firstn_length_le; lia|]. split.
      * rewrite firstn_firstn, Nat.min_l by lia.
        replace (firstn (length w) x) with w; [exact HL|].
        apply (nth_ext_len _ _ 0); [rewrite firstn_length_le; lia|].
        intros i Hi. rewrite nth_firstn, Hx by lia. now rewrite Nat.mod_small by lia.
      * intros i Hi. rewrite firstn_length_le in Hi by lia. rewrite !nth_firstn by lia.
        rewrite !Hx by lia. f_equal. replace (i + length w) with (i + 1 * length w) by lia.
        now rewrite Nat.mod_add by lia.
    + rewrite firstn_length_le by lia. rewrite nth_firstn by lia. rewrite Hx by lia.
      rewrite Hx in Hc by lia.
      replace (S k) with ((S k - length w) + 1 * length w) in Hc by lia.
      rewrite Nat.mod_add in Hc by lia. exact Hc.
  - assert (E : firstn (S k) x = firstn (S k) w).
    { apply (nth_ext_len _ _ 0); [rewrite !firstn_length_le; lia|].
      intros i Hi. rewrite firstn_length_le in Hi by lia. rewrite !nth_firstn by lia.
      rewrite Hx by lia. now rewrite Nat.mod_small by lia. }
    rewrite E. rewrite Hx, Nat.mod_small in Hc by lia.
    destruct (lyndon_prefix_lynper w (S k) HL ltac:(lia)) as (p & HP & Hn).
    specialize (Hn ltac:(lia)). apply (lyndon_extend _ p); [exact HP|].
    pose proof HP as (Hp' & _ & _). rewrite firstn_length_le in * by lia.
    rewrite nth_firstn by lia. lia.
Qed.

(** no Lyndon word of length <= |x| lies strictly between w and the first mismatch with x *)
Lemma lyndon_after w x v : lyndon w -> length w <= length x ->
  (forall i, i < length x -> nth i x 0 = nth (i mod length w) w 0) ->
  lyndon v -> length v <= length x -> lex_lt w v ->
  exists z, z < length v /\ z < length x /\ (forall i, i < z -> nth i v 0 = nth i x 0) /\ nth z x 0 < nth z v 0.
Proof.
  intros HL Hwx Hx HLv Hvx Hlt. pose proof (lyndon_length _ HL) as Hp.
  set (p := length w) in *.
  assert (Hper : forall i, i + p < length x -> nth (i + p) x 0 = nth i x 0).
  { intros i Hi. rewrite !Hx by lia. f_equal. replace (i + p) with (i + 1 * p) by lia.
    now rewrite Nat.mod_add by lia. }
  assert (Hpre : forall i, i < p -> nth i x 0 = nth i w 0).
  { intros i Hi. rewrite Hx by lia. now rewrite Nat.mod_small by lia. }
  apply lyndon_idx in HLv. destruct HLv as [_ HLv].
  destruct (lex_lt_total v x) as [H|[H|H]].
  - destruct (lex_lt_cases _ _ H) as [(s & Hs & E)|(z & H1 & H2 & H3 & H4)].
    + (* v is a prefix of x *)
      exfalso. assert (Hn : forall i, i < length v -> nth i v 0 = nth i x 0).
      { intros i Hi. rewrite E, app_nth1 by lia. reflexivity. }
      destruct (Nat.le_gt_cases (length v) p) as [Lv|Gv].
      * apply (lex_lt_irrefl w). eapply lex_lt_le_trans; [exact Hlt|].
        replace v with (firstn (length v) w).
        { rewrite <- (firstn_skipn (length v) w) at 2. apply lex_le_prefix. }
        apply (nth_ext_len _ _ 0); [rewrite firstn_length_le; unfold p in *; lia|].
        intros i Hi. rewrite firstn_length_le in Hi by (unfold p in *; lia).
        rewrite nth_firstn by lia. rewrite Hn by lia. symmetry. apply Hpre. lia.
      * destruct (HLv p ltac:(lia)) as (y & Hy1 & _ & Hy3).
        rewrite !Hn in Hy3 by lia. rewrite Nat.add_comm, Hper in Hy3 by lia. lia.
    + exfalso. destruct (Nat.lt_ge_cases z p) as [Lz|Gz].
      * apply (lex_lt_asym _ _ Hlt). apply (lex_lt_mismatch _ _ z); auto.
        -- intros i Hi. rewrite H3 by lia. apply Hpre. lia.
        -- rewrite <- Hpre by lia. exact H4.
      * destruct (HLv p ltac:(lia)) as (y & Hy1 & Hy2 & Hy3).
        assert (Hq : forall i, i < z - p -> nth (p + i) v 0 = nth i v 0).
        { intros i Hi. rewrite !H3 by lia. rewrite Nat.add_comm. apply Hper. lia. }
        assert (Hz : nth z x 0 = nth (z - p) v 0).
        { rewrite H3 by lia. replace z with ((z - p) + p) at 1 by lia. apply Hper. lia. }
        destruct (Nat.lt_trichotomy y (z - p)) as [Lt|[E|Gt]].
        -- rewrite Hq in Hy3 by lia. lia.
        -- subst y. replace (p + (z - p)) with z in Hy3 by lia. lia.
        -- specialize (Hy2 (z - p) Gt). replace (p + (z - p)) with z in Hy2 by lia. lia.
  - (* v = x: a full prefix *)
    exfalso. subst v. destruct (Nat.eq_dec (length x) p) as [E|E].
    + apply (lex_lt_irrefl w). replace x with w in Hlt; [exact Hlt|].
      apply (nth_ext_len _ _ 0); [unfold p in *; lia|].
      intros i Hi. symmetry. apply Hpre. exact Hi.
    + destruct (HLv p ltac:(lia)) as (y & Hy1 & _ & Hy3). rewrite Nat.add_comm, Hper in Hy3 by lia. lia.
  - destruct (lex_lt_cases _ _ H) as [(s & Hs & E)|(z & H1 & H2 & H3 & H4)].
    + exfalso. apply (f_equal (@length nat)) in E. rewrite app_length in E. destruct s; [easy|simpl in E; lia].
    + exists z. repeat split; auto. intros i Hi. symmetry. auto.
Qed.

(** ** the loops of [next] *)
Lemma lwg_fill_ok n w : 0 < length w <= n ->
  okp (lwg_fill n (length w) w) (fun x => length x = n /\
     forall i, i < n -> nth i x 0 = nth (i mod length w) w 0).
Proof.
  intros Hw. unfold lwg_fill.
  eapply (okp_loop (fun st => length w <= length st <= n /\
     forall i, i < length st -> nth i st 0 = nth (i mod length w) w 0) (fun st => n - length st)).
  2:{ split; [lia|]. intros i Hi. now rewrite Nat.mod_small by lia. }
  2:{ lia. }
  intros st (Hl & Hst). cbv beta.
  destruct (Nat.ltb_spec (length st) n) as [Lt|Ge].
  - apply okp_bind, okp_sub; [lia|]. apply okp_bind, (okp_get _ _ 0); [lia|].
    apply okp_ok. rewrite app_length. simpl. split; [split; [lia|]|lia].
    intros i Hi. destruct (Nat.eq_dec i (length st)) as [->|Ne].
    + rewrite app_nth2, Nat.sub_diag by lia. simpl. rewrite Hst by lia. f_equal.
      replace (length st) with ((length st - length w) + 1 * length w) at 2 by lia.
      now rewrite Nat.mod_add by lia.
    + rewrite app_nth1 by lia. apply Hst. lia.
  - apply okp_ok. split; [lia|]. intros i Hi. apply Hst. lia.
Qed.

Lemma lwg_trim_ok sigma x : 0 < sigma ->
  okp (lwg_trim sigma x) (fun y => exists m, x = y ++ repeat (sigma - 1) m /\
     (y = [] \/ exists y' c, y = y' ++ [c] /\ c <> sigma - 1)).
Proof.
  intros Hs. unfold lwg_trim.
  eapply (okp_loop (fun st => exists m, x = st ++ repeat (sigma - 1) m) (@length nat)).
  2:{ exists 0. simpl. now rewrite app_nil_r. }
  2:{ lia. }
  intros st (m & E). destruct (rev st) as [|c r] eqn:Er.
  - apply okp_ok. exists m. split; [exact E|]. left.
    apply (f_equal (@rev nat)) in Er. now rewrite rev_involutive in Er.
  - assert (Est : st = rev r ++ [c]).
    { apply (f_equal (@rev nat)) in Er. now rewrite rev_involutive in Er. }
    apply okp_bind, okp_sub; [lia|].
    destruct (Nat.eqb_spec c (sigma - 1)) as [->|Ne].
    + apply okp_ok. split.
      * exists (S m). rewrite E, Est, <- app_assoc. reflexivity.
      * rewrite Est, app_length. simpl. lia.
    + apply okp_ok. exists m. split; [exact E|]. right. exists (rev r), c. auto.
Qed.

(** one call of [next] from a state holding a valid Lyndon word *)
Definition valid (n sigma : nat) (w : str) : Prop := lyndon w /\ length w <= n /\ over sigma w.

Lemma over_nth sigma w i : over sigma w -> i < length w -> nth i w 0 < sigma.
Proof. intros H Hi. unfold over in H. rewrite Forall_forall in H. apply H. now apply nth_In. Qed.

Lemma over_intro sigma w : (forall i, i < length w -> nth i w 0 < sigma) -> over sigma w.
Proof.
  intros H. apply Forall_forall. intros c Hc. destruct (In_nth w c 0 Hc) as (i & Hi & <-). auto.
Qed.

Lemma lwg_next_step n sigma w : 1 <= n -> 1 <= sigma <= 256 -> valid n sigma w ->
  (exists w', lwg_next (LWG n sigma w) = Ok (Some w', LWG n sigma w') /\ valid n sigma w' /\
      lex_lt w w' /\ forall v, valid n sigma v -> lex_lt w v -> lex_le w' v) \/
  (lwg_next (LWG n sigma w) = Ok (None, LWG 0 sigma []) /\ forall v, valid n sigma v -> ~ lex_lt w v).
Proof.
  intros Hn Hs (HL & Hlen & Hov). pose proof (lyndon_length _ HL) as Hp.
  destruct (lwg_fill_ok n w ltac:(lia)) as (x & Ex & Lx & Hx).
  destruct (lwg_trim_ok sigma x ltac:(lia)) as (y & Ey & m & Exy & Hy).
  unfold lwg_next. simpl lwg_length. simpl lwg_stack. simpl lwg_sigma.
  destruct (Nat.eqb_spec n 0) as [E0|_]; [lia|].
  destruct w as [|w0 w1] eqn:Ew; [simpl in Hp; lia|]. rewrite <- Ew in *.
  rewrite Ex. cbn [bind]. rewrite Ey. cbn [bind].
  assert (Hxov : over sigma x).
  { apply over_intro. intros i Hi. rewrite Hx by lia. apply over_nth; [exact Hov|].
    apply Nat.mod_upper_bound. lia. }
  assert (Hafter : forall v, valid n sigma v -> lex_lt w v ->
    exists z, z < length v /\ z < length x /\ (forall i, i < z -> nth i v 0 = nth i x 0) /\ nth z x 0 < nth z v 0).
  { intros v (HLv & Hlv & _) Hwv. apply (lyndon_after w x v); auto; try lia.
    intros i Hi. apply Hx. lia. }
  assert (Hz : forall v z, valid n sigma v -> z < length v -> z < length x -> nth z x 0 < nth z v 0 -> z < length y).
  { intros v z (_ & _ & Hv) H1 H2 H3. destruct (Nat.lt_ge_cases z (length y)) as [|G]; auto. exfalso.
    rewrite Exy in H3. rewrite app_nth2 in H3 by lia.
    assert (Hr : nth (z - length y) (repeat (sigma - 1) m) 0 = sigma - 1).
    { rewrite Exy, app_length, repeat_length in H2. apply nth_repeat || idtac.
      rewrite (nth_indep _ 0 (sigma - 1)) by (rewrite repeat_length; lia). apply nth_repeat. }
    rewrite Hr in H3. pose proof (over_nth _ _ z Hv H1). lia. }
  destruct Hy as [->|(y' & c & -> & Hc)].
  - right. simpl. split; [reflexivity|]. intros v Hv Hwv.
    destruct (Hafter v Hv Hwv) as (z & H1 & H2 & _ & H4).
    specialize (Hz v z Hv H1 H2 H4). simpl in Hz. lia.
  - left. rewrite rev_app_distr. simpl rev. cbn [app].
    assert (Lxy : length y' < length x).
    { rewrite Exy, !app_length. simpl. lia. }
    assert (Ec : nth (length y') x 0 = c).
    { rewrite Exy, <- app_assoc, app_nth2, Nat.sub_diag by lia. reflexivity. }
    assert (Hcs : c < sigma - 1).
    { pose proof (over_nth _ _ (length y') Hxov Lxy). lia. }
    destruct (Nat.leb_spec 255 c) as [G|_]; [lia|].
    rewrite rev_involutive. exists (y' ++ [c + 1]). split; [reflexivity|].
    assert (Ey' : firstn (length y') x = y').
    { rewrite Exy, <- app_assoc, firstn_app, Nat.sub_diag, firstn_all. simpl. apply app_nil_r. }
    assert (Hyn : forall i, i < length y' -> nth i y' 0 = nth i x 0).
    { intros i Hi. rewrite <- Ey' at 1. apply nth_firstn. lia. }
    split; [split; [|split]|split].
    + rewrite <- Ey'. apply (bump_lyndon w); auto; try lia. intros i Hi. apply Hx. lia.
    + rewrite app_length. simpl. lia.
    + apply Forall_app. split.
      * apply over_intro. intros i Hi. rewrite Hyn by lia. apply over_nth; [exact Hxov|lia].
      * constructor; [lia|constructor].
    + destruct (Nat.le_gt_cases (length w) (length y')) as [Le|Gt].
      * replace w with (firstn (length w) y').
        { rewrite <- (firstn_skipn (length w) y') at 2. rewrite <- app_assoc. apply lex_lt_prefix.
          destruct (skipn (length w) y'); easy. }
        apply (nth_ext_len _ _ 0); [rewrite firstn_length_le; lia|].
        intros i Hi. rewrite firstn_length_le in Hi by lia. rewrite nth_firstn, Hyn, Hx by lia.
        now rewrite Nat.mod_small by lia.
      * apply (lex_lt_mismatch _ _ (length y')); rewrite ?app_length; simpl; try lia.
        -- intros i Hi. rewrite app_nth1, Hyn, Hx by lia. now rewrite Nat.mod_small by lia.
        -- rewrite app_nth2, Nat.sub_diag by lia. simpl.
           rewrite Hx, Nat.mod_small in Ec by lia. lia.
    + intros v Hv Hwv. destruct (Hafter v Hv Hwv) as (z & H1 & H2 & H3 & H4).
      specialize (Hz v z Hv H1 H2 H4). rewrite app_length in Hz. simpl in Hz.
      destruct (Nat.eq_dec z (length y')) as [->|Nz].
      * destruct (Nat.eq_dec (nth (length y') v 0) (c + 1)) as [E|E].
        -- replace (y' ++ [c + 1]) with (firstn (S (length y')) v).
           { rewrite <- (firstn_skipn (S (length y')) v) at 2. apply lex_le_prefix. }
           rewrite (firstn_snoc_nth v _ 0) by lia. rewrite E. f_equal.
           apply (nth_ext_len _ _ 0); [rewrite firstn_length_le; lia|].
           intros i Hi. rewrite firstn_length_le in Hi by lia. rewrite nth_firstn by lia.
           rewrite H3 by lia. symmetry. now apply Hyn.
        -- right. apply (lex_lt_mismatch _ _ (length y')); rewrite ?app_length; simpl; try lia.
           ++ intros i Hi. rewrite app_nth1, Hyn by lia. symmetry. now apply H3.
           ++ rewrite app_nth2, Nat.sub_diag by lia. simpl. lia.
      * right. apply (lex_lt_mismatch _ _ z); rewrite ?app_length; simpl; try lia.
        -- intros i Hi. rewrite app_nth1, Hyn by lia. symmetry. now apply H3.
        -- rewrite app_nth1, Hyn by lia. exact H4.
Qed.

(** ** all words of a bounded length *)
Fixpoint words_len (sigma k : nat) : list str :=
  match k with
  | O => [[]]
  | S k' => flat_map (fun c => map (cons c) (words_len sigma k')) (seq 0 sigma)
  end.
Lemma words_len_In sigma k w : In w (words_len sigma k) <-> length w = k /\ over sigma w.
Proof.
  revert w. induction k as [|k IH]; intros w; simpl.
  - split.
    + intros [<-|[]]. split; [reflexivity|constructor].
    + intros [H _]. left. now destruct w.
  - rewrite in_flat_map. split.
    + intros (c & Hc & Hw). apply in_map_iff in Hw. destruct Hw as (u & <- & Hu).
      apply IH in Hu. destruct Hu as [Hl Hu]. apply in_seq in Hc. simpl.
      split; [lia|]. constructor; [lia|exact Hu].
    + intros [Hl Hw]. destruct w as [|c u]; [easy|]. inversion Hw; subst.
      exists c. split; [apply in_seq; lia|]. apply in_map_iff. exists u. split; auto.
      apply IH. simpl in Hl. auto.
Qed.
Definition words_upto (sigma n : nat) : list str := flat_map (words_len sigma) (seq 0 (S n)).
Lemma words_upto_In sigma n w : In w (words_upto sigma n) <-> length w <= n /\ over sigma w.
Proof.
  unfold words_upto. rewrite in_flat_map. split.
  - intros (k & Hk & Hw). apply in_seq in Hk. apply words_len_In in Hw. split; [lia|tauto].
  - intros [Hl Hw]. exists (length w). split; [apply in_seq; lia|]. apply words_len_In. auto.
Qed.

Lemma filter_length_mono {A} (f g : A -> bool) l :
  (forall x, f x = true -> g x = true) -> length (filter f l) <= length (filter g l).
Proof.
  intros H. induction l as [|x l IH]; simpl; auto.
  destruct (f x) eqn:Ef.
  - rewrite (H x Ef). simpl. lia.
  - destruct (g x); simpl; lia.
Qed.
Lemma filter_length_lt {A} (f g : A -> bool) l x :
  (forall x, f x = true -> g x = true) -> In x l -> f x = false -> g x = true ->
  length (filter f l) < length (filter g l).
Proof.
  intros H. induction l as [|y l IH]; intros Hin Hf Hg; [easy|].
  simpl in Hin. destruct Hin as [->|Hin].
  - simpl. rewrite Hf, Hg. simpl. pose proof (filter_length_mono f g l H). lia.
  - specialize (IH Hin Hf Hg). simpl. destruct (f y) eqn:Ef.
    + rewrite (H y Ef). simpl. lia.
    + destruct (g y); simpl; lia.
Qed.

Definition gtb (w v : str) : bool := match slice_cmp w v with Lt => true | _ => false end.
Lemma gtb_true w v : gtb w v = true <-> lex_lt w v.
Proof. unfold gtb. rewrite <- slice_cmp_lt. destruct (slice_cmp w v); easy. Qed.

Lemma lwg_none_forever sigma k : calls lwg_next k (LWG 0 sigma []) = Ok (repeat None k).
Proof. induction k as [|k IH]; [reflexivity|]. simpl. rewrite IH. reflexivity. Qed.

Lemma yields_cons {A} (x : A) L k : yields (x :: L) (S k) = Some x :: yields L k.
Proof. reflexivity. Qed.
Lemma yields_nil {A} k : yields (@nil A) k = repeat None k.
Proof. unfold yields. simpl. rewrite firstn_nil, Nat.sub_0_r. reflexivity. Qed.

Lemma lwg_tail n sigma w : 1 <= n -> 1 <= sigma <= 256 -> valid n sigma w ->
  exists L, StronglySorted lex_lt (w :: L) /\ (forall v, In v L <-> valid n sigma v /\ lex_lt w v) /\
   forall k, calls lwg_next k (LWG n sigma w) = Ok (yields L k).
Proof.
  intros Hn Hs.
  remember (length (filter (gtb w) (words_upto sigma n))) as m eqn:Em.
  revert w Em. induction m as [m IH] using lt_wf_ind. intros w -> Hw.
  destruct (lwg_next_step n sigma w Hn Hs Hw) as [(w' & E & Hw' & Hlt & Hnext)|(E & Hno)].
  - assert (Hdec : length (filter (gtb w') (words_upto sigma n)) < length (filter (gtb w) (words_upto sigma n))).
    { apply (filter_length_lt _ _ _ w').
      - intros v Hv. apply gtb_true in Hv. apply gtb_true. eapply lex_lt_trans; eauto.
      - apply words_upto_In. destruct Hw' as (_ & H1 & H2). auto.
      - destruct (gtb w' w') eqn:G; auto. apply gtb_true, lex_lt_irrefl in G. easy.
      - now apply gtb_true. }
    destruct (IH _ Hdec w' eq_refl Hw') as (L & HS & HIn & Hc).
    exists (w' :: L). split; [|split].
    + constructor; [exact HS|]. inversion HS as [|? ? _ HF]; subst. constructor; [exact Hlt|].
      rewrite Forall_forall in HF |- *. intros v Hv. eapply lex_lt_trans; eauto.
    + intros v. simpl. rewrite HIn. split.
      * intros [<-|[H1 H2]]; split; auto. eapply lex_lt_trans; eauto.
      * intros [H1 H2]. destruct (Hnext v H1 H2) as [->|H3]; auto.
    + intros [|k]; [reflexivity|]. simpl calls. rewrite E. cbn [bind]. rewrite Hc. cbn [bind].
      now rewrite yields_cons.
  - exists []. split; [repeat constructor|]. split.
    + intros v. simpl. split; [easy|]. intros [H1 H2]. exact (Hno v H1 H2).
    + intros [|k]; [reflexivity|]. simpl calls. rewrite E. cbn [bind].
      rewrite lwg_none_forever. cbn [bind]. rewrite yields_nil. reflexivity.
Qed.

Lemma lwg_correct n sigma : 1 <= n -> 1 <= sigma <= 256 ->
  exists L, StronglySorted lex_lt L /\
   (forall w, In w L <-> lyndon w /\ length w <= n /\ Forall (fun c => c < sigma) w) /\
   forall k, calls lwg_next k (lwg_new n sigma) = Ok (yields L k).
Proof.
  intros Hn Hs.
  assert (H0 : valid n sigma [0]).
  { split; [apply lyndon_single|]. split; [simpl; lia|]. constructor; [lia|constructor]. }
  destruct (lwg_tail n sigma [0] Hn Hs H0) as (L & HS & HIn & Hc).
  exists ([0] :: L). split; [exact HS|]. split.
  - intros v. simpl. rewrite HIn. fold (over sigma v). fold (valid n sigma v). split.
    + intros [<-|[H _]]; auto.
    + intros Hv. destruct (lex_lt_total [0] v) as [H|[H|H]]; auto.
      exfalso. pose proof Hv as ((Hne & _) & _). destruct v as [|x v]; [easy|].
      inversion H; subst; [lia|]. match goal with HH : lex_lt _ [] |- _ => inversion HH end.
  - intros [|k]; [reflexivity|]. simpl calls. unfold lwg_next at 1. simpl lwg_length.
    destruct (Nat.eqb_spec n 0) as [E|_]; [lia|]. cbn [lwg_stack lwg_new bind].
    change (lwg_sigma (lwg_new n sigma)) with sigma. rewrite Hc. cbn [bind].
    now rewrite yields_cons.
Qed.

Lemma lwg_zero_length sigma k : calls lwg_next k (lwg_new 0 sigma) = Ok (repeat None k).
Proof. apply lwg_none_forever. Qed.
