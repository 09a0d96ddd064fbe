(** LzProof.v : LZ77 factorization (count_z), greedy minimality, decoding. *)
From Verif Require Import Base SpecStr LexFacts ModelCore PermFacts SortFacts LcpProof ModelLz SpecLz.
From Coq Require Import NArith.

Lemma lcpv_compose t a b c l1 l2 : a <= length t -> b <= length t -> c <= length t ->
  lex_le (skipn a t) (skipn b t) -> lex_le (skipn b t) (skipn c t) ->
  lcpv t a b l1 -> lcpv t b c l2 -> lcpv t a c (Nat.min l1 l2).
Proof.
  intros Ha Hb Hc L1 L2 H1 H2. split.
  - apply (agree_trans t a b c); [apply (agree_le _ _ _ l1); [apply H1|lia]|apply (agree_le _ _ _ l2); [apply H2|lia]].
  - intros A B E.
    assert (G : agree t a c (S (Nat.min l1 l2))).
    { pose proof (agree_trans t a b c (Nat.min l1 l2)
        (agree_le _ _ _ l1 _ (proj1 H1) (Nat.le_min_l _ _)) (agree_le _ _ _ l2 _ (proj1 H2) (Nat.le_min_r _ _))) as (G1 & G2 & G3).
      split; [lia|]. split; [lia|]. intros x Hx. destruct (Nat.eq_dec x (Nat.min l1 l2)) as [->|]; auto.
      apply G3. lia. }
    destruct (agree_sandwich t a b c _ Ha Hb Hc L1 L2 G) as [G1 G2].
    pose proof (lcpv_max _ _ _ _ _ H1 G1). pose proof (lcpv_max _ _ _ _ _ H2 G2). lia.
Qed.

Lemma rmq_ok lcp q r : q < r < length lcp ->
  rmq lcp (q + 1) (r + 1) = Ok (fold_left Nat.min (firstn (r - q - 1) (skipn (q + 2) lcp)) (nth (q + 1) lcp 0)).
Proof.
  intros H. unfold rmq. destruct (Nat.leb_spec (r + 1) (length lcp)); [|lia].
  rewrite (skipn_cons_nth lcp (q + 1) 0) by lia.
  replace (r + 1 - (q + 1)) with (S (r - q - 1)) by lia. cbn [firstn].
  do 4 f_equal. lia.
Qed.

Lemma lex_le_lt u v : lex_lt u v -> lex_le u v.
Proof. now right. Qed.

Lemma rmq_lcp t sa lcp : is_suffix_array t sa -> length lcp = length t ->
  (forall r, 0 < r < length t -> lcpv t (nth (r - 1) sa 0) (nth r sa 0) (nth r lcp 0)) ->
  forall q r, q < r < length t -> exists m, rmq lcp (q + 1) (r + 1) = Ok m /\
    lcpv t (nth q sa 0) (nth r sa 0) m.
Proof.
  intros HSA Ll Hl q r. pose proof HSA as (HP & _). induction r as [|r IH]; intros H; [lia|].
  assert (Hlt : forall i, i < length t -> nth i sa 0 <= length t).
  { intros i Hi. apply Nat.lt_le_incl. now apply is_perm_nth. }
  rewrite rmq_ok by lia. eexists. split; [reflexivity|].
  destruct (Nat.eq_dec q r) as [->|Ne].
  - replace (S r - r - 1) with 0 by lia. simpl. specialize (Hl (S r) ltac:(lia)).
    replace (S r - 1) with r in Hl by lia. now replace (r + 1) with (S r) by lia.
  - destruct (IH ltac:(lia)) as (m & Em & Hm). rewrite rmq_ok in Em by lia. injection Em as Em.
    replace (S r - q - 1) with (S (r - q - 1)) by lia.
    rewrite (firstn_snoc_nth _ _ 0) by (rewrite skipn_length; lia). rewrite fold_left_app, Em, nth_skipn.
    cbn [fold_left]. replace (q + 2 + (r - q - 1)) with (S r) by lia.
    apply (lcpv_compose _ _ (nth r sa 0)); auto; try (apply Hlt; lia); try (apply lex_le_lt, (sa_lt t sa); auto; lia).
    specialize (Hl (S r) ltac:(lia)). now replace (S r - 1) with r in Hl by lia.
Qed.

(** the longest previous factor through psv / nsv *)
Definition prev_ok (t : str) (sa : list nat) (i : nat) (before : nat -> Prop) (v : N) (l : nat) : Prop :=
  (forall j l', j < i -> before j -> agree t j i l' -> l' <= l) /\
  (0 < l -> nth (N.to_nat v) sa 0 < i /\ N.to_nat v < length sa /\ agree t (nth (N.to_nat v) sa 0) i l).

Section Lpf.
Context (t : str) (sa isa lcp : list nat) (psv nsv : list N).
Context (Hn : (N.of_nat (length t) < 2^32)%N) (HSA : is_suffix_array t sa)
  (HPi : is_perm (length t) isa)
  (Hi1 : forall i, i < length t -> nth (nth i sa 0) isa 0 = i)
  (Hi2 : forall j, j < length t -> nth (nth j isa 0) sa 0 = j)
  (Ll : length lcp = length t)
  (Hl : forall r, 0 < r < length t -> lcpv t (nth (r - 1) sa 0) (nth r sa 0) (nth r lcp 0))
  (Lp : length psv = length sa) (Hp : forall i, i < length sa -> is_psv sa i (nth i psv 0%N))
  (Lv : length nsv = length sa) (Hv : forall i, i < length sa -> is_nsv sa i (nth i nsv 0%N)).

Let Lsa : length sa = length t.
Proof. destruct HSA as (HP & _). now apply is_perm_length. Qed.
Let sale : forall i, i < length t -> nth i sa 0 <= length t.
Proof. intros i Hi. apply Nat.lt_le_incl. destruct HSA as (HP & _). now apply is_perm_nth. Qed.
Let isalt : forall i, i < length t -> nth i isa 0 < length t.
Proof. intros i Hi. now apply is_perm_nth. Qed.

Lemma lex_le_rank a b : a <= b < length t -> lex_le (skipn (nth a sa 0) t) (skipn (nth b sa 0) t).
Proof.
  intros H. destruct (Nat.eq_dec a b) as [->|]; [apply lex_le_refl|]. apply lex_le_lt.
  apply (sa_lt t sa); auto. lia.
Qed.

Lemma invalid_no p : p < length t -> (N.of_nat p =? INVALID_VALUE)%N = false.
Proof. intros Hp'. apply N.eqb_neq. unfold INVALID_VALUE. change (2^32)%N with 4294967296%N in Hn. lia. Qed.

Lemma lz_prev_ok i : i < length t ->
  exists l, lz_prev_lcp lcp psv (nth i isa 0) = Ok l /\
    prev_ok t sa i (fun j => nth j isa 0 < nth i isa 0) (nth (nth i isa 0) psv 0%N) l.
Proof.
  intros Hi. unfold lz_prev_lcp. pose proof (isalt i Hi). set (r := nth i isa 0) in *.
  rewrite (get_ok psv r 0%N) by lia. cbn [bind].
  assert (Er : nth r sa 0 = i) by (unfold r; auto).
  destruct (Hp r ltac:(lia)) as [(E & Hno)|(p & E & Hpr & Hlt & Hbet)].
  - rewrite E, N.eqb_refl. exists 0. split; [reflexivity|]. split; [|lia]. intros j l' Hj Hb _.
    specialize (Hno _ Hb). rewrite Hi2, Er in Hno by lia. lia.
  - rewrite E, (invalid_no p) by lia. rewrite Nat2N.id.
    destruct (Nat.ltb_spec p r); [|lia]. cbn [assert_ bind].
    destruct (rmq_lcp t sa lcp HSA Ll Hl p r ltac:(lia)) as (m & Em & Hm). exists m. split; [exact Em|].
    split.
    + intros j l' Hj Hb Ha.
      assert (Hjp : nth j isa 0 <= p).
      { destruct (Nat.le_gt_cases (nth j isa 0) p); auto. specialize (Hbet (nth j isa 0) ltac:(lia)).
        rewrite Hi2, Er in Hbet by lia. lia. }
      assert (S1 : agree t (nth p sa 0) i l').
      { rewrite <- Er. rewrite <- (Hi2 j) in Ha by lia. rewrite <- Er in Ha.
        eapply (agree_sandwich t (nth (nth j isa 0) sa 0) (nth p sa 0) (nth r sa 0)); auto;
          try (apply sale; lia); apply lex_le_rank; lia. }
      rewrite <- Er in S1. exact (lcpv_max _ _ _ _ _ Hm S1).
    + intros _. rewrite Nat2N.id. split; [lia|]. split; [lia|]. rewrite <- Er. apply Hm.
Qed.

Lemma lz_next_ok i : i < length t ->
  exists l, lz_next_lcp lcp nsv (nth i isa 0) = Ok l /\
    prev_ok t sa i (fun j => nth i isa 0 < nth j isa 0) (nth (nth i isa 0) nsv 0%N) l.
Proof.
  intros Hi. unfold lz_next_lcp. pose proof (isalt i Hi). set (r := nth i isa 0) in *.
  rewrite (get_ok nsv r 0%N) by lia. cbn [bind].
  assert (Er : nth r sa 0 = i) by (unfold r; auto).
  destruct (Hv r ltac:(lia)) as [(E & Hno)|(p & E & Hpr & Hlt & Hbet)].
  - rewrite E, N.eqb_refl. exists 0. split; [reflexivity|]. split; [|lia]. intros j l' Hj Hb _.
    pose proof (isalt j ltac:(lia)).
    specialize (Hno (nth j isa 0) ltac:(lia)). rewrite Hi2, Er in Hno by lia. lia.
  - rewrite E, (invalid_no p) by lia. rewrite Nat2N.id.
    destruct (Nat.ltb_spec r p); [|lia]. cbn [assert_ bind].
    destruct (rmq_lcp t sa lcp HSA Ll Hl r p ltac:(lia)) as (m & Em & Hm). exists m. split; [exact Em|].
    split.
    + intros j l' Hj Hb Ha. pose proof (isalt j ltac:(lia)).
      assert (Hjp : p <= nth j isa 0).
      { destruct (Nat.le_gt_cases p (nth j isa 0)); auto. specialize (Hbet (nth j isa 0) ltac:(lia)).
        rewrite Hi2, Er in Hbet by lia. lia. }
      assert (S1 : agree t i (nth p sa 0) l').
      { rewrite <- Er. rewrite <- (Hi2 j) in Ha by lia. rewrite <- Er in Ha. apply agree_sym in Ha.
        eapply (agree_sandwich t (nth r sa 0) (nth p sa 0) (nth (nth j isa 0) sa 0)); auto;
          try (apply sale; lia); apply lex_le_rank; lia. }
      rewrite <- Er in S1. exact (lcpv_max _ _ _ _ _ Hm S1).
    + intros _. rewrite Nat2N.id. split; [lia|]. split; [lia|]. rewrite <- Er. apply agree_sym, Hm.
Qed.

(** a parsing prefix: the factors parse [a, b) *)
Fixpoint parse_upto (a b : nat) (fs : list lzfactor) : Prop :=
  match fs with
  | [] => a = b
  | f :: fs' => a < length t /\ is_lz77_factor t a f /\ parse_upto (a + Nat.max 1 (lz_len f)) b fs'
  end.
Lemma parse_upto_snoc fs : forall a b f, parse_upto a b fs -> b < length t -> is_lz77_factor t b f ->
  parse_upto a (b + Nat.max 1 (lz_len f)) (fs ++ [f]).
Proof.
  induction fs as [|g fs IH]; cbn [parse_upto app]; intros a b f H Hb Hf.
  - subst. repeat (split; [assumption|]). reflexivity.
  - destruct H as (H1 & H2 & H3). repeat (split; [assumption|]). now apply IH.
Qed.
Lemma parse_upto_all fs : forall a, parse_upto a (length t) fs -> is_lz77_parsing t a fs.
Proof. induction fs as [|f fs IH]; simpl; intros a H; auto. destruct H as (H1 & H2 & H3). auto. Qed.

Lemma isa_trich i j : i < length t -> j < i -> nth j isa 0 < nth i isa 0 \/ nth i isa 0 < nth j isa 0.
Proof.
  intros Hi Hj. destruct (Nat.lt_trichotomy (nth j isa 0) (nth i isa 0)) as [?|[E|?]]; auto.
  apply (is_perm_inj (length t) isa) in E; auto; lia.
Qed.

Lemma compute_lz77_ok : exists fs, compute_lz77 t sa isa lcp nsv psv = Ok fs /\ is_lz77_parsing t 0 fs.
Proof.
  enough (G : okp (compute_lz77 t sa isa lcp nsv psv) (is_lz77_parsing t 0)) by exact G.
  unfold compute_lz77.
  apply (okp_loop (fun '(i, fs) => i <= length t /\ parse_upto 0 i fs) (fun '(i, _) => length t - i)).
  2: { split; [lia|reflexivity]. }
  2: { lia. }
  intros (i, fs) (Hi & HP). destruct (Nat.ltb_spec i (length t)) as [Lt|Ge].
  2: { apply okp_ok. assert (i = length t) by lia. subst i. now apply parse_upto_all. }
  apply okp_bind, (okp_get _ _ 0); [now rewrite (is_perm_length _ _ HPi)|].
  pose proof (isalt i Lt) as Hr.
  destruct (lz_prev_ok i Lt) as (pl & Epl & Mp & Op). destruct (lz_next_ok i Lt) as (nl & Enl & Mn & On).
  rewrite Epl. cbn [bind]. rewrite Enl. cbn [bind].
  assert (Mall : forall j l', j < i -> agree t j i l' -> l' <= Nat.max pl nl).
  { intros j l' Hj Ha. destruct (isa_trich i j Lt Hj) as [B|B].
    - specialize (Mp j l' Hj B Ha). lia.
    - specialize (Mn j l' Hj B Ha). lia. }
  assert (Hstep : forall f, is_lz77_factor t i f -> i + Nat.max 1 (lz_len f) <= length t ->
     (i + Nat.max 1 (lz_len f) <= length t /\ parse_upto 0 (i + Nat.max 1 (lz_len f)) (fs ++ [f])) /\
     length t - (i + Nat.max 1 (lz_len f)) < length t - i).
  { intros f Hf Hle. split; [split; [lia|]|lia]. now apply parse_upto_snoc. }
  destruct ((pl =? 0) && (nl =? 0)) eqn:E0.
  - apply andb_prop in E0. destruct E0 as [E1 E2]. apply Nat.eqb_eq in E1, E2. subst pl nl.
    apply okp_bind, (okp_get _ _ 0); [exact Lt|]. apply okp_ok.
    apply (Hstep (LZ (nth i t 0) 0)); [|simpl; lia]. left. simpl. split; [reflexivity|]. split; [reflexivity|].
    intros j Hj E. specialize (Mall j 1 Hj). assert (agree t j i 1); [|specialize (Mall H); lia].
    split; [lia|]. split; [lia|]. intros x Hx. replace x with 0 by lia. now rewrite !Nat.add_0_r.
  - assert (Hpos : 0 < Nat.max pl nl).
    { destruct (Nat.eqb_spec pl 0), (Nat.eqb_spec nl 0); simpl in E0; try discriminate; lia. }
    assert (Hfin : forall v l, l = Nat.max pl nl -> nth (N.to_nat v) sa 0 < i /\ N.to_nat v < length sa /\ agree t (nth (N.to_nat v) sa 0) i l ->
       okp (max_pos <- get sa (N.to_nat v) ;; assert_ (max_pos <? i) ;;; d <- sub_ i max_pos ;;
            Ok (Cont (B := list lzfactor) (i + l, fs ++ [LZ d l])))
       (fun c => match c with
          | Cont s' => (let '(i, fs) := s' in i <= length t /\ parse_upto 0 i fs) /\
             (let '(i0, _) := s' in length t - i0) < length t - i
          | Brk b => is_lz77_parsing t 0 b end)).
    { intros v l El (V1 & V2 & V3). apply okp_bind, (okp_get _ _ 0); [exact V2|].
      apply okp_bind, okp_assert; [now apply Nat.ltb_lt|]. apply okp_bind, okp_sub; [lia|]. apply okp_ok.
      set (d := i - nth (N.to_nat v) sa 0).
      pose proof (Hstep (LZ d l)) as Hs. cbn [lz_len] in Hs. replace (Nat.max 1 l) with l in Hs by lia.
      apply Hs.
      - right. cbn [lz_len lz_pos]. split; [lia|]. split; [unfold d; lia|]. split.
        + unfold d. replace (i - (i - nth (N.to_nat v) sa 0)) with (nth (N.to_nat v) sa 0) by lia. exact V3.
        + intros j l' Hj Ha. rewrite El. now apply (Mall j).
      - destruct V3; lia. }
    destruct (Nat.ltb_spec pl nl) as [C|C].
    + rewrite (get_ok nsv _ 0%N) by lia. cbn [bind]. apply Hfin; [lia|]. apply On. lia.
    + rewrite (get_ok psv _ 0%N) by lia. cbn [bind]. apply Hfin; [lia|]. apply Op. lia.
Qed.
End Lpf.

(** decoding *)
Lemma decode_copy t i d l : 1 <= d <= i -> same_substring t (i - d) i l ->
  for_in (range 0 l) (fun p text => x <- get text (i - d + p) ;; Ok (text ++ [x])) (firstn i t) = Ok (firstn (i + l) t).
Proof.
  intros Hd (H1 & H2 & H3).
  enough (G : okp (for_in (range 0 l) (fun p text => x <- get text (i - d + p) ;; Ok (text ++ [x])) (firstn i t))
    (fun text => text = firstn (i + l) t)) by (destruct G as (? & -> & ->); reflexivity).
  apply (okp_for_range (fun p text => text = firstn (i + p) t)); [lia|now rewrite Nat.add_0_r|].
  intros p text Hp ->. apply okp_bind, (okp_get _ _ 0); [rewrite firstn_length; lia|]. apply okp_ok.
  rewrite nth_firstn by lia. rewrite H3 by lia. replace (i + S p) with (S (i + p)) by lia.
  symmetry. apply firstn_snoc_nth. lia.
Qed.

Lemma decode_parsing t : Forall (fun x => x < 256) t -> forall fs i, is_lz77_parsing t i fs ->
  for_in fs (fun f text =>
    if lz_len f =? 0 then Ok (text ++ [lz_pos f mod 256])
    else ref_pos <- sub_ (length text) (lz_pos f) ;;
         for_in (range 0 (lz_len f)) (fun p text =>
            x <- get text (ref_pos + p) ;; Ok (text ++ [x])) text) (firstn i t) = Ok t.
Proof.
  intros HB. induction fs as [|f fs IH]; intros i H; cbn [for_in is_lz77_parsing] in *.
  - subst i. now rewrite firstn_all.
  - destruct H as (Hi & [(E0 & E1 & _)|(P0 & P1 & P2 & _)] & H3).
    + rewrite E0 in *. cbn [Nat.eqb]. cbn [bind]. rewrite E1, Nat.mod_small.
      2: { rewrite Forall_forall in HB. apply HB, nth_In. exact Hi. }
      rewrite <- (firstn_snoc_nth t i 0 Hi). replace (S i) with (i + Nat.max 1 0) by (simpl; lia). now apply IH.
    + destruct (Nat.eqb_spec (lz_len f) 0); [lia|]. rewrite firstn_length, Nat.min_l by lia.
      rewrite sub_ok by lia. cbn [bind]. rewrite (decode_copy t i (lz_pos f) (lz_len f)) by auto. cbn [bind].
      replace (lz_len f) with (Nat.max 1 (lz_len f)) at 1 by lia. now apply IH.
Qed.

Theorem decode_lz77_ok t fs : Forall (fun x => x < 256) t -> is_lz77_parsing t 0 fs -> decode_lz77 fs = Ok t.
Proof. intros HB H. unfold decode_lz77. exact (decode_parsing t HB fs 0 H). Qed.

Lemma count_z_ok sort t : (forall t, is_suffix_array t (sort t)) -> t <> [] ->
  Forall (fun x => x < 256) t -> (N.of_nat (length t) < 2^32)%N ->
  exists fs, count_z_main sort t = Ok fs /\ is_lz77_parsing t 0 fs /\ decode_lz77 fs = Ok t.
Proof.
  intros Hs Hne HB Hn. specialize (Hs t). unfold count_z_main. set (sa := sort t) in *. clearbody sa.
  pose proof Hs as (HP & _). pose proof (is_perm_length _ _ HP) as Lsa.
  destruct (inverse_permutation_spec _ _ HP) as (isa & -> & HPi & Hi1 & Hi2). cbn [bind].
  assert (Hsne : sa <> []) by (intros ->; destruct t; [easy|discriminate]).
  destruct (compute_psv_correct sa Hsne) as (psv & -> & Lp & Hp); [now rewrite Lsa|]. cbn [bind].
  destruct (compute_nsv_correct sa Hsne) as (nsv & -> & Lv & Hv); [now rewrite Lsa|]. cbn [bind].
  destruct (lcp_structures t sa Hne Hs) as (phi & plcp & lcp & -> & E2 & E3 & _ & Ll & _ & Hl & _).
  cbn [bind]. rewrite E2. cbn [bind]. rewrite E3. cbn [bind].
  destruct (compute_lz77_ok t sa isa lcp psv nsv Hn Hs HPi Hi2 Ll) as (fs & -> & Hfs); auto.
  { intros r Hr. apply lcpv_is_lcp; [| |now apply Hl]; apply Nat.lt_le_incl, is_perm_nth; auto; lia. }
  cbn [bind]. rewrite (decode_lz77_ok t fs HB Hfs). cbn [bind].
  destruct (list_eq_dec Nat.eq_dec t t); [|easy]. cbn [assert_ bind].
  exists fs. split; [reflexivity|]. split; [exact Hfs|]. now apply decode_lz77_ok.
Qed.

(** greedy minimality *)
Lemma same_shift t j i l x : same_substring t j i l -> x <= l -> same_substring t (j + x) (i + x) (l - x).
Proof.
  intros (H1 & H2 & H3) Hx. split; [lia|]. split; [lia|]. intros y Hy.
  rewrite <- !Nat.add_assoc. apply H3. lia.
Qed.
Lemma greedy_min t fs : forall i' , is_lz77_parsing t i' fs -> forall k i, i <= i' -> i' <= length t -> parsable t i k -> length fs <= k.
Proof.
  induction fs as [|f fs IH]; intros i' H k i Hi Hi' Hp; simpl; [lia|].
  cbn [is_lz77_parsing] in H. destruct H as (Hlt & Hf & Hrest).
  assert (Hnext : i' + Nat.max 1 (lz_len f) <= length t).
  { destruct Hf as [(E & _)|(P0 & P1 & (_ & P2 & _) & _)]; [rewrite E; simpl; lia|lia]. }
  induction Hp as [|i k Hi1 Hp IHp|i j l k Hj Hl1 Hs Hp IHp].
  - lia.
  - destruct (Nat.eq_dec i i') as [->|Ne].
    + apply le_n_S. apply (IH _ Hrest k (i' + 1)); auto. lia.
    + specialize (IHp ltac:(lia)). lia.
  - destruct (Nat.le_gt_cases (i + l) i') as [C|C].
    + specialize (IHp C). lia.
    + apply le_n_S. apply (IH _ Hrest k (i + l)); auto.
      pose proof (same_shift t j i l (i' - i) Hs ltac:(lia)) as Hs'.
      replace (i + (i' - i)) with i' in Hs' by lia.
      destruct Hf as [(E & E1 & Hno)|(P0 & P1 & P2 & Hmax)].
      * exfalso. destruct Hs' as (S1 & S2 & S3). apply (Hno (j + (i' - i))); [lia|].
        specialize (S3 0 ltac:(lia)). now rewrite !Nat.add_0_r in S3.
      * specialize (Hmax (j + (i' - i)) (l - (i' - i)) ltac:(lia) Hs'). lia.
Qed.

(** a parsing of k factors exists: the greedy one *)
Lemma parsing_parsable t fs : forall i, is_lz77_parsing t i fs -> parsable t i (length fs).
Proof.
  induction fs as [|f fs IH]; intros i H; cbn [is_lz77_parsing length] in *.
  - subst. constructor.
  - destruct H as (Hi & [(E & _)|(P0 & P1 & P2 & _)] & H).
    + rewrite E in H. apply parse_literal; auto.
    + apply (parse_copy t i (i - lz_pos f) (lz_len f)); auto; try lia.
      replace (lz_len f) with (Nat.max 1 (lz_len f)) by lia. auto.
Qed.
(** factor boundaries and lengths are determined by the text *)
Lemma parsing_unique_lens t fs : forall gs i, is_lz77_parsing t i fs -> is_lz77_parsing t i gs ->
  map lz_len fs = map lz_len gs.
Proof.
  induction fs as [|f fs IH]; intros [|g gs] i H G; cbn [is_lz77_parsing map] in *; auto.
  - lia.
  - lia.
  - destruct H as (Hi & Hf & H), G as (_ & Hg & G).
    assert (E : lz_len f = lz_len g).
    { destruct Hf as [(E & E1 & Hno)|(P0 & P1 & P2 & Hmax)], Hg as [(E' & E1' & Hno')|(P0' & P1' & P2' & Hmax')].
      - congruence.
      - exfalso. destruct P2' as (S1 & S2 & S3). apply (Hno (i - lz_pos g)); [lia|]. specialize (S3 0 P0').
        now rewrite !Nat.add_0_r in S3.
      - exfalso. destruct P2 as (S1 & S2 & S3). apply (Hno' (i - lz_pos f)); [lia|]. specialize (S3 0 P0).
        now rewrite !Nat.add_0_r in S3.
      - apply Nat.le_antisymm.
        + apply (Hmax' (i - lz_pos f)); auto; lia.
        + apply (Hmax (i - lz_pos g)); auto; lia. }
    rewrite E in *. f_equal. now apply (IH _ (i + Nat.max 1 (lz_len g))).
Qed.
