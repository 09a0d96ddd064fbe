(** SubCount.v : how many different substrings a text has, against its attractors and its LZ77 factors *)
From Verif Require Import Base SpecStr ModelLz SpecLz SpecAttr SpecSub.

Lemma in_substrings m s w : In w (substrings m s) <-> exists i, i + m <= length s /\ w = firstn m (skipn i s).
Proof.
  unfold substrings. rewrite in_map_iff. split.
  - intros (i & <- & H). apply in_seq in H. exists i. split; [lia|reflexivity].
  - intros (i & H & ->). exists i. split; [reflexivity|]. apply in_seq. lia.
Qed.
Lemma sub_length m (s : str) i : i + m <= length s -> length (firstn m (skipn i s)) = m.
Proof. intros H. rewrite firstn_length, skipn_length. lia. Qed.
Lemma sub_same s j i l : same_substring s j i l -> firstn l (skipn j s) = firstn l (skipn i s).
Proof.
  intros (A & B & C). apply (nth_ext_len _ _ 0); [now rewrite !sub_length by lia|].
  intros x Hx. rewrite sub_length in Hx by lia. rewrite !nth_firstn, !nth_skipn by lia. now apply C.
Qed.
Lemma same_sub s j i l : j + l <= length s -> i + l <= length s -> firstn l (skipn j s) = firstn l (skipn i s) -> same_substring s j i l.
Proof.
  intros A B E. split; [exact A|]. split; [exact B|]. intros x Hx.
  transitivity (nth x (firstn l (skipn j s)) 0); [now rewrite nth_firstn, nth_skipn by lia|].
  rewrite E. now rewrite nth_firstn, nth_skipn by lia.
Qed.

(** ** attractors *)
Lemma attractor_complexity s A m : string_attractor s A -> 1 <= m -> distinct m s <= m * length A.
Proof.
  intros H Hm. unfold distinct.
  set (places := flat_map (fun a => seq (a + 1 - m) m) A).
  assert (L : length places = m * length A).
  { unfold places. clear H. induction A as [|a A IH]; cbn [flat_map length]; [lia|]. rewrite app_length, seq_length, IH. lia. }
  rewrite <- L, <- (map_length (fun i => firstn m (skipn i s)) places).
  apply NoDup_incl_length; [apply NoDup_nodup|]. intros w Hw. apply nodup_In, in_substrings in Hw. destruct Hw as (i & Hi & ->).
  destruct (H i m Hm Hi) as (j & a & HS & Ha & Hj). apply in_map_iff. exists j. split; [now apply sub_same|].
  apply in_flat_map. exists a. split; [exact Ha|]. apply in_seq. lia.
Qed.

(** ** the alphabet bounds the number of substrings *)
Fixpoint all_words (l : list nat) (m : nat) : list str :=
  match m with O => [[]] | S m' => flat_map (fun c => map (cons c) (all_words l m')) l end.
Lemma all_words_length l m : length (all_words l m) = length l ^ m.
Proof.
  induction m as [|m IH]; cbn [all_words]; [reflexivity|].
  assert (G : forall q, length (flat_map (fun c => map (cons c) (all_words l m)) q) = length q * length l ^ m).
  { induction q as [|c q IQ]; cbn [flat_map length]; [reflexivity|]. rewrite app_length, map_length, IH, IQ. cbn [Nat.mul]. lia. }
  rewrite G. cbn [Nat.pow]. lia.
Qed.
Lemma in_all_words l w : Forall (fun c => In c l) w -> In w (all_words l (length w)).
Proof.
  induction 1 as [|c w Hc Hw IH]; cbn [all_words length]; [now left|].
  apply in_flat_map. exists c. split; [exact Hc|]. now apply in_map.
Qed.
Lemma distinct_sigma m s : distinct m s <= length (nodup Nat.eq_dec s) ^ m.
Proof.
  unfold distinct. rewrite <- all_words_length. apply NoDup_incl_length; [apply NoDup_nodup|].
  intros w Hw. apply nodup_In, in_substrings in Hw. destruct Hw as (i & Hi & ->).
  pose proof (in_all_words (nodup Nat.eq_dec s) (firstn m (skipn i s))) as G. rewrite sub_length in G by lia. apply G.
  apply Forall_forall. intros c Hc. apply nodup_In.
  rewrite <- (firstn_skipn i s). apply in_or_app. right.
  rewrite <- (firstn_skipn m (skipn i s)). apply in_or_app. now left.
Qed.
Lemma distinct_places m s : distinct m s <= length s + 1 - m.
Proof.
  unfold distinct. etransitivity.
  - apply NoDup_incl_length; [apply NoDup_nodup|]. intros w Hw. apply nodup_In in Hw. exact Hw.
  - unfold substrings. now rewrite map_length, seq_length.
Qed.

(** ** LZ77 *)
Section LZ.
  Context (t : str).
  (** the string of a factor and the letter behind it *)
  Definition fresh (i l : nat) : str := firstn (S l) (skipn i t).
  Lemma factor_fresh i f : is_lz77_factor t i f -> i + Nat.max 1 (lz_len f) < length t ->
    forall j, j < i -> firstn (S (Nat.max 1 (lz_len f))) (skipn j t) <> fresh i (Nat.max 1 (lz_len f)).
  Proof.
    intros HF HL j Hj E. unfold fresh in E. apply same_sub in E; [|lia|lia].
    destruct HF as [(L0 & _ & N)|(L0 & P & Sm & M)].
    - destruct E as (_ & _ & E). apply (N j Hj). specialize (E 0 ltac:(lia)). now rewrite !Nat.add_0_r in E.
    - specialize (M j _ Hj E). lia.
  Qed.
  (** places and lengths of the factors *)
  Fixpoint places (i : nat) (fs : list lzfactor) : list (nat * nat) :=
    match fs with [] => [] | f :: fs' => (i, Nat.max 1 (lz_len f)) :: places (i + Nat.max 1 (lz_len f)) fs' end.
  Lemma places_length fs : forall i, length (places i fs) = length fs.
  Proof. induction fs as [|f fs IH]; intros i; cbn [places length]; [reflexivity|now rewrite IH]. Qed.
  Lemma places_sum fs : forall i, is_lz77_parsing t i fs -> i + list_sum (map snd (places i fs)) = length t.
  Proof.
    induction fs as [|f fs IH]; intros i H; cbn [is_lz77_parsing places map list_sum fold_right snd] in *; [lia|].
    destruct H as (_ & _ & H). specialize (IH _ H). unfold list_sum in IH. lia.
  Qed.
  (** all but the last factor *)
  Definition inner (p : nat * nat) : bool := fst p + snd p <? length t.
  Lemma inner_count fs : forall i, is_lz77_parsing t i fs -> length fs <= S (length (filter inner (places i fs))).
  Proof.
    induction fs as [|f fs IH]; intros i H; cbn [is_lz77_parsing places length filter] in *; [lia|].
    destruct H as (_ & _ & H). pose proof (IH _ H) as G. unfold inner at 1. cbn [fst snd].
    destruct (Nat.ltb_spec (i + Nat.max 1 (lz_len f)) (length t)) as [Hlt|Hge]; cbn [length]; [lia|].
    destruct fs as [|g fs]; [cbn [length]; lia|]. exfalso. cbn [is_lz77_parsing] in H. destruct H as (H & _). lia.
  Qed.
  Lemma places_ge fs : forall i, is_lz77_parsing t i fs -> Forall (fun p => i <= fst p /\ 1 <= snd p) (places i fs).
  Proof.
    induction fs as [|f fs IH]; intros i H; cbn [is_lz77_parsing places] in *; [constructor|].
    destruct H as (_ & _ & H). constructor; [cbn [fst snd]; lia|]. eapply Forall_impl; [|exact (IH _ H)]. intros [a b]; cbn [fst snd]. lia.
  Qed.
  Lemma short_bound l fs : forall i, is_lz77_parsing t i fs ->
    NoDup (map (fun p => fresh (fst p) (snd p)) (filter (fun p => inner p && (snd p <? l)) (places i fs))).
  Proof.
    induction fs as [|f fs IH]; intros i H; cbn [is_lz77_parsing places filter] in *; [constructor|].
    destruct H as (Hi & HF & H). pose proof (places_ge _ _ H) as HG. pose proof (IH _ H) as G.
    destruct (inner (i, Nat.max 1 (lz_len f)) && (snd (i, Nat.max 1 (lz_len f)) <? l)) eqn:E; [|exact G].
    cbn [map]. constructor; [|exact G]. cbn [fst snd]. rewrite in_map_iff. intros ([j m] & E' & Hj). cbn [fst snd] in E'.
    apply filter_In in Hj. destruct Hj as (Hj & Hb). apply andb_true_iff in E, Hb. destruct E as (E1 & _), Hb as (B1 & _).
    unfold inner in E1, B1. cbn [fst snd] in E1, B1. apply Nat.ltb_lt in E1, B1.
    assert (Lm : m = Nat.max 1 (lz_len f)).
    { apply (f_equal (@length nat)) in E'. unfold fresh in E'. rewrite !sub_length in E' by lia. lia. }
    rewrite Forall_forall in HG. pose proof (HG _ Hj) as (G1 & G2). cbn [fst snd] in G1, G2.
    (* the later factor at j is fresh, but its string occurs at i *)
    assert (FJ : forall fs i', is_lz77_parsing t i' fs -> In (j, m) (places i' fs) -> exists g, is_lz77_factor t j g /\ m = Nat.max 1 (lz_len g)).
    { clear. induction fs as [|g fs IH]; intros i' H Hin; cbn [is_lz77_parsing places] in *; [destruct Hin|].
      destruct H as (_ & Hg & H). destruct Hin as [Hin|Hin].
      - injection Hin as -> Em. exists g. split; [exact Hg|now symmetry].
      - exact (IH _ H Hin). }
    destruct (FJ _ _ H Hj) as (g & Hg & Eg).
    apply (factor_fresh j g Hg ltac:(lia) i ltac:(lia)). rewrite <- Eg. rewrite E'. unfold fresh. now rewrite Lm.
  Qed.
  Lemma incl_by_length (l : nat) (ws : list str) : NoDup ws ->
    Forall (fun w => 2 <= length w <= l /\ In w (substrings (length w) t)) ws ->
    length ws <= sum_from_to 2 l (fun m => distinct m t).
  Proof.
    intros ND HF. unfold sum_from_to.
    assert (L : length (flat_map (fun m => nodup (list_eq_dec Nat.eq_dec) (substrings m t)) (seq 2 (S l - 2))) =
      list_sum (map (fun m => distinct m t) (seq 2 (S l - 2)))).
    { clear. induction (seq 2 (S l - 2)) as [|m q IH]; cbn [flat_map map list_sum fold_right]; [reflexivity|].
      rewrite app_length, IH. reflexivity. }
    rewrite <- L. apply NoDup_incl_length; [exact ND|]. intros w Hw. rewrite Forall_forall in HF. destruct (HF w Hw) as (A & B).
    apply in_flat_map. exists (length w). split; [apply in_seq; lia|]. now apply nodup_In.
  Qed.
  Lemma long_bound l q : l * length (filter (fun p : nat * nat => negb (snd p <? l)) q) <= list_sum (map snd q).
  Proof.
    induction q as [|[a b] q IH]; cbn [filter map list_sum fold_right snd length]; [lia|].
    unfold list_sum in IH. destruct (Nat.ltb_spec b l); cbn [negb length]; lia.
  Qed.
  Lemma filter_split {A} (f g : A -> bool) q : length (filter f q) <= length (filter (fun p => f p && g p) q) + length (filter (fun p => negb (g p)) q).
  Proof.
    induction q as [|a q IH]; cbn [filter length]; [lia|]. destruct (f a), (g a); cbn [andb negb length]; lia.
  Qed.
  Lemma lz77_bound l fs : is_lz77_parsing t 0 fs -> 1 <= l ->
    length fs <= length t / l + sum_from_to 2 l (fun m => distinct m t) + 1.
  Proof.
    intros H Hl. pose proof (inner_count fs 0 H) as C1. pose proof (filter_split inner (fun p => snd p <? l) (places 0 fs)) as C2.
    pose proof (long_bound l (places 0 fs)) as C3. pose proof (places_sum fs 0 H) as C4. cbn [Nat.add] in C4.
    assert (C5 : length (filter (fun p => inner p && (snd p <? l)) (places 0 fs)) <= sum_from_to 2 l (fun m => distinct m t)).
    { rewrite <- (map_length (fun p => fresh (fst p) (snd p))). apply incl_by_length; [now apply short_bound|].
      apply Forall_forall. intros w Hw. apply in_map_iff in Hw. destruct Hw as ([a b] & <- & Hw). cbn [fst snd].
      apply filter_In in Hw. destruct Hw as (Hin & Hw). apply andb_true_iff in Hw. destruct Hw as (W1 & W2).
      unfold inner in W1. cbn [fst snd] in W1, W2. apply Nat.ltb_lt in W1, W2.
      pose proof (places_ge fs 0 H) as G. rewrite Forall_forall in G. specialize (G _ Hin). cbn [fst snd] in G.
      unfold fresh. rewrite sub_length by lia. split; [lia|]. apply in_substrings. exists a. split; [lia|reflexivity]. }
    assert (C6 : length (filter (fun p : nat * nat => negb (snd p <? l)) (places 0 fs)) <= length t / l).
    { apply Nat.div_le_lower_bound; [lia|]. lia. }
    lia.
  Qed.
End LZ.
Lemma sum_le a b f g : (forall i, f i <= g i) -> sum_from_to a b f <= sum_from_to a b g.
Proof.
  intros H. unfold sum_from_to. induction (seq a (S b - a)) as [|x q IH]; cbn [map list_sum fold_right]; [lia|].
  specialize (H x). unfold list_sum in IH. lia.
Qed.
