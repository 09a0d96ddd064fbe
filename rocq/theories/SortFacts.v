(** SortFacts.v : the stable sort of Base.v sorts; sorted permutations are unique. *)
From Verif Require Import Base SpecStr LexFacts ModelCore PermFacts.

Section Sort.
  Context {A : Type} (D : A -> Prop) (cmp : A -> A -> res comparison) (c : A -> A -> comparison).
  Hypothesis Hcmp : forall a b, D a -> D b -> cmp a b = Ok (c a b).
  Hypothesis Hanti : forall a b, D a -> D b -> c b a = CompOpp (c a b).
  Hypothesis Htrans : forall a b d, D a -> D b -> D d -> c a b <> Gt -> c b d <> Gt -> c a d <> Gt.

  Lemma insert_by_ok x l : D x -> Forall D l -> StronglySorted (fun a b => c a b <> Gt) l ->
    okp (insert_by cmp x l) (fun s => Permutation s (x :: l) /\ StronglySorted (fun a b => c a b <> Gt) s).
  Proof.
    intros Hx. induction l as [|y l IH]; intros HD HS; simpl.
    - apply okp_ok. split; [auto|]. repeat constructor.
    - inversion HD as [|? ? Hy HDl]; subst. inversion HS as [|? ? HSl HF]; subst.
      rewrite Hcmp by auto. simpl.
      assert (Hge : c y x <> Lt -> okp (Ok (x :: y :: l)) (fun s => Permutation s (x :: y :: l) /\ StronglySorted (fun a b => c a b <> Gt) s)).
      { intros Hne. apply okp_ok. split; [auto|]. constructor; [exact HS|].
        assert (Hxy : c x y <> Gt).
        { rewrite (Hanti y x) by auto. destruct (c y x); easy. }
        constructor; [exact Hxy|]. rewrite Forall_forall in HF, HDl |- *.
        intros z Hz. apply (Htrans x y z); auto. }
      destruct (c y x) eqn:E; try (apply Hge; easy).
      apply okp_bind. eapply okp_imp; [apply IH; auto|].
      intros s (HP & HSs). apply okp_ok. split.
      + rewrite HP. apply perm_swap.
      + constructor; [exact HSs|]. rewrite Forall_forall in HF |- *. intros z Hz.
        apply (Permutation_in _ HP) in Hz. destruct Hz as [<-|Hz]; [congruence|auto].
  Qed.

  Lemma sort_by_ok l : Forall D l ->
    okp (sort_by cmp l) (fun s => Permutation s l /\ StronglySorted (fun a b => c a b <> Gt) s).
  Proof.
    induction l as [|x l IH]; intros HD; simpl.
    - apply okp_ok. split; auto. constructor.
    - inversion HD as [|? ? Hx HDl]; subst.
      apply okp_bind. eapply okp_imp; [apply IH; auto|]. intros s (HP & HS).
      eapply okp_imp; [apply insert_by_ok; auto|].
      + rewrite Forall_forall in HDl |- *. intros z Hz. apply HDl. now apply (Permutation_in _ HP).
      + intros s' (HP' & HS'). split; [|auto]. rewrite HP'. now constructor.
  Qed.
End Sort.

(** strictly sorted lists with the same elements are equal *)
Lemma sorted_unique {A} (R : A -> A -> Prop) (l l' : list A) :
  (forall a, ~ R a a) -> (forall a b, R a b -> ~ R b a) ->
  StronglySorted R l -> StronglySorted R l' -> Permutation l l' -> l = l'.
Proof.
  intros Hirr Has. revert l'. induction l as [|x l IH]; intros [|y l'] HS HS' HP.
  - reflexivity.
  - apply Permutation_nil in HP. easy.
  - symmetry in HP. apply Permutation_nil in HP. easy.
  - inversion HS as [|? ? HSl HF]; subst. inversion HS' as [|? ? HSl' HF']; subst.
    rewrite Forall_forall in HF, HF'.
    assert (x = y).
    { assert (Hx : In x (y :: l')) by (apply (Permutation_in _ HP); now left).
      assert (Hy : In y (x :: l)) by (apply (Permutation_in _ (Permutation_sym HP)); now left).
      destruct Hx as [->|Hx]; auto. destruct Hy as [->|Hy]; auto.
      exfalso. exact (Has _ _ (HF _ Hy) (HF' _ Hx)). }
    subst y. f_equal. apply IH; auto. now apply Permutation_cons_inv in HP.
Qed.

Lemma StronglySorted_nth {A} (R : A -> A -> Prop) (l : list A) d :
  StronglySorted R l <-> forall i j, i < j < length l -> R (nth i l d) (nth j l d).
Proof.
  split.
  - induction 1 as [|x l HS IH HF]; intros i j Hij; simpl in *; [lia|].
    destruct j as [|j]; [lia|]. destruct i as [|i].
    + rewrite Forall_forall in HF. apply HF. apply nth_In. lia.
    + apply IH. lia.
  - induction l as [|x l IH]; intros H; constructor.
    + apply IH. intros i j Hij. apply (H (S i) (S j)). simpl. lia.
    + apply Forall_forall. intros y Hy. destruct (In_nth l y d Hy) as (j & Hj & <-).
      apply (H 0 (S j)). simpl. lia.
Qed.

(** ** suffix arrays *)
Lemma skipn_inj_len {A} (t : list A) i j :
  i <= length t -> j <= length t -> skipn i t = skipn j t -> i = j.
Proof. intros Hi Hj E. apply (f_equal (@length A)) in E. rewrite !skipn_length in E. lia. Qed.

Lemma suffix_array_unique t sa sa' : is_suffix_array t sa -> is_suffix_array t sa' -> sa = sa'.
Proof.
  intros (HP & HS) (HP' & HS').
  apply (sorted_unique (fun i j => lex_lt (skipn i t) (skipn j t))); auto.
  - intros a. apply lex_lt_irrefl.
  - intros a b. apply lex_lt_asym.
  - unfold is_perm in *. rewrite HP. now symmetry.
Qed.

Lemma suffixarray_naive_ok t : exists sa, suffixarray_naive t = Ok sa /\ is_suffix_array t sa.
Proof.
  unfold suffixarray_naive.
  destruct (sort_by_ok (fun a => a <= length t)
     (fun a b => assert_ (a <=? length t) ;;; assert_ (b <=? length t) ;;;
                 Ok (slice_cmp (skipn a t) (skipn b t)))
     (fun a b => slice_cmp (skipn a t) (skipn b t))) with (l := seq 0 (length t))
     as (sa & E & HP & HS).
  - intros a b Ha Hb. apply Nat.leb_le in Ha, Hb. now rewrite Ha, Hb.
  - intros a b _ _. apply slice_cmp_antisym.
  - intros a b d _ _ _ H1 H2 H3. apply slice_cmp_gt in H3.
    assert (L1 : lex_le (skipn a t) (skipn b t)) by (apply not_lex_lt; now rewrite <- slice_cmp_gt).
    assert (L2 : lex_le (skipn b t) (skipn d t)) by (apply not_lex_lt; now rewrite <- slice_cmp_gt).
    exact (lex_le_not_lt _ _ (lex_le_trans _ _ _ L1 L2) H3).
  - apply Forall_forall. intros x Hx. apply in_seq in Hx. lia.
  - exists sa. split; [exact E|]. split; [exact HP|].
    pose proof (is_perm_length _ _ HP) as Hl.
    rewrite (StronglySorted_nth _ _ 0) in HS. apply (StronglySorted_nth _ _ 0). intros i j Hij. specialize (HS i j Hij).
    rewrite slice_cmp_gt in HS. apply not_lex_lt in HS. destruct HS as [HE|HL]; [|exact HL].
    apply skipn_inj_len in HE.
    + apply (is_perm_inj _ _ _ _ HP) in HE; lia.
    + apply Nat.lt_le_incl, (is_perm_nth _ _ _ HP). lia.
    + apply Nat.lt_le_incl, (is_perm_nth _ _ _ HP). lia.
Qed.

(** the naive sorter as a total function, used to show that oracle hypotheses are satisfiable *)
Definition naive_sort (t : str) : list nat :=
  match suffixarray_naive t with Ok sa => sa | _ => [] end.
Lemma naive_sort_ok t : is_suffix_array t (naive_sort t).
Proof. unfold naive_sort. destruct (suffixarray_naive_ok t) as (sa & -> & H). exact H. Qed.

(** ranks *)
Lemma sa_lt t sa i j : is_suffix_array t sa -> i < j < length t ->
  lex_lt (skipn (nth i sa 0) t) (skipn (nth j sa 0) t).
Proof.
  intros (HP & HS) Hij. rewrite (StronglySorted_nth _ _ 0) in HS.
  apply HS. now rewrite (is_perm_length _ _ HP).
Qed.

Lemma sa_lt_iff t sa i j : is_suffix_array t sa -> i < length t -> j < length t ->
  (lex_lt (skipn (nth i sa 0) t) (skipn (nth j sa 0) t) <-> i < j).
Proof.
  intros H Hi Hj. split.
  - intros L. destruct (Nat.lt_trichotomy i j) as [Lt|[->|Gt]]; auto.
    + exfalso. exact (lex_lt_irrefl _ L).
    + exfalso. apply (lex_lt_asym _ _ L). apply (sa_lt t sa); auto.
  - intros Lt. apply (sa_lt t sa); auto.
Qed.

Lemma isa_lt_iff t sa isa a b : is_suffix_array t sa -> inverse_permutation sa = Ok isa ->
  a < length t -> b < length t ->
  (lex_lt (skipn a t) (skipn b t) <-> nth a isa 0 < nth b isa 0).
Proof.
  intros H E Ha Hb. pose proof H as (HP & _).
  destruct (inverse_permutation_spec _ _ HP) as (isa' & E' & HPi & H1 & H2).
  rewrite E in E'. injection E' as <-.
  rewrite <- (H2 a Ha) at 1. rewrite <- (H2 b Hb) at 1.
  apply (sa_lt_iff t sa); auto; now apply (is_perm_nth _ _ _ HPi).
Qed.
