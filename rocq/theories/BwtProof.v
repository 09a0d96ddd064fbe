(** BwtProof.v : [bwt_from_sa], [bwt_from_text_by_sa], [bwt_by_matrix_naive], [bwt_by_matrix]. *)
From Verif Require Import Base SpecStr SpecBwt LexFacts ModelCore PermFacts SortFacts DuvalProof LyndonProof BorderProof BwtFacts.

(** reading off last letters in suffix-array order *)
Definition sa_letters (t : str) (sa : list nat) : str := map (fun p => last (rot p t) 0) sa.

Lemma cyclic_prev_last t p : p < length t -> last (rot p t) 0 = cyclic_prev t p.
Proof.
  intros Hp. rewrite last_rot by lia. destruct p as [|q]; simpl cyclic_prev.
  - rewrite last_nth. f_equal. rewrite Nat.mod_small; lia.
  - f_equal. replace (S q + length t - 1) with (q + 1 * length t) by lia.
    rewrite Nat.mod_add by lia. apply Nat.mod_small. lia.
Qed.

Lemma bwt_loop_ok t sa t0 : 0 < length t -> is_perm (length t) sa ->
  for_in (range 0 (length t)) (fun i bwt =>
    s <- get sa i ;; d <- sub_ (length t + s) 1 ;; p <- mod_ d (length t) ;; c <- get t p ;; set bwt i c)
    (repeat t0 (length t)) = Ok (sa_letters t sa).
Proof.
  intros Hn HP. pose proof (is_perm_length _ _ HP) as Ls.
  match goal with |- ?e = _ => enough (G : okp e (fun b => b = sa_letters t sa)) end.
  { destruct G as (b & -> & ->). reflexivity. }
  eapply okp_imp; [eapply (okp_for_range (fun k b => length b = length t /\
    forall i, i < k -> nth i b 0 = last (rot (nth i sa 0) t) 0)); [lia| |]|].
  - split; [apply repeat_length|]. intros; lia.
  - intros i b Hi (Lb & Hb). apply okp_bind, (okp_get _ _ 0); [lia|].
    pose proof (is_perm_nth _ _ i HP ltac:(lia)) as Hs.
    apply okp_bind, okp_sub; [lia|]. apply okp_bind, okp_mod; [lia|].
    apply okp_bind, (okp_get _ _ 0); [apply Nat.mod_upper_bound; lia|].
    apply okp_set; [lia|]. split; [now rewrite upd_length|].
    intros j Hj. destruct (Nat.eq_dec j i) as [->|Ne].
    + rewrite nth_upd_eq by lia. rewrite last_rot by lia. do 2 f_equal. lia.
    + rewrite nth_upd_ne by lia. apply Hb. lia.
  - intros b (Lb & Hb). apply (nth_ext_len _ _ 0).
    + unfold sa_letters. rewrite map_length. lia.
    + intros i Hi. unfold sa_letters. rewrite (nth_map _ _ _ 0) by lia. apply Hb. lia.
Qed.

Lemma sa_letters_perm t sa : is_perm (length t) sa -> Permutation (sa_letters t sa) t.
Proof.
  intros HP. unfold sa_letters. rewrite (Permutation_map _ HP).
  transitivity (map (fun r => last r 0) (rotations t)); [|apply last_rotations_perm].
  unfold rotations. rewrite map_map. apply Permutation_refl.
Qed.

Lemma bwt_from_sa_ok t sa : t <> [] -> is_perm (length t) sa -> bwt_from_sa t sa = Ok (sa_letters t sa).
Proof.
  intros Hne HP. assert (Hn : 0 < length t) by (destruct t; [easy|simpl; lia]).
  unfold bwt_from_sa. rewrite (get_ok _ _ 0) by lia. cbn [bind]. now apply bwt_loop_ok.
Qed.

Lemma existsb_zero (l : str) : existsb (fun x => x =? 0) l = true <-> In 0 l.
Proof.
  rewrite existsb_exists. split.
  - intros (x & Hx & E). apply Nat.eqb_eq in E. now subst.
  - intros H. exists 0. auto.
Qed.

Lemma bwt_from_text_by_sa_ok sort t : t <> [] -> is_perm (length t) (sort t) ->
  ~ In 0 (firstn (length t - 1) t) -> bwt_from_text_by_sa sort t = Ok (sa_letters t (sort t)).
Proof.
  intros Hne HP Hz. assert (Hn : 0 < length t) by (destruct t; [easy|simpl; lia]).
  unfold bwt_from_text_by_sa. rewrite sub_ok by lia. cbn [bind].
  destruct (existsb (fun x => x =? 0) (firstn (length t - 1) t)) eqn:E.
  { apply existsb_zero in E. contradiction. }
  simpl negb. cbn [assert_ bind]. rewrite (get_ok _ _ 0) by lia. cbn [bind]. now apply bwt_loop_ok.
Qed.

Lemma bwt_from_text_by_sa_panic sort t : In 0 (firstn (length t - 1) t) \/ t = [] ->
  bwt_from_text_by_sa sort t = Panic.
Proof.
  intros [H| ->]; [|reflexivity]. unfold bwt_from_text_by_sa.
  assert (Hn : 0 < length t) by (destruct t; [easy|simpl; lia]).
  rewrite sub_ok by lia. cbn [bind].
  apply existsb_zero in H. now rewrite H.
Qed.

(** ** the rotation comparator *)
Lemma rot_cmp_ok t a b : a < length t -> b < length t ->
  rot_cmp t a b = Ok (slice_cmp (rot a t) (rot b t)).
Proof.
  intros Ha Hb. unfold rot_cmp. unfold range. rewrite Nat.sub_0_r.
  set (body := fun i => _).
  assert (G : forall k lo, lo + k = length t ->
    exists r, for_ret (seq lo k) body = Ok r /\
      match r with Some c => c | None => Eq end = slice_cmp (skipn lo (rot a t)) (skipn lo (rot b t))).
  { induction k as [|k IH]; intros lo Hk.
    - exists None. split; [reflexivity|].
      rewrite !skipn_all2 by (rewrite rot_length; lia). reflexivity.
    - assert (La : lo < length (rot a t)) by (rewrite rot_length; lia).
      assert (Lb : lo < length (rot b t)) by (rewrite rot_length; lia).
      rewrite (skipn_cons_nth _ _ 0 La), (skipn_cons_nth _ _ 0 Lb). simpl for_ret.
      unfold body at 1. rewrite !mod_ok by lia. cbn [bind].
      rewrite !(get_ok t _ 0) by (apply Nat.mod_upper_bound; lia). cbn [bind].
      rewrite <- !nth_rot_mod by lia. simpl slice_cmp.
      destruct (nth lo (rot a t) 0 ?= nth lo (rot b t) 0) eqn:E.
      + cbn [bind]. destruct (IH (S lo) ltac:(lia)) as (r & E1 & E2). exists r. auto.
      + exists (Some Lt). auto.
      + exists (Some Gt). auto. }
  destruct (G (length t) 0 ltac:(lia)) as (r & E1 & E2). rewrite E1. cbn [bind].
  simpl skipn in E2. now rewrite E2.
Qed.

Lemma slice_cmp_not_gt u v : slice_cmp u v <> Gt <-> lex_le u v.
Proof.
  rewrite slice_cmp_gt. split; [apply not_lex_lt|apply lex_le_not_lt].
Qed.

Lemma sort_rot_ok t : exists I, sort_by (rot_cmp t) (seq 0 (length t)) = Ok I /\
  is_perm (length t) I /\ StronglySorted (fun i j => lex_le (rot i t) (rot j t)) I.
Proof.
  destruct (sort_by_ok (fun a => a < length t) (rot_cmp t) (fun a b => slice_cmp (rot a t) (rot b t)))
    with (l := seq 0 (length t)) as (I & E & HP & HS).
  - intros. now apply rot_cmp_ok.
  - intros. apply slice_cmp_antisym.
  - intros a b d _ _ _. rewrite !slice_cmp_not_gt. apply lex_le_trans.
  - apply Forall_forall. intros x Hx. apply in_seq in Hx. lia.
  - exists I. split; [exact E|]. split; [exact HP|].
    apply (StronglySorted_imp_in (fun a b => slice_cmp (rot a t) (rot b t) <> Gt)); auto.
    intros a b _ _. now rewrite slice_cmp_not_gt.
Qed.

(** any index list that is a permutation sorted by rotation gives the matrix BWT *)
Lemma sorted_rot_matrix t I : is_perm (length t) I ->
  StronglySorted (fun i j => lex_le (rot i t) (rot j t)) I -> is_matrix_bwt t (sa_letters t I).
Proof.
  intros HP HS. exists (map (fun i => rot i t) I). split; [|split].
  - unfold rotations. now apply Permutation_map.
  - apply (StronglySorted_map (fun i j => lex_le (rot i t) (rot j t))); auto.
  - unfold sa_letters. now rewrite map_map.
Qed.

Lemma bwt_by_matrix_naive_ok t : exists b, bwt_by_matrix_naive t = Ok b /\ is_matrix_bwt t b.
Proof.
  destruct (sort_rot_ok t) as (I & E & HP & HS). pose proof (is_perm_length _ _ HP) as LI.
  exists (sa_letters t I). split; [|now apply sorted_rot_matrix].
  unfold bwt_by_matrix_naive. rewrite E. cbn [bind].
  match goal with |- ?e = _ => enough (G : okp e (fun b => b = sa_letters t I)) end.
  { destruct G as (b & -> & ->). reflexivity. }
  eapply okp_imp; [eapply (okp_for_range (fun k b => b = firstn k (sa_letters t I))); [lia| |]|].
  - reflexivity.
  - intros i b Hi ->. apply okp_bind, (okp_get _ _ 0); [lia|].
    pose proof (is_perm_nth _ _ i HP ltac:(lia)) as Hs.
    apply okp_bind, okp_sub; [lia|]. apply okp_bind, okp_mod; [lia|].
    apply okp_bind, (okp_get _ _ 0); [apply Nat.mod_upper_bound; lia|]. apply okp_ok.
    rewrite (firstn_snoc_nth _ _ 0) by (unfold sa_letters; rewrite map_length; lia).
    do 2 f_equal. unfold sa_letters. rewrite (nth_map _ _ _ 0) by lia. now rewrite last_rot by lia.
  - intros b ->. apply firstn_all2. unfold sa_letters. rewrite map_length. lia.
Qed.

Lemma bwt_by_matrix_naive_spec t b : bwt_by_matrix_naive t = Ok b <-> is_matrix_bwt t b.
Proof.
  destruct (bwt_by_matrix_naive_ok t) as (b' & E & H). rewrite E. split.
  - intros [= <-]. exact H.
  - intros H'. f_equal. exact (matrix_bwt_unique _ _ _ H H').
Qed.

Lemma bwt_by_matrix_naive_rot t s : s <= length t ->
  bwt_by_matrix_naive (rot s t) = bwt_by_matrix_naive t.
Proof.
  intros Hs. destruct (Nat.eq_dec s (length t)) as [->|Ne]; [now rewrite rot_all|].
  destruct (bwt_by_matrix_naive_ok t) as (b & E & H). rewrite E.
  apply bwt_by_matrix_naive_spec. apply matrix_bwt_rot; [lia|exact H].
Qed.

(** ** with a unique smallest end marker suffix order = rotation order *)
Lemma dollar_suffix_rot S i j : ~ In 0 S -> i < length (S ++ [0]) -> j < length (S ++ [0]) ->
  lex_lt (skipn i (S ++ [0])) (skipn j (S ++ [0])) -> lex_lt (rot i (S ++ [0])) (rot j (S ++ [0])).
Proof.
  intros Hz Hi Hj H. set (t := S ++ [0]) in *.
  assert (Lt : length t = length S + 1) by (unfold t; rewrite app_length; reflexivity).
  unfold rot. apply lex_lt_app_ext; auto. intros s E.
  destruct s as [|c s]; [rewrite app_nil_r in E; rewrite E in H; exact (lex_lt_irrefl _ H)|].
  assert (Ln := f_equal (@length nat) E). rewrite app_length, !skipn_length in Ln. simpl in Ln.
  apply (f_equal (fun l => nth (length S - i) l 0)) in E.
  rewrite app_nth1 in E by (rewrite skipn_length; lia). rewrite !nth_skipn in E.
  replace (i + (length S - i)) with (length S) in E by lia.
  unfold t in E. rewrite (app_nth2 S [0] 0 (n := length S)) in E by lia. rewrite Nat.sub_diag in E. simpl in E.
  rewrite app_nth1 in E by lia. apply Hz. rewrite <- E. apply nth_In. lia.
Qed.

Lemma dollar_agree sort S : ~ In 0 S -> is_suffix_array (S ++ [0]) (sort (S ++ [0])) ->
  bwt_from_text_by_sa sort (S ++ [0]) = bwt_by_matrix_naive (S ++ [0]).
Proof.
  intros Hz HSA. set (t := S ++ [0]) in *. pose proof HSA as [HP HS].
  assert (Lt : length t = length S + 1) by (unfold t; rewrite app_length; reflexivity).
  rewrite bwt_from_text_by_sa_ok; auto.
  - symmetry. apply bwt_by_matrix_naive_spec. apply sorted_rot_matrix; auto.
    apply (StronglySorted_imp_in (fun i j => lex_lt (skipn i t) (skipn j t))); auto.
    intros a b Ha Hb H. right. apply (is_perm_In _ _ _ HP) in Ha, Hb. now apply dollar_suffix_rot.
  - unfold t. destruct S; easy.
  - rewrite Lt. replace (length S + 1 - 1) with (length S) by lia. unfold t.
    rewrite firstn_app, Nat.sub_diag, firstn_all. simpl. rewrite app_nil_r. exact Hz.
Qed.

(** ** bwt_by_matrix *)
(** for a smallest rotation L without zeros, the suffix order of L$ refines the rotation order *)
Lemma necklace_suffix_rot L i j : ~ In 0 L -> (forall k, k < length L -> lex_le L (rot k L)) ->
  i < length L -> j < length L ->
  lex_lt (skipn i (L ++ [0])) (skipn j (L ++ [0])) -> lex_le (rot i L) (rot j L).
Proof.
  intros Hz Hmin Hi Hj H. set (n := length L) in *.
  assert (Hpos : forall x, x < n -> 0 < nth x L 0).
  { intros x Hx. assert (In (nth x L 0) L) by (apply nth_In; exact Hx).
    destruct (nth x L 0); [contradiction|lia]. }
  rewrite !skipn_app_lt in H by (unfold n in *; lia).
  destruct (lex_lt_total (skipn i L) (skipn j L)) as [Hlt|[E|Hgt]].
  - destruct (lex_lt_cases _ _ Hlt) as [(z & Hzn & E)|(y & H1 & H2 & H3 & H4)].
    + (* suffix i is a proper prefix of suffix j *)
      assert (Ln := f_equal (@length nat) E). rewrite app_length, !skipn_length in Ln. fold n in Ln.
      assert (Hzl : 0 < length z) by (destruct z; [easy|simpl; lia]).
      set (k := j + (n - i)).
      assert (Ez : z = skipn k L).
      { unfold k. rewrite <- skipn_skipn, E, skipn_app, skipn_length. fold n.
        replace (n - i - (n - i)) with 0 by lia.
        rewrite skipn_all2 by (rewrite skipn_length; fold n; lia). reflexivity. }
      assert (Hk : k < n) by (unfold k; lia).
      unfold rot. rewrite E, <- app_assoc. apply lex_le_app_same.
      specialize (Hmin k Hk). apply (lex_le_firstn i) in Hmin.
      unfold rot in Hmin. rewrite <- Ez in Hmin.
      replace (z ++ firstn j L) with (firstn i (z ++ firstn k L)); auto.
      rewrite firstn_app. rewrite firstn_all2 by lia. f_equal.
      rewrite firstn_firstn. f_equal. unfold k. lia.
    + right. unfold rot. apply (lex_lt_mismatch _ _ y); rewrite ?app_length; try lia.
      * intros x Hx. rewrite !app_nth1 by lia. auto.
      * rewrite !app_nth1 by lia. auto.
  - apply skipn_inj_len in E; unfold n in *; try lia. subst. apply lex_le_refl.
  - exfalso. destruct (lex_lt_cases _ _ Hgt) as [(z & Hzn & E)|(y & H1 & H2 & H3 & H4)].
    + assert (Ln := f_equal (@length nat) E). rewrite app_length, !skipn_length in Ln. fold n in Ln.
      assert (Hzl : 0 < length z) by (destruct z; [easy|simpl; lia]).
      apply (lex_lt_asym _ _ H). apply (lex_lt_mismatch _ _ (length (skipn j L))).
      * rewrite app_length. simpl. lia.
      * rewrite app_length, E, app_length. lia.
      * intros x Hx. rewrite E, <- app_assoc, !app_nth1 by lia. reflexivity.
      * rewrite app_nth2, Nat.sub_diag by lia. simpl.
        rewrite skipn_length. fold n. rewrite app_nth1 by (rewrite skipn_length; fold n; lia).
        rewrite nth_skipn. apply Hpos. lia.
    + apply (lex_lt_asym _ _ H). apply (lex_lt_mismatch _ _ y); rewrite ?app_length; try lia.
      * intros x Hx. rewrite !app_nth1 by lia. auto.
      * rewrite !app_nth1 by lia. auto.
Qed.

Lemma position_app c (l1 l2 : str) : ~ In c l1 -> position c (l1 ++ c :: l2) = Some (length l1).
Proof.
  induction l1 as [|x l1 IH]; intros H; simpl.
  - now rewrite Nat.eqb_refl.
  - destruct (Nat.eqb_spec x c) as [->|Ne]; [exfalso; apply H; now left|].
    rewrite IH; [reflexivity|]. intros Hin. apply H. now right.
Qed.

Lemma vec_remove_app (l1 : str) c l2 : vec_remove (l1 ++ c :: l2) (length l1) = Ok (l1 ++ l2).
Proof.
  unfold vec_remove. rewrite app_length. simpl length.
  destruct (Nat.ltb_spec (length l1) (length l1 + S (length l2))); [|lia].
  rewrite firstn_app, Nat.sub_diag, firstn_all. simpl firstn. rewrite app_nil_r.
  rewrite skipn_app. rewrite skipn_all2 by lia.
  replace (S (length l1) - length l1) with 1 by lia. reflexivity.
Qed.

Lemma necklace_bwt_list L sa : L <> [] -> ~ In 0 L -> (forall k, k < length L -> lex_le L (rot k L)) ->
  is_suffix_array (L ++ [0]) sa ->
  exists l1 l2, sa_letters (L ++ [0]) sa = l1 ++ 0 :: l2 /\ ~ In 0 l1 /\ is_matrix_bwt L (l1 ++ l2).
Proof.
  intros Hne Hz Hmin (HP & HS). set (n := length L) in *.
  assert (Hn : 0 < n) by (unfold n; destruct L; [easy|simpl; lia]).
  assert (Lt : length (L ++ [0]) = n + 1) by (rewrite app_length; reflexivity).
  rewrite Lt in HP.
  assert (Hpos : forall x, x < n -> 0 < nth x L 0).
  { intros x Hx. assert (In (nth x L 0) L) by (apply nth_In; exact Hx).
    destruct (nth x L 0); [contradiction|lia]. }
  (* the first entry is n *)
  destruct sa as [|s0 sa'].
  { apply is_perm_length in HP. simpl in HP. lia. }
  assert (Hs0 : s0 = n).
  { assert (Hin : In n (s0 :: sa')) by (apply (is_perm_In _ _ _ HP); lia).
    destruct Hin as [|Hin]; auto. exfalso.
    inversion HS as [|? ? _ HF]; subst. rewrite Forall_forall in HF. specialize (HF n Hin).
    assert (Hs0n : s0 < n + 1) by (apply (is_perm_In _ _ _ HP); now left).
    unfold n in HF at 1. rewrite (skipn_app (length L)), skipn_all, Nat.sub_diag in HF. simpl in HF.
    destruct (skipn s0 (L ++ [0])) as [|c r] eqn:Es.
    - apply (f_equal (@length nat)) in Es. rewrite skipn_length in Es. simpl in Es. lia.
    - inversion HF; subst; [lia|]. match goal with HH : lex_lt _ [] |- _ => inversion HH end. }
  subst s0.
  assert (HND : NoDup (n :: sa')) by (apply (is_perm_NoDup _ _ HP)).
  inversion HND as [|? ? Hnin HND']; subst.
  assert (Hin0 : In 0 sa').
  { assert (Hin : In 0 (n :: sa')) by (apply (is_perm_In _ _ _ HP); lia).
    destruct Hin as [E|Hin]; [lia|exact Hin]. }
  apply in_split in Hin0. destruct Hin0 as (A & B & EAB). subst sa'.
  assert (HAB : forall x, In x (A ++ B) -> 0 < x < n).
  { intros x Hx. split.
    - destruct x; [|lia]. exfalso. apply NoDup_remove_2 in HND'. contradiction.
    - assert (In x (n :: A ++ 0 :: B)).
      { right. apply in_app_iff in Hx. apply in_app_iff. simpl. tauto. }
      apply (is_perm_In _ _ _ HP) in H. destruct (Nat.eq_dec x n) as [->|]; [|lia].
      exfalso. apply Hnin. apply in_app_iff in Hx. apply in_app_iff. simpl. tauto. }
  assert (Hpc : forall x, 0 < x <= n -> last (rot x (L ++ [0])) 0 = nth (x - 1) L 0).
  { intros x Hx. rewrite cyclic_prev_last by lia. destruct x as [|x]; [lia|]. simpl.
    rewrite app_nth1 by (unfold n in *; lia). f_equal. lia. }
  assert (Hp0 : last (rot 0 (L ++ [0])) 0 = 0) by (rewrite rot_0; apply last_last).
  exists (map (fun p => last (rot p (L ++ [0])) 0) (n :: A)), (map (fun p => last (rot p (L ++ [0])) 0) B).
  split; [|split].
  - unfold sa_letters. rewrite app_comm_cons, map_app. simpl. rewrite Hp0. reflexivity.
  - intros Hin. apply in_map_iff in Hin. destruct Hin as (x & Ex & Hx).
    assert (0 < x <= n).
    { destruct Hx as [<-|Hx]; [lia|]. assert (0 < x < n) by (apply HAB; apply in_app_iff; now left). lia. }
    rewrite Hpc in Ex by lia. pose proof (Hpos (x - 1) ltac:(lia)). lia.
  - rewrite <- map_app.
    assert (E : map (fun p => last (rot p (L ++ [0])) 0) ((n :: A) ++ B) = sa_letters L (0 :: A ++ B)).
    { unfold sa_letters. simpl. f_equal.
      - rewrite Hpc by lia. rewrite rot_0, last_nth. reflexivity.
      - apply map_ext_in. intros x Hx. apply HAB in Hx. rewrite Hpc by lia.
        rewrite cyclic_prev_last by (unfold n in *; lia). destruct x; [lia|]. simpl. f_equal. lia. }
    rewrite E. apply sorted_rot_matrix.
    + unfold is_perm. fold n. apply NoDup_Permutation_bis.
      * constructor; [intros Hx; apply HAB in Hx; lia|]. now apply NoDup_remove_1 in HND'.
      * rewrite seq_length. apply is_perm_length in HP. simpl in *. rewrite app_length in *. simpl in *. lia.
      * intros x Hx. apply in_seq. destruct Hx as [<-|Hx]; [lia|]. apply HAB in Hx. lia.
    + assert (HS' : StronglySorted (fun i j => lex_lt (skipn i (L ++ [0])) (skipn j (L ++ [0]))) (A ++ B)).
      { inversion HS as [|? ? HS2 _]; subst. clear -HS2. induction A as [|a A IH]; simpl in *.
        - now inversion HS2.
        - inversion HS2 as [|? ? H1 H2]; subst. constructor; [now apply IH|].
          rewrite Forall_forall in *. intros x Hx. apply H2. apply in_app_iff in Hx. apply in_app_iff.
          simpl. tauto. }
      constructor.
      * apply (StronglySorted_imp_in _ _ _) with (2 := HS'). intros a b Ha Hb.
        apply HAB in Ha, Hb. apply necklace_suffix_rot; auto; unfold n in *; lia.
      * apply Forall_forall. intros x Hx. rewrite rot_0. apply Hmin. apply HAB in Hx. unfold n in *. lia.
Qed.

Lemma in_rot c t s : s <= length t -> (In c (rot s t) <-> In c t).
Proof.
  intros Hs. unfold rot. rewrite in_app_iff. rewrite <- (firstn_skipn s t) at 3. rewrite in_app_iff. tauto.
Qed.

Lemma bwt_by_matrix_ok sort t : (forall u, is_suffix_array u (sort u)) -> t <> [] -> ~ In 0 t ->
  bwt_by_matrix sort t = bwt_by_matrix_naive t.
Proof.
  intros Hsort Hne Hz. assert (Hn : 0 < length t) by (destruct t; [easy|simpl; lia]).
  destruct (lyndon_conjugate_correct t Hne) as (s & Es & Hs & Hmin).
  set (L := rot s t) in *.
  assert (LL : length L = length t) by apply rot_length.
  assert (HLz : ~ In 0 L) by (unfold L; rewrite in_rot by lia; exact Hz).
  assert (HLne : L <> []) by (intros E; rewrite E in LL; simpl in LL; lia).
  assert (HLmin : forall k, k < length L -> lex_le L (rot k L)).
  { intros k Hk. unfold L at 2. rewrite rot_rot by lia. apply Hmin. apply Nat.mod_upper_bound. lia. }
  destruct (necklace_bwt_list L (sort (L ++ [0])) HLne HLz HLmin (Hsort _)) as (l1 & l2 & E & Hn1 & HM).
  unfold bwt_by_matrix. replace (0 <? length t) with true by (symmetry; now apply Nat.ltb_lt).
  cbn [assert_ bind]. rewrite Es. cbn [bind].
  replace (s <=? length t) with true by (symmetry; apply Nat.leb_le; lia). cbn [assert_ bind].
  rewrite app_assoc. fold (rot s t). fold L.
  rewrite bwt_from_text_by_sa_ok.
  - cbn [bind]. rewrite E. rewrite position_app by exact Hn1. rewrite vec_remove_app.
    symmetry. apply bwt_by_matrix_naive_spec. apply (matrix_bwt_rot t s); [lia|]. exact HM.
  - destruct L; easy.
  - apply (Hsort (L ++ [0])).
  - rewrite app_length. simpl. replace (length L + 1 - 1) with (length L) by lia.
    rewrite firstn_app, Nat.sub_diag, firstn_all. simpl. rewrite app_nil_r. exact HLz.
Qed.

Lemma bwt_by_matrix_panic sort t : t = [] \/ In 0 t -> bwt_by_matrix sort t = Panic.
Proof.
  intros [->|Hz]; [reflexivity|].
  assert (Hne : t <> []) by (intros ->; easy).
  assert (Hn : 0 < length t) by (destruct t; [easy|simpl; lia]).
  destruct (lyndon_conjugate_correct t Hne) as (s & Es & Hs & _).
  unfold bwt_by_matrix. replace (0 <? length t) with true by (symmetry; now apply Nat.ltb_lt).
  cbn [assert_ bind]. rewrite Es. cbn [bind].
  replace (s <=? length t) with true by (symmetry; apply Nat.leb_le; lia). cbn [assert_ bind].
  rewrite app_assoc. fold (rot s t).
  rewrite bwt_from_text_by_sa_panic; [reflexivity|]. left.
  rewrite app_length, rot_length. simpl. replace (length t + 1 - 1) with (length t) by lia.
  rewrite firstn_app, rot_length, Nat.sub_diag. simpl. rewrite app_nil_r.
  rewrite <- (rot_length s t), firstn_all. apply in_rot; [lia|exact Hz].
Qed.

(** ** injectivity *)
Lemma bwt_naive_injective x y b : bwt_by_matrix_naive x = Ok b -> bwt_by_matrix_naive y = Ok b ->
  exists i, i <= length x /\ y = rot i x.
Proof.
  rewrite !bwt_by_matrix_naive_spec. apply matrix_bwt_injective.
Qed.

Lemma dollar_injective sort S S' b : (forall u, is_suffix_array u (sort u)) ->
  ~ In 0 S -> ~ In 0 S' ->
  bwt_from_text_by_sa sort (S ++ [0]) = Ok b -> bwt_from_text_by_sa sort (S' ++ [0]) = Ok b -> S = S'.
Proof.
  intros Hsort HS HS' E E'. rewrite dollar_agree in E, E' by auto.
  destruct (bwt_naive_injective _ _ _ E E') as (i & Hi & ER).
  assert (Hlen := f_equal (@length nat) ER). rewrite rot_length, !app_length in Hlen. simpl in Hlen.
  rewrite app_length in Hi. simpl in Hi.
  destruct (Nat.eq_dec i 0) as [->|Ni].
  { rewrite rot_0 in ER. now apply app_inj_tail in ER. }
  destruct (Nat.eq_dec i (length S + 1)) as [->|Ni2].
  { replace (length S + 1) with (length (S ++ [0])) in ER by (rewrite app_length; reflexivity).
    rewrite rot_all in ER. now apply app_inj_tail in ER. }
  (* otherwise the zero would sit inside S' *)
  exfalso. apply (f_equal (fun l => nth (length S - i) l 0)) in ER.
  rewrite nth_rot in ER by (rewrite app_length; simpl; lia). rewrite app_length in ER. simpl length in ER.
  destruct (Nat.ltb_spec (i + (length S - i)) (length S + 1)) as [_|G]; [|lia].
  replace (i + (length S - i)) with (length S) in ER by lia.
  rewrite (app_nth2 S) in ER by lia. rewrite Nat.sub_diag in ER. simpl in ER.
  rewrite app_nth1 in ER by lia. apply HS'. rewrite <- ER. apply nth_In. lia.
Qed.
