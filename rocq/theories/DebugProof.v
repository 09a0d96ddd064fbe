(** DebugProof.v : the debug-only checks never fire. *)
From Verif Require Import Base SpecStr LexFacts ModelCore PermFacts SortFacts LcpProof ModelLz SpecLz LzProof MusProof ModelIo
  ModelTools ModelMain MainProof2 SpecMain ModelAttr SpecAttr AttrProof AttrProof2 AttrProof3 AttrZero DuvalProof LyndonProof ModelDebug ReleaseProof3.
From Coq Require Import NArith.

Lemma plcp_release_eq text phi : length text = length phi -> compute_plcp_release text phi = compute_plcp text phi.
Proof. intros E. unfold compute_plcp. destruct (Nat.eqb_spec (length text) (length phi)); [reflexivity|contradiction]. Qed.
Lemma lcp_release_eq plcp sa : length plcp = length sa -> compute_lcp_release plcp sa = compute_lcp plcp sa.
Proof. intros E. unfold compute_lcp. destruct (Nat.eqb_spec (length plcp) (length sa)); [reflexivity|contradiction]. Qed.
Lemma for_in_ext_in {S I} (l : list I) (f g : I -> S -> res S) s : (forall i s, In i l -> f i s = g i s) -> for_in l f s = for_in l g s.
Proof.
  revert s. induction l as [|i l IH]; intros s H; cbn [for_in]; [reflexivity|].
  rewrite (H i s) by now left. destruct (g i s); cbn [bind]; auto. apply IH. intros; apply H; now right.
Qed.
Lemma get_firstn {A} (l : list A) n i : i < n -> get (firstn n l) i = get l i.
Proof.
  intros Hi. unfold get. revert n i Hi. induction l as [|x l IH]; intros n i Hi; [now rewrite firstn_nil|].
  destruct n as [|n]; [lia|]. destruct i as [|i]; [reflexivity|]. cbn [firstn nth_error]. apply IH. lia.
Qed.
Lemma get_none {A} (l : list A) i : length l <= i -> get l i = Panic.
Proof. intros H. unfold get. now rewrite (proj2 (nth_error_None l i) H). Qed.
Lemma plcp_extend_total t pa pb l : exists l', plcp_extend t pa pb l = Ok l'.
Proof.
  enough (G : okp (plcp_extend t pa pb l) (fun _ => True)) by (destruct G as (l' & E & _); now exists l').
  unfold plcp_extend. eapply (okp_loop (fun _ => True) (fun len => length t - len)); [|exact I|lia].
  intros len _. cbv beta. destruct (Nat.ltb_spec (pa + len) (length t)); cbn [andb]; [|now apply okp_ok].
  destruct (Nat.ltb_spec (pb + len) (length t)); [|now apply okp_ok].
  apply okp_bind, (okp_get _ _ 0); [lia|]. apply okp_bind, (okp_get _ _ 0); [lia|].
  destruct (_ =? _); apply okp_ok; [split; [exact I|lia]|exact I].
Qed.
Lemma plcp_release_long text phi : length text <= length phi ->
  compute_plcp_release text phi = compute_plcp text (firstn (length text) phi).
Proof.
  intros H. rewrite <- plcp_release_eq by (rewrite firstn_length; lia). unfold compute_plcp_release. f_equal.
  apply for_in_ext_in. intros i (plcp, len) Hi. apply in_seq in Hi. rewrite get_firstn by lia. reflexivity.
Qed.
Lemma range_split n m : n <= m -> range 0 m = range 0 n ++ range n m.
Proof. intros H. unfold range. rewrite !Nat.sub_0_r. replace m with (n + (m - n)) at 1 by lia. now rewrite seq_app. Qed.
Lemma plcp_release_short text phi : length phi < length text -> compute_plcp_release text phi = Panic.
Proof.
  intros H. unfold compute_plcp_release. rewrite (range_split (length phi)) by lia. rewrite for_in_app.
  set (body := fun pb '(plcp, len) => pa <- get phi pb ;; _).
  assert (G : okp (for_in (range 0 (length phi)) body (repeat 0 (length text), 0)) (fun st => length (fst st) = length text)).
  { apply (okp_for_range (fun _ st => length (fst st) = length text)); [lia|apply repeat_length|]. intros i (plcp, len) Hi L. cbn [fst] in L.
    unfold body. apply okp_bind, (okp_get _ _ 0); [lia|]. destruct (plcp_extend_total text (nth i phi 0) i len) as (l' & ->). cbn [bind].
    rewrite set_ok by lia. cbn [bind]. apply okp_ok. cbn [fst]. rewrite upd_length. exact L. }
  destruct G as ((plcp, len) & -> & L). cbn [bind].
  assert (ER : range (length phi) (length text) = length phi :: range (S (length phi)) (length text)).
  { unfold range. replace (length text - length phi) with (S (length text - S (length phi))) by lia. reflexivity. }
  rewrite ER. cbn [for_in]. unfold body at 1. rewrite get_none by lia. reflexivity.
Qed.
Lemma lcp_release_long plcp sa : length plcp <= length sa ->
  compute_lcp_release plcp sa = compute_lcp plcp (firstn (length plcp) sa).
Proof.
  intros H. rewrite <- lcp_release_eq by (rewrite firstn_length; lia). unfold compute_lcp_release.
  apply for_in_ext_in. intros i lcp Hi. apply in_seq in Hi. rewrite get_firstn by lia. reflexivity.
Qed.
Lemma get_cases {A} (l : list A) i : (exists v, get l i = Ok v) \/ get l i = Panic.
Proof. unfold get. destruct (nth_error l i); eauto. Qed.
Lemma lcp_release_short plcp sa : length sa < length plcp -> compute_lcp_release plcp sa = Panic.
Proof.
  intros H. unfold compute_lcp_release. rewrite (range_split (length sa)) by lia. rewrite for_in_app.
  set (body := fun i lcp => _).
  assert (G : forall l st, Forall (fun i => i < length plcp) l -> length st = length plcp ->
     for_in l body st = Panic \/ exists st', for_in l body st = Ok st' /\ length st' = length plcp).
  { induction l as [|i l IH]; intros st HF L; cbn [for_in]; [right; now exists st|]. inversion HF as [|? ? Hi HF']; subst.
    unfold body at 1 3. destruct (get_cases sa i) as [(s & ->)| ->]; cbn [bind]; [|now left].
    destruct (get_cases plcp s) as [(v & ->)| ->]; cbn [bind]; [|now left]. rewrite set_ok by lia. cbn [bind].
    apply IH; [exact HF'|]. now rewrite upd_length. }
  destruct (G (range 0 (length sa)) (repeat 0 (length plcp))) as [->|(st & -> & L)]; [| |reflexivity|].
  - apply Forall_forall. intros i Hi. apply in_seq in Hi. lia.
  - apply repeat_length.
  - cbn [bind].
    assert (ER : range (length sa) (length plcp) = length sa :: range (S (length sa)) (length plcp)).
    { unfold range. replace (length plcp - length sa) with (S (length plcp - S (length sa))) by lia. reflexivity. }
    rewrite ER. cbn [for_in]. unfold body at 1. rewrite get_none by lia. reflexivity.
Qed.

(** ** count_z *)
Lemma bind_refines {A B} (e e' : res A) (f g : A -> res B) r :
  (forall a, e = Ok a -> e' = Ok a) -> (forall a, e = Ok a -> f a = Ok r -> g a = Ok r) -> bind e f = Ok r -> bind e' g = Ok r.
Proof. intros H1 H2 E. destruct e as [a| |]; cbn [bind] in E; try discriminate. rewrite (H1 a eq_refl). cbn [bind]. auto. Qed.
Lemma plcp_refines text phi r : compute_plcp text phi = Ok r -> compute_plcp_release text phi = Ok r.
Proof.
  intros E. unfold compute_plcp in E. destruct (Nat.eqb_spec (length text) (length phi)); [|discriminate]. exact E.
Qed.
Lemma lcp_refines plcp sa r : compute_lcp plcp sa = Ok r -> compute_lcp_release plcp sa = Ok r.
Proof.
  intros E. unfold compute_lcp in E. destruct (Nat.eqb_spec (length plcp) (length sa)); [|discriminate]. exact E.
Qed.
Lemma prev_refines lcp psv sp r : lz_prev_lcp lcp psv sp = Ok r -> lz_prev_lcp_release lcp psv sp = Ok r.
Proof.
  unfold lz_prev_lcp, lz_prev_lcp_release. apply bind_refines; [auto|]. intros v _. destruct (_ =? _)%N; [auto|].
  intros E. destruct (_ <? _); [exact E|discriminate].
Qed.
Lemma next_refines lcp nsv sp r : lz_next_lcp lcp nsv sp = Ok r -> lz_next_lcp_release lcp nsv sp = Ok r.
Proof.
  unfold lz_next_lcp, lz_next_lcp_release. apply bind_refines; [auto|]. intros v _. destruct (_ =? _)%N; [auto|].
  intros E. destruct (_ <? _); [exact E|discriminate].
Qed.
Lemma sub_u32_ok a b : b < a -> (N.of_nat a < 2 ^ 32)%N -> sub_u32_release a b = a - b.
Proof.
  intros H1 H2. unfold sub_u32_release. change (2 ^ 32)%N with 4294967296%N in H2.
  replace (N.of_nat a + 4294967296 - N.of_nat b)%N with (N.of_nat (a - b) + 1 * 4294967296)%N by lia.
  rewrite N.mod_add by discriminate. rewrite N.mod_small by lia. now rewrite Nat2N.id.
Qed.
Lemma lz77_refines text sa isa lcp nsv psv r : (N.of_nat (length text) < 2 ^ 32)%N ->
  compute_lz77 text sa isa lcp nsv psv = Ok r -> compute_lz77_release text sa isa lcp nsv psv = Ok r.
Proof.
  intros Hn. unfold compute_lz77, compute_lz77_release. apply loop_refines. clear r. intros (i, fs) r.
  destruct (Nat.ltb_spec i (length text)) as [Hi|]; [|auto].
  apply bind_refines; [auto|]. intros sp _. apply bind_refines; [apply prev_refines|]. intros pl _.
  apply bind_refines; [apply next_refines|]. intros nl _. destruct (_ && _); [auto|]. cbv zeta.
  apply bind_refines; [auto|]. intros mp _. intros E.
  destruct (Nat.ltb_spec mp i) as [Hm|]; [|discriminate]. cbn [assert_ bind] in E. rewrite sub_ok in E by lia. cbn [bind] in E.
  rewrite sub_u32_ok by lia. exact E.
Qed.
Lemma count_z_refines sort t r : (N.of_nat (length t) < 2 ^ 32)%N -> count_z_main sort t = Ok r -> count_z_main_release sort t = Ok r.
Proof.
  intros Hn. unfold count_z_main, count_z_main_release. do 4 (apply bind_refines; [auto|]; intros ? _).
  apply bind_refines; [apply plcp_refines|]. intros plcp _. apply bind_refines; [apply lcp_refines|]. intros lcp _.
  intros E. destruct (compute_lz77 t (sort t) a lcp a1 a0) as [fs| |] eqn:EF; cbn [bind] in E; try discriminate.
  apply lz77_refines in EF; [|exact Hn]. rewrite EF. destruct (decode_lz77 fs); cbn [bind] in E; try discriminate.
  destruct (list_eq_dec _ _ _); [exact E|discriminate].
Qed.
Lemma count_z_same sort t : (forall t, is_suffix_array t (sort t)) -> Forall (fun x => x < 256) t -> (N.of_nat (length t) < 2 ^ 32)%N ->
  count_z_main_release sort t = count_z_main sort t.
Proof.
  intros Hs HB Hn. destruct t as [|x t].
  - unfold count_z_main, count_z_main_release. pose proof (proj1 (Hs [])) as HP. apply is_perm_length in HP.
    destruct (sort []) as [|? ?]; [reflexivity|discriminate].
  - destruct (count_z_ok sort (x :: t) Hs ltac:(discriminate) HB Hn) as (fs & E & _). rewrite E. now apply count_z_refines.
Qed.
Lemma structures_same sort t : (forall t, is_suffix_array t (sort t)) ->
  (phi <- compute_phi (sort t) ;; compute_plcp_release t phi) = (phi <- compute_phi (sort t) ;; compute_plcp t phi).
Proof.
  intros Hs. destruct t as [|x t].
  - pose proof (proj1 (Hs [])) as HP. apply is_perm_length in HP. destruct (sort []) as [|? ?]; [reflexivity|discriminate].
  - destruct (lcp_structures' (x :: t) (sort (x :: t)) ltac:(easy) (Hs _)) as (isa & phi & plcp & lcp & E1 & E2 & E3 & E4 & _).
    rewrite E2. cbn [bind]. rewrite E3. now apply plcp_refines.
Qed.
Lemma phi_nil sort : (forall t, is_suffix_array t (sort t)) -> compute_phi (sort []) = Panic.
Proof.
  intros Hs. pose proof (proj1 (Hs [])) as HP. apply is_perm_length in HP. destruct (sort []) as [|? ?]; [reflexivity|discriminate].
Qed.
Lemma count_lexparse_same sort t : (forall t, is_suffix_array t (sort t)) ->
  count_lexparse_main_release sort t = count_lexparse_main sort t.
Proof.
  intros Hs. unfold count_lexparse_main_release, count_lexparse_main. destruct t as [|x t].
  - rewrite phi_nil by exact Hs. reflexivity.
  - destruct (lcp_structures' (x :: t) (sort (x :: t)) ltac:(easy) (Hs _)) as (isa & phi & plcp & lcp & E1 & E2 & E3 & E4 & _).
    rewrite E2. cbn [bind]. rewrite E3, (plcp_refines _ _ _ E3). reflexivity.
Qed.
Lemma mus_same sort t : (forall t, is_suffix_array t (sort t)) -> mus_main_release sort t = mus_main sort t.
Proof.
  intros Hs. unfold mus_main_release, mus_main. destruct t as [|x t].
  - rewrite phi_nil by exact Hs. reflexivity.
  - destruct (lcp_structures' (x :: t) (sort (x :: t)) ltac:(easy) (Hs _)) as (isa & phi & plcp & lcp & E1 & E2 & E3 & E4 & _).
    rewrite E1, E2. cbn [bind]. rewrite E3, (plcp_refines _ _ _ E3). cbn [bind]. rewrite E4, (lcp_refines _ _ _ E4). reflexivity.
Qed.

(** ** is_stringattractor *)
Lemma intervals_refines t sa lcp r : lcp_intervals t sa lcp = Ok r -> lcp_intervals_release t sa lcp = Ok r.
Proof.
  unfold lcp_intervals, lcp_intervals_release. do 4 (apply bind_refines; [auto|]; intros ? _).
  apply bind_refines; [auto|]. intros ((nodes, path), edges) _. intros E.
  destruct (pop_rest t sa nodes path edges) as [(nodes', edges')| |]; cbn [bind] in E; try discriminate.
  match type of E with bind ?e _ = _ => destruct e; cbn [bind] in E; try discriminate end. exact E.
Qed.
Lemma zero_lcp1 s sa lcp : is_suffix_array (s ++ [0]) sa -> In 0 s ->
  (forall i, 0 < i < length (s ++ [0]) -> lcpv (s ++ [0]) (nth (i - 1) sa 0) (nth i sa 0) (nth i lcp 0)) -> 1 <= nth 1 lcp 0.
Proof.
  intros Hsort H0 Hl. set (t := s ++ [0]) in *.
  assert (En : length t = S (length s)) by (unfold t; rewrite app_length; simpl; lia).
  assert (Ls : 0 < length s) by (destruct s; [easy|simpl; lia]).
  pose proof (proj1 Hsort) as HP. pose proof (is_perm_length _ _ HP) as Lsa. pose proof (rank_of_0 s sa Hsort) as R0.
  destruct (In_nth _ _ 0 H0) as (z & Hz & Ez).
  assert (Tz : nth z t 0 = 0) by (unfold t; now rewrite app_nth1).
  assert (Tn : nth (length s) t 0 = 0) by (unfold t; rewrite app_nth2, Nat.sub_diag by lia; reflexivity).
  destruct (is_perm_surj _ _ z HP ltac:(lia)) as (k & Hk & Ek).
  assert (Hk0 : k <> 0) by (intros ->; lia).
  assert (AG : agree t (nth 0 sa 0) (nth k sa 0) 1).
  { rewrite R0, Ek. split; [lia|]. split; [lia|]. intros x Hx. replace x with 0 by lia. rewrite !Nat.add_0_r. congruence. }
  pose proof (is_perm_nth _ _ 1 HP ltac:(lia)) as B1.
  destruct (agree_sandwich t (nth 0 sa 0) (nth 1 sa 0) (nth k sa 0) 1) as (G & _); try lia; auto.
  - right. apply sa_lt; auto. lia.
  - destruct (Nat.eq_dec k 1) as [->|]; [now left|]. right. apply sa_lt; auto. lia.
  - exact (lcpv_max _ _ _ _ _ (Hl 1 ltac:(lia)) G).
Qed.
Lemma zero_intervals s sa lcp : is_suffix_array (s ++ [0]) sa -> length lcp = S (length s) -> 0 < length s -> 1 <= nth 1 lcp 0 ->
  lcp_intervals (s ++ [0]) sa lcp = Panic /\ lcp_intervals_release (s ++ [0]) sa lcp = Panic.
Proof.
  intros Hsort Ll Ls L1. set (t := s ++ [0]) in *.
  assert (En : length t = S (length s)) by (unfold t; rewrite app_length; simpl; lia).
  pose proof (proj1 Hsort) as HP. pose proof (is_perm_length _ _ HP) as Lsa. pose proof (rank_of_0 s sa Hsort) as R0.
  unfold lcp_intervals, lcp_intervals_release. rewrite En.
  rewrite sub_ok by lia. cbn [bind]. rewrite (get_ok sa 0 0) by lia. rewrite R0. cbn [bind].
  rewrite sub_ok by lia. cbn [bind]. rewrite sub_ok by lia. cbn [bind].
  replace (S (length s) - length s - 1) with 0 by lia.
  assert (ER : range 1 (S (length s)) = 1 :: range 2 (S (length s))).
  { unfold range. destruct (length s) as [|m]; [lia|]. cbn [Nat.sub]. now rewrite Nat.sub_0_r. }
  rewrite ER. cbn [for_in].
  assert (E : interval_step t sa lcp 1 ([Node 0 0 (S (length s) - 1); Node 0 0 0], [1; 0], []) = Panic).
  { unfold interval_step. unfold pop_loop. cbn [length loop]. rewrite (get_ok lcp 1 0) by lia. cbn [bind get nth_error nd_depth].
    destruct (Nat.ltb_spec (nth 1 lcp 0) 0); [lia|]. cbn [bind get nth_error nd_depth].
    destruct (Nat.ltb_spec 0 (nth 1 lcp 0)); [|lia]. reflexivity. }
  rewrite E. split; reflexivity.
Qed.
Lemma intervals_same s sa lcp : is_suffix_array (s ++ [0]) sa -> length lcp = length (s ++ [0]) ->
  (forall i, 0 < i < length (s ++ [0]) -> lcpv (s ++ [0]) (nth (i - 1) sa 0) (nth i sa 0) (nth i lcp 0)) ->
  lcp_intervals_release (s ++ [0]) sa lcp = lcp_intervals (s ++ [0]) sa lcp.
Proof.
  intros Hsort Ll Hl.
  assert (En : length (s ++ [0]) = S (length s)) by (rewrite app_length; simpl; lia).
  pose proof (proj1 Hsort) as HP. pose proof (is_perm_length _ _ HP) as Lsa.
  destruct (in_dec Nat.eq_dec 0 s) as [H0|H0].
  - assert (Ls : 0 < length s) by (destruct s; [easy|simpl; lia]).
    destruct (zero_intervals s sa lcp Hsort ltac:(lia) Ls (zero_lcp1 s sa lcp Hsort H0 Hl)) as (-> & ->). reflexivity.
  - assert (HF : Forall (fun x => x <> 0) s) by (apply Forall_forall; intros x Hx ->; contradiction).
    destruct s as [|c s].
    + pose proof (rank_of_0 [] sa Hsort) as R0. cbn [app length] in *. destruct sa as [|a [|? ?]]; try discriminate. cbn [nth] in R0. subst a.
      reflexivity.
    + destruct (lcp_intervals_ok ((c :: s) ++ [0]) sa lcp (length ((c :: s) ++ [0]))) as (r & EQI & _); auto.
      { rewrite En. simpl; lia. }
      { intros k Hk. now apply is_perm_nth. }
      { exact (attr_sa0 (c :: s) sa lcp HF Hsort Ll). }
      { intros k Hk. apply (attr_lcp1 (c :: s) sa lcp HF Hsort Ll); auto. }
      { intros k Hk. apply (attr_lcp2 (c :: s) sa lcp HF Hsort Ll); auto. }
      rewrite EQI. now apply intervals_refines.
Qed.
Lemma is_attractor_same sort s A : (forall t, is_suffix_array t (sort t)) ->
  is_attractor_io_release sort (s ++ [0]) A = is_attractor_io sort (s ++ [0]) A.
Proof.
  intros Hs. unfold is_attractor_io_release, is_attractor_io.
  destruct (lcp_structures' (s ++ [0]) (sort (s ++ [0])) ltac:(destruct s; easy) (Hs _)) as
    (isa & phi & plcp & lcp & E1 & E2 & E3 & E4 & HPi & HPp & Lp & Ll & Hi1 & Hi2 & Hp1 & Hp0 & Hplcp & Hl & Hl0).
  rewrite E2. cbn [bind]. rewrite E3, (plcp_refines _ _ _ E3). cbn [bind]. rewrite E4, (lcp_refines _ _ _ E4). cbn [bind].
  rewrite intervals_same by auto. reflexivity.
Qed.
Lemma attractor_main_same sort f content p A : (forall t, is_suffix_array t (sort t)) ->
  is_stringattractor_main_release sort f content p A = is_stringattractor_main sort f content p A.
Proof.
  intros Hs. unfold is_stringattractor_main_release, is_stringattractor_main.
  destruct (file_or_stdin2byte_vector f content p) as [t| |]; cbn [bind]; [|reflexivity|reflexivity].
  now rewrite is_attractor_same.
Qed.

(** ** lyndonfactorization *)
Lemma lyndonfactorization_debug_same sort f content p wo : (forall t, is_suffix_array t (sort t)) ->
  lyndonfactorization_main_debug sort f content p wo = lyndonfactorization_main f content p wo.
Proof.
  intros Hs. unfold lyndonfactorization_main_debug, lyndonfactorization_main.
  destruct (file_or_stdin2byte_vector f content p) as [t| |]; cbn [bind]; [|reflexivity|reflexivity].
  destruct (duval t) as [fs| |] eqn:ED; cbn [bind]; [|reflexivity|reflexivity].
  destruct (last_ fs) as [l| |] eqn:EL; cbn [bind]; [|reflexivity|reflexivity].
  destruct (Nat.eqb_spec (l + 1) (length t)) as [El|]; cbn [assert_ bind]; [|reflexivity].
  assert (Hne : t <> []) by (intros ->; simpl in El; lia).
  assert (EC : (isa <- inverse_permutation (sort t) ;; fs' <- isa_lyndon_factorization isa ;;
      assert_ (if list_eq_dec Nat.eq_dec fs fs' then true else false)) = Ok tt).
  { destruct (inverse_permutation_spec _ _ (proj1 (Hs t))) as (isa & EI & _). rewrite EI. cbn [bind].
    rewrite (isa_lyndon_correct t (sort t) isa Hne (Hs t) EI), ED. cbn [bind]. destruct (list_eq_dec _ _ _); [reflexivity|contradiction]. }
  destruct (inverse_permutation (sort t)) as [isa| |] eqn:EI; cbn [bind] in EC; try discriminate.
  destruct (isa_lyndon_factorization isa) as [fs'| |] eqn:EF; cbn [bind] in EC; try discriminate.
  destruct wo.
  - destruct (lyndon_file t fs) as [out| |]; cbn [bind]; [|reflexivity|reflexivity]. rewrite EF. cbn [bind].
    destruct (list_eq_dec _ _ _); [reflexivity|discriminate].
  - cbn [bind]. rewrite EF. cbn [bind]. destruct (list_eq_dec _ _ _); [reflexivity|discriminate].
Qed.
