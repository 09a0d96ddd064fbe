(** RenameProof.v : what does not change when the letters of a text are renamed. *)
From Verif Require Import Base SpecStr SpecBwt SpecRename LexFacts ModelCore PermFacts SortFacts LcpProof SpecLz SpecAttr
  DuvalProof LyndonProof BwtFacts BwtProof BbwtProof ModelLz MusProof ModelWord.
From Coq Require Import NArith.

Lemma order_letters f t : keeps_order f t -> keeps_letters f t.
Proof.
  intros H x y Hx Hy E. destruct (Nat.lt_trichotomy x y) as [L|[?|L]]; [|assumption|].
  - specialize (H x y Hx Hy L). lia.
  - specialize (H y x Hy Hx L). lia.
Qed.
Lemma order_iff f t x y : keeps_order f t -> In x t -> In y t -> (f x < f y <-> x < y).
Proof.
  intros H Hx Hy. split; [|now apply H]. intros L. destruct (Nat.lt_trichotomy x y) as [?|[->|L2]]; [assumption|lia|].
  specialize (H y x Hy Hx L2). lia.
Qed.
Lemma keeps_letters_incl f t u : keeps_letters f t -> incl u t -> keeps_letters f u.
Proof. intros H I x y Hx Hy. apply H; auto. Qed.
Lemma keeps_order_incl f t u : keeps_order f t -> incl u t -> keeps_order f u.
Proof. intros H I x y Hx Hy. apply H; auto. Qed.

Lemma incl_skipn (t : str) i : incl (skipn i t) t.
Proof. intros x Hx. rewrite <- (firstn_skipn i t). apply in_or_app. now right. Qed.
Lemma incl_firstn (t : str) i : incl (firstn i t) t.
Proof. intros x Hx. rewrite <- (firstn_skipn i t). apply in_or_app. now left. Qed.
Lemma incl_rot (t : str) i : incl (rot i t) t.
Proof. apply incl_app; [apply incl_skipn|apply incl_firstn]. Qed.
Lemma map_rot f t i : map f (rot i t) = rot i (map f t).
Proof. unfold rot. now rewrite map_app, firstn_map, skipn_map. Qed.

Section Letters.
Context (f : nat -> nat) (t : str) (Hf : keeps_letters f t).
Lemma map_inj u v : incl u t -> incl v t -> map f u = map f v -> u = v.
Proof.
  revert v. induction u as [|x u IH]; intros [|y v] Iu Iv E; try discriminate; [reflexivity|].
  cbn [map] in E. injection E as E1 E2. f_equal.
  - apply Hf; auto; [apply Iu|apply Iv]; now left.
  - apply IH; auto; intros z Hz; [apply Iu|apply Iv]; now right.
Qed.
Lemma nth_map_in i : i < length t -> nth i (map f t) 0 = f (nth i t 0).
Proof. intros H. rewrite (nth_indep _ 0 (f 0)) by now rewrite map_length. apply map_nth. Qed.
Lemma nth_eq_iff i j : i < length t -> j < length t -> (nth i (map f t) 0 = nth j (map f t) 0 <-> nth i t 0 = nth j t 0).
Proof.
  intros Hi Hj. rewrite !nth_map_in by auto. split; [|intros ->; reflexivity]. apply Hf; now apply nth_In.
Qed.
End Letters.

Section Order.
Context (f : nat -> nat) (t : str) (Hf : keeps_order f t).
Lemma lex_lt_map u v : incl u t -> incl v t -> lex_lt u v -> lex_lt (map f u) (map f v).
Proof.
  intros Iu Iv H. revert Iu Iv. induction H as [y ys|x y xs ys L|x xs ys L IH]; intros Iu Iv; cbn [map].
  - constructor.
  - constructor. apply Hf; auto; [apply Iu|apply Iv]; now left.
  - apply lex_tail. apply IH; intros z Hz; [apply Iu|apply Iv]; now right.
Qed.
Lemma lex_le_map u v : incl u t -> incl v t -> lex_le u v -> lex_le (map f u) (map f v).
Proof. intros Iu Iv [->|H]; [now left|right; now apply lex_lt_map]. Qed.
Lemma lyndon_map w : incl w t -> lyndon w -> lyndon (map f w).
Proof.
  intros I (Hne & H). split; [destruct w; [contradiction|easy]|]. intros u v E Hu Hv.
  apply map_eq_app in E. destruct E as (u' & v' & E & <- & <-).
  apply lex_lt_map; [exact I| |].
  - intros z Hz. apply I. rewrite E. apply in_or_app. now right.
  - apply (H u' v' E); intros ->; [now apply Hu|now apply Hv].
Qed.
Lemma factorization_map fs : lyndon_factorization t fs -> lyndon_factorization (map f t) (map (map f) fs).
Proof.
  intros (E & HL & HN). assert (I : Forall (fun w => incl w t) fs).
  { apply Forall_forall. intros w Hw z Hz. rewrite <- E. apply in_concat. eauto. }
  split; [now rewrite <- concat_map, E|]. split.
  - rewrite Forall_map. rewrite Forall_forall in *. intros w Hw. apply lyndon_map; auto.
  - clear E HL. induction fs as [|u fs IH]; [exact Logic.I|]. cbn [map non_increasing] in *. destruct HN as (H1 & H2).
    inversion I as [|? ? Iu Ir]; subst. split; [|now apply IH].
    destruct fs as [|v fs]; [exact Logic.I|]. cbn [map]. inversion Ir; subst. now apply lex_le_map.
Qed.
Lemma suffix_array_map sa : is_suffix_array t sa -> is_suffix_array (map f t) sa.
Proof.
  intros (HP & HS). split; [now rewrite map_length|].
  apply (StronglySorted_imp_in (fun i j => lex_lt (skipn i t) (skipn j t))); [|exact HS].
  intros i j _ _ H. rewrite !skipn_map. apply lex_lt_map; auto; apply incl_skipn.
Qed.
Lemma rotations_map u : rotations (map f u) = map (map f) (rotations u).
Proof. unfold rotations. rewrite map_length, map_map. apply map_ext. intros i. symmetry. apply map_rot. Qed.
Lemma last_map u : u <> [] -> last (map f u) 0 = f (last u 0).
Proof.
  intros H. destruct (exists_last H) as (u' & c & ->). rewrite map_app. cbn [map]. now rewrite !last_last.
Qed.
Lemma rotations_in u r : In r (rotations u) -> incl r u /\ (u <> [] -> r <> []) /\ length r = length u.
Proof.
  intros H. apply in_map_iff in H. destruct H as (i & <- & Hi). split; [apply incl_rot|].
  assert (L : length (rot i u) = length u) by (unfold rot; rewrite app_length, skipn_length, firstn_length; apply in_seq in Hi; lia).
  split; [|exact L]. intros Hu E. rewrite E in L. destruct u; [contradiction|discriminate].
Qed.
Lemma matrix_bwt_map b : t <> [] -> is_matrix_bwt t b -> is_matrix_bwt (map f t) (map f b).
Proof.
  intros Hne (M & HP & HS & ->). exists (map (map f) M). split; [|split].
  - rewrite rotations_map. now apply Permutation_map.
  - apply (StronglySorted_map (fun a b => lex_le a b /\ In a M /\ In b M)).
    + intros a b (H & Ha & Hb). apply lex_le_map; auto; apply rotations_in; now apply (Permutation_in _ HP).
    + apply (StronglySorted_imp_in lex_le); [|exact HS]. auto.
  - rewrite !map_map. apply map_ext_in. intros r Hr. symmetry. apply last_map. apply (rotations_in t r); [|exact Hne].
    now apply (Permutation_in _ HP).
Qed.
Lemma omega_prefix_map k w : w <> [] -> omega_prefix k (map f w) = map f (omega_prefix k w).
Proof.
  intros Hw. unfold omega_prefix. rewrite map_map, map_length. apply map_ext. intros i. apply nth_map_in.
  apply Nat.mod_upper_bound. destruct w; [contradiction|easy].
Qed.
Lemma omega_prefix_incl k w : w <> [] -> incl (omega_prefix k w) w.
Proof.
  intros Hw x Hx. apply in_map_iff in Hx. destruct Hx as (i & <- & _). apply nth_In.
  apply Nat.mod_upper_bound. destruct w; [contradiction|easy].
Qed.
Lemma omega_le_map u v : u <> [] -> v <> [] -> incl u t -> incl v t -> omega_le u v -> omega_le (map f u) (map f v).
Proof.
  intros Hu Hv Iu Iv H k. rewrite !omega_prefix_map by auto.
  apply lex_le_map; [eapply incl_tran; [now apply omega_prefix_incl|auto]..|apply H].
Qed.
Lemma flat_rotations_map fs : flat_map rotations (map (map f) fs) = map (map f) (flat_map rotations fs).
Proof. induction fs as [|u fs IH]; [reflexivity|]. cbn [map flat_map]. now rewrite rotations_map, IH, map_app. Qed.
Lemma bijective_bwt_map b : is_bijective_bwt t b -> is_bijective_bwt (map f t) (map f b).
Proof.
  intros (fs & W & HF & HP & HS & ->). exists (map (map f) fs), (map (map f) W).
  assert (HW : forall r, In r W -> incl r t /\ r <> []).
  { intros r Hr. apply (Permutation_in _ HP) in Hr. apply in_flat_map in Hr. destruct Hr as (u & Hu & Hr).
    destruct HF as (E & HL & _). destruct (rotations_in u r Hr) as (I & Hne & _). split.
    - eapply incl_tran; [exact I|]. intros z Hz. rewrite <- E. apply in_concat. eauto.
    - apply Hne. rewrite Forall_forall in HL. apply (HL u Hu). }
  split; [now apply factorization_map|]. split; [rewrite flat_rotations_map; now apply Permutation_map|]. split.
  - apply (StronglySorted_map (fun a b => omega_le a b /\ In a W /\ In b W)).
    + intros a b (H & Ha & Hb). apply omega_le_map; auto; now apply HW.
    + apply (StronglySorted_imp_in omega_le); [|exact HS]. auto.
  - rewrite !map_map. apply map_ext_in. intros r Hr. symmetry. apply last_map. now apply HW.
Qed.
End Order.

Lemma ends_from_map f fs : forall a, ends_from a (map (map f) fs) = ends_from a fs.
Proof. induction fs as [|u fs IH]; intros a; [reflexivity|]. cbn [map ends_from]. now rewrite map_length, IH. Qed.
Lemma get_map {A B} (f : A -> B) t i : get (map f t) i = (x <- get t i ;; Ok (f x)).
Proof.
  unfold get. rewrite nth_error_map. destruct (nth_error t i); reflexivity.
Qed.

(** lcp, LZ77 and lexparse *)
Section Lcp.
Context (f : nat -> nat) (t : str) (Hf : keeps_letters f t).
Lemma agree_map a b l : agree (map f t) a b l <-> agree t a b l.
Proof.
  unfold agree. rewrite map_length. split; intros (A1 & A2 & A3); (split; [lia|split; [lia|]]); intros x Hx; specialize (A3 x Hx);
    apply (nth_eq_iff f t Hf) in A3; auto; lia.
Qed.
Lemma lcpv_map a b l : lcpv (map f t) a b l <-> lcpv t a b l.
Proof.
  unfold lcpv. rewrite agree_map, map_length. split; intros (H1 & H2); (split; [exact H1|]); intros Ha Hb E; apply (H2 Ha Hb);
    now apply (nth_eq_iff f t Hf).
Qed.
Lemma plcp_map sa phi : t <> [] -> is_suffix_array t sa -> is_suffix_array (map f t) sa -> compute_phi sa = Ok phi ->
  compute_plcp (map f t) phi = compute_plcp t phi.
Proof.
  intros Hne H1 H2 E. assert (Hne2 : map f t <> []) by (destruct t; [contradiction|easy]).
  destruct (lcp_structures' t sa Hne H1) as (isa & phi1 & plcp & lcp & E1 & E2 & E3 & E4 & HPi & HPp & Lp & Ll & Hi1 & Hi2 & Hp1 & Hp0 & Hplcp & _ & _).
  destruct (lcp_structures' (map f t) sa Hne2 H2) as (isa' & phi1' & plcp' & lcp' & E1' & E2' & E3' & E4' & HPi' & HPp' & Lp' & Ll' & Hi1' & Hi2' & Hp1' & Hp0' & Hplcp' & _ & _).
  rewrite E in E2, E2'. injection E2 as <-. injection E2' as <-. rewrite E3, E3'. f_equal. rewrite map_length in *.
  apply (nth_ext_len _ _ 0); [congruence|]. intros i Hi. rewrite Lp' in Hi.
  apply (lcpv_unique t (nth i phi 0) i); [|now apply Hplcp]. apply lcpv_map. apply Hplcp'. lia.
Qed.
Lemma same_substring_map j i l : same_substring (map f t) j i l <-> same_substring t j i l.
Proof. apply agree_map. Qed.
End Lcp.

Lemma loop_sim {S S' A A'} (h : S -> S') (k : A -> A') (b : S -> res (ctl S A)) (b' : S' -> res (ctl S' A')) :
  (forall s, b' (h s) = (c <- b s ;; Ok (match c with Cont s => Cont (h s) | Brk a => Brk (k a) end))) ->
  forall fuel s, loop fuel b' (h s) = (a <- loop fuel b s ;; Ok (k a)).
Proof.
  intros H. induction fuel as [|fuel IH]; intros s; [reflexivity|]. cbn [loop]. rewrite H.
  destruct (b s) as [[s'|a]| |]; cbn [bind]; auto.
Qed.
Lemma loop_ext {S A} (b b' : S -> res (ctl S A)) : (forall s, b' s = b s) -> forall fuel s, loop fuel b' s = loop fuel b s.
Proof.
  intros H. induction fuel as [|fuel IH]; intros s; [reflexivity|]. cbn [loop]. rewrite H.
  destruct (b s) as [[s'|a]| |]; cbn [bind]; auto.
Qed.

Lemma rename_copy f p l : l <> 0 -> rename_factor f (LZ p l) = LZ p l.
Proof. intros H. unfold rename_factor. cbn [lz_len]. destruct (Nat.eqb_spec l 0); [contradiction|reflexivity]. Qed.
Lemma lexparse_map f t plcp phi : compute_lexparse (map f t) plcp phi = (fs <- compute_lexparse t plcp phi ;; Ok (map (rename_factor f) fs)).
Proof.
  unfold compute_lexparse. rewrite map_length.
  apply (loop_sim (fun '(i, fs) => (i, map (rename_factor f) fs)) (map (rename_factor f)) _ _) with (s := (0, [])).
  intros (i, fs). destruct (i <? length t); [|reflexivity]. destruct (get plcp i) as [l| |]; cbn [bind]; try reflexivity.
  destruct (Nat.eqb_spec l 0) as [E|E].
  - rewrite get_map. destruct (get t i) as [c| |]; cbn [bind]; try reflexivity. now rewrite map_app.
  - destruct (get phi i) as [p| |]; cbn [bind]; try reflexivity. rewrite map_app. cbn [map]. now rewrite rename_copy.
Qed.
Lemma lz77_map f t sa isa lcp nsv psv :
  compute_lz77 (map f t) sa isa lcp nsv psv = (fs <- compute_lz77 t sa isa lcp nsv psv ;; Ok (map (rename_factor f) fs)).
Proof.
  unfold compute_lz77. rewrite map_length.
  apply (loop_sim (fun '(i, fs) => (i, map (rename_factor f) fs)) (map (rename_factor f)) _ _) with (s := (0, [])).
  intros (i, fs). destruct (i <? length t); [|reflexivity]. destruct (get isa i) as [sp| |]; cbn [bind]; try reflexivity.
  destruct (lz_prev_lcp lcp psv sp) as [p| |]; cbn [bind]; try reflexivity.
  destruct (lz_next_lcp lcp nsv sp) as [n| |]; cbn [bind]; try reflexivity.
  destruct ((p =? 0) && (n =? 0)) eqn:E0.
  - rewrite get_map. destruct (get t i) as [c| |]; cbn [bind]; try reflexivity. now rewrite map_app.
  - cbv zeta. destruct (if p <? n then v <- get nsv sp;; get sa (N.to_nat v) else v <- get psv sp;; get sa (N.to_nat v)) as [m| |]; cbn [bind]; try reflexivity.
    destruct (assert_ (m <? i)) as [[]| |]; cbn [bind]; try reflexivity.
    destruct (sub_ i m) as [d| |]; cbn [bind]; try reflexivity.
    rewrite map_app. cbn [map]. rewrite rename_copy; [reflexivity|]. intros E.
    apply andb_false_iff in E0. rewrite !Nat.eqb_neq in E0. destruct (Nat.ltb_spec p n); lia.
Qed.
Lemma necklace_map f t n : keeps_order f t -> is_necklace (map f t) n = is_necklace t n.
Proof.
  intros Hf. unfold is_necklace. rewrite map_length. f_equal. apply loop_ext. intros (i, j).
  destruct (j =? n); [reflexivity|]. rewrite !get_map.
  destruct (get t i) as [a| |] eqn:Ea; cbn [bind]; try reflexivity.
  destruct (get t j) as [b| |] eqn:Eb; cbn [bind]; try reflexivity.
  assert (G : forall i x, get t i = Ok x -> In x t).
  { intros k x. unfold get. destruct (nth_error t k) eqn:E; [|discriminate]. intros H. injection H as <-. eapply nth_error_In; eauto. }
  pose proof (G _ _ Ea) as Ha. pose proof (G _ _ Eb) as Hb. clear Ea Eb.
  pose proof (order_iff f t a b Hf Ha Hb) as H1. pose proof (order_iff f t b a Hf Hb Ha) as H2.
  replace (f a <=? f b) with (a <=? b) by (destruct (Nat.leb_spec a b), (Nat.leb_spec (f a) (f b)); try reflexivity; lia).
  replace (f a <? f b) with (a <? b) by (destruct (Nat.ltb_spec a b), (Nat.ltb_spec (f a) (f b)); try reflexivity; lia).
  destruct (a <=? b); [|reflexivity]. cbv zeta. rewrite !get_map.
  destruct (get t (if a <? b then 0 else i)) as [c| |] eqn:Ec; cbn [bind]; try reflexivity. apply G in Ec.
  replace (f c =? f b) with (c =? b); [reflexivity|].
  destruct (Nat.eqb_spec c b), (Nat.eqb_spec (f c) (f b)) as [E|E]; try reflexivity; [congruence|].
  apply (order_letters f t Hf) in E; auto.
Qed.
