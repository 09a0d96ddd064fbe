(** AttrProof3.v : the output and exit status of bin/is_stringattractor.rs. *)
From Verif Require Import Base SpecStr LexFacts ModelCore PermFacts SortFacts LcpProof ModelLz SpecLz LzProof MusProof ModelIo
  ModelMain MainProof2 SpecMain ModelAttr SpecAttr AttrProof AttrOrder AttrProof2.
From Coq Require Import Sorting.Sorted.

(** no occurrence of the substring contains a position of A *)
Definition uncovered_at (s : str) (A : list nat) (i l : nat) : Prop :=
  forall j a, same_substring s j i l -> In a A -> ~ (j <= a < j + l).

Lemma sorted_filter_map {X Y} (R : X -> X -> Prop) (R' : Y -> Y -> Prop) (f : X -> Y) (q : X -> bool) l :
  (forall a b, In a l -> In b l -> R a b -> R' (f a) (f b)) -> StronglySorted R l -> StronglySorted R' (map f (filter q l)).
Proof.
  induction l as [|a l IH]; intros H HS; [constructor|]. inversion HS as [|? ? HS1 HF]; subst.
  assert (IH' : StronglySorted R' (map f (filter q l))) by (apply IH; [intros x y Hx Hy; apply H; now right|exact HS1]).
  cbn [filter]. destruct (q a); [|exact IH']. cbn [map]. constructor; [exact IH'|]. apply Forall_forall. intros y Hy. apply in_map_iff in Hy.
  destruct Hy as (x & <- & Hx). apply filter_In in Hx. destruct Hx as (Hx & _). rewrite Forall_forall in HF. apply H; [now left|now right|now apply HF].
Qed.
Lemma io_run_any sort s A : (forall t, is_suffix_array t (sort t)) -> s <> [] ->
  Forall (fun x => x <> 0) s -> Forall (fun a => a <= length s) A ->
  exists ws, is_attractor_io sort (s ++ [0]) A = (if forallb utf8_valid ws then
      Ok (match ws with [] => true | _ => false end, concat (map not_covered_line ws)) else Panic) /\
    (forall w, In w ws -> (w = [0] /\ A = []) \/ reported s A w) /\
    (forall w, reported s A w -> In w ws) /\
    (forall i l, 1 <= l -> i + l <= length s -> uncovered_at s A i l -> exists l', 1 <= l' <= l /\ In (firstn l' (skipn i s)) ws) /\
    (A = [] -> In [0] ws) /\
    (exists ws0, ws = ws0 ++ (match A with [] => [[0]] | _ => [] end) /\ StronglySorted before ws0 /\ ~ In [0] ws0).
Proof.
  intros Hsort Hne HF HA. unfold is_attractor_io. set (t := s ++ [0]).
  assert (En : length t = S (length s)) by (unfold t; rewrite app_length; simpl; lia).
  assert (Htne : t <> []) by (intros E0; rewrite E0 in En; discriminate).
  destruct (Nat.ltb_spec 0 (length t)); [|lia]. cbn [assert_ bind].
  unfold last_. unfold t at 1. rewrite rev_app_distr. cbn [rev app bind Nat.eqb assert_].
  assert (Hass : for_in A (fun a (_ : unit) => assert_ (a <? length t)) tt = Ok tt).
  { clear -HA En. induction HA as [|a A Ha HA IH]; cbn [for_in]; auto.
    destruct (Nat.ltb_spec a (length t)); [|lia]. exact IH. }
  rewrite Hass. cbn [bind]. specialize (Hsort t). set (sa := sort t) in *. clearbody sa.
  destruct (lcp_structures' t sa Htne Hsort) as (isa & phi & plcp & lcp & E1 & E2 & E3 & E4 & HPi & HPp & Lp & Ll & Hi1 & Hi2 & Hp1 & Hp0 & Hplcp & Hl & Hl0).
  rewrite E2. cbn [bind]. rewrite E3. cbn [bind]. rewrite E4. cbn [bind].
  pose proof Hsort as (HP & _). pose proof (is_perm_length _ _ HP) as Lsa.
  destruct (lcp_intervals_ok t sa lcp (length t)) as ((nodes & edges) & EQI & Hed & Hroot & Hcov); auto.
  { intros k Hk. now apply is_perm_nth. }
  { exact (attr_sa0 s sa lcp HF Hsort Ll). }
  { intros k Hk. apply (attr_lcp1 s sa lcp HF Hsort Ll); auto. }
  { intros k Hk. apply (attr_lcp2 s sa lcp HF Hsort Ll); auto. }
  destruct (intervals_order t sa lcp (length t) ltac:(lia) eq_refl Ll Lsa (attr_sa0 s sa lcp HF Hsort Ll) ltac:(intros k Hk; apply (attr_lcp1 s sa lcp HF Hsort Ll); auto) _ EQI)
    as (es0 & Ees & HSo & HDs & DD1 & DD0).
  rewrite EQI. cbn [bind].
  assert (HA' : Forall (fun a => a < length t) A) by (eapply Forall_impl; [|exact HA]; cbv beta; lia).
  destruct (set_bits (length t) A HA' (repeat false (length t)) (repeat_length _ _)) as (bits & -> & Lb & Hb).
  cbn [bind].
  destruct (dists_ok (length t) sa A bits Lsa) as (d & -> & Ld & Hd); auto.
  { intros k Hk. now apply is_perm_nth. }
  { intros x. rewrite Hb. split; [intros [|E0]; auto|auto]. exfalso.
    destruct (Nat.lt_ge_cases x (length t)) as [Hx|Hx].
    - rewrite nth_repeat in E0. discriminate.
    - rewrite nth_overflow in E0 by now rewrite repeat_length. discriminate. }
  cbn [bind].
  pose proof (edge_inside s sa lcp Hsort Ll nodes edges d Hed Ld) as EI.
  pose proof (edge_covered s sa isa lcp Hsort HPi Hi2 Ll Hl A nodes edges d Hed Ld Hd) as EC.
  pose proof (sub_edge_max s sa isa lcp HF Hsort HPi Hi2 Ll Hl A nodes edges d Hed Hcov Ld Hd) as SM.
  pose proof (edge_before s sa lcp Hsort Ll Hl nodes edges d Hed Ld) as EBF.
  pose proof (edge_branch s sa lcp HF Hsort Ll Hl nodes edges d Hed Ld) as EB.
  pose proof (sub_edge s sa isa lcp HF Hsort HPi Hi2 Ll Hl A nodes edges d Hed Hcov Ld Hd) as SE.
  pose proof (root_edge s sa isa lcp Hsort HPi Hi2 Ll A nodes edges d HA' Hed Ld Hd) as RE.
  pose proof (edge_rmq s sa lcp Hsort Ll nodes edges d Hed Ld) as ER.
  assert (R0 : nth 0 sa 0 = length s) by (pose proof (attr_sa0 s sa lcp HF Hsort Ll) as R0; fold t in R0; rewrite R0; lia).
  assert (Dr : forall p c, In (p, c) edges -> B nodes c = 0 -> D nodes p = 0).
  { intros p c Hin HB. destruct (Hed p c Hin) as (_ & _ & [(Q & _)|((_ & _ & _ & Q & _) & _)]); [exact Q|lia]. }
  clear EQI E1 E2 E3 E4 HPi HPp Lp Hi1 Hi2 Hp1 Hp0 Hplcp Hl0 Hcov Hb Hass.
  set (word := fun '((p, c) : nat * nat) =>
    firstn (Nat.min (nth (B nodes c) sa 0 + (D nodes p + 1)) (length t) - nth (B nodes c) sa 0) (skipn (nth (B nodes c) sa 0) t)).
  set (unc := fun '((p, c) : nat * nat) => match rmq d (B nodes c) (E nodes c + 1) with Ok m => D nodes p + 1 <=? m | _ => false end).
  assert (Hunc : forall p c, unc (p, c) = false -> In (p, c) edges -> covered nodes d p c).
  { intros p c Hu Hin. destruct (ER p c Hin) as (m & Em & _). unfold unc in Hu. rewrite Em in Hu. apply Nat.leb_gt in Hu.
    exists m. auto. }
  assert (Hunc2 : forall p c, unc (p, c) = true -> ~ covered nodes d p c).
  { intros p c Hu (m & Em & Hm). unfold unc in Hu. rewrite Em in Hu. apply Nat.leb_le in Hu. lia. }
  assert (Hw : forall p c, In (p, c) edges -> B nodes c <> 0 -> word (p, c) = firstn (D nodes p + 1) (skipn (nth (B nodes c) sa 0) s)).
  { intros p c Hin HB. specialize (EI p c Hin HB). unfold word. rewrite Nat.min_l by lia.
    replace (nth (B nodes c) sa 0 + (D nodes p + 1) - nth (B nodes c) sa 0) with (D nodes p + 1) by lia.
    unfold t. rewrite skipn_app, firstn_app, skipn_length.
    replace (D nodes p + 1 - (length s - nth (B nodes c) sa 0)) with 0 by lia. cbn [firstn]. apply app_nil_r. }
  assert (Hw0 : forall p c, In (p, c) edges -> B nodes c = 0 -> word (p, c) = [0]).
  { intros p c Hin HB. unfold word. rewrite HB, R0, (Dr p c Hin HB), En.
    replace (Nat.min (length s + (0 + 1)) (S (length s)) - length s) with 1 by lia.
    unfold t. rewrite skipn_app, skipn_all, Nat.sub_diag. reflexivity. }
  assert (Hloop : forall es, incl es edges -> forall ok0 out0,
    for_in es (fun '(p, c) '(ok, out) =>
      pn <- get nodes p ;; cn <- get nodes c ;;
      let lcplength := nd_depth pn + 1 in
      r <- rmq d (nd_begin cn) (nd_end cn + 1) ;;
      if lcplength <=? r then
        startpos <- get sa (nd_begin cn) ;;
        let endpos := Nat.min (startpos + lcplength) (length t) in
        let w := firstn (endpos - startpos) (skipn startpos t) in
        assert_ (utf8_valid w) ;;; Ok (false, out ++ not_covered_line w)
      else Ok (ok, out)) (ok0, out0) =
    if forallb utf8_valid (map word (filter unc es)) then
      Ok (match filter unc es with [] => ok0 | _ => false end, out0 ++ concat (map not_covered_line (map word (filter unc es))))
    else Panic).
  { induction es as [|(p, c) es IH]; intros Hincl ok0 out0; cbn [for_in].
    - cbn [filter map concat]. now rewrite app_nil_r.
    - assert (Hin : In (p, c) edges) by (apply Hincl; simpl; auto).
      assert (Hincl' : incl es edges) by (intros x Hx; apply Hincl; simpl; auto).
      destruct (ER p c Hin) as (m & Em & Hbn). destruct (Hed p c Hin) as (Hp & Hc & _).
      rewrite (get_ok nodes p nd0 Hp), (get_ok nodes c nd0 Hc). cbn [bind]. cbv zeta.
      fold (B nodes c) (E nodes c) (D nodes p). rewrite Em. cbn [bind filter].
      replace (unc (p, c)) with (D nodes p + 1 <=? m) by (unfold unc; now rewrite Em).
      destruct (D nodes p + 1 <=? m).
      + fold t in Hbn. rewrite (get_ok sa _ 0) by lia. cbn [bind].
        cbn [map forallb]. match goal with |- context [assert_ (utf8_valid ?w)] => change w with (word (p, c)) end.
        destruct (utf8_valid (word (p, c))); cbn [assert_ bind andb]; [|reflexivity].
        rewrite IH by auto. destruct (forallb utf8_valid (map word (filter unc es))); [|reflexivity].
        cbn [map concat]. rewrite <- app_assoc. f_equal. f_equal. destruct (filter unc es); reflexivity.
      + cbn [bind]. now apply IH. }
  rewrite (Hloop edges (incl_refl _)). cbn [app].
  exists (map word (filter unc edges)). split; [|split; [|split; [|split; [|split]]]].
  - destruct (forallb utf8_valid _); [|reflexivity]. f_equal. f_equal. destruct (filter unc edges); reflexivity.
  - intros w Hin. apply in_map_iff in Hin. destruct Hin as ((p, c) & <- & Hin). apply filter_In in Hin. destruct Hin as (Hin & Hu).
    apply Hunc2 in Hu. destruct (Nat.eq_dec (B nodes c) 0) as [HB|HB].
    + left. split; [now apply Hw0|]. destruct A as [|a A0]; [reflexivity|]. exfalso. apply Hu. apply RE; auto. discriminate.
    + right. rewrite Hw by auto. specialize (EI p c Hin HB).
      assert (EL : length (firstn (D nodes p + 1) (skipn (nth (B nodes c) sa 0) s)) = D nodes p + 1) by (rewrite firstn_length, skipn_length; lia).
      exists (nth (B nodes c) sa 0). rewrite EL. split; [|split; [reflexivity|]].
      * split; [lia|]. split; [exact EI|]. intros j a HS Ha Hj. apply Hu. exact (EC p c Hin HB j a HS Ha Hj).
      * replace (D nodes p + 1 - 1) with (D nodes p) by lia. now apply EB.
  - intros w (i & (H1 & H2 & HU) & Ew & HR). destruct (SM i (length w) H1 H2 HR) as (p & c & Hin & HB & HD & HS & Hc).
    apply in_map_iff. exists (p, c). split.
    + rewrite Hw by auto. rewrite HD. transitivity (firstn (length w) (skipn i s)); [|now symmetry]. clear Ew. destruct HS as (S1 & S2 & S3). apply (nth_ext_len _ _ 0).
      * rewrite !firstn_length, !skipn_length. lia.
      * intros x Hx. rewrite firstn_length, skipn_length in Hx. rewrite !nth_firstn, !nth_skipn by lia. apply S3. lia.
    + apply filter_In. split; [exact Hin|]. destruct (unc (p, c)) eqn:Eu; [reflexivity|]. exfalso.
      destruct (Hc (Hunc p c Eu Hin)) as (j & a & Hj & Ha & Hja). exact (HU j a Hj Ha Hja).
  - intros i l H1 H2 HU. destruct (SE i l H1 H2) as (p & c & Hin & HB & HD & HS & Hc). exists (D nodes p + 1). split; [lia|].
    apply in_map_iff. exists (p, c). split.
    + rewrite Hw by auto. destruct HS as (S1 & S2 & S3). apply (nth_ext_len _ _ 0).
      * rewrite !firstn_length, !skipn_length. lia.
      * intros x Hx. rewrite firstn_length, skipn_length in Hx. rewrite !nth_firstn, !nth_skipn by lia. apply S3. lia.
    + apply filter_In. split; [exact Hin|]. destruct (unc (p, c)) eqn:Eu; [reflexivity|]. exfalso.
      destruct (Hc (Hunc p c Eu Hin)) as (j & a & Hj & Ha & Hja). exact (HU j a Hj Ha Hja).
  - intros ->. destruct Hroot as (p & c & Hin & HD & HB & HE). apply in_map_iff. exists (p, c). split; [now apply Hw0|].
    apply filter_In. split; [exact Hin|]. unfold unc. rewrite HB, HE, HD.
    destruct (rmq_min d 0 (length t - 1 + 1) ltac:(lia)) as (m & -> & (k & Hk & Ek) & _). apply Nat.leb_le.
    specialize (Hd k ltac:(lia)). destruct Hd as [(a & [] & _)|(Hd & _)]. lia.
  - exists (map word (filter unc es0)). rewrite Ees, filter_app, map_app.
    assert (In01 : In (0, 1) edges) by (rewrite Ees; apply in_or_app; simpl; auto).
    assert (B01 : B nodes 1 = 0 /\ E nodes 1 = length t - 1) by (destruct (Hed 0 1 In01) as (_ & _ & [(_ & _ & Q & Q')|((_ & _ & Q & _) & _)]); [auto|lia]).
    assert (J : forall p c, In (p, c) es0 -> In (p, c) edges /\ B nodes c <> 0).
    { intros q e He. assert (He' : In (q, e) edges) by (rewrite Ees; apply in_or_app; auto). split; [exact He'|]. specialize (HDs q e He).
      destruct (Hed q e He') as (_ & _ & [(_ & Q & _)|((_ & _ & _ & Q & _) & _)]); lia. }
    split; [|split].
    + f_equal. cbn [filter]. destruct A as [|a A0].
      * replace (unc (0, 1)) with true; [cbn [map]; now rewrite Hw0|]. symmetry. unfold unc. destruct B01 as (-> & ->). rewrite DD0.
        destruct (rmq_min d 0 (length t - 1 + 1) ltac:(lia)) as (m & -> & (k & Hk & Ek) & _). apply Nat.leb_le.
        specialize (Hd k ltac:(lia)). destruct Hd as [(a & [] & _)|(Hd & _)]. lia.
      * destruct (unc (0, 1)) eqn:Eu; [|reflexivity]. exfalso. apply Hunc2 in Eu. apply Eu. apply RE; [exact In01|apply B01|discriminate].
    + apply (sorted_filter_map (ord nodes)); [|exact HSo]. intros (p, c) (p', c') Hi1' Hi2' HO.
      destruct (J p c Hi1') as (K1 & K2). destruct (J p' c' Hi2') as (K3 & K4). rewrite !Hw by assumption.
      exact (EBF p c p' c' K1 K2 K3 K4 HO).
    + intros H0. apply in_map_iff in H0. destruct H0 as ((p, c) & Ew & H0). apply filter_In in H0. destruct H0 as (H0 & _).
      destruct (J p c H0) as (K1 & K2). rewrite Hw in Ew by assumption. clear -HF Ew.
      assert (HI : In 0 s). { rewrite <- (firstn_skipn (nth (B nodes c) sa 0) s). apply in_or_app. right. rewrite <- (firstn_skipn (D nodes p + 1) (skipn _ s)). apply in_or_app. left. rewrite Ew. now left. }
      rewrite Forall_forall in HF. exact (HF 0 HI eq_refl).
Qed.

Lemma reported_ascii s A w : Forall (fun x => x < 128) s -> (w = [0] /\ A = []) \/ reported s A w -> utf8_valid w = true.
Proof.
  intros HF [(-> & _)|(i & _ & -> & _)]; [reflexivity|]. apply utf8_ascii, Forall_sub, HF.
Qed.
Lemma io_run sort s A : (forall t, is_suffix_array t (sort t)) -> s <> [] ->
  Forall (fun x => 0 < x < 128) s -> Forall (fun a => a <= length s) A ->
  exists ws, is_attractor_io sort (s ++ [0]) A = Ok (match ws with [] => true | _ => false end, concat (map not_covered_line ws)) /\
    (forall w, In w ws -> (w = [0] /\ A = []) \/
       exists i l, 1 <= l /\ i + l <= length s /\ w = firstn l (skipn i s) /\ uncovered_at s A i l) /\
    (forall i l, 1 <= l -> i + l <= length s -> uncovered_at s A i l -> exists l', 1 <= l' <= l /\ In (firstn l' (skipn i s)) ws) /\
    (A = [] -> In [0] ws).
Proof.
  intros Hsort Hne HF0 HA.
  assert (HF : Forall (fun x => x <> 0) s) by (eapply Forall_impl; [|exact HF0]; cbv beta; lia).
  assert (HF' : Forall (fun x => x < 128) s) by (eapply Forall_impl; [|exact HF0]; cbv beta; lia).
  destruct (io_run_any sort s A Hsort Hne HF HA) as (ws & E & H1 & H2 & H3 & H4 & _). exists ws.
  assert (HV : forallb utf8_valid ws = true) by (apply forallb_forall; intros w Hw; apply (reported_ascii s A); auto).
  rewrite HV in E. split; [exact E|]. split; [|auto].
  intros w Hw. destruct (H1 w Hw) as [H|(i & (A1 & A2 & A3) & A4 & _)]; [auto|]. right. exists i, (length w). auto.
Qed.

(** the answer is that of [is_attractor] *)
Lemma loop_fst {I} (f : I -> bool -> res bool) (g : I -> bool * str -> res (bool * str)) :
  (forall x ok out, f x ok = (r <- g x (ok, out) ;; Ok (fst r))) ->
  forall l ok out, for_in l f ok = (r <- for_in l g (ok, out) ;; Ok (fst r)).
Proof.
  intros H. induction l as [|x l IH]; intros ok out; cbn [for_in bind]; [reflexivity|].
  rewrite (H x ok out). destruct (g x (ok, out)) as [(ok', out')| |]; cbn [bind fst]; auto.
Qed.
Lemma is_attractor_io_fst sort t A : is_attractor sort t A = (r <- is_attractor_io sort t A ;; Ok (fst r)).
Proof.
  unfold is_attractor, is_attractor_io.
  destruct (assert_ (0 <? length t)); cbn [bind]; auto. destruct (last_ t) as [l| |]; cbn [bind]; auto.
  destruct (assert_ (l =? 0)); cbn [bind]; auto.
  destruct (for_in A (fun a (_ : unit) => assert_ (a <? length t)) tt); cbn [bind]; auto.
  destruct (compute_phi (sort t)) as [phi| |]; cbn [bind]; auto.
  destruct (compute_plcp t phi) as [plcp| |]; cbn [bind]; auto.
  destruct (compute_lcp plcp (sort t)) as [lcp| |]; cbn [bind]; auto.
  destruct (lcp_intervals t (sort t) lcp) as [(nodes, edges)| |]; cbn [bind]; auto.
  destruct (for_in A (fun s v => set v s true) (repeat false (length t))) as [bits| |]; cbn [bind]; auto.
  destruct (attractor_dists (length t) (sort t) bits) as [d| |]; cbn [bind]; auto.
  apply loop_fst. intros (p, c) ok out.
  destruct (get nodes p) as [pn| |]; cbn [bind]; auto. destruct (get nodes c) as [cn| |]; cbn [bind]; auto.
  destruct (rmq d (nd_begin cn) (nd_end cn + 1)) as [r| |]; cbn [bind]; auto.
  destruct (nd_depth pn + 1 <=? r); [|reflexivity]. destruct (get (sort t) (nd_begin cn)) as [q| |]; cbn [bind]; auto.
  match goal with |- context [assert_ ?b] => destruct (assert_ b) end; reflexivity.
Qed.
