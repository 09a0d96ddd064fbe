(** EnumProof.v : bin/enumerate_lexparse.rs. *)
From Verif Require Import Base SpecStr LexFacts ModelCore PermFacts SortFacts ModelLz SpecLex LexProof ModelTools ModelWord ModelMain
  MainProof SpecMain MainProof2 ModelEnum SpecEnum.
From Coq Require Import NArith.

(** ** permutations *)
Lemma picks_perm {A} (l : list A) : forall x r, In (x, r) (picks l) -> Permutation (x :: r) l.
Proof.
  induction l as [|y l IH]; intros x r H; [easy|]. cbn [picks] in H. destruct H as [E|H].
  - injection E as <- <-. reflexivity.
  - apply in_map_iff in H. destruct H as ((z, s) & E & H). injection E as <- <-. specialize (IH _ _ H).
    rewrite perm_swap. now constructor.
Qed.
Lemma picks_in {A} (l : list A) x : In x l -> exists r, In (x, r) (picks l).
Proof.
  induction l as [|y l IH]; intros H; [easy|]. cbn [picks]. destruct H as [->|H].
  - exists l. now left.
  - destruct (IH H) as (r & Hr). exists (y :: r). right. apply in_map_iff. exists (x, r). auto.
Qed.
Lemma permutations_in {A} k : forall (l p : list A), length l = k -> (In p (permutations k l) <-> Permutation p l).
Proof.
  induction k as [|k IH]; intros l p Hl; cbn [permutations].
  - destruct l; [|easy]. split.
    + intros [<-|[]]. constructor.
    + intros H. apply Permutation_sym, Permutation_nil in H. left. auto.
  - rewrite in_concat. split.
    + intros (ps & H1 & H2). apply in_map_iff in H1. destruct H1 as ((x, r) & <- & H1). apply in_map_iff in H2.
      destruct H2 as (q & <- & H2). pose proof (picks_perm l x r H1) as HP.
      assert (Hr : length r = k) by (apply Permutation_length in HP; simpl in HP; lia).
      apply (IH r q Hr) in H2. rewrite <- HP. now constructor.
    + intros HP. destruct p as [|x q]; [apply Permutation_nil in HP; subst l; easy|].
      destruct (picks_in l x) as (r & Hr); [apply (Permutation_in _ HP); now left|].
      exists (map (cons x) (permutations k r)). split.
      * apply in_map_iff. exists (x, r). auto.
      * apply in_map. pose proof (picks_perm l x r Hr) as HP2. rewrite <- HP2 in HP. apply Permutation_cons_inv in HP.
        apply IH; [|exact HP]. apply Permutation_length in HP2. simpl in HP2. lia.
Qed.
Lemma unique_in l : forall seen x, In x (unique seen l) <-> In x l /\ ~ In x seen.
Proof.
  induction l as [|y l IH]; intros seen x; cbn [unique]; [simpl; tauto|].
  destruct (in_dec (list_eq_dec Nat.eq_dec) y seen) as [H|H].
  - rewrite IH. simpl. split; [tauto|]. intros ([->|Hx] & N); tauto.
  - simpl. rewrite IH. simpl. destruct (list_eq_dec Nat.eq_dec y x) as [->|]; tauto.
Qed.

(** ** one text *)
Lemma upd_mid' {A} (l1 l2 : list A) x y i : i = length l1 -> upd (l1 ++ x :: l2) i y = l1 ++ y :: l2.
Proof. intros ->. apply upd_mid. Qed.
Lemma enum_items_ok s : s <= 26 -> enum_items s = Ok (map (fun i => 97 + i) (seq 0 s)).
Proof.
  intros Hs. enough (G : okp (enum_items s) (fun l => l = map (fun i => 97 + i) (seq 0 s))) by (destruct G as (l & E & ->); exact E).
  unfold enum_items.
  eapply okp_imp; [apply (okp_for_range (fun k l => l = map (fun i => 97 + i) (seq 0 k) ++ repeat 97 (s - k))); [lia| |]|].
  - simpl. now rewrite Nat.sub_0_r.
  - intros i l Hi ->. rewrite Nat.mod_small by lia. unfold add_u8. destruct (Nat.leb_spec 256 (97 + i)); [lia|]. cbn [bind].
    rewrite set_ok by (rewrite app_length, map_length, seq_length, repeat_length; lia). apply okp_ok.
    replace (s - i) with (S (s - S i)) by lia. cbn [repeat].
    rewrite (upd_mid' _ _ _ _ i) by now rewrite map_length, seq_length.
    rewrite seq_S, map_app, <- app_assoc. reflexivity.
  - intros l ->. rewrite Nat.sub_diag. simpl. apply app_nil_r.
Qed.

Definition relab (pi : list nat) (w : str) : str := map (fun c => 97 + nth (c - 97) pi 0) w.
Lemma relabel_ok s pi w : s <= 26 -> is_perm s pi -> Forall (fun c => 97 <= c < 97 + s) w ->
  enum_relabel (w ++ [0]) (map (fun i => 97 + i) pi) = Ok (relab pi w ++ [0]).
Proof.
  intros Hs HP HF. pose proof (is_perm_length _ _ HP) as HL.
  enough (G : okp (enum_relabel (w ++ [0]) (map (fun i => 97 + i) pi)) (fun l => l = relab pi w ++ [0])) by (destruct G as (l & E & ->); exact E).
  unfold enum_relabel. rewrite map_length, HL. apply okp_bind.
  eapply okp_imp; [apply (okp_for_range (fun k m => forall j, j < k -> lookup m (97 + j) = Ok (97 + nth j pi 0))); [lia|lia|]|].
  - intros i m Hi HI. rewrite (get_ok _ _ 0) by (rewrite map_length; lia). cbn [bind].
    rewrite Nat.mod_small by lia. unfold add_u8. destruct (Nat.leb_spec 256 (97 + i)); [lia|]. cbn [bind]. apply okp_ok.
    intros j Hj. cbn [lookup]. rewrite (nth_map _ _ _ 0) by lia.
    destruct (Nat.eqb_spec (97 + i) (97 + j)) as [E|E]; [now replace j with i by lia|]. apply HI. lia.
  - intros m Hm. rewrite app_length. cbn [length]. rewrite sub_ok by lia. cbn [bind].
    replace (length w + 1 - 1) with (length w) by lia.
    eapply okp_imp; [apply (okp_for_range (fun k t => t = relab pi (firstn k w) ++ skipn k w ++ [0])); [lia|reflexivity|]|].
    + intros i t Hi ->. rewrite (get_ok _ _ 0) by (rewrite app_length; simpl; lia). cbn [bind].
      rewrite app_nth1 by lia. rewrite Forall_forall in HF. pose proof (HF (nth i w 0) ltac:(apply nth_In; lia)) as Hc.
      pose proof (Hm (nth i w 0 - 97) ltac:(lia)) as El. replace (97 + (nth i w 0 - 97)) with (nth i w 0) in El by lia.
      rewrite El. cbn [bind].
      assert (Lf : length (relab pi (firstn i w)) = i) by (unfold relab; rewrite map_length, firstn_length; lia).
      rewrite set_ok by (rewrite app_length, Lf, app_length; simpl; lia). apply okp_ok.
      rewrite (skipn_cons_nth w i 0) by lia. cbn [app]. rewrite (upd_mid' _ _ _ _ i) by (symmetry; exact Lf).
      rewrite (firstn_snoc_nth w i 0) by lia. unfold relab. rewrite map_app, <- app_assoc. reflexivity.
    + intros t ->. rewrite firstn_all, skipn_all. reflexivity.
Qed.
Lemma relab_range s pi w : is_perm s pi -> Forall (fun c => 97 <= c < 97 + s) w -> Forall (fun c => 97 <= c < 97 + s) (relab pi w).
Proof.
  intros HP HF. unfold relab. apply Forall_map. eapply Forall_impl; [|exact HF]. cbv beta. intros c Hc.
  pose proof (is_perm_nth s pi (c - 97) HP ltac:(lia)). lia.
Qed.
Lemma size_exists sort t : (forall t, is_suffix_array t (sort t)) -> t <> [] ->
  exists fs, count_lexparse_main sort t = Ok fs /\ lexparse_size t (length fs).
Proof.
  intros Hs Hne. destruct (lexparse_lens_ok sort t Hs Hne) as (fs & gs & E & H & HL). exists fs. split; [exact E|].
  exists gs. split; [exact H|]. apply (f_equal (@length nat)) in HL. now rewrite !map_length in HL.
Qed.
Lemma size_unique t k k' : lexparse_size t k -> lexparse_size t k' -> k = k'.
Proof. intros (g & H & <-) (g' & H' & <-). now rewrite (lexparse_unique t g g' 0 H H'). Qed.

Lemma perm_letters s p : Permutation p (map (fun i => 97 + i) (seq 0 s)) -> exists pi, is_perm s pi /\ p = map (fun i => 97 + i) pi.
Proof.
  intros H. apply Permutation_map_inv in H. destruct H as (pi & -> & HP). exists pi.
  split; [|reflexivity]. unfold is_perm. now symmetry.
Qed.
Lemma enum_list_ok sort s w : (forall t, is_suffix_array t (sort t)) -> s <= 26 -> Forall (fun c => 97 <= c < 97 + s) w ->
  okp (enum_list sort s (w ++ [0])) (fun L => L <> [] /\
    (forall k t, In (k, t) L -> exists u, relabelling s w u /\ t = u ++ [0] /\ Forall (fun c => 97 <= c < 97 + s) u /\ lexparse_size t k) /\
    (forall u k, relabelling s w u -> lexparse_size (u ++ [0]) k -> In (k, u ++ [0]) L)).
Proof.
  intros Hs Hl HF. unfold enum_list. rewrite enum_items_ok by auto. cbn [bind].
  set (items := map (fun i => 97 + i) (seq 0 s)).
  assert (HU : forall p, In p (unique [] (permutations (length items) items)) <-> Permutation p items).
  { intros p. rewrite unique_in, permutations_in by reflexivity. simpl. tauto. }
  set (ps := unique [] (permutations (length items) items)) in *.
  eapply okp_imp; [apply (okp_for_list (fun done L => length L = length done /\
     (forall k t, In (k, t) L -> exists u, relabelling s w u /\ t = u ++ [0] /\ Forall (fun c => 97 <= c < 97 + s) u /\ lexparse_size t k) /\
     (forall pi k, In (map (fun i => 97 + i) pi) done -> is_perm s pi -> lexparse_size (relab pi w ++ [0]) k -> In (k, relab pi w ++ [0]) L)))|].
  - split; [reflexivity|]. split; [intros k t []|]. intros pi k [].
  - intros p perm q L Hps (H1 & H2 & H3).
    destruct (perm_letters s perm) as (pi & HP & ->).
    { apply HU. rewrite Hps. apply in_or_app. right. now left. }
    rewrite (relabel_ok s) by auto. cbn [bind].
    destruct (size_exists sort (relab pi w ++ [0]) Hs) as (fs & E & HS); [destruct (relab pi w); easy|].
    rewrite E. cbn [bind]. apply okp_ok. split; [|split].
    + rewrite !app_length, H1. reflexivity.
    + intros k t Hin. apply in_app_or in Hin. destruct Hin as [Hin|[E2|[]]]; [now apply H2|]. injection E2 as <- <-.
      exists (relab pi w). split; [exists pi; split; [exact HP|reflexivity]|]. split; [reflexivity|]. split; [|exact HS].
      now apply relab_range.
    + intros pi' k Hin HP' HS'. apply in_app_or in Hin. apply in_or_app. destruct Hin as [Hin|[E2|[]]]; [left; now apply H3|].
      right. left. assert (pi = pi').
      { clear -E2. revert pi' E2. induction pi as [|a pi IH]; intros [|b pi'] E; try discriminate E; auto.
        cbn [map] in E. injection E as E1 E2. f_equal; [lia|now apply IH]. }
      subst pi'. f_equal. exact (size_unique _ _ _ HS HS').
  - intros L (H1 & H2 & H3). split; [|split; [exact H2|]].
    + intros ->. assert (Hin : In items ps) by (apply HU; reflexivity). destruct ps; [easy|discriminate H1].
    + intros u k (pi & HP & ->) HS. apply H3; auto. apply HU. apply Permutation_map. exact HP.
Qed.

(** ** sorting by size *)
Lemma sort_range (L : list (nat * str)) : L <> [] ->
  exists S a b, sort_by (fun a b => Ok (fst a ?= fst b)) L = Ok S /\ get S 0 = Ok a /\ last_ S = Ok b /\
    In a L /\ In b L /\ forall x, In x L -> fst a <= fst x <= fst b.
Proof.
  intros Hne.
  destruct (sort_by_ok (fun _ : nat * str => True) (fun a b => Ok (fst a ?= fst b)) (fun a b => fst a ?= fst b)) with (l := L)
    as (S & E & HP & HS); auto.
  - intros a b _ _. apply Nat.compare_antisym.
  - intros a b d _ _ _. rewrite !Nat.compare_le_iff. lia.
  - now apply Forall_forall.
  - assert (HneS : S <> []) by (intros ->; apply Permutation_nil in HP; auto).
    destruct (exists_last HneS) as (S' & b & ES). destruct S as [|a S0]; [easy|].
    exists (a :: S0), a, b. split; [exact E|]. split; [reflexivity|]. split.
    { unfold last_. rewrite ES, rev_app_distr. reflexivity. }
    assert (HLe : forall x y : nat * str, (fst x ?= fst y) <> Gt -> fst x <= fst y).
    { intros x y. apply Nat.compare_le_iff. }
    split; [apply (Permutation_in _ HP); now left|].
    split; [apply (Permutation_in _ HP); rewrite ES; apply in_or_app; right; now left|].
    intros x Hx. apply (Permutation_in _ (Permutation_sym HP)) in Hx. split.
    + destruct Hx as [->|Hx]; [lia|]. inversion HS as [|? ? _ HF]; subst. rewrite Forall_forall in HF. apply HLe. now apply HF.
    + rewrite ES in HS, Hx. clear -HS Hx HLe. induction S' as [|y S' IH]; simpl in Hx.
      * destruct Hx as [->|[]]. lia.
      * simpl in HS. inversion HS as [|? ? HS' HF]; subst. rewrite Forall_forall in HF. destruct Hx as [->|Hx]; [|now apply IH].
        apply HLe, HF. apply in_or_app. right. now left.
Qed.

Lemma size_range_unique s w d u1 u2 d' u1' u2' : size_range s w d u1 u2 -> size_range s w d' u1' u2' -> d = d'.
Proof.
  intros (R1 & R2 & k1 & k2 & S1 & S2 & E & H) (R1' & R2' & k1' & k2' & S1' & S2' & E' & H').
  pose proof (H _ _ R1' S1'). pose proof (H _ _ R2' S2'). pose proof (H' _ _ R1 S1). pose proof (H' _ _ R2 S2). lia.
Qed.
Definition rec_line (r : str * (nat * str * str)) : str :=
  let '(_, (d, u1, u2)) := r in range_line (dec_usize d) u1 u2.
Lemma debug_letters s u : s <= 26 -> Forall (fun c => 97 <= c < 97 + s) u -> debug_str (u ++ [0]) = [34] ++ u ++ [92;48;34].
Proof.
  intros Hs HF. unfold debug_str. rewrite map_app, concat_app. cbn [map concat Nat.eqb]. rewrite app_nil_r, <- app_assoc.
  f_equal. change (([92;48] ++ []) ++ [34]) with [92;48;34]. f_equal.
  induction HF as [|c u Hc HF IH]; [reflexivity|]. cbn [map concat].
  destruct (Nat.eqb_spec c 0); [lia|]. destruct (Nat.eqb_spec c 127); [lia|]. cbn [app]. now rewrite IH.
Qed.
Lemma ascii_letters s u : s <= 26 -> Forall (fun c => 97 <= c < 97 + s) u -> forallb (fun c => c <? 128) (u ++ [0]) = true.
Proof.
  intros Hs HF. apply forallb_forall. intros c Hc. apply in_app_or in Hc. destruct Hc as [Hc|[<-|[]]]; [|reflexivity].
  rewrite Forall_forall in HF. specialize (HF c Hc). apply Nat.ltb_lt. lia.
Qed.
Lemma enum_step_ok sort s w m out : (forall t, is_suffix_array t (sort t)) -> s <= 26 -> Forall (fun c => 97 <= c < 97 + s) w ->
  okp (enum_step sort s w (m, out)) (fun '(m', out') => exists d u1 u2, size_range s w d u1 u2 /\
    (m <= d /\ m' = d /\ out' = out ++ rec_line (w, (d, u1, u2)) \/ d < m /\ m' = m /\ out' = out)).
Proof.
  intros Hs Hl HF. unfold enum_step. apply okp_bind. eapply okp_imp; [apply enum_list_ok; eauto|].
  intros L (Hne & H1 & H2). destruct (sort_range L Hne) as (S & (ka, ta) & (kb, tb) & E1 & E2 & E3 & Ia & Ib & HR).
  rewrite E1. cbn [bind]. rewrite E3. cbn [bind]. rewrite E2. cbn [bind fst snd].
  destruct (H1 ka ta Ia) as (u1 & R1 & -> & F1 & S1). destruct (H1 kb tb Ib) as (u2 & R2 & -> & F2 & S2).
  pose proof (HR _ Ib) as Hab. cbn [fst] in Hab.
  rewrite sub_ok by lia. cbn [bind].
  assert (HSR : size_range s w (kb - ka) u1 u2).
  { split; [exact R1|]. split; [exact R2|]. exists ka, kb. split; [exact S1|]. split; [exact S2|]. split; [lia|].
    intros u k Hu Hk. exact (HR _ (H2 u k Hu Hk)). }
  destruct (Nat.leb_spec m (kb - ka)) as [C|C].
  - unfold enum_println. rewrite !(ascii_letters s) by auto. cbn [assert_ bind]. apply okp_ok.
    exists (kb - ka), u1, u2. split; [exact HSR|]. left. split; [exact C|]. split; [reflexivity|]. f_equal.
    unfold rec_line, range_line, println. rewrite !(debug_letters s) by auto. rewrite <- !app_assoc. reflexivity.
  - apply okp_ok. exists (kb - ka), u1, u2. auto.
Qed.

Definition record_in (s : nat) (L : list str) (w : str) : Prop :=
  In w L /\ forall w' d d' u1 u2 u1' u2', In w' L -> before w' w ->
    size_range s w' d' u1' u2' -> size_range s w d u1 u2 -> d' <= d.
Lemma enum_main_ok sort s n : (forall t, is_suffix_array t (sort t)) -> 1 <= s <= 26 -> (N.of_nat s ^ N.of_nat n < 2 ^ 64)%N ->
  exists L recs, (forall w, In w L <-> length w = n /\ Forall (fun c => 97 <= c < 97 + s) w) /\
    enumerate_lexparse_main sort n s = Ok (concat (map rec_line recs)) /\
    StronglySorted before (map fst recs) /\
    (forall w d u1 u2, In (w, (d, u1, u2)) recs -> size_range s w d u1 u2) /\
    (forall w, In w (map fst recs) <-> record_in s L w) /\
    (L = [] \/ exists m w u1 u2, In (w, (m, u1, u2)) recs /\ forall w d u1 u2, In w L -> size_range s w d u1 u2 -> d <= m).
Proof.
  intros Hs Hl Hn. destruct (kmer_spec s n ltac:(lia) Hn) as (L & EL & HSS & HL).
  exists L. unfold enumerate_lexparse_main. rewrite EL. cbn [bind].
  assert (HLen : forall w, In w L -> Forall (fun c => 97 <= c < 97 + s) w) by (intros w Hw; now apply HL).
  enough (G : okp (for_in L (enum_step sort s) (0, [])) (fun '(m, out) => exists recs, out = concat (map rec_line recs) /\
    StronglySorted before (map fst recs) /\
    (forall w d u1 u2, In (w, (d, u1, u2)) recs -> size_range s w d u1 u2) /\
    (forall w, In w (map fst recs) <-> record_in s L w) /\
    (L = [] \/ exists m w u1 u2, In (w, (m, u1, u2)) recs /\ forall w d u1 u2, In w L -> size_range s w d u1 u2 -> d <= m))).
  { destruct G as ((m, out) & E & recs & -> & G). rewrite E. cbn [bind]. exists recs. split; [exact HL|]. split; [reflexivity|exact G]. }
  eapply okp_imp; [apply (okp_for_list (fun done '(m, out) => exists recs, out = concat (map rec_line recs) /\
    StronglySorted before (map fst recs) /\
    (forall w d u1 u2, In (w, (d, u1, u2)) recs -> size_range s w d u1 u2) /\
    (forall w, In w (map fst recs) <-> record_in s done w) /\
    (forall w d u1 u2, In w done -> size_range s w d u1 u2 -> d <= m) /\
    (m = 0 /\ done = [] \/ exists w u1 u2, In (w, (m, u1, u2)) recs)))|].
  - exists []. split; [reflexivity|]. split; [constructor|]. split; [intros w d u1 u2 []|]. split.
    { intros w. split; [intros []|intros ([] & _)]. }
    split; [intros w d u1 u2 []|left; auto].
  - intros done w q (m, out) EL2 (recs & -> & I1 & I2 & I3 & I4 & I5).
    assert (HwL : In w L) by (rewrite EL2; apply in_or_app; right; now left).
    assert (HB : forall w', In w' done -> before w' w).
    { intros w' Hw'. rewrite EL2 in HSS. clear -HSS Hw'. induction done as [|x done IH]; [easy|].
      simpl in HSS. inversion HSS as [|? ? H1 H2]; subst. destruct Hw' as [->|Hw']; [|now apply IH].
      rewrite Forall_forall in H2. apply H2. apply in_or_app. right. now left. }
    assert (HB2 : forall w', In w' done -> ~ before w w').
    { intros w' Hw' HC. exact (lex_lt_asym _ _ (HB w' Hw') HC). }
    eapply okp_imp; [apply enum_step_ok; auto; lia|]. intros (m', out') (d & u1 & u2 & HSR & HC).
    assert (Hold : forall v, In v done -> (record_in s (done ++ [w]) v <-> record_in s done v)).
    { intros v Hv. split; intros (Q1 & Q2); split.
      - exact Hv.
      - intros w' e e' v1 v2 v1' v2' Hw'. apply Q2. apply in_or_app. now left.
      - apply in_or_app. now left.
      - intros w' e e' v1 v2 v1' v2' Hw' Hb. apply in_app_or in Hw'. destruct Hw' as [Hw'|[<-|[]]].
        + now apply Q2.
        + exfalso. exact (HB2 v Hv Hb). }
    assert (Hnw : ~ In w done) by (intros Hw; exact (lex_lt_irrefl _ (HB w Hw))).
    destruct HC as [(C & -> & ->)|(C & -> & ->)].
    + exists (recs ++ [(w, (d, u1, u2))]). split; [|split; [|split; [|split; [|split]]]].
      * rewrite map_app, concat_app. cbn [map concat]. now rewrite app_nil_r.
      * rewrite map_app. cbn [map fst]. apply SSorted_app; [exact I1|repeat constructor|].
        intros x y Hx [<-|[]]. apply HB. apply I3 in Hx. apply Hx.
      * intros v e v1 v2 Hin. apply in_app_or in Hin. destruct Hin as [Hin|[E|[]]]; [now apply (I2 v e v1 v2)|].
        injection E as <- <- <- <-. exact HSR.
      * intros v. rewrite map_app, in_app_iff. cbn [map fst In]. split.
        -- intros [Hv|[<-|[]]].
           ++ apply I3 in Hv. apply Hold; [apply Hv|exact Hv].
           ++ split; [apply in_or_app; right; now left|]. intros w' e e' v1 v2 v1' v2' Hw' Hb S1 S2.
              rewrite (size_range_unique _ _ _ _ _ _ _ _ S2 HSR). apply in_app_or in Hw'. destruct Hw' as [Hw'|[<-|[]]].
              ** specialize (I4 _ _ _ _ Hw' S1). lia.
              ** exfalso. exact (lex_lt_irrefl _ Hb).
        -- intros Hv. pose proof Hv as (Hin & _). apply in_app_or in Hin. destruct Hin as [Hin|[<-|[]]].
           ++ left. apply I3. now apply Hold.
           ++ right. now left.
      * intros v e v1 v2 Hin S1. apply in_app_or in Hin. destruct Hin as [Hin|[<-|[]]].
        -- specialize (I4 _ _ _ _ Hin S1). lia.
        -- rewrite (size_range_unique _ _ _ _ _ _ _ _ S1 HSR). lia.
      * right. exists w, u1, u2. apply in_or_app; right; now left.
    + exists recs. split; [reflexivity|]. split; [exact I1|]. split; [exact I2|]. split; [|split].
      * intros v. split.
        -- intros Hv. apply I3 in Hv. apply Hold; [apply Hv|exact Hv].
        -- intros Hv. pose proof Hv as (Hin & HQ). apply in_app_or in Hin. destruct Hin as [Hin|[<-|[]]].
           ++ apply I3. now apply Hold.
           ++ exfalso. destruct I5 as [(-> & _)|(v & v1 & v2 & Hv1)]; [lia|].
              assert (Hvd : In v done) by (apply (in_map fst) in Hv1; apply I3 in Hv1; apply Hv1).
              assert (m <= d); [|lia]. apply (HQ v d m u1 u2 v1 v2); auto. apply in_or_app. now left.
      * intros v e v1 v2 Hin S1. apply in_app_or in Hin. destruct Hin as [Hin|[<-|[]]].
        -- now apply (I4 v e v1 v2).
        -- rewrite (size_range_unique _ _ _ _ _ _ _ _ S1 HSR). lia.
      * destruct I5 as [(-> & _)|I5]; [lia|]. now right.
  - intros (m, out) (recs & H1 & H2 & H3 & H4 & H5 & H6). exists recs. repeat (split; [assumption|]).
    destruct H6 as [(_ & H6)|(w & u1 & u2 & H6)]; [now left|]. right. exists m, w, u1, u2. auto.
Qed.

Lemma rec_lines recs : record_lines recs (concat (map rec_line recs)).
Proof.
  induction recs as [|(w, ((d, u1), u2)) recs IH]; [constructor|]. cbn [map concat rec_line]. constructor; [apply dec_usize_ok|exact IH].
Qed.
Lemma range_exists sort s w : (forall t, is_suffix_array t (sort t)) -> s <= 26 -> Forall (fun c => 97 <= c < 97 + s) w ->
  exists d u1 u2, size_range s w d u1 u2.
Proof.
  intros Hs Hl HF. destruct (enum_step_ok sort s w 0 [] Hs Hl HF) as ((m, out) & _ & d & u1 & u2 & H & _). eauto.
Qed.
Lemma before_total n w w' : length w = n -> length w' = n -> w = w' \/ before w w' \/ before w' w.
Proof.
  intros H1 H2. destruct (lex_lt_total (rev w) (rev w')) as [L|[E|L]]; auto.
  left. rewrite <- (rev_involutive w), E, rev_involutive. reflexivity.
Qed.
