(** EntropyProof4.v : bounds of the empirical entropies. *)
From Verif Require Import Base SpecStr SpecIo SpecEntropy EntropyProof EntropyProof2 EntropyProof3.
From Coq Require Import Reals Lra.

Definition nH (x : str) : R := (INR (length x) * H0 x)%R.
Notation letters_of x := (nodup Nat.eq_dec x).
Lemma ln_le_sub z : (0 < z)%R -> (ln z <= z - 1)%R.
Proof. intros H. pose proof (exp_ineq1_le (ln z)) as E. rewrite exp_ln in E by exact H. lra. Qed.
Lemma lg_le_sub z : (0 < z)%R -> (lg z <= (z - 1) / ln 2)%R.
Proof.
  intros H. unfold lg. apply Rmult_le_compat_r; [apply Rlt_le, Rinv_0_lt_compat, ln2_pos|]. now apply ln_le_sub.
Qed.
Lemma lg_nonneg z : (1 <= z)%R -> (0 <= lg z)%R.
Proof.
  intros H. unfold lg. apply Rmult_le_pos; [|apply Rlt_le, Rinv_0_lt_compat, ln2_pos].
  destruct (Rle_lt_or_eq_dec _ _ H) as [L|E]; [rewrite <- ln_1; apply Rlt_le, ln_increasing; lra|rewrite <- E, ln_1; lra].
Qed.
Lemma sumR_le {A} (g h : A -> R) l : (forall x, In x l -> (g x <= h x)%R) -> (sumR (map g l) <= sumR (map h l))%R.
Proof.
  unfold sumR. induction l as [|x l IH]; intros H; simpl; [lra|]. pose proof (H x (or_introl eq_refl)).
  specialize (IH (fun y Hy => H y (or_intror Hy))). lra.
Qed.
Lemma sumR_nonneg {A} (g : A -> R) l : (forall x, In x l -> (0 <= g x)%R) -> (0 <= sumR (map g l))%R.
Proof.
  unfold sumR. induction l as [|x l IH]; intros H; simpl; [lra|]. pose proof (H x (or_introl eq_refl)).
  specialize (IH (fun y Hy => H y (or_intror Hy))). lra.
Qed.
Lemma occ_pos x c : In c (letters_of x) -> (0 < INR (occ x c))%R.
Proof. intros H. apply nodup_In, (count_occ_In Nat.eq_dec) in H. now apply lt_0_INR. Qed.
Lemma nH_sum x : nH x = sumR (map (fun c => INR (occ x c) * lg (INR (length x) / INR (occ x c)))%R (letters_of x)).
Proof.
  destruct x as [|a x0]; [unfold nH, sumR; simpl; lra|]. set (x := a :: x0).
  assert (Hn : 0 < length x) by (simpl; lia). pose proof (lt_0_INR _ Hn) as HR. unfold nH, H0. rewrite <- sumR_scal.
  apply sumR_map_ext. intros c Hc. pose proof (occ_pos x c Hc). field. lra.
Qed.
Lemma nH_nonneg x : (0 <= nH x)%R.
Proof.
  rewrite nH_sum. apply sumR_nonneg. intros c Hc. pose proof (occ_pos x c Hc) as P. apply Rmult_le_pos; [lra|]. apply lg_nonneg.
  apply Rmult_le_reg_r with (INR (occ x c)); [exact P|]. unfold Rdiv. rewrite Rmult_assoc, Rinv_l, Rmult_1_l, Rmult_1_r by lra.
  apply le_INR. apply count_occ_bound.
Qed.
(** Gibbs' inequality *)
Lemma gibbs x (q : nat -> R) Q : (0 < Q)%R -> (forall c, In c (letters_of x) -> (0 < q c)%R) -> (sumR (map q (letters_of x)) <= Q)%R ->
  (nH x <= sumR (map (fun c => INR (occ x c) * lg (Q / q c))%R (letters_of x)))%R.
Proof.
  intros HQ Hq HS. destruct x as [|a x0]; [unfold nH, sumR; simpl; lra|]. set (x := a :: x0) in *.
  assert (Hn : 0 < length x) by (simpl; lia). pose proof (lt_0_INR _ Hn) as HR. rewrite nH_sum.
  set (n := INR (length x)) in *. pose proof ln2_pos as L2.
  assert (E : (sumR (map (fun c => INR (occ x c) * lg (n / INR (occ x c)) - INR (occ x c) * lg (Q / q c))%R (letters_of x)) <=
    sumR (map (fun c => (/ ln 2 * (n / Q)) * q c - / ln 2 * INR (occ x c))%R (letters_of x)))%R).
  { apply sumR_le. intros c Hc. pose proof (occ_pos x c Hc) as P. pose proof (Hq c Hc) as P2.
    replace (INR (occ x c) * lg (n / INR (occ x c)) - INR (occ x c) * lg (Q / q c))%R with
      (INR (occ x c) * lg ((n / INR (occ x c)) / (Q / q c)))%R by (rewrite (lg_div (n / INR (occ x c)) (Q / q c)); [ring|apply Rdiv_lt_0_compat; lra|apply Rdiv_lt_0_compat; lra]).
    replace (/ ln 2 * (n / Q) * q c - / ln 2 * INR (occ x c))%R with (INR (occ x c) * ((n / INR (occ x c) / (Q / q c) - 1) / ln 2))%R by (field; repeat split; lra).
    apply Rmult_le_compat_l; [lra|]. apply lg_le_sub. apply Rdiv_lt_0_compat; apply Rdiv_lt_0_compat; lra. }
  rewrite !sumR_minus, !sumR_scal in E. rewrite sum_occ in E; [|apply NoDup_nodup|intros c Hc; now apply nodup_In]. fold n in E.
  assert (E2 : (/ ln 2 * (n / Q) * sumR (map q (letters_of x)) <= / ln 2 * (n / Q) * Q)%R).
  { apply Rmult_le_compat_l; [|exact HS]. apply Rmult_le_pos; [apply Rlt_le, Rinv_0_lt_compat, L2|]. apply Rlt_le, Rdiv_lt_0_compat; lra. }
  replace (/ ln 2 * (n / Q) * Q)%R with (/ ln 2 * n)%R in E2 by (field; split; lra). lra.
Qed.
Lemma H0_le_sigma x : x <> [] -> (H0 x <= lg (INR (length (letters_of x))))%R.
Proof.
  intros Hne. assert (Hn : 0 < length x) by (destruct x; [easy|simpl; lia]). pose proof (lt_0_INR _ Hn) as HR.
  assert (Hs : 0 < length (letters_of x)).
  { destruct x as [|a x]; [easy|]. destruct (letters_of (a :: x)) eqn:E; [|simpl; lia]. exfalso. apply (in_nil (a := a)). rewrite <- E. apply nodup_In. now left. }
  pose proof (lt_0_INR _ Hs) as HS.
  pose proof (gibbs x (fun _ => 1%R) (INR (length (letters_of x))) HS ltac:(intros; lra)) as G.
  apply Rmult_le_reg_l with (INR (length x)); [exact HR|]. fold (nH x). eapply Rle_trans; [apply G|].
  - clear. apply Req_le. generalize (letters_of x). unfold sumR. induction l as [|a l IH]; [reflexivity|]. cbn [map fold_right length]. rewrite IH, S_INR. ring.
  - apply Req_le. rewrite (sumR_map_ext _ (fun c => (lg (INR (length (letters_of x))) * INR (occ x c))%R)).
    + rewrite sumR_scal, sum_occ; [ring|apply NoDup_nodup|intros c Hc; now apply nodup_In].
    + intros c _. replace (INR (length (letters_of x)) / 1)%R with (INR (length (letters_of x))) by field. ring.
Qed.
(** splitting a sequence never increases its total entropy *)
Lemma nH_app x y : (nH x + nH y <= nH (x ++ y))%R.
Proof.
  destruct x as [|a x0]; [unfold nH at 1; simpl; lra|]. set (x := a :: x0).
  set (z := x ++ y). assert (Hz : 0 < length z) by (unfold z; rewrite app_length; simpl; lia). pose proof (lt_0_INR _ Hz) as HR.
  assert (OZ : forall c, occ z c = occ x c + occ y c) by (intros c; apply count_occ_app).
  assert (G : forall u, incl u z -> (forall c, occ u c <= occ z c) ->
     (nH u <= sumR (map (fun c => INR (occ u c) * lg (INR (length z) / INR (occ z c)))%R (letters_of z)))%R).
  { intros u HI HO. rewrite (sumR_support Nat.eq_dec _ (letters_of z) (letters_of u)).
    - apply gibbs; [exact HR| |].
      + intros c Hc. apply occ_pos, nodup_In, HI. now apply nodup_In in Hc.
      + rewrite <- (sum_occ z (letters_of z)); [|apply NoDup_nodup|intros c Hc; now apply nodup_In].
        assert (NI : incl (letters_of u) (letters_of z)) by (intros c Hc; apply nodup_In, HI; now apply nodup_In in Hc).
        pose proof (NoDup_nodup Nat.eq_dec u) as ND. revert NI ND. generalize (letters_of u). 
        assert (GG : forall D l, NoDup l -> NoDup D -> incl l D -> (sumR (map (fun c => INR (occ z c)) l) <= sumR (map (fun c => INR (occ z c)) D))%R).
        { clear. induction D as [|d D IH]; intros l NL ND HI.
          - destruct l; [lra|]. exfalso. apply (HI n). now left.
          - inversion ND as [|? ? N1 N2]; subst. destruct (in_dec Nat.eq_dec d l) as [Hin|Hn].
            + apply in_split in Hin. destruct Hin as (l1 & l2 & ->).
              rewrite (sumR_perm _ (map (fun c => INR (occ z c)) (d :: l1 ++ l2))) by (apply Permutation_map, Permutation_sym, Permutation_middle).
              apply (Permutation_NoDup (Permutation_sym (Permutation_middle l1 l2 d))) in NL. inversion NL; subst.
              assert (HH : (sumR (map (fun c => INR (occ z c)) (l1 ++ l2)) <= sumR (map (fun c => INR (occ z c)) D))%R).
              { apply IH; auto. intros c Hc. destruct (HI c) as [<-|]; [|contradiction|assumption]. apply in_app_iff. apply in_app_iff in Hc. simpl. tauto. }
              unfold sumR in *. cbn [map fold_right]. lra.
            + assert (HH : (sumR (map (fun c => INR (occ z c)) l) <= sumR (map (fun c => INR (occ z c)) D))%R).
              { apply IH; auto. intros c Hc. destruct (HI c Hc) as [<-|]; [contradiction|assumption]. }
              pose proof (pos_INR (occ z d)). unfold sumR in *. cbn [map fold_right]. lra. }
        intros l NI ND. apply GG; auto. apply NoDup_nodup.
    - apply NoDup_nodup.
    - apply NoDup_nodup.
    - intros c Hc. apply nodup_In, HI. now apply nodup_In in Hc.
    - intros c _ Hc. rewrite nodup_In in Hc. apply (count_occ_not_In Nat.eq_dec) in Hc. unfold occ. rewrite Hc. simpl. lra. }
  pose proof (G x) as G1. pose proof (G y) as G2.
  eapply Rle_trans; [apply Rplus_le_compat; [apply G1|apply G2]|].
  - intros c Hc. apply in_app_iff. now left.
  - intros c. rewrite OZ. lia.
  - intros c Hc. apply in_app_iff. now right.
  - intros c. rewrite OZ. lia.
  - rewrite <- sumR_plus, nH_sum. apply Req_le. apply sumR_map_ext. intros c _. rewrite OZ, plus_INR. ring.
Qed.
Lemma filter_perm {A} (p : A -> bool) l : Permutation l (filter p l ++ filter (fun x => negb (p x)) l).
Proof.
  induction l as [|x l IH]; [constructor|]. simpl. destruct (p x); simpl; [now constructor|].
  eapply perm_trans; [apply perm_skip, IH|]. apply Permutation_middle.
Qed.
Lemma nH_perm x y : Permutation x y -> nH x = nH y.
Proof. intros H. unfold nH. now rewrite (H0_perm _ _ H), (Permutation_length H). Qed.
Lemma nH_parts {A} (g : A -> nat) (q : A -> str) (Ws : list str) : NoDup Ws -> forall l,
  (sumR (map (fun w => nH (map g (filter (fun i => eqb_str (q i) w) l))) Ws) <= nH (map g l))%R.
Proof.
  induction Ws as [|w Ws IH]; intros ND l; [apply nH_nonneg|]. inversion ND as [|? ? N1 N2]; subst.
  rewrite (nH_perm _ _ (Permutation_map g (filter_perm (fun i => eqb_str (q i) w) l))), map_app.
  eapply Rle_trans; [|apply nH_app]. unfold sumR. cbn [map fold_right]. apply Rplus_le_compat_l.
  eapply Rle_trans; [|apply (IH N2)]. apply Req_le. apply (sumR_map_ext (fun w0 => nH (map g (filter (fun i => eqb_str (q i) w0) l)))).
  intros v Hv. do 2 f_equal. clear - N1 Hv. induction l as [|i l IHl]; [reflexivity|]. simpl.
  destruct (eqb_str (q i) w) eqn:E1; simpl.
  - destruct (eqb_str (q i) v) eqn:E2; [|exact IHl]. apply eqb_str_eq in E1, E2. exfalso. apply N1. now rewrite <- E1, E2.
  - destruct (eqb_str (q i) v); [now rewrite IHl|exact IHl].
Qed.
Lemma sumR_group {A B} (dec : forall x y : B, {x = y} + {x <> y}) (h : A -> B) (a : A -> R) K : NoDup K -> forall L, (forall x, In x L -> In (h x) K) ->
  sumR (map a L) = sumR (map (fun k => sumR (map a (filter (fun x => if dec (h x) k then true else false) L))) K).
Proof.
  intros NK. induction L as [|x L IH]; intros HL; [symmetry; apply sumR_zero; reflexivity|].
  assert (E : sumR (map (fun k => sumR (map a (filter (fun y => if dec (h y) k then true else false) (x :: L)))) K) =
    sumR (map (fun k => ((if dec (h x) k then a x else 0) + sumR (map a (filter (fun y => if dec (h y) k then true else false) L)))%R) K)).
  { apply sumR_map_ext. intros k _. simpl. destruct (dec (h x) k); unfold sumR; simpl; lra. }
  rewrite E, sumR_plus, <- IH by (intros; apply HL; now right). clear E.
  rewrite (sumR_support dec _ K [h x]).
  - unfold sumR. simpl. destruct (dec (h x) (h x)); [lra|contradiction].
  - exact NK.
  - repeat constructor; auto.
  - intros y [<-|[]]. apply HL. now left.
  - intros y _ Hy. destruct (dec (h x) y) as [<-|]; [exfalso; apply Hy; now left|reflexivity].
Qed.
Lemma filter_filter {A} (p q : A -> bool) l : filter p (filter q l) = filter (fun x => q x && p x) l.
Proof. induction l as [|x l IH]; [reflexivity|]. simpl. destruct (q x); simpl; [destruct (p x); now rewrite IH|exact IH]. Qed.
Lemma filter_map {A B} (h : A -> B) p l : filter p (map h l) = map h (filter (fun x => p (h x)) l).
Proof. induction l as [|x l IH]; [reflexivity|]. simpl. destruct (p (h x)); simpl; now rewrite IH. Qed.
(** the followers of a context inside the followers of its tail *)
Definition prev_key (t : str) (k i : nat) : str := match i with 0 => [] | S j => firstn (S k) (skipn j t) end.
Definition places (t w : str) : list nat :=
  filter (fun i => eqb_str (firstn (length w) (skipn i t)) w && (i + length w <? length t)) (seq 0 (length t)).
Lemma followers_extend t c w : let g := fun i => nth (i + length w) t 0 in
  followers t (c :: w) = map g (filter (fun i => eqb_str (prev_key t (length w) i) (c :: w)) (places t w)) /\ followers t w = map g (places t w).
Proof.
  intros g. split; [|reflexivity]. unfold places. rewrite filter_filter. unfold followers. cbn [length].
  destruct (length t) as [|n] eqn:En; [reflexivity|]. rewrite seq_S at 1. cbn [Nat.add]. rewrite filter_app. cbn [filter].
  replace (n + S (length w) <? S n) with false by (symmetry; apply Nat.ltb_ge; lia). rewrite andb_false_r, app_nil_r.
  cbn [seq filter]. replace (eqb_str (prev_key t (length w) 0) (c :: w)) with false by reflexivity. rewrite andb_false_r.
  rewrite <- seq_shift, filter_map, map_map.
  transitivity (map (fun i => nth (i + S (length w)) t 0) (filter (fun x =>
     eqb_str (firstn (length w) (skipn (S x) t)) w && (S x + length w <? S n) && eqb_str (prev_key t (length w) (S x)) (c :: w)) (seq 0 n))).
  - f_equal. apply filter_ext_in. intros i Hi. unfold prev_key. replace (i + S (length w)) with (S i + length w) by lia.
    destruct (eqb_str (firstn (S (length w)) (skipn i t)) (c :: w)) eqn:E; [|now rewrite !andb_false_r]. rewrite andb_true_r. cbn [andb].
    apply eqb_str_eq in E. assert (E2 : firstn (length w) (skipn (S i) t) = w).
    { apply in_seq in Hi. rewrite (skipn_cons_nth t i 0) in E by lia. cbn [firstn] in E. now injection E. }
    assert (E3 : eqb_str (firstn (length w) (skipn (S i) t)) w = true) by now apply eqb_str_eq. rewrite E3. reflexivity.
  - apply map_ext. intros i. unfold g. f_equal. lia.
Qed.
Lemma Hk_step t k W W' : t <> [] -> contexts t k W -> contexts t (S k) W' -> (Hk t W' <= Hk t W)%R.
Proof.
  intros Hne (NW & HW) (NW' & HW'). assert (Hn : 0 < length t) by (destruct t; [easy|simpl; lia]). unfold Hk.
  apply Rmult_le_compat_r; [apply Rlt_le, Rinv_0_lt_compat, lt_0_INR, Hn|].
  change (sumR (map (fun w => nH (followers t w)) W') <= sumR (map (fun w => nH (followers t w)) W))%R.
  rewrite (sumR_group strdec (fun w => skipn 1 w) (fun w => nH (followers t w)) W NW W').
  - apply sumR_le. intros w Hw. apply HW in Hw. destruct Hw as (Lw & _).
    rewrite (proj2 (followers_extend t 0 w)).
    eapply Rle_trans; [|apply (nH_parts _ (prev_key t (length w)) (filter (fun x => if strdec (skipn 1 x) w then true else false) W')); apply NoDup_filter, NW'].
    apply Req_le, sumR_map_ext. intros v Hv. apply filter_In in Hv. destruct Hv as (Hv & Ev). apply HW' in Hv. destruct Hv as (Lv & _).
    destruct v as [|c v]; [simpl in Lv; lia|]. simpl skipn in Ev. destruct (strdec v w) as [->|]; [|discriminate].
    now rewrite (proj1 (followers_extend t c w)).
  - intros v Hv. apply HW' in Hv. destruct Hv as (Lv & i & (O1 & O2) & O3). apply HW. destruct v as [|c v]; [simpl in Lv; lia|].
    simpl skipn. cbn [length] in *. split; [lia|]. exists (S i). split; [split; [lia|]|lia].
    rewrite (skipn_cons_nth t i 0) in O2 by lia. cbn [firstn] in O2. now injection O2.
Qed.
Lemma Hk_zero t W : t <> [] -> contexts t 0 W -> Hk t W = H0 t.
Proof.
  intros Hne (NW & HW). assert (Hn : 0 < length t) by (destruct t; [easy|simpl; lia]). pose proof (lt_0_INR _ Hn) as HR.
  assert (EW : W = [[]]).
  { assert (I : In [] W) by (apply HW; split; [reflexivity|]; exists 0; split; [split; [simpl; lia|reflexivity]|simpl; lia]).
    assert (A : forall w, In w W -> w = []) by (intros w Hw; apply HW in Hw; destruct Hw as (L & _); now destruct w).
    destruct W as [|w [|v W]]; [easy|f_equal; apply A; now left|]. exfalso.
    rewrite (A w) in NW by now left. rewrite (A v) in NW by (right; now left). inversion NW as [|? ? N1 _]; subst. apply N1. now left. }
  subst W. unfold Hk, sumR. cbn [map fold_right].
  assert (EF : followers t [] = t).
  { unfold followers. cbn [length]. rewrite (filter_ext_in _ (fun _ => true)).
    - replace (filter (fun _ : nat => true) (seq 0 (length t))) with (seq 0 (length t)).
      + apply (nth_ext _ _ 0 0); [now rewrite map_length, seq_length|]. intros i Hi. rewrite map_length, seq_length in Hi.
        rewrite (nth_indep _ 0 (nth (0 + 0) t 0)) by (rewrite map_length, seq_length; exact Hi).
        rewrite (map_nth (fun i => nth (i + 0) t 0)), seq_nth by exact Hi. f_equal. lia.
      + induction (seq 0 (length t)) as [|x l IH]; [reflexivity|]. simpl. now rewrite <- IH.
    - intros i Hi. apply in_seq in Hi. simpl firstn. assert (E : eqb_str [] [] = true) by now apply eqb_str_eq. rewrite E. apply Nat.ltb_lt. lia. }
  rewrite EF. field. lra.
Qed.
Lemma Hk_mono t j W : t <> [] -> contexts t j W -> forall d W', contexts t (j + d) W' -> (Hk t W' <= Hk t W)%R.
Proof.
  intros Hne HW. induction d as [|d IH]; intros W' HW'.
  - rewrite Nat.add_0_r in HW'. apply Req_le. unfold Hk. f_equal. apply sumR_perm, Permutation_map.
    destruct HW as (N1 & H1), HW' as (N2 & H2). apply NoDup_Permutation; auto. intros w. now rewrite H1, H2.
  - destruct (contexts_ex t (j + d)) as (V & HV). eapply Rle_trans; [|apply (IH V HV)]. rewrite Nat.add_succ_r in HW'. eapply Hk_step; eauto.
Qed.
Lemma Hk_nonneg t W : t <> [] -> (0 <= Hk t W)%R.
Proof.
  intros Hne. assert (Hn : 0 < length t) by (destruct t; [easy|simpl; lia]). unfold Hk.
  apply Rmult_le_pos; [|apply Rlt_le, Rinv_0_lt_compat, lt_0_INR, Hn]. apply sumR_nonneg. intros w _. apply nH_nonneg.
Qed.
