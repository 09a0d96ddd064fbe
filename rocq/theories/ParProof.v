(** ParProof.v : number_distinct_lyndon_factors (unfinished/parallel.rs). *)
From Verif Require Import Base SpecStr LexFacts ModelIo ModelCore ModelMain ModelPar DuvalProof LyndonProof BbwtProof.

Definition str_dec : forall u v : str, {u = v} + {u <> v} := list_eq_dec Nat.eq_dec.

Lemma differ_within_ok text a b n : a + n <= length text -> b + n <= length text ->
  exists r, differ_within text a b n = Ok r /\ (r = false <-> firstn n (skipn a text) = firstn n (skipn b text)).
Proof.
  intros Ha Hb. unfold differ_within, range. rewrite Nat.sub_0_r.
  assert (G : forall k lo, lo + k = n -> exists o, for_ret (seq lo k) (fun i =>
    x <- get text (a + i) ;; y <- get text (b + i) ;; if negb (x =? y) then Ok (Some true) else Ok None) = Ok o /\
    (o = None <-> firstn k (skipn (a + lo) text) = firstn k (skipn (b + lo) text))).
  { induction k as [|k IH]; intros lo E; cbn [seq for_ret].
    - exists None. split; [reflexivity|]. simpl. tauto.
    - rewrite (get_ok text (a + lo) 0) by lia. rewrite (get_ok text (b + lo) 0) by lia. cbn [bind].
      rewrite (skipn_cons_nth text (a + lo) 0) by lia. rewrite (skipn_cons_nth text (b + lo) 0) by lia. cbn [firstn].
      destruct (Nat.eqb_spec (nth (a + lo) text 0) (nth (b + lo) text 0)) as [Ex|Ex]; cbn [negb bind].
      + destruct (IH (S lo) ltac:(lia)) as (o & Eo & Ho). exists o. split; [exact Eo|].
        rewrite Ho, Ex. rewrite <- !plus_n_Sm. split; [intros ->; reflexivity|]. intros H. now injection H.
      + exists (Some true). split; [reflexivity|]. split; [discriminate|]. intros H. injection H as H _. contradiction. }
  destruct (G n 0 eq_refl) as (o & -> & Ho). cbn [bind]. rewrite !Nat.add_0_r in Ho. eexists. split; [reflexivity|].
  rewrite <- Ho. destruct o; split; congruence.
Qed.

(** 1 if factors i and i+1 differ *)
Definition chg (fs : list str) (i : nat) : nat := if str_dec (nth i fs []) (nth (S i) fs []) then 0 else 1.
Lemma distinct_changes fs : fs <> [] -> non_increasing fs ->
  length (nodup str_dec fs) = S (list_sum (map (chg fs) (seq 0 (length fs - 1)))).
Proof.
  induction fs as [|f fs IH]; [congruence|]. intros _ HN. destruct fs as [|g fs]; [reflexivity|].
  assert (HN2 : non_increasing (g :: fs)) by apply HN. specialize (IH ltac:(discriminate) HN2).
  assert (Hin : In f (g :: fs) <-> f = g).
  { split; [|intros ->; now left]. intros [->|Hi]; [reflexivity|].
    pose proof (non_increasing_sorted _ HN2) as HS. inversion HS as [|? ? _ HF]; subst.
    rewrite Forall_forall in HF. apply lex_le_antisym; [now apply HF|exact (proj1 HN)]. }
  replace (length (f :: g :: fs) - 1) with (S (length (g :: fs) - 1)) by (simpl; lia).
  cbn [seq map list_sum fold_right]. rewrite <- seq_shift, map_map.
  rewrite (map_ext (fun x => chg (f :: g :: fs) (S x)) (chg (g :: fs))) by reflexivity.
  unfold chg at 1. cbn [nth].
  change (nodup str_dec (f :: g :: fs)) with (if in_dec str_dec f (g :: fs) then nodup str_dec (g :: fs) else f :: nodup str_dec (g :: fs)).
  destruct (in_dec str_dec f (g :: fs)) as [I|I]; destruct (str_dec f g) as [E|E]; [exact IH|tauto|tauto|].
  - cbn [length]. rewrite IH. reflexivity.
Qed.

Lemma concat_split (fs : list str) i : i < length fs ->
  concat fs = concat (firstn i fs) ++ nth i fs [] ++ concat (skipn (S i) fs).
Proof.
  intros H. rewrite <- (firstn_skipn i fs) at 1. rewrite concat_app, (skipn_cons_nth fs i [] H). reflexivity.
Qed.
Lemma concat_firstn_S (fs : list str) i : i < length fs ->
  length (concat (firstn (S i) fs)) = length (concat (firstn i fs)) + length (nth i fs []).
Proof. intros H. rewrite (firstn_snoc_nth fs i [] H), concat_app, app_length. simpl. now rewrite app_nil_r. Qed.
Lemma factor_slice (fs : list str) i k : i < length fs -> k <= length (nth i fs []) ->
  firstn k (skipn (length (concat (firstn i fs))) (concat fs)) = firstn k (nth i fs []).
Proof.
  intros H Hk. rewrite (concat_split fs i H), skipn_app, skipn_all, Nat.sub_diag. cbn [app skipn].
  rewrite firstn_app. replace (k - length (nth i fs [])) with 0 by lia. simpl. apply app_nil_r.
Qed.
Lemma concat_firstn_le (fs : list str) i : length (concat (firstn i fs)) <= length (concat fs).
Proof. rewrite <- (firstn_skipn i fs) at 2. rewrite concat_app, app_length. lia. Qed.

(** what the code computes for the first pair *)
Definition first_chg (f g : str) : nat :=
  if Nat.eq_dec (length f) (length g) then if str_dec (removelast f) (removelast g) then 0 else 1 else 1.

Lemma removelast_firstn_len' (w : str) : removelast w = firstn (length w - 1) w.
Proof. rewrite removelast_firstn_len. f_equal. lia. Qed.

Theorem number_distinct_ok t fs : lyndon_factorization t fs -> t <> [] ->
  number_distinct_lyndon_factors t = Ok (match fs with
    | f :: g :: _ => S (first_chg f g + list_sum (map (chg fs) (seq 1 (length fs - 2))))
    | _ => 1 end).
Proof.
  intros HL Ht. destruct (duval_correct t) as (ends & gs & Ed & HG & Ee).
  assert (gs = fs) by (eapply lyndon_factorization_unique; eauto). subst gs.
  destruct HL as (HC & HF & HN). unfold number_distinct_lyndon_factors.
  destruct (Nat.eqb_spec (length t) 0) as [C|_]; [destruct t; [congruence|discriminate]|].
  rewrite Ed. cbn [bind]. assert (Le : length ends = length fs) by (rewrite Ee; apply ends_from_length).
  destruct (Nat.eqb_spec (length ends) 1) as [C|C].
  { destruct fs as [|f [|g fs]]; simpl in *; try lia; reflexivity. }
  destruct fs as [|f [|g fs]]; [simpl in HC; congruence|simpl in *; lia|]. set (FS := f :: g :: fs) in *.
  assert (LF : 2 <= length FS) by (simpl; lia).
  assert (HE : forall i, i < length FS -> nth i ends 0 + 1 = length (concat (firstn (S i) FS))).
  { intros i Hi. rewrite Ee. now rewrite nth_ends_from. }
  assert (Hlen : forall i, i < length FS -> 1 <= length (nth i FS [])).
  { intros i Hi. assert (L : lyndon (nth i FS [])) by (apply (proj1 (Forall_forall _ _) HF), nth_In, Hi).
    destruct (nth i FS []) eqn:E; [destruct L; congruence|simpl; lia]. }
  rewrite (get_ok ends 1 0), (get_ok ends 0 0) by lia. cbn [bind].
  pose proof (HE 0 ltac:(lia)) as E0. pose proof (HE 1 ltac:(lia)) as E1.
  pose proof (concat_firstn_S FS 0 ltac:(lia)) as S0. pose proof (concat_firstn_S FS 1 ltac:(lia)) as S1.
  change (nth 0 FS []) with f in *. change (nth 1 FS []) with g in *.
  change (length (concat (firstn 0 FS))) with 0 in *.
  pose proof (Hlen 0 ltac:(lia)) as Lf. pose proof (Hlen 1 ltac:(lia)) as Lg. simpl in Lf, Lg.
  set (c0 := nth 0 ends 0) in *. set (c1 := nth 1 ends 0) in *.
  rewrite sub_ok by lia. cbn [bind].
  assert (B : exists b, (if negb (c1 - c0 =? 1 + c0) then Ok true else differ_within t 0 (c0 + 1) c0) = Ok b /\
     (if b then 2 else 1) = 1 + first_chg f g).
  { pose proof (concat_firstn_le FS 2) as L2. rewrite HC in L2. unfold first_chg.
    destruct (Nat.eqb_spec (c1 - c0) (1 + c0)) as [Ec|Ec]; cbn [negb].
    - destruct (Nat.eq_dec (length f) (length g)) as [El|El]; [|lia].
      destruct (differ_within_ok t 0 (c0 + 1) c0 ltac:(lia) ltac:(lia)) as (b & Eb & Hb). exists b. split; [exact Eb|].
      rewrite <- HC in Hb. pose proof (factor_slice FS 0 c0 ltac:(lia) ltac:(change (nth 0 FS []) with f; lia)) as Q0.
      change (length (concat (firstn 0 FS))) with 0 in Q0. rewrite Q0 in Hb.
      replace (c0 + 1) with (length (concat (firstn 1 FS))) in Hb by lia.
      rewrite (factor_slice FS 1 c0) in Hb by (change (nth 1 FS []) with g; lia).
      change (nth 0 FS []) with f in Hb. change (nth 1 FS []) with g in Hb.
      rewrite !removelast_firstn_len'. rewrite <- El. replace (length f - 1) with c0 by lia.
      destruct (str_dec (firstn c0 f) (firstn c0 g)) as [X|X]; destruct b; try reflexivity; exfalso.
      + apply Hb in X. discriminate.
      + apply X, Hb. reflexivity.
    - exists true. split; [reflexivity|]. destruct (Nat.eq_dec (length f) (length g)); [lia|reflexivity]. }
  destruct B as (b & -> & Eb). cbn [bind]. cbv zeta. rewrite Eb. rewrite sub_ok by lia. cbn [bind].
  set (body := fun (it counter : nat) => _).
  assert (R : okp (for_in (range 1 (length ends - 1)) body (1 + first_chg f g)) (fun c =>
     c = 1 + first_chg f g + list_sum (map (chg FS) (seq 1 (length ends - 1 - 1))))).
  { apply (okp_for_range (fun i c => c = 1 + first_chg f g + list_sum (map (chg FS) (seq 1 (i - 1))))); [lia|simpl; lia|].
    intros i c Hi ->. unfold body.
    rewrite (get_ok ends i 0), (get_ok ends (i - 1) 0), (get_ok ends (i + 1) 0) by lia. cbn [bind].
    pose proof (HE i ltac:(lia)) as Ei. pose proof (HE (i - 1) ltac:(lia)) as Ei'. pose proof (HE (i + 1) ltac:(lia)) as Ei2.
    pose proof (concat_firstn_S FS i ltac:(lia)) as Si. pose proof (concat_firstn_S FS (i + 1) ltac:(lia)) as Si2.
    replace (S (i - 1)) with i in Ei' by lia. rewrite (Nat.add_1_r i) in *.
    pose proof (Hlen i ltac:(lia)) as Li. pose proof (Hlen (S i) ltac:(lia)) as Li2.
    rewrite (sub_ok (nth i ends 0) (nth (i - 1) ends 0)) by lia. cbn [bind].
    rewrite (sub_ok (nth (S i) ends 0) (nth i ends 0)) by lia. cbn [bind].
    replace (S i - 1) with (S (i - 1)) by lia. rewrite (seq_S (i - 1) 1), map_app, list_sum_app.
    replace (1 + (i - 1)) with i by lia. cbn [map list_sum fold_right].
    set (d := nth i ends 0 - nth (i - 1) ends 0). set (e := nth (S i) ends 0 - nth i ends 0).
    assert (Ed' : d = length (nth i FS [])) by (unfold d; lia).
    assert (Ee' : e = length (nth (S i) FS [])) by (unfold e; lia).
    pose proof (concat_firstn_le FS (S (S i))) as L2. rewrite HC in L2.
    change (chg FS i) with (if str_dec (nth i FS []) (nth (S i) FS []) then 0 else 1).
    destruct (Nat.eqb_spec d e) as [Ec|Ec]; cbn [negb bind].
    - destruct (differ_within_ok t (nth (i - 1) ends 0 + 1) (nth i ends 0 + 1) d ltac:(lia) ltac:(lia)) as (b' & -> & Hb).
      cbn [bind]. rewrite <- HC, Ei, Ei' in Hb. rewrite (factor_slice FS i d) in Hb by lia.
      rewrite (factor_slice FS (S i) d) in Hb by lia.
      assert (F1 : firstn d (nth i FS []) = nth i FS []) by (rewrite Ed'; apply firstn_all).
      assert (F2 : firstn d (nth (S i) FS []) = nth (S i) FS []) by (rewrite Ec, Ee'; apply firstn_all).
      rewrite F1, F2 in Hb.
      apply okp_ok. destruct (str_dec (nth i FS []) (nth (S i) FS [])) as [X|X]; destruct b'; try lia; exfalso.
      + apply Hb in X. discriminate.
      + apply X, Hb. reflexivity.
    - cbn [bind]. apply okp_ok. destruct (str_dec (nth i FS []) (nth (S i) FS [])) as [X|X]; [|lia].
      exfalso. apply Ec. rewrite Ed', Ee', X. reflexivity. }
  destruct R as (c & -> & ->). rewrite Le. replace (length FS - 1 - 1) with (length FS - 2) by lia. reflexivity.
Qed.
