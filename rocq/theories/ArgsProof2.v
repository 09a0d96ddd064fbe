(** ArgsProof2.v : spelled command lines are parsed as their uses say. *)
From Verif Require Import Base SpecStr SpecArgs ModelMain ModelResult ModelArgs ArgsProof.
From Coq Require Import NArith.

Fixpoint do_uses (m : matches) (us : list use) : pr matches :=
  match us with [] => Go m | (a, vs) :: us' => m' <== react m a vs ; do_uses m' us' end.
Lemma pbind_assoc {A B C} (e : pr A) (f : A -> pr B) (g : B -> pr C) : pbind (pbind e f) g = pbind e (fun x => pbind (f x) g).
Proof. now destruct e. Qed.
Lemma do_uses_app us : forall m us', do_uses m (us ++ us') = (m1 <== do_uses m us ; do_uses m1 us').
Proof. induction us as [|(a, vs) us IH]; intros m us'; [reflexivity|]. cbn [do_uses app]. rewrite pbind_assoc. destruct (react m a vs); cbn [pbind]; auto. Qed.
Lemma react_takes m a vs : takes_value a = true -> react m a vs <> Show.
Proof.
  unfold takes_value, react. destruct (arg_action a); try discriminate; intros _; destruct (_ || _); try discriminate;
    destruct (lookup m (arg_id a)); try discriminate; destruct (parse_values _ _); discriminate.
Qed.
Lemma by_short_ok opts c a : by_short opts c = Some a -> In a opts /\ arg_short a = Some c.
Proof.
  induction opts as [|b opts IH]; [discriminate|]. cbn [by_short]. destruct (arg_short b) as [s|] eqn:E.
  - destruct (Nat.eqb_spec s c) as [->|N]; [intros [= <-]; split; [now left|exact E]|]. intros H. apply IH in H. split; [now right|tauto].
  - intros H. apply IH in H. split; [now right|tauto].
Qed.
Lemma by_long_ok opts l a : by_long opts l = Some a -> In a opts /\ arg_long a = Some l.
Proof.
  induction opts as [|b opts IH]; [discriminate|]. cbn [by_long]. destruct (arg_long b) as [s|] eqn:E.
  - destruct (list_eq_dec Nat.eq_dec s l) as [->|N]; [intros [= <-]; split; [now left|exact E]|]. intros H. apply IH in H. split; [now right|tauto].
  - intros H. apply IH in H. split; [now right|tauto].
Qed.
Lemma by_short_find opts c a : names_ok opts -> In a opts -> arg_short a = Some c -> by_short opts c = Some a.
Proof.
  intros (_ & HS & _) Ha E.
  assert (X : exists b, by_short opts c = Some b).
  { clear HS. induction opts as [|b opts IH]; [contradiction|]. cbn [by_short]. destruct (arg_short b) as [s|] eqn:Eb.
    - destruct (Nat.eqb_spec s c) as [->|N]; [eauto|]. destruct Ha as [->|Ha]; [congruence|]. auto.
    - destruct Ha as [->|Ha]; [congruence|]. auto. }
  destruct X as (b & X). rewrite X. f_equal. apply by_short_ok in X. destruct X as (X1 & X2). now apply (HS b a c).
Qed.
Lemma by_long_find opts l a : names_ok opts -> In a opts -> arg_long a = Some l -> by_long opts l = Some a.
Proof.
  intros (_ & _ & HS & _) Ha E.
  assert (X : exists b, by_long opts l = Some b).
  { clear HS. induction opts as [|b opts IH]; [contradiction|]. cbn [by_long]. destruct (arg_long b) as [s|] eqn:Eb.
    - destruct (list_eq_dec Nat.eq_dec s l) as [->|N]; [eauto|]. destruct Ha as [->|Ha]; [congruence|]. auto.
    - destruct Ha as [->|Ha]; [congruence|]. auto. }
  destruct X as (b & X). rewrite X. f_equal. apply by_long_ok in X. destruct X as (X1 & X2). now apply (HS b a l).
Qed.
Lemma split_eq_none l : ~ In 61 l -> split_eq l = (l, None).
Proof.
  induction l as [|c l IH]; intros H; [reflexivity|]. cbn [split_eq]. destruct (Nat.eqb_spec c 61) as [->|N]; [exfalso; apply H; now left|].
  rewrite IH; [reflexivity|]. intros X. apply H. now right.
Qed.
Lemma split_eq_some l v : ~ In 61 l -> split_eq (l ++ 61 :: v) = (l, Some v).
Proof.
  induction l as [|c l IH]; intros H; [reflexivity|]. cbn [split_eq app]. destruct (Nat.eqb_spec c 61) as [->|N]; [exfalso; apply H; now left|].
  rewrite IH; [reflexivity|]. intros X. apply H. now right.
Qed.
Lemma split_eq_inv s : forall n v, split_eq s = (n, v) -> ~ In 61 n /\ match v with None => s = n | Some w => s = n ++ 61 :: w end.
Proof.
  induction s as [|c s IH]; intros n v E; cbn [split_eq] in E.
  - injection E as <- <-. split; [intros []|reflexivity].
  - destruct (Nat.eqb_spec c 61) as [->|N]; [injection E as <- <-; split; [intros []|reflexivity]|].
    destruct (split_eq s) as (n', v') eqn:E2. injection E as <- <-. destruct (IH _ _ eq_refl) as (H1 & H2). split.
    + intros [X|X]; [congruence|contradiction].
    + destruct v'; cbn [app]; now rewrite H2.
Qed.

(** ** one argument *)
Lemma pf_long c s ts pos m pend : s <> [] ->
  parse_from c ((45 :: 45 :: s) :: ts) false pos m pend = (r <== long (options c) s m pend ; parse_from c ts false pos (fst r) (snd r)).
Proof. destruct s; [easy|reflexivity]. Qed.
Lemma pf_dash c ts pos m pend : parse_from c ([45; 45] :: ts) false pos m pend = parse_from c ts true pos m pend.
Proof. reflexivity. Qed.
Lemma pf_short c d cs ts pos m pend : d <> 45 ->
  parse_from c ((45 :: d :: cs) :: ts) false pos m pend = (r <== shorts (options c) (d :: cs) m pend ; parse_from c ts false pos (fst r) (snd r)).
Proof. intros N. do 45 (destruct d as [|d]; [reflexivity|]). destruct d as [|d]; [contradiction|reflexivity]. Qed.
Definition plain_step c t ts pos m pend :=
  match pend with
  | Some (a, vs) => if arg_many a then parse_from c ts false pos m (Some (a, vs ++ [t])) else m' <== react m a (vs ++ [t]) ; parse_from c ts false pos m' None
  | None => match pos with [] => Refuse | a :: pos' => m'' <== react m a [t] ; parse_from c ts false pos' m'' None end
  end.
Lemma pf_plain c t ts pos m pend : ~ hyphened t -> parse_from c (t :: ts) false pos m pend = plain_step c t ts pos m pend.
Proof.
  intros H. destruct t as [|x t]; [destruct pend as [(a, vs)|]; reflexivity|]. destruct (Nat.eq_dec x 45) as [->|N].
  - destruct t as [|y t]; [destruct pend as [(a, vs)|]; reflexivity|]. exfalso. apply H. now exists y, t.
  - do 45 (destruct x as [|x]; [destruct pend as [(a, vs)|]; reflexivity|]). destruct x as [|x]; [contradiction|]. destruct pend as [(a, vs)|]; reflexivity.
Qed.
Lemma hyphened_cases t : hyphened t -> (exists s, s <> [] /\ t = 45 :: 45 :: s) \/ t = [45; 45] \/ exists d cs, d <> 45 /\ t = 45 :: d :: cs.
Proof.
  intros (c & r & ->). destruct (Nat.eq_dec c 45) as [->|N]; [|right; right; eauto]. destruct r as [|x r]; [now right; left|]. left. now exists (x :: r).
Qed.
Lemma hyphened_dec t : hyphened t \/ ~ hyphened t.
Proof.
  destruct t as [|x [|y t]]; try (right; intros (c & r & E); discriminate). destruct (Nat.eq_dec x 45) as [->|N]; [left; now exists y, t|right; intros (c & r & [= X _]); contradiction].
Qed.

Definition ready (ts : list str) : Prop := ts = [] \/ exists t r, ts = t :: r /\ hyphened t.
Lemma pbind_refuse {A B} (e : pr A) : e <> Show -> (pbind e (fun _ => @Refuse B)) = Refuse.
Proof. now destruct e. Qed.
Lemma opt_value_pend m p a att : pbind (resolve m (Some p)) (fun m1 => opt_value m1 None a att) = opt_value m (Some p) a att.
Proof. unfold opt_value. cbn [resolve]. destruct p as (b, vs). destruct (react m b vs); reflexivity. Qed.
Lemma shorts_pend opts cs : cs <> [] -> forall m a vs, takes_value a = true -> shorts opts cs m (Some (a, vs)) = (m1 <== react m a vs ; shorts opts cs m1 None).
Proof.
  intros NE m a vs T. destruct cs as [|c cs]; [easy|]. cbn [shorts]. destruct (by_short opts c) as [b|]; [|symmetry; apply pbind_refuse; now apply react_takes].
  destruct (takes_value b); [symmetry; apply (opt_value_pend m (a, vs))|]. cbn [resolve]. destruct (react m a vs); reflexivity.
Qed.
Lemma long_pend opts s : forall m a vs, takes_value a = true -> long opts s m (Some (a, vs)) = (m1 <== react m a vs ; long opts s m1 None).
Proof.
  intros m a vs T. unfold long. destruct (split_eq s) as (n, v). destruct (by_long opts n) as [b|]; [|symmetry; apply pbind_refuse; now apply react_takes].
  destruct (takes_value b); [symmetry; apply (opt_value_pend m (a, vs))|]. destruct v; [symmetry; apply pbind_refuse; now apply react_takes|]. cbn [resolve]. destruct (react m a vs); reflexivity.
Qed.
Lemma trailing_pend c ts pos m a vs : takes_value a = true ->
  parse_from c ts true pos m (Some (a, vs)) = (m1 <== react m a vs ; parse_from c ts true pos m1 None).
Proof.
  intros T. destruct ts as [|t ts]; cbn [parse_from resolve].
  - destruct (react m a vs); reflexivity.
  - destruct pos as [|b pos]; [symmetry; apply pbind_refuse; now apply react_takes|]. destruct (react m a vs); reflexivity.
Qed.
Lemma pend_first c ts pos m a vs : takes_value a = true -> ready ts ->
  parse_from c ts false pos m (Some (a, vs)) = (m1 <== react m a vs ; parse_from c ts false pos m1 None).
Proof.
  intros T [->|(t & r & -> & H)].
  - cbn [parse_from resolve]. destruct (react m a vs); reflexivity.
  - apply hyphened_cases in H. destruct H as [(s & NE & ->)|[->|(d & cs & N & ->)]].
    + rewrite pf_long, long_pend, pbind_assoc by assumption. destruct (react m a vs); cbn [pbind]; try reflexivity. now rewrite pf_long.
    + rewrite pf_dash, trailing_pend by assumption. destruct (react m a vs); cbn [pbind]; try reflexivity.
    + rewrite pf_short, shorts_pend, pbind_assoc by (assumption || discriminate). destruct (react m a vs); cbn [pbind]; try reflexivity. now rewrite pf_short.
Qed.

(** ** pieces *)
Lemma values_run c a vs ts pos m : takes_value a = true -> separate a vs -> ready ts ->
  parse_from c (vs ++ ts) false pos m (Some (a, [])) = (m1 <== react m a vs ; parse_from c ts false pos m1 None).
Proof.
  intros T (NE & F & L) R. destruct (arg_many a) eqn:M.
  - assert (G : forall ws, Forall (fun v => ~ hyphened v) ws -> forall us, parse_from c (ws ++ ts) false pos m (Some (a, us)) = parse_from c ts false pos m (Some (a, us ++ ws))).
    { clear NE F L. intros ws F. induction F as [|w ws H F IH]; intros us; [now rewrite app_nil_r|]. cbn [app]. rewrite pf_plain by exact H. unfold plain_step. rewrite M, IH, <- app_assoc. reflexivity. }
    rewrite G by exact F. now apply pend_first.
  - specialize (L eq_refl). destruct vs as [|v [|]]; try discriminate. inversion F; subst. cbn [app]. rewrite pf_plain by assumption. unfold plain_step. now rewrite M.
Qed.
Lemma letters_run opts fs cs : names_ok opts -> letters opts fs cs -> forall rest m, shorts opts (cs ++ rest) m None = (m1 <== do_uses m (plain_uses fs) ; shorts opts rest m1 None).
Proof.
  intros NO L. induction L as [|a s fs cs Ha T E L IH]; intros rest m; [reflexivity|].
  cbn [app shorts plain_uses map do_uses]. rewrite (by_short_find _ _ _ NO Ha E), T. cbn [resolve pbind]. rewrite pbind_assoc. destruct (react m a []); cbn [pbind]; auto.
Qed.
Lemma letters_ne opts fs cs : letters opts fs cs -> fs <> [] -> cs <> [].
Proof. intros L. destruct L; easy. Qed.
Lemma letters_hd opts fs cs : names_ok opts -> letters opts fs cs -> forall d r, cs = d :: r -> d <> 45.
Proof. intros NO L d r E. destruct L as [|a s fs cs Ha T Es L]; [discriminate|]. injection E as -> ->. destruct NO as (_ & _ & _ & H & _). now apply (H a). Qed.
Lemma piece_run c us ts : names_ok (options c) -> piece (options c) us ts -> forall rest pos m, ready rest ->
  parse_from c (ts ++ rest) false pos m None = (m1 <== do_uses m us ; parse_from c rest false pos m1 None).
Proof.
  intros NO P rest pos m R. pose proof NO as NO'. destruct NO' as (_ & _ & _ & HSN & HLN & _).
  assert (SW : forall fs cs a s, letters (options c) fs cs -> In a (options c) -> takes_value a = true -> arg_short a = Some s -> forall suf tail,
    parse_from c ((45 :: cs ++ s :: suf) :: tail) false pos m None =
    (m1 <== do_uses m (plain_uses fs) ; r <== opt_value m1 None a (match suf with [] => None | 61 :: v => Some v | _ => Some suf end) ; parse_from c tail false pos (fst r) (snd r))).
  { intros fs cs a s L Ha T E suf tail.
    assert (X : exists d cs', cs ++ s :: suf = d :: cs' /\ d <> 45).
    { destruct cs as [|d cs]; cbn [app]; [exists s, suf|exists d, (cs ++ s :: suf)]; (split; [reflexivity|]); [now apply (HSN a)|]. now apply (letters_hd _ _ _ NO L d cs). }
    destruct X as (d & cs' & EX & ND). rewrite EX, pf_short by exact ND. rewrite <- EX, (letters_run _ _ _ NO L), pbind_assoc.
    destruct (do_uses m (plain_uses fs)) as [m1| |]; cbn [pbind]; try reflexivity. cbn [shorts]. now rewrite (by_short_find _ _ _ NO Ha E), T. }
  destruct P as [a l Ha T E|a l vs Ha T E S|a l v Ha T E|fs cs L NE|fs cs a s vs L Ha T E S|fs cs a s v L Ha T E NV HV|fs cs a s v L Ha T E].
  - destruct (HLN a l Ha E) as (Nl & N61). cbn [app]. rewrite pf_long by exact Nl. unfold long. rewrite split_eq_none by exact N61.
    rewrite (by_long_find _ _ _ NO Ha E), T. cbn [resolve pbind do_uses]. rewrite !pbind_assoc. destruct (react m a []); reflexivity.
  - destruct (HLN a l Ha E) as (Nl & N61). cbn [app]. rewrite pf_long by exact Nl. unfold long. rewrite split_eq_none by exact N61.
    rewrite (by_long_find _ _ _ NO Ha E), T. unfold opt_value. cbn [resolve pbind fst snd do_uses]. rewrite values_run by assumption. destruct (react m a vs); reflexivity.
  - destruct (HLN a l Ha E) as (Nl & N61). cbn [app]. rewrite pf_long by (destruct l; easy). unfold long. rewrite split_eq_some by exact N61.
    rewrite (by_long_find _ _ _ NO Ha E), T. unfold opt_value. cbn [resolve pbind fst snd do_uses]. rewrite !pbind_assoc. destruct (react m a [v]); reflexivity.
  - assert (X : exists d cs', cs = d :: cs' /\ d <> 45).
    { pose proof (letters_ne _ _ _ L NE) as NC. destruct cs as [|d cs]; [easy|]. exists d, cs. split; [reflexivity|]. now apply (letters_hd _ _ _ NO L d cs). }
    destruct X as (d & cs' & -> & ND). cbn [app]. rewrite pf_short by exact ND. rewrite <- (app_nil_r (d :: cs')), (letters_run _ _ _ NO L), pbind_assoc.
    destruct (do_uses m (plain_uses fs)); reflexivity.
  - cbn [app]. rewrite (SW fs cs a s L Ha T E). rewrite do_uses_app, pbind_assoc. destruct (do_uses m (plain_uses fs)) as [m1| |]; cbn [pbind]; try reflexivity.
    unfold opt_value. cbn [resolve pbind fst snd do_uses]. rewrite values_run by assumption. destruct (react m1 a vs); reflexivity.
  - cbn [app]. rewrite (SW fs cs a s L Ha T E). rewrite do_uses_app, pbind_assoc. destruct (do_uses m (plain_uses fs)) as [m1| |]; cbn [pbind]; try reflexivity.
    assert (X : match v with [] => None | 61 :: w => Some w | _ => Some v end = Some v).
    { destruct v as [|x v]; [easy|]. cbn [hd] in HV. do 62 (destruct x as [|x]; [try reflexivity; contradiction|]). reflexivity. }
    rewrite X. unfold opt_value. cbn [resolve pbind fst snd do_uses]. rewrite !pbind_assoc. destruct (react m1 a [v]); reflexivity.
  - cbn [app]. rewrite (SW fs cs a s L Ha T E). rewrite do_uses_app, pbind_assoc. destruct (do_uses m (plain_uses fs)) as [m1| |]; cbn [pbind]; try reflexivity.
    unfold opt_value. cbn [resolve pbind fst snd do_uses]. rewrite !pbind_assoc. destruct (react m1 a [v]); reflexivity.
Qed.
Lemma piece_ready opts us ts rest : names_ok opts -> piece opts us ts -> ready (ts ++ rest).
Proof.
  intros NO P. pose proof NO as NO'. destruct NO' as (_ & _ & _ & HSN & HLN & _). right.
  destruct P; cbn [app]; do 2 eexists; (split; [reflexivity|]); try (now do 2 eexists).
  - match goal with L : letters _ _ _, NE : _ <> [] |- _ => pose proof (letters_ne _ _ _ L NE) as NC end. destruct cs as [|d cs]; [easy|]. now exists d, cs.
  - destruct cs as [|d cs]; cbn [app]; now do 2 eexists.
  - destruct cs as [|d cs]; cbn [app]; now do 2 eexists.
  - destruct cs as [|d cs]; cbn [app]; now do 2 eexists.
Qed.
Lemma spelled_ready opts us ts rest : names_ok opts -> spelled opts us ts -> ready rest -> ready (ts ++ rest).
Proof. intros NO S R. destruct S as [|us ts us' ts' P S]; [exact R|]. rewrite <- app_assoc. now apply (piece_ready opts us). Qed.
Lemma spelled_run c us ts : names_ok (options c) -> spelled (options c) us ts -> forall rest pos m, ready rest ->
  parse_from c (ts ++ rest) false pos m None = (m1 <== do_uses m us ; parse_from c rest false pos m1 None).
Proof.
  intros NO S. induction S as [|us ts us' ts' P S IH]; intros rest pos m R; [reflexivity|].
  rewrite <- app_assoc, (piece_run c us ts NO P) by now apply (spelled_ready (options c) us'). rewrite do_uses_app, pbind_assoc.
  destruct (do_uses m us) as [m1| |]; cbn [pbind]; auto.
Qed.
Lemma command_line_run c us line : names_ok (options c) -> command_line (options c) us line ->
  parse c line = (m <== do_uses [] us ; if required_present (options c ++ positionals c) m then Go m else Refuse).
Proof.
  intros NO (ts & S & [->| ->]); unfold parse.
  - rewrite <- (app_nil_r ts), (spelled_run c us ts NO S) by now left. reflexivity.
  - rewrite (spelled_run c us ts NO S) by (right; do 2 eexists; split; [reflexivity|now do 2 eexists]). reflexivity.
Qed.
