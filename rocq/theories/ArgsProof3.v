(** ArgsProof3.v : which uses are performed, and every accepted command line is spelled. *)
From Verif Require Import Base SpecStr SpecArgs ModelMain ModelResult ModelArgs ArgsProof ArgsProof2.
From Coq Require Import NArith.

Definition shaped (u : use) : Prop :=
  if takes_value (fst u) then snd u <> [] /\ (arg_many (fst u) = false -> length (snd u) = 1) else snd u = [].
Definition fits (opts : list arg) (u : use) : Prop := In (fst u) opts /\ shaped u.
Lemma letters_fits opts fs cs : letters opts fs cs -> Forall (fits opts) (plain_uses fs).
Proof. intros L. induction L as [|a s fs cs Ha T E L IH]; [constructor|]. constructor; [|exact IH]. split; [exact Ha|]. unfold shaped. cbn [fst snd]. now rewrite T. Qed.
Lemma piece_fits opts us ts : piece opts us ts -> Forall (fits opts) us.
Proof.
  assert (G : forall a vs, In a opts -> takes_value a = true -> vs <> [] -> (arg_many a = false -> length vs = 1) -> fits opts (a, vs)).
  { intros a vs Ha T N L. split; [exact Ha|]. unfold shaped. cbn [fst snd]. rewrite T. auto. }
  intros P. destruct P as [a l Ha T E|a l vs Ha T E (S1 & S2 & S3)|a l v Ha T E|fs cs L NE|fs cs a s vs L Ha T E (S1 & S2 & S3)|fs cs a s v L Ha T E NV HV|fs cs a s v L Ha T E].
  - constructor; [|constructor]. split; [exact Ha|]. unfold shaped. cbn [fst snd]. now rewrite T.
  - constructor; [|constructor]. now apply G.
  - constructor; [|constructor]. now apply G.
  - now apply letters_fits with (cs := cs).
  - apply Forall_app. split; [now apply letters_fits with (cs := cs)|]. constructor; [|constructor]. now apply G.
  - apply Forall_app. split; [now apply letters_fits with (cs := cs)|]. constructor; [|constructor]. now apply G.
  - apply Forall_app. split; [now apply letters_fits with (cs := cs)|]. constructor; [|constructor]. now apply G.
Qed.
Lemma spelled_fits opts us ts : spelled opts us ts -> Forall (fits opts) us.
Proof. intros S. induction S as [|us ts us' ts' P S IH]; [constructor|]. apply Forall_app. split; [now apply piece_fits with (ts := ts)|exact IH]. Qed.

(** ** react *)
Lemma lookup_add m id vs : forall id', lookup (add_values m id vs) id' =
  if list_eq_dec Nat.eq_dec id id' then Some (match lookup m id with Some ws => ws ++ vs | None => vs end) else lookup m id'.
Proof.
  induction m as [|(i, ws) m IH]; intros id'; cbn [add_values lookup]; [reflexivity|].
  destruct (list_eq_dec Nat.eq_dec i id) as [->|N]; cbn [lookup].
  - destruct (list_eq_dec Nat.eq_dec id id'); reflexivity.
  - rewrite IH. destruct (list_eq_dec Nat.eq_dec i id') as [->|N']; [|reflexivity]. destruct (list_eq_dec Nat.eq_dec id id') as [->|]; [contradiction|reflexivity].
Qed.
Lemma react_ok m a vs m' : shaped (a, vs) -> type_ok (arg_type a) ->
  (react m a vs = Go m' <-> (arg_action a <> Help /\ arg_action a <> Version) /\ (arg_action a = Listed \/ lookup m (arg_id a) = None) /\
    exists xs, Forall2 (reads_as (arg_type a)) vs xs /\ m' = add_values m (arg_id a) xs).
Proof.
  intros S T. unfold shaped, takes_value in S. cbn [fst snd] in S. unfold react. destruct (arg_action a) eqn:A; cbn in S.
  - subst vs. destruct (lookup m (arg_id a)) eqn:E.
    + split; [discriminate|]. intros (_ & [X|X] & _); discriminate.
    + split.
      * intros [= <-]. split; [split; discriminate|]. split; [now right|]. exists []. split; [constructor|reflexivity].
      * intros (_ & _ & xs & F & ->). inversion F; subst. reflexivity.
  - destruct S as (S1 & S2). assert (C : (length vs =? 0) || (negb (arg_many a) && negb (length vs =? 1)) = false).
    { destruct vs as [|v vs]; [easy|]. cbn [length Nat.eqb orb]. destruct (arg_many a); [reflexivity|]. specialize (S2 eq_refl). cbn [length] in S2. assert (L0 : length vs = 0) by lia. now rewrite L0. }
    rewrite C. destruct (lookup m (arg_id a)) eqn:E.
    + split; [discriminate|]. intros (_ & [X|X] & _); discriminate.
    + destruct (parse_values (arg_type a) vs) as [ys|] eqn:P.
      * split.
        -- intros [= <-]. split; [split; discriminate|]. split; [now right|]. exists ys. split; [now apply parse_values_ok|reflexivity].
        -- intros (_ & _ & xs & F & ->). apply parse_values_ok in F; [|exact T]. congruence.
      * split; [discriminate|]. intros (_ & _ & xs & F & _). apply parse_values_ok in F; [|exact T]. congruence.
  - destruct S as (S1 & S2). assert (C : (length vs =? 0) || (negb (arg_many a) && negb (length vs =? 1)) = false).
    { destruct vs as [|v vs]; [easy|]. cbn [length Nat.eqb orb]. destruct (arg_many a); [reflexivity|]. specialize (S2 eq_refl). cbn [length] in S2. assert (L0 : length vs = 0) by lia. now rewrite L0. }
    rewrite C. destruct (parse_values (arg_type a) vs) as [ys|] eqn:P.
    + split.
      * intros [= <-]. split; [split; discriminate|]. split; [now left|]. exists ys. split; [now apply parse_values_ok|reflexivity].
      * intros (_ & _ & xs & F & ->). apply parse_values_ok in F; [|exact T]. congruence.
    + split; [discriminate|]. intros (_ & _ & xs & F & _). apply parse_values_ok in F; [|exact T]. congruence.
  - split; [discriminate|]. intros ((X & _) & _). congruence.
  - split; [discriminate|]. intros ((_ & X) & _). congruence.
Qed.
Lemma id_inj opts a b : NoDup (map arg_id opts) -> In a opts -> In b opts -> arg_id a = arg_id b -> a = b.
Proof.
  intros ND Ha Hb E. induction opts as [|x opts IH]; [contradiction|]. cbn [map] in ND. inversion ND as [|? ? N1 N2]; subst.
  destruct Ha as [->|Ha], Hb as [->|Hb]; [reflexivity| | |auto].
  - exfalso. apply N1. rewrite E. now apply in_map.
  - exfalso. apply N1. rewrite <- E. now apply in_map.
Qed.
Lemma uses_of_cons b vs us a : uses_of ((b, vs) :: us) a = if list_eq_dec Nat.eq_dec (arg_id b) (arg_id a) then vs :: uses_of us a else uses_of us a.
Proof. unfold uses_of. cbn [filter fst]. destruct (list_eq_dec Nat.eq_dec (arg_id b) (arg_id a)); reflexivity. Qed.
Lemma readable_values t vs : Forall (fun v => exists x, reads_as t v x) vs <-> exists xs, Forall2 (reads_as t) vs xs.
Proof.
  split.
  - intros F. induction F as [|v vs (x & Hx) F (xs & IH)]; [exists []; constructor|]. exists (x :: xs). now constructor.
  - intros (xs & F). induction F; constructor; eauto.
Qed.
Definition taken (m : matches) (a : arg) : nat := match lookup m (arg_id a) with Some _ => 1 | None => 0 end.

Section Uses.
  Context (opts : list arg) (ND : NoDup (map arg_id opts)) (TY : forall a, In a opts -> type_ok (arg_type a)).
  Lemma taken_add m b xs a : taken (add_values m (arg_id b) xs) a = if list_eq_dec Nat.eq_dec (arg_id b) (arg_id a) then 1 else taken m a.
  Proof. unfold taken. rewrite lookup_add. destruct (list_eq_dec Nat.eq_dec (arg_id b) (arg_id a)); reflexivity. Qed.
  Lemma do_uses_go us : Forall (fits opts) us -> forall m,
    (exists m', do_uses m us = Go m') <-> Forall readable us /\ no_help us /\ (forall a, In a opts -> arg_action a = Listed \/ length (uses_of us a) + taken m a <= 1).
  Proof.
    intros F. induction F as [|(b, vs) us (Hb & S) F IH]; intros m.
    - cbn [do_uses]. split; [intros _|eauto]. split; [constructor|]. split; [constructor|]. intros a _. right. unfold taken, uses_of. cbn. destruct (lookup m (arg_id a)); lia.
    - cbn [fst] in Hb. cbn [do_uses]. split.
      + intros (m' & E). destruct (react m b vs) as [m1| |] eqn:R; try discriminate. cbn [pbind] in E.
        apply (react_ok m b vs m1 S (TY b Hb)) in R. destruct R as (R1 & R2 & xs & R3 & ->).
        destruct (proj1 (IH _) (ex_intro _ m' E)) as (I1 & I2 & I3).
        split; [constructor; [apply readable_values; eauto|exact I1]|]. split; [constructor; [exact R1|exact I2]|].
        intros a Ha. specialize (I3 a Ha). rewrite uses_of_cons, taken_add in *. destruct (list_eq_dec Nat.eq_dec (arg_id b) (arg_id a)) as [Ei|Ni]; [|exact I3].
        assert (b = a) by now apply (id_inj opts). subst b. destruct R2 as [R2|R2]; [now left|]. destruct I3 as [I3|I3]; [now left|right].
        unfold taken. rewrite R2. cbn [length]. lia.
      + intros (I1 & I2 & I3). inversion I1 as [|? ? J1 J2]; subst. inversion I2 as [|? ? K1 K2]; subst. cbn [fst] in K1.
        apply readable_values in J1. cbn [fst snd] in J1. destruct J1 as (xs & J1).
        assert (R : react m b vs = Go (add_values m (arg_id b) xs)).
        { apply (react_ok m b vs _ S (TY b Hb)). split; [exact K1|]. split; [|eauto]. destruct (I3 b Hb) as [L|L]; [now left|right].
          rewrite uses_of_cons in L. destruct (list_eq_dec Nat.eq_dec (arg_id b) (arg_id b)) as [_|X]; [|contradiction]. cbn [length] in L. unfold taken in L. destruct (lookup m (arg_id b)); [lia|reflexivity]. }
        rewrite R. cbn [pbind]. apply IH. split; [exact J2|]. split; [exact K2|]. intros a Ha. specialize (I3 a Ha). rewrite uses_of_cons in I3. rewrite taken_add.
        destruct (list_eq_dec Nat.eq_dec (arg_id b) (arg_id a)) as [Ei|Ni]; [|exact I3]. destruct I3 as [I3|I3]; [now left|right]. cbn [length] in I3. lia.
  Qed.
  Lemma do_uses_values us : Forall (fits opts) us -> forall m m', do_uses m us = Go m' -> forall a, In a opts ->
    (uses_of us a = [] -> lookup m' (arg_id a) = lookup m (arg_id a)) /\
    (uses_of us a <> [] -> exists vals, values_of us a vals /\ lookup m' (arg_id a) = Some (match lookup m (arg_id a) with Some ws => ws ++ vals | None => vals end)).
  Proof.
    intros F. induction F as [|(b, vs) us (Hb & S) F IH]; intros m m' E a Ha.
    - injection E as <-. split; [reflexivity|]. intros N. now destruct N.
    - cbn [fst] in Hb. cbn [do_uses] in E. destruct (react m b vs) as [m1| |] eqn:R; try discriminate. cbn [pbind] in E.
      apply (react_ok m b vs m1 S (TY b Hb)) in R. destruct R as (R1 & R2 & xs & R3 & ->). destruct (IH _ _ E a Ha) as (I1 & I2).
      rewrite lookup_add in I1, I2. unfold values_of. rewrite uses_of_cons. destruct (list_eq_dec Nat.eq_dec (arg_id b) (arg_id a)) as [Ei|Ni].
      + split; [discriminate|]. intros _. assert (b = a) by now apply (id_inj opts). subst b. cbn [concat].
        destruct (uses_of us a) as [|w ws] eqn:U.
        * exists xs. split; [cbn [concat]; now rewrite app_nil_r|]. now rewrite I1.
        * destruct I2 as (vals & I2 & I3); [discriminate|]. unfold values_of in I2. rewrite U in I2. exists (xs ++ vals). split; [now apply Forall2_app|]. rewrite I3. f_equal.
          destruct (lookup m (arg_id a)); [now rewrite app_assoc|reflexivity].
      + split; [exact I1|exact I2].
  Qed.
End Uses.

(** ** every accepted command line is spelled *)
Lemma shorts_spelled opts cs : forall m pend m' pend', shorts opts cs m pend = Go (m', pend') -> cs <> [] ->
  exists fs cs0, letters opts fs cs0 /\
    ((fs <> [] /\ cs = cs0 /\ pend' = None) \/
     (exists a s, In a opts /\ takes_value a = true /\ arg_short a = Some s /\ cs = cs0 ++ [s] /\ pend' = Some (a, [])) \/
     (exists a s v, In a opts /\ takes_value a = true /\ arg_short a = Some s /\ cs = cs0 ++ s :: v /\ v <> [] /\ pend' = None)).
Proof.
  induction cs as [|c cs IH]; intros m pend m' pend' E NE; [easy|]. cbn [shorts] in E. destruct (by_short opts c) as [a|] eqn:B; [|discriminate].
  apply by_short_ok in B. destruct B as (Ha & Ea). destruct (takes_value a) eqn:T.
  - exists [], []. split; [constructor|]. right. unfold opt_value in E. destruct (resolve m pend) as [m1| |]; try discriminate. cbn [pbind] in E.
    destruct cs as [|d cs].
    + left. exists a, c. injection E as <- <-. auto.
    + right. exists a, c, (d :: cs). repeat split; auto; [discriminate|].
      assert (X : exists v, match d :: cs with [] => None | 61 :: v => Some v | _ => Some (d :: cs) end = Some v) by (do 62 (destruct d as [|d]; [eauto|]); eauto).
      destruct X as (v & X). rewrite X in E. destruct (react m1 a [v]); try discriminate. now injection E as <- <-.
  - destruct (resolve m pend) as [m1| |]; try discriminate. cbn [pbind] in E. destruct (react m1 a []) as [m2| |]; try discriminate. cbn [pbind] in E.
    destruct cs as [|d cs].
    + injection E as <- <-. exists [a], [c]. split; [constructor; auto; constructor|]. left. repeat split. discriminate.
    + destruct (IH _ _ _ _ E ltac:(discriminate)) as (fs & cs0 & L & H). exists (a :: fs), (c :: cs0). split; [constructor; auto|].
      destruct H as [(N & -> & ->)|[(b & s & Hb & Tb & Eb & -> & ->)|(b & s & v & Hb & Tb & Eb & -> & Nv & ->)]].
      * left. repeat split. discriminate.
      * right. left. exists b, s. auto.
      * right. right. exists b, s, v. auto 10.
Qed.
Lemma long_spelled opts s m pend m' pend' : long opts s m pend = Go (m', pend') ->
  (exists a l, In a opts /\ takes_value a = false /\ arg_long a = Some l /\ s = l /\ pend' = None) \/
  (exists a l, In a opts /\ takes_value a = true /\ arg_long a = Some l /\ s = l /\ pend' = Some (a, [])) \/
  (exists a l v, In a opts /\ takes_value a = true /\ arg_long a = Some l /\ s = l ++ 61 :: v /\ pend' = None).
Proof.
  unfold long. destruct (split_eq s) as (n, v) eqn:Sp. apply split_eq_inv in Sp. destruct Sp as (_ & Sp). destruct (by_long opts n) as [a|] eqn:B; [|discriminate].
  apply by_long_ok in B. destruct B as (Ha & Ea). destruct (takes_value a) eqn:T.
  - unfold opt_value. destruct (resolve m pend) as [m1| |]; try discriminate. cbn [pbind]. destruct v as [v|].
    + destruct (react m1 a [v]); try discriminate. intros [= <- <-]. right. right. exists a, n, v. auto 10.
    + intros [= <- <-]. right. left. exists a, n. auto.
  - destruct v as [v|]; [discriminate|]. destruct (resolve m pend) as [m1| |]; try discriminate. cbn [pbind]. destruct (react m1 a []); try discriminate.
    intros [= <- <-]. left. exists a, n. auto.
Qed.
Lemma react_values m a vs m' : takes_value a = true -> react m a vs = Go m' -> vs <> [] /\ (arg_many a = false -> length vs = 1).
Proof.
  intros T. unfold react. unfold takes_value in T. destruct (arg_action a); try discriminate; destruct vs as [|v vs]; try discriminate; cbn [length Nat.eqb orb];
    (destruct (arg_many a); cbn [negb andb]; [intros _; split; discriminate|]);
    (destruct (length vs =? 0) eqn:L; cbn [negb]; [intros _; split; [discriminate|intros _; apply Nat.eqb_eq in L; lia]|discriminate]).
Qed.
Definition pend_ok (opts : list arg) (pend : option (arg * list str)) : Prop :=
  match pend with None => True | Some (a, vs) => In a opts /\ takes_value a = true /\ (arg_many a = false -> vs = []) end.
Definition remaining (opts : list arg) (pend : option (arg * list str)) (ts : list str) : Prop :=
  match pend with
  | None => exists us, command_line opts us ts
  | Some (a, vs) => exists vs' ts' us, ts = vs' ++ ts' /\ Forall (fun v => ~ hyphened v) vs' /\ vs ++ vs' <> [] /\ (arg_many a = false -> length (vs ++ vs') = 1) /\ command_line opts us ts'
  end.
Lemma command_line_cons opts us ts us' ts' : piece opts us ts -> command_line opts us' ts' -> command_line opts (us ++ us') (ts ++ ts').
Proof.
  intros P (t & S & [->| ->]).
  - exists (ts ++ t). split; [now constructor|now left].
  - exists (ts ++ t). split; [now constructor|right; now rewrite app_assoc].
Qed.
Lemma remaining_none opts pend ts : pend_ok opts pend -> (exists us, command_line opts us ts) -> (match pend with None => True | Some (a, vs) => vs <> [] /\ (arg_many a = false -> length vs = 1) end) -> remaining opts pend ts.
Proof.
  intros _ (us & H) P. destruct pend as [(a, vs)|]; cbn [remaining]; [|eauto]. destruct P as (P1 & P2). exists [], ts, us. rewrite app_nil_r. auto.
Qed.
Lemma remaining_piece opts fs us0 ts0 a ts : (forall vs, separate a vs -> piece opts (us0 ++ [(a, vs)]) (ts0 :: vs)) -> fs = us0 ->
  remaining opts (Some (a, [])) ts -> exists us, command_line opts us (ts0 :: ts).
Proof.
  intros P -> (vs & ts' & us & -> & F & N & L & C). cbn [app] in N, L. eexists. change (ts0 :: vs ++ ts') with ((ts0 :: vs) ++ ts').
  eapply command_line_cons; [apply P; repeat split; assumption|exact C].
Qed.
Lemma resolve_values opts m pend m1 : pend_ok opts pend -> resolve m pend = Go m1 -> match pend with None => True | Some (a, vs) => vs <> [] /\ (arg_many a = false -> length vs = 1) end.
Proof. destruct pend as [(a, vs)|]; [|trivial]. intros (_ & T & _) E. now apply (react_values m a vs m1). Qed.
Lemma shorts_resolve opts cs m pend r : cs <> [] -> shorts opts cs m pend = Go r -> exists m1, resolve m pend = Go m1.
Proof.
  destruct cs as [|c cs]; [easy|]. intros _. cbn [shorts]. destruct (by_short opts c) as [a|]; [|discriminate]. unfold opt_value. destruct (resolve m pend) as [m1| |]; [eauto| |]; destruct (takes_value a); discriminate.
Qed.
Lemma long_resolve opts s m pend r : long opts s m pend = Go r -> exists m1, resolve m pend = Go m1.
Proof.
  unfold long. destruct (split_eq s) as (n, v). destruct (by_long opts n) as [a|]; [|discriminate]. unfold opt_value.
  destruct (resolve m pend) as [m1| |]; [eauto| |]; destruct (takes_value a); destruct v; discriminate.
Qed.
Lemma hd61 (v : str) : v <> [] -> (exists w, v = 61 :: w) \/ hd 0 v <> 61.
Proof. destruct v as [|x v]; [easy|]. intros _. cbn [hd]. destruct (Nat.eq_dec x 61) as [->|N]; [left; eauto|now right]. Qed.
Lemma parse_spelled c : forall ts m pend m', pend_ok (options c) pend -> parse_from c ts false [] m pend = Go m' -> remaining (options c) pend ts.
Proof.
  induction ts as [|t ts IH]; intros m pend m' P E.
  - apply remaining_none; [exact P|exists [], []; split; [constructor|now left]|]. cbn [parse_from] in E. destruct (resolve m pend) as [m1| |] eqn:R; try discriminate. now apply (resolve_values (options c) m pend m1).
  - destruct (hyphened_dec t) as [H|H].
    + apply hyphened_cases in H. destruct H as [(s & NE & ->)|[->|(d & cs & N & ->)]].
      * rewrite pf_long in E by exact NE. destruct (long (options c) s m pend) as [(m1, p1)| |] eqn:L; try discriminate. cbn [pbind fst snd] in E.
        destruct (long_resolve _ _ _ _ _ L) as (m2 & R). apply remaining_none; [exact P| |now apply (resolve_values (options c) m pend m2)].
        apply long_spelled in L. destruct L as [(a & l & Ha & T & Ea & -> & ->)|[(a & l & Ha & T & Ea & -> & ->)|(a & l & v & Ha & T & Ea & -> & ->)]].
        -- apply IH in E; [|exact I]. destruct E as (us & E). eexists. change ((45 :: 45 :: l) :: ts) with ([45 :: 45 :: l] ++ ts). eapply command_line_cons; [|exact E]. now apply (pc_switch (options c) a l).
        -- apply IH in E; [|cbn; auto]. apply (remaining_piece (options c) [] [] (45 :: 45 :: l) a ts); [|reflexivity|exact E]. intros vs S. cbn [app]. now apply pc_long.
        -- apply IH in E; [|exact I]. destruct E as (us & E). eexists. change ((45 :: 45 :: l ++ 61 :: v) :: ts) with ([45 :: 45 :: l ++ 61 :: v] ++ ts). eapply command_line_cons; [|exact E]. now apply (pc_long_eq (options c) a l v).
      * rewrite pf_dash in E. destruct ts as [|t ts]; [|cbn [parse_from] in E; discriminate]. cbn [parse_from] in E. destruct (resolve m pend) as [m1| |] eqn:R; try discriminate.
        apply remaining_none; [exact P| |now apply (resolve_values (options c) m pend m1)]. exists [], []. split; [constructor|now right].
      * rewrite pf_short in E by exact N. destruct (shorts (options c) (d :: cs) m pend) as [(m1, p1)| |] eqn:L; try discriminate. cbn [pbind fst snd] in E.
        assert (NC : d :: cs <> []) by discriminate. destruct (shorts_resolve _ _ _ _ _ NC L) as (m2 & R). apply remaining_none; [exact P| |now apply (resolve_values (options c) m pend m2)].
        apply shorts_spelled in L; [|discriminate]. destruct L as (fs & cs0 & LE & [(NF & -> & ->)|[(a & s & Ha & T & Ea & -> & ->)|(a & s & v & Ha & T & Ea & -> & NV & ->)]]).
        -- apply IH in E; [|exact I]. destruct E as (us & E). eexists. change ((45 :: cs0) :: ts) with ([45 :: cs0] ++ ts). eapply command_line_cons; [|exact E]. now apply (pc_letters (options c) fs).
        -- apply IH in E; [|cbn; auto]. apply (remaining_piece (options c) (plain_uses fs) (plain_uses fs) (45 :: cs0 ++ [s]) a ts); [|reflexivity|exact E]. intros vs S. now apply pc_short.
        -- apply IH in E; [|exact I]. destruct E as (us & E). change ((45 :: cs0 ++ s :: v) :: ts) with ([45 :: cs0 ++ s :: v] ++ ts).
           destruct (hd61 v NV) as [(w & ->)|NQ]; eexists; (eapply command_line_cons; [|exact E]); [apply (pc_short_eq (options c) fs cs0 a s w); assumption|apply (pc_short_att (options c) fs cs0 a s v); assumption].
    + rewrite pf_plain in E by exact H. unfold plain_step in E. destruct pend as [(a, vs)|]; [|discriminate]. destruct P as (Ha & T & M). destruct (arg_many a) eqn:MA.
      * apply IH in E; [|cbn; rewrite MA; repeat split; auto; discriminate]. destruct E as (vs' & ts' & us & -> & F & NN & L & C).
        exists (t :: vs'), ts', us. rewrite <- app_assoc in NN, L. cbn [app] in NN, L. rewrite MA. repeat split; auto; try discriminate. 
      * rewrite (M eq_refl) in *. cbn [app] in E. destruct (react m a [t]) as [m1| |]; try discriminate. cbn [pbind] in E. apply IH in E; [|exact I]. destruct E as (us & E).
        exists [t], ts, us. cbn [app]. repeat split; auto. discriminate.
Qed.
