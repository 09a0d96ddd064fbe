(** ArgsProof5.v : existence of settings, tables that behave alike, enumerate. *)
From Verif Require Import Base SpecStr SpecIo SpecMain SpecArgs SpecArgs2 ModelMain ModelResult ModelArgs ArgsProof ArgsProof2 ArgsProof3 ArgsProof4.
From Coq Require Import NArith.

(** ** settings exist *)
Section Exist.
  Context (opts : list arg) (us : list use) (line : list str) (ND : NoDup (map arg_id opts)) (G : good opts us line).
  Lemma good_fits : Forall (fits opts) us.
  Proof. destruct G as ((ts & S & _) & _). exact (spelled_fits _ _ _ S). Qed.
  Lemma uses_fits a vs : In a opts -> In vs (uses_of us a) -> In (a, vs) us.
  Proof.
    intros Ha H. unfold uses_of in H. apply in_map_iff in H. destruct H as ((b, ws) & E & H). cbn [snd] in E. subst ws. apply filter_In in H. destruct H as (H & E). cbn [fst] in E.
    destruct (list_eq_dec Nat.eq_dec (arg_id b) (arg_id a)) as [Ei|]; [|discriminate]. pose proof good_fits as F. rewrite Forall_forall in F. destruct (F _ H) as (Hb & _). cbn [fst] in Hb.
    now rewrite <- (id_inj opts b a ND Hb Ha Ei).
  Qed.
  Lemma use_one a vs : In a opts -> takes_value a = true -> arg_many a = false -> In vs (uses_of us a) -> exists s, vs = [s] /\ exists x, reads_as (arg_type a) s x.
  Proof.
    intros Ha T M H. apply uses_fits in H; [|exact Ha]. pose proof good_fits as F. rewrite Forall_forall in F. destruct (F _ H) as (_ & S). unfold shaped in S. cbn [fst snd] in S. rewrite T in S.
    destruct S as (_ & S). specialize (S M). destruct vs as [|s [|]]; try discriminate. exists s. split; [reflexivity|]. destruct G as (_ & (R & _)). rewrite Forall_forall in R. specialize (R _ H).
    unfold readable in R. cbn [fst snd] in R. now inversion R.
  Qed.
  Lemma single_cases a : In a opts -> arg_action a = Single -> arg_many a = false -> uses_of us a = [] \/ exists s x, uses_of us a = [[s]] /\ reads_as (arg_type a) s x.
  Proof.
    intros Ha E M. destruct G as (_ & (_ & O & _)). destruct (O a Ha) as [L|L]; [congruence|]. destruct (uses_of us a) as [|vs [|]] eqn:U; [now left| |cbn [length] in L; lia]. right.
    destruct (use_one a vs Ha) as (s & -> & x & R); [unfold takes_value; now rewrite E|exact M|rewrite U; now left|]. now exists s, x.
  Qed.
  Lemma has_string a : In a opts -> arg_action a = Single -> arg_many a = false -> exists o, sets_string us a o.
  Proof. intros Ha E M. destruct (single_cases a Ha E M) as [H|(s & x & H & _)]; [now exists None|now exists (Some s)]. Qed.
  Lemma reads_number t s x : reads_as t s x -> t = Usize \/ t = U8 \/ t = U64 -> exists k, x = VNum k.
  Proof. intros H T. inversion H; subst; try (eexists; reflexivity); destruct T as [T|[T|T]]; discriminate. Qed.
  Lemma has_number a d : In a opts -> arg_action a = Single -> arg_many a = false -> arg_type a = Usize \/ arg_type a = U8 \/ arg_type a = U64 -> exists n, sets_number us a d n.
  Proof.
    intros Ha E M T. destruct (single_cases a Ha E M) as [H|(s & x & H & R)]; [exists d; now left|]. destruct (reads_number _ _ _ R T) as (k & ->). exists (N.to_nat k). right. now exists s, k.
  Qed.
  Lemma has_switch a : exists b, sets_switch us a b.
  Proof. destruct (uses_of us a) as [|x l] eqn:U; [exists false|exists true]; unfold sets_switch; rewrite U; split; try discriminate; try reflexivity. intros H. now destruct H. Qed.
  Lemma has_numbers a : In a opts -> arg_type a = Usize \/ arg_type a = U8 \/ arg_type a = U64 -> exists l, sets_numbers us a l.
  Proof.
    intros Ha T. assert (R : Forall (fun s => exists k, reads_as (arg_type a) s (VNum k)) (concat (uses_of us a))).
    { apply Forall_forall. intros s Hs. apply in_concat in Hs. destruct Hs as (vs & Hv & Hs). apply uses_fits in Hv; [|exact Ha]. destruct G as (_ & (R & _)). rewrite Forall_forall in R. specialize (R _ Hv).
      unfold readable in R. cbn [fst snd] in R. rewrite Forall_forall in R. destruct (R _ Hs) as (x & X). destruct (reads_number _ _ _ X T) as (k & ->). now exists k. }
    unfold sets_numbers, values_of. induction R as [|s l (k & K) R IH]; [exists [], []; split; [constructor|reflexivity]|].
    destruct IH as (l' & ks & I1 & ->). exists (map N.to_nat (k :: ks)), (k :: ks). split; [cbn [map]; now constructor|reflexivity].
  Qed.
  Lemma has_name a names : In a opts -> arg_action a = Single -> arg_many a = false -> arg_required a = true -> arg_type a = OneOf names -> exists i, i < length names /\ sets_name us a i.
  Proof.
    intros Ha E M Q T. destruct (single_cases a Ha E M) as [H|(s & x & H & R)].
    - destruct G as (_ & (_ & _ & _ & C)). exfalso. now apply (C a Ha Q).
    - rewrite T in R. inversion R; subst. exists i. split; [apply nth_error_Some; congruence|]. exists s. split; [exact H|]. now rewrite T.
  Qed.
  Lemma has_required a d : In a opts -> arg_action a = Single -> arg_many a = false -> arg_required a = true -> arg_type a = Usize \/ arg_type a = U8 \/ arg_type a = U64 ->
    exists s k, uses_of us a = [[s]] /\ reads_as (arg_type a) s (VNum k) /\ sets_number us a d (N.to_nat k).
  Proof.
    intros Ha E M Q T. destruct (single_cases a Ha E M) as [H|(s & x & H & R)].
    - destruct G as (_ & (_ & _ & _ & C)). exfalso. now apply (C a Ha Q).
    - destruct (reads_number _ _ _ R T) as (k & ->). exists s, k. split; [exact H|]. split; [exact R|]. right. now exists s, k.
  Qed.
End Exist.

(** ** tables that behave alike *)
Definition core (a : arg) := (arg_id a, arg_action a, arg_many a, arg_type a).
Definition like (a b : arg) : Prop := core a = core b.
Definition pend_like (p q : option (arg * list str)) : Prop :=
  match p, q with None, None => True | Some (a, vs), Some (b, ws) => like a b /\ vs = ws | _, _ => False end.
Definition alike (o1 o2 : list arg) : Prop :=
  (forall x, match by_short o1 x, by_short o2 x with Some a, Some b => like a b | None, None => True | _, _ => False end) /\
  (forall l, match by_long o1 l, by_long o2 l with Some a, Some b => like a b | None, None => True | _, _ => False end).
Lemma react_like a b : like a b -> forall m vs, react m a vs = react m b vs.
Proof. intros E m vs. unfold like, core in E. injection E as E1 E2 E3 E4. unfold react. now rewrite E1, E2, E3, E4. Qed.
Lemma takes_like a b : like a b -> takes_value a = takes_value b.
Proof. intros E. unfold like, core in E. injection E as E1 E2 E3 E4. unfold takes_value. now rewrite E2. Qed.
Lemma resolve_like p q m : pend_like p q -> resolve m p = resolve m q.
Proof. destruct p as [(a, vs)|], q as [(b, ws)|]; cbn; intros H; try contradiction; [|reflexivity]. destruct H as (H & ->). now apply react_like. Qed.
Definition out_like (r s : pr (matches * option (arg * list str))) : Prop :=
  match r, s with Go (m, p), Go (m', q) => m = m' /\ pend_like p q | Refuse, Refuse => True | Show, Show => True | _, _ => False end.
Lemma opt_value_like a b : like a b -> forall m p q att, pend_like p q -> out_like (opt_value m p a att) (opt_value m q b att).
Proof.
  intros H m p q att Hp. unfold opt_value. rewrite (resolve_like p q m Hp). destruct (resolve m q) as [m1| |]; cbn [pbind out_like]; auto.
  destruct att as [v|]; [|cbn; auto]. rewrite (react_like a b H). destruct (react m1 b [v]); cbn; auto.
Qed.
Lemma shorts_like o1 o2 : alike o1 o2 -> forall cs m p q, pend_like p q -> out_like (shorts o1 cs m p) (shorts o2 cs m q).
Proof.
  intros (A & _). induction cs as [|x cs IH]; intros m p q Hp; [cbn; auto|]. cbn [shorts]. specialize (A x). destruct (by_short o1 x) as [a|], (by_short o2 x) as [b|]; try contradiction; [|exact I].
  rewrite (takes_like a b A). destruct (takes_value b); [now apply opt_value_like|]. rewrite (resolve_like p q m Hp). destruct (resolve m q) as [m1| |]; cbn [pbind]; try exact I.
  rewrite (react_like a b A). destruct (react m1 b []); cbn [pbind]; try exact I. now apply IH.
Qed.
Lemma long_like o1 o2 : alike o1 o2 -> forall s m p q, pend_like p q -> out_like (long o1 s m p) (long o2 s m q).
Proof.
  intros (_ & A) s m p q Hp. unfold long. destruct (split_eq s) as (n, att). specialize (A n). destruct (by_long o1 n) as [a|], (by_long o2 n) as [b|]; try contradiction; [|exact I].
  rewrite (takes_like a b A). destruct (takes_value b); [now apply opt_value_like|]. destruct att; [exact I|]. rewrite (resolve_like p q m Hp). destruct (resolve m q) as [m1| |]; cbn [pbind]; try exact I.
  rewrite (react_like a b A). destruct (react m1 b []); cbn; auto.
Qed.
Lemma out_bind {A} r s (f g : matches * option (arg * list str) -> pr A) : out_like r s -> (forall m p q, pend_like p q -> f (m, p) = g (m, q)) -> pbind r f = pbind s g.
Proof. destruct r as [(m, p)| |], s as [(m', q)| |]; cbn; intros H K; try contradiction; auto. destruct H as (<- & H). now apply K. Qed.
Lemma parse_like o1 o2 : alike o1 o2 -> (forall m, required_present o1 m = required_present o2 m) -> forall ts tr m p q, pend_like p q ->
  parse_from (Command o1 []) ts tr [] m p = parse_from (Command o2 []) ts tr [] m q.
Proof.
  intros A R. induction ts as [|t ts IH]; intros tr m p q Hp.
  - cbn [parse_from options positionals]. rewrite (resolve_like p q m Hp), !app_nil_r. destruct (resolve m q); cbn [pbind]; auto. now rewrite R.
  - destruct tr; [reflexivity|]. destruct (hyphened_dec t) as [H|H].
    + destruct (hyphened_cases t H) as [(s & N & ->)|[->|(d & cs & N & ->)]].
      * rewrite !pf_long by exact N. apply out_bind; [now apply long_like|]. intros; cbn [fst snd]; now apply IH.
      * rewrite !pf_dash. now apply IH.
      * rewrite !pf_short by exact N. apply out_bind; [now apply shorts_like|]. intros; cbn [fst snd]; now apply IH.
    + rewrite !pf_plain by exact H. unfold plain_step. destruct p as [(a, vs)|], q as [(b, ws)|]; cbn in Hp; try contradiction; [|reflexivity]. destruct Hp as (L & ->).
      assert (M : arg_many a = arg_many b) by (unfold like, core in L; now injection L). rewrite M. destruct (arg_many b); [apply IH; now split|].
      rewrite (react_like a b L). destruct (react m b (ws ++ [t])); cbn [pbind]; auto. now apply IH.
Qed.
