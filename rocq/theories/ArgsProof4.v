(** ArgsProof4.v : settings, option tables, the commands with positional arguments, rle. *)
From Verif Require Import Base SpecStr SpecArgs ModelMain ModelResult ModelArgs ArgsProof ArgsProof2 ArgsProof3.
From Coq Require Import NArith.

Lemma names_types opts : names_ok opts -> forall a, In a opts -> type_ok (arg_type a).
Proof. intros (_ & _ & _ & _ & _ & _ & H) a Ha names E. now apply (H a). Qed.
Lemma required_ok opts m : required_present opts m = true <-> forall a, In a opts -> arg_required a = true -> lookup m (arg_id a) <> None.
Proof.
  unfold required_present. rewrite forallb_forall. split; intros H a Ha.
  - intros R E. specialize (H a Ha). rewrite R, E in H. discriminate.
  - specialize (H a Ha). destruct (arg_required a); [|reflexivity]. destruct (lookup m (arg_id a)); [reflexivity|]. exfalso. now apply H.
Qed.
(** the values of the accepted uses *)
Lemma accepted c us line : names_ok (options c) -> positionals c = [] -> command_line (options c) us line -> allowed (options c) us ->
  exists m, parse c line = Go m /\ forall a, In a (options c) ->
    (uses_of us a = [] -> lookup m (arg_id a) = None) /\ (uses_of us a <> [] -> exists vals, values_of us a vals /\ lookup m (arg_id a) = Some vals).
Proof.
  intros NO PE CL (A1 & A2 & A3 & A4). pose proof CL as (ts & S & _). pose proof (spelled_fits _ _ _ S) as F.
  pose proof NO as (ND & _). rewrite (command_line_run c us line NO CL), PE, app_nil_r.
  destruct (proj2 (do_uses_go (options c) ND (names_types _ NO) us F [])) as (m & E).
  { split; [exact A1|]. split; [exact A3|]. intros a Ha. destruct (A2 a Ha) as [H|H]; [now left|right]. unfold taken. cbn [lookup]. lia. }
  rewrite E. cbn [pbind]. pose proof (do_uses_values (options c) ND (names_types _ NO) us F [] m E) as V. cbn [lookup] in V.
  assert (R : required_present (options c) m = true).
  { apply required_ok. intros a Ha R X. destruct (V a Ha) as (_ & V2). destruct V2 as (vals & _ & V2); [now apply A4|]. congruence. }
  rewrite R. exists m. split; [reflexivity|exact V].
Qed.
Lemma accepted_only c line m : names_ok (options c) -> positionals c = [] -> parse c line = Go m -> exists us, command_line (options c) us line /\ allowed (options c) us.
Proof.
  intros NO PE E. pose proof E as E0. unfold parse in E0. rewrite PE in E0. apply parse_spelled in E0; [|exact I]. destruct E0 as (us & CL). exists us. split; [exact CL|].
  pose proof CL as (ts & S & _). pose proof (spelled_fits _ _ _ S) as F. pose proof NO as (ND & _). rewrite (command_line_run c us line NO CL), PE, app_nil_r in E.
  destruct (do_uses [] us) as [m1| |] eqn:D; try discriminate. cbn [pbind] in E. destruct (required_present (options c) m1) eqn:R; [|discriminate]. injection E as <-.
  destruct (proj1 (do_uses_go (options c) ND (names_types _ NO) us F []) (ex_intro _ m1 D)) as (I1 & I2 & I3).
  pose proof (do_uses_values (options c) ND (names_types _ NO) us F [] m1 D) as V. cbn [lookup] in V.
  split; [exact I1|]. split; [intros a Ha; destruct (I3 a Ha) as [H|H]; [now left|right; lia]|]. split; [exact I2|].
  intros a Ha Ra U. apply (proj1 (required_ok _ _) R a Ha Ra). now apply V.
Qed.

(** ** settings *)
Section Settings.
  Context (opts : list arg) (us : list use) (m : matches) (TY : forall a, In a opts -> type_ok (arg_type a)).
  Context (V : forall a, In a opts -> (uses_of us a = [] -> lookup m (arg_id a) = None) /\ (uses_of us a <> [] -> exists vals, values_of us a vals /\ lookup m (arg_id a) = Some vals)).
  Lemma values_unique a vals vals' : In a opts -> values_of us a vals -> values_of us a vals' -> vals = vals'.
  Proof. intros Ha H1 H2. unfold values_of in *. apply (parse_values_ok _ _ (TY a Ha)) in H1, H2. congruence. Qed.
  Lemma got_string a o : In a opts -> arg_type a = AnyString -> sets_string us a o -> arg_string m a = o.
  Proof.
    intros Ha T S. unfold arg_string. destruct (V a Ha) as (V1 & V2). destruct o as [s|]; cbn [sets_string] in S.
    - destruct V2 as (vals & V2 & ->); [rewrite S; discriminate|]. unfold values_of in V2. rewrite S, T in V2. cbn in V2. inversion V2 as [|? ? ? ? H F]; subst. inversion F; subst. inversion H; subst. reflexivity.
    - now rewrite V1.
  Qed.
  Lemma got_number a d n : In a opts -> sets_number us a d n -> arg_num m a d = n.
  Proof.
    intros Ha S. unfold arg_num. destruct (V a Ha) as (V1 & V2). destruct S as [(U & ->)|(s & k & U & R & ->)].
    - now rewrite V1.
    - destruct V2 as (vals & V2 & ->); [rewrite U; discriminate|].
      rewrite (values_unique a vals [VNum k] Ha V2); [reflexivity|]. unfold values_of. rewrite U. cbn. now repeat constructor.
  Qed.
  Lemma got_switch a b : In a opts -> sets_switch us a b -> arg_bool m a = b.
  Proof.
    intros Ha S. unfold arg_bool. destruct (V a Ha) as (V1 & V2). destruct (uses_of us a) as [|x l] eqn:U.
    - rewrite V1 by reflexivity. destruct b; [|reflexivity]. exfalso. now apply (proj1 S).
    - destruct V2 as (vals & _ & ->); [discriminate|]. symmetry. apply S. rewrite U. discriminate.
  Qed.
  Lemma got_numbers a l : In a opts -> sets_numbers us a l -> arg_nums m a = l.
  Proof.
    intros Ha (ks & S & ->). unfold arg_nums. destruct (V a Ha) as (V1 & V2). destruct (uses_of us a) as [|x r] eqn:U.
    - rewrite V1 by reflexivity. unfold values_of in S. rewrite U in S. cbn in S. inversion S as [E|]. destruct ks; [reflexivity|discriminate].
    - destruct V2 as (vals & V2 & ->); [discriminate|]. rewrite (values_unique a _ _ Ha V2 S). rewrite map_map. reflexivity.
  Qed.
  Lemma got_name a i : In a opts -> sets_name us a i -> arg_word m a = nth i word_variants Fibonacci.
  Proof.
    intros Ha (s & U & R). unfold arg_word. destruct (V a Ha) as (V1 & V2). destruct V2 as (vals & V2 & ->); [rewrite U; discriminate|].
    rewrite (values_unique a vals [VName i] Ha V2); [reflexivity|]. unfold values_of. rewrite U. cbn. now repeat constructor.
  Qed.
End Settings.

(** ** tables *)
Lemma str_eqb_ok u v : str_eqb u v = true <-> u = v.
Proof. unfold str_eqb. destruct (list_eq_dec Nat.eq_dec u v); split; congruence. Qed.
Lemma distinct_by_ok {A} (eqb : A -> A -> bool) (H : forall x y, eqb x y = true <-> x = y) l : distinct_by eqb l = true <-> NoDup l.
Proof.
  induction l as [|x l IH]; cbn [distinct_by]; [split; [constructor|reflexivity]|]. rewrite Bool.andb_true_iff, IH, Bool.negb_true_iff. split.
  - intros (E & N). constructor; [|exact N]. intros Hx. assert (X : existsb (eqb x) l = true) by (apply existsb_exists; exists x; split; [exact Hx|now apply H]). congruence.
  - intros N. inversion N; subst. split; [|assumption]. destruct (existsb (eqb x) l) eqn:E; [|reflexivity]. apply existsb_exists in E. destruct E as (y & Hy & E). apply H in E. subst. contradiction.
Qed.
Lemma keep_inj {A} (f : arg -> option A) opts a b s : NoDup (keep (map f opts)) -> In a opts -> In b opts -> f a = Some s -> f b = Some s -> a = b.
Proof.
  induction opts as [|x opts IH]; intros N Ha Hb Ea Eb; [contradiction|].
  assert (G : forall y, In y opts -> f y = Some s -> In s (keep (map f opts))).
  { intros y Hy Ey. unfold keep. apply in_flat_map. exists (Some s). split; [rewrite <- Ey; now apply in_map|now left]. }
  unfold keep in N. cbn [map flat_map] in N. destruct Ha as [->|Ha], Hb as [->|Hb]; [reflexivity| | |].
  - exfalso. rewrite Ea in N. cbn [app] in N. inversion N; subst. apply H1. now apply (G b).
  - exfalso. rewrite Eb in N. cbn [app] in N. inversion N; subst. apply H1. now apply (G a).
  - apply IH; auto. destruct (f x); [|exact N]. cbn [app] in N. inversion N; subst; assumption.
Qed.
Definition table_ok (opts : list arg) : bool :=
  distinct_by Nat.eqb (keep (map arg_short opts)) && distinct_by str_eqb (keep (map arg_long opts)) && distinct_by str_eqb (map arg_id opts) &&
  forallb (fun a => match arg_short a with Some s => negb (s =? 45) && negb (s =? 61) | None => true end) opts &&
  forallb (fun a => match arg_long a with Some l => negb (str_eqb l []) && negb (existsb (Nat.eqb 61) l) | None => true end) opts &&
  forallb (fun a => match arg_short a, arg_long a with None, None => false | _, _ => true end) opts &&
  forallb (fun a => match arg_type a with OneOf names => distinct_by str_eqb names | _ => true end) opts.
Lemma table_names opts : table_ok opts = true -> names_ok opts.
Proof.
  unfold table_ok. rewrite !Bool.andb_true_iff. intros ((((((H1 & H2) & H3) & H4) & H5) & H6) & H7).
  apply (distinct_by_ok Nat.eqb Nat.eqb_eq) in H1. apply (distinct_by_ok str_eqb str_eqb_ok) in H2. apply (distinct_by_ok str_eqb str_eqb_ok) in H3.
  rewrite forallb_forall in H4, H5, H6, H7.
  split; [exact H3|]. split; [intros a b s; now apply keep_inj|]. split; [intros a b l; now apply keep_inj|].
  split; [intros a s Ha E; specialize (H4 a Ha); rewrite E in H4; apply Bool.andb_true_iff in H4; destruct H4 as (X & Y); apply Bool.negb_true_iff in X, Y; apply Nat.eqb_neq in X, Y; auto|].
  split.
  { intros a l Ha E. specialize (H5 a Ha). rewrite E in H5. apply Bool.andb_true_iff in H5. destruct H5 as (X & Y). apply Bool.negb_true_iff in X, Y. split.
    - intros ->. discriminate.
    - intros Hl. assert (Z : existsb (Nat.eqb 61) l = true) by (apply existsb_exists; exists 61; auto). congruence. }
  split.
  { intros a Ha. specialize (H6 a Ha). destruct (arg_short a); [left; discriminate|]. destruct (arg_long a); [right; discriminate|discriminate]. }
  intros a names Ha E. specialize (H7 a Ha). rewrite E in H7. now apply (distinct_by_ok str_eqb str_eqb_ok).
Qed.

(** ** tables that find the same options *)
Definition same_lookup (o1 o2 : list arg) : Prop := (forall x, by_short o1 x = by_short o2 x) /\ (forall l, by_long o1 l = by_long o2 l).
Lemma shorts_same o1 o2 : same_lookup o1 o2 -> forall cs m pend, shorts o1 cs m pend = shorts o2 cs m pend.
Proof.
  intros (H & _). induction cs as [|x cs IH]; intros m pend; [reflexivity|]. cbn [shorts]. rewrite H. destruct (by_short o2 x); [|reflexivity].
  destruct (takes_value _); [reflexivity|]. destruct (resolve m pend); cbn [pbind]; try reflexivity. destruct (react _ _ _); cbn [pbind]; auto.
Qed.
Lemma long_same o1 o2 : same_lookup o1 o2 -> forall s m pend, long o1 s m pend = long o2 s m pend.
Proof. intros (_ & H) s m pend. unfold long. destruct (split_eq s). now rewrite H. Qed.

(** ** commands without options but positional arguments *)
Fixpoint do_pos (args : list arg) (m : matches) (ts : list str) {struct ts} : pr (list arg * matches) :=
  match ts with
  | [] => Go (args, m)
  | t :: ts' => match args with [] => Refuse | a :: args' => m' <== react m a [t] ; do_pos args' m' ts' end
  end.
Lemma pf_positional c ts : Forall (fun t => ~ hyphened t) ts -> forall rest pos m,
  parse_from c (ts ++ rest) false pos m None = (r <== do_pos pos m ts ; parse_from c rest false (fst r) (snd r) None).
Proof.
  intros F. induction F as [|t ts H F IH]; intros rest pos m; [reflexivity|]. cbn [app]. rewrite pf_plain by exact H. cbn [plain_step do_pos].
  destruct pos as [|a pos]; [reflexivity|]. destruct (react m a [t]); cbn [pbind]; try reflexivity. apply IH.
Qed.
Lemma pf_trailing c ts : forall pos m,
  parse_from c ts true pos m None = (r <== do_pos pos m ts ; if required_present (options c ++ positionals c) (snd r) then Go (snd r) else Refuse).
Proof.
  induction ts as [|t ts IH]; intros pos m; [reflexivity|]. cbn [parse_from do_pos resolve pbind]. destruct pos as [|a pos]; [reflexivity|].
  destruct (react m a [t]); cbn [pbind]; try reflexivity. apply IH.
Qed.
Lemma do_pos_app us : forall args m vs, do_pos args m (us ++ vs) = (r <== do_pos args m us ; do_pos (fst r) (snd r) vs).
Proof.
  induction us as [|t us IH]; intros args m vs; [reflexivity|]. cbn [app do_pos]. destruct args as [|a args]; [reflexivity|]. destruct (react m a [t]); cbn [pbind]; auto.
Qed.
Lemma split_hyphened ts : (exists us t vs, ts = us ++ t :: vs /\ Forall (fun t => ~ hyphened t) us /\ hyphened t) \/ Forall (fun t => ~ hyphened t) ts.
Proof.
  induction ts as [|t ts [(us & x & vs & -> & F & H)|F]]; [now right| |].
  - destruct (hyphened_dec t) as [Ht|Ht]; [left; exists [], t, (us ++ x :: vs); auto|]. left. exists (t :: us), x, vs. repeat split; auto.
  - destruct (hyphened_dec t) as [Ht|Ht]; [left; exists [], t, ts; auto|]. right. now constructor.
Qed.
