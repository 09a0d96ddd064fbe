(** RunFacts.v : streams and runs. *)
From Verif Require Import Base SpecStr ModelIo SpecIo.

Lemma while_read_for {S} rd bs pos fuel (step : nat -> S -> res S) s :
  (forall i, i < length bs -> rd (pos + i) = Byte (nth i bs 0)) ->
  (rd (pos + length bs) = Eof \/ rd (pos + length bs) = IoErr) ->
  length bs < fuel ->
  while_read fuel rd step s pos = for_in bs step s.
Proof.
  unfold while_read. revert pos fuel s.
  induction bs as [|c bs IH]; intros pos fuel s H1 H2 H3; (destruct fuel as [|fuel]; [simpl in *; lia|]).
  - cbn [loop read_char]. simpl in H2. rewrite Nat.add_0_r in H2. destruct H2 as [-> | ->]; reflexivity.
  - pose proof (H1 0 ltac:(simpl; lia)) as H0. rewrite Nat.add_0_r in H0. simpl in H0.
    cbn [loop read_char for_in]. rewrite H0. cbn [bind].
    destruct (step c s) as [s'| |]; cbn [bind]; auto.
    apply IH.
    + intros i Hi. replace (Datatypes.S pos + i) with (pos + Datatypes.S i) by lia. rewrite H1 by (simpl; lia). reflexivity.
    + replace (Datatypes.S pos + length bs) with (pos + length (c :: bs)) by (simpl; lia). exact H2.
    + simpl in H3. lia.
Qed.

Lemma delivers_nil rd : delivers rd [] -> fst (read_char rd 0) = None.
Proof. intros [_ [H|H]]; simpl in *; now rewrite H. Qed.
Lemma delivers_read0 rd c bs : delivers rd (c :: bs) -> rd 0 = Byte c.
Proof. intros [H _]. apply (H 0). simpl. lia. Qed.
Lemma delivers_cons rd c bs fuel {S} (step : nat -> S -> res S) s : delivers rd (c :: bs) -> length bs < fuel ->
  while_read fuel rd step s 1 = for_in bs step s.
Proof.
  intros [H1 H2] HF. apply while_read_for; auto.
  intros i Hi. rewrite (H1 (1 + i)) by (simpl; lia). reflexivity.
Qed.
Lemma delivers_all rd bs fuel {S} (step : nat -> S -> res S) s : delivers rd bs -> length bs < fuel ->
  while_read fuel rd step s 0 = for_in bs step s.
Proof. intros [H1 H2] HF. apply while_read_for; auto. Qed.

(** every byte string is delivered by some reader *)
Definition reader_of (bs : str) : reader := fun i => match nth_error bs i with Some c => Byte c | None => Eof end.
Lemma reader_of_delivers bs : delivers (reader_of bs) bs.
Proof.
  split.
  - intros i Hi. unfold reader_of. now rewrite (nth_error_nth' bs 0 Hi).
  - left. unfold reader_of. now rewrite (proj2 (nth_error_None bs (length bs)) (le_n _)).
Qed.

(** runs of  repeat c l ++ t *)
Fixpoint runs_from (c l : nat) (t : str) : list (nat * nat) :=
  match t with
  | [] => [(c, l)]
  | d :: t' => if d =? c then runs_from c (S l) t' else (c, l) :: runs_from d 1 t'
  end.
Definition runs (t : str) : list (nat * nat) := match t with [] => [] | c :: t' => runs_from c 1 t' end.

Lemma runs_from_head c l t : exists l' rs, runs_from c l t = (c, l') :: rs.
Proof.
  revert l. induction t as [|d t IH]; intros l; simpl; [eauto|].
  destruct (d =? c); [apply IH|eauto].
Qed.

Lemma expand_cons c l rs : expand ((c, l) :: rs) = repeat c l ++ expand rs.
Proof. reflexivity. Qed.

Lemma is_runs_cons c l rs t : 1 <= l -> (forall d l' rs', rs = (d, l') :: rs' -> d <> c) -> is_runs t rs ->
  is_runs (repeat c l ++ t) ((c, l) :: rs).
Proof.
  intros Hl Hd (HE & HF & HN). split; [rewrite expand_cons; now rewrite HE|]. split; [constructor; auto|].
  intros [|i] Hi; simpl in *.
  - destruct rs as [|[d l'] rs']; [simpl in Hi; lia|]. simpl. intros ->. now apply (Hd d l' rs').
  - apply HN. lia.
Qed.

Lemma runs_from_ok c l t : 1 <= l -> is_runs (repeat c l ++ t) (runs_from c l t).
Proof.
  revert c l. induction t as [|d t IH]; intros c l Hl; simpl.
  - apply is_runs_cons; auto; [discriminate|]. split; [reflexivity|]. split; [constructor|simpl; lia].
  - destruct (Nat.eqb_spec d c) as [->|Ne].
    + specialize (IH c (S l) ltac:(lia)).
      replace (repeat c (S l) ++ t) with (repeat c l ++ c :: t) in IH; auto.
      replace (S l) with (l + 1) by lia. rewrite repeat_app. simpl. now rewrite <- app_assoc.
    + apply is_runs_cons; auto.
      * intros e l' rs' E. destruct (runs_from_head d 1 t) as (l2 & rs2 & E2). rewrite E2 in E.
        injection E as <- <- <-. exact Ne.
      * apply (IH d 1). lia.
Qed.

Lemma runs_ok t : is_runs t (runs t).
Proof.
  destruct t as [|c t]; simpl.
  - split; [reflexivity|]. split; [constructor|simpl; lia].
  - apply (runs_from_ok c 1 t). lia.
Qed.

Lemma repeat_prefix_eq (c : nat) l l' t t' : repeat c l ++ t = repeat c l' ++ t' ->
  (forall x, hd_error t = Some x -> x <> c) -> (forall x, hd_error t' = Some x -> x <> c) -> l = l' /\ t = t'.
Proof.
  revert l'. induction l as [|l IH]; intros [|l'] E H1 H2; simpl in *; auto.
  - subst t. exfalso. now apply (H1 c).
  - subst t'. exfalso. now apply (H2 c).
  - injection E as E. destruct (IH l' E H1 H2). auto.
Qed.

Lemma is_runs_tail c l rs t : is_runs t ((c, l) :: rs) -> is_runs (expand rs) rs /\
  1 <= l /\ (forall x, hd_error (expand rs) = Some x -> x <> c).
Proof.
  intros (HE & HF & HN). inversion HF; subst. split; [split; [reflexivity|split; auto]|split; [auto|]].
  - intros i Hi. apply (HN (S i)). simpl. lia.
  - intros x Hx. destruct rs as [|[d l'] rs]; [discriminate|].
    inversion H2; subst. simpl in *. destruct l'; [lia|]. rewrite expand_cons in Hx. simpl in Hx.
    injection Hx as <-. specialize (HN 0 ltac:(lia)). simpl in HN. congruence.
Qed.

Lemma is_runs_unique t rs rs' : is_runs t rs -> is_runs t rs' -> rs = rs'.
Proof.
  revert t rs'. induction rs as [|[c l] rs IH]; intros t rs' H H'.
  - destruct rs' as [|[d l'] rs']; auto. pose proof (is_runs_tail _ _ _ _ H') as (_ & Hl & _).
    destruct H as (E & _), H' as (E' & _). rewrite <- E in E'. rewrite expand_cons in E'.
    destruct l'; [lia|discriminate].
  - destruct rs' as [|[d l'] rs'].
    { pose proof (is_runs_tail _ _ _ _ H) as (_ & Hl & _).
      destruct H as (E & _), H' as (E' & _). rewrite <- E' in E. rewrite expand_cons in E.
      destruct l; [lia|discriminate]. }
    pose proof (is_runs_tail _ _ _ _ H) as (T & Hl & Hh).
    pose proof (is_runs_tail _ _ _ _ H') as (T' & Hl' & Hh').
    destruct H as (E & _), H' as (E' & _). rewrite <- E in E'. rewrite !expand_cons in E'.
    assert (d = c) by (destruct l, l'; try lia; simpl in E'; congruence). subst d.
    apply repeat_prefix_eq in E'; auto. destruct E' as [-> E2].
    rewrite (IH (expand rs) rs'); auto. now rewrite <- E2.
Qed.

(** number_of_runs *)
Lemma number_of_runs_ok rd bs fuel : delivers rd bs -> length bs < fuel ->
  number_of_runs fuel rd = Ok (length (runs bs)).
Proof.
  intros HD HF. unfold number_of_runs. destruct bs as [|c bs].
  - pose proof (delivers_nil _ HD) as E. destruct (read_char rd 0) as [o p]. simpl in E. now subst o.
  - unfold read_char at 1. rewrite (delivers_read0 _ _ _ HD).
    rewrite (delivers_cons rd c bs) by (auto; simpl in HF; lia).
    simpl runs. clear HD HF.
    assert (G : forall bs c l n, exists p,
      for_in bs (fun next_char '(run_counter, prev_char) =>
        if negb (next_char =? prev_char) then Ok (run_counter + 1, next_char)
        else Ok (run_counter, prev_char)) (n + 1, c) = Ok (n + length (runs_from c l bs), p)).
    { clear. induction bs as [|d bs IH]; intros c l n; simpl; [eauto|].
      destruct (Nat.eqb_spec d c) as [->|Ne]; simpl.
      - apply IH.
      - destruct (IH d 1 (n + 1)) as (p & E). exists p. rewrite E. do 2 f_equal. lia. }
    destruct (G bs c 1 0) as (p & E). simpl in E. rewrite E. reflexivity.
Qed.
