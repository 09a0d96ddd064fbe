(** FsProof5.v : all executions of the programs of ModelFs2.v. *)
From Verif Require Import Base SpecStr SpecWord ModelIo SpecIo ModelTools ModelCore ModelWord ModelMain ModelLz ModelEnum SpecMain SpecFs ModelFs FsProof ModelFs2.
From Verif Require Import LexFacts SpecLex IterProof MainProof MainProof2 LwgProof DebugProof.
From Coq Require Import NArith Sorting.Sorted.

(** programs that only write: all they write, and how they end *)
Fixpoint writer {A} (p : io A) : Prop :=
  match p with Ret _ | Abort | NoFuel => True | WriteOut _ k => writer k | _ => False end.
Fixpoint gather {A} (p : io A) : str * res A :=
  match p with
  | Ret a => ([], Ok a)
  | Abort => ([], Panic)
  | WriteOut b k => (b ++ fst (gather k), snd (gather k))
  | _ => ([], OutOfFuel)
  end.
Definition gseq {B} (x : str) (y : str * res B) : str * res B := (x ++ fst y, snd y).
Lemma gather_seq {A B} (p : io A) (f : A -> io B) : writer p -> gather (seq_io p f) =
  match snd (gather p) with
  | Ok a => gseq (fst (gather p)) (gather (f a))
  | Panic => (fst (gather p), Panic)
  | OutOfFuel => (fst (gather p), OutOfFuel)
  end.
Proof.
  induction p as [a| | |o k IH|o k IH|o k IH|k IH|b k IH|b k IH]; cbn [writer seq_io gather fst snd]; intros H; try contradiction; auto.
  - unfold gseq. cbn. apply surjective_pairing.
  - rewrite (IH H). destruct (snd (gather k)); cbn [gseq fst snd]; unfold gseq; cbn [fst snd]; now rewrite <- ?app_assoc.
Qed.
Lemma writer_seq {A B} (p : io A) (f : A -> io B) : writer p -> (forall a, writer (f a)) -> writer (seq_io p f).
Proof. intros H F. induction p; cbn in *; try contradiction; auto. Qed.
Lemma writer_lift {A} (r : res A) : writer (lift r).
Proof. destruct r; exact I. Qed.
Lemma writer_write b : writer (write_ b).
Proof. exact I. Qed.
Lemma writer_loop {S B} (body : S -> io (ctl S B)) : (forall s, writer (body s)) -> forall fuel s, writer (loop_io fuel body s).
Proof. intros H. induction fuel as [|fuel IH]; intros s; [exact I|]. cbn [loop_io]. apply writer_seq; auto. intros [s'|b]; cbn; auto. Qed.
Lemma writer_for {X S} (body : X -> S -> io S) : (forall x s, writer (body x s)) -> forall l s, writer (for_io l body s).
Proof. intros H. induction l as [|x l IH]; intros s; [exact I|]. cbn [for_io]. apply writer_seq; auto. Qed.
Lemma gather_lift {A B} (r : res A) (f : A -> io B) : gather (seq_io (lift r) f) =
  match r with Ok a => gather (f a) | Panic => ([], Panic) | OutOfFuel => ([], OutOfFuel) end.
Proof. now destruct r. Qed.
Lemma gather_write {B} b (f : unit -> io B) : gather (seq_io (write_ b) f) = gseq b (gather (f tt)).
Proof. reflexivity. Qed.

(** all executions *)
Lemma writer_safe {A} (p : io A) o w0 (Good : str -> Prop) : writer p -> forall w out, wr o w0 w out ->
  (forall b, prefix b (fst (gather p)) -> Good (out ++ b)) ->
  safe (crash_ok o w0 Good) (fun a w => snd (gather p) = Ok a /\ wr o w0 w (out ++ fst (gather p))) p w.
Proof.
  induction p as [a| | |o' k IH|o' k IH|o' k IH|k IH|b k IH|b k IH]; cbn [writer]; intros H w out W G; try contradiction; cbn [gather fst snd] in *.
  - cbn [safe]. rewrite app_nil_r. split; [|auto]. apply (wr_crash o w0 Good w out W). rewrite <- (app_nil_r out). apply G. now exists [].
  - cbn [safe]. apply (wr_crash o w0 Good w out W). rewrite <- (app_nil_r out). apply G. now exists [].
  - cbn [safe]. apply (wr_crash o w0 Good w out W). rewrite <- (app_nil_r out). apply G. now exists [].
  - apply (safe_write o w0 Good _ k w out b W).
    + intros b1 b2 E. apply G. exists (b2 ++ fst (gather k)). now rewrite E, <- app_assoc.
    + rewrite app_assoc. apply IH; auto.
      * now apply wr_emits.
      * intros b' (r & E). rewrite <- app_assoc. apply G. exists r. now rewrite E, <- app_assoc.
Qed.
Lemma writer_run {A} (p : io A) : writer p -> forall w, run p w = (emits w (fst (gather p)), snd (gather p)).
Proof.
  induction p as [a| | |o' k IH|o' k IH|o' k IH|k IH|b k IH|b k IH]; cbn [writer]; intros H w; try contradiction; cbn [gather fst snd run]; auto.
  rewrite (IH H). f_equal. symmetry. apply emits_app.
Qed.
Lemma program_safe {A} (p : io A) o w0 w q : writer p -> stdout w0 = [] -> steps (w0, CreateOut o p) (w, q) ->
  untouched o w0 w /\ (written w o = written w0 o \/ exists out, written w o = Some out /\ prefix out (fst (gather p))) /\
  (forall a, q = Ret a -> snd (gather p) = Ok a /\ written w o = Some (fst (gather p))).
Proof.
  intros Hw Hout S.
  set (Good := fun out => prefix out (fst (gather p))).
  assert (H : safe (crash_ok o w0 Good) (fun a w => snd (gather p) = Ok a /\ wr o w0 w (fst (gather p))) (CreateOut o p) w0).
  { assert (W : wr o w0 (create_out w0 o) []) by (apply wr_create; auto; split; auto).
    cbn [safe]. split; [split; [split; auto|now left]|]. apply (writer_safe p o w0 Good Hw (create_out w0 o) [] W). auto. }
  pose proof (safe_steps _ _ _ _ _ _ H S) as G. destruct (safe_I _ _ _ _ G) as (U & C). split; [exact U|]. split.
  - destruct C as [C|(out & C1 & C2)]; [now left|right; exists out; auto].
  - intros a ->. cbn [safe] in G. destruct G as (_ & G1 & G2). split; [exact G1|apply G2].
Qed.
Lemma program_run {A} (p : io A) o w0 : writer p -> stdout w0 = [] ->
  exists w, run (CreateOut o p) w0 = (w, snd (gather p)) /\ untouched o w0 w /\ written w o = Some (fst (gather p)).
Proof.
  intros Hw Hout. cbn [run]. rewrite (writer_run p Hw). eexists. split; [reflexivity|].
  assert (W : wr o w0 (create_out w0 o) []) by (apply wr_create; auto; split; auto).
  apply (wr_emits o w0 _ _ (fst (gather p))) in W. split; apply W.
Qed.

(** more fuel: the same, or more *)
Definition gle {A} (x y : str * res A) : Prop := (snd x = OutOfFuel /\ prefix (fst x) (fst y)) \/ x = y.
Lemma gle_refl {A} (x : str * res A) : gle x x.
Proof. now right. Qed.
Lemma prefix_app (x a b : str) : prefix a b -> prefix (x ++ a) (x ++ b).
Proof. intros (r & ->). exists r. now rewrite app_assoc. Qed.
Lemma gle_prefix {A} (x y : str * res A) : gle x y -> prefix (fst x) (fst y).
Proof. intros [(_ & H)| ->]; [exact H|exists []; now rewrite app_nil_r]. Qed.
Lemma gle_ok {A} (x y : str * res A) : gle x y -> snd x <> OutOfFuel -> x = y.
Proof. intros [(H & _)|H] N; [contradiction|exact H]. Qed.
Lemma gle_seq {A B} (p p' : io A) (f f' : A -> io B) : writer p -> writer p' -> gle (gather p) (gather p') ->
  (forall a, gle (gather (f a)) (gather (f' a))) -> gle (gather (seq_io p f)) (gather (seq_io p' f')).
Proof.
  intros W W' H F. rewrite !gather_seq by auto. destruct H as [(H1 & H2)| ->].
  - rewrite H1. left. split; [reflexivity|]. cbn [fst]. destruct (snd (gather p')) as [a| |]; cbn [gseq fst]; auto.
    destruct H2 as (r & ->). exists (r ++ fst (gather (f' a))). now rewrite app_assoc.
  - destruct (snd (gather p')) as [a| |]; try apply gle_refl. destruct (F a) as [(F1 & F2)| ->]; [|apply gle_refl].
    left. unfold gseq. cbn [fst snd]. split; [exact F1|now apply prefix_app].
Qed.
Lemma gle_loop {S B} (body : S -> io (ctl S B)) : (forall s, writer (body s)) -> forall fuel fuel' s, fuel <= fuel' ->
  gle (gather (loop_io fuel body s)) (gather (loop_io fuel' body s)).
Proof.
  intros W. induction fuel as [|fuel IH]; intros fuel' s L.
  - left. split; [reflexivity|]. now exists (fst (gather (loop_io fuel' body s))).
  - destruct fuel' as [|fuel']; [lia|]. cbn [loop_io]. apply gle_seq; auto using gle_refl.
    intros [s'|b]; [apply IH; lia|apply gle_refl].
Qed.
Lemma gle_for {X S} (body body' : X -> S -> io S) : (forall x s, writer (body x s)) -> (forall x s, writer (body' x s)) ->
  (forall x s, gle (gather (body x s)) (gather (body' x s))) -> forall l s, gle (gather (for_io l body s)) (gather (for_io l body' s)).
Proof. intros W W' H. induction l as [|x l IH]; intros s; [apply gle_refl|]. cbn [for_io]. apply gle_seq; auto. Qed.

(** ** lyndonwords *)
Lemma lw_writer g : writer (lyndonwords_body g).
Proof.
  unfold lyndonwords_body. apply writer_seq; [apply writer_lift|]. intros ([w|] & g'); [|exact I].
  apply writer_seq; [apply writer_lift|]. intros line. exact I.
Qed.
Lemma lw_gather : forall L g fuel, (forall k, calls lwg_next k g = Ok (yields L k)) -> length L < fuel ->
  Forall (Forall (fun x => x < 159)) L -> gather (loop_io fuel lyndonwords_body g) = (lines (map letters L), Ok tt).
Proof.
  induction L as [|w L IH]; intros g fuel H Hf F; (destruct fuel as [|fuel]; [cbn in Hf; lia|]); cbn [loop_io]; rewrite gather_seq by apply lw_writer; unfold lyndonwords_body at 1 2.
  - destruct (calls_nil _ _ H) as (g' & ->). reflexivity.
  - destruct (calls_cons _ _ _ _ H) as (g' & -> & H'). inversion F; subst. cbn [lift seq_io].
    rewrite add97_line by auto. cbn [lift seq_io write_ gather fst snd app]. rewrite (IH g' fuel H') by (auto; cbn in Hf; lia).
    unfold gseq, lines, newline. cbn [map concat fst snd]. rewrite <- !app_assoc. reflexivity.
Qed.
(** the first word with a letter above 158 makes it panic *)
Lemma lw_gather_panic L1 w L2 : forall g fuel, (forall k, calls lwg_next k g = Ok (yields (L1 ++ w :: L2) k)) -> length L1 < fuel ->
  Forall (Forall (fun x => x < 159)) L1 -> (exists x, In x w /\ 159 <= x) ->
  gather (loop_io fuel lyndonwords_body g) = (lines (map letters L1), Panic).
Proof.
  induction L1 as [|u L1 IH]; intros g fuel H Hf F Hw; (destruct fuel as [|fuel]; [cbn in Hf; lia|]); cbn [loop_io]; rewrite gather_seq by apply lw_writer.
  - assert (E : gather (lyndonwords_body g) = ([], Panic)).
    { unfold lyndonwords_body. destruct (calls_cons _ _ _ _ H) as (g' & -> & H'). cbn [lift seq_io]. rewrite add97_panic by exact Hw. reflexivity. }
    rewrite E. reflexivity.
  - unfold lyndonwords_body at 1 2. destruct (calls_cons _ _ _ _ H) as (g' & -> & H'); cbn [lift seq_io]. inversion F; subst.
    rewrite add97_line by auto. cbn [lift seq_io write_ gather fst snd app]. rewrite (IH g' fuel H') by (auto; cbn in Hf; lia).
    unfold gseq, lines, newline. cbn [map concat fst snd]. rewrite <- !app_assoc. reflexivity.
Qed.
(** the words that are printed before the letter 159 is needed: a, then a..ab up to a..a and the letter 158 *)
Lemma lwg_bump n s c : 1 <= n -> 1 <= c -> c + 1 < s -> c < 255 ->
  lwg_next (LWG n s (repeat 0 (n - 1) ++ [c])) = Ok (Some (repeat 0 (n - 1) ++ [c + 1]), LWG n s (repeat 0 (n - 1) ++ [c + 1])).
Proof.
  intros Hn Hc Hs H2. unfold lwg_next. cbn [lwg_length lwg_stack lwg_sigma]. destruct (Nat.eqb_spec n 0); [lia|].
  assert (L : length (repeat 0 (n - 1) ++ [c]) = n) by (rewrite app_length, repeat_length; cbn; lia).
  destruct (repeat 0 (n - 1) ++ [c]) as [|y l] eqn:E; [cbn in L; lia|]. rewrite <- E in *. clear E y l.
  assert (F : lwg_fill n (length (repeat 0 (n - 1) ++ [c])) (repeat 0 (n - 1) ++ [c]) = Ok (repeat 0 (n - 1) ++ [c])).
  { unfold lwg_fill. cbn [loop]. rewrite L, Nat.ltb_irrefl. reflexivity. }
  rewrite F. cbn [bind]. unfold lwg_trim. cbn [loop]. rewrite rev_app_distr. cbn [rev app]. rewrite sub_ok by lia. cbn [bind].
  destruct (Nat.eqb_spec c (s - 1)); [lia|]. cbn [bind]. rewrite rev_app_distr. cbn [rev app]. destruct (Nat.leb_spec 255 c); [lia|].
  now rewrite rev_involutive.
Qed.
Lemma lwg_second n s : 1 <= n -> 2 <= s ->
  lwg_next (LWG n s [0]) = Ok (Some (repeat 0 (n - 1) ++ [1]), LWG n s (repeat 0 (n - 1) ++ [1])).
Proof.
  intros Hn Hs. unfold lwg_next. cbn [lwg_length lwg_stack lwg_sigma]. destruct (Nat.eqb_spec n 0); [lia|].
  destruct (lwg_fill_ok n [0]) as (x & -> & L & X); [cbn; lia|].
  assert (E : x = repeat 0 (n - 1) ++ [0]).
  { apply (nth_ext x _ 0 0); [rewrite app_length, repeat_length; cbn; lia|]. intros i Hi. rewrite X by lia. cbn [length]. rewrite Nat.mod_1_r.
    cbn [nth]. destruct (le_lt_dec (n - 1) i).
    - rewrite app_nth2; rewrite repeat_length; [|lia]. replace (i - (n - 1)) with 0 by lia. reflexivity.
    - rewrite app_nth1 by (rewrite repeat_length; lia). symmetry. apply nth_repeat. }
  rewrite E. cbn [bind]. unfold lwg_trim. cbn [loop]. rewrite rev_app_distr. cbn [rev app]. rewrite sub_ok by lia. cbn [bind].
  destruct (Nat.eqb_spec 0 (s - 1)); [lia|]. cbn [bind]. rewrite rev_app_distr. cbn [rev app Nat.leb]. now rewrite rev_involutive.
Qed.
Lemma lw_body_ok g w g' : lwg_next g = Ok (Some w, g') -> Forall (fun x => x < 159) w ->
  gather (lyndonwords_body g) = (letters w ++ [10], Ok (Cont g')).
Proof. intros E F. unfold lyndonwords_body. rewrite E. cbn [lift seq_io]. now rewrite add97_line. Qed.
Lemma lw_large_tail n s : 1 <= n -> 160 <= s -> forall d fuel, d <= 158 -> d < fuel ->
  gather (loop_io fuel lyndonwords_body (LWG n s (repeat 0 (n - 1) ++ [158 - d]))) =
  (lines (map (fun c => letters (repeat 0 (n - 1) ++ [c])) (seq (159 - d) d)), Panic) \/ d = 158.
Proof.
  intros Hn Hs. assert (F0 : forall c, c < 159 -> Forall (fun x => x < 159) (repeat 0 (n - 1) ++ [c])).
  { intros c Hc. apply Forall_app. split; [apply Forall_forall; intros x Hx; apply repeat_spec in Hx; lia|constructor; [lia|constructor]]. }
  induction d as [|d IH]; intros fuel Hd Hf; (destruct fuel as [|fuel]; [lia|]).
  - left. cbn [loop_io]. rewrite gather_seq by apply lw_writer.
    assert (E : gather (lyndonwords_body (LWG n s (repeat 0 (n - 1) ++ [158 - 0]))) = ([], Panic)).
    { unfold lyndonwords_body. rewrite lwg_bump by lia. cbn [lift seq_io]. rewrite add97_panic; [reflexivity|].
      exists 159. split; [|lia]. apply in_app_iff. right. now left. }
    rewrite E. reflexivity.
  - destruct (Nat.eq_dec (S d) 158) as [|Nd]; [now right|left].
    cbn [loop_io]. rewrite gather_seq by apply lw_writer.
    rewrite (lw_body_ok _ (repeat 0 (n - 1) ++ [158 - d]) (LWG n s (repeat 0 (n - 1) ++ [158 - d]))); [|rewrite lwg_bump by lia; now replace (158 - S d + 1) with (158 - d) by lia|apply F0; lia].
    cbn [snd fst]. destruct (IH fuel ltac:(lia) ltac:(lia)) as [->|]; [|lia].
    replace (159 - S d) with (158 - d) by lia. cbn [seq map]. replace (S (158 - d)) with (159 - d) by lia. unfold gseq, lines, newline. cbn [map concat fst snd].
    now rewrite <- !app_assoc.
Qed.
Lemma map_repeat' {A B} (f : A -> B) x k : map f (repeat x k) = repeat (f x) k.
Proof. induction k as [|k IH]; cbn; [reflexivity|now rewrite IH]. Qed.
Definition early_words (n : nat) : list str := [97] :: map (fun c => repeat 97 (n - 1) ++ [c]) (seq 98 158).
Lemma lw_large n s fuel : 1 <= n -> 160 <= s -> 159 < fuel ->
  gather (loop_io fuel lyndonwords_body (lwg_new n s)) = (lines (early_words n), Panic).
Proof.
  intros Hn Hs Hf. destruct fuel as [|[|fuel]]; try lia. unfold lwg_new. cbn [loop_io]. rewrite gather_seq by apply lw_writer.
  rewrite (lw_body_ok _ [0] (LWG n s [0])); [|unfold lwg_next; cbn [lwg_length lwg_stack lwg_sigma]; destruct (Nat.eqb_spec n 0); [lia|reflexivity]|constructor; [lia|constructor]].
  cbn [snd fst]. rewrite gather_seq by apply lw_writer.
  rewrite (lw_body_ok _ (repeat 0 (n - 1) ++ [1]) (LWG n s (repeat 0 (n - 1) ++ [1]))); [|apply lwg_second; lia|].
  2:{ apply Forall_app. split; [apply Forall_forall; intros x Hx; apply repeat_spec in Hx; lia|constructor; [lia|constructor]]. }
  cbn [snd fst]. destruct (lw_large_tail n s Hn Hs 157 fuel ltac:(lia) ltac:(lia)) as [E|E]; [|lia].
  change (158 - 157) with 1 in E. rewrite E.
  assert (EL : forall c, letters (repeat 0 (n - 1) ++ [c]) = repeat 97 (n - 1) ++ [97 + c]).
  { intros c. unfold letters. rewrite map_app, map_repeat'. reflexivity. }
  rewrite EL. unfold early_words, gseq. change (seq 98 158) with (98 :: seq 99 157). cbn [map].
  change (159 - 157) with 2. rewrite (map_ext _ (fun c => repeat 97 (n - 1) ++ [97 + c]) EL).
  assert (Es : map (fun c => repeat 97 (n - 1) ++ [97 + c]) (seq 2 157) = map (fun c => repeat 97 (n - 1) ++ [c]) (seq 99 157)).
  { change (seq 99 157) with (map (fun c => 97 + c) (seq 2 157)). now rewrite map_map. }
  rewrite Es. unfold lines, newline. cbn [map concat fst snd letters Nat.add]. now rewrite <- !app_assoc.
Qed.

(** ** loops over lists: the pure models append to their output *)
Definition appends {S} (x : str * res S) (out : str) (r : res (S * str)) : Prop :=
  match snd x with
  | Ok s => r = Ok (s, out ++ fst x)
  | Panic => r = Panic
  | OutOfFuel => r = OutOfFuel
  end.
Lemma appends_for {X S} (body : X -> S -> io S) (pstep : X -> S * str -> res (S * str)) : (forall x s, writer (body x s)) ->
  (forall x s out, appends (gather (body x s)) out (pstep x (s, out))) ->
  forall l s out, appends (gather (for_io l body s)) out (for_in l pstep (s, out)).
Proof.
  intros W H. induction l as [|x l IH]; intros s out; cbn [for_io for_in].
  - unfold appends. cbn. now rewrite app_nil_r.
  - rewrite gather_seq by auto. specialize (H x s out). unfold appends in H |- *. destruct (snd (gather (body x s))) as [s'| |]; cbn [snd fst]; rewrite H; cbn [bind]; auto.
    specialize (IH s' (out ++ fst (gather (body x s)))). unfold gseq, appends in *. cbn [fst snd]. destruct (snd (gather (for_io l body s'))); rewrite IH; auto.
    now rewrite app_assoc.
Qed.
Lemma for_io_ext {X S} (body body' : X -> S -> io S) l : (forall x s, writer (body x s)) -> (forall x s, writer (body' x s)) ->
  (forall x s, In x l -> gather (body x s) = gather (body' x s)) -> forall s, gather (for_io l body s) = gather (for_io l body' s).
Proof.
  intros W W'. induction l as [|x l IH]; intros H s; cbn [for_io]; [reflexivity|]. rewrite !gather_seq, (H x s) by (auto; now left).
  destruct (snd (gather (body' x s))); auto. rewrite IH; auto. intros y t Hy. apply H. now right.
Qed.
(** ** randomstring *)
Lemma random_append fuel a rng u cs out : random_step fuel a rng (u, cs, out) =
  match random_step fuel a rng (u, cs, []) with Ok (u', cs', c) => Ok (u', cs', out ++ c) | Panic => Panic | OutOfFuel => OutOfFuel end.
Proof.
  unfold random_step. destruct (if negb (a =? 0) && (length cs =? a) then _ else _) as [(c & u')| |]; reflexivity.
Qed.
Lemma random_writer fuel a rng st : writer (randomstring_body fuel a rng st).
Proof. unfold randomstring_body. apply writer_seq; [apply writer_lift|]. intros ((u & cs) & c). exact I. Qed.
Lemma random_appends fuel a rng l u cs out :
  appends (gather (for_io l (fun (_ : nat) st => randomstring_body fuel a rng st) (u, cs))) out
    (for_in l (fun _ st => random_step fuel a rng st) (u, cs, out)).
Proof.
  revert u cs out. assert (G : forall st out, appends (gather (for_io l (fun (_ : nat) st => randomstring_body fuel a rng st) st)) out
    (for_in l (fun _ st => random_step fuel a rng st) (st, out))).
  { apply appends_for; [intros; apply random_writer|]. intros _ (u & cs) out. unfold randomstring_body. cbn [fst snd]. rewrite gather_lift, (random_append fuel a rng u cs out).
    destruct (random_step fuel a rng (u, cs, [])) as [((u' & cs') & c)| |]; cbn [appends gather seq_io write_ fst snd]; [|reflexivity|reflexivity]. unfold appends. cbn [fst snd]. now rewrite app_nil_r. }
  intros u cs. apply (G (u, cs)).
Qed.
Lemma random_inv fuel a rng (l : list nat) : forall u cs out, rinv a rng (u, cs, out) ->
  let x := gather (for_io l (fun _ st => randomstring_body fuel a rng st) (u, cs)) in
  exists u' cs', rinv a rng (u', cs', out ++ fst x) /\ length (fst x) <= length l /\ (snd x <> OutOfFuel -> length (fst x) = length l) /\ snd x <> Panic.
Proof.
  induction l as [|y l IH]; intros u cs out R; cbn [for_io gather fst snd length].
  - exists u, cs. rewrite app_nil_r. split; [exact R|]. split; [lia|]. split; [reflexivity|discriminate].
  - rewrite gather_seq by apply random_writer.
    assert (EB : gather (randomstring_body fuel a rng (u, cs)) = match random_step fuel a rng (u, cs, []) with
      Ok (u', cs', c) => (c, Ok (u', cs')) | Panic => ([], Panic) | OutOfFuel => ([], OutOfFuel) end).
    { unfold randomstring_body. cbn [fst snd]. rewrite gather_lift. destruct (random_step fuel a rng (u, cs, [])) as [((u' & cs') & c)| |]; [|reflexivity|reflexivity].
      cbn [seq_io write_ gather fst snd]. now rewrite app_nil_r. }
    rewrite EB. clear EB.
    destruct (random_step fuel a rng (u, cs, [])) as [((u' & cs') & c)| |] eqn:E; cbn [snd fst].
    + assert (E' : random_step fuel a rng (u, cs, out) = Ok (u', cs', out ++ c)) by (rewrite (random_append fuel a rng u cs out), E; reflexivity).
      destruct (random_step_inv fuel a rng _ _ R E') as (R' & L). cbn [snd] in L. rewrite app_length in L.
      destruct (IH u' cs' (out ++ c) R') as (u2 & cs2 & R2 & L2 & E2 & P2). exists u2, cs2. unfold gseq. cbn [fst snd]. rewrite app_assoc, app_length.
      split; [exact R2|]. split; [lia|]. split; [intros N; rewrite (E2 N); lia|exact P2].
    + exfalso. pose proof (randomstring_no_panic) as _. unfold random_step in E.
      destruct (if negb (a =? 0) && (length cs =? a) then _ else _) as [(c & u')| |] eqn:E1; cbn [bind] in E; try discriminate.
      destruct (negb (a =? 0) && (length cs =? a)); [|discriminate]. revert E1. generalize (rng u), (S u). clear.
      induction fuel as [|fuel IH]; intros c v; cbn [loop]; [discriminate|]. destruct (existsb (Nat.eqb c) cs); cbn [negb bind]; [discriminate|apply IH].
    + exists u, cs. rewrite app_nil_r. split; [exact R|]. split; [cbn; lia|]. split; [intros N; now destruct N|discriminate].
Qed.

(** ** enumerate *)
Lemma enum_writer s n v : writer (enumerate_body s n v).
Proof. unfold enumerate_body. apply writer_seq; [apply writer_lift|]. intros l. cbn [write_ seq_io writer]. apply writer_seq; [apply writer_lift|]. now intros (p & v'). Qed.
Lemma enum_len_writer fuel s n : writer (enumerate_for_length_io fuel s n).
Proof. unfold enumerate_for_length_io. destruct (n =? 0); [exact I|]. apply writer_loop. intros. apply enum_writer. Qed.
Lemma enum_len_loop s n : 1 <= s <= 26 -> forall k v fuel, v + k = s ^ n -> 0 < k -> k <= fuel ->
  gather (loop_io fuel (enumerate_body s n) (digits s n v)) = (lines (map (fun v => letters (digits s n v)) (seq v k)), Ok tt).
Proof.
  intros Hs. induction k as [|k IH]; intros v fuel Hv Hk Hf; [lia|].
  destruct fuel as [|fuel]; [lia|]. cbn [loop_io]. rewrite gather_seq by apply enum_writer.
  destruct (enum_incr_ok s n v ltac:(lia) ltac:(lia)) as (q & ind & E1 & E2 & E3).
  assert (E : gather (enumerate_body s n (digits s n v)) = (println (letters (digits s n v)), Ok (if q =? 0 then Brk tt else Cont ind))).
  { unfold enumerate_body. rewrite (enum_line_ok s) by (try apply digits_lt; lia). cbn [lift seq_io write_ gather fst snd]. rewrite E1. cbn [lift seq_io gather fst snd]. now rewrite app_nil_r. }
  rewrite E. cbn [fst snd]. destruct k as [|k].
  - rewrite E3 by lia. cbn [Nat.eqb seq map]. unfold lines, newline, println, gseq. cbn [map concat gather fst snd]. now rewrite ?app_nil_r.
  - destruct E2 as (Hq & ->); [lia|]. destruct (Nat.eqb_spec q 0); [lia|].
    replace (v + 1) with (S v) by lia. rewrite IH by lia. cbn [seq map].
    unfold lines, newline, println, gseq. cbn [map concat fst snd]. now rewrite <- !app_assoc.
Qed.
Lemma enum_len_ok s n fuel : 1 <= s <= 26 -> 1 <= n -> s ^ n <= fuel ->
  gather (enumerate_for_length_io fuel s n) = (lines (all_words s n), Ok tt).
Proof.
  intros Hs Hn Hf. unfold enumerate_for_length_io. destruct (Nat.eqb_spec n 0); [lia|].
  rewrite <- (digits_zero s n) by lia. unfold all_words. apply enum_len_loop; auto. pose proof (Nat.pow_nonzero s n). lia.
Qed.
Lemma enum_all_ok s fuel : 1 <= s <= 26 -> forall k a, 1 <= a -> (forall n, n < a + k -> s ^ n <= fuel) ->
  gather (for_io (seq a k) (fun len (_ : unit) => enumerate_for_length_io fuel s len) tt) = (lines (flat_map (all_words s) (seq a k)), Ok tt).
Proof.
  intros Hs. induction k as [|k IH]; intros a Ha Hf; cbn [seq for_io flat_map]; [reflexivity|].
  rewrite gather_seq by apply enum_len_writer. rewrite enum_len_ok by (auto; apply Hf; lia). cbn [fst snd].
  rewrite IH by (try lia; intros; apply Hf; lia). unfold gseq. cbn [fst snd]. now rewrite lines_app.
Qed.
Lemma enum_len_mono fuel fuel' s n : fuel <= fuel' -> gle (gather (enumerate_for_length_io fuel s n)) (gather (enumerate_for_length_io fuel' s n)).
Proof. intros L. unfold enumerate_for_length_io. destruct (n =? 0); [apply gle_refl|]. apply gle_loop; auto. intros. apply enum_writer. Qed.

(** ** generator_kmer *)
Definition kmer_body (n s num : nat) (_ : unit) : io unit :=
  t <~ lift (kmer_text n s num) ;
  _ <~ lift (assert_ (forallb (fun c => c <? 128) t)) ;
  write_ (println t).
Lemma kmer_writer n s num u : writer (kmer_body n s num u).
Proof. unfold kmer_body. apply writer_seq; [apply writer_lift|]. intros t. apply writer_seq; [apply writer_lift|]. intros []. exact I. Qed.
Lemma kmer_gather s n : 1 <= s <= 31 -> forall l,
  gather (for_io l (kmer_body n s) tt) = (lines (map (fun v => rev (letters (digits s n v))) l), Ok tt).
Proof.
  intros Hs. induction l as [|v l IH]; [reflexivity|]. cbn [for_io map]. rewrite gather_seq by apply kmer_writer.
  assert (E : gather (kmer_body n s v tt) = (println (rev (letters (digits s n v))), Ok tt)).
  { unfold kmer_body. rewrite kmer_text_ok by lia. cbn [lift seq_io].
    assert (B : forallb (fun c => c <? 128) (rev (letters (digits s n v))) = true).
    { apply forallb_forall. intros c Hc. apply in_rev in Hc. apply in_map_iff in Hc. destruct Hc as (d & <- & Hd).
      pose proof (digits_lt s n ltac:(lia) v) as F. rewrite Forall_forall in F. specialize (F d Hd). apply Nat.ltb_lt. lia. }
    rewrite B. cbn [assert_ lift seq_io write_ gather fst snd]. now rewrite app_nil_r. }
  rewrite E. cbn [snd fst]. rewrite IH. unfold gseq, lines, newline, println. cbn [map concat fst snd]. reflexivity.
Qed.
Lemma kmer_prog s n : 1 <= s <= 31 -> (N.of_nat s ^ N.of_nat n < 2 ^ 64)%N -> exists p, generator_kmer_io n s = CreateOut None p /\ writer p /\
  gather p = (lines (map (@rev nat) (all_words s n)), Ok tt).
Proof.
  intros Hs Hn. eexists. split; [reflexivity|]. fold (kmer_body n s). unfold pow_usize. change (2 ^ 64)%N with 18446744073709551616%N in Hn.
  apply N.ltb_lt in Hn. rewrite Hn. cbn [lift seq_io]. split.
  - apply writer_for. intros. apply kmer_writer.
  - unfold range. rewrite Nat.sub_0_r, kmer_gather by exact Hs. unfold all_words. now rewrite map_map.
Qed.

(** ** enumerate_lexparse *)
Definition elp_body (sort : str -> list nat) (n s num d : nat) : io nat :=
  t <~ lift (kmer_text n s num) ;
  r <~ lift (enum_step sort s t (d, [])) ; let '(d', line) := r in
  _ <~ write_ line ; Ret d'.
Lemma elp_writer sort n s num d : writer (elp_body sort n s num d).
Proof. unfold elp_body. apply writer_seq; [apply writer_lift|]. intros t. apply writer_seq; [apply writer_lift|]. intros (d' & l). exact I. Qed.
Lemma enum_step_append sort s t d out : enum_step sort s t (d, out) =
  match enum_step sort s t (d, []) with Ok (d', l) => Ok (d', out ++ l) | Panic => Panic | OutOfFuel => OutOfFuel end.
Proof.
  unfold enum_step. destruct (enum_list sort s (t ++ [0])) as [L| |]; cbn [bind]; auto.
  destruct (sort_by _ L) as [L'| |]; cbn [bind]; auto. destruct (last_ L') as [x| |]; cbn [bind]; auto.
  destruct (get L' 0) as [y| |]; cbn [bind]; auto. destruct (sub_ (fst x) (fst y)) as [e| |]; cbn [bind]; auto.
  destruct (d <=? e); [|now rewrite app_nil_r]. destruct (enum_println e (snd y) (snd x)); reflexivity.
Qed.
Lemma for_in_map {X Y S} (h : X -> Y) (f : Y -> S -> res S) l : forall s, for_in (map h l) f s = for_in l (fun x => f (h x)) s.
Proof. induction l as [|x l IH]; intros s; cbn [map for_in]; [reflexivity|]. destruct (f (h x) s); cbn [bind]; auto. Qed.
Lemma elp_prog sort s n out : s <= 159 -> enumerate_lexparse_main sort n s = Ok out -> exists p, enumerate_lexparse_io sort n s = CreateOut None p /\ writer p /\
  gather p = (out, Ok tt).
Proof.
  intros Hs E. eexists. split; [reflexivity|]. fold (elp_body sort n s).
  assert (Hn : (N.of_nat s ^ N.of_nat n < 2 ^ 64)%N).
  { destruct (N.ltb_spec (N.of_nat s ^ N.of_nat n) (2 ^ 64)) as [H|H]; [exact H|]. exfalso. unfold enumerate_lexparse_main in E. rewrite kmer_generator_overflow in E by exact H. discriminate. }
  unfold enumerate_lexparse_main in E. rewrite kmer_generator_ok in E by auto. cbn [bind] in E.
  unfold pow_usize. change (2 ^ 64)%N with 18446744073709551616%N in Hn. apply N.ltb_lt in Hn. rewrite Hn. cbn [lift seq_io].
  assert (W : forall l d, writer (for_io l (elp_body sort n s) d)) by (intros; apply writer_for; intros; apply elp_writer).
  split; [apply writer_seq; [apply W|intros; exact I]|]. rewrite gather_seq by apply W. unfold range. rewrite Nat.sub_0_r.
  unfold all_words in E. rewrite map_map, for_in_map in E.
  pose proof (appends_for (elp_body sort n s) (fun num st => t <- kmer_text n s num ;; enum_step sort s t st) (fun _ _ => elp_writer _ _ _ _ _)) as A.
  assert (A0 : forall (x s0 : nat) out, appends (gather (elp_body sort n s x s0)) out (t <- kmer_text n s x;; enum_step sort s t (s0, out))).
  { intros v d o. unfold elp_body. rewrite gather_lift. destruct (kmer_text n s v) as [t| |]; cbn [bind]; [|reflexivity|reflexivity].
    rewrite gather_lift, (enum_step_append sort s t d o). destruct (enum_step sort s t (d, [])) as [(d' & l)| |]; [|reflexivity|reflexivity].
    unfold appends. cbn [seq_io write_ gather fst snd]. now rewrite app_nil_r. }
  specialize (A A0 (seq 0 (s ^ n)) 0 []). cbn beta in A.
  rewrite (for_in_ext_in _ _ (fun x st => enum_step sort s (rev (letters (digits s n x))) st)) in A.
  2:{ intros x st Hx. destruct s as [|s]; [destruct n; [reflexivity|]|].
      - exfalso. apply in_seq in Hx. cbn in Hx. lia.
      - rewrite kmer_text_ok by lia. reflexivity. }
  destruct (for_in (seq 0 (s ^ n)) (fun x st => enum_step sort s (rev (letters (digits s n x))) st) (0, [])) as [(d & o)| |]; cbn [bind] in E; try discriminate.
  injection E as ->. unfold appends in A. destruct (snd (gather (for_io (seq 0 (s ^ n)) (elp_body sort n s) 0))) as [d'| |]; try discriminate.
  injection A as -> ->. unfold gseq. cbn. now rewrite app_nil_r.
Qed.
