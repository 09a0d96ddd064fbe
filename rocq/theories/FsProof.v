(** FsProof.v : invariants of all executions of the programs of ModelFs.v. *)
From Verif Require Import Base SpecStr SpecWord ModelIo SpecIo ModelTools RunFacts ModelCore ModelMain ModelLz SpecFs ModelFs.

Definition emits (w : world) (b : str) : world := fold_left emit b w.
Lemma emits_app w b c : emits w (b ++ c) = emits (emits w b) c.
Proof. apply fold_left_app. Qed.

(** I holds in every reachable configuration, Q at the normal end *)
Fixpoint safe {A} (I : world -> Prop) (Q : A -> world -> Prop) (p : io A) (w : world) : Prop :=
  match p with
  | Ret a => I w /\ Q a w
  | Abort | NoFuel => I w
  | OpenIn o k => I w /\ (contents w o <> None -> safe I Q k (open_in w o))
  | CreateOut o k => I w /\ safe I Q k (create_out w o)
  | Slurp o k => I w /\ (forall t, contents w o = Some t -> safe I Q (k t) w)
  | ReadIn k => I w /\ safe I Q (k IoErr) w /\ safe I Q (k (fst (next_read w))) (snd (next_read w))
  | WriteOut b k => (forall b1 b2, b = b1 ++ b2 -> I (emits w b1)) /\ safe I Q k (emits w b)
  | WriteBuf b k => (forall b1 b2, b = b1 ++ b2 -> I (emits w b1)) /\ (forall b1 b2, b = b1 ++ b2 -> safe I Q k (emits w b1))
  end.
Lemma safe_I {A} I Q (p : io A) w : safe I Q p w -> I w.
Proof.
  destruct p; cbn; try tauto; intros (H & _); exact (H [] b eq_refl).
Qed.
Lemma safe_step {A} I Q (p p' : io A) w w' : safe I Q p w -> step (w, p) (w', p') -> safe I Q p' w'.
Proof.
  intros H S. inversion S; subst; cbn in H |- *; try tauto.
  - now apply H.
  - destruct H as (H1 & H2). split; [|exact H2]. intros b1 b2 E. apply (H1 (c :: b1) b2). now rewrite E.
  - exact (proj1 H [] b eq_refl).
  - destruct H as (H1 & H2). split; intros b1 b2 E; [apply (H1 (c :: b1) b2)|apply (H2 (c :: b1) b2)]; now rewrite E.
  - exact (proj2 H [] [] eq_refl).
  - exact (proj1 H [] b eq_refl).
  - exact (proj2 H [] b eq_refl).
Qed.
Lemma safe_steps {A} I Q (p p' : io A) w w' : safe I Q p w -> steps (w, p) (w', p') -> safe I Q p' w'.
Proof.
  intros H S. remember (w, p) as x eqn:Ex. remember (w', p') as y eqn:Ey. revert w' p' Ey. induction S as [x|x (w1, p1) z S IH S1]; intros w' p' Ey.
  - subst x. injection Ey as <- <-. exact H.
  - subst z. apply (safe_step I Q p1 p' w1 w' (IH Ex w1 p1 eq_refl) S1).
Qed.
Lemma safe_imp {A} (I : world -> Prop) (Q Q' : A -> world -> Prop) (p : io A) : forall w, (forall a w', Q a w' -> Q' a w') -> safe I Q p w -> safe I Q' p w.
Proof.
  induction p as [a| | |o k IH|o k IH|o k IH|k IH|b k IH|b k IH]; intros w HQ H; cbn in *; try tauto.
  - destruct H; auto.
  - destruct H; auto.
  - destruct H; auto.
  - destruct H; auto.
  - destruct H as (H1 & H2 & H3). auto.
  - destruct H; auto.
  - destruct H; eauto.
Qed.
Lemma safe_seq {A B} I Q (p : io A) (f : A -> io B) : forall w, safe I (fun a w' => safe I Q (f a) w') p w -> safe I Q (seq_io p f) w.
Proof.
  induction p as [a| | |o k IH|o k IH|o k IH|k IH|b k IH|b k IH]; intros w H; cbn in *; try tauto.
  - destruct H; auto.
  - destruct H; auto.
  - destruct H; auto.
  - destruct H as (H1 & H2 & H3). auto.
  - destruct H; auto.
  - destruct H; eauto.
Qed.
Lemma safe_lift {A B} (I : world -> Prop) Q (r : res A) (f : A -> io B) w : I w -> (forall a, r = Ok a -> safe I Q (f a) w) -> safe I Q (seq_io (lift r) f) w.
Proof. intros HI H. destruct r; cbn; auto. Qed.

(** the run without failures *)
Lemma run_seq {A B} (p : io A) (f : A -> io B) : forall w, run (seq_io p f) w =
  match run p w with (w', Ok a) => run (f a) w' | (w', Panic) => (w', Panic) | (w', OutOfFuel) => (w', OutOfFuel) end.
Proof.
  induction p as [a| | |o k IH|o k IH|o k IH|k IH|b k IH|b k IH]; intros w; cbn; auto.
  - destruct (contents w o); auto.
  - destruct (contents w o); auto.
Qed.
Lemma run_lift {A} (r : res A) w : run (lift r) w = (w, r).
Proof. destruct r; reflexivity. Qed.
(** it is one of the executions *)
Lemma steps_trans {A} (x y z : world * io A) : steps x y -> steps y z -> steps x z.
Proof. intros H1 H2. induction H2 as [|y y' z H2 IH S]; [exact H1|]. eapply steps_step; [now apply IH|exact S]. Qed.
Lemma steps_write {A} (b : str) : forall w (k : io A), steps (w, WriteOut b k) (emits w b, k).
Proof.
  induction b as [|c b IH]; intros w k.
  - eapply steps_step; [apply steps_refl|apply step_written].
  - eapply steps_trans; [eapply steps_step; [apply steps_refl|apply step_byte]|apply IH].
Qed.
Lemma steps_buf {A} (b : str) : forall w (k : io A), steps (w, WriteBuf b k) (emits w b, k).
Proof.
  induction b as [|c b IH]; intros w k.
  - eapply steps_step; [apply steps_refl|apply step_buf_written].
  - eapply steps_trans; [eapply steps_step; [apply steps_refl|apply step_buf_byte]|apply IH].
Qed.
Lemma run_steps {A} (p : io A) : forall w w' r, run p w = (w', r) -> steps (w, p) (w', lift r).
Proof.
  induction p as [a| | |o k IH|o k IH|o k IH|k IH|b k IH|b k IH]; intros w w' r H; cbn in H.
  - injection H as <- <-. apply steps_refl.
  - injection H as <- <-. apply steps_refl.
  - injection H as <- <-. apply steps_refl.
  - destruct (contents w o) eqn:E.
    + eapply steps_trans; [eapply steps_step; [apply steps_refl|apply step_open; congruence]|now apply IH].
    + injection H as <- <-. eapply steps_step; [apply steps_refl|apply step_open_fails].
  - eapply steps_trans; [eapply steps_step; [apply steps_refl|apply step_create]|now apply IH].
  - destruct (contents w o) eqn:E.
    + eapply steps_trans; [eapply steps_step; [apply steps_refl|apply step_slurp; exact E]|now apply IH].
    + injection H as <- <-. eapply steps_step; [apply steps_refl|apply step_slurp_fails].
  - eapply steps_trans; [eapply steps_step; [apply steps_refl|apply step_read]|now apply IH].
  - eapply steps_trans; [apply steps_write|now apply IH].
  - eapply steps_trans; [apply steps_buf|now apply IH].
Qed.

Lemma put_eq m f t : put m f t f = Some t.
Proof. unfold put. now rewrite Nat.eqb_refl. Qed.
Lemma put_ne m f t g : g <> f -> put m f t g = m g.
Proof. intros H. unfold put. destruct (Nat.eqb_spec g f); [contradiction|reflexivity]. Qed.

(** the output so far is out *)
Record wr (o : option name) (w0 w : world) (out : str) : Prop := {
  wr_untouched : untouched o w0 w;
  wr_out : written w o = Some out;
  wr_dst : dst w = match o with None => KStdout | Some f => KFile f end }.
Lemma wr_create o w0 w : untouched o w0 w -> stdout w = [] -> wr o w0 (create_out w o) [].
Proof.
  intros (H1 & H2) H3. unfold untouched in *. destruct o as [f|]; cbn; constructor; cbn; auto.
  - split; cbn; [|exact H2]. intros g Hg. rewrite put_ne by (intros ->; now apply Hg). now apply H1.
  - apply put_eq.
  - split; cbn; auto.
  - now rewrite H3.
Qed.
Lemma wr_emit o w0 w out c : wr o w0 w out -> wr o w0 (emit w c) (out ++ [c]).
Proof.
  intros [(H1 & H2) H3 H4]. unfold emit. rewrite H4. destruct o as [f|]; constructor; cbn in *; auto.
  - split; cbn; [|exact H2]. intros g Hg. rewrite put_ne by (intros ->; now apply Hg). now apply H1.
  - rewrite H3. apply put_eq.
  - split; cbn; [exact H1|congruence].
  - congruence.
Qed.
Lemma wr_emits o w0 w out b : wr o w0 w out -> wr o w0 (emits w b) (out ++ b).
Proof.
  revert w out. induction b as [|c b IH]; intros w out H; [now rewrite app_nil_r|]. unfold emits. cbn [fold_left]. fold (emits (emit w c) b).
  replace (out ++ c :: b) with ((out ++ [c]) ++ b) by (rewrite <- app_assoc; reflexivity). apply IH, wr_emit, H.
Qed.
Lemma wr_src o w0 w out s : wr o w0 w out -> forall t, wr o w0 (W (files w) t (stdout w) s (dst w)) out.
Proof. intros [(H1 & H2) H3 H4] t. constructor; [split; auto| |exact H4]. destruct o; exact H3. Qed.

Definition crash_ok (o : option name) (w0 : world) (Good : str -> Prop) (w : world) : Prop :=
  untouched o w0 w /\ (written w o = written w0 o \/ exists out, Good out /\ written w o = Some out).
Lemma wr_crash o w0 (Good : str -> Prop) w out : wr o w0 w out -> Good out -> crash_ok o w0 Good w.
Proof. intros H HG. split; [apply H|]. right. exists out. split; [exact HG|apply H]. Qed.
Lemma safe_write {A} o w0 (Good : str -> Prop) Q (k : io A) w out b : wr o w0 w out -> (forall b1 b2, b = b1 ++ b2 -> Good (out ++ b1)) ->
  safe (crash_ok o w0 Good) Q k (emits w b) -> safe (crash_ok o w0 Good) Q (WriteOut b k) w.
Proof.
  intros H HG HK. cbn. split; [|exact HK]. intros b1 b2 E. apply (wr_crash o w0 Good _ (out ++ b1)); [now apply wr_emits|]. now apply (HG b1 b2).
Qed.

(** streams: in addition, the part p of the input text has been read *)
Definition rd (i : option name) (text : str) (w : world) (p : str) : Prop :=
  match i with
  | None => src w = SStdin /\ text = p ++ stdin w
  | Some f => src w = SFile f (length p) /\ files w f = Some text /\ exists r, text = p ++ r
  end.
Definition frame (i o : option name) (w0 : world) (text : str) (w : world) (p out : str) : Prop := rd i text w p /\ wr o w0 w out.
Section Stream.
Variables (i o : option name) (w0 : world) (text : str).
Hypothesis Hout : stdout w0 = [].
Hypothesis Hin : contents w0 i = Some text.
Hypothesis Hio : forall f, i = Some f -> o <> Some f.
Notation fr := (frame i o w0 text).
Lemma emits_stdin w b : stdin (emits w b) = stdin w /\ src (emits w b) = src w.
Proof.
  revert w. induction b as [|c b IH]; intros w; [auto|].
  change (emits w (c :: b)) with (emits (emit w c) b). destruct (IH (emit w c)) as (-> & ->).
  unfold emit. destruct (dst w); auto.
Qed.
Lemma fr_emits w p out b : fr w p out -> fr (emits w b) p (out ++ b).
Proof.
  intros (H1 & H2). split; [|now apply wr_emits]. unfold rd in *. destruct (emits_stdin w b) as (E1 & E2). rewrite E1, E2.
  destruct i as [f|]; [|exact H1]. destruct H1 as (A & B & C). split; [exact A|]. split; [|exact C].
  pose proof (wr_untouched _ _ _ _ H2) as (U & _). pose proof (wr_untouched _ _ _ _ (wr_emits o w0 w out b H2)) as (U' & _).
  specialize (Hio f eq_refl). rewrite U', <- (U f) by congruence. exact B.
Qed.
Lemma fr_next w p out : fr w p out ->
  (exists c w', next_read w = (Byte c, w') /\ fr w' (p ++ [c]) out /\ prefix (p ++ [c]) text) \/
  (next_read w = (Eof, w) /\ p = text).
Proof.
  intros (H1 & H2). unfold rd, next_read in *. destruct i as [f|].
  - destruct H1 as (-> & B & (r & C)). rewrite B.
    assert (N : nth_error text (length p) = nth_error r 0) by (rewrite C, nth_error_app2, Nat.sub_diag by lia; reflexivity).
    rewrite N. destruct r as [|c r]; cbn [nth_error].
    + right. rewrite C, app_nil_r. auto.
    + left. assert (C' : text = (p ++ [c]) ++ r) by (rewrite <- app_assoc; exact C). do 2 eexists. split; [reflexivity|]. split.
      * split; [|apply (wr_src o w0 w out); exact H2]. cbn. rewrite app_length, Nat.add_1_r. split; [reflexivity|]. split; [exact B|now exists r].
      * now exists r.
  - destruct H1 as (E & C). rewrite E. destruct (stdin w) as [|c r] eqn:Es.
    + right. rewrite C, app_nil_r. auto.
    + left. assert (C' : text = (p ++ [c]) ++ r) by (rewrite <- app_assoc; exact C). do 2 eexists. split; [reflexivity|]. split.
      * split; [|rewrite <- E; apply (wr_src o w0 w out); exact H2]. cbn. split; [reflexivity|exact C'].
      * now exists r.
Qed.
Lemma rd_prefix w p out : fr w p out -> prefix p text.
Proof. intros (H & _). unfold rd in H. destruct i; [destruct H as (_ & _ & (r & H)); now exists r|destruct H as (_ & H); now exists (stdin w)]. Qed.
(** the two ways of opening *)
Lemma fr_create_open : fr (open_in (create_out w0 o) i) [] [].
Proof.
  assert (H : wr o w0 (create_out w0 o) []) by (apply wr_create; auto; split; auto).
  split; [|destruct i; cbn; apply (wr_src o w0 (create_out w0 o)); exact H]. unfold rd. destruct i as [f|]; cbn in *.
  - split; [reflexivity|]. split; [|now exists text]. destruct o as [g|]; cbn; [|exact Hin]. specialize (Hio f eq_refl).
    rewrite put_ne by congruence. exact Hin.
  - split; [reflexivity|]. destruct o; cbn; congruence.
Qed.
Lemma fr_open_create : fr (create_out (open_in w0 i) o) [] [].
Proof.
  assert (H : wr o w0 (create_out (open_in w0 i) o) []) by (apply wr_create; auto; split; cbn; auto).
  split; [|exact H]. unfold rd. destruct i as [f|]; cbn in *.
  - destruct o as [g|]; cbn; (split; [reflexivity|]); (split; [|now exists text]); [|exact Hin]. specialize (Hio f eq_refl).
    rewrite put_ne by congruence. exact Hin.
  - destruct o; cbn; (split; [reflexivity|]); congruence.
Qed.

Variable Good : str -> Prop.
Hypothesis Good_nil : Good [].
Notation I := (crash_ok o w0 Good).
Lemma I0 : I w0.
Proof. split; [split; auto|now left]. Qed.
Lemma I_open : I (open_in w0 i).
Proof. split; [split; cbn; auto|left; now destruct o]. Qed.
Lemma I_create : I (create_out w0 o).
Proof. apply (wr_crash o w0 Good _ []); [|exact Good_nil]. apply wr_create; auto. split; auto. Qed.
Lemma safe_read {A} Q (k : event -> io A) w p out : fr w p out -> Good out ->
  safe I Q (k IoErr) w -> (p = text -> safe I Q (k Eof) w) ->
  (forall c w', fr w' (p ++ [c]) out -> prefix (p ++ [c]) text -> safe I Q (k (Byte c)) w') ->
  safe I Q (ReadIn k) w.
Proof.
  intros H HG HE HF HB. cbn. split; [exact (wr_crash o w0 Good w out (proj2 H) HG)|]. split; [exact HE|].
  destruct (fr_next w p out H) as [(c & w' & -> & H' & Hp)|(-> & Hp)]; cbn; [now apply HB|now apply HF].
Qed.
Lemma safe_while {S} (Inv : str -> S -> str -> Prop) (body : nat -> S -> io S) :
  (forall p s out, Inv p s out -> Good out) ->
  (forall p s out c w, Inv p s out -> fr w (p ++ [c]) out -> prefix (p ++ [c]) text ->
     safe I (fun s' w' => exists out', fr w' (p ++ [c]) out' /\ Inv (p ++ [c]) s' out') (body c s) w) ->
  forall fuel s w p out, fr w p out -> Inv p s out ->
  safe I (fun s' w' => exists p' out', fr w' p' out' /\ Inv p' s' out') (while_read_io fuel body s) w.
Proof.
  intros HG HB. induction fuel as [|fuel IH]; intros s w p out H HI; [exact (wr_crash o w0 Good w out (proj2 H) (HG _ _ _ HI))|].
  cbn [while_read_io]. apply (safe_read _ _ w p out H (HG _ _ _ HI)).
  - split; [exact (wr_crash o w0 Good w out (proj2 H) (HG _ _ _ HI))|eauto].
  - intros _. split; [exact (wr_crash o w0 Good w out (proj2 H) (HG _ _ _ HI))|eauto].
  - intros c w' H' Hp. apply safe_seq. eapply safe_imp; [|apply (HB p s out c w' HI H' Hp)].
    intros s' w2 (out' & H2 & I2). exact (IH s' w2 _ _ H2 I2).
Qed.

Lemma run_while {S} (body : nat -> S -> io S) (pstep : nat -> S * str -> res (S * str)) :
  (forall c s w p out, fr w p out -> match pstep c (s, out) with
     | Ok (s', out') => exists w', run (body c s) w = (w', Ok s') /\ fr w' p out'
     | Panic => exists w', run (body c s) w = (w', Panic)
     | OutOfFuel => exists w', run (body c s) w = (w', OutOfFuel) end) ->
  forall fuel r s w p out, fr w p out -> text = p ++ r -> length r < fuel ->
  match for_in r pstep (s, out) with
  | Ok (s', out') => exists w', run (while_read_io fuel body s) w = (w', Ok s') /\ fr w' text out'
  | Panic => exists w', run (while_read_io fuel body s) w = (w', Panic)
  | OutOfFuel => exists w', run (while_read_io fuel body s) w = (w', OutOfFuel) end.
Proof.
  intros HB. induction fuel as [|fuel IH]; intros r s w p out H E L; [lia|]. cbn [while_read_io run].
  destruct (fr_next w p out H) as [(c & w' & En & H' & (r' & Hp))|(En & Hp)]; rewrite En; cbn [fst snd].
  - assert (Er : r = c :: r') by (rewrite E, <- app_assoc in Hp; now apply app_inv_head in Hp). rewrite Er. cbn [for_in].
    specialize (HB c s w' _ out H'). rewrite run_seq. destruct (pstep c (s, out)) as [(s', out')| |]; cbn [bind].
    + destruct HB as (w2 & -> & H2). apply (IH r' s' w2 (p ++ [c]) out' H2 Hp). rewrite Er in L. cbn in L. lia.
    + destruct HB as (w2 & ->). eauto.
    + destruct HB as (w2 & ->). eauto.
  - assert (Er : r = []) by (rewrite Hp in E; rewrite <- (app_nil_r text) in E at 1; now apply app_inv_head in E).
    rewrite Er. cbn. exists w. rewrite <- Hp at 2. auto.
Qed.
End Stream.
