(** FsProof2.v : the streaming programs mtf, rle and escape. *)
From Verif Require Import Base SpecStr SpecWord ModelIo SpecIo ModelTools RunFacts ModelCore ModelMain ModelLz SpecFs ModelFs FsProof.

(** what the pure programs write for the input q *)
Definition mtf_out (q : str) : res str := mtf (S (length q)) (reader_of q).
Definition rle_out (human onlyzero : bool) (q : str) : res str :=
  if human then rle_text (S (length q)) (reader_of q)
  else if onlyzero then rle_zero (S (length q)) (reader_of q) else rle (S (length q)) (reader_of q).
Definition escape_out (prefixlength esc : nat) (from to : str) (is_reversion : bool) (q : str) : res str :=
  escape_main prefixlength esc from to is_reversion (reader_of q).
Lemma prefix_refl (p : str) : prefix p p.
Proof. exists []. now rewrite app_nil_r. Qed.
Lemma prefix_app_l (a b c : str) : prefix (a ++ b) c -> prefix a c.
Proof. intros (r & ->). exists (b ++ r). now rewrite app_assoc. Qed.
Lemma prefix_nil (p : str) : prefix [] p.
Proof. now exists p. Qed.
Lemma prefix_chunk (out b1 b2 code : str) : prefix (out ++ b1 ++ b2) code -> prefix (out ++ b1) code.
Proof. intros (r & ->). exists (b2 ++ r). now rewrite !app_assoc. Qed.

Lemma mtf_out_for q : mtf_out q = '(_, out) <- for_in q mtf_step (seq 0 255, []) ;; Ok out.
Proof. unfold mtf_out, mtf. rewrite (delivers_all _ q) by (auto using reader_of_delivers). reflexivity. Qed.
Lemma rle_out_for q : rle_out false false q = match q with [] => Ok [] | c :: q' =>
  '(rc, pc, out) <- for_in q' rle_step (0, c, []) ;; Ok (out ++ [pc; rc]) end.
Proof.
  unfold rle_out, rle. pose proof (reader_of_delivers q) as HD. destruct q as [|c q].
  - pose proof (delivers_nil _ HD) as E. destruct (read_char (reader_of []) 0) as [o p]. simpl in E. now subst o.
  - unfold read_char at 1. rewrite (delivers_read0 _ _ _ HD). now rewrite (delivers_cons _ c q) by (auto; simpl; lia).
Qed.
Lemma rle_zero_out_for q : rle_out false true q = match q with [] => Ok [] | c :: q' =>
  '(rc, out) <- for_in q' rle_zero_step (if c =? CHR_ZERO then (1, []) else (0, [c])) ;;
  if 0 <? rc then Ok (out ++ [CHR_ZERO; rc]) else Ok out end.
Proof.
  unfold rle_out, rle_zero. pose proof (reader_of_delivers q) as HD. destruct q as [|c q].
  - pose proof (delivers_nil _ HD) as E. destruct (read_char (reader_of []) 0) as [o p]. simpl in E. now subst o.
  - unfold read_char at 1. rewrite (delivers_read0 _ _ _ HD). now rewrite (delivers_cons _ c q) by (auto; simpl; lia).
Qed.
Lemma rle_text_out_for b q : rle_out true b q = match q with [] => Ok [] | c :: q' =>
  '(rc, pc, out) <- for_in q' rle_text_step (0, c, []) ;; r1 <- inc_u8 rc ;; Ok (out ++ fmt_run pc r1) end.
Proof.
  unfold rle_out, rle_text. pose proof (reader_of_delivers q) as HD. destruct q as [|c q].
  - pose proof (delivers_nil _ HD) as E. destruct (read_char (reader_of []) 0) as [o p]. simpl in E. now subst o.
  - unfold read_char at 1. rewrite (delivers_read0 _ _ _ HD). now rewrite (delivers_cons _ c q) by (auto; simpl; lia).
Qed.
Lemma for_in_snoc {S I} (l : list I) x (body : I -> S -> res S) s s' : for_in l body s = Ok s' ->
  for_in (l ++ [x]) body s = body x s'.
Proof. intros E. rewrite for_in_app, E. cbn [bind for_in]. destruct (body x s'); reflexivity. Qed.

Section Stream.
Variables (i o : option name) (w0 : world) (text : str).
Hypothesis Hout : stdout w0 = [].
Hypothesis Hin : contents w0 i = Some text.
Hypothesis Hio : forall f, i = Some f -> o <> Some f.
Notation fr := (frame i o w0 text).
Notation crash F := (crash_ok o w0 (partial_output F text)).
Definition done (F : str -> res str) (w' : world) : Prop := exists q code, prefix q text /\ F q = Ok code /\ wr o w0 w' code.
Definition ends (F : str -> res str) (p : io unit) (w : world) : Prop :=
  match F text with
  | Ok code => exists w', run p w = (w', Ok tt) /\ wr o w0 w' code
  | Panic => exists w', run p w = (w', Panic)
  | OutOfFuel => exists w', run p w = (w', OutOfFuel) end.

Lemma mtf_safe fuel w : fr w [] [] -> safe (crash mtf_out) (fun _ => done mtf_out) (mtf_stream fuel) w.
Proof.
  intros H. unfold mtf_stream. apply safe_seq.
  eapply safe_imp; [|apply (safe_while i o w0 text Hin Hio (partial_output mtf_out text) (fun p v out => prefix p text /\ for_in p mtf_step (seq 0 255, []) = Ok (v, out)) mtf_body)
    with (p := []) (out := [])]; auto using prefix_nil.
  - intros v w' (p & out & F & (P & E)). cbn [safe]. assert (Q : mtf_out p = Ok out) by (rewrite mtf_out_for, E; reflexivity). split.
    + apply (wr_crash _ _ _ w' out (proj2 F)). exists p, out. auto using prefix_refl.
    + exists p, out. repeat split; auto; apply F.
  - intros p v out (P & E). exists p, out. rewrite mtf_out_for, E. auto using prefix_refl.
  - intros p v out c w' (P & E) F Pc. assert (C : crash mtf_out w').
    { apply (wr_crash _ _ _ w' out (proj2 F)). exists p, out. rewrite mtf_out_for, E. auto using prefix_refl. }
    unfold mtf_body. apply safe_lift; [exact C|]. intros pos E1. apply safe_lift; [exact C|]. intros v1 E2.
    apply safe_lift; [exact C|]. intros v2 E3. cbn [write_ seq_io].
    assert (Es : for_in (p ++ [c]) mtf_step (seq 0 255, []) = Ok (v2, out ++ [pos mod 256])).
    { rewrite (for_in_snoc _ _ _ _ _ E). unfold mtf_step. rewrite E1. cbn [bind]. rewrite E2. cbn [bind]. now rewrite E3. }
    assert (G : forall b1 b2, [pos mod 256] = b1 ++ b2 -> partial_output mtf_out text (out ++ b1)).
    { intros b1 b2 Eb. exists (p ++ [c]), (out ++ [pos mod 256]). split; [exact Pc|]. rewrite mtf_out_for, Es. split; [reflexivity|].
      apply prefix_chunk with (b2 := b2). rewrite <- Eb. apply prefix_refl. }
    apply (safe_write o w0 _ _ _ w' out); [exact (proj2 F)|exact G|].
    pose proof (fr_emits i o w0 text Hin Hio _ _ _ [pos mod 256] F) as F'. cbn [safe]. split.
    + apply (wr_crash _ _ _ _ _ (proj2 F')). apply (G _ []). now rewrite app_nil_r.
    + eauto.
Qed.
Lemma mtf_run fuel w : fr w [] [] -> length text < fuel -> ends mtf_out (mtf_stream fuel) w.
Proof.
  intros H L. unfold ends. rewrite mtf_out_for. unfold mtf_stream. rewrite run_seq.
  assert (R := run_while i o w0 text Hin Hio mtf_body mtf_step).
  assert (B : forall c v w p out, fr w p out -> match mtf_step c (v, out) with
     | Ok (s', out') => exists w', run (mtf_body c v) w = (w', Ok s') /\ fr w' p out'
     | Panic => exists w', run (mtf_body c v) w = (w', Panic)
     | OutOfFuel => exists w', run (mtf_body c v) w = (w', OutOfFuel) end).
  { intros c v w1 p out F. unfold mtf_step, mtf_body. rewrite run_seq, run_lift. destruct (position_ c v) as [pos| |]; cbn [bind]; eauto.
    rewrite run_seq, run_lift. destruct (for_in _ _ v) as [v1| |]; cbn [bind]; eauto.
    rewrite run_seq, run_lift. destruct (set v1 0 c) as [v2| |]; cbn [bind]; eauto.
    cbn [write_ seq_io run]. eexists. split; [reflexivity|]. now apply (fr_emits i o w0 text Hin Hio _ _ _ [pos mod 256]). }
  specialize (R B fuel text (seq 0 255) w [] [] H eq_refl L).
  destruct (for_in text mtf_step (seq 0 255, [])) as [(v, out)| |]; cbn [bind].
  - destruct R as (w' & -> & F). exists w'. split; [reflexivity|apply F].
  - destruct R as (w' & ->). eauto.
  - destruct R as (w' & ->). eauto.
Qed.

Lemma partial_nil (F : str -> res str) : F [] = Ok [] -> partial_output F text [].
Proof. intros E. exists [], []. auto using prefix_nil. Qed.
(** writing a chunk and going on *)
Lemma safe_chunk {A} (F : str -> res str) Q (k : io A) w p out b : fr w p out ->
  (exists q code, prefix q text /\ F q = Ok code /\ prefix (out ++ b) code) ->
  (forall w', fr w' p (out ++ b) -> partial_output F text (out ++ b) -> safe (crash F) Q k w') ->
  safe (crash F) Q (WriteOut b k) w.
Proof.
  intros H (q & code & P & E & C) HK. apply (safe_write o w0 _ _ _ w out); [exact (proj2 H)| |].
  - intros b1 b2 Eb. exists q, code. split; [exact P|]. split; [exact E|]. apply prefix_chunk with (b2 := b2). now rewrite <- Eb.
  - apply HK; [now apply (fr_emits i o w0 text Hin Hio)|]. now exists q, code.
Qed.
(** reading the first byte *)
Lemma safe_first (F : str -> res str) (Q : unit -> world -> Prop) (k : nat -> io unit) w : fr w [] [] -> F [] = Ok [] ->
  (forall w', wr o w0 w' [] -> done F w' -> Q tt w') ->
  (forall c w', fr w' [c] [] -> prefix [c] text -> safe (crash F) Q (k c) w') ->
  safe (crash F) Q (ReadIn (fun e => match e with Byte c => k c | _ => Ret tt end)) w.
Proof.
  intros H E HQ HK. assert (G : partial_output F text []) by now apply partial_nil.
  assert (D : done F w) by (exists [], []; repeat split; auto using prefix_nil; apply H).
  apply (safe_read i o w0 text Hin Hio _ _ _ w [] [] H G); cbn [safe].
  - split; [exact (wr_crash _ _ _ w [] (proj2 H) G)|]. apply HQ; [apply H|exact D].
  - intros _. split; [exact (wr_crash _ _ _ w [] (proj2 H) G)|]. apply HQ; [apply H|exact D].
  - exact HK.
Qed.
Lemma run_first (k : nat -> io unit) w : fr w [] [] ->
  match text with
  | [] => run (ReadIn (fun e => match e with Byte c => k c | _ => Ret tt end)) w = (w, Ok tt)
  | c :: r => exists w', run (ReadIn (fun e => match e with Byte c => k c | _ => Ret tt end)) w = run (k c) w' /\ fr w' [c] []
  end.
Proof.
  intros H. cbn [run]. destruct (fr_next i o w0 text Hin Hio w [] [] H) as [(c & w' & E & H' & (r & P))|(E & P)]; rewrite E; cbn [fst snd].
  - cbn in P. destruct text as [|c' r'] eqn:Et; [discriminate|]. injection P as -> ->. exists w'. split; [reflexivity|exact H'].
  - rewrite <- P. reflexivity.
Qed.

Lemma rle_safe fuel w : fr w [] [] -> safe (crash (rle_out false false)) (fun _ => done (rle_out false false)) (rle_stream fuel) w.
Proof.
  intros H. set (F := rle_out false false). apply (safe_first F); [exact H|apply rle_out_for|auto|]. intros c w1 F1 P1.
  assert (RO : forall q rc pc out, for_in q rle_step (0, c, []) = Ok (rc, pc, out) -> F (c :: q) = Ok (out ++ [pc; rc])).
  { intros q rc pc out E. unfold F. rewrite rle_out_for, E. reflexivity. }
  apply safe_seq.
  eapply safe_imp; [|apply (safe_while i o w0 text Hin Hio (partial_output F text)
     (fun p s out => exists q, p = c :: q /\ prefix p text /\ for_in q rle_step (0, c, []) = Ok (s, out) /\ partial_output F text out) rle_body)
    with (p := [c]) (out := [])]; auto.
  - intros (rc, pc) w' (p & out & F' & (q & -> & P & E & G)). apply (safe_chunk F _ _ w' (c :: q) out); [exact F'| |].
    + exists (c :: q), (out ++ [pc; rc]). auto using prefix_refl.
    + intros w2 F2 G2. cbn [safe]. split; [exact (wr_crash _ _ _ _ _ (proj2 F2) G2)|].
      exists (c :: q), (out ++ [pc; rc]). repeat split; auto; apply F2.
  - intros p s out (q & _ & _ & _ & G). exact G.
  - intros p (rc, pc) out d w' (q & -> & P & E & G) F' Pc.
    assert (C : crash F w') by exact (wr_crash _ _ _ _ _ (proj2 F') G).
    assert (Es := for_in_snoc _ d _ _ _ E). unfold rle_step in Es at 2.
    unfold rle_body. destruct (negb (d =? pc)) eqn:Ed.
    + apply safe_lift; [exact C|]. intros [] Ea. rewrite Ea in Es. cbn [bind] in Es. cbn [write_ seq_io].
      apply (safe_chunk F _ _ w' ((c :: q) ++ [d]) out); [exact F'|exists (c :: q), (out ++ [pc; rc]); auto using prefix_refl|].
      intros w2 F2 G2. cbn [safe]. split; [exact (wr_crash _ _ _ _ _ (proj2 F2) G2)|]. exists (out ++ [pc; rc]). split; [exact F2|].
      exists (q ++ [d]). auto.
    + apply safe_lift; [exact C|]. intros rc' Er. rewrite Er in Es. cbn [bind] in Es. cbn [safe]. split; [exact C|].
      exists out. split; [exact F'|]. exists (q ++ [d]). auto.
  - exists []. repeat split; auto. apply partial_nil. apply rle_out_for.
Qed.
Lemma rle_run fuel w : fr w [] [] -> length text <= fuel -> ends (rle_out false false) (rle_stream fuel) w.
Proof.
  intros H L. unfold ends. rewrite rle_out_for. unfold rle_stream.
  pose proof (run_first (fun c => st <~ while_read_io fuel rle_body (0, c) ; let '(run_counter, prev_char) := st in write_ [prev_char; run_counter]) w H) as R1.
  destruct text as [|c r] eqn:Et; [exists w; split; [exact R1|apply H]|]. rewrite <- Et in *. destruct R1 as (w1 & -> & F1).
  assert (R := run_while i o w0 text Hin Hio rle_body rle_step).
  assert (B : forall c v w p out, fr w p out -> match rle_step c (v, out) with
     | Ok (s', out') => exists w', run (rle_body c v) w = (w', Ok s') /\ fr w' p out'
     | Panic => exists w', run (rle_body c v) w = (w', Panic)
     | OutOfFuel => exists w', run (rle_body c v) w = (w', OutOfFuel) end).
  { intros d (rc, pc) w2 p out F. unfold rle_step, rle_body. destruct (negb (d =? pc)).
    - rewrite run_seq, run_lift. destruct (assert_ (rc <? 255)) as [[]| |]; cbn [bind]; eauto.
      cbn [write_ seq_io run]. eexists. split; [reflexivity|]. now apply (fr_emits i o w0 text Hin Hio _ _ _ [pc; rc]).
    - rewrite run_seq, run_lift. destruct (inc_u8 rc) as [rc'| |]; cbn [bind run]; eauto. }
  specialize (R B fuel r (0, c) w1 [c] [] F1 Et ltac:(rewrite Et in L; cbn in L; lia)). rewrite run_seq.
  destruct (for_in r rle_step (0, c, [])) as [((rc, pc), out)| |]; cbn [bind].
  - destruct R as (w' & -> & F). cbn [write_ run]. eexists. split; [reflexivity|]. apply (wr_emits o w0 w' out [pc; rc]), F.
  - destruct R as (w' & ->). eauto.
  - destruct R as (w' & ->). eauto.
Qed.

Lemma rle_text_safe b fuel w : fr w [] [] -> safe (crash (rle_out true b)) (fun _ => done (rle_out true b)) (rle_text_stream fuel) w.
Proof.
  intros H. set (F := rle_out true b). apply (safe_first F); [exact H|apply rle_text_out_for|auto|]. intros c w1 F1 P1.
  assert (RO : forall q rc pc r1 out, for_in q rle_text_step (0, c, []) = Ok (rc, pc, out) -> inc_u8 rc = Ok r1 ->
     F (c :: q) = Ok (out ++ fmt_run pc r1)).
  { intros q rc pc r1 out E E1. unfold F. rewrite rle_text_out_for, E. cbn [bind]. rewrite E1. reflexivity. }
  apply safe_seq.
  eapply safe_imp; [|apply (safe_while i o w0 text Hin Hio (partial_output F text)
     (fun p s out => exists q, p = c :: q /\ prefix p text /\ for_in q rle_text_step (0, c, []) = Ok (s, out) /\ partial_output F text out) rle_text_body)
    with (p := [c]) (out := [])]; auto.
  - intros (rc, pc) w' (p & out & F' & (q & -> & P & E & G)).
    apply safe_lift; [exact (wr_crash _ _ _ _ _ (proj2 F') G)|]. intros r1 E1.
    apply (safe_chunk F _ _ w' (c :: q) out); [exact F'| |].
    + exists (c :: q), (out ++ fmt_run pc r1). split; [exact P|]. split; [now apply (RO q rc)|apply prefix_refl].
    + intros w2 F2 G2. cbn [safe]. split; [exact (wr_crash _ _ _ _ _ (proj2 F2) G2)|].
      exists (c :: q), (out ++ fmt_run pc r1). split; [exact P|]. split; [now apply (RO q rc)|apply F2].
  - intros p s out (q & _ & _ & _ & G). exact G.
  - intros p (rc, pc) out d w' (q & -> & P & E & G) F' Pc.
    assert (C : crash F w') by exact (wr_crash _ _ _ _ _ (proj2 F') G).
    assert (Es := for_in_snoc _ d _ _ _ E). unfold rle_text_step in Es at 2.
    unfold rle_text_body. destruct (negb (d =? pc)) eqn:Ed.
    + apply safe_lift; [exact C|]. intros r1 Ea. rewrite Ea in Es. cbn [bind] in Es. cbn [write_ seq_io].
      apply (safe_chunk F _ _ w' ((c :: q) ++ [d]) out); [exact F'| |].
      * exists (c :: q), (out ++ fmt_run pc r1). split; [exact P|]. split; [now apply (RO q rc)|apply prefix_refl].
      * intros w2 F2 G2. cbn [safe]. split; [exact (wr_crash _ _ _ _ _ (proj2 F2) G2)|]. exists (out ++ fmt_run pc r1). split; [exact F2|].
        exists (q ++ [d]). auto.
    + apply safe_lift; [exact C|]. intros rc' Er. rewrite Er in Es. cbn [bind] in Es. cbn [safe]. split; [exact C|].
      exists out. split; [exact F'|]. exists (q ++ [d]). auto.
  - exists []. repeat split; auto. apply partial_nil. apply rle_text_out_for.
Qed.
Lemma rle_text_run b fuel w : fr w [] [] -> length text <= fuel -> ends (rle_out true b) (rle_text_stream fuel) w.
Proof.
  intros H L. unfold ends. rewrite rle_text_out_for. unfold rle_text_stream.
  pose proof (run_first (fun c => st <~ while_read_io fuel rle_text_body (0, c) ; let '(run_counter, prev_char) := st in
     r1 <~ lift (inc_u8 run_counter) ; write_ (fmt_run prev_char r1)) w H) as R1.
  destruct text as [|c r] eqn:Et; [exists w; split; [exact R1|apply H]|]. rewrite <- Et in *. destruct R1 as (w1 & -> & F1).
  assert (R := run_while i o w0 text Hin Hio rle_text_body rle_text_step).
  assert (B : forall c v w p out, fr w p out -> match rle_text_step c (v, out) with
     | Ok (s', out') => exists w', run (rle_text_body c v) w = (w', Ok s') /\ fr w' p out'
     | Panic => exists w', run (rle_text_body c v) w = (w', Panic)
     | OutOfFuel => exists w', run (rle_text_body c v) w = (w', OutOfFuel) end).
  { intros d (rc, pc) w2 p out F. unfold rle_text_step, rle_text_body. destruct (negb (d =? pc)).
    - rewrite run_seq, run_lift. destruct (inc_u8 rc) as [r1| |]; cbn [bind]; eauto.
      cbn [write_ seq_io run]. eexists. split; [reflexivity|]. now apply (fr_emits i o w0 text Hin Hio _ _ _ (fmt_run pc r1)).
    - rewrite run_seq, run_lift. destruct (inc_u8 rc) as [rc'| |]; cbn [bind run]; eauto. }
  specialize (R B fuel r (0, c) w1 [c] [] F1 Et ltac:(rewrite Et in L; cbn in L; lia)). rewrite run_seq.
  destruct (for_in r rle_text_step (0, c, [])) as [((rc, pc), out)| |]; cbn [bind].
  - destruct R as (w' & -> & F). rewrite run_seq, run_lift. destruct (inc_u8 rc) as [r1| |]; cbn [bind write_ run]; eauto.
    eexists. split; [reflexivity|]. apply (wr_emits o w0 w' out (fmt_run pc r1)), F.
  - destruct R as (w' & ->). eauto.
  - destruct R as (w' & ->). eauto.
Qed.

Lemma rle_zero_safe fuel w : fr w [] [] -> safe (crash (rle_out false true)) (fun _ => done (rle_out false true)) (rle_zero_stream fuel) w.
Proof.
  intros H. set (F := rle_out false true). apply (safe_first F); [exact H|apply rle_zero_out_for|auto|]. intros c w1 F1 P1.
  set (st0 := if c =? CHR_ZERO then (1, []) else (0, [c])).
  assert (RO : forall q rc out, for_in q rle_zero_step st0 = Ok (rc, out) -> F (c :: q) = Ok (out ++ if 0 <? rc then [CHR_ZERO; rc] else [])).
  { intros q rc out E. unfold F. rewrite rle_zero_out_for. fold st0. rewrite E. cbn [bind]. destruct (0 <? rc); [|rewrite app_nil_r]; reflexivity. }
  apply safe_seq.
  assert (G1 : partial_output F text (snd st0)).
  { exists [c]. eexists. split; [exact P1|]. split; [apply (RO [] (fst st0) (snd st0)); cbn; now rewrite <- surjective_pairing|]. eexists. reflexivity. }
  assert (MAIN : forall w2, fr w2 [c] (snd st0) -> safe (crash F) (fun _ => done F)
     (run_counter <~ while_read_io fuel rle_zero_body (fst st0) ; if 0 <? run_counter then write_ [CHR_ZERO; run_counter] else Ret tt) w2).
  { intros w2 F2. apply safe_seq.
    eapply safe_imp; [|apply (safe_while i o w0 text Hin Hio (partial_output F text)
       (fun p s out => exists q, p = c :: q /\ prefix p text /\ for_in q rle_zero_step st0 = Ok (s, out) /\ partial_output F text out) rle_zero_body)
      with (p := [c]) (out := snd st0)]; auto.
    - intros rc w' (p & out & F' & (q & -> & P & E & G)). specialize (RO q rc out E). destruct (0 <? rc).
      + apply (safe_chunk F _ _ w' (c :: q) out); [exact F'| |].
        * exists (c :: q), (out ++ [CHR_ZERO; rc]). auto using prefix_refl.
        * intros w3 F3 G3. cbn [safe]. split; [exact (wr_crash _ _ _ _ _ (proj2 F3) G3)|].
          exists (c :: q), (out ++ [CHR_ZERO; rc]). repeat split; auto; apply F3.
      + cbn [safe]. split; [exact (wr_crash _ _ _ _ _ (proj2 F') G)|]. rewrite app_nil_r in RO. exists (c :: q), out. repeat split; auto; apply F'.
    - intros p s out (q & _ & _ & _ & G). exact G.
    - intros p rc out d w' (q & -> & P & E & G) F' Pc.
      assert (C : crash F w') by exact (wr_crash _ _ _ _ _ (proj2 F') G).
      assert (Es := for_in_snoc _ d _ _ _ E). unfold rle_zero_step in Es at 2.
      unfold rle_zero_body. destruct (negb (d =? CHR_ZERO)) eqn:Ed.
      + destruct (rc =? 0) eqn:E0.
        * cbn [write_ seq_io]. apply (safe_chunk F _ _ w' ((c :: q) ++ [d]) out); [exact F'| |].
          { exists (c :: q ++ [d]). eexists. split; [exact Pc|]. split; [exact (RO _ _ _ Es)|]. eexists. reflexivity. }
          intros w3 F3 G3. cbn [safe]. split; [exact (wr_crash _ _ _ _ _ (proj2 F3) G3)|]. exists (out ++ [d]). split; [exact F3|].
          exists (q ++ [d]). auto.
        * apply safe_lift; [exact C|]. intros r1 E1. rewrite E1 in Es. cbn [bind] in Es.
          apply safe_lift; [exact C|]. intros [] E2. rewrite E2 in Es. cbn [bind] in Es. cbn [write_ seq_io].
          apply (safe_chunk F _ _ w' ((c :: q) ++ [d]) out); [exact F'| |].
          { exists (c :: q ++ [d]). eexists. split; [exact Pc|]. split; [exact (RO _ _ _ Es)|]. eexists. reflexivity. }
          intros w3 F3 G3. cbn [safe]. split; [exact (wr_crash _ _ _ _ _ (proj2 F3) G3)|]. exists (out ++ [CHR_ZERO; rc - 1]). split; [exact F3|].
          exists (q ++ [d]). auto.
      + destruct (inc_u8 rc) as [rc'| |]; cbn [bind lift safe] in Es |- *; auto. split; [exact C|].
        exists out. split; [exact F'|]. exists (q ++ [d]). auto.
    - exists []. split; [reflexivity|]. split; [exact P1|]. split; [|exact G1]. cbn. now rewrite <- surjective_pairing. }
  unfold st0 in *. destruct (c =? CHR_ZERO) eqn:Ec; cbn [fst snd] in *.
  - cbn [safe]. split; [exact (wr_crash _ _ _ _ _ (proj2 F1) G1)|]. now apply MAIN.
  - cbn [write_ seq_io]. apply (safe_chunk F _ _ w1 [c] []); [exact F1|exact G1|].
    intros w2 F2 G2. cbn [safe]. split; [exact (wr_crash _ _ _ _ _ (proj2 F2) G2)|]. now apply MAIN.
Qed.
Lemma rle_zero_run fuel w : fr w [] [] -> length text <= fuel -> ends (rle_out false true) (rle_zero_stream fuel) w.
Proof.
  intros H L. unfold ends. rewrite rle_zero_out_for. unfold rle_zero_stream.
  pose proof (run_first (fun c => run_counter <~ (if c =? CHR_ZERO then Ret 1 else _ <~ write_ [c] ; Ret 0) ;
     run_counter <~ while_read_io fuel rle_zero_body run_counter ;
     (if 0 <? run_counter then write_ [CHR_ZERO; run_counter] else Ret tt)) w H) as R1.
  destruct text as [|c r] eqn:Et; [exists w; split; [exact R1|apply H]|]. rewrite <- Et in *. destruct R1 as (w1 & -> & F1).
  assert (R := run_while i o w0 text Hin Hio rle_zero_body rle_zero_step).
  assert (B : forall c v w p out, fr w p out -> match rle_zero_step c (v, out) with
     | Ok (s', out') => exists w', run (rle_zero_body c v) w = (w', Ok s') /\ fr w' p out'
     | Panic => exists w', run (rle_zero_body c v) w = (w', Panic)
     | OutOfFuel => exists w', run (rle_zero_body c v) w = (w', OutOfFuel) end).
  { intros d rc w2 p out F. unfold rle_zero_step, rle_zero_body. destruct (negb (d =? CHR_ZERO)).
    - destruct (rc =? 0).
      + cbn [write_ seq_io run]. eexists. split; [reflexivity|]. now apply (fr_emits i o w0 text Hin Hio _ _ _ [d]).
      + rewrite run_seq, run_lift. destruct (sub_ rc 1) as [r1| |]; cbn [bind]; eauto.
        rewrite run_seq, run_lift. destruct (assert_ (r1 <? 255)) as [[]| |]; cbn [bind]; eauto.
        cbn [write_ seq_io run]. eexists. split; [reflexivity|]. now apply (fr_emits i o w0 text Hin Hio _ _ _ [CHR_ZERO; rc - 1]).
    - rewrite run_lift. destruct (inc_u8 rc) as [rc'| |]; cbn [bind run]; eauto. }
  set (st0 := if c =? CHR_ZERO then (1, []) else (0, [c])).
  assert (R2 : exists w2, run (if c =? CHR_ZERO then Ret 1 else _ <~ write_ [c] ; Ret 0) w1 = (w2, Ok (fst st0)) /\ fr w2 [c] (snd st0)).
  { unfold st0. destruct (c =? CHR_ZERO); cbn [write_ seq_io run fst snd]; eexists; (split; [reflexivity|]); [exact F1|].
    exact (fr_emits i o w0 text Hin Hio w1 [c] [] [c] F1). }
  destruct R2 as (w2 & E2 & F2). rewrite run_seq, E2.
  specialize (R B fuel r (fst st0) w2 [c] (snd st0) F2 Et ltac:(rewrite Et in L; cbn in L; lia)). rewrite run_seq.
  rewrite <- surjective_pairing in R.
  destruct (for_in r rle_zero_step st0) as [(rc, out)| |]; cbn [bind].
  - destruct R as (w' & -> & F). destruct (0 <? rc).
    + cbn [write_ seq_io run]. eexists. split; [reflexivity|]. apply (wr_emits o w0 w' out [CHR_ZERO; rc]), F.
    + cbn [run]. eexists. split; [reflexivity|]. apply F.
  - destruct R as (w' & ->). eauto.
  - destruct R as (w' & ->). eauto.
Qed.

(** escape: the loops on the list of bytes still to be read *)
Section Escape.
Variables (esc : nat) (m : list (nat * nat)).
Fixpoint fwd_l (n : nat) (q out : str) : res str :=
  match n, q with
  | S n, c :: q => if c =? esc then fwd_l n q (out ++ [esc; esc])
                   else fwd_l n q (out ++ match hm_get m c with Some r => [esc; r] | None => [c] end)
  | _, _ => Ok out
  end.
Fixpoint rev_l (n : nat) (q out : str) : res str :=
  match n, q with
  | S n, c :: q =>
      if c =? esc then match q with
        | [] => Panic
        | d :: q => if d =? esc then rev_l n q (out ++ [esc])
                    else match hm_get m d with Some r => rev_l n q (out ++ [r]) | None => Panic end
        end
      else rev_l n q (out ++ [c])
  | _, _ => Ok out
  end.
Lemma reader_at p q : read_char (reader_of (p ++ q)) (length p) = (match q with [] => None | c :: _ => Some c end, S (length p)).
Proof.
  unfold read_char, reader_of. rewrite nth_error_app2, Nat.sub_diag by lia. destruct q; reflexivity.
Qed.
Lemma snoc_app (p : str) c q : p ++ c :: q = (p ++ [c]) ++ q.
Proof. now rewrite <- app_assoc. Qed.
Lemma snoc_len (p : str) c : S (length p) = length (p ++ [c]).
Proof. rewrite app_length. cbn. lia. Qed.
Lemma escape_fwd_l n : forall p q out, escape_fwd n (reader_of (p ++ q)) (length p) esc m out = fwd_l n q out.
Proof.
  induction n as [|n IH]; intros p q out; [destruct q; reflexivity|]. cbn [escape_fwd fwd_l]. rewrite reader_at. destruct q as [|c q]; [reflexivity|].
  rewrite (snoc_app p c q), (snoc_len p c). destruct (c =? esc); [apply IH|]. destruct (hm_get m c); apply IH.
Qed.
Lemma escape_rev_l n : forall p q out, escape_rev n (reader_of (p ++ q)) (length p) esc m out = rev_l n q out.
Proof.
  induction n as [|n IH]; intros p q out; [destruct q; reflexivity|]. cbn [escape_rev rev_l]. rewrite reader_at. destruct q as [|c q]; [reflexivity|].
  rewrite (snoc_app p c q), (snoc_len p c). destruct (c =? esc); [|apply IH]. rewrite reader_at. destruct q as [|d q]; [reflexivity|].
  rewrite (snoc_app (p ++ [c]) d q), (snoc_len (p ++ [c]) d). destruct (d =? esc); [apply IH|]. destruct (hm_get m d); [apply IH|reflexivity].
Qed.
Lemma fwd_l_nil n out : fwd_l n [] out = Ok out.
Proof. destruct n; reflexivity. Qed.
Lemma rev_l_nil n out : rev_l n [] out = Ok out.
Proof. destruct n; reflexivity. Qed.

Lemma fwd_safe (F : str -> res str) N : (forall q, F q = fwd_l N q []) ->
  forall n w p out, fr w p out -> (forall q, fwd_l N (p ++ q) [] = fwd_l n q out) ->
  safe (crash F) (fun _ => done F) (escape_fwd_io n esc m) w.
Proof.
  intros HF. induction n as [|n IH]; intros w p out H E.
  all: assert (Fp : F p = Ok out) by (rewrite HF, <- (app_nil_r p), E; apply fwd_l_nil).
  all: pose proof (rd_prefix i o w0 text Hin Hio w p out H) as P.
  all: assert (G : partial_output F text out) by (exists p, out; auto using prefix_refl).
  all: assert (D : done F w) by (exists p, out; repeat split; auto; apply H).
  all: assert (C : crash F w) by exact (wr_crash _ _ _ _ _ (proj2 H) G).
  - cbn [escape_fwd_io safe]. auto.
  - cbn [escape_fwd_io]. apply (safe_read i o w0 text Hin Hio _ _ _ w p out H G); cbn [safe]; auto.
    intros c w' H' P'. assert (E' : forall q, fwd_l N ((p ++ [c]) ++ q) [] = fwd_l (S n) (c :: q) out) by (intros q; rewrite <- app_assoc; apply E).
    cbn [fwd_l] in E'. destruct (c =? esc); cbn [write_ seq_io].
    + apply (safe_chunk F _ _ w' (p ++ [c]) out); [exact H'| |].
      * exists (p ++ [c]), (out ++ [esc; esc]). split; [exact P'|]. split; [|apply prefix_refl]. rewrite HF, <- (app_nil_r (p ++ [c])), E'. apply fwd_l_nil.
      * intros w2 F2 _. exact (IH w2 _ _ F2 E').
    + set (b := match hm_get m c with Some r => [esc; r] | None => [c] end) in *. apply (safe_chunk F _ _ w' (p ++ [c]) out); [exact H'| |].
      * exists (p ++ [c]), (out ++ b). split; [exact P'|]. split; [|apply prefix_refl]. rewrite HF, <- (app_nil_r (p ++ [c])), E'. apply fwd_l_nil.
      * intros w2 F2 _. exact (IH w2 _ _ F2 E').
Qed.
Lemma rev_safe (F : str -> res str) N : (forall q, F q = rev_l N q []) ->
  forall n w p out, fr w p out -> (forall q, rev_l N (p ++ q) [] = rev_l n q out) ->
  safe (crash F) (fun _ => done F) (escape_rev_io n esc m) w.
Proof.
  intros HF. induction n as [|n IH]; intros w p out H E.
  all: assert (Fp : F p = Ok out) by (rewrite HF, <- (app_nil_r p), E; apply rev_l_nil).
  all: pose proof (rd_prefix i o w0 text Hin Hio w p out H) as P.
  all: assert (G : partial_output F text out) by (exists p, out; auto using prefix_refl).
  all: assert (D : done F w) by (exists p, out; repeat split; auto; apply H).
  all: assert (C : crash F w) by exact (wr_crash _ _ _ _ _ (proj2 H) G).
  - cbn [escape_rev_io safe]. auto.
  - cbn [escape_rev_io]. apply (safe_read i o w0 text Hin Hio _ _ _ w p out H G); cbn [safe]; auto.
    intros c w' H' P'. assert (E' : forall q, rev_l N ((p ++ [c]) ++ q) [] = rev_l (S n) (c :: q) out) by (intros q; rewrite <- app_assoc; apply E).
    cbn [rev_l] in E'.
    assert (STEP : forall w p out b, fr w p out -> prefix p text -> (forall q, rev_l N (p ++ q) [] = rev_l n q (out ++ b)) ->
       safe (crash F) (fun _ => done F) (WriteOut b (escape_rev_io n esc m)) w).
    { intros w2 p2 out2 b F2 P2 E2. apply (safe_chunk F _ _ w2 p2 out2); [exact F2| |].
      - exists p2, (out2 ++ b). split; [exact P2|]. split; [|apply prefix_refl]. rewrite HF, <- (app_nil_r p2), E2. apply rev_l_nil.
      - intros w3 F3 _. exact (IH w3 _ _ F3 E2). }
    assert (C' : crash F w') by exact (wr_crash _ _ _ _ _ (proj2 H') G).
    destruct (c =? esc); cbn [write_ seq_io].
    + apply (safe_read i o w0 text Hin Hio _ _ _ w' (p ++ [c]) out H' G); cbn [safe]; auto.
      intros d w2 H2 P2.
      assert (E2 : forall q, rev_l N (((p ++ [c]) ++ [d]) ++ q) [] =
        if d =? esc then rev_l n q (out ++ [esc]) else match hm_get m d with Some r => rev_l n q (out ++ [r]) | None => Panic end)
        by (intros q; rewrite <- app_assoc; apply (E' (d :: q))).
      destruct (d =? esc); cbn [write_ seq_io]; [now apply (STEP w2 ((p ++ [c]) ++ [d]) out)|].
      destruct (hm_get m d) as [r|]; cbn [write_ seq_io]; [now apply (STEP w2 ((p ++ [c]) ++ [d]) out)|].
      cbn [safe]. exact (wr_crash _ _ _ _ _ (proj2 H2) G).
    + now apply (STEP w' (p ++ [c]) out).
Qed.
Lemma fwd_run n : forall w p r out, fr w p out -> text = p ++ r ->
  match fwd_l n r out with
  | Ok code => exists w', run (escape_fwd_io n esc m) w = (w', Ok tt) /\ wr o w0 w' code
  | Panic => exists w', run (escape_fwd_io n esc m) w = (w', Panic)
  | OutOfFuel => exists w', run (escape_fwd_io n esc m) w = (w', OutOfFuel) end.
Proof.
  induction n as [|n IH]; intros w p r out H E; [destruct r; (exists w; split; [reflexivity|apply H])|].
  cbn [escape_fwd_io run].
  destruct (fr_next i o w0 text Hin Hio w p out H) as [(c & w' & En & H' & (r' & Hp))|(En & Hp)]; rewrite En; cbn [fst snd].
  - assert (Er : r = c :: r') by (rewrite E, <- app_assoc in Hp; now apply app_inv_head in Hp). rewrite Er. cbn [fwd_l].
    destruct (c =? esc); cbn [write_ seq_io run]; apply (IH _ (p ++ [c])); auto; match goal with |- context [fold_left emit ?b w'] => exact (fr_emits i o w0 text Hin Hio w' (p ++ [c]) out b H') end.
  - assert (Er : r = []) by (rewrite Hp in E; rewrite <- (app_nil_r text) in E at 1; now apply app_inv_head in E).
    rewrite Er. cbn. exists w. split; [reflexivity|apply H].
Qed.
Lemma rev_run n : forall w p r out, fr w p out -> text = p ++ r ->
  match rev_l n r out with
  | Ok code => exists w', run (escape_rev_io n esc m) w = (w', Ok tt) /\ wr o w0 w' code
  | Panic => exists w', run (escape_rev_io n esc m) w = (w', Panic)
  | OutOfFuel => exists w', run (escape_rev_io n esc m) w = (w', OutOfFuel) end.
Proof.
  induction n as [|n IH]; intros w p r out H E; [destruct r; (exists w; split; [reflexivity|apply H])|].
  cbn [escape_rev_io run].
  destruct (fr_next i o w0 text Hin Hio w p out H) as [(c & w' & En & H' & (r' & Hp))|(En & Hp)]; rewrite En; cbn [fst snd].
  - assert (Er : r = c :: r') by (rewrite E, <- app_assoc in Hp; now apply app_inv_head in Hp). rewrite Er. cbn [rev_l].
    destruct (c =? esc); cbn [write_ seq_io run]; [|apply (IH _ (p ++ [c])); auto; match goal with |- context [fold_left emit ?b w'] => exact (fr_emits i o w0 text Hin Hio w' (p ++ [c]) out b H') end].
    destruct (fr_next i o w0 text Hin Hio w' (p ++ [c]) out H') as [(d & w2 & En2 & H2 & (r2 & Hp2))|(En2 & Hp2)]; rewrite En2; cbn [fst snd].
    + assert (Er2 : r' = d :: r2) by (rewrite Hp, <- (app_assoc (p ++ [c])) in Hp2; now apply app_inv_head in Hp2). rewrite Er2.
      destruct (d =? esc); cbn [write_ seq_io run]; [apply (IH _ ((p ++ [c]) ++ [d])); auto; match goal with |- context [fold_left emit ?b w2] => exact (fr_emits i o w0 text Hin Hio w2 ((p ++ [c]) ++ [d]) out b H2) end|].
      destruct (hm_get m d); cbn [write_ seq_io run]; [apply (IH _ ((p ++ [c]) ++ [d])); auto; match goal with |- context [fold_left emit ?b w2] => exact (fr_emits i o w0 text Hin Hio w2 ((p ++ [c]) ++ [d]) out b H2) end|eauto].
    + assert (Er2 : r' = []) by (rewrite Hp2 in Hp; rewrite <- (app_nil_r text) in Hp at 1; now apply app_inv_head in Hp).
      rewrite Er2. cbn [run]. eauto.
  - assert (Er : r = []) by (rewrite Hp in E; rewrite <- (app_nil_r text) in E at 1; now apply app_inv_head in E).
    rewrite Er. cbn. exists w. split; [reflexivity|apply H].
Qed.
End Escape.
End Stream.
