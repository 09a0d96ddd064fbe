(** FsProofRle.v : rle in a release build on files (the proofs follow FsProof2.v). *)
From Verif Require Import Base SpecStr SpecWord ModelIo SpecIo ModelTools RunFacts ModelCore ModelMain ModelLz ModelRelease SpecFs ModelFs ModelFs3 FsProof FsProof2 FsProof3.

Definition rle_out_release (human onlyzero : bool) (q : str) : res str :=
  if human then rle_text_release (S (length q)) (reader_of q)
  else if onlyzero then rle_zero_release (S (length q)) (reader_of q) else rle_release (S (length q)) (reader_of q).
Lemma rle_out_for_release q : rle_out_release false false q = match q with [] => Ok [] | c :: q' =>
  '(rc, pc, out) <- for_in q' rle_step_release (0, c, []) ;; Ok (out ++ [pc; rc]) end.
Proof.
  unfold rle_out_release, rle_release. pose proof (reader_of_delivers q) as HD. destruct q as [|c q].
  - pose proof (delivers_nil _ HD) as E. destruct (read_char (reader_of []) 0) as [o p]. simpl in E. now subst o.
  - unfold read_char at 1. rewrite (delivers_read0 _ _ _ HD). now rewrite (delivers_cons _ c q) by (auto; simpl; lia).
Qed.
Lemma rle_zero_out_for_release q : rle_out_release false true q = match q with [] => Ok [] | c :: q' =>
  '(rc, out) <- for_in q' rle_zero_step_release (if c =? CHR_ZERO then (1, []) else (0, [c])) ;;
  if 0 <? rc then Ok (out ++ [CHR_ZERO; rc]) else Ok out end.
Proof.
  unfold rle_out_release, rle_zero_release. pose proof (reader_of_delivers q) as HD. destruct q as [|c q].
  - pose proof (delivers_nil _ HD) as E. destruct (read_char (reader_of []) 0) as [o p]. simpl in E. now subst o.
  - unfold read_char at 1. rewrite (delivers_read0 _ _ _ HD). now rewrite (delivers_cons _ c q) by (auto; simpl; lia).
Qed.
Lemma rle_text_out_for_release b q : rle_out_release true b q = match q with [] => Ok [] | c :: q' =>
  '(rc, pc, out) <- for_in q' rle_text_step_release (0, c, []) ;; Ok (out ++ fmt_run pc (inc_u8_release rc)) end.
Proof.
  unfold rle_out_release, rle_text_release. pose proof (reader_of_delivers q) as HD. destruct q as [|c q].
  - pose proof (delivers_nil _ HD) as E. destruct (read_char (reader_of []) 0) as [o p]. simpl in E. now subst o.
  - unfold read_char at 1. rewrite (delivers_read0 _ _ _ HD). now rewrite (delivers_cons _ c q) by (auto; simpl; lia).
Qed.
Section Stream.
Variables (i o : option name) (w0 : world) (text : str).
Hypothesis Hout : stdout w0 = [].
Hypothesis Hin : contents w0 i = Some text.
Hypothesis Hio : forall f, i = Some f -> o <> Some f.
Notation fr := (frame i o w0 text).
Notation crash F := (crash_ok o w0 (partial_output F text)).
Notation ends := (FsProof2.ends o w0 text).
Notation done := (FsProof2.done o w0 text).
Notation safe_first := (FsProof2.safe_first i o w0 text Hin Hio).
Notation safe_chunk := (FsProof2.safe_chunk i o w0 text Hin Hio).
Notation run_first := (FsProof2.run_first i o w0 text Hin Hio).
Notation partial_nil := (FsProof2.partial_nil text).
Lemma rle_safe_release fuel w : fr w [] [] -> safe (crash (rle_out_release false false)) (fun _ => done (rle_out_release false false)) (rle_stream_release fuel) w.
Proof.
  intros H. set (F := rle_out_release false false). apply (safe_first F); [exact H|apply rle_out_for_release|auto|]. intros c w1 F1 P1.
  assert (RO : forall q rc pc out, for_in q rle_step_release (0, c, []) = Ok (rc, pc, out) -> F (c :: q) = Ok (out ++ [pc; rc])).
  { intros q rc pc out E. unfold F. rewrite rle_out_for_release, E. reflexivity. }
  apply safe_seq.
  eapply safe_imp; [|apply (safe_while i o w0 text Hin Hio (partial_output F text)
     (fun p s out => exists q, p = c :: q /\ prefix p text /\ for_in q rle_step_release (0, c, []) = Ok (s, out) /\ partial_output F text out) rle_body_release)
    with (p := [c]) (out := [])]; auto.
  - intros (rc, pc) w' (p & out & F' & (q & -> & P & E & G)). apply (safe_chunk F _ _ w' (c :: q) out); [exact F'| |].
    + exists (c :: q), (out ++ [pc; rc]). auto using prefix_refl.
    + intros w2 F2 G2. cbn [safe]. split; [exact (wr_crash _ _ _ _ _ (proj2 F2) G2)|].
      exists (c :: q), (out ++ [pc; rc]). repeat split; auto; apply F2.
  - intros p s out (q & _ & _ & _ & G). exact G.
  - intros p (rc, pc) out d w' (q & -> & P & E & G) F' Pc.
    assert (C : crash F w') by exact (wr_crash _ _ _ _ _ (proj2 F') G).
    assert (Es := for_in_snoc _ d _ _ _ E). unfold rle_step_release in Es at 2.
    unfold rle_body_release. destruct (negb (d =? pc)) eqn:Ed.
    + apply safe_lift; [exact C|]. intros [] Ea. rewrite Ea in Es. cbn [bind] in Es. cbn [write_ seq_io].
      apply (safe_chunk F _ _ w' ((c :: q) ++ [d]) out); [exact F'|exists (c :: q), (out ++ [pc; rc]); auto using prefix_refl|].
      intros w2 F2 G2. cbn [safe]. split; [exact (wr_crash _ _ _ _ _ (proj2 F2) G2)|]. exists (out ++ [pc; rc]). split; [exact F2|].
      exists (q ++ [d]). auto.
    + cbn [safe]. split; [exact C|]. exists out. split; [exact F'|]. exists (q ++ [d]). auto.
  - exists []. repeat split; auto. apply partial_nil. apply rle_out_for_release.
Qed.
Lemma rle_run_release fuel w : fr w [] [] -> length text <= fuel -> ends (rle_out_release false false) (rle_stream_release fuel) w.
Proof.
  intros H L. unfold ends. rewrite rle_out_for_release. unfold rle_stream_release.
  pose proof (run_first (fun c => st <~ while_read_io fuel rle_body_release (0, c) ; let '(run_counter, prev_char) := st in write_ [prev_char; run_counter]) w H) as R1.
  destruct text as [|c r] eqn:Et; [exists w; split; [exact R1|apply H]|]. rewrite <- Et in *. destruct R1 as (w1 & -> & F1).
  assert (R := run_while i o w0 text Hin Hio rle_body_release rle_step_release).
  assert (B : forall c v w p out, fr w p out -> match rle_step_release c (v, out) with
     | Ok (s', out') => exists w', run (rle_body_release c v) w = (w', Ok s') /\ fr w' p out'
     | Panic => exists w', run (rle_body_release c v) w = (w', Panic)
     | OutOfFuel => exists w', run (rle_body_release c v) w = (w', OutOfFuel) end).
  { intros d (rc, pc) w2 p out F. unfold rle_step_release, rle_body_release. destruct (negb (d =? pc)).
    - rewrite run_seq, run_lift. destruct (assert_ (rc <? 255)) as [[]| |]; cbn [bind]; eauto.
      cbn [write_ seq_io run]. eexists. split; [reflexivity|]. now apply (fr_emits i o w0 text Hin Hio _ _ _ [pc; rc]).
    - cbn [run]. eauto. }
  specialize (R B fuel r (0, c) w1 [c] [] F1 Et ltac:(rewrite Et in L; cbn in L; lia)). rewrite run_seq.
  destruct (for_in r rle_step_release (0, c, [])) as [((rc, pc), out)| |]; cbn [bind].
  - destruct R as (w' & -> & F). cbn [write_ run]. eexists. split; [reflexivity|]. apply (wr_emits o w0 w' out [pc; rc]), F.
  - destruct R as (w' & ->). eauto.
  - destruct R as (w' & ->). eauto.
Qed.

Lemma rle_text_safe_release b fuel w : fr w [] [] -> safe (crash (rle_out_release true b)) (fun _ => done (rle_out_release true b)) (rle_text_stream_release fuel) w.
Proof.
  intros H. set (F := rle_out_release true b). apply (safe_first F); [exact H|apply rle_text_out_for_release|auto|]. intros c w1 F1 P1.
  assert (RO : forall q rc pc out, for_in q rle_text_step_release (0, c, []) = Ok (rc, pc, out) -> F (c :: q) = Ok (out ++ fmt_run pc (inc_u8_release rc))).
  { intros q rc pc out E. unfold F. rewrite rle_text_out_for_release, E. reflexivity. }
  apply safe_seq.
  eapply safe_imp; [|apply (safe_while i o w0 text Hin Hio (partial_output F text)
     (fun p s out => exists q, p = c :: q /\ prefix p text /\ for_in q rle_text_step_release (0, c, []) = Ok (s, out) /\ partial_output F text out) rle_text_body_release)
    with (p := [c]) (out := [])]; auto.
  - intros (rc, pc) w' (p & out & F' & (q & -> & P & E & G)).
    apply (safe_chunk F _ _ w' (c :: q) out); [exact F'| |].
    + exists (c :: q), (out ++ fmt_run pc (inc_u8_release rc)). split; [exact P|]. split; [now apply (RO q rc)|apply prefix_refl].
    + intros w2 F2 G2. cbn [safe]. split; [exact (wr_crash _ _ _ _ _ (proj2 F2) G2)|].
      exists (c :: q), (out ++ fmt_run pc (inc_u8_release rc)). split; [exact P|]. split; [now apply (RO q rc)|apply F2].
  - intros p s out (q & _ & _ & _ & G). exact G.
  - intros p (rc, pc) out d w' (q & -> & P & E & G) F' Pc.
    assert (C : crash F w') by exact (wr_crash _ _ _ _ _ (proj2 F') G).
    assert (Es := for_in_snoc _ d _ _ _ E). unfold rle_text_step_release in Es at 2.
    unfold rle_text_body_release. destruct (negb (d =? pc)) eqn:Ed.
    + cbn [write_ seq_io].
      apply (safe_chunk F _ _ w' ((c :: q) ++ [d]) out); [exact F'| |].
      * exists (c :: q), (out ++ fmt_run pc (inc_u8_release rc)). split; [exact P|]. split; [now apply (RO q rc)|apply prefix_refl].
      * intros w2 F2 G2. cbn [safe]. split; [exact (wr_crash _ _ _ _ _ (proj2 F2) G2)|]. exists (out ++ fmt_run pc (inc_u8_release rc)). split; [exact F2|].
        exists (q ++ [d]). auto.
    + cbn [safe]. split; [exact C|]. exists out. split; [exact F'|]. exists (q ++ [d]). auto.
  - exists []. repeat split; auto. apply partial_nil. apply rle_text_out_for_release.
Qed.
Lemma rle_text_run_release b fuel w : fr w [] [] -> length text <= fuel -> ends (rle_out_release true b) (rle_text_stream_release fuel) w.
Proof.
  intros H L. unfold ends. rewrite rle_text_out_for_release. unfold rle_text_stream_release.
  pose proof (run_first (fun c => st <~ while_read_io fuel rle_text_body_release (0, c) ; let '(run_counter, prev_char) := st in
     write_ (fmt_run prev_char (inc_u8_release run_counter))) w H) as R1.
  destruct text as [|c r] eqn:Et; [exists w; split; [exact R1|apply H]|]. rewrite <- Et in *. destruct R1 as (w1 & -> & F1).
  assert (R := run_while i o w0 text Hin Hio rle_text_body_release rle_text_step_release).
  assert (B : forall c v w p out, fr w p out -> match rle_text_step_release c (v, out) with
     | Ok (s', out') => exists w', run (rle_text_body_release c v) w = (w', Ok s') /\ fr w' p out'
     | Panic => exists w', run (rle_text_body_release c v) w = (w', Panic)
     | OutOfFuel => exists w', run (rle_text_body_release c v) w = (w', OutOfFuel) end).
  { intros d (rc, pc) w2 p out F. unfold rle_text_step_release, rle_text_body_release. destruct (negb (d =? pc)).
    - cbn [write_ seq_io run]. eexists. split; [reflexivity|]. now apply (fr_emits i o w0 text Hin Hio _ _ _ (fmt_run pc (inc_u8_release rc))).
    - cbn [run]. eauto. }
  specialize (R B fuel r (0, c) w1 [c] [] F1 Et ltac:(rewrite Et in L; cbn in L; lia)). rewrite run_seq.
  destruct (for_in r rle_text_step_release (0, c, [])) as [((rc, pc), out)| |]; cbn [bind].
  - destruct R as (w' & -> & F). cbn [write_ run]. eexists. split; [reflexivity|]. apply (wr_emits o w0 w' out (fmt_run pc (inc_u8_release rc))), F.
  - destruct R as (w' & ->). eauto.
  - destruct R as (w' & ->). eauto.
Qed.

Lemma rle_zero_safe_release fuel w : fr w [] [] -> safe (crash (rle_out_release false true)) (fun _ => done (rle_out_release false true)) (rle_zero_stream_release fuel) w.
Proof.
  intros H. set (F := rle_out_release false true). apply (safe_first F); [exact H|apply rle_zero_out_for_release|auto|]. intros c w1 F1 P1.
  set (st0 := if c =? CHR_ZERO then (1, []) else (0, [c])).
  assert (RO : forall q rc out, for_in q rle_zero_step_release st0 = Ok (rc, out) -> F (c :: q) = Ok (out ++ if 0 <? rc then [CHR_ZERO; rc] else [])).
  { intros q rc out E. unfold F. rewrite rle_zero_out_for_release. fold st0. rewrite E. cbn [bind]. destruct (0 <? rc); [|rewrite app_nil_r]; reflexivity. }
  apply safe_seq.
  assert (G1 : partial_output F text (snd st0)).
  { exists [c]. eexists. split; [exact P1|]. split; [apply (RO [] (fst st0) (snd st0)); cbn; now rewrite <- surjective_pairing|]. eexists. reflexivity. }
  assert (MAIN : forall w2, fr w2 [c] (snd st0) -> safe (crash F) (fun _ => done F)
     (run_counter <~ while_read_io fuel rle_zero_body_release (fst st0) ; if 0 <? run_counter then write_ [CHR_ZERO; run_counter] else Ret tt) w2).
  { intros w2 F2. apply safe_seq.
    eapply safe_imp; [|apply (safe_while i o w0 text Hin Hio (partial_output F text)
       (fun p s out => exists q, p = c :: q /\ prefix p text /\ for_in q rle_zero_step_release st0 = Ok (s, out) /\ partial_output F text out) rle_zero_body_release)
      with (p := [c]) (out := snd st0)]; auto.
    - intros rc w' (p & out & F' & (q & -> & P & E & G)). specialize (RO q rc out E). destruct (0 <? rc).
      + apply (safe_chunk F _ _ w' (c :: q) out); [exact F'| |].
        * exists (c :: q), (out ++ [CHR_ZERO; rc]). auto using prefix_refl.
        * intros w3 F3 G3. cbn [safe]. split; [exact (wr_crash _ _ _ _ _ (proj2 F3) G3)|].
          exists (c :: q), (out ++ [CHR_ZERO; rc]). repeat split; auto; apply F3.
      + cbn [safe]. split; [exact (wr_crash _ _ _ _ _ (proj2 F') G)|]. rewrite app_nil_r in RO. exists (c :: q), out. repeat split; auto; apply F'.
    - intros p s out (q & _ & _ & _ & G). exact G.
    - intros p rc out d w' (q & -> & P & E & G) F' Pc.
      assert (C : crash F w') by exact (wr_crash _ _ _ _ _ (proj2 F') G).
      assert (Es := for_in_snoc _ d _ _ _ E). unfold rle_zero_step_release in Es at 2.
      unfold rle_zero_body_release. destruct (negb (d =? CHR_ZERO)) eqn:Ed.
      + destruct (rc =? 0) eqn:E0.
        * cbn [write_ seq_io]. apply (safe_chunk F _ _ w' ((c :: q) ++ [d]) out); [exact F'| |].
          { exists (c :: q ++ [d]). eexists. split; [exact Pc|]. split; [exact (RO _ _ _ Es)|]. eexists. reflexivity. }
          intros w3 F3 G3. cbn [safe]. split; [exact (wr_crash _ _ _ _ _ (proj2 F3) G3)|]. exists (out ++ [d]). split; [exact F3|].
          exists (q ++ [d]). auto.
        * apply safe_lift; [exact C|]. intros [] E2. rewrite E2 in Es. cbn [bind] in Es. cbn [write_ seq_io].
          apply (safe_chunk F _ _ w' ((c :: q) ++ [d]) out); [exact F'| |].
          { exists (c :: q ++ [d]). eexists. split; [exact Pc|]. split; [exact (RO _ _ _ Es)|]. eexists. reflexivity. }
          intros w3 F3 G3. cbn [safe]. split; [exact (wr_crash _ _ _ _ _ (proj2 F3) G3)|]. exists (out ++ [CHR_ZERO; rc - 1]). split; [exact F3|].
          exists (q ++ [d]). auto.
      + cbn [safe]. split; [exact C|]. exists out. split; [exact F'|]. exists (q ++ [d]). auto.
    - exists []. split; [reflexivity|]. split; [exact P1|]. split; [|exact G1]. cbn. now rewrite <- surjective_pairing. }
  unfold st0 in *. destruct (c =? CHR_ZERO) eqn:Ec; cbn [fst snd] in *.
  - cbn [safe]. split; [exact (wr_crash _ _ _ _ _ (proj2 F1) G1)|]. now apply MAIN.
  - cbn [write_ seq_io]. apply (safe_chunk F _ _ w1 [c] []); [exact F1|exact G1|].
    intros w2 F2 G2. cbn [safe]. split; [exact (wr_crash _ _ _ _ _ (proj2 F2) G2)|]. now apply MAIN.
Qed.
Lemma rle_zero_run_release fuel w : fr w [] [] -> length text <= fuel -> ends (rle_out_release false true) (rle_zero_stream_release fuel) w.
Proof.
  intros H L. unfold ends. rewrite rle_zero_out_for_release. unfold rle_zero_stream_release.
  pose proof (run_first (fun c => run_counter <~ (if c =? CHR_ZERO then Ret 1 else _ <~ write_ [c] ; Ret 0) ;
     run_counter <~ while_read_io fuel rle_zero_body_release run_counter ;
     (if 0 <? run_counter then write_ [CHR_ZERO; run_counter] else Ret tt)) w H) as R1.
  destruct text as [|c r] eqn:Et; [exists w; split; [exact R1|apply H]|]. rewrite <- Et in *. destruct R1 as (w1 & -> & F1).
  assert (R := run_while i o w0 text Hin Hio rle_zero_body_release rle_zero_step_release).
  assert (B : forall c v w p out, fr w p out -> match rle_zero_step_release c (v, out) with
     | Ok (s', out') => exists w', run (rle_zero_body_release c v) w = (w', Ok s') /\ fr w' p out'
     | Panic => exists w', run (rle_zero_body_release c v) w = (w', Panic)
     | OutOfFuel => exists w', run (rle_zero_body_release c v) w = (w', OutOfFuel) end).
  { intros d rc w2 p out F. unfold rle_zero_step_release, rle_zero_body_release. destruct (negb (d =? CHR_ZERO)).
    - destruct (rc =? 0).
      + cbn [write_ seq_io run]. eexists. split; [reflexivity|]. now apply (fr_emits i o w0 text Hin Hio _ _ _ [d]).
      + rewrite run_seq, run_lift. destruct (assert_ (rc - 1 <? 255)) as [[]| |]; cbn [bind]; eauto.
        cbn [write_ seq_io run]. eexists. split; [reflexivity|]. now apply (fr_emits i o w0 text Hin Hio _ _ _ [CHR_ZERO; rc - 1]).
    - cbn [run]. eauto. }
  set (st0 := if c =? CHR_ZERO then (1, []) else (0, [c])).
  assert (R2 : exists w2, run (if c =? CHR_ZERO then Ret 1 else _ <~ write_ [c] ; Ret 0) w1 = (w2, Ok (fst st0)) /\ fr w2 [c] (snd st0)).
  { unfold st0. destruct (c =? CHR_ZERO); cbn [write_ seq_io run fst snd]; eexists; (split; [reflexivity|]); [exact F1|].
    exact (fr_emits i o w0 text Hin Hio w1 [c] [] [c] F1). }
  destruct R2 as (w2 & E2 & F2). rewrite run_seq, E2.
  specialize (R B fuel r (fst st0) w2 [c] (snd st0) F2 Et ltac:(rewrite Et in L; cbn in L; lia)). rewrite run_seq.
  rewrite <- surjective_pairing in R.
  destruct (for_in r rle_zero_step_release st0) as [(rc, out)| |]; cbn [bind].
  - destruct R as (w' & -> & F). destruct (0 <? rc).
    + cbn [write_ seq_io run]. eexists. split; [reflexivity|]. apply (wr_emits o w0 w' out [CHR_ZERO; rc]), F.
    + cbn [run]. eexists. split; [reflexivity|]. apply F.
  - destruct R as (w' & ->). eauto.
  - destruct R as (w' & ->). eauto.
Qed.
Lemma rle_io_safe_release fuel human onlyzero : safe (crash (rle_out_release human onlyzero)) (fun _ => done (rle_out_release human onlyzero)) (rle_io_release fuel human onlyzero i o) w0.
Proof.
  apply create_open_safe; [exact Hout|exact Hin|exact Hio|destruct human, onlyzero; reflexivity|]. intros w F.
  destruct human; [now apply rle_text_safe_release|]. destruct onlyzero; [now apply rle_zero_safe_release|now apply rle_safe_release].
Qed.
Lemma rle_io_run_release fuel human onlyzero : length text <= fuel -> ends (rle_out_release human onlyzero) (rle_io_release fuel human onlyzero i o) w0.
Proof.
  intros L. apply create_open_run; [exact Hout|exact Hin|exact Hio|]. intros w F.
  destruct human; [now apply rle_text_run_release|]. destruct onlyzero; [now apply rle_zero_run_release|now apply rle_run_release].
Qed.
End Stream.
