(** PropsFs2.v : C107, the word generators, killed at any point or with failing writes. *)
From Verif Require Import Base SpecStr SpecWord SpecIo SpecMain LexFacts ModelIo ModelTools ModelCore ModelWord ModelMain ModelLz ModelEnum SpecLex SpecEnum SpecFs ModelFs ModelFs2.
From Verif Require Import SortFacts MainProof MainProof2 LwgProof EnumProof FsProof FsProof5 PropsMain PropsEnum.
From Coq Require Import NArith Sorting.Sorted.
Import String.StringSyntax.

(** C107. lyndonwords, to a file or to the standard output: what is there is the old contents or the beginning of the sorted list; a
    normal end means that the list is complete *)
Theorem C107_lyndonwords : forall n s, 1 <= n -> 1 <= s <= 159 ->
  exists L, StronglySorted lex_lt L /\ (forall w, In w L <-> lyndon w /\ length w <= n /\ over_first_letters s w) /\
  forall fuel o w0, stdout w0 = [] ->
    (forall w q, steps (w0, lyndonwords_io fuel n s o) (w, q) ->
       untouched o w0 w /\ (written w o = written w0 o \/ exists out, written w o = Some out /\ prefix out (lines L)) /\
       (q = Ret tt -> written w o = Some (lines L))) /\
    (length L < fuel -> exists w, run (lyndonwords_io fuel n s o) w0 = (w, Ok tt) /\ written w o = Some (lines L)).
Proof.
  intros n s Hn Hs. destruct (lwg_correct n s Hn ltac:(lia)) as (L & HS & HI & HC).
  assert (F : Forall (Forall (fun x => x < 159)) L).
  { apply Forall_forall. intros w Hw. apply HI in Hw. eapply Forall_impl; [|apply Hw]. cbn. intros; lia. }
  exists (map letters L). split; [apply (SSorted_map lex_lt); [|exact HS]; intros x y; apply letters_lt|]. split.
  { intros w. rewrite in_map_iff. split.
    + intros (u & <- & Hu). apply HI in Hu. destruct Hu as (H1 & H2 & H3). split; [now apply letters_lyndon|].
      split; [unfold letters; now rewrite map_length|]. now apply letters_range.
    + intros (H1 & H2 & H3). destruct (letters_surj s w H3) as (u & <- & Lu & Fu). exists u. split; auto.
      apply HI. split; [now apply letters_lyndon|]. split; [lia|auto]. }
  intros fuel o w0 Hout.
  assert (W : forall fuel, writer (loop_io fuel lyndonwords_body (lwg_new n s))) by (intros; apply writer_loop, lw_writer).
  assert (G : forall fuel, length L < fuel -> gather (loop_io fuel lyndonwords_body (lwg_new n s)) = (lines (map letters L), Ok tt)) by (intros; now apply lw_gather).
  pose proof (gle_loop lyndonwords_body lw_writer fuel (fuel + S (length L)) (lwg_new n s) ltac:(lia)) as M. rewrite (G (fuel + S (length L))) in M by lia.
  split.
  - intros w q S. destruct (program_safe _ o w0 w q (W fuel) Hout S) as (U & C & D). split; [exact U|]. split.
    + destruct C as [C|(out & C1 & (r & C2))]; [now left|right]. exists out. split; [exact C1|].
      destruct (gle_prefix _ _ M) as (r' & E). cbn [fst] in E. rewrite E, C2. exists (r ++ r'). now rewrite app_assoc.
    + intros ->. destruct (D tt eq_refl) as (D1 & D2). rewrite D2. f_equal. apply gle_ok in M; [now rewrite M|congruence].
  - intros Hf. rewrite map_length in Hf. destruct (program_run _ o w0 (W fuel) Hout) as (w & R & _ & X). rewrite (G fuel Hf) in R, X. exists w. auto.
Qed.
Print Assumptions C107_lyndonwords.
(** with 160 to 256 letters the program panics after 159 words; they are in the output, whose old contents are lost *)
Theorem C107_lyndonwords_large : forall n s o w0, 1 <= n -> 160 <= s <= 256 -> stdout w0 = [] ->
  let early := [97] :: map (fun c => repeat 97 (n - 1) ++ [c]) (seq 98 158) in
  (forall fuel, 159 < fuel -> exists w, run (lyndonwords_io fuel n s o) w0 = (w, Panic) /\ untouched o w0 w /\ written w o = Some (lines early)) /\
  (forall fuel w q, steps (w0, lyndonwords_io fuel n s o) (w, q) -> untouched o w0 w /\ q <> Ret tt /\
     (written w o = written w0 o \/ exists out, written w o = Some out /\ prefix out (lines early))).
Proof.
  intros n s o w0 Hn Hs Hout early.
  assert (W : forall fuel, writer (loop_io fuel lyndonwords_body (lwg_new n s))) by (intros; apply writer_loop, lw_writer).
  assert (G : forall fuel, 159 < fuel -> gather (loop_io fuel lyndonwords_body (lwg_new n s)) = (lines early, Panic)) by (intros; apply lw_large; lia).
  split.
  - intros fuel Hf. destruct (program_run _ o w0 (W fuel) Hout) as (w & R & U & X). rewrite (G fuel Hf) in R, X. exists w. auto.
  - intros fuel w q S. pose proof (gle_loop lyndonwords_body lw_writer fuel (160 + fuel) (lwg_new n s) ltac:(lia)) as M. rewrite (G (160 + fuel)) in M by lia.
    destruct (program_safe _ o w0 w q (W fuel) Hout S) as (U & C & D). split; [exact U|]. split.
    + intros ->. destruct (D tt eq_refl) as (D1 & D2). apply gle_ok in M; [rewrite M in D1; discriminate|congruence].
    + destruct C as [C|(out & C1 & (r & C2))]; [now left|right]. exists out. split; [exact C1|].
      destruct (gle_prefix _ _ M) as (r' & E). cbn [fst] in E. rewrite E, C2. exists (r ++ r'). now rewrite app_assoc.
Qed.
Print Assumptions C107_lyndonwords_large.
(** randomstring into a file, for every sequence of samples: the letters that are there obey the options, also when the run has been
    interrupted or does not end; a normal end means that all of them are there *)
Theorem C107_randomstring : forall fuel a p rng f w0 w q, stdout w0 = [] ->
  steps (w0, randomstring_io fuel a p rng (Some f)) (w, q) ->
  untouched (Some f) w0 w /\
  (files w f = files w0 f \/ exists out, files w f = Some out /\ length out <= p /\ (forall c, In c out -> exists i, c = rng i) /\
     (a <> 0 -> exists D, NoDup D /\ length D <= a /\ incl out D) /\
     (forall text, randomstring_main fuel a p rng = Ok text -> prefix out text)) /\
  (q = Ret tt -> exists out, files w f = Some out /\ length out = p /\ randomstring_main fuel a p rng = Ok out).
Proof.
  intros fuel a p rng f w0 w q Hout S. unfold randomstring_io in S.
  set (body := fun (_ : nat) st => randomstring_body fuel a rng st) in S.
  set (g := for_io (range 0 p) body (0, [])) in S.
  assert (Wg : writer g) by (apply writer_for; intros; apply random_writer).
  assert (W : writer (seq_io g (fun _ => Ret tt))) by (apply writer_seq; auto; intros; exact I).
  assert (EG : gather (seq_io g (fun _ => Ret tt)) = (fst (gather g), match snd (gather g) with Ok _ => Ok tt | Panic => Panic | OutOfFuel => OutOfFuel end)).
  { rewrite gather_seq by exact Wg. destruct (snd (gather g)); unfold gseq; cbn [gather fst snd]; now rewrite ?app_nil_r. }
  pose proof (random_appends fuel a rng (range 0 p) 0 [] []) as A. fold body g in A. unfold appends in A. cbn [app] in A.
  destruct (random_inv fuel a rng (range 0 p) 0 [] [] (rinv0 a rng)) as (u & cs & (I1 & I2 & I3 & I4 & I5) & L1 & L2 & NP). fold body g in I2, I3, I5, L1, L2, NP. cbn [app] in *.
  assert (Lp : length (range 0 p) = p) by (unfold range; rewrite seq_length; lia). rewrite Lp in *.
  destruct (program_safe _ (Some f) w0 w q W Hout S) as (U & C & D). rewrite EG in C, D. cbn [fst snd] in C, D. split; [exact U|]. split.
  - destruct C as [C|(out & C1 & (r & C2))]; [left; exact C|right]. exists out. split; [exact C1|]. rewrite C2 in *. split; [rewrite app_length in L1; lia|]. split.
    { intros c Hc. apply I5, in_app_iff. now left. }
    split. { intros Ha. exists cs. split; [exact I1|]. split; [auto|]. intros c Hc. apply I2, in_app_iff. now left. }
    intros text E. unfold randomstring_main in E. exists r. destruct (snd (gather g)) as [(u' & cs')| |]; rewrite A in E; cbn [bind] in E; congruence.
  - intros ->. destruct (D tt eq_refl) as (D1 & D2). exists (fst (gather g)). split; [exact D2|]. unfold randomstring_main.
    destruct (snd (gather g)) as [(u' & cs')| |] eqn:Eg; try discriminate. rewrite A. split; [apply L2; discriminate|reflexivity].
Qed.
Print Assumptions C107_randomstring.
(** to the standard output: the text has no newline and is still in the buffer when the program ends *)
Theorem C107_randomstring_stdout : forall fuel a p rng w0 w q, stdout w0 = [] ->
  steps (w0, randomstring_io fuel a p rng None) (w, q) ->
  untouched None w0 w /\ (stdout w = [] \/ exists text, randomstring_main fuel a p rng = Ok text /\ prefix (stdout w) text).
Proof.
  intros fuel a p rng w0 w q Hout S. unfold randomstring_io in S.
  set (Good := fun out => out = [] \/ exists text, randomstring_main fuel a p rng = Ok text /\ prefix out text).
  assert (H : safe (crash_ok None w0 Good) (fun _ _ => True)
      (CreateOut None (text <~ lift (randomstring_main fuel a p rng) ; write_buf text)) w0).
  { assert (W0 : wr None w0 (create_out w0 None) []) by (apply wr_create; auto; split; auto).
    cbn [safe]. split; [split; [split; auto|now left]|]. apply safe_lift; [apply (wr_crash None w0 Good _ [] W0); now left|].
    intros text E. assert (X : forall b1 b2, text = b1 ++ b2 -> crash_ok None w0 Good (emits (create_out w0 None) b1)).
    { intros b1 b2 Eb. apply (wr_crash None w0 Good _ ([] ++ b1)); [now apply wr_emits|]. right. exists text. split; [exact E|]. now exists b2. }
    unfold write_buf. cbn [safe]. split; [exact X|]. intros b1 b2 Eb. split; [exact (X b1 b2 Eb)|exact I]. }
  destruct (safe_I _ _ _ _ (safe_steps _ _ _ _ _ _ H S)) as (U & C). split; [exact U|]. cbn [written] in C.
  destruct C as [C|(out & G & C)].
  - left. congruence.
  - injection C as ->. exact G.
Qed.
Print Assumptions C107_randomstring_stdout.
Theorem C107_randomstring_stdout_complete_refuted : forall fuel a p rng text w0, stdout w0 = [] -> randomstring_main fuel a p rng = Ok text ->
  exists w, steps (w0, randomstring_io fuel a p rng None) (w, Ret tt) /\ stdout w = [].
Proof.
  intros fuel a p rng text w0 Hout E. exists (create_out w0 None). split; [|exact Hout].
  unfold randomstring_io. rewrite E. cbn [lift seq_io].
  eapply steps_step; [|apply step_buf_lost with (b := text)]. eapply steps_step; [apply steps_refl|apply step_create].
Qed.
Print Assumptions C107_randomstring_stdout_complete_refuted.
(** enumerate: the beginning of the list, and exit status 0 only with the complete list; other arguments give exit status 1 and no output *)
Theorem C107_enumerate : forall s mn mx, 1 <= s <= 26 -> 1 <= mn <= mx ->
  exists ws, StronglySorted shortlex ws /\ (forall w, In w ws <-> mn <= length w <= mx /\ over_first_letters s w) /\
  forall fuel w0, stdout w0 = [] ->
    (forall w q, steps (w0, enumerate_io fuel s mn (Some mx)) (w, q) ->
       untouched None w0 w /\ prefix (stdout w) (lines ws) /\ (forall status, q = Ret status -> status = 0 /\ stdout w = lines ws)) /\
    (s ^ mx <= fuel -> exists w, run (enumerate_io fuel s mn (Some mx)) w0 = (w, Ok 0)).
Proof.
  intros s mn mx Hs Hm. exists (flat_map (all_words s) (seq mn (mx + 1 - mn))). split; [apply all_words_shortlex; lia|]. split.
  { intros w. rewrite in_flat_map. split.
    + intros (n & Hn & Hw). apply in_seq in Hn. apply all_words_in in Hw; [|lia]. split; [lia|apply Hw].
    + intros (L & F). exists (length w). split; [apply in_seq; lia|]. apply all_words_in; [lia|]. auto. }
  intros fuel w0 Hout.
  set (lp := fun fuel => for_io (range mn (mx + 1)) (fun len (_ : unit) => enumerate_for_length_io fuel s len) tt).
  assert (EP : forall fuel, enumerate_io fuel s mn (Some mx) = CreateOut None (seq_io (lp fuel) (fun _ => Ret 0))).
  { intros fl. unfold enumerate_io. destruct (Nat.eqb_spec s 0); [lia|]. destruct (Nat.ltb_spec 26 s); [lia|]. cbn [orb].
    destruct (Nat.eqb_spec mn 0); [lia|]. destruct (Nat.ltb_spec mx mn); [lia|]. reflexivity. }
  assert (Wl : forall fuel, writer (lp fuel)) by (intros; apply writer_for; intros; apply enum_len_writer).
  assert (W : forall fuel, writer (seq_io (lp fuel) (fun _ => Ret 0))) by (intros; apply writer_seq; auto; intros; exact I).
  assert (G : forall fuel, s ^ mx <= fuel -> gather (seq_io (lp fuel) (fun _ => Ret 0)) = (lines (flat_map (all_words s) (seq mn (mx + 1 - mn))), Ok 0)).
  { intros fl Hf. rewrite gather_seq by auto. unfold lp, range. rewrite enum_all_ok; [|lia|lia|].
    - unfold gseq. cbn [gather fst snd]. now rewrite app_nil_r.
    - intros n Hn. transitivity (s ^ mx); [|exact Hf]. apply Nat.pow_le_mono_r; lia. }
  assert (M : gle (gather (seq_io (lp fuel) (fun _ => Ret 0))) (gather (seq_io (lp (fuel + s ^ mx)) (fun _ => Ret 0)))).
  { apply gle_seq; auto; [|intros; apply gle_refl]. apply gle_for; intros; try apply enum_len_writer. apply enum_len_mono. lia. }
  rewrite (G (fuel + s ^ mx)) in M by lia. rewrite EP. split.
  - intros w q S. destruct (program_safe _ None w0 w q (W fuel) Hout S) as (U & C & D). split; [exact U|]. cbn [written] in C, D. split.
    + destruct C as [C|(out & C1 & (r & C2))]; [|injection C1 as ->].
      * injection C as ->. rewrite Hout. now exists (lines (flat_map (all_words s) (seq mn (mx + 1 - mn)))).
      * destruct (gle_prefix _ _ M) as (r' & E). cbn [fst] in E. rewrite E, C2. exists (r ++ r'). now rewrite app_assoc.
    + intros st ->. destruct (D st eq_refl) as (D1 & D2). injection D2 as D2. apply gle_ok in M; [|congruence]. rewrite M in D1, D2. cbn [fst snd] in D1, D2.
      split; [congruence|exact D2].
  - intros Hf. destruct (program_run _ None w0 (W fuel) Hout) as (w & R & _). rewrite (G fuel Hf) in R. exists w. exact R.
Qed.
Print Assumptions C107_enumerate.
Theorem C107_enumerate_rejects : forall fuel s mn mx w0 w q, stdout w0 = [] -> s = 0 \/ 26 < s \/ mn = 0 \/ mx < mn ->
  (steps (w0, enumerate_io fuel s mn (Some mx)) (w, q) -> untouched None w0 w /\ stdout w = [] /\ q <> Ret 0) /\
  exists w', run (enumerate_io fuel s mn (Some mx)) w0 = (w', Ok 1).
Proof.
  intros fuel s mn mx w0 w q Hout H.
  assert (E : enumerate_io fuel s mn (Some mx) = CreateOut None (Ret 1)).
  { unfold enumerate_io. destruct (Nat.eqb_spec s 0) as [|N1]; [reflexivity|]. destruct (Nat.ltb_spec 26 s) as [|N2]; [reflexivity|]. cbn [orb].
    destruct (Nat.eqb_spec mn 0) as [|N3]; [reflexivity|]. destruct (Nat.ltb_spec mx mn); [reflexivity|lia]. }
  rewrite E. split; [|eexists; reflexivity]. intros S. destruct (program_safe (Ret 1) None w0 w q I Hout S) as (U & C & D). split; [exact U|]. cbn [written gather fst snd] in *. split.
  - destruct C as [C|(out & C1 & (r & C2))]; [congruence|]. injection C1 as ->. symmetry in C2. now apply app_eq_nil in C2.
  - intros ->. destruct (D 0 eq_refl) as (D1 & _). discriminate.
Qed.
Print Assumptions C107_enumerate_rejects.
Theorem C107_enumerate_default : forall fuel s mn, enumerate_io fuel s mn None = enumerate_io fuel s mn (Some mn).
Proof. reflexivity. Qed.
Print Assumptions C107_enumerate_default.
(** generator_kmer (8 and 4 in the source): the beginning of the list of all words *)
Theorem C107_generator_kmer : forall s n, 1 <= s <= 31 -> (N.of_nat s ^ N.of_nat n < 2 ^ 64)%N ->
  exists L, StronglySorted (fun u v => lex_lt (rev u) (rev v)) L /\ (forall w, In w L <-> length w = n /\ over_first_letters s w) /\
  forall w0, stdout w0 = [] ->
    (forall w q, steps (w0, generator_kmer_io n s) (w, q) ->
       untouched None w0 w /\ prefix (stdout w) (lines L) /\ (q = Ret tt -> stdout w = lines L)) /\
    exists w, run (generator_kmer_io n s) w0 = (w, Ok tt).
Proof.
  intros s n Hs Hn. destruct (C55_kmer_generator s n ltac:(lia) Hn) as (L & E & _ & HI & HS). exists L. split; [exact HS|]. split; [exact HI|].
  rewrite kmer_generator_ok in E by (auto; lia). injection E as <-. destruct (kmer_prog s n Hs Hn) as (p & -> & W & G). intros w0 Hout. split.
  - intros w q S. destruct (program_safe p None w0 w q W Hout S) as (U & C & D). rewrite G in C, D. cbn [written fst snd] in C, D. split; [exact U|]. split.
    + destruct C as [C|(out & C1 & C2)]; [|injection C1 as ->; exact C2]. injection C as ->. rewrite Hout. eexists. reflexivity.
    + intros ->. destruct (D tt eq_refl) as (_ & D2). now injection D2.
  - destruct (program_run p None w0 W Hout) as (w & R & _). rewrite G in R. eauto.
Qed.
Print Assumptions C107_generator_kmer.
(** enumerate_lexparse (32 and 2 in the source, which nobody waits for): the beginning of the list of records *)
Theorem C107_enumerate_lexparse : forall sort s n, (forall t, is_suffix_array t (sort t)) -> 1 <= s <= 26 -> (N.of_nat s ^ N.of_nat n < 2 ^ 64)%N ->
  exists recs all, record_lines recs all /\ StronglySorted before (map fst recs) /\
    (forall w d u1 u2, In (w, (d, u1, u2)) recs -> size_range s w d u1 u2) /\ (forall w, In w (map fst recs) <-> is_record s n w) /\
  forall w0, stdout w0 = [] ->
    (forall w q, steps (w0, enumerate_lexparse_io sort n s) (w, q) ->
       untouched None w0 w /\ prefix (stdout w) all /\ (q = Ret tt -> stdout w = all)) /\
    exists w, run (enumerate_lexparse_io sort n s) w0 = (w, Ok tt).
Proof.
  intros sort s n Hsa Hs Hn. destruct (C76_records sort s n Hsa Hs Hn) as (recs & all & E & H1 & H2 & H3 & H4). exists recs, all. repeat (split; [assumption|]).
  destruct (elp_prog sort s n all ltac:(lia) E) as (p & -> & W & G). intros w0 Hout. split.
  - intros w q S. destruct (program_safe p None w0 w q W Hout S) as (U & C & D). rewrite G in C, D. cbn [written fst snd] in C, D. split; [exact U|]. split.
    + destruct C as [C|(out & C1 & C2)]; [|injection C1 as ->; exact C2]. injection C as ->. rewrite Hout. eexists. reflexivity.
    + intros ->. destruct (D tt eq_refl) as (_ & D2). now injection D2.
  - destruct (program_run p None w0 W Hout) as (w & R & _). rewrite G in R. eauto.
Qed.
Print Assumptions C107_enumerate_lexparse.
(** so the complete lines of an interrupted list are the first words of the list, and what follows them is the beginning of the next word *)
Theorem C107_complete_lines : forall L out, (forall w, In w L -> ~ In 10 w) -> prefix out (lines L) ->
  exists k rest, k <= length L /\ out = lines (firstn k L) ++ rest /\ prefix rest (nth k L []) /\ ~ In 10 rest.
Proof.
  induction L as [|w L IH]; intros out H (r & E).
  - exists 0, []. unfold lines in E. cbn in E. symmetry in E. apply app_eq_nil in E. destruct E as (-> & _). repeat split; auto. now exists [].
  - unfold lines in E. cbn [map concat] in E. fold (lines L) in E. rewrite <- app_assoc in E.
    destruct (le_lt_dec (length out) (length w)) as [Le|Lt].
    + assert (P : prefix out w).
      { exists (skipn (length out) w). assert (F : firstn (length out) w = out).
        { apply (f_equal (firstn (length out))) in E. rewrite firstn_app in E. replace (length out - length w) with 0 in E by lia. cbn [firstn] in E.
          rewrite app_nil_r, firstn_app, Nat.sub_diag, firstn_all in E. cbn [firstn] in E. now rewrite app_nil_r in E. }
        rewrite <- F at 1. symmetry. apply firstn_skipn. }
      exists 0, out. split; [lia|]. split; [reflexivity|]. split; [exact P|]. intros Hin. destruct P as (x & ->). apply (H (out ++ x) (or_introl eq_refl)), in_app_iff. now left.
    + assert (X : exists out', out = w ++ [10] ++ out' /\ lines L = out' ++ r).
      { exists (skipn (length w + 1) out). assert (F : firstn (length w + 1) out = w ++ [10]).
        { apply (f_equal (firstn (length w + 1))) in E. rewrite (firstn_app (length w + 1) out) in E. replace (length w + 1 - length out) with 0 in E by lia. cbn [firstn] in E.
          rewrite app_nil_r in E. rewrite <- E. unfold newline. rewrite app_assoc, firstn_app. replace (length w + 1 - length (w ++ [10])) with 0 by (rewrite app_length; cbn; lia).
          cbn [firstn]. rewrite app_nil_r. apply firstn_all2. rewrite app_length. cbn. lia. }
        assert (O : out = w ++ [10] ++ skipn (length w + 1) out) by (rewrite app_assoc, <- F; symmetry; apply firstn_skipn).
        split; [exact O|]. rewrite O in E. unfold newline in E. rewrite <- !app_assoc in E. apply app_inv_head in E. cbn [app] in E. now injection E. }
      destruct X as (out' & -> & E'). destruct (IH out') as (k & rest & Hk & -> & P & N); [intros u Hu; apply H; now right|now exists r|].
      exists (S k), rest. split; [cbn; lia|]. split; [|auto]. unfold lines. cbn [firstn map concat]. unfold newline. now rewrite <- !app_assoc.
Qed.
Print Assumptions C107_complete_lines.
(** all hypotheses are met: three letters of the list "a","ab","b" are in the file when the program is killed *)
Example C107_case : let w0 := W (put (fun _ => None) 0 [42]) [] [] SStdin KStdout in
  lines [ascii "a"; ascii "ab"; ascii "b"] = ascii "a" ++ [10] ++ ascii "ab" ++ [10] ++ ascii "b" ++ [10] /\
  (exists w q, steps (w0, lyndonwords_io 9 2 2 (Some 0)) (w, q) /\ files w 0 = Some (ascii "a" ++ [10] ++ ascii "a") /\ q <> Ret tt) /\
  (exists w, run (lyndonwords_io 9 2 2 (Some 0)) w0 = (w, Ok tt) /\ files w 0 = Some (lines [ascii "a"; ascii "ab"; ascii "b"])) /\
  (exists w, run (enumerate_io 9 2 1 None) w0 = (w, Ok 0) /\ stdout w = lines [ascii "a"; ascii "b"]) /\
  (exists w, run (generator_kmer_io 1 2) w0 = (w, Ok tt) /\ stdout w = lines [ascii "a"; ascii "b"]) /\
  (exists w, run (enumerate_lexparse_io naive_sort 1 2) w0 = (w, Ok tt) /\ stdout w = ascii "0: ""a\0"" <-> ""b\0""" ++ newline ++ ascii "0: ""b\0"" <-> ""a\0""" ++ newline) /\
  (exists w, run (randomstring_io 9 2 5 (fun i => 97 + i mod 3) (Some 0)) w0 = (w, Ok tt) /\ files w 0 = Some [97;98;97;98;97]).
Proof.
  intros w0. split; [reflexivity|]. split.
  - do 2 eexists. split; [|split].
    + eapply steps_step; [|apply step_byte]. eapply steps_step; [|apply step_written]. eapply steps_step; [|apply step_byte].
      eapply steps_step; [|apply step_written]. eapply steps_step; [|apply step_byte].
      eapply steps_step; [apply steps_refl|]. apply step_create.
    + reflexivity.
    + discriminate.
  - repeat split; eexists; (split; [reflexivity|reflexivity]).
Qed.
