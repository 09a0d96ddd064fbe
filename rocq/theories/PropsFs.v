(** PropsFs.v : C82-C85, files, crashes and failing accesses. *)
From Verif Require Import Base SpecStr SpecWord SpecBwt ModelIo SpecIo ModelTools RunFacts ToolsProof ToolsProof2 ModelCore ModelMain ModelLz SpecLz SpecFs ModelFs.
From Verif Require Import SortFacts SpecMain MainProof2 FsProof FsProof2 FsProof3 FsProof4 PropsTools PropsLz MusProof.
From Coq Require Import NArith.

(** C82. The streaming programs, killed at any point or with failing accesses, input and output different.
    What they have written decodes to a prefix of the input; nothing else is changed. *)
Theorem C82_mtf_crash : forall fuel i o w0 text w q, contents w0 i = Some text -> (forall f, i = Some f -> o <> Some f) -> stdout w0 = [] ->
  steps (w0, mtf_io fuel i o) (w, q) ->
  untouched o w0 w /\
  (written w o = written w0 o \/ exists out s, written w o = Some out /\ mtf_decode (seq 0 255) out = Some s /\ prefix s text).
Proof.
  intros fuel i o w0 text w q Hin Hio Hout S.
  destruct (safe_I _ _ _ _ (safe_steps _ _ _ _ _ _ (mtf_io_safe i o w0 text Hout Hin Hio fuel) S)) as (U & [H|(out & G & H)]); (split; [exact U|]); [now left|right].
  destruct (mtf_partial text out G) as (s & Es & P). exists out, s. auto.
Qed.
Print Assumptions C82_mtf_crash.
Theorem C82_rle_crash : forall fuel i o w0 text w q, contents w0 i = Some text -> (forall f, i = Some f -> o <> Some f) -> stdout w0 = [] ->
  steps (w0, rle_io fuel false false i o) (w, q) ->
  untouched o w0 w /\
  (written w o = written w0 o \/
   exists out z s, written w o = Some out /\ (out = z \/ exists c, out = z ++ [c]) /\ rle_decode z = Some s /\ prefix s text).
Proof.
  intros fuel i o w0 text w q Hin Hio Hout S.
  destruct (safe_I _ _ _ _ (safe_steps _ _ _ _ _ _ (rle_io_safe i o w0 text Hout Hin Hio fuel false false) S)) as (U & [H|(out & G & H)]); (split; [exact U|]); [now left|right].
  destruct G as (p & code & P & E & (r & ->)).
  destruct (C27_rle (reader_of p) p (runs p) (Datatypes.S (length p)) (reader_of_delivers p) (runs_ok p) ltac:(lia)) as (_ & D & _).
  destruct (D _ E) as (D1 & _). destruct (rle_decode_prefix (length out) out r p (le_n _) D1) as (z & s & Z & Es & Ps).
  exists out, z, s. repeat split; auto. exact (prefix_trans _ _ _ Ps P).
Qed.
Print Assumptions C82_rle_crash.
(** escape: reversing what is there, without the last byte if that is a dangling escape symbol, gives a prefix of the input *)
Theorem C82_escape_crash : forall n esc from to i o w0 text w q, contents w0 i = Some text -> (forall f, i = Some f -> o <> Some f) -> stdout w0 = [] ->
  length from = length to -> ~ In esc from -> ~ In esc to -> (forall x, In x from -> ~ In x to) ->
  (forall i j, i < length to -> j < length to -> nth i to 0 = nth j to 0 -> nth i from 0 = nth j from 0) ->
  steps (w0, escape_io n esc from to false i o) (w, q) ->
  untouched o w0 w /\
  (written w o = written w0 o \/
   exists out z s, written w o = Some out /\ (out = z \/ out = z ++ [esc]) /\ prefix s text /\
     forall n' rd, delivers rd z -> n <= n' -> escape_main n' esc from to true rd = Ok s).
Proof.
  intros n esc from to i o w0 text w q Hin Hio Hout A1 A2 A3 A4 A5 S.
  assert (HC : escape_checks esc from to = true) by (apply checks_iff; auto).
  destruct (safe_I _ _ _ _ (safe_steps _ _ _ _ _ _ (escape_io_safe i o w0 text Hout Hin Hio n esc from to HC false) S)) as (U & [H|(out & G & H)]); (split; [exact U|]); [now left|right].
  destruct (escape_partial n esc from to text out HC G) as (z & s & Z & P & L & E). exists out, z, s. repeat split; auto.
  intros n' rd D Ln. rewrite (C30_escape_roundtrip n n' esc from to (reader_of s) rd s z A5 (reader_of_delivers s) E D Ln). now rewrite firstn_all2.
Qed.
Print Assumptions C82_escape_crash.
(** all modes: the output is always the beginning of the output for a beginning of the input, and at the normal end
    it is the complete output for a beginning of the input *)
Theorem C82_rle_modes_crash : forall fuel (human onlyzero : bool) i o w0 text w q,
  contents w0 i = Some text -> (forall f, i = Some f -> o <> Some f) -> stdout w0 = [] ->
  steps (w0, rle_io fuel human onlyzero i o) (w, q) ->
  let F s := (if human then rle_text else if onlyzero then rle_zero else rle) (S (length s)) (reader_of s) in
  untouched o w0 w /\
  (written w o = written w0 o \/ exists out, written w o = Some out /\ partial_output F text out) /\
  (q = Ret tt -> exists s code, prefix s text /\ F s = Ok code /\ written w o = Some code).
Proof.
  intros fuel human onlyzero i o w0 text w q Hin Hio Hout S F.
  assert (EF : forall s, rle_out human onlyzero s = F s) by (intros s; unfold rle_out, F; now destruct human, onlyzero).
  pose proof (safe_steps _ _ _ _ _ _ (rle_io_safe i o w0 text Hout Hin Hio fuel human onlyzero) S) as H.
  destruct (safe_I _ _ _ _ H) as (U & C). split; [exact U|]. split.
  - destruct C as [C|(out & (s & code & P & E & P') & C)]; [now left|right]. exists out. split; [exact C|]. exists s, code. rewrite <- EF. auto.
  - intros ->. cbn [safe] in H. destruct H as (_ & (s & code & P & E & W)). exists s, code. rewrite <- EF. split; [exact P|]. split; [exact E|apply W].
Qed.
Print Assumptions C82_rle_modes_crash.
Theorem C82_escape_modes_crash : forall n esc from to b i o w0 text w q,
  contents w0 i = Some text -> (forall f, i = Some f -> o <> Some f) -> stdout w0 = [] ->
  length from = length to -> ~ In esc from -> ~ In esc to -> (forall x, In x from -> ~ In x to) ->
  steps (w0, escape_io n esc from to b i o) (w, q) ->
  let F s := escape_main n esc from to b (reader_of s) in
  untouched o w0 w /\
  (written w o = written w0 o \/ exists out, written w o = Some out /\ partial_output F text out) /\
  (q = Ret tt -> exists s code, prefix s text /\ F s = Ok code /\ written w o = Some code).
Proof.
  intros n esc from to b i o w0 text w q Hin Hio Hout A1 A2 A3 A4 S F.
  assert (HC : escape_checks esc from to = true) by (apply checks_iff; auto).
  pose proof (safe_steps _ _ _ _ _ _ (escape_io_safe i o w0 text Hout Hin Hio n esc from to HC b) S) as H.
  destruct (safe_I _ _ _ _ H) as (U & C). split; [exact U|]. split.
  - destruct C as [C|(out & G & C)]; [now left|right]. exists out. auto.
  - intros ->. cbn [safe] in H. destruct H as (_ & (s & code & P & E & W)). exists s, code. split; [exact P|]. split; [exact E|apply W].
Qed.
Print Assumptions C82_escape_modes_crash.
Theorem C82_mtf_ends : forall fuel i o w0 text w, contents w0 i = Some text -> (forall f, i = Some f -> o <> Some f) -> stdout w0 = [] ->
  steps (w0, mtf_io fuel i o) (w, Ret tt) ->
  exists out s, written w o = Some out /\ mtf_decode (seq 0 255) out = Some s /\ prefix s text.
Proof.
  intros fuel i o w0 text w Hin Hio Hout S.
  pose proof (safe_steps _ _ _ _ _ _ (mtf_io_safe i o w0 text Hout Hin Hio fuel) S) as H. cbn [safe] in H.
  destruct H as (_ & (s & code & P & E & W)). destruct (mtf_partial text code) as (s' & E' & P').
  { exists s, code. auto using prefix_refl. }
  exists code, s'. split; [apply W|auto].
Qed.
Print Assumptions C82_mtf_ends.
(** without failing accesses the whole input is processed *)
Theorem C82_mtf_run : forall fuel i o w0 text, contents w0 i = Some text -> (forall f, i = Some f -> o <> Some f) -> stdout w0 = [] ->
  length text < fuel ->
  (Forall (fun c => c < 255) text -> exists w out, run (mtf_io fuel i o) w0 = (w, Ok tt) /\ untouched o w0 w /\
     written w o = Some out /\ mtf_decode (seq 0 255) out = Some text) /\
  (~ Forall (fun c => c < 255) text -> exists w, run (mtf_io fuel i o) w0 = (w, Panic)).
Proof.
  intros fuel i o w0 text Hin Hio Hout Hf. pose proof (mtf_io_run i o w0 text Hout Hin Hio fuel Hf) as H. unfold ends, mtf_out in H. split; intros B.
  - destruct (mtf_ok (reader_of text) text (S (length text)) (reader_of_delivers text) ltac:(lia) B) as (code & E & _ & _ & D). rewrite E in H.
    destruct H as (w & R & [U W _]). eauto 6.
  - rewrite (mtf_panic (reader_of text) text) in H; auto using reader_of_delivers.
Qed.
Print Assumptions C82_mtf_run.
Theorem C82_rle_run : forall fuel (human onlyzero : bool) i o w0 text,
  contents w0 i = Some text -> (forall f, i = Some f -> o <> Some f) -> stdout w0 = [] -> length text <= fuel ->
  match (if human then rle_text else if onlyzero then rle_zero else rle) (S (length text)) (reader_of text) with
  | Ok code => exists w, run (rle_io fuel human onlyzero i o) w0 = (w, Ok tt) /\ untouched o w0 w /\ written w o = Some code
  | Panic => exists w, run (rle_io fuel human onlyzero i o) w0 = (w, Panic)
  | OutOfFuel => False
  end.
Proof.
  intros fuel human onlyzero i o w0 text Hin Hio Hout Hf. pose proof (rle_io_run i o w0 text Hout Hin Hio fuel human onlyzero Hf) as H.
  unfold ends in H.
  assert (EF : rle_out human onlyzero text = (if human then rle_text else if onlyzero then rle_zero else rle) (S (length text)) (reader_of text))
    by (unfold rle_out; now destruct human, onlyzero).
  rewrite EF in H. destruct ((if human then rle_text else if onlyzero then rle_zero else rle) (S (length text)) (reader_of text)) as [code| |] eqn:E.
  - destruct H as (w & R & [U W _]). eauto.
  - exact H.
  - clear H EF. pose proof (reader_of_delivers text) as D. destruct human; [|destruct onlyzero].
    + destruct (C29_rle_text (reader_of text) text (runs text) (S (length text)) D (runs_ok text) ltac:(lia)) as (H1 & H2).
      destruct (Forall_dec (fun r : nat * nat => snd r <= 255) ltac:(intros; apply le_dec) (runs text)) as [T|T].
      * rewrite (H1 T) in E. discriminate.
      * rewrite (H2 T) in E. discriminate.
    + destruct (C28_rle_zero_total text) as [(blocks & v & k & Et & HB & Hw & Hk)|(_ & H)].
      * rewrite (C28_rle_zero_exact blocks v k (reader_of text) (S (length text)) HB Hw Hk) in E; [discriminate| |]; rewrite <- Et; auto.
      * rewrite H in E by (auto; lia). discriminate.
    + destruct (C27_rle (reader_of text) text (runs text) (S (length text)) D (runs_ok text) ltac:(lia)) as (_ & _ & [H|(c & H)]); congruence.
Qed.
Print Assumptions C82_rle_run.
Theorem C82_escape_run : forall n esc from to b i o w0 text,
  contents w0 i = Some text -> (forall f, i = Some f -> o <> Some f) -> stdout w0 = [] ->
  length from = length to -> ~ In esc from -> ~ In esc to -> (forall x, In x from -> ~ In x to) ->
  match escape_main n esc from to b (reader_of text) with
  | Ok code => exists w, run (escape_io n esc from to b i o) w0 = (w, Ok tt) /\ untouched o w0 w /\ written w o = Some code
  | Panic => exists w, run (escape_io n esc from to b i o) w0 = (w, Panic)
  | OutOfFuel => False
  end.
Proof.
  intros n esc from to b i o w0 text Hin Hio Hout A1 A2 A3 A4.
  assert (HC : escape_checks esc from to = true) by (apply checks_iff; auto).
  pose proof (escape_io_run i o w0 text Hout Hin Hio n esc from to HC b) as H. unfold ends, escape_out in H.
  destruct (escape_main n esc from to b (reader_of text)) as [code| |] eqn:E; [destruct H as (w & R & [U W _]); eauto|exact H|].
  change (escape_out n esc from to b text = OutOfFuel) in E. clear H. destruct b.
  - rewrite (rev_out n esc from to HC) in E. exact (rev_l_fuel _ _ _ _ _ E).
  - rewrite (fwd_out n esc from to HC) in E. exact (fwd_l_fuel _ _ _ _ _ E).
Qed.
Print Assumptions C82_escape_run.
(** "a run that ends normally has processed the whole input" is false: a read error counts as the end of the input *)
Theorem C82_silent_truncation_refuted : forall fuel i o w0 text, contents w0 i = Some text -> (forall f, i = Some f -> o <> Some f) -> stdout w0 = [] ->
  exists w, steps (w0, mtf_io (S fuel) i o) (w, Ret tt) /\ written w o = Some [].
Proof.
  intros fuel i o w0 text Hin Hio Hout. pose proof (fr_create_open i o w0 text Hout Hin Hio) as (_ & W).
  exists (open_in (create_out w0 o) i). split; [|apply W].
  assert (C : contents (create_out w0 o) i = Some text).
  { unfold contents in *. destruct i as [f|], o as [g|]; cbn; auto. rewrite put_ne; auto. intros ->. exact (Hio g eq_refl eq_refl). }
  unfold mtf_io. eapply steps_step; [eapply steps_step; [eapply steps_step; [apply steps_refl|apply step_create]|apply step_open; congruence]|].
  exact (step_read_fails (open_in (create_out w0 o) i) _).
Qed.
Print Assumptions C82_silent_truncation_refuted.
Example C82_case : let w0 := W (put (fun _ => None) 0 [98; 98; 97]) [] [] SStdin KStdout in
  snd (run (mtf_io 9 (Some 0) (Some 1)) w0) = Ok tt /\ files (fst (run (mtf_io 9 (Some 0) (Some 1)) w0)) 1 = Some [98; 0; 98] /\
  files (fst (run (rle_io 9 false false (Some 0) (Some 1)) w0)) 1 = Some [98; 1; 97; 0] /\
  files (fst (run (escape_io 9 120 [98] [99] false (Some 0) (Some 1)) w0)) 1 = Some [120; 99; 120; 99; 97].
Proof. repeat split. Qed.

(** C83. Input and output the same file. mtf, rle, escape and reverse empty the file before reading it. In every
    configuration it is untouched or empty; nothing is ever written; without failing accesses it ends empty. *)
Theorem C83_in_place_loses : forall fuel h z n esc from to b p f w0 text w q, files w0 f = Some text ->
  (steps (w0, mtf_io fuel (Some f) (Some f)) (w, q) \/ steps (w0, rle_io fuel h z (Some f) (Some f)) (w, q) \/
   steps (w0, escape_io n esc from to b (Some f) (Some f)) (w, q) \/ steps (w0, reverse_io p (Some f) (Some f)) (w, q)) ->
  untouched (Some f) w0 w /\ (files w f = Some text \/ files w f = Some []) /\ (q = Ret tt -> files w f = Some []).
Proof.
  intros fuel h z n esc from to b p f w0 text w q Hf H.
  assert (G : safe (lost f w0) (fun _ => emptied f w0) q w).
  { destruct H as [H|[H|[H|H]]].
    - exact (safe_steps _ _ _ _ _ _ (mtf_in_place f w0 fuel) H).
    - exact (safe_steps _ _ _ _ _ _ (rle_in_place f w0 fuel h z) H).
    - exact (safe_steps _ _ _ _ _ _ (escape_in_place f w0 n esc from to b) H).
    - exact (safe_steps _ _ _ _ _ _ (reverse_in_place f w0 p) H). }
  destruct (safe_I _ _ _ _ G) as (H1 & H2 & H3). split; [split; [intros g Hg; apply H1; congruence|auto]|]. split.
  - rewrite <- Hf. exact H3.
  - intros ->. cbn [safe] in G. apply G.
Qed.
Print Assumptions C83_in_place_loses.
Theorem C83_in_place_run : forall fuel h z n esc from to b p f w0 text, files w0 f = Some text -> 0 < fuel ->
  (exists w, run (mtf_io fuel (Some f) (Some f)) w0 = (w, Ok tt) /\ files w f = Some []) /\
  (exists w, run (rle_io fuel h z (Some f) (Some f)) w0 = (w, Ok tt) /\ files w f = Some []) /\
  (exists w, run (reverse_io p (Some f) (Some f)) w0 = (w, Ok tt) /\ files w f = Some []) /\
  (exists w r, run (escape_io n esc from to b (Some f) (Some f)) w0 = (w, r) /\ files w f = Some []).
Proof.
  intros fuel h z n esc from to b p f w0 text Hf Hfu. repeat split.
  - destruct (mtf_in_place_run f w0 fuel Hfu) as (w & R & E). exists w. split; [exact R|apply E].
  - destruct (rle_in_place_run f w0 fuel h z) as (w & R & E). exists w. split; [exact R|apply E].
  - destruct (reverse_in_place_run f w0 p) as (w & R & E). exists w. split; [exact R|apply E].
  - destruct (escape_in_place_run f w0 text Hf n esc from to b) as (w & r & R & E). exists w, r. split; [exact R|apply E].
Qed.
Print Assumptions C83_in_place_run.
(** bwt, count_z, count_lexparse and lyndonfactorization read everything first: they work in place *)
Theorem C83_in_place_works : forall sort p f w0 content, files w0 f = Some content -> stdout w0 = [] ->
  (forall m d b, bwt_main sort true content p m d = Ok b ->
     exists w, run (bwt_io sort p m d (Some f) (Some f)) w0 = (w, Ok tt) /\ files w f = Some b) /\
  (forall fs, count_z_main sort (prefix_read content p) = Ok fs ->
     exists w b, run (count_z_io sort p (Some f) (Some f)) w0 = (w, Ok tt) /\ files w f = Some b /\ is_factor_file b fs) /\
  (forall fs, count_lexparse_main sort (prefix_read content p) = Ok fs ->
     exists w b, run (count_lexparse_io sort p (Some f) (Some f)) w0 = (w, Ok tt) /\ files w f = Some b /\ is_factor_file b fs) /\
  (forall k b, lyndonfactorization_main true content p true = Ok (k, Some b) ->
     exists w, run (lyndonfactorization_io p (Some f) (Some f)) w0 = (w, Ok tt) /\ files w f = Some b).
Proof.
  intros sort p f w0 content Hf Hout. repeat split.
  - intros m d b E. unfold bwt_io. cbn [run contents is_some]. rewrite Hf, E. cbn [lift seq_io write_ run]. eexists. split; [reflexivity|].
    exact (wr_out _ _ _ _ (wr_emits (Some f) w0 _ [] b (wr_create (Some f) w0 w0 (untouched_refl _ _) Hout))).
  - intros fs E. unfold count_z_io. cbn [run contents is_some]. rewrite Hf, prefix_read_ok. cbn [lift seq_io]. rewrite E. cbn [lift seq_io run].
    rewrite write_factors_run. do 2 eexists. split; [reflexivity|]. split; [|apply factor_text_ok].
    exact (wr_out _ _ _ _ (wr_emits (Some f) w0 _ [] _ (wr_create (Some f) w0 w0 (untouched_refl _ _) Hout))).
  - intros fs E. unfold count_lexparse_io. cbn [run contents is_some]. rewrite Hf, prefix_read_ok. cbn [lift seq_io]. rewrite E. cbn [lift seq_io run].
    rewrite write_factors_run. do 2 eexists. split; [reflexivity|]. split; [|apply factor_text_ok].
    exact (wr_out _ _ _ _ (wr_emits (Some f) w0 _ [] _ (wr_create (Some f) w0 w0 (untouched_refl _ _) Hout))).
  - intros k b E. destruct (lyndon_run (Some f) f w0 content p Hout Hf b) as (w & R & W); [now exists k|]. exists w. split; [exact R|apply W].
Qed.
Print Assumptions C83_in_place_works.
Example C83_case : let w0 := W (put (fun _ => None) 0 [98; 98; 97]) [] [] SStdin KStdout in
  files (fst (run (mtf_io 9 (Some 0) (Some 0)) w0)) 0 = Some [] /\
  files (fst (run (bwt_io naive_sort 0 false false (Some 0) (Some 0)) w0)) 0 = Some [97; 98; 98; 0] /\
  files (fst (run (count_z_io naive_sort 0 (Some 0) (Some 0)) w0)) 0 = Some [40;57;56;44;48;41; 40;49;44;49;41; 40;57;55;44;48;41].
Proof. repeat split. Qed.

(** C84. bwt, count_z, count_lexparse and lyndonfactorization create the output file only when everything has been
    computed: a run that panics before, or is killed, or has failing accesses leaves the old output or the beginning
    of the complete new one. *)
Theorem C84_bwt : forall sort p m d i o w0 content w q, contents w0 i = Some content -> stdout w0 = [] ->
  steps (w0, bwt_io sort p m d i o) (w, q) ->
  let R := bwt_main sort (match i with Some _ => true | None => false end) content p m d in
  untouched o w0 w /\
  (written w o = written w0 o \/ exists b out, R = Ok b /\ written w o = Some out /\ prefix out b) /\
  (q = Ret tt -> exists b, R = Ok b /\ written w o = Some b).
Proof.
  intros sort p m d i o w0 content w q Hin Hout S R.
  pose proof (safe_steps _ (fun (_ : unit) w => exists b, R = Ok b /\ wr o w0 w b) _ _ _ _
    (oneshot_safe i o w0 content Hin (fun content => bwt_main sort (is_some i) content p m d) (fun b => CreateOut o (write_ b)) _
      (fun b E => oneshot_create_safe o w0 content Hout (fun content => bwt_main sort (is_some i) content p m d) _ _ b E
        (fun w H => safe_imp _ _ _ _ _ (fun _ w' H' => ex_intro _ b (conj E H')) (safe_write_ o w0 b w H)))) S) as H.
  destruct (safe_I _ _ _ _ H) as (U & C). split; [exact U|]. split.
  - destruct C as [C|(out & (b & E & P) & C)]; [now left|right]. exists b, out. auto.
  - intros ->. cbn [safe] in H. destruct H as (_ & (b & E & W)). exists b. split; [exact E|apply W].
Qed.
Print Assumptions C84_bwt.
Theorem C84_count_z : forall sort p i f w0 content w q, contents w0 i = Some content -> stdout w0 = [] ->
  steps (w0, count_z_io sort p i (Some f)) (w, q) ->
  let R := t <- file_or_stdin2byte_vector (match i with Some _ => true | None => false end) content p ;; count_z_main sort t in
  untouched (Some f) w0 w /\
  (files w f = files w0 f \/ exists fs b out, R = Ok fs /\ is_factor_file b fs /\ files w f = Some out /\ prefix out b) /\
  (q = Ret tt -> exists fs b, R = Ok fs /\ is_factor_file b fs /\ files w f = Some b).
Proof.
  intros sort p i f w0 content w q Hin Hout S R.
  pose proof (factors_safe i f w0 content Hout Hin (fun content => t <- file_or_stdin2byte_vector (is_some i) content p ;; count_z_main sort t)) as H.
  unfold count_z_io in S. assert (H' : safe (crash_ok (Some f) w0 (fun out => exists fs, R = Ok fs /\ prefix out (factor_text fs)))
     (fun _ w => exists fs, R = Ok fs /\ wr (Some f) w0 w (factor_text fs))
     (Slurp i (fun content => text <~ lift (file_or_stdin2byte_vector (is_some i) content p) ;
        factors <~ lift (count_z_main sort text) ; CreateOut (Some f) (write_factors factors))) w0).
  { cbn [safe] in H |- *. destruct H as (H1 & H2). split; [exact H1|]. intros t Et. specialize (H2 t Et). rewrite seq_lift. exact H2. }
  pose proof (safe_steps _ _ _ _ _ _ H' S) as G.
  destruct (safe_I _ _ _ _ G) as (U & C). split; [exact U|]. split.
  - destruct C as [C|(out & (fs & E & P) & C)]; [now left|right]. exists fs, (factor_text fs), out. auto using factor_text_ok.
  - intros ->. cbn [safe] in G. destruct G as (_ & (fs & E & W)). exists fs, (factor_text fs). split; [exact E|]. split; [apply factor_text_ok|apply W].
Qed.
Print Assumptions C84_count_z.
Theorem C84_count_lexparse : forall sort p i f w0 content w q, contents w0 i = Some content -> stdout w0 = [] ->
  steps (w0, count_lexparse_io sort p i (Some f)) (w, q) ->
  let R := t <- file_or_stdin2byte_vector (match i with Some _ => true | None => false end) content p ;; count_lexparse_main sort t in
  untouched (Some f) w0 w /\
  (files w f = files w0 f \/ exists fs b out, R = Ok fs /\ is_factor_file b fs /\ files w f = Some out /\ prefix out b) /\
  (q = Ret tt -> exists fs b, R = Ok fs /\ is_factor_file b fs /\ files w f = Some b).
Proof.
  intros sort p i f w0 content w q Hin Hout S R.
  pose proof (factors_safe i f w0 content Hout Hin (fun content => t <- file_or_stdin2byte_vector (is_some i) content p ;; count_lexparse_main sort t)) as H.
  unfold count_lexparse_io in S.
  assert (H' : safe (crash_ok (Some f) w0 (fun out => exists fs, R = Ok fs /\ prefix out (factor_text fs)))
     (fun _ w => exists fs, R = Ok fs /\ wr (Some f) w0 w (factor_text fs))
     (Slurp i (fun content => text <~ lift (file_or_stdin2byte_vector (is_some i) content p) ;
        factors <~ lift (count_lexparse_main sort text) ; CreateOut (Some f) (write_factors factors))) w0).
  { cbn [safe] in H |- *. destruct H as (H1 & H2). split; [exact H1|]. intros t Et. specialize (H2 t Et). rewrite seq_lift. exact H2. }
  pose proof (safe_steps _ _ _ _ _ _ H' S) as G.
  destruct (safe_I _ _ _ _ G) as (U & C). split; [exact U|]. split.
  - destruct C as [C|(out & (fs & E & P) & C)]; [now left|right]. exists fs, (factor_text fs), out. auto using factor_text_ok.
  - intros ->. cbn [safe] in G. destruct G as (_ & (fs & E & W)). exists fs, (factor_text fs). split; [exact E|]. split; [apply factor_text_ok|apply W].
Qed.
Print Assumptions C84_count_lexparse.
(** lyndonfactorization never flushes its buffer explicitly: a normal end does not mean a complete file *)
Theorem C84_lyndonfactorization : forall p i f w0 content w q, contents w0 i = Some content -> stdout w0 = [] ->
  steps (w0, lyndonfactorization_io p i (Some f)) (w, q) ->
  untouched (Some f) w0 w /\
  (files w f = files w0 f \/ exists k b out, lyndonfactorization_main (match i with Some _ => true | None => false end) content p true = Ok (k, Some b) /\
     files w f = Some out /\ prefix out b) /\
  (q = Ret tt -> files w f <> None).
Proof.
  intros p i f w0 content w q Hin Hout S.
  pose proof (safe_steps _ _ _ _ _ _ (lyndon_safe i f w0 content p Hout Hin) S) as G.
  destruct (safe_I _ _ _ _ G) as (U & C). split; [exact U|]. split.
  - destruct C as [C|(out & (b & (k & E) & P) & C)]; [now left|right]. exists k, b, out. auto.
  - intros ->. cbn [safe] in G. destruct G as (_ & (b & out & _ & _ & W)). pose proof (wr_out _ _ _ _ W) as E. cbn [written] in E. congruence.
Qed.
Print Assumptions C84_lyndonfactorization.
Theorem C84_lyndonfactorization_complete_refuted : forall p i f w0 content k b, contents w0 i = Some content -> stdout w0 = [] ->
  lyndonfactorization_main (match i with Some _ => true | None => false end) content p true = Ok (k, Some b) ->
  exists w, steps (w0, lyndonfactorization_io p i (Some f)) (w, Ret tt) /\ files w f = Some [].
Proof.
  intros p i f w0 content k b Hin Hout E. exists (create_out w0 (Some f)). split; [|apply put_eq].
  eapply steps_step; [|apply step_buf_lost with (b := b)].
  eapply steps_step; [|apply step_create].
  eapply steps_step; [apply steps_refl|].
  unfold lyndonfactorization_io. match goal with |- step (_, Slurp _ ?g) _ => set (h := g) end.
  replace (CreateOut (Some f) (WriteBuf b (Ret tt))) with (h content); [now apply step_slurp|]. unfold h.
  unfold lyndonfactorization_main in E. fold (is_some i) in E.
  destruct (file_or_stdin2byte_vector (is_some i) content p) as [t| |]; cbn [bind lift seq_io] in *; try discriminate.
  destruct (duval t) as [factors| |]; cbn [bind lift seq_io] in *; try discriminate.
  destruct (last_ factors) as [l| |]; cbn [bind lift seq_io] in *; try discriminate.
  destruct (assert_ (l + 1 =? length t)) as [[]| |]; cbn [bind lift seq_io] in *; try discriminate.
  destruct (lyndon_file t factors) as [o| |]; cbn [bind lift seq_io] in *; try discriminate.
  injection E as _ ->. reflexivity.
Qed.
Print Assumptions C84_lyndonfactorization_complete_refuted.
(** without -o the last three write no file *)
Theorem C84_no_output : forall sort p i w0 w q,
  steps (w0, count_z_io sort p i None) (w, q) \/ steps (w0, count_lexparse_io sort p i None) (w, q) \/
  steps (w0, lyndonfactorization_io p i None) (w, q) -> w = w0.
Proof.
  assert (G : forall (p q : io unit) w0 w, safe (fun w => w = w0) (fun _ _ => True) p w0 -> steps (w0, p) (w, q) -> w = w0).
  { intros p q w0 w H S. exact (safe_I _ _ _ _ (safe_steps _ _ _ _ _ _ H S)). }
  intros sort p i w0 w q [S|[S|S]]; refine (G _ _ _ _ _ S);
    unfold count_z_io, count_lexparse_io, lyndonfactorization_io; cbn [safe]; (split; [reflexivity|]); intros t _;
    repeat (apply safe_lift; [reflexivity|]; intros ? _); cbn [safe]; auto.
Qed.
Print Assumptions C84_no_output.
(** reverse, word, escape, mtf and rle open the output first: a run that fails has already destroyed the old output *)
Theorem C84_failed_runs_erase : forall f g w0 content, files w0 f = Some content -> f <> g -> stdout w0 = [] ->
  (forall n esc from to b, ~ (length from = length to /\ ~ In esc from /\ ~ In esc to /\ (forall x, In x from -> ~ In x to)) ->
     exists w, run (escape_io n esc from to b (Some f) (Some g)) w0 = (w, Panic) /\ files w g = Some []) /\
  (forall wn k, word_main wn k = Panic -> exists w, run (word_io wn k (Some g)) w0 = (w, Panic) /\ files w g = Some []) /\
  (forall fuel h, files w0 h = None -> h <> g -> exists w, run (mtf_io fuel (Some h) (Some g)) w0 = (w, Panic) /\ files w g = Some []) /\
  (forall fuel a b h, files w0 h = None -> h <> g -> exists w, run (rle_io fuel a b (Some h) (Some g)) w0 = (w, Panic) /\ files w g = Some []) /\
  (forall p h, files w0 h = None -> h <> g -> exists w, run (reverse_io p (Some h) (Some g)) w0 = (w, Panic) /\ files w g = Some []) /\
  (forall p, length (stdin w0) < p -> exists w, run (reverse_io p None (Some g)) w0 = (w, Panic) /\ files w g = Some []) /\
  (forall n esc from to b h, files w0 h = None -> run (escape_io n esc from to b (Some h) (Some g)) w0 = (w0, Panic)).
Proof.
  intros f g w0 content Hf Hfg Hout. repeat split.
  - intros n esc from to b HC. unfold escape_io. cbn [run contents]. rewrite Hf.
    assert (E : escape_checks esc from to = false) by (destruct (escape_checks esc from to) eqn:E; auto; exfalso; now apply HC, checks_iff).
    rewrite E. cbn. eexists. split; [reflexivity|]. apply put_eq.
  - intros wn k E. unfold word_io. cbn [run]. rewrite E. cbn [lift seq_io run]. eexists. split; [reflexivity|]. apply put_eq.
  - intros fuel h Hh Hn. unfold mtf_io. cbn [run contents create_out files]. rewrite put_ne, Hh by auto. eexists. split; [reflexivity|]. apply put_eq.
  - intros fuel a b h Hh Hn. unfold rle_io. cbn [run contents create_out files]. rewrite put_ne, Hh by auto. eexists. split; [reflexivity|]. apply put_eq.
  - intros p h Hh Hn. unfold reverse_io. cbn [run contents create_out files]. rewrite put_ne, Hh by auto. eexists. split; [reflexivity|]. apply put_eq.
  - intros p Hp. unfold reverse_io. cbn [run contents create_out stdin is_some]. unfold reverse_main. rewrite stdin_panic by exact Hp.
    cbn [bind lift seq_io run]. eexists. split; [reflexivity|]. apply put_eq.
  - intros n esc from to b h Hh. unfold escape_io. cbn [run contents]. now rewrite Hh.
Qed.
Print Assumptions C84_failed_runs_erase.
Example C84_case : let w0 := W (put (put (fun _ => None) 0 []) 1 [42]) [] [] SStdin KStdout in
  run (bwt_io naive_sort 3 false false None (Some 1)) w0 = (w0, Panic) /\ run (count_z_io naive_sort 0 (Some 0) (Some 1)) w0 = (w0, Panic) /\
  snd (run (reverse_io 3 None (Some 1)) w0) = Panic /\ files (fst (run (reverse_io 3 None (Some 1)) w0)) 1 = Some [].
Proof. repeat split. Qed.

(** C85. The files of count_z and count_lexparse can be read back in one way only, and determine the text *)
Theorem C85_factor_file_unique : forall b fs gs, is_factor_file b fs -> is_factor_file b gs -> fs = gs.
Proof. intros b fs gs (pieces & -> & H) (pieces' & E & H'). exact (factor_file_inj _ _ _ _ H H' E). Qed.
Print Assumptions C85_factor_file_unique.
Theorem C85_count_z_lossless : forall sort p p' i i' f f' w0 w0' content content' w w' b, (forall t, is_suffix_array t (sort t)) ->
  contents w0 (Some i) = Some content -> contents w0' (Some i') = Some content' -> stdout w0 = [] -> stdout w0' = [] ->
  bytes (prefix_read content p) -> bytes (prefix_read content' p') ->
  (N.of_nat (length content) < 2^32)%N -> (N.of_nat (length content') < 2^32)%N ->
  steps (w0, count_z_io sort p (Some i) (Some f)) (w, Ret tt) -> steps (w0', count_z_io sort p' (Some i') (Some f')) (w', Ret tt) ->
  files w f = Some b -> files w' f' = Some b -> prefix_read content p = prefix_read content' p'.
Proof.
  assert (ONE : forall sort p i f w0 content w b, (forall t, is_suffix_array t (sort t)) ->
    contents w0 (Some i) = Some content -> stdout w0 = [] -> bytes (prefix_read content p) -> (N.of_nat (length content) < 2^32)%N ->
    steps (w0, count_z_io sort p (Some i) (Some f)) (w, Ret tt) -> files w f = Some b ->
    exists fs, is_factor_file b fs /\ decode_lz77 fs = Ok (prefix_read content p)).
  { intros sort p i f w0 content w b Hs Hin Hout HB HN S E.
    destruct (C84_count_z sort p (Some i) f w0 content w _ Hin Hout S) as (_ & _ & H). destruct (H eq_refl) as (fs & b' & R & Fb & E').
    rewrite E in E'. injection E' as <-. rewrite prefix_read_ok in R. cbn [bind] in R. exists fs. split; [exact Fb|].
    assert (Hne : prefix_read content p <> []) by (intros Hn; rewrite Hn, (C35_empty_panics sort Hs) in R; discriminate).
    destruct (C35_lz77_decodes sort (prefix_read content p) Hs Hne HB) as (fs' & R' & D).
    { unfold prefix_read. destruct (p =? 0); [exact HN|]. rewrite firstn_length. lia. }
    rewrite R in R'. injection R' as <-. exact D. }
  intros sort p p' i i' f f' w0 w0' content content' w w' b Hs Hin Hin' Hout Hout' HB HB' HN HN' S S' E E'.
  destruct (ONE sort p i f w0 content w b) as (fs & F & D); auto. destruct (ONE sort p' i' f' w0' content' w' b) as (fs' & F' & D'); auto.
  rewrite <- (C85_factor_file_unique b fs fs' F F') in D'. congruence.
Qed.
Print Assumptions C85_count_z_lossless.
Lemma consistent_length fs : forall x i, consistent x i fs -> length x = i + list_sum (map (fun f => Nat.max 1 (lz_len f)) fs).
Proof.
  induction fs as [|f fs IH]; intros x i H; cbn [consistent map list_sum fold_right] in *; [lia|]. destruct H as (_ & H). rewrite (IH _ _ H). unfold list_sum. lia.
Qed.
(** the first text must have two different letters (C38) *)
Theorem C85_count_lexparse_lossless : forall sort p p' i i' f f' w0 w0' content content' w w' b, (forall t, is_suffix_array t (sort t)) ->
  contents w0 (Some i) = Some content -> contents w0' (Some i') = Some content' -> stdout w0 = [] -> stdout w0' = [] ->
  (exists c d, In c (prefix_read content p) /\ In d (prefix_read content p) /\ c <> d) ->
  steps (w0, count_lexparse_io sort p (Some i) (Some f)) (w, Ret tt) -> steps (w0', count_lexparse_io sort p' (Some i') (Some f')) (w', Ret tt) ->
  files w f = Some b -> files w' f' = Some b -> prefix_read content p = prefix_read content' p'.
Proof.
  assert (ONE : forall sort p i f w0 content w b, (forall t, is_suffix_array t (sort t)) ->
    contents w0 (Some i) = Some content -> stdout w0 = [] ->
    steps (w0, count_lexparse_io sort p (Some i) (Some f)) (w, Ret tt) -> files w f = Some b ->
    exists fs, is_factor_file b fs /\ count_lexparse_main sort (prefix_read content p) = Ok fs).
  { intros sort p i f w0 content w b Hs Hin Hout S E.
    destruct (C84_count_lexparse sort p (Some i) f w0 content w _ Hin Hout S) as (_ & _ & H). destruct (H eq_refl) as (fs & b' & R & Fb & E').
    rewrite E in E'. injection E' as <-. rewrite prefix_read_ok in R. cbn [bind] in R. eauto. }
  intros sort p p' i i' f f' w0 w0' content content' w w' b Hs Hin Hin' Hout Hout' (c & d & Hc & Hd & Hcd) S S' E E'.
  destruct (ONE sort p i f w0 content w b) as (fs & F & D); auto. destruct (ONE sort p' i' f' w0' content' w' b) as (fs' & F' & D'); auto.
  rewrite <- (C85_factor_file_unique b fs fs' F F') in D'. clear ONE S S' E E' F F' Hin Hin'.
  set (t := prefix_read content p) in *. set (t' := prefix_read content' p') in *.
  assert (Hne : t <> []) by (intros Hn; rewrite Hn in Hc; destruct Hc).
  assert (Hne' : t' <> []) by (intros Hn; rewrite Hn, (C38_empty_panics sort Hs) in D'; discriminate).
  destruct (lexparse_ok sort t Hs Hne) as (gs & G & H1 & H2 & _). rewrite D in G. injection G as <-.
  destruct (lexparse_ok sort t' Hs Hne') as (gs & G & H1' & _). rewrite D' in G. injection G as <-.
  symmetry. apply H2; [|now rewrite (consistent_length _ _ _ H1), (consistent_length _ _ _ H1')|exact H1'].
  intros Hu. destruct (In_nth t c 0 Hc) as (a & La & Ea), (In_nth t d 0 Hd) as (e & Le & Ee). apply Hcd. rewrite <- Ea, <- Ee. now apply Hu.
Qed.
Print Assumptions C85_count_lexparse_lossless.
(** for unary texts the file does not tell the letter *)
Theorem C85_lexparse_unary_refuted : exists sort t t' b, (forall t, is_suffix_array t (sort t)) /\ t <> t' /\
  let w t := W (put (fun _ => None) 0 t) [] [] SStdin KStdout in
  files (fst (run (count_lexparse_io sort 0 (Some 0) (Some 1)) (w t))) 1 = Some b /\
  files (fst (run (count_lexparse_io sort 0 (Some 0) (Some 1)) (w t'))) 1 = Some b.
Proof.
  exists naive_sort, [97; 97], [98; 98], [40;49;44;49;41;40;48;44;49;41]. split; [exact naive_sort_ok|]. split; [discriminate|]. split; reflexivity.
Qed.
Print Assumptions C85_lexparse_unary_refuted.
Example C85_case : is_factor_file [40;57;56;44;48;41; 40;49;44;49;41] [LZ 98 0; LZ 1 1] /\
  let w0 := W (put (fun _ => None) 0 [98; 98]) [] [] SStdin KStdout in
  steps (w0, count_z_io naive_sort 0 (Some 0) (Some 1)) (fst (run (count_z_io naive_sort 0 (Some 0) (Some 1)) w0), Ret tt).
Proof.
  split; [exact (factor_text_ok [LZ 98 0; LZ 1 1])|]. intros w0. assert (E : snd (run (count_z_io naive_sort 0 (Some 0) (Some 1)) w0) = Ok tt) by reflexivity.
  apply (run_steps _ _ _ (Ok tt)). rewrite <- E. apply surjective_pairing.
Qed.
