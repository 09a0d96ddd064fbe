(** FsProof4.v : programs that read their whole input first; input and output the same file. *)
From Verif Require Import Base SpecStr SpecWord ModelIo SpecIo ModelTools RunFacts ToolsProof ToolsProof2 ModelCore ModelMain ModelLz SpecMain MainProof2 SpecFs ModelFs FsProof FsProof2 FsProof3.

Lemma untouched_refl o w : untouched o w w.
Proof. split; auto. Qed.
(** write_factors writes the concatenation *)
Definition factor_text (fs : list lzfactor) : str := concat (map fmt_factor fs).
Lemma write_factors_run fs : forall w, run (write_factors fs) w = (emits w (factor_text fs), Ok tt).
Proof.
  induction fs as [|f fs IH]; intros w; [reflexivity|]. unfold factor_text. cbn [write_factors write_ seq_io run map concat]. rewrite emits_app. apply IH.
Qed.
Section Out.
Variables (o : option name) (w0 : world) (b : str).
Notation I := (crash_ok o w0 (fun out => prefix out b)).
Lemma I_wr w out : wr o w0 w out -> prefix out b -> I w.
Proof. intros H P. exact (wr_crash _ _ _ _ _ H P). Qed.
Lemma safe_write_ w : wr o w0 w [] -> safe I (fun (_ : unit) w' => wr o w0 w' b) (write_ b) w.
Proof.
  intros H. cbn [write_ safe]. split.
  - intros b1 b2 E. apply (I_wr _ b1); [exact (wr_emits o w0 w [] b1 H)|now exists b2].
  - split; [|exact (wr_emits o w0 w [] b H)]. apply (I_wr _ b); [exact (wr_emits o w0 w [] b H)|apply prefix_refl].
Qed.
Lemma safe_write_buf w : wr o w0 w [] -> safe I (fun (_ : unit) w' => exists out, prefix out b /\ wr o w0 w' out) (write_buf b) w.
Proof.
  intros H. cbn [write_buf safe].
  assert (G : forall b1 b2, b = b1 ++ b2 -> I (emits w b1)).
  { intros b1 b2 E. apply (I_wr _ b1); [exact (wr_emits o w0 w [] b1 H)|now exists b2]. }
  split; [exact G|]. intros b1 b2 E. split; [exact (G b1 b2 E)|]. exists b1. split; [now exists b2|exact (wr_emits o w0 w [] b1 H)].
Qed.
Lemma safe_write_factors fs : forall w out, wr o w0 w out -> b = out ++ factor_text fs ->
  safe I (fun (_ : unit) w' => wr o w0 w' b) (write_factors fs) w.
Proof.
  induction fs as [|f fs IH]; intros w out H E; unfold factor_text in E; cbn [map concat] in E.
  - cbn [write_factors safe]. rewrite app_nil_r in E. rewrite <- E in H. split; [apply (I_wr _ b H), prefix_refl|exact H].
  - cbn [write_factors write_ seq_io]. apply (safe_write o w0 _ _ _ w out); [exact H| |].
    + intros b1 b2 E'. exists (b2 ++ concat (map fmt_factor fs)). rewrite E, E', <- !app_assoc. reflexivity.
    + apply (IH _ (out ++ fmt_factor f)); [now apply wr_emits|]. rewrite E, <- app_assoc. reflexivity.
Qed.
End Out.
Lemma crash_weaken o w0 (G1 G2 : str -> Prop) w : (forall x, G1 x -> G2 x) -> crash_ok o w0 G1 w -> crash_ok o w0 G2 w.
Proof. intros H (H1 & [H2|(out & H2 & H3)]); (split; [exact H1|]); [now left|right; eauto]. Qed.
Lemma safe_weaken {A} (I I' : world -> Prop) (Q : A -> world -> Prop) (p : io A) : (forall w, I w -> I' w) -> forall w, safe I Q p w -> safe I' Q p w.
Proof.
  intros HI. induction p as [a| | |o k IH|o k IH|o k IH|k IH|b k IH|b k IH]; intros w H; cbn in *; auto.
  - destruct H; auto.
  - destruct H; auto.
  - destruct H; auto.
  - destruct H; auto.
  - destruct H as (H1 & H2 & H3); auto.
  - destruct H; split; eauto.
  - destruct H; split; eauto.
Qed.
(** read, compute, create, write *)
Section Oneshot.
Variables (i o : option name) (w0 : world) (content : str).
Hypothesis Hout : stdout w0 = [].
Hypothesis Hin : contents w0 i = Some content.
Variable f : str -> res str.
Notation I := (crash_ok o w0 (fun out => exists b, f content = Ok b /\ prefix out b)).
Lemma oneshot_safe (k : str -> io unit) (Q : unit -> world -> Prop) :
  (forall b, f content = Ok b -> safe I Q (k b) w0) ->
  safe I Q (Slurp i (fun content => b <~ lift (f content) ; k b)) w0.
Proof.
  intros H. assert (I1 : I w0) by (split; [apply untouched_refl|now left]). cbn [safe]. split; [exact I1|].
  intros t Et. rewrite Hin in Et. injection Et as <-. apply safe_lift; [exact I1|exact H].
Qed.
Lemma oneshot_create_safe (k : io unit) (Q : unit -> world -> Prop) b : f content = Ok b ->
  (forall w, wr o w0 w [] -> safe (crash_ok o w0 (fun out => prefix out b)) Q k w) -> safe I Q (CreateOut o k) w0.
Proof.
  intros E H. cbn [safe]. split; [split; [apply untouched_refl|now left]|].
  apply (safe_weaken (crash_ok o w0 (fun out => prefix out b))); [intros w; apply crash_weaken; eauto|].
  apply H, wr_create; [apply untouched_refl|exact Hout].
Qed.
End Oneshot.

(** input and output the same file: once it is created nothing is left to read *)
Definition emptied (f : name) (w0 w : world) : Prop :=
  (forall g, g <> f -> files w g = files w0 g) /\ stdout w = stdout w0 /\ files w f = Some [].
Definition lost (f : name) (w0 w : world) : Prop :=
  (forall g, g <> f -> files w g = files w0 g) /\ stdout w = stdout w0 /\ (files w f = files w0 f \/ files w f = Some []).
Lemma emptied_lost f w0 w : emptied f w0 w -> lost f w0 w.
Proof. intros (H1 & H2 & H3). repeat split; auto. Qed.
Lemma emptied_create f w0 w : (forall g, g <> f -> files w g = files w0 g) -> stdout w = stdout w0 -> emptied f w0 (create_out w (Some f)).
Proof.
  intros H1 H2. repeat split; cbn; auto; [|apply put_eq]. intros g Hg. rewrite put_ne; auto.
Qed.
Lemma next_read_emptied f w0 w : emptied f w0 w -> src w = SFile f 0 -> next_read w = (Eof, w).
Proof. intros (_ & _ & H) E. unfold next_read. rewrite E, H. reflexivity. Qed.
Lemma safe_at_eof (w0 w : world) f (k : event -> io unit) : emptied f w0 w -> src w = SFile f 0 ->
  (k IoErr = Ret tt) -> (k Eof = Ret tt) -> safe (lost f w0) (fun _ => emptied f w0) (ReadIn k) w.
Proof.
  intros H S E1 E2. cbn [safe]. rewrite (next_read_emptied f w0 w H S). cbn [fst snd]. rewrite E1, E2. cbn [safe]. auto using emptied_lost.
Qed.
Lemma safe_at_eof_seq {S} (w0 w : world) f (fuel : nat) (body : nat -> S -> io S) s (k : S -> io unit) : emptied f w0 w -> src w = SFile f 0 ->
  (k s = Ret tt) -> safe (lost f w0) (fun _ => emptied f w0) (seq_io (while_read_io fuel body s) k) w.
Proof.
  intros H Hs E. destruct fuel; cbn [while_read_io seq_io]; [cbn [safe]; now apply emptied_lost|].
  apply safe_at_eof; auto.
Qed.
Section InPlace.
Variables (f : name) (w0 : world) (text : str).
Hypothesis Hf : files w0 f = Some text.
Notation L := (lost f w0).
Notation E := (emptied f w0).
Lemma L0 : L w0.
Proof. repeat split; auto. Qed.
Lemma create_open_in_place (k : io unit) : (forall w, E w -> src w = SFile f 0 -> safe L (fun _ => E) k w) ->
  safe L (fun _ => E) (CreateOut (Some f) (OpenIn (Some f) k)) w0.
Proof.
  intros H. cbn [safe]. split; [apply L0|]. assert (E1 : E (create_out w0 (Some f))) by (apply emptied_create; auto).
  split; [now apply emptied_lost|]. intros _. apply H; [exact E1|reflexivity].
Qed.
Lemma mtf_in_place fuel : safe L (fun _ => E) (mtf_io fuel (Some f) (Some f)) w0.
Proof. apply create_open_in_place. intros w H S. now apply (safe_at_eof_seq w0 w f). Qed.
Lemma rle_in_place fuel h z : safe L (fun _ => E) (rle_io fuel h z (Some f) (Some f)) w0.
Proof. apply create_open_in_place. intros w H S. destruct h; [|destruct z]; now apply (safe_at_eof w0 w f). Qed.
Lemma escape_in_place n esc from to b : safe L (fun _ => E) (escape_io n esc from to b (Some f) (Some f)) w0.
Proof.
  unfold escape_io. cbn [safe]. split; [apply L0|]. intros _. split; [repeat split; auto|].
  assert (E1 : E (create_out (open_in w0 (Some f)) (Some f))) by (apply emptied_create; auto).
  pose proof (emptied_lost _ _ _ E1) as L1.
  assert (S1 : src (create_out (open_in w0 (Some f)) (Some f)) = SFile f 0) by reflexivity.
  apply safe_lift; [exact L1|]. intros _ _.
  destruct b; (apply safe_lift; [exact L1|]); intros m _; (destruct n; cbn [escape_rev_io escape_fwd_io]; [cbn [safe]; auto|]); now apply (safe_at_eof w0 _ f).
Qed.
Lemma reverse_main_nil p : reverse_main true [] p = Ok [].
Proof. unfold reverse_main. rewrite file_ok. cbn [bind]. now destruct (0 <? p); rewrite ?firstn_nil. Qed.
Lemma reverse_in_place p : safe L (fun _ => E) (reverse_io p (Some f) (Some f)) w0.
Proof.
  unfold reverse_io. cbn [safe]. split; [apply L0|].
  assert (E1 : E (create_out w0 (Some f))) by (apply emptied_create; auto). pose proof (emptied_lost _ _ _ E1) as L1.
  split; [exact L1|]. intros t Et. assert (t = []) as -> by (destruct E1 as (_ & _ & Ef); cbn [contents] in Et; congruence).
  cbn [is_some]. rewrite reverse_main_nil. cbn [lift seq_io write_ safe].
  split; [|cbn; auto]. intros b1 b2 Eb. symmetry in Eb. apply app_eq_nil in Eb. destruct Eb as (-> & _). exact L1.
Qed.
Lemma mtf_in_place_run fuel : 0 < fuel -> exists w, run (mtf_io fuel (Some f) (Some f)) w0 = (w, Ok tt) /\ E w.
Proof.
  intros Hfu. destruct fuel; [lia|]. assert (E1 : E (create_out w0 (Some f))) by (apply emptied_create; auto).
  unfold mtf_io, mtf_stream. cbn [run contents]. rewrite (proj2 (proj2 E1)).
  cbn [while_read_io seq_io run]. rewrite (next_read_emptied f w0) by (auto; reflexivity). cbn [fst snd seq_io run]. eauto.
Qed.
Lemma rle_in_place_run fuel h z : exists w, run (rle_io fuel h z (Some f) (Some f)) w0 = (w, Ok tt) /\ E w.
Proof.
  assert (E1 : E (create_out w0 (Some f))) by (apply emptied_create; auto).
  unfold rle_io. cbn [run contents]. rewrite (proj2 (proj2 E1)).
  destruct h; [|destruct z]; unfold rle_text_stream, rle_zero_stream, rle_stream; cbn [run];
    (rewrite (next_read_emptied f w0) by (auto; reflexivity)); cbn [fst snd run]; eauto.
Qed.
Lemma reverse_in_place_run p : exists w, run (reverse_io p (Some f) (Some f)) w0 = (w, Ok tt) /\ E w.
Proof.
  assert (E1 : E (create_out w0 (Some f))) by (apply emptied_create; auto).
  unfold reverse_io. cbn [run contents]. rewrite (proj2 (proj2 E1)). cbn [is_some]. rewrite reverse_main_nil. cbn [lift seq_io write_ run fold_left].
  eauto.
Qed.
Lemma escape_in_place_run n esc from to b : exists w r, run (escape_io n esc from to b (Some f) (Some f)) w0 = (w, r) /\ E w.
Proof.
  assert (E1 : E (create_out (open_in w0 (Some f)) (Some f))) by (apply emptied_create; auto).
  assert (S1 : src (create_out (open_in w0 (Some f)) (Some f)) = SFile f 0) by reflexivity.
  unfold escape_io. cbn [run contents]. rewrite Hf. revert E1 S1. generalize (create_out (open_in w0 (Some f)) (Some f)). intros w E1 S1.
  destruct (assert_ (escape_checks esc from to)) as [[]| |]; cbn [lift seq_io run]; eauto.
  destruct b.
  - destruct (build_map to from) as [m| |]; cbn [lift seq_io run]; eauto. destruct n; cbn [escape_rev_io run]; eauto.
    rewrite (next_read_emptied f w0 w E1 S1). cbn [fst snd run]. eauto.
  - destruct (build_map from to) as [m| |]; cbn [lift seq_io run]; eauto. destruct n; cbn [escape_fwd_io run]; eauto.
    rewrite (next_read_emptied f w0 w E1 S1). cbn [fst snd run]. eauto.
Qed.
End InPlace.

(** factor files *)
Lemma fmt_factor_ok f : is_factor_text (fmt_factor f) f.
Proof. exists (dec_usize (lz_pos f)), (dec_usize (lz_len f)). split; [apply dec_usize_ok|]. split; [apply dec_usize_ok|reflexivity]. Qed.
Lemma factor_text_ok fs : is_factor_file (factor_text fs) fs.
Proof.
  exists (map fmt_factor fs). split; [reflexivity|]. induction fs as [|f fs IH]; cbn [map]; constructor; auto using fmt_factor_ok.
Qed.
Definition digits (ds : str) : Prop := Forall (fun d => 48 <= d <= 57) ds.
Lemma digits_sep ds es x y (r s : str) : digits ds -> digits es -> ~ 48 <= x <= 57 -> ~ 48 <= y <= 57 ->
  ds ++ x :: r = es ++ y :: s -> ds = es /\ r = s.
Proof.
  revert es. induction ds as [|d ds IH]; intros [|e es] D1 D2 X Y E; cbn [app] in E; inversion D1; inversion D2; subst.
  - injection E as _ ->. auto.
  - injection E as -> _. contradiction.
  - injection E as -> _. contradiction.
  - injection E as -> E. destruct (IH es) as (-> & ->); auto.
Qed.
Lemma factor_file_inj pieces fs pieces' gs : Forall2 is_factor_text pieces fs -> Forall2 is_factor_text pieces' gs ->
  concat pieces = concat pieces' -> fs = gs.
Proof.
  intros H. revert pieces' gs. induction H as [|w f pieces fs Hw H IH]; intros pieces' gs H' E.
  - destruct H' as [|w' g pieces' gs Hw' H']; [reflexivity|]. destruct Hw' as (ds & es & _ & _ & ->). discriminate.
  - destruct H' as [|w' g pieces' gs Hw' H']; [destruct Hw as (ds & es & _ & _ & ->); discriminate|].
    destruct Hw as (ds & es & D & D' & ->), Hw' as (ds' & es' & D1 & D1' & ->). cbn [concat] in E. rewrite <- !app_assoc in E. cbn [app] in E.
    injection E as E. destruct D as (Dd & _ & _ & Dv), D' as (Ed & _ & _ & Ev), D1 as (Dd1 & _ & _ & Dv1), D1' as (Ed1 & _ & _ & Ev1).
    apply digits_sep in E; auto; try lia. destruct E as (E1 & E).
    apply digits_sep in E; auto; try lia. destruct E as (E2 & E). f_equal.
    + destruct f, g. cbn in *. congruence.
    + exact (IH pieces' gs H' E).
Qed.

(** read, compute a factorization, create, write it *)
Section Factors.
Variables (i : option name) (f : name) (w0 : world) (content : str).
Hypothesis Hout : stdout w0 = [].
Hypothesis Hin : contents w0 i = Some content.
Variable R : str -> res (list lzfactor).
Notation prog := (Slurp i (fun content => fs <~ lift (R content) ; CreateOut (Some f) (write_factors fs))).
Notation I := (crash_ok (Some f) w0 (fun out => exists fs, R content = Ok fs /\ prefix out (factor_text fs))).
Lemma factors_safe : safe I (fun _ w => exists fs, R content = Ok fs /\ wr (Some f) w0 w (factor_text fs)) prog w0.
Proof.
  assert (I1 : I w0) by (split; [apply untouched_refl|now left]). cbn [safe]. split; [exact I1|].
  intros t Et. rewrite Hin in Et. injection Et as <-. apply safe_lift; [exact I1|]. intros fs E. cbn [safe]. split; [exact I1|].
  apply (safe_weaken (crash_ok (Some f) w0 (fun out => prefix out (factor_text fs)))).
  { intros w. apply crash_weaken. eauto. }
  eapply safe_imp; [|apply safe_write_factors with (out := []); [apply wr_create; [apply untouched_refl|exact Hout]|reflexivity]].
  cbv beta. intros _ w H. eauto.
Qed.
Lemma factors_run fs : R content = Ok fs -> exists w, run prog w0 = (w, Ok tt) /\ wr (Some f) w0 w (factor_text fs).
Proof.
  intros E. cbn [run]. rewrite Hin, E. cbn [lift seq_io run]. rewrite write_factors_run. eexists. split; [reflexivity|].
  apply (wr_emits (Some f) w0 _ [] (factor_text fs)), wr_create; [apply untouched_refl|exact Hout].
Qed.
Lemma factors_panic : R content = Panic -> run prog w0 = (w0, Panic).
Proof. intros E. cbn [run]. now rewrite Hin, E. Qed.
End Factors.
Lemma seq_lift {A B C} (r : res A) (g : A -> res B) (k : B -> io C) :
  seq_io (lift r) (fun a => seq_io (lift (g a)) k) = seq_io (lift (bind r g)) k.
Proof. destruct r; reflexivity. Qed.

(** lyndonfactorization: the file is written only if everything has been computed *)
Lemma lyndon_file_total t factors l : duval t = Ok factors -> last_ factors = Ok l -> l + 1 = length t ->
  exists out, lyndon_file t factors = Ok out.
Proof.
  intros E1 E2 E3. assert (Hne : prefix_read t 0 <> []) by (intros H; cbn in H; rewrite H in E3; cbn in E3; lia).
  destruct (lyndonfactorization_ok t 0 Hne) as (f1 & fs & sh & out & E & _).
  unfold lyndonfactorization_main in E. rewrite prefix_read_ok in E. cbn [bind prefix_read Nat.eqb] in E. change (prefix_read t 0) with t in E.
  rewrite E1 in E. cbn [bind] in E. rewrite E2 in E. cbn [bind] in E. rewrite E3, Nat.eqb_refl in E. cbn [assert_ bind] in E.
  destruct (lyndon_file t factors) as [o| |]; [eauto|discriminate|discriminate].
Qed.
Section Lyndon.
Variables (i : option name) (f : name) (w0 : world) (content : str) (p : nat).
Hypothesis Hout : stdout w0 = [].
Hypothesis Hin : contents w0 i = Some content.
Definition lyndon_result (b : str) : Prop := exists k, lyndonfactorization_main (is_some i) content p true = Ok (k, Some b).
Notation I := (crash_ok (Some f) w0 (fun out => exists b, lyndon_result b /\ prefix out b)).
Lemma lyndon_safe : safe I (fun _ w => exists b out, lyndon_result b /\ prefix out b /\ wr (Some f) w0 w out) (lyndonfactorization_io p i (Some f)) w0.
Proof.
  assert (I1 : I w0) by (split; [apply untouched_refl|now left]). unfold lyndonfactorization_io. cbn [safe]. split; [exact I1|].
  intros t Et. rewrite Hin in Et. injection Et as <-.
  apply safe_lift; [exact I1|]. intros t E0. apply safe_lift; [exact I1|]. intros factors E1.
  apply safe_lift; [exact I1|]. intros l E2. apply safe_lift; [exact I1|]. intros [] E3.
  assert (E3' : l + 1 = length t) by (destruct (Nat.eqb_spec (l + 1) (length t)); [assumption|discriminate]).
  destruct (lyndon_file_total t factors l E1 E2 E3') as (b & E4).
  assert (LR : lyndon_result b).
  { exists (length factors). unfold lyndonfactorization_main. rewrite E0. cbn [bind]. rewrite E1. cbn [bind]. rewrite E2. cbn [bind]. rewrite E3. cbn [bind]. now rewrite E4. }
  cbn [safe]. split; [exact I1|]. rewrite E4. cbn [lift seq_io].
  apply (safe_weaken (crash_ok (Some f) w0 (fun out => prefix out b))); [intros w; apply crash_weaken; eauto|].
  eapply safe_imp; [|apply safe_write_buf, wr_create; [apply untouched_refl|exact Hout]].
  cbv beta. intros _ w (out & P & W). eauto.
Qed.
Lemma lyndon_run b : lyndon_result b -> exists w, run (lyndonfactorization_io p i (Some f)) w0 = (w, Ok tt) /\ wr (Some f) w0 w b.
Proof.
  intros (k & E). unfold lyndonfactorization_main, lyndonfactorization_io in *. cbn [run]. rewrite Hin.
  destruct (file_or_stdin2byte_vector (is_some i) content p) as [t| |]; cbn [bind lift seq_io] in *; try discriminate.
  destruct (duval t) as [factors| |]; cbn [bind lift seq_io] in *; try discriminate.
  destruct (last_ factors) as [l| |]; cbn [bind lift seq_io] in *; try discriminate.
  destruct (assert_ (l + 1 =? length t)) as [[]| |]; cbn [bind lift seq_io] in *; try discriminate.
  cbn [run]. destruct (lyndon_file t factors) as [o| |]; cbn [bind lift seq_io] in *; try discriminate.
  cbn [write_buf run]. injection E as _ ->. eexists. split; [reflexivity|].
  apply (wr_emits (Some f) w0 _ [] b), wr_create; [apply untouched_refl|exact Hout].
Qed.
End Lyndon.
