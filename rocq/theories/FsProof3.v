(** FsProof3.v : the programs of ModelFs.v. *)
From Verif Require Import Base SpecStr SpecWord ModelIo SpecIo ModelTools RunFacts ToolsProof ToolsProof2 ModelCore ModelMain ModelLz SpecFs ModelFs FsProof FsProof2.

Section Stream.
Variables (i o : option name) (w0 : world) (text : str).
Hypothesis Hout : stdout w0 = [].
Hypothesis Hin : contents w0 i = Some text.
Hypothesis Hio : forall f, i = Some f -> o <> Some f.
Notation fr := (frame i o w0 text).
Notation crash F := (crash_ok o w0 (partial_output F text)).
Notation done := (done o w0 text).
Notation ends := (ends o w0 text).

Lemma create_open_safe (F : str -> res str) (k : io unit) : F [] = Ok [] -> (forall w, fr w [] [] -> safe (crash F) (fun _ => done F) k w) ->
  safe (crash F) (fun _ => done F) (CreateOut o (OpenIn i k)) w0.
Proof.
  intros F0 H. pose proof (partial_nil text F F0) as G. cbn [safe]. split; [apply I0|].
  split; [now apply I_create|]. intros _. apply H, fr_create_open; auto.
Qed.
Lemma create_open_run (F : str -> res str) (k : io unit) : (forall w, fr w [] [] -> ends F k w) -> ends F (CreateOut o (OpenIn i k)) w0.
Proof.
  intros H. pose proof (fr_create_open i o w0 text Hout Hin Hio) as F0. specialize (H _ F0).
  unfold FsProof2.ends in *. cbn [run].
  assert (C : contents (create_out w0 o) i = Some text).
  { unfold contents in *. destruct i as [f|], o as [g|]; cbn; auto. rewrite put_ne; auto. intros ->. exact (Hio g eq_refl eq_refl). }
  rewrite C. exact H.
Qed.
Lemma mtf_io_safe fuel : safe (crash mtf_out) (fun _ => done mtf_out) (mtf_io fuel i o) w0.
Proof. apply create_open_safe; [reflexivity|]. intros w F. now apply mtf_safe with (i := i). Qed.
Lemma mtf_io_run fuel : length text < fuel -> ends mtf_out (mtf_io fuel i o) w0.
Proof. intros L. apply create_open_run. intros w F. now apply mtf_run with (i := i). Qed.
Lemma rle_io_safe fuel human onlyzero : safe (crash (rle_out human onlyzero)) (fun _ => done (rle_out human onlyzero)) (rle_io fuel human onlyzero i o) w0.
Proof.
  apply create_open_safe; [destruct human, onlyzero; reflexivity|]. intros w F.
  destruct human; [now apply rle_text_safe with (i := i)|]. destruct onlyzero; [now apply rle_zero_safe with (i := i)|now apply rle_safe with (i := i)].
Qed.
Lemma rle_io_run fuel human onlyzero : length text <= fuel -> ends (rle_out human onlyzero) (rle_io fuel human onlyzero i o) w0.
Proof.
  intros L. apply create_open_run. intros w F.
  destruct human; [now apply rle_text_run with (i := i)|]. destruct onlyzero; [now apply rle_zero_run with (i := i)|now apply rle_run with (i := i)].
Qed.

Section Escape.
Variables (n esc : nat) (from to : str).
Hypothesis Hchk : escape_checks esc from to = true.
Lemma fwd_out q : escape_out n esc from to false q = fwd_l esc (List.rev (combine from to)) n q [].
Proof.
  unfold escape_out, escape_main. rewrite Hchk. cbn [assert_ bind].
  rewrite build_map_ok by apply (proj1 (checks_iff esc from to) Hchk). cbn [bind].
  exact (escape_fwd_l esc (List.rev (combine from to)) n [] q []).
Qed.
Lemma rev_out q : escape_out n esc from to true q = rev_l esc (List.rev (combine to from)) n q [].
Proof.
  unfold escape_out, escape_main. rewrite Hchk. cbn [assert_ bind].
  rewrite build_map_ok by (symmetry; apply (proj1 (checks_iff esc from to) Hchk)). cbn [bind].
  exact (escape_rev_l esc (List.rev (combine to from)) n [] q []).
Qed.
Lemma escape_io_safe (b : bool) : safe (crash (escape_out n esc from to b)) (fun _ => done (escape_out n esc from to b)) (escape_io n esc from to b i o) w0.
Proof.
  set (F := escape_out n esc from to b).
  assert (F0 : F [] = Ok []) by (unfold F; destruct b; [rewrite rev_out, rev_l_nil|rewrite fwd_out, fwd_l_nil]; reflexivity).
  pose proof (partial_nil text F F0) as G. unfold escape_io. cbn [safe]. split; [apply I0|]. intros _.
  split; [now apply I_open|]. rewrite Hchk. cbn [assert_ lift seq_io].
  pose proof (fr_open_create i o w0 text Hout Hin Hio) as F1.
  destruct b.
  - rewrite build_map_ok by (symmetry; apply (proj1 (checks_iff esc from to) Hchk)). cbn [lift seq_io].
    apply (rev_safe i o w0 text Hin Hio esc _ F n rev_out n _ [] []); auto.
  - rewrite build_map_ok by apply (proj1 (checks_iff esc from to) Hchk). cbn [lift seq_io].
    apply (fwd_safe i o w0 text Hin Hio esc _ F n fwd_out n _ [] []); auto.
Qed.
Lemma escape_io_run (b : bool) : ends (escape_out n esc from to b) (escape_io n esc from to b i o) w0.
Proof.
  pose proof (fr_open_create i o w0 text Hout Hin Hio) as F1. unfold FsProof2.ends, escape_io. cbn [run]. rewrite Hin, Hchk. cbn [assert_ lift seq_io].
  destruct b.
  - rewrite rev_out, build_map_ok by (symmetry; apply (proj1 (checks_iff esc from to) Hchk)). cbn [lift seq_io].
    apply (rev_run i o w0 text Hin Hio esc _ n _ [] text []); auto.
  - rewrite fwd_out, build_map_ok by apply (proj1 (checks_iff esc from to) Hchk). cbn [lift seq_io].
    apply (fwd_run i o w0 text Hin Hio esc _ n _ [] text []); auto.
Qed.
End Escape.
End Stream.

Lemma fwd_l_fuel esc m n : forall q out, fwd_l esc m n q out <> OutOfFuel.
Proof. induction n as [|n IH]; intros [|c q] out; cbn [fwd_l]; try discriminate. destruct (c =? esc); apply IH. Qed.
Lemma rev_l_fuel esc m n : forall q out, rev_l esc m n q out <> OutOfFuel.
Proof.
  induction n as [|n IH]; intros [|c q] out; cbn [rev_l]; try discriminate. destruct (c =? esc); [|apply IH]. destruct q as [|d q]; [discriminate|].
  destruct (d =? esc); [apply IH|]. destruct (hm_get m d); [apply IH|discriminate].
Qed.
(** prefixes of codes decode to prefixes of texts *)
Lemma mtf_decode_prefix a : forall al b x, mtf_decode al (a ++ b) = Some x -> exists y, mtf_decode al a = Some y /\ prefix y x.
Proof.
  induction a as [|p a IH]; intros al b x H; [exists []; split; [reflexivity|apply prefix_nil]|].
  cbn [app mtf_decode] in *. destruct (nth_error al p) as [c|]; [|discriminate].
  destruct (mtf_decode (c :: remove_nth p al) (a ++ b)) as [x'|] eqn:E; [|discriminate]. destruct (IH _ _ _ E) as (y & -> & (r & ->)).
  cbn in H. injection H as <-. exists (c :: y). split; [reflexivity|now exists r].
Qed.
Lemma mtf_partial text out : partial_output mtf_out text out -> exists q, mtf_decode (seq 0 255) out = Some q /\ prefix q text.
Proof.
  intros (q & code & (r & ->) & E & (s & ->)).
  destruct (Forall_dec (fun c => c < 255) ltac:(intros; apply lt_dec) q) as [H|H].
  - destruct (mtf_ok (reader_of q) q (S (length q)) (reader_of_delivers q) ltac:(lia) H) as (code & E' & _ & _ & D).
    unfold mtf_out in E. rewrite E in E'. injection E' as <-. destruct (mtf_decode_prefix out _ _ _ D) as (y & Ey & (t & ->)).
    exists y. split; [exact Ey|]. exists (t ++ r). now rewrite app_assoc.
  - unfold mtf_out in E. rewrite (mtf_panic (reader_of q) q) in E; [discriminate|auto using reader_of_delivers|lia|exact H].
Qed.
Lemma rle_decode_prefix n : forall a b x, length a <= n -> rle_decode (a ++ b) = Some x ->
  exists z y, (a = z \/ exists c, a = z ++ [c]) /\ rle_decode z = Some y /\ prefix y x.
Proof.
  induction n as [|n IH]; intros a b x L H.
  - destruct a; [|cbn in L; lia]. exists [], []. split; [now left|]. split; [reflexivity|apply prefix_nil].
  - destruct a as [|c [|l a]].
    + exists [], []. split; [now left|]. split; [reflexivity|apply prefix_nil].
    + exists [], []. split; [right; now exists c|]. split; [reflexivity|apply prefix_nil].
    + cbn [app rle_decode] in H. destruct (rle_decode (a ++ b)) as [x'|] eqn:E; [|discriminate]. cbn [option_map] in H.
      destruct (IH a b x' ltac:(cbn in L; lia) E) as (z & y & Z & Ey & (r & ->)).
      exists (c :: l :: z), (repeat c (S l) ++ y). split; [|split].
      * destruct Z as [->|(d & ->)]; [now left|right; now exists d].
      * cbn [rle_decode]. rewrite Ey. reflexivity.
      * exists r. rewrite <- app_assoc. congruence.
Qed.
Lemma prefix_flat_map (g : nat -> str) e : (forall x, (exists y, g x = [y]) \/ (exists y, g x = [e; y])) ->
  forall l out, prefix out (flat_map g l) -> exists l1, prefix l1 l /\ (out = flat_map g l1 \/ out = flat_map g l1 ++ [e]).
Proof.
  intros Hg. induction l as [|x l IH]; intros out (r & E).
  - cbn in E. symmetry in E. apply app_eq_nil in E. destruct E as (-> & _). exists []. split; [apply prefix_nil|now left].
  - cbn [flat_map] in E. assert (D : out = [] \/ out = [e] \/ exists out', out = g x ++ out' /\ flat_map g l = out' ++ r).
    { destruct (Hg x) as [(y & Ex)|(y & Ex)]; rewrite Ex in *; cbn [app] in E |- *.
      - destruct out as [|z out]; [now left|]. right. right. cbn [app] in E. injection E as <- E. eauto.
      - destruct out as [|z [|z' out]]; [now left| |]; cbn [app] in E; [right; left; congruence|]. right. right. injection E as <- <- E. eauto. }
    destruct D as [->|[->|(out' & -> & E')]].
    + exists []. split; [apply prefix_nil|now left].
    + exists []. split; [apply prefix_nil|now right].
    + destruct (IH out') as (l1 & (s & ->) & D); [now exists r|]. exists (x :: l1). split; [now exists s|].
      cbn [flat_map]. destruct D as [-> | ->]; [now left|right]. now rewrite app_assoc.
Qed.
Lemma prefix_trans (a b c : str) : prefix a b -> prefix b c -> prefix a c.
Proof. intros (r & ->) (s & ->). exists (r ++ s). now rewrite app_assoc. Qed.
Lemma escape_partial n esc from to text out : escape_checks esc from to = true ->
  partial_output (escape_out n esc from to false) text out ->
  exists z q, (out = z \/ out = z ++ [esc]) /\ prefix q text /\ length q <= n /\ escape_main n esc from to false (reader_of q) = Ok z.
Proof.
  intros HC (q & code & P & E & P').
  unfold escape_out in E. rewrite (escape_main_fwd n esc from to _ q HC (reader_of_delivers q)) in E. injection E as <-.
  destruct (prefix_flat_map (esc1 esc (rev (combine from to))) esc) with (l := firstn n q) (out := out) as (l1 & P1 & D); auto.
  { intros x. unfold esc1. destruct (x =? esc); [right; eauto|]. destruct (hm_get _ x); [right|left]; eauto. }
  assert (L : length l1 <= n) by (destruct P1 as (r & P1); apply (f_equal (@length nat)) in P1; rewrite app_length, firstn_length in P1; lia).
  exists (flat_map (esc1 esc (rev (combine from to))) l1), l1. split; [exact D|]. split; [|split; [exact L|]].
  - apply (prefix_trans _ _ _ P1). apply (prefix_trans _ q); [|exact P]. exists (skipn n q). now rewrite firstn_skipn.
  - rewrite (escape_main_fwd n esc from to _ l1 HC (reader_of_delivers l1)). now rewrite firstn_all2.
Qed.
