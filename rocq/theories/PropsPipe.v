(** PropsPipe.v : property theorem C78 (pipelines of the programs, among them the one documented in README.md). *)
From Verif Require Import Base SpecStr ModelIo SpecIo ModelTools ToolsProof ToolsProof2 RunFacts ModelCore ModelMain SpecMain MainProof2 SpecBwt
  SortFacts PropsIter PropsTools PropsBwt PropsMain.

(** C78: bwt | count_runs prints the number that count_r prints, for all options *)
Theorem C78_bwt_then_count_runs : forall sort is_file content p um nd b rd fuel,
  bwt_main sort is_file content p um nd = Ok b -> delivers rd b -> length b < fuel ->
  exists r, number_of_runs fuel rd = Ok r /\ count_r_main sort is_file content p um nd = Ok (length b, r).
Proof.
  intros sort is_file content p um nd b rd fuel E HD HF. exists (length (runs b)). split.
  - apply (C23_number_of_runs rd b); auto. apply runs_ok.
  - apply C59_count_r; auto. apply runs_ok.
Qed.
Print Assumptions C78_bwt_then_count_runs.

(** README: escape -f 0 -t 255 -e 254 | count_r. With --prefixlength at least the input length the pipeline
    works for every input, its result is that of the matrix BWT of the escaped text, and nothing is lost *)
Theorem C78_escape_then_count_r : forall sort rd bs p, (forall t, is_suffix_array t (sort t)) ->
  delivers rd bs -> length bs <= p ->
  exists e b r, escape_main p 254 [0] [255] false rd = Ok e /\
    count_r_main sort false e 0 false false = Ok (S (length e), r) /\
    is_matrix_bwt (e ++ [0]) b /\ (forall rs, is_runs b rs -> length rs = r) /\
    (forall rd' p', delivers rd' e -> p <= p' -> escape_main p' 254 [0] [255] true rd' = Ok bs).
Proof.
  intros sort rd bs p Hs HD Hp.
  assert (HC : length [0] = length [255] /\ ~ In 254 [0] /\ ~ In 254 [255] /\ (forall x, In x [0] -> ~ In x [255])).
  { repeat split; simpl; intuition lia. }
  destruct HC as (H1 & H2 & H3 & H4).
  destruct (C30_escape_never_panics p 254 [0] [255] rd bs H1 H2 H3 H4 HD) as (e & E).
  assert (Hz : ~ In 0 e) by (apply (C30_escape_removes_from_symbols p 254 [0] [255] rd bs e HD E); now left).
  destruct (C59_bwt_default sort e 0 Hs Hz) as (b & EB & HB).
  assert (EB' : bwt_main sort false e 0 false false = Ok b).
  { rewrite <- EB. unfold bwt_main. rewrite (proj2 (C34_file_stdin_agree_iff e 0)) by lia. reflexivity. }
  exists e, b, (length (runs b)). split; [exact E|]. split; [|split; [exact HB|split]].
  - rewrite (C59_count_r sort false e 0 false false b (runs b) EB' (runs_ok b)). do 2 f_equal.
    rewrite bwt_main_text in EB. cbn iota in EB.
    destruct (C13_bwt_from_text_by_sa sort (e ++ [0]) Hs) as (b' & Eb' & L & _).
    + destruct e; discriminate.
    + rewrite app_length. simpl. rewrite Nat.add_sub, firstn_app, firstn_all, Nat.sub_diag, app_nil_r. exact Hz.
    + change (prefix_read e 0) with e in EB. rewrite EB in Eb'. injection Eb' as <-. rewrite L, app_length. simpl. lia.
  - intros rs HR. now rewrite (is_runs_unique b rs (runs b) HR (runs_ok b)).
  - intros rd' p' HD' Hp'. rewrite (C30_escape_roundtrip p p' 254 [0] [255] rd rd' bs e); auto.
    + now rewrite firstn_all2.
    + simpl. intros i j Hi Hj _. assert (i = 0) by lia. assert (j = 0) by lia. now subst.
Qed.
Print Assumptions C78_escape_then_count_r.
(** as documented, without --prefixlength, the pipeline prints length 1 and 1 run for every input *)
Theorem C78_documented_pipeline_refuted : forall sort rd, (forall t, is_suffix_array t (sort t)) ->
  exists e, escape_main 0 254 [0] [255] false rd = Ok e /\ count_r_main sort false e 0 false false = Ok (1, 1).
Proof.
  intros sort rd Hs. exists []. split; [reflexivity|].
  assert (EB' : bwt_main sort false [] 0 false false = Ok [0]).
  { destruct (C59_bwt_default sort [] 0 Hs ltac:(intros [])) as (b & EB & HB).
    unfold bwt_main in *. rewrite (proj2 (C34_file_stdin_agree_iff [] 0)) by (simpl; lia). rewrite EB. f_equal.
    rewrite C34_file in EB. cbn [bind app Nat.ltb Nat.leb] in EB.
    destruct (C13_bwt_from_text_by_sa sort [0] Hs) as (b' & Eb' & L & P & _); [discriminate|simpl; intuition|].
    rewrite EB in Eb'. injection Eb' as <-. apply Permutation_sym, Permutation_length_1_inv in P. exact P. }
  rewrite (C59_count_r sort false [] 0 false false [0] [(0,1)] EB'); [reflexivity|]. exact (runs_ok [0]).
Qed.
Print Assumptions C78_documented_pipeline_refuted.
(** without escape, count_r panics exactly on the inputs containing a 0 byte *)
Theorem C78_count_r_needs_escape : forall sort bs, (forall t, is_suffix_array t (sort t)) ->
  (count_r_main sort false bs 0 false false = Panic <-> In 0 bs).
Proof.
  intros sort bs Hs. assert (HF : bwt_main sort false bs 0 false false = bwt_from_text_by_sa sort (bs ++ [0])).
  { unfold bwt_main. rewrite (proj2 (C34_file_stdin_agree_iff bs 0)), C34_file by lia. reflexivity. }
  split; intros H.
  - destruct (in_dec Nat.eq_dec 0 bs) as [|N]; auto. exfalso.
    destruct (C13_bwt_from_text_by_sa sort (bs ++ [0]) Hs) as (b & E & _).
    + destruct bs; discriminate.
    + rewrite app_length. simpl. now rewrite Nat.add_sub, firstn_app, firstn_all, Nat.sub_diag, app_nil_r.
    + rewrite <- HF in E. rewrite (C59_count_r sort false bs 0 false false b (runs b) E (runs_ok b)) in H. discriminate.
  - apply C59_count_r_panics. rewrite HF. apply C13_panics. right.
    rewrite app_length. simpl. now rewrite Nat.add_sub, firstn_app, firstn_all, Nat.sub_diag, app_nil_r.
Qed.
Print Assumptions C78_count_r_needs_escape.
(** bwt | mtf | rle: whatever it outputs determines the text *)
Theorem C78_bwt_mtf_rle_lossless : forall sort s s' b b' m m' code rd1 rd1' rd2 rd2' f1 f1' f2 f2',
  (forall t, is_suffix_array t (sort t)) -> bytes s -> bytes s' ->
  bwt_main sort true s 0 false false = Ok b -> bwt_main sort true s' 0 false false = Ok b' ->
  delivers rd1 b -> length b < f1 -> mtf f1 rd1 = Ok m -> delivers rd1' b' -> length b' < f1' -> mtf f1' rd1' = Ok m' ->
  delivers rd2 m -> length m < f2 -> rle f2 rd2 = Ok code -> delivers rd2' m' -> length m' < f2' -> rle f2' rd2' = Ok code ->
  s = s'.
Proof.
  intros sort s s' b b' m m' code rd1 rd1' rd2 rd2' f1 f1' f2 f2' Hs HB HB' E E' D1 L1 M1 D1' L1' M1' D2 L2 R2 D2' L2' R2'.
  assert (Hm : m = m').
  { destruct (C27_rle rd2 m (runs m) f2 D2 (runs_ok m) L2) as (_ & A & _). destruct (A code R2) as (A1 & _).
    destruct (C27_rle rd2' m' (runs m') f2' D2' (runs_ok m') L2') as (_ & B & _). destruct (B code R2') as (B1 & _).
    congruence. }
  subst m'.
  assert (HT : forall s b, bwt_main sort true s 0 false false = Ok b -> ~ In 0 s /\ Permutation b (s ++ [0]) /\ bwt_from_text_by_sa sort (s ++ [0]) = Ok b).
  { clear - Hs. intros s b E. rewrite bwt_main_text in E. cbn iota in E. change (prefix_read s 0) with s in E.
    assert (N : ~ In 0 s).
    { intros H. rewrite C13_panics in E; [discriminate|]. right.
      rewrite app_length. simpl. now rewrite Nat.add_sub, firstn_app, firstn_all, Nat.sub_diag, app_nil_r. }
    split; [exact N|]. destruct (C13_bwt_from_text_by_sa sort (s ++ [0]) Hs) as (b' & E' & _ & P & _).
    + destruct s; discriminate.
    + rewrite app_length. simpl. now rewrite Nat.add_sub, firstn_app, firstn_all, Nat.sub_diag, app_nil_r.
    + rewrite E in E'. injection E' as <-. auto. }
  assert (HM : forall s b m rd f, bytes s -> bwt_main sort true s 0 false false = Ok b -> delivers rd b -> length b < f -> mtf f rd = Ok m ->
     mtf_decode (seq 0 255) m = Some b).
  { clear - HT. intros s b m rd f HB E D L M. destruct (HT s b E) as (_ & P & _).
    assert (HBb : bytes b).
    { apply (Permutation_Forall (Permutation_sym P)). apply Forall_app. split; [exact HB|]. constructor; [lia|constructor]. }
    assert (H255 : Forall (fun c => c < 255) b).
    { apply Forall_forall. intros c Hc. destruct (Nat.eq_dec c 255) as [->|]; [|unfold bytes in HBb; rewrite Forall_forall in HBb; specialize (HBb c Hc); lia].
      rewrite (C26_mtf_panics_on_255 rd b f D L HBb Hc) in M. discriminate. }
    destruct (C26_mtf_decodable rd b f D L H255) as (m' & M' & _ & _ & Q). congruence. }
  pose proof (HM s b m rd1 f1 HB E D1 L1 M1) as Q. pose proof (HM s' b' m rd1' f1' HB' E' D1' L1' M1') as Q'.
  rewrite Q in Q'. injection Q' as <-.
  destruct (HT s b E) as (N & _ & T). destruct (HT s' b E') as (N' & _ & T').
  exact (C17_dollar_bwt_injective sort s s' b Hs N N' T T').
Qed.
Print Assumptions C78_bwt_mtf_rle_lossless.
Example C78_case : bwt_main naive_sort true (ascii "banana") 0 false false = Ok (ascii "annb" ++ [0] ++ ascii "aa") /\
  mtf 9 (reader_of (ascii "annb" ++ [0] ++ ascii "aa")) = Ok [97;110;0;99;3;3;0] /\
  rle 9 (reader_of [97;110;0;99;3;3;0]) = Ok [97;0;110;0;0;0;99;0;3;1;0;0] /\
  escape_main 3 254 [0] [255] false (reader_of [1;0;1]) = Ok [1;254;255;1] /\
  count_r_main naive_sort false [1;254;255;1] 0 false false = Ok (5, 5).
Proof. vm_compute. auto. Qed.
