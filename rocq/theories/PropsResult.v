(** PropsResult.v : property theorems C96, C97, the RESULT lines of the analytic tools. [sort] stands for cdivsufsort,
    [time] for the measured time, [name] for the name of the input; [naive_sort] is an instance of [sort]. *)
From Verif Require Import Base SpecStr SpecIo SpecMain SpecBwt SpecLz SpecLex SpecResult LexFacts SortFacts.
From Verif Require Import ModelIo ModelCore ModelTools ModelLz ModelMain ModelEntropy ModelResult ResultProof MainProof2.
From Verif Require Import PropsTools PropsLz PropsLex PropsMain PropsLyndon.
From Coq Require Import NArith.

(** C96 *)
(** a line has at most one reading as a list of fields *)
Theorem C96_fields_unique : forall line fs fs', result_line line fs -> result_line line fs' -> fs = fs'.
Proof. exact result_line_unique. Qed.
Print Assumptions C96_fields_unique.

(** count_sigma; D lists the different bytes of what was read *)
Theorem C96_count_sigma : forall time infile content p s D, reads infile content p s -> word_like (shown_name infile) ->
  bytes s -> NoDup D -> (forall c, In c D <-> In c s) -> length D <= 255 ->
  exists line dt dn ds, count_sigma_out time infile content p = Ok line /\
    result_line line [(ascii "algo", ascii "count_sigma"); (ascii "time_ms", dt); (ascii "length", dn); (ascii "sigma", ds);
                      (ascii "file", shown_name infile)] /\
    is_decimal dt time /\ is_decimal dn (length s) /\ is_decimal ds (length D).
Proof.
  intros time infile content p s D R HN HB ND HD HL. unfold count_sigma_out. rewrite (reads_ok _ _ _ _ R). cbn [bind].
  rewrite (proj1 (C32_count_sigma s D HB ND HD) HL). cbn [bind].
  eexists _, (dec_usize time), (dec_usize (length s)), (dec_usize (length D)). split; [reflexivity|].
  split; [|auto using dec_usize_ok]. unfold println. change (get_filename infile) with (shown_name infile).
  match goal with |- result_line _ ?f => replace (result_line _ f) with (result_line (ascii "RESULT" ++ joined f ++ newline) f) end.
  - apply result_line_joined. pl. split; [discriminate|split; cbn; lia].
  - f_equal. cbn [joined kv fst snd]. rewrite app_nil_r. rewrite <- !app_assoc. reflexivity.
Qed.
Print Assumptions C96_count_sigma.

(** more than 255 different bytes: no line *)
Theorem C96_count_sigma_panics : forall time infile content p s D, reads infile content p s ->
  bytes s -> NoDup D -> (forall c, In c D <-> In c s) -> 255 < length D -> count_sigma_out time infile content p = Panic.
Proof.
  intros time infile content p s D R HB ND HD HL. unfold count_sigma_out. rewrite (reads_ok _ _ _ _ R). cbn [bind].
  now rewrite (proj2 (C32_count_sigma s D HB ND HD) HL).
Qed.
Print Assumptions C96_count_sigma_panics.

Lemma two_blank (name dn al dt df : str) :
  word_like name -> word_like dn -> word_like al -> word_like dt -> word_like df ->
  result_line (println ((lit "RESULT file=" ++ name ++ lit " length=" ++ dn ++ lit " ") ++ lit " algo=" ++ al ++ lit " time_ms=" ++ dt ++ lit " factors=" ++ df))
    [(ascii "file", name); (ascii "length", dn); (ascii "algo", al); (ascii "time_ms", dt); (ascii "factors", df)].
Proof.
  intros Hn Hd Ha Ht Hf.
  replace (println ((lit "RESULT file=" ++ name ++ lit " length=" ++ dn ++ lit " ") ++ lit " algo=" ++ al ++ lit " time_ms=" ++ dt ++ lit " factors=" ++ df))
    with ((lit "RESULT file=" ++ name ++ lit " length=" ++ dn) ++ [32; 32] ++ (lit "algo=" ++ al ++ lit " time_ms=" ++ dt ++ lit " factors=" ++ df ++ newline)).
  2: { unfold println. rewrite <- !app_assoc. reflexivity. }
  apply result_line_two.
  match goal with |- result_line _ ?f => replace (result_line _ f) with (result_line (ascii "RESULT" ++ joined f ++ newline) f) end.
  - apply result_line_joined. pl.
  - f_equal. cbn [joined kv fst snd]. rewrite app_nil_r. rewrite <- !app_assoc. reflexivity.
Qed.
Lemma word_lit a : lit a <> [] -> ~ In 32 (lit a) -> ~ In 10 (lit a) -> word_like (lit a).
Proof. repeat split; assumption. Qed.
Lemma sort_length sort t : (forall t, is_suffix_array t (sort t)) -> length (sort t) = length t.
Proof. intros H. destruct (H t) as [P _]. apply Permutation_length in P. now rewrite seq_length in P. Qed.

(** count_z: the length of the text and the smallest number of factors of an LZ77-like parsing *)
Theorem C96_count_z : forall sort time infile content p s, (forall t, is_suffix_array t (sort t)) ->
  reads infile content p s -> word_like (shown_name infile) -> s <> [] -> bytes s -> (N.of_nat (length s) < 2^32)%N ->
  exists line dt dn df z, count_z_out sort time infile content p = Ok line /\
    result_line line [(ascii "file", shown_name infile); (ascii "length", dn); (ascii "algo", ascii "lz77");
                      (ascii "time_ms", dt); (ascii "factors", df)] /\
    is_decimal dt time /\ is_decimal dn (length s) /\ is_decimal df z /\
    parsable s 0 z /\ forall k, parsable s 0 k -> z <= k.
Proof.
  intros sort time infile content p s Hs R HN Hne HB H32. unfold count_z_out. rewrite (reads_ok _ _ _ _ R). cbn [bind].
  destruct (C37_lz77_minimal sort s Hs Hne HB H32) as (fs & -> & P1 & P2). cbn [bind]. cbv zeta.
  rewrite (sort_length sort s Hs). eexists _, (dec_usize time), (dec_usize (length s)), (dec_usize (length fs)), (length fs).
  split; [reflexivity|]. split; [|auto 6 using dec_usize_ok].
  apply (two_blank (shown_name infile) (dec_usize (length s)) (lit "lz77") (dec_usize time) (dec_usize (length fs)) HN);
    auto using word_dec. apply word_lit; [discriminate|cbn; lia|cbn; lia].
Qed.
Print Assumptions C96_count_z.
(** count_lexparse: the length of the text and the number of factors of its lexparse *)
Theorem C96_count_lexparse : forall sort time infile content p s gs, (forall t, is_suffix_array t (sort t)) ->
  reads infile content p s -> word_like (shown_name infile) -> s <> [] -> is_lexparse s 0 gs ->
  exists line dt dn df, count_lexparse_out sort time infile content p = Ok line /\
    result_line line [(ascii "file", shown_name infile); (ascii "length", dn); (ascii "algo", ascii "lexparse");
                      (ascii "time_ms", dt); (ascii "factors", df)] /\
    is_decimal dt time /\ is_decimal dn (length s) /\ is_decimal df (length gs).
Proof.
  intros sort time infile content p s gs Hs R HN Hne HG. unfold count_lexparse_out. rewrite (reads_ok _ _ _ _ R). cbn [bind].
  destruct (C73_size sort s Hs Hne) as (fs & gs' & -> & _ & EL & U). rewrite (U gs HG), <- EL. cbn [bind]. cbv zeta.
  eexists _, (dec_usize time), (dec_usize (length s)), (dec_usize (length fs)).
  split; [reflexivity|]. split; [|auto 6 using dec_usize_ok].
  apply (two_blank (shown_name infile) (dec_usize (length s)) (lit "lexparse") (dec_usize time) (dec_usize (length fs)) HN);
    auto using word_dec. apply word_lit; [discriminate|cbn; lia|cbn; lia].
Qed.
Print Assumptions C96_count_lexparse.
(** lyndonfactorization: the number of Lyndon factors; the field "length" shows the option --prefixlength *)
Theorem C96_lyndonfactorization : forall time infile content p s fs,
  reads infile content p s -> word_like (shown_name infile) -> s <> [] -> lyndon_factorization s fs ->
  exists line dt dp df, lyndonfactorization_out time infile content p = Ok line /\
    result_line line [(ascii "file", shown_name infile); (ascii "length", dp); (ascii "algo", ascii "duval");
                      (ascii "time_ms", dt); (ascii "factors", df)] /\
    is_decimal dt time /\ is_decimal dp p /\ is_decimal df (length fs).
Proof.
  intros time infile content p s fs R HN Hne HF.
  destruct (C60_lyndonfactorization s 0 Hne) as (f1 & fs0 & sh & out & _ & E & HL & _). change (prefix_read s 0) with s in *.
  rewrite (C02_lyndon_factorization_unique s _ _ HF HL). clear HF.
  unfold lyndonfactorization_main in E. rewrite prefix_read_ok in E. change (prefix_read s 0) with s in E. cbn [bind] in E.
  unfold lyndonfactorization_out. rewrite (reads_ok _ _ _ _ R). cbn [bind]. cbv zeta.
  destruct (duval s) as [factors| |]; try discriminate. cbn [bind] in *. destruct (last_ factors) as [l| |]; try discriminate. cbn [bind] in *.
  destruct (assert_ (l + 1 =? length s)); try discriminate. cbn [bind] in *. injection E as E. rewrite E.
  eexists _, (dec_usize time), (dec_usize p), (dec_usize (length (f1 :: fs0))).
  split; [reflexivity|]. split; [|auto 6 using dec_usize_ok].
  apply (two_blank (shown_name infile) (dec_usize (p)) (lit "duval") (dec_usize time) (dec_usize (length (f1 :: fs0))) HN);
    auto using word_dec. apply word_lit; [discriminate|cbn; lia|cbn; lia].
Qed.
Print Assumptions C96_lyndonfactorization.
(** so the naive claim fails: for a whole file the shown length is 0 *)
Theorem C96_lyndonfactorization_length_refuted : forall time infile content, word_like (shown_name infile) -> content <> [] ->
  exists line fs, lyndonfactorization_out time infile content 0 = Ok line /\ result_line line fs /\
    In (ascii "length", ascii "0") fs /\ forall d, is_decimal d (length content) -> ~ In (ascii "length", d) fs.
Proof.
  intros time infile content HN Hne.
  assert (R : reads infile content 0 content) by (split; [reflexivity|lia]).
  destruct (C01_duval_is_lyndon_factorization content) as (ends & fs & _ & HF & _).
  destruct (C96_lyndonfactorization time infile content 0 content fs R HN Hne HF) as (line & dt & dp & df & E & L & Ht & Hp & Hf).
  exists line. eexists. split; [exact E|]. split; [exact L|].
  assert (Z : dp = ascii "0").
  { destruct Hp as (F & N & H0 & V). destruct dp as [|c dp]; [congruence|]. cbn [hd] in H0.
    destruct (Nat.eq_dec c 48) as [->|C]; [now rewrite H0|]. exfalso. inversion F as [|? ? Hc F']; subst.
    unfold decimal_value in V. cbn [fold_left] in V.
    assert (G : forall l a, 0 < a -> 0 < fold_left (fun a d => 10 * a + (d - 48)) l a).
    { clear. induction l as [|x l IH]; intros a H; cbn [fold_left]; [exact H|]. apply IH. lia. }
    specialize (G dp (10 * 0 + (c - 48)) ltac:(lia)). lia. }
  split; [rewrite Z; cbn [In]; auto|].
  intros d Hd [H|[H|[H|[H|[H|[]]]]]]; try discriminate.
  assert (X : dp = d) by congruence. rewrite X in Hp. assert (Y := decimal_inj _ _ _ Hp Hd). destruct content; [congruence|discriminate].
Qed.
Print Assumptions C96_lyndonfactorization_length_refuted.

(** count_r: the length of the BWT (the end marker included) and its number of runs, and the options *)
Theorem C96_count_r : forall sort time infile content p um nd b rs, word_like (shown_name infile) ->
  bwt_main sort (match infile with Some _ => true | None => false end) content p um nd = Ok b -> is_runs b rs ->
  exists line dt dn dr, count_r_out sort time infile content p um nd = Ok line /\
    result_line line [(ascii "algo", ascii "bwt"); (ascii "time_ms", dt); (ascii "length", dn); (ascii "bwt_runs", dr);
                      (ascii "file", shown_name infile); (ascii "no_dollar", shown_bool nd); (ascii "use_matrix", shown_bool um)] /\
    is_decimal dt time /\ is_decimal dn (length b) /\ is_decimal dr (length rs).
Proof.
  intros sort time infile content p um nd b rs HN HB HR. unfold count_r_out.
  replace (count_r_main sort (is_file infile) content p um nd) with (Ok (length b, length rs))
    by (symmetry; exact (C59_count_r _ _ _ _ _ _ _ _ HB HR)). cbn [bind].
  eexists _, (dec_usize time), (dec_usize (length b)), (dec_usize (length rs)). split; [reflexivity|].
  split; [|auto using dec_usize_ok]. unfold println. change (get_filename infile) with (shown_name infile).
  match goal with |- result_line _ ?f => replace (result_line _ f) with (result_line (ascii "RESULT" ++ joined f ++ newline) f) end.
  - apply result_line_joined. pl; [split; [discriminate|split; cbn; lia]|..].
    + destruct nd; split; try discriminate; split; cbn; lia.
    + destruct um; split; try discriminate; split; cbn; lia.
  - f_equal. cbn [joined kv fst snd]. rewrite app_nil_r. rewrite <- !app_assoc. reflexivity.
Qed.
Print Assumptions C96_count_r.
(** entropy and entropy_kmer: the length includes the appended zero byte. [fmt] is the formatting of an f64, [x] the
    entropy computed (C56, C57) *)
Theorem C96_entropy : forall fmt sort time infile content p s order x, (forall y, word_like (fmt y)) ->
  reads infile content p s -> word_like (shown_name infile) ->
  entropy_main sort (match infile with Some _ => true | None => false end) content p order = Ok x ->
  exists line do dt dn, entropy_out fmt sort time infile content p order = Ok line /\
    result_line line [(ascii "algo", ascii "count_entropy"); (ascii "order", do); (ascii "time_ms", dt); (ascii "length", dn);
                      (ascii "entropy", fmt x); (ascii "input", shown_name infile)] /\
    is_decimal do order /\ is_decimal dt time /\ is_decimal dn (length s + 1).
Proof.
  intros fmt sort time infile content p s order x HW R HN E. unfold entropy_out. rewrite (reads_ok _ _ _ _ R). cbn [bind].
  replace (entropy_main sort (is_file infile) content p order) with (Ok x) by (symmetry; exact E). cbn [bind].
  replace (length (s ++ [0])) with (length s + 1) by now rewrite app_length.
  eexists _, (dec_usize order), (dec_usize time), (dec_usize (length s + 1)). split; [reflexivity|].
  split; [|auto using dec_usize_ok]. unfold println. change (get_filename infile) with (shown_name infile). specialize (HW x).
  match goal with |- result_line _ ?f => replace (result_line _ f) with (result_line (ascii "RESULT" ++ joined f ++ newline) f) end.
  - apply result_line_joined. pl. split; [discriminate|split; cbn; lia].
  - f_equal. cbn [joined kv fst snd]. rewrite app_nil_r. rewrite <- !app_assoc. reflexivity.
Qed.
Print Assumptions C96_entropy.
Theorem C96_entropy_kmer : forall fmt it1 it2 time infile content p order x n, (forall y, word_like (fmt y)) ->
  word_like (shown_name infile) ->
  entropy_kmer_main it1 it2 (match infile with Some _ => true | None => false end) content p order = Ok (x, n) ->
  exists line do dt dn, entropy_kmer_out fmt it1 it2 time infile content p order = Ok line /\
    result_line line [(ascii "algo", ascii "count_entropy_hash"); (ascii "order", do); (ascii "time_ms", dt); (ascii "length", dn);
                      (ascii "entropy", fmt x); (ascii "input", shown_name infile)] /\
    is_decimal do order /\ is_decimal dt time /\ is_decimal dn n.
Proof.
  intros fmt it1 it2 time infile content p order x n HW HN E. unfold entropy_kmer_out.
  replace (entropy_kmer_main it1 it2 (is_file infile) content p order) with (Ok (x, n)) by (symmetry; exact E). cbn [bind].
  eexists _, (dec_usize order), (dec_usize time), (dec_usize n). split; [reflexivity|].
  split; [|auto using dec_usize_ok]. unfold println. change (get_filename infile) with (shown_name infile). specialize (HW x).
  match goal with |- result_line _ ?f => replace (result_line _ f) with (result_line (ascii "RESULT" ++ joined f ++ newline) f) end.
  - apply result_line_joined. pl. split; [discriminate|split; cbn; lia].
  - f_equal. cbn [joined kv fst snd]. rewrite app_nil_r. rewrite <- !app_assoc. reflexivity.
Qed.
Print Assumptions C96_entropy_kmer.
(** a file name with a blank spoils the line: here a word is no field; in count_sigma, it even adds a second, wrong sigma *)
Theorem C96_name_with_blank_refuted : forall time,
  (exists line, count_z_out naive_sort time (Some (ascii "a b")) (ascii "x") 0 = Ok line /\ forall fs, ~ result_line line fs) /\
  (exists line dt, count_sigma_out time (Some (ascii "a sigma=9")) (ascii "x") 0 = Ok line /\
    result_line line [(ascii "algo", ascii "count_sigma"); (ascii "time_ms", dt); (ascii "length", ascii "1"); (ascii "sigma", ascii "1");
                      (ascii "file", ascii "a"); (ascii "sigma", ascii "9")]).
Proof.
  intros time. split.
  - eexists. split; [unfold count_z_out; cbn -[dec_usize]; reflexivity|]. intros fs (body & E & _ & W & _).
    match type of E with ?l = _ => change l with ((lit "RESULT file=a b length=" ++ dec_usize 1 ++ lit "  algo=lz77 time_ms=" ++ dec_usize time ++ lit " factors=" ++ dec_usize 1) ++ newline) in E end.
    apply app_inv_tail in E. subst body. cbn [app] in W.
    change (lit "RESULT file=a b length=" ++ ?x) with (lit "RESULT" ++ [32] ++ lit "file=a" ++ [32] ++ lit "b" ++ [32] ++ (lit "length=" ++ x)) in W.
    destruct fs as [|f1 [|f2 fs]]; rewrite !words_cons in W by (try discriminate; cbn; lia); cbn [map] in W; try discriminate.
    injection W as _ W _. symmetry in W. apply (f_equal (fun l => existsb (Nat.eqb 61) l)) in W. rewrite !existsb_app in W. cbn in W.
    rewrite Bool.orb_true_r in W. discriminate.
  - eexists. exists (dec_usize time). split; [unfold count_sigma_out; cbn -[dec_usize]; reflexivity|].
    match goal with |- result_line ?l ?f => change l with (ascii "RESULT" ++ joined f ++ newline) end.
    apply result_line_joined. pl; (split; [discriminate|split; cbn; lia]).
Qed.
Print Assumptions C96_name_with_blank_refuted.
Example C96_case : count_sigma_out 7 (Some (ascii "in.txt")) (ascii "abracadabra") 0 =
    Ok (ascii "RESULT algo=count_sigma time_ms=7 length=11 sigma=5 file=in.txt" ++ newline) /\
  count_z_out naive_sort 7 None (ascii "ababa") 0 = Ok (ascii "RESULT file=none length=5  algo=lz77 time_ms=7 factors=3" ++ newline) /\
  lyndonfactorization_out 7 None (ascii "ababa") 0 = Ok (ascii "RESULT file=none length=0  algo=duval time_ms=7 factors=3" ++ newline) /\
  count_r_out naive_sort 7 None (ascii "ababa") 0 false false =
    Ok (ascii "RESULT algo=bwt time_ms=7 length=6 bwt_runs=4 file=none no_dollar=false use_matrix=false" ++ newline) /\
  mus_out naive_sort 7 None (ascii "abaac") 0 = Ok (ascii "RESULT file=none length=5  time_ms=7 mus=[(1, 1), (2, 2)]" ++ newline).
Proof. vm_compute. auto 6. Qed.

(** C97: the line of mus *)
Theorem C97_mus_output : forall sort time infile content p s L, (forall t, is_suffix_array t (sort t)) ->
  reads infile content p s -> mus_main sort s = Ok L ->
  exists line, mus_out sort time infile content p = Ok line /\ mus_line (shown_name infile) (length s) L line.
Proof.
  intros sort time infile content p s L Hs R E. unfold mus_out. rewrite (reads_ok _ _ _ _ R). cbn [bind]. cbv zeta. rewrite E. cbn [bind].
  rewrite (sort_length sort s Hs). eexists. split; [reflexivity|].
  exists (dec_usize (length s)), (dec_usize time), time, (fmt_pairs L). split; [apply dec_usize_ok|]. split; [apply dec_usize_ok|].
  split; [apply shown_pairs_ok|]. unfold println. change (get_filename infile) with (shown_name infile). rewrite <- !app_assoc. reflexivity.
Qed.
Print Assumptions C97_mus_output.
(** nothing is printed when the computation panics *)
Theorem C97_mus_panics : forall sort time infile content p s, reads infile content p s -> mus_main sort s = Panic ->
  mus_out sort time infile content p = Panic.
Proof. intros sort time infile content p s R E. unfold mus_out. rewrite (reads_ok _ _ _ _ R). cbn [bind]. cbv zeta. now rewrite E. Qed.
Print Assumptions C97_mus_panics.
(** the line determines the substrings, the length and the name *)
Theorem C97_mus_line_unique : forall nm nm' n n' L L' line, ~ In 32 nm -> ~ In 32 nm' -> mus_line nm n L line -> mus_line nm' n' L' line ->
  nm = nm' /\ n = n' /\ L = L'.
Proof. exact mus_line_inj. Qed.
Print Assumptions C97_mus_line_unique.
(** but the line is not a list of fields as soon as there is a minimal unique substring *)
Theorem C97_mus_sqlplot_refuted : forall nm n L line, mus_line nm n L line -> L <> [] -> forall fs, ~ result_line line fs.
Proof. intros nm n L line H N fs. eapply mus_line_no_fields; eauto. Qed.
Print Assumptions C97_mus_sqlplot_refuted.
Example C97_case : exists line, mus_out naive_sort 7 None (ascii "abaac") 0 = Ok line /\ mus_line (ascii "none") 5 [(1, 1); (2, 2)] line.
Proof.
  apply (C97_mus_output naive_sort 7 None (ascii "abaac") 0 (ascii "abaac")); [apply naive_sort_ok|split; [reflexivity|cbn; lia]|reflexivity].
Qed.
