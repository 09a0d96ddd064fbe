(** PropsScripts.v : property theorems C113 (gen_artificial.sh) and C114 (compute_stats.sh). *)
From Verif Require Import Base SpecStr SpecIo SpecMain SpecWord SpecResult SpecArgs SpecFs SpecLz SpecBwt LexFacts SortFacts.
From Verif Require Import ModelWord ModelIo ModelCore ModelTools ModelLz ModelMain ModelEntropy ModelResult ModelFs ModelArgs ModelArgs2 ModelScripts.
From Verif Require Import FsProof ResultProof ScriptProof ScriptProof2 PropsWord2 PropsResult PropsArgs2 PropsEntropy PropsMain RunFacts.
From Coq Require Import NArith.
From Coq Require String Ascii.
Import String.StringSyntax.
Delimit Scope string_scope with string.

(** C113. The families of words, and the name of the file for the k-th word of a family (k < 100) *)
Definition families : list (str * word_name) :=
  [(ascii "tribonacci", Tribonacci); (ascii "vtm", Vtm); (ascii "fibonacci", Fibonacci); (ascii "kolakoski", Kolakoski); (ascii "thue-morse", ThueMorse);
   (ascii "period-doubling", PeriodDoubling); (ascii "paper-folding", PaperFolding); (ascii "quaternary-paper-folding", QuaternaryPaperFolding);
   (ascii "binary-de-brujin", BinaryDeBrujin); (ascii "power2", Power2)].
Definition place (folder nm : str) (k : nat) : str := folder ++ ascii "/" ++ nm ++ ascii "." ++ [48 + k / 10; 48 + k mod 10].

Lemma families_names nm v : In (nm, v) families -> In nm script_names /\ call_word nm = v.
Proof.
  intros H. assert (F : Forall (fun p => In (fst p) script_names /\ call_word (fst p) = snd p) families).
  { unfold families. repeat (apply Forall_cons; [split; [cbn [fst]; find_in|vm_compute; reflexivity]|]). constructor. }
  rewrite Forall_forall in F. exact (F _ H).
Qed.
Lemma names_families nm : In nm script_names -> In (nm, call_word nm) families.
Proof.
  intros H. assert (F : Forall (fun nm => In (nm, call_word nm) families) script_names) by (unfold script_names; repeat (apply Forall_cons; [find_in|]); constructor).
  rewrite Forall_forall in F. exact (F _ H).
Qed.
(** gen_artificial.sh F writes, for every family and every k up to 20, the k-th word into its own file, and changes no
    other file *)
Theorem C113_gen_artificial : forall file_of folder w0, (forall p q, file_of p = file_of q -> p = q) ->
  exists w, run (gen_artificial file_of folder) w0 = (w, Ok tt) /\
    (forall nm v k, In (nm, v) families -> k <= 20 -> exists word, files w (file_of (place folder nm k)) = Some word /\ described v k word) /\
    (forall g, (forall nm v k, In (nm, v) families -> k <= 20 -> g <> file_of (place folder nm k)) -> files w g = files w0 g) /\
    stdout w = stdout w0 /\ stdin w = stdin w0.
Proof.
  intros file_of folder w0 I. destruct (calls_run file_of folder script_calls w0 (fun c H => H)) as (w & R & A & B & C & D).
  { apply NoDup_nth with (d := 0). intros i j Hi Hj E. rewrite map_length in *.
    rewrite (nth_indep _ 0 (file_of (script_path folder (snd (0, []:str)) (fst (0, []:str))))) in E by now rewrite map_length.
    rewrite (nth_indep _ 0 (file_of (script_path folder (snd (0, []:str)) (fst (0, []:str))))) in E by now rewrite map_length.
    rewrite !(map_nth (fun kn => file_of (script_path folder (snd kn) (fst kn)))) in E. apply I in E.
    apply path_inj in E; [|apply nth_In; assumption..]. revert E. apply (proj1 (NoDup_nth script_calls (0, [])) calls_nodup); assumption. }
  exists w. split; [exact R|]. split; [|split; [|auto]].
  - intros nm v k H Hk. destruct (families_names nm v H) as (H1 & H2). destruct (A (k, nm) (in_calls k nm Hk H1)) as (word & E & D'). cbn [fst snd] in *.
    rewrite H2 in D'. exists word. split; [exact E|exact D'].
  - intros g Hg. apply B. intros X. apply in_map_iff in X. destruct X as ((k, nm) & <- & X). apply call_bound in X. cbn [fst snd] in X.
    destruct X as (X1 & X2). now apply (Hg nm (call_word nm) k (names_families nm X2) X1).
Qed.
Print Assumptions C113_gen_artificial.
(** whatever fails, and wherever the script is stopped: a file is as before, or it is one of these files and holds a
    beginning of its word *)
Theorem C113_interrupted : forall file_of folder w0 w q, steps (w0, gen_artificial file_of folder) (w, q) ->
  stdout w = stdout w0 /\ stdin w = stdin w0 /\
  forall g, files w g = files w0 g \/ exists nm v k word out, In (nm, v) families /\ k <= 20 /\ g = file_of (place folder nm k) /\
    described v k word /\ files w g = Some out /\ prefix out word.
Proof.
  intros file_of folder w0 w q S. assert (B : between file_of folder w0 w0) by (repeat split; auto).
  pose proof (safe_I _ _ _ _ (safe_steps _ _ _ _ _ _ (calls_safe file_of folder w0 script_calls w0 (fun c H => H) B) S)) as (S1 & S2 & F).
  split; [exact S1|]. split; [exact S2|]. intros g. destruct (F g) as [E|((k, nm) & word & out & Hc & -> & D & E & P)]; [now left|right].
  apply call_bound in Hc. cbn [fst snd] in *. destruct Hc as (Hk & Hn). exists nm, (call_word nm), k, word, out.
  split; [now apply names_families|]. split; [exact Hk|]. split; [reflexivity|]. auto.
Qed.
Print Assumptions C113_interrupted.
(** the 210 names are different *)
Theorem C113_names_differ : forall folder nm v k nm' v' k', In (nm, v) families -> In (nm', v') families -> k <= 20 -> k' <= 20 ->
  place folder nm k = place folder nm' k' -> nm = nm' /\ k = k'.
Proof.
  intros folder nm v k nm' v' k' H H' Hk Hk' E. apply families_names in H, H'. destruct H as (H & _), H' as (H' & _).
  pose proof (path_inj folder (k, nm) (k', nm') (in_calls _ _ Hk H) (in_calls _ _ Hk' H') E) as X. injection X as -> ->. auto.
Qed.
Print Assumptions C113_names_differ.
(** a world in which different names are different files *)
Fixpoint code (p : str) : nat := match p with [] => 0 | c :: p => 2 ^ c * (2 * code p + 1) end.
Lemma odd_part_unique : forall a x b y, 2 ^ a * (2 * x + 1) = 2 ^ b * (2 * y + 1) -> a = b /\ x = y.
Proof.
  induction a as [|a IH]; intros x [|b] y E; cbn [Nat.pow] in E.
  - split; lia.
  - exfalso. rewrite <- Nat.mul_assoc in E. generalize dependent (2 ^ b * (2 * y + 1)). intros; lia.
  - exfalso. rewrite <- Nat.mul_assoc in E. generalize dependent (2 ^ a * (2 * x + 1)). intros; lia.
  - rewrite <- !Nat.mul_assoc in E. destruct (IH x b y) as (-> & ->); [|auto]. clear IH.
    generalize dependent (2 ^ b * (2 * y + 1)). generalize dependent (2 ^ a * (2 * x + 1)). intros; lia.
Qed.
Example C113_case : (forall p q, code p = code q -> p = q) /\ In (5, lit "vtm") script_calls /\
  place (ascii "out") (ascii "vtm") 5 = ascii "out/vtm.05" /\ length script_calls = 210.
Proof.
  split; [|split; [|split; [reflexivity|vm_compute; reflexivity]]].
  - induction p as [|c p IH]; intros [|d q] E; cbn [code] in E; [reflexivity| | |].
    + pose proof (Nat.pow_nonzero 2 d ltac:(discriminate)). nia.
    + pose proof (Nat.pow_nonzero 2 c ltac:(discriminate)). nia.
    + apply odd_part_unique in E. destruct E as (-> & E). f_equal. now apply IH.
  - apply in_calls; [lia|]. find_in.
Qed.

(** C114. The patterns of the script find the value of a field in a RESULT line, if the key occurs once *)
Theorem C114_field : forall line body fields f1 key v f2, result_line line fields -> line = ascii "RESULT" ++ body -> fields = f1 ++ (key, v) :: f2 ->
  NoDup (map fst fields) -> ~ In 32 key -> v <> [] ->
  (Forall (fun c => 48 <= c <= 57) v -> f2 <> [] -> sed digit true key (grep_result line) = v) /\
  (Forall (fun c => 48 <= c <= 57) v -> sed digit false key (grep_result line) = v) /\
  (Forall (fun c => 48 <= c <= 57 \/ c = 46) v -> f2 <> [] -> sed digit_dot true key (grep_result line) = v).
Proof.
  intros line body fields f1 key v f2 (b & -> & N10 & W & FE) EB -> ND K32 Nv.
  assert (RB : exists r, b = ascii "RESULT" ++ r).
  { destruct body as [|x0 body0].
    - exfalso. rewrite app_nil_r in EB. change (ascii "RESULT") with (ascii "RESUL" ++ [84]) in EB. apply app_inj_tail in EB. destruct EB as [_ EB]. discriminate.
    - destruct (exists_last (l := x0 :: body0)) as (r & x & Er); [discriminate|]. rewrite Er, app_assoc in EB. apply app_inj_tail in EB. destruct EB as (-> & _). eauto. }
  assert (K61 : ~ In 61 key).
  { rewrite Forall_forall in FE. apply (FE (key, v)). apply in_app_iff. right. now left. }
  rewrite (grep_one b N10 RB).
  assert (G : forall cls blank, cls 32 = false -> forallb cls v = true -> (blank = true -> f2 <> []) -> sed cls blank key b = v).
  { intros cls blank C F B. unfold sed. rewrite (lines_one b N10). cbn [map join_lines].
    apply (sed_field cls C blank key v f1 f2 b K32 K61 Nv F W FE ND B). }
  assert (D1 : Forall (fun c => 48 <= c <= 57) v -> forallb digit v = true).
  { intros F. apply forallb_forall. rewrite Forall_forall in F. intros x Hx. specialize (F x Hx). unfold digit. apply andb_true_intro. split; apply Nat.leb_le; lia. }
  split; [|split].
  - intros F B. apply G; auto.
  - intros F. apply G; auto. discriminate.
  - intros F B. apply G; auto. apply forallb_forall. rewrite Forall_forall in F. intros x Hx. unfold digit_dot.
    destruct (F x Hx) as [H| ->]; [|reflexivity]. unfold digit. now rewrite (proj2 (Nat.leb_le 48 x)), (proj2 (Nat.leb_le x 57)) by lia.
Qed.
Print Assumptions C114_field.

(** the script as it is: every call is refused, so the row has no numbers, whatever the file *)
Theorem C114_compute_stats_refuted : forall fmt sort time input f,
  compute_stats fmt sort time input f =
    ascii "dataset & $n$ & $\sigma$ & $z$ & $r$ & $H_0$ & $H_1$ & $H_2$ & $H_3$ & $H_4$ \\" ++ newline ++
    basename f ++ ascii " &  &  &   &   &   &   &   &   &  \\" ++ newline.
Proof.
  intros. unfold compute_stats, stats_with.
  replace (count_sigma_report (time 0) input [lit "--input"; f]) with (@Usage (res str)) by reflexivity.
  replace (count_r_report sort (time 1) input ([lit "-d"] ++ [lit "--input"; f])) with (@Usage (res str)) by reflexivity.
  replace (count_z_report sort (time 2) input [lit "--input"; f]) with (@Usage (res str)) by reflexivity.
  cbn [seq map].
  replace (entropy_report fmt sort (time (3 + 0)) input [lit "--order"; dec_usize 0; lit "--input"; f]) with (@Usage (res str)) by reflexivity.
  replace (entropy_report fmt sort (time (3 + 1)) input [lit "--order"; dec_usize 1; lit "--input"; f]) with (@Usage (res str)) by reflexivity.
  replace (entropy_report fmt sort (time (3 + 2)) input [lit "--order"; dec_usize 2; lit "--input"; f]) with (@Usage (res str)) by reflexivity.
  replace (entropy_report fmt sort (time (3 + 3)) input [lit "--order"; dec_usize 3; lit "--input"; f]) with (@Usage (res str)) by reflexivity.
  replace (entropy_report fmt sort (time (3 + 4)) input [lit "--order"; dec_usize 4; lit "--input"; f]) with (@Usage (res str)) by reflexivity.
  reflexivity.
Qed.
Print Assumptions C114_compute_stats_refuted.

(** with the option the programs have (-i), and without the -d that count_r does not have, the row would hold the length,
    the number of different bytes, the runs of the BWT, the LZ77 factors and the entropies: the columns headed z and r are
    swapped *)
Lemma i_alone c F m0 : by_short (options c) 105 = Some infilename -> ~ hyphened F -> lookup m0 (arg_id infilename) = None ->
  parse_from c [lit "-i"; F] false [] m0 None = parse_from c [] false [] (add_values m0 (arg_id infilename) [VStr F]) None.
Proof.
  intros B H L. change (lit "-i") with [45; 105]. rewrite (pf_value c 105 infilename F [] [] m0 B) by (reflexivity || lia || exact H).
  unfold react. rewrite L. reflexivity.
Qed.
Lemma starts_result line (P : exists h t, line = ascii "RESULT" ++ h ++ t) : exists body, line = ascii "RESULT" ++ body.
Proof. destruct P as (h & t & ->). eauto. Qed.
Ltac starts := intros; match goal with H : ?e = Ok ?line |- _ => unfold count_sigma_out, count_z_out, count_r_out, entropy_out in H end;
  repeat (match goal with H : bind ?e _ = Ok _ |- _ => destruct e as [?| |]; cbn [bind] in H; try discriminate H; cbv zeta in H end);
  match goal with H : Ok _ = Ok ?line |- _ => injection H as <- end; eexists; reflexivity.
Lemma sigma_starts t i c p line : count_sigma_out t i c p = Ok line -> exists body, line = ascii "RESULT" ++ body.
Proof. starts. Qed.
Lemma z_starts sort t i c p line : count_z_out sort t i c p = Ok line -> exists body, line = ascii "RESULT" ++ body.
Proof. starts. Qed.
Lemma r_starts sort t i c p um nd line : count_r_out sort t i c p um nd = Ok line -> exists body, line = ascii "RESULT" ++ body.
Proof.
  unfold count_r_out. destruct (count_r_main sort (is_file i) c p um nd) as [(len, r)| |]; cbn [bind]; try discriminate. intros H. injection H as <-. eexists. reflexivity.
Qed.
Lemma e_starts fmt sort t i c p k line : entropy_out fmt sort t i c p k = Ok line -> exists body, line = ascii "RESULT" ++ body.
Proof. starts. Qed.
Lemma dec_forall d n : is_decimal d n -> d <> [] /\ Forall (fun c => 48 <= c <= 57) d.
Proof. intros (F & N & _). auto. Qed.
Theorem C114_with_infilename : forall fmt sort time input F D b rs x, let s := input (Some F) in
  (forall t, is_suffix_array t (sort t)) -> (forall y, word_like (fmt y)) -> word_like F -> ~ hyphened F ->
  s <> [] -> bytes s -> (N.of_nat (length s) < 2 ^ 32)%N ->
  NoDup D -> (forall c, In c D <-> In c s) -> length D <= 255 ->
  bwt_main sort true s 0 false false = Ok b -> is_runs b rs ->
  (forall k, k < 5 -> entropy_main sort true s 0 k = Ok (x k) /\ Forall (fun c => 48 <= c <= 57 \/ c = 46) (fmt (x k))) ->
  exists dn ds dr dz z, is_decimal dn (length s) /\ is_decimal ds (length D) /\ is_decimal dr (length rs) /\
    is_decimal dz z /\ parsable s 0 z /\ (forall k, parsable s 0 k -> z <= k) /\
    stats_with (ascii "-i") [] fmt sort time input F =
      ascii "dataset & $n$ & $\sigma$ & $z$ & $r$ & $H_0$ & $H_1$ & $H_2$ & $H_3$ & $H_4$ \\" ++ newline ++
      basename F ++ ascii " & " ++ dn ++ ascii " & " ++ ds ++ ascii " & " ++ dr ++ ascii "  & " ++ dz ++ ascii "  & " ++
      fmt (x 0) ++ ascii "  & " ++ fmt (x 1) ++ ascii "  & " ++ fmt (x 2) ++ ascii "  & " ++ fmt (x 3) ++ ascii "  & " ++ fmt (x 4) ++
      ascii " \\" ++ newline.
Proof.
  intros fmt sort time input F D b rs x s Hs HW HF HH Ns HB H32 ND HD L255 EB HR HE.
  assert (R : reads (Some F) s 0 s) by (split; [reflexivity|discriminate]).
  destruct (C96_count_sigma (time 0) (Some F) s 0 s D R HF HB ND HD L255) as (l1 & dt1 & dn & ds & E1 & L1 & Dt1 & Dn & Ds).
  destruct (C96_count_r sort (time 1) (Some F) s 0 false false b rs HF EB HR) as (l2 & dt2 & dl2 & dr & E2 & L2 & Dt2 & Dl2 & Dr).
  destruct (C96_count_z sort (time 2) (Some F) s 0 s Hs R HF Ns HB H32) as (l3 & dt3 & dl3 & dz & z & E3 & L3 & Dt3 & Dl3 & Dz & Z1 & Z2).
  exists dn, ds, dr, dz, z. split; [exact Dn|]. split; [exact Ds|]. split; [exact Dr|]. split; [exact Dz|]. split; [exact Z1|]. split; [exact Z2|].
  assert (B1 : count_sigma_report (time 0) input [lit "-i"; F] = Ran (Ok l1)).
  { unfold count_sigma_report, on_args, parse. cbn [positionals count_sigma_cmd]. rewrite i_alone by (reflexivity || exact HH). rewrite <- E1. reflexivity. }
  assert (B2 : count_r_report sort (time 1) input [lit "-i"; F] = Ran (Ok l2)).
  { unfold count_r_report, on_args, parse. cbn [positionals count_r_cmd]. rewrite i_alone by (reflexivity || exact HH). rewrite <- E2. reflexivity. }
  assert (B3 : count_z_report sort (time 2) input [lit "-i"; F] = Ran (Ok l3)).
  { unfold count_z_report, on_args, parse. cbn [positionals count_z_cmd]. rewrite i_alone by (reflexivity || exact HH). rewrite <- E3. reflexivity. }
  assert (B4 : forall k, In k (seq 0 5) -> entropy_report fmt sort (time (3 + k)) input [lit "--order"; dec_usize k; lit "-i"; F] =
    Ran (entropy_out fmt sort (time (3 + k)) (Some F) s 0 k)).
  { intros k Hk. assert (P : parse entropy_cmd [lit "--order"; dec_usize k; lit "-i"; F] =
      parse_from entropy_cmd [lit "-i"; F] false [] (add_values [] (arg_id order) [VNum (N.of_nat k)]) None).
    { cbn [seq In] in Hk. destruct Hk as [<-|[<-|[<-|[<-|[<-|[]]]]]]; reflexivity. }
    unfold entropy_report, on_args. rewrite P. rewrite i_alone by (reflexivity || exact HH).
    cbn [seq In] in Hk. destruct Hk as [<-|[<-|[<-|[<-|[<-|[]]]]]]; reflexivity. }
  unfold stats_with. change (ascii "-i") with (lit "-i"). cbn [app]. rewrite B1, B2, B3. cbn [stdout_of].
  destruct (sigma_starts _ _ _ _ _ E1) as (q1 & Q1). destruct (r_starts _ _ _ _ _ _ _ _ E2) as (q2 & Q2). destruct (z_starts _ _ _ _ _ _ E3) as (q3 & Q3).
  destruct (dec_forall _ _ Dn) as (Nn & Fn). destruct (dec_forall _ _ Ds) as (Nd & Fd). destruct (dec_forall _ _ Dr) as (Nr & Fr). destruct (dec_forall _ _ Dz) as (Nz & Fz).
  match type of L1 with result_line _ ?f =>
    rewrite (proj1 (C114_field l1 q1 f (firstn 2 f) (ascii "length") dn (skipn 3 f) L1 Q1 eq_refl ltac:(repeat constructor; cbn; intuition discriminate) ltac:(cbn; lia) Nn) Fn ltac:(discriminate) : sed digit true (lit "length") (grep_result l1) = dn);
    rewrite (proj1 (C114_field l1 q1 f (firstn 3 f) (ascii "sigma") ds (skipn 4 f) L1 Q1 eq_refl ltac:(repeat constructor; cbn; intuition discriminate) ltac:(cbn; lia) Nd) Fd ltac:(discriminate) : sed digit true (lit "sigma") (grep_result l1) = ds)
  end.
  match type of L2 with result_line _ ?f =>
    rewrite (proj1 (C114_field l2 q2 f (firstn 3 f) (ascii "bwt_runs") dr (skipn 4 f) L2 Q2 eq_refl ltac:(repeat constructor; cbn; intuition discriminate) ltac:(cbn; lia) Nr) Fr ltac:(discriminate) : sed digit true (lit "bwt_runs") (grep_result l2) = dr)
  end.
  match type of L3 with result_line _ ?f =>
    rewrite (proj1 (proj2 (C114_field l3 q3 f (firstn 4 f) (ascii "factors") dz (skipn 5 f) L3 Q3 eq_refl ltac:(repeat constructor; cbn; intuition discriminate) ltac:(cbn; lia) Nz)) Fz : sed digit false (lit "factors") (grep_result l3) = dz)
  end.
  assert (B5 : forall k, In k (seq 0 5) -> sed digit_dot true (lit "entropy")
    (grep_result (stdout_of (entropy_report fmt sort (time (3 + k)) input [lit "--order"; dec_usize k; lit "-i"; F]))) = fmt (x k)).
  { intros k Hk. rewrite (B4 k Hk). apply in_seq in Hk. destruct (HE k ltac:(lia)) as (Ek & Fk).
    destruct (C96_entropy fmt sort (time (3 + k)) (Some F) s 0 s k (x k) HW R HF Ek) as (l4 & do & dt4 & dn4 & E4 & L4 & _).
    rewrite E4. cbn [stdout_of]. destruct (e_starts _ _ _ _ _ _ _ _ E4) as (q4 & Q4).
    match type of L4 with result_line _ ?f =>
      exact (proj2 (proj2 (C114_field l4 q4 f (firstn 4 f) (ascii "entropy") (fmt (x k)) (skipn 5 f) L4 Q4 eq_refl ltac:(repeat constructor; cbn; intuition discriminate) ltac:(cbn; lia) (proj1 (HW (x k))))) Fk ltac:(discriminate))
    end. }
  cbn [seq map]. rewrite (B5 0), (B5 1), (B5 2), (B5 3), (B5 4) by (cbn [seq In]; auto 6). unfold println. cbn [concat].
  rewrite <- !app_assoc. reflexivity.
Qed.
Print Assumptions C114_with_infilename.
(** cases: the pattern on a line printed by count_r; a file name with blanks misleads it *)
Example C114_case : forall line, count_r_out naive_sort 7 (Some (ascii "data/ab")) (ascii "ababa") 0 false false = Ok line ->
  sed digit true (lit "bwt_runs") (grep_result line) = ascii "4" /\ basename (ascii "data/ab") = ascii "ab" /\
  forall line', count_sigma_out 7 (Some (ascii "a length=9 x")) (ascii "ababa") 0 = Ok line' -> sed digit true (lit "length") (grep_result line') = ascii "9".
Proof.
  intros line E. vm_compute in E. injection E as <-. split; [vm_compute; reflexivity|]. split; [reflexivity|].
  intros line' E. vm_compute in E. injection E as <-. vm_compute. reflexivity.
Qed.
(** the hypotheses of C114_with_infilename hold for every text of non-zero bytes with at most 255 of them different *)
Example C114_hypotheses : forall sort s, (forall t, is_suffix_array t (sort t)) -> s <> [] -> bytes s -> ~ In 0 s ->
  (exists x, forall k, k < 5 -> entropy_main sort true s 0 k = Ok (x k)) /\ exists b rs, bwt_main sort true s 0 false false = Ok b /\ is_runs b rs.
Proof.
  intros sort s Hs N HB Z. split.
  - exists (fun k => match entropy_main sort true s 0 k with Ok v => v | _ => None end). intros k _.
    destruct (proj1 (C56_contexts (s ++ [0]) k)) as (W & HW). destruct (C56_program sort s 0 k W Hs HB) as (E0 & Ek). change (prefix_read s 0) with s in *.
    destruct k as [|k]; [now rewrite E0|]. now rewrite (Ek N Z ltac:(lia) HW).
  - destruct (C59_bwt_default sort s 0 Hs Z) as (b & E & _). exists b, (runs b). split; [exact E|apply runs_ok].
Qed.
