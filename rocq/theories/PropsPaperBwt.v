(** PropsPaperBwt.v : property theorems C130, the BWT of the paperfolding words of src/word.rs, with and without the end marker, and what
    count_r prints (src/bin/word.rs, src/bin/bwt.rs, src/bin/count_r.rs, src/core.rs). *)
From Verif Require Import Base SpecStr SpecIo SpecMain SpecBwt SpecWord SpecResult SpecArgs SpecArgs2 SpecFs LexFacts RunFacts BwtFacts BwtProof.
From Verif Require Import ModelWord ModelIo ModelCore ModelMain ModelFs ModelArgs ModelArgs2.
From Verif Require Import SortFacts MorphBwt MorphBwt2 MorphRuns MorphBwt3 MorphBwt4 MorphBwt5 MorphBwt6 MorphBwt7 MorphBwt8.
From Verif Require Import WordProof WordProof2 WordProof3 WordProof4 FibFacts PropsWord PropsWord2 PropsMain PropsArgs PropsArgs2 MainProof2 PropsSession PropsMorph PropsEndBwt.
From Coq Require Import NArith.

Definition paper_end_runs (k : nat) : nat := nth k [2; 4; 7; 8; 19] (4 * k + 1).
Definition paper_runs (k : nat) : nat := nth k [1; 2; 6; 10] (4 * k).
Definition PF (k : nat) : str := flat_map pfe (iter_morphism pfh k [100]).
Lemma PF_word k : k <= 61 -> word_main PaperFolding k = Ok (PF k).
Proof. intros H. cbn [word_main]. apply paperfolding_ok. lia. Qed.
Lemma PF_no0 k : ~ In 0 (PF k).
Proof.
  intros X. apply in_flat_map in X. destruct X as (c & Hc & X). pose proof (pf_iter_quat k) as Q. rewrite Forall_forall in Q. destruct (Q _ Hc) as [->|[->|[->| ->]]]; cbn in X; intuition discriminate.
Qed.
Lemma PF_len k : length (PF k) = 2 * 2 ^ k.
Proof. unfold PF. rewrite (u2_length _ _ pfe_u2), (u2_iter_length _ _ _ pfh_u2). reflexivity. Qed.
Lemma nth_table (l : list nat) j d : length l <= j -> nth j l d = d. Proof. apply nth_overflow. Qed.
Lemma paper_end k : has_end_runs (PF k) (paper_end_runs k).
Proof.
  destruct (Nat.leb_spec 6 k) as [K|K].
  - destruct (bf_runs true (k - 6)) as (b & H & L). replace (k - 6 + 6) with k in H by lia. exists b. split; [exact H|]. rewrite L. unfold paper_end_runs. rewrite nth_overflow by (cbn [length]; lia). lia.
  - do 6 (destruct k as [|k]; [eapply small_runs; vm_compute; reflexivity|]). lia.
Qed.
Lemma paper_all k : exists b, is_matrix_bwt (PF k) b /\ length (runs b) = paper_runs k.
Proof.
  destruct (Nat.leb_spec 6 k) as [K|K].
  - destruct (bf_runs false (k - 6)) as (b & H & L). cbn [mark] in H. rewrite app_nil_r in H. replace (k - 6 + 6) with k in H by lia. exists b. split; [exact H|]. rewrite L. unfold paper_runs. rewrite nth_overflow by (cbn [length]; lia). lia.
  - do 6 (destruct k as [|k]; [eexists; split; [apply bwt_by_matrix_naive_spec; vm_compute; reflexivity|vm_compute; reflexivity]|]). lia.
Qed.
(** with the end marker: every routine returns the same b, and count_r reports its runs *)
Theorem C130_end_marked : forall sort k, (forall t, is_suffix_array t (sort t)) -> k <= 61 ->
  exists w b, word_main PaperFolding k = Ok w /\ bwt_by_matrix_naive (w ++ [0]) = Ok b /\ bwt_from_text_by_sa sort (w ++ [0]) = Ok b /\
    bwt_main sort true w 0 false false = Ok b /\ (exists rs, is_runs b rs /\ length rs = paper_end_runs k) /\
    count_r_main sort true w 0 false false = Ok (2 * 2 ^ k + 1, paper_end_runs k).
Proof.
  intros sort k Hs Hk. destruct (paper_end k) as (b & HB & L). exists (PF k), b. split; [now apply PF_word|].
  pose proof (proj2 (bwt_by_matrix_naive_spec (PF k ++ [0]) b) HB) as EB. split; [exact EB|].
  pose proof (dollar_agree sort (PF k) (PF_no0 k) (Hs _)) as A. rewrite EB in A. split; [exact A|].
  assert (M : bwt_main sort true (PF k) 0 false false = Ok b) by (rewrite bwt_main_text; exact A). split; [exact M|]. split; [exists (runs b); split; [apply runs_ok|exact L]|].
  rewrite (count_r_ok _ _ _ _ _ _ _ M), L, (matrix_bwt_length _ _ HB), app_length, PF_len. reflexivity.
Qed.
Print Assumptions C130_end_marked.
(** without the end marker: the word and its rotations *)
Theorem C130_matrix : forall sort k, (forall t, is_suffix_array t (sort t)) -> k <= 61 ->
  exists w b, word_main PaperFolding k = Ok w /\ matrix_transform_is sort w b /\ (exists rs, is_runs b rs /\ length rs = paper_runs k) /\
    forall s, s <= length w -> count_r_main sort true (rot s w) 0 true true = Ok (2 * 2 ^ k, paper_runs k).
Proof.
  intros sort k Hs Hk. destruct (paper_all k) as (b & H & L). exists (PF k), b. split; [now apply PF_word|].
  assert (NE : PF k <> []) by (intros E; pose proof (PF_len k) as X; rewrite E in X; pose proof (two_pow_pos k); cbn [length] in X; lia).
  pose proof (transform_ok sort _ b Hs NE (PF_no0 k) H) as T. split; [exact T|]. split; [exists (runs b); split; [apply runs_ok|exact L]|].
  intros s Hle. destruct (T s Hle) as (_ & _ & B). rewrite (count_r_ok _ _ _ _ _ _ _ B), L, (matrix_bwt_length _ _ H), PF_len. reflexivity.
Qed.
Print Assumptions C130_matrix.
(** word -n paper-folding -k K -o F, then count_r -i F, and count_r -u -n -i F *)
Theorem C130_word_then_count_r : forall sort time file_of us1 line1 k F w0 us2 line2 us3 line3 input, (forall t, is_suffix_array t (sort t)) ->
  good word_options us1 line1 -> makes_word us1 (ascii "paper-folding") k F -> word_like F -> k <= 61 ->
  good count_r_options us2 line2 -> end_counts_runs_of us2 F -> good count_r_options us3 line3 -> counts_runs_of us3 F ->
  exists p w, word_program file_of line1 = Ran p /\ run p w0 = (w, Ok tt) /\ (sees file_of w input ->
    (exists l, count_r_report sort time input line2 = Ran (Ok l) /\ count_r_line F time (2 * 2 ^ k + 1) (paper_end_runs k) false false l) /\
    (exists l, count_r_report sort time input line3 = Ran (Ok l) /\ count_r_line F time (2 * 2 ^ k) (paper_runs k) true true l)).
Proof.
  intros sort time file_of us1 line1 k F w0 us2 line2 us3 line3 input Hs G1 (A & B & C) HF HK G2 (HI & HP & HM & HD) G3 (I3 & P3 & M3 & D3).
  destruct (C130_end_marked sort k Hs HK) as (t & b & ET & _ & _ & _ & _ & ER). destruct (C130_matrix sort k Hs HK) as (t2 & b2 & ET2 & _ & _ & ER2). assert (t2 = t) by congruence. subst t2.
  specialize (ER2 0 (Nat.le_0_l _)). rewrite rot_0 in ER2.
  destruct (C115_word file_of us1 line1 (ascii "paper-folding") PaperFolding k F w0 G1 ltac:(find_in) A B C (or_introl HK)) as (p & w & t' & E & R & _ & W & ET' & _). assert (t' = t) by congruence. subst t'.
  exists p, w. split; [exact E|]. split; [exact R|]. intros S. split.
  - destruct (proj1 (C112_count_r sort time input line2) us2 G2) as (p' & mx & nd & i & Sp & Sm & Sn & Si & E2).
    rewrite (string_is _ _ _ _ Si HI), (number_default _ _ _ _ Sp HP), (switch_off _ _ _ Sm HM), (switch_off _ _ _ Sn HD), (S F t W) in E2.
    destruct (count_r_shows sort time F t false false _ _ HF ER) as (l & EL & HL). rewrite EL in E2. exists l. auto.
  - destruct (proj1 (C112_count_r sort time input line3) us3 G3) as (p' & mx & nd & i & Sp & Sm & Sn & Si & E2).
    rewrite (string_is _ _ _ _ Si I3), (number_default _ _ _ _ Sp P3), (switch_on _ _ _ Sm M3), (switch_on _ _ _ Sn D3), (S F t W) in E2.
    destruct (count_r_shows sort time F t true true _ _ HF ER2) as (l & EL & HL). rewrite EL in E2. exists l. auto.
Qed.
Print Assumptions C130_word_then_count_r.
(** the words and count_r, executed *)
Example C130_case :
  (exists w, word_main PaperFolding 4 = Ok w /\ count_r_main naive_sort true w 0 false false = Ok (33, 19) /\ count_r_main naive_sort true w 0 true true = Ok (32, 16)) /\
  paper_end_runs 4 = 19 /\ paper_runs 4 = 16 /\
  (exists w, word_main PaperFolding 3 = Ok w /\ count_r_main naive_sort true w 0 false false = Ok (17, 8) /\ count_r_main naive_sort true w 0 true true = Ok (16, 10)) /\ paper_end_runs 3 = 8 /\ paper_runs 3 = 10 /\
  paper_end_runs 6 = 25 /\ paper_runs 6 = 24.
Proof. split; [eexists; split; [|split]; vm_compute; reflexivity|]. do 2 (split; [reflexivity|]). split; [eexists; split; [|split]; vm_compute; reflexivity|]. repeat split. Qed.
(** there are such command lines: word -n paper-folding -k3 -o F, count_r -i F and count_r -i F -un *)
Example C130_session_case : exists us1 us2 us3,
  good word_options us1 (ws ["-n"; "paper-folding"; "-k3"; "-o"; "F"]%string) /\ makes_word us1 (ascii "paper-folding") 3 (ascii "F") /\ word_like (ascii "F") /\
  good count_r_options us2 (ws ["-i"; "F"]%string) /\ end_counts_runs_of us2 (ascii "F") /\ good count_r_options us3 (ws ["-i"; "F"; "-un"]%string) /\ counts_runs_of us3 (ascii "F").
Proof.
  exists [(o_name, [ascii "paper-folding"]); (o_k, [ascii "3"]); (o_out, [ascii "F"])], [(o_in, [ascii "F"])], [(o_in, [ascii "F"]); (o_matrix, []); (o_nodollar, [])].
  set (us1 := [(o_name, _); _; _]). set (us2 := [(o_in, _)]). set (us3 := [(o_in, _); _; _]).
  assert (NH : forall c l, c <> 45 -> Forall (fun v => ~ hyphened v) [c :: l]) by (intros c l N; constructor; [intros (x & y & E); injection E as E; congruence|constructor]).
  assert (G1 : good word_options us1 (ws ["-n"; "paper-folding"; "-k3"; "-o"; "F"]%string)).
  { split.
    - eexists. split; [|left; reflexivity].
      change (spelled word_options ([(o_name, [ascii "paper-folding"])] ++ [(o_k, [ascii "3"])] ++ [(o_out, [ascii "F"])] ++ []) (ws ["-n"; "paper-folding"]%string ++ ws ["-k3"]%string ++ ws ["-o"; "F"]%string ++ [])).
      constructor; [apply (pc_short word_options [] [] o_name 110 [ascii "paper-folding"]); [constructor|find_in|reflexivity|reflexivity|]|].
      { split; [discriminate|]. split; [now apply NH|reflexivity]. }
      constructor; [apply (pc_short_att word_options [] [] o_k 107 (ascii "3")); try constructor; try reflexivity; discriminate|].
      constructor; [apply (pc_short word_options [] [] o_out 111 [ascii "F"]); [constructor|find_in|reflexivity|reflexivity|]|constructor].
      split; [discriminate|]. split; [now apply NH|reflexivity].
    - split; [|split; [|split]].
      + constructor; [constructor; [exists (VName 6); constructor; [reflexivity|apply names_distinct]|constructor]|].
        constructor; [constructor; [exists (VNum 3); constructor; [|reflexivity]|constructor]|].
        { split; [discriminate|]. split; [repeat constructor|reflexivity]. }
        constructor; [constructor; [exists (VStr (ascii "F")); constructor|constructor]|constructor].
      + apply Forall_forall. repeat (constructor; [right; apply Nat.leb_le; vm_compute; reflexivity|]). constructor.
      + repeat constructor; discriminate.
      + intros a Ha R. revert a Ha R. apply (proj1 (Forall_forall (fun a => arg_required a = true -> used us1 a) word_options)).
        repeat (constructor; [intros R; first [discriminate R|intros X; vm_compute in X; discriminate X]|]). constructor. }
  assert (G3 : good count_r_options us3 (ws ["-i"; "F"; "-un"]%string)).
  { split.
    - eexists. split; [|left; reflexivity].
      change (spelled count_r_options ([(o_in, [ascii "F"])] ++ [(o_matrix, []); (o_nodollar, [])] ++ []) (ws ["-i"; "F"]%string ++ ws ["-un"]%string ++ [])).
      constructor; [apply (pc_short count_r_options [] [] o_in 105 [ascii "F"]); [constructor|find_in|reflexivity|reflexivity|]|].
      { split; [discriminate|]. split; [now apply NH|reflexivity]. }
      constructor; [apply (pc_letters count_r_options [o_matrix; o_nodollar] [117; 110]); [|discriminate]|constructor].
      constructor; [find_in|reflexivity|reflexivity|]. constructor; [find_in|reflexivity|reflexivity|constructor].
    - split; [|split; [|split]].
      + constructor; [constructor; [exists (VStr (ascii "F")); constructor|constructor]|repeat constructor].
      + apply Forall_forall. repeat (constructor; [right; apply Nat.leb_le; vm_compute; reflexivity|]). constructor.
      + repeat constructor; discriminate.
      + intros a Ha R. exfalso. revert a Ha R. apply (proj1 (Forall_forall (fun a => arg_required a = true -> False) count_r_options)). repeat (constructor; [intros R; discriminate R|]). constructor. }
  assert (M1 : makes_word us1 (ascii "paper-folding") 3 (ascii "F")).
  { split; [reflexivity|]. split; [|reflexivity]. right. exists (ascii "3"), 3%N. split; [reflexivity|]. split; [|reflexivity]. constructor; [|reflexivity].
    split; [discriminate|]. split; [repeat constructor|reflexivity]. }
  assert (M3 : counts_runs_of us3 (ascii "F")).
  { split; [reflexivity|]. split; [reflexivity|]. split; discriminate. }
  assert (WL : word_like (ascii "F")) by (split; [discriminate|split; intros [X|[]]; discriminate X]).
  assert (G2 : good count_r_options us2 (ws ["-i"; "F"]%string)).
  { split.
    - eexists. split; [|left; reflexivity].
      change (spelled count_r_options ([(o_in, [ascii "F"])] ++ []) (ws ["-i"; "F"]%string ++ [])).
      constructor; [apply (pc_short count_r_options [] [] o_in 105 [ascii "F"]); [constructor|find_in|reflexivity|reflexivity|]|constructor].
      split; [discriminate|]. split; [|reflexivity]. constructor; [intros (x & y & X); discriminate X|constructor].
    - split; [|split; [|split]].
      + constructor; [constructor; [exists (VStr (ascii "F")); constructor|constructor]|constructor].
      + apply Forall_forall. repeat (constructor; [right; apply Nat.leb_le; vm_compute; reflexivity|]). constructor.
      + repeat constructor; discriminate.
      + intros a Ha R. exfalso. revert a Ha R. apply (proj1 (Forall_forall (fun a => arg_required a = true -> False) count_r_options)). repeat (constructor; [intros R; discriminate R|]). constructor. }
  assert (M2 : end_counts_runs_of us2 (ascii "F")) by (repeat split; reflexivity).
  split; [exact G1|]. split; [exact M1|]. split; [exact WL|]. split; [exact G2|]. split; [exact M2|]. split; [exact G3|exact M3].
Qed.
