(** PropsMain.v : property theorems C54, C55, C58, C59, C60, C62. [sort] stands for cdivsufsort;
    [naive_sort] is an instance. *)
From Verif Require Import Base SpecStr SpecIo SpecBwt SpecMain LexFacts ModelIo ModelTools ModelCore ModelWord ModelMain.
From Verif Require Import PermFacts SortFacts RunFacts BwtFacts BwtProof ToolsProof2 MainProof MainProof2 PropsBwt.
From Coq Require Import NArith.

(** C54 *)
Theorem C54_enumerate : forall s min max fuel, 1 <= s <= 26 -> 1 <= min <= max -> s ^ max <= fuel ->
  exists ws, enumerate_main fuel s min (Some max) = Ok (Some (lines ws)) /\ StronglySorted shortlex ws /\
    forall w, In w ws <-> min <= length w <= max /\ over_first_letters s w.
Proof. exact (fun s mn mx fuel => enumerate_main_ok s mn mx fuel). Qed.
Print Assumptions C54_enumerate.
(** the list is thereby free of repetitions *)
Theorem C54_no_repetition : forall ws, StronglySorted shortlex ws -> NoDup ws.
Proof.
  intros ws. apply SSorted_NoDup. intros x [H|(_ & H)]; [lia|now apply lex_lt_irrefl in H].
Qed.
Print Assumptions C54_no_repetition.
(** without max_len only the words of length min_len are printed *)
Theorem C54_default_max : forall s min fuel, enumerate_main fuel s min None = enumerate_main fuel s min (Some min).
Proof. reflexivity. Qed.
Print Assumptions C54_default_max.
(** all other arguments are rejected with exit status 1 and nothing is printed *)
Theorem C54_rejects : forall s min max fuel, s = 0 \/ 26 < s \/ min = 0 \/ max < min ->
  enumerate_main fuel s min (Some max) = Ok None.
Proof.
  intros s mn mx fuel H. unfold enumerate_main. destruct (Nat.eqb_spec s 0); [reflexivity|].
  destruct (Nat.ltb_spec 26 s); [reflexivity|]. cbn [orb]. destruct (Nat.eqb_spec mn 0); [reflexivity|].
  destruct (Nat.ltb_spec mx mn); [reflexivity|]. lia.
Qed.
Print Assumptions C54_rejects.
Example C54_case : enumerate_main 9 2 1 (Some 2) =
  Ok (Some (lines [ascii "a"; ascii "b"; ascii "aa"; ascii "ab"; ascii "ba"; ascii "bb"])).
Proof. reflexivity. Qed.

(** C55: every length and alphabet size whose number of texts fits in a usize *)
Theorem C55_kmer_generator : forall s n, s <= 159 -> (N.of_nat s ^ N.of_nat n < 2 ^ 64)%N ->
  exists L, kmer_generator n s = Ok L /\ NoDup L /\
    (forall w, In w L <-> length w = n /\ over_first_letters s w) /\
    StronglySorted (fun u v => lex_lt (rev u) (rev v)) L.
Proof.
  intros s n Hs Hn. destruct (kmer_spec s n Hs Hn) as (L & E & H1 & H2). exists L. split; [exact E|].
  split; [|split; [exact H2|exact H1]]. apply (SSorted_NoDup (fun u v => lex_lt (rev u) (rev v))); auto.
  intros x. apply lex_lt_irrefl.
Qed.
Print Assumptions C55_kmer_generator.
Theorem C55_overflow_panics : forall s n, (2 ^ 64 <= N.of_nat s ^ N.of_nat n)%N -> kmer_generator n s = Panic.
Proof. exact kmer_generator_overflow. Qed.
Print Assumptions C55_overflow_panics.
(** the program: 8-mers over 4 letters, one per line *)
Theorem C55_program : exists L, kmer_main 8 4 = Ok (lines L) /\ NoDup L /\
  forall w, In w L <-> length w = 8 /\ over_first_letters 4 w.
Proof.
  assert (HN : (N.of_nat 4 ^ N.of_nat 8 < 2 ^ 64)%N) by reflexivity.
  destruct (kmer_main_ok 4 8 ltac:(lia) HN) as (L & E & E').
  destruct (C55_kmer_generator 4 8 ltac:(lia) HN) as (L' & E2 & H1 & H2 & _).
  assert (L = L') by congruence. subst L'. exists L. auto.
Qed.
Print Assumptions C55_program.
Example C55_case : kmer_generator 2 3 = Ok (map (fun s => ascii s)
  ["aa";"ba";"ca";"ab";"bb";"cb";"ac";"bc";"cc"]%string).
Proof. reflexivity. Qed.

(** C58 *)
Theorem C58_randomstring : forall fuel alphabet_size prefixlength rng out,
  randomstring_main fuel alphabet_size prefixlength rng = Ok out ->
  length out = prefixlength /\ (forall c, In c out -> exists i, c = rng i) /\
  (alphabet_size <> 0 -> exists D, NoDup D /\ length D <= alphabet_size /\ incl out D).
Proof. exact randomstring_safe. Qed.
Print Assumptions C58_randomstring.
(** it terminates on every random sequence in which each letter that occurs occurs again and again *)
Theorem C58_terminates : forall alphabet_size prefixlength rng,
  (forall i m, exists j, m <= j /\ rng j = rng i) ->
  exists F out, forall fuel, F <= fuel -> randomstring_main fuel alphabet_size prefixlength rng = Ok out.
Proof. exact randomstring_live. Qed.
Print Assumptions C58_terminates.
Theorem C58_never_panics : forall fuel alphabet_size prefixlength rng,
  randomstring_main fuel alphabet_size prefixlength rng <> Panic.
Proof. exact randomstring_no_panic. Qed.
Print Assumptions C58_never_panics.
Example C58_case : (forall i m, exists j, m <= j /\ (97 + j mod 3) = (97 + i mod 3)) /\
  randomstring_main 9 2 5 (fun i => 97 + i mod 3) = Ok [97;98;97;98;97].
Proof.
  split; [|reflexivity]. intros i m. exists (i + m * 3). split; [lia|]. rewrite Nat.mod_add by lia. reflexivity.
Qed.

(** C59. The text is what was read, with a 0 byte appended unless --no-dollar is given. *)
(** default options: the matrix BWT *)
Theorem C59_bwt_default : forall sort content p, (forall t, is_suffix_array t (sort t)) -> ~ In 0 (prefix_read content p) ->
  exists b, bwt_main sort true content p false false = Ok b /\ is_matrix_bwt (prefix_read content p ++ [0]) b.
Proof.
  intros sort content p Hs Hz. destruct (matrix_exists (prefix_read content p ++ [0])) as (b & Hb). exists b.
  split; [|exact Hb]. rewrite bwt_main_text. cbn iota. rewrite dollar_agree by auto. now apply bwt_by_matrix_naive_spec.
Qed.
Print Assumptions C59_bwt_default.
(** --use-matrix, text (with its end marker) of fewer than 100 bytes: the matrix BWT, whatever the bytes *)
Theorem C59_use_matrix_short : forall sort content p (no_dollar : bool),
  length (prefix_read content p ++ if no_dollar then [] else [0]) < 100 ->
  exists b, bwt_main sort true content p true no_dollar = Ok b /\
    is_matrix_bwt (prefix_read content p ++ if no_dollar then [] else [0]) b.
Proof.
  intros sort content p nd Hl. destruct (matrix_exists (prefix_read content p ++ if nd then [] else [0])) as (b & Hb). exists b.
  split; [|exact Hb]. rewrite bwt_main_text. cbn iota. destruct (Nat.ltb_spec (length (prefix_read content p ++ if nd then [] else [0])) 100); [|lia].
  now apply bwt_by_matrix_naive_spec.
Qed.
Print Assumptions C59_use_matrix_short.
(** --use-matrix --no-dollar on longer zero-free texts: the matrix BWT *)
Theorem C59_use_matrix_no_dollar : forall sort content p, (forall t, is_suffix_array t (sort t)) ->
  prefix_read content p <> [] -> ~ In 0 (prefix_read content p) ->
  exists b, bwt_main sort true content p true true = Ok b /\ is_matrix_bwt (prefix_read content p) b.
Proof.
  intros sort content p Hs Hne Hz. destruct (matrix_exists (prefix_read content p)) as (b & Hb). exists b.
  split; [|exact Hb]. rewrite bwt_main_text, app_nil_r. cbn iota. rewrite bwt_by_matrix_ok by auto.
  destruct (length (prefix_read content p) <? 100); now apply bwt_by_matrix_naive_spec.
Qed.
Print Assumptions C59_use_matrix_no_dollar.
(** the naive claim fails: with the default end marker, --use-matrix panics on EVERY input of at least 99
    bytes, and without it on every such input containing a 0 byte *)
Theorem C59_use_matrix_refuted : forall sort content p (no_dollar : bool),
  100 <= length (prefix_read content p ++ if no_dollar then [] else [0]) ->
  In 0 (prefix_read content p ++ if no_dollar then [] else [0]) ->
  bwt_main sort true content p true no_dollar = Panic.
Proof.
  intros sort content p nd Hl Hz. rewrite bwt_main_text. cbn iota.
  destruct (Nat.ltb_spec (length (prefix_read content p ++ if nd then [] else [0])) 100); [lia|].
  apply bwt_by_matrix_panic. now right.
Qed.
Print Assumptions C59_use_matrix_refuted.
(** --no-dollar alone: the letters before the sorted suffixes, the letter before the first position being
    the last one *)
Theorem C59_no_dollar : forall sort content p, (forall t, is_suffix_array t (sort t)) ->
  prefix_read content p <> [] -> ~ In 0 (firstn (length (prefix_read content p) - 1) (prefix_read content p)) ->
  exists b sa, bwt_main sort true content p false true = Ok b /\ is_suffix_array (prefix_read content p) sa /\
    length b = length (prefix_read content p) /\ Permutation b (prefix_read content p) /\
    forall i, i < length b -> nth i b 0 = cyclic_prev (prefix_read content p) (nth i sa 0).
Proof.
  intros sort content p Hs Hne Hz. destruct (C13_bwt_from_text_by_sa sort _ Hs Hne Hz) as (b & E & L & P & H & _).
  exists b, (sort (prefix_read content p)). rewrite bwt_main_text, app_nil_r. cbn iota. rewrite L. repeat split; auto; apply Hs.
Qed.
Print Assumptions C59_no_dollar.
(** this is not the matrix BWT in general *)
Theorem C59_no_dollar_matrix_refuted : exists content b b', ~ In 0 content /\
  bwt_main naive_sort true content 0 false true = Ok b /\ is_matrix_bwt content b' /\ b <> b'.
Proof.
  exists [2;1;1], [1;2;1], [2;1;1]. split; [intros H; simpl in H; lia|].
  split; [reflexivity|]. split; [now apply bwt_by_matrix_naive_spec|congruence].
Qed.
Print Assumptions C59_no_dollar_matrix_refuted.
(** without --use-matrix a 0 byte in what was read is refused, unless --no-dollar is given and the only one
    is the last byte; with --no-dollar the empty text is refused *)
Theorem C59_zero_byte_panics : forall sort content p, In 0 (prefix_read content p) ->
  bwt_main sort true content p false false = Panic.
Proof.
  intros sort content p Hz. rewrite bwt_main_text. cbn iota. apply C13_panics. right.
  rewrite app_length. cbn [length]. rewrite Nat.add_sub, firstn_app, Nat.sub_diag, firstn_all. cbn. now rewrite app_nil_r.
Qed.
Print Assumptions C59_zero_byte_panics.
Theorem C59_no_dollar_panics : forall sort content p,
  prefix_read content p = [] \/ In 0 (firstn (length (prefix_read content p) - 1) (prefix_read content p)) ->
  bwt_main sort true content p false true = Panic.
Proof. intros sort content p H. rewrite bwt_main_text, app_nil_r. cbn iota. now apply C13_panics. Qed.
Print Assumptions C59_no_dollar_panics.
(** count_r prints the length of the BWT that bwt writes and its number of runs *)
Theorem C59_count_r : forall sort is_file content p um nd b rs, bwt_main sort is_file content p um nd = Ok b ->
  is_runs b rs -> count_r_main sort is_file content p um nd = Ok (length b, length rs).
Proof.
  intros sort is_file content p um nd b rs E HR. rewrite (count_r_ok _ _ _ _ _ _ _ E).
  now rewrite (is_runs_unique b rs (runs b) HR (runs_ok b)).
Qed.
Print Assumptions C59_count_r.
Theorem C59_count_r_panics : forall sort is_file content p um nd, bwt_main sort is_file content p um nd = Panic ->
  count_r_main sort is_file content p um nd = Panic.
Proof. intros sort is_file content p um nd E. unfold count_r_main. now rewrite E. Qed.
Print Assumptions C59_count_r_panics.
Example C59_case : bwt_main naive_sort true [2;1;3;1;3;1] 0 false false = Ok [1;3;3;2;0;1;1] /\
  bwt_main naive_sort true [2;1;3;1;3;1] 0 true true = Ok [3;3;2;1;1;1] /\
  bwt_main naive_sort true (repeat 1 99) 0 true false = Panic /\
  count_r_main naive_sort true [2;1;3;1;3;1] 0 false false = Ok (7, 5).
Proof. vm_compute. repeat split. Qed.

(** C60: [f1 :: fs] are the Lyndon factors; the file shows f1 and the factors sh with their numbers and
    positions; sh misses only a final factor consisting of a 0 byte *)
Theorem C60_lyndonfactorization : forall content p, prefix_read content p <> [] ->
  exists f1 fs sh out, lyndonfactorization_main true content p true =
     Ok (length (f1 :: fs), Some (ascii ">Factor 1" ++ newline ++ f1 ++ out)) /\
    lyndonfactorization_main true content p false = Ok (length (f1 :: fs), None) /\
    lyndon_factorization (prefix_read content p) (f1 :: fs) /\ factor_entries 2 (length f1) sh out /\
    (last (prefix_read content p) 1 <> 0 -> sh = fs) /\
    (last (prefix_read content p) 1 = 0 -> fs <> [] -> fs = sh ++ [[0]]).
Proof. exact lyndonfactorization_ok. Qed.
Print Assumptions C60_lyndonfactorization.
Theorem C60_empty_panics : forall is_file content p with_output,
  file_or_stdin2byte_vector is_file content p = Ok [] ->
  lyndonfactorization_main is_file content p with_output = Panic.
Proof. exact lyndonfactorization_empty. Qed.
Print Assumptions C60_empty_panics.
Example C60_case : lyndonfactorization_main true (ascii "bab" ++ [0]) 0 true =
  Ok (3, Some (ascii ">Factor 1" ++ newline ++ ascii "b" ++ newline ++ ascii ">Factor 2 : 1 -> 3" ++ newline ++ ascii "ab")).
Proof. reflexivity. Qed.

(** C62 *)
Theorem C62_lyndonwords_program : forall n s, 1 <= n -> 1 <= s <= 159 ->
  exists L, (forall fuel, length L < fuel -> lyndonwords_main fuel n s = Ok (lines L)) /\
   StronglySorted lex_lt L /\
   forall w, In w L <-> lyndon w /\ length w <= n /\ over_first_letters s w.
Proof. exact lyndonwords_ok. Qed.
Print Assumptions C62_lyndonwords_program.
(** larger alphabets make the program panic when it reaches the letter 159 *)
Theorem C62_large_alphabet_panics : forall n s, 1 <= n -> 160 <= s <= 256 ->
  exists F, forall fuel, F < fuel -> lyndonwords_main fuel n s = Panic.
Proof. exact lyndonwords_panic. Qed.
Print Assumptions C62_large_alphabet_panics.
Example C62_case : lyndonwords_main 9 3 2 = Ok (lines (map (fun s => ascii s) ["a";"aab";"ab";"abb";"b"]%string)).
Proof. reflexivity. Qed.
