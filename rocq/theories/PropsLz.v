(** PropsLz.v : property theorems C35-C40. [sort] stands for cdivsufsort; [naive_sort] is an instance. *)
From Verif Require Import Base SpecStr LexFacts ModelCore PermFacts SortFacts LcpProof ModelLz SpecLz LzProof MusProof.
From Coq Require Import NArith.

(** C35 *)
Theorem C35_lz77_decodes : forall sort t, (forall t, is_suffix_array t (sort t)) -> t <> [] ->
  Forall (fun x => x < 256) t -> (N.of_nat (length t) < 2^32)%N ->
  exists fs, count_z_main sort t = Ok fs /\ decode_lz77 fs = Ok t.
Proof.
  intros sort t Hs Hne HB Hn. destruct (count_z_ok sort t Hs Hne HB Hn) as (fs & E & _ & D). eauto.
Qed.
Print Assumptions C35_lz77_decodes.
(** the empty text panics (no suffix array entry to start from) *)
Theorem C35_empty_panics : forall sort, (forall t, is_suffix_array t (sort t)) -> count_z_main sort [] = Panic.
Proof.
  intros sort Hs. unfold count_z_main. destruct (Hs []) as (HP & _). apply Permutation_sym, Permutation_nil in HP.
  rewrite HP. reflexivity.
Qed.
Print Assumptions C35_empty_panics.
Example C35_case : exists sort, (forall t, is_suffix_array t (sort t)) /\
  count_z_main sort [97;98;97;98;97] = Ok [LZ 97 0; LZ 98 0; LZ 2 3] /\
  decode_lz77 [LZ 97 0; LZ 98 0; LZ 2 3] = Ok [97;98;97;98;97].
Proof. exists naive_sort. split; [exact naive_sort_ok|]. split; reflexivity. Qed.

(** C36 *)
Theorem C36_lz77_longest_previous_factors : forall sort t, (forall t, is_suffix_array t (sort t)) -> t <> [] ->
  Forall (fun x => x < 256) t -> (N.of_nat (length t) < 2^32)%N ->
  exists fs, count_z_main sort t = Ok fs /\ is_lz77_parsing t 0 fs /\
    forall fs', is_lz77_parsing t 0 fs' -> map lz_len fs' = map lz_len fs.
Proof.
  intros sort t Hs Hne HB Hn. destruct (count_z_ok sort t Hs Hne HB Hn) as (fs & E & H & _).
  exists fs. split; [exact E|]. split; [exact H|]. intros fs' H'. exact (parsing_unique_lens t fs' fs 0 H' H).
Qed.
Print Assumptions C36_lz77_longest_previous_factors.
Example C36_case : is_lz77_parsing [97;98;97;98;97] 0 [LZ 97 0; LZ 98 0; LZ 2 3].
Proof.
  destruct (count_z_ok naive_sort [97;98;97;98;97] naive_sort_ok) as (fs & E & H & _); try easy.
  - repeat constructor; lia.
  - vm_compute in E. injection E as <-. exact H.
Qed.

(** C37 *)
Theorem C37_lz77_minimal : forall sort t, (forall t, is_suffix_array t (sort t)) -> t <> [] ->
  Forall (fun x => x < 256) t -> (N.of_nat (length t) < 2^32)%N ->
  exists fs, count_z_main sort t = Ok fs /\ parsable t 0 (length fs) /\
    forall k, parsable t 0 k -> length fs <= k.
Proof.
  intros sort t Hs Hne HB Hn. destruct (count_z_ok sort t Hs Hne HB Hn) as (fs & E & H & _).
  exists fs. split; [exact E|]. split; [now apply parsing_parsable|].
  intros k Hk. apply (greedy_min t fs 0 H k 0); auto; lia.
Qed.
Print Assumptions C37_lz77_minimal.
Example C37_case : parsable [97;98;97;98;97] 0 5 /\ parsable [97;98;97;98;97] 0 3.
Proof.
  split.
  - do 5 (apply parse_literal; [simpl; lia|simpl]). exact (parse_end [97;98;97;98;97]).
  - do 2 (apply parse_literal; [simpl; lia|simpl]).
    apply (parse_copy _ 2 0 3); [lia|lia| |exact (parse_end [97;98;97;98;97])].
    split; [simpl; lia|]. split; [simpl; lia|]. intros [|[|[|x]]] Hx; try reflexivity; lia.
Qed.

(** C38: unless all letters of the text are equal, the factors determine the text *)
Theorem C38_lexparse_determines_text : forall sort t, (forall t, is_suffix_array t (sort t)) ->
  (exists i j, i < length t /\ j < length t /\ nth i t 0 <> nth j t 0) ->
  exists fs, count_lexparse_main sort t = Ok fs /\
    forall x, length x = length t -> (consistent x 0 fs <-> x = t).
Proof.
  intros sort t Hs (i & j & Hi & Hj & Hij).
  assert (Hne : t <> []) by (intros ->; simpl in Hi; lia).
  destruct (lexparse_ok sort t Hs Hne) as (fs & E & H1 & H2 & _). exists fs. split; [exact E|].
  intros x Lx. split.
  - apply H2; auto.
  - intros ->. exact H1.
Qed.
Print Assumptions C38_lexparse_determines_text.
(** for a text c^n the program runs, its factors are consistent with it, but equally with d^n for every d *)
Theorem C38_lexparse_determines_text_refuted : forall sort n c, (forall t, is_suffix_array t (sort t)) -> 0 < n ->
  exists fs, count_lexparse_main sort (repeat c n) = Ok fs /\ forall d, consistent (repeat d n) 0 fs.
Proof.
  intros sort n c Hs Hn. assert (Hne : repeat c n <> []) by (destruct n; [lia|easy]).
  destruct (lexparse_ok sort (repeat c n) Hs Hne) as (fs & E & _ & _ & H). exists fs. split; [exact E|].
  rewrite repeat_length in H. apply H. intros i j Hi Hj. rewrite repeat_length in *. now rewrite !nth_rep.
Qed.
Print Assumptions C38_lexparse_determines_text_refuted.
Theorem C38_empty_panics : forall sort, (forall t, is_suffix_array t (sort t)) -> count_lexparse_main sort [] = Panic.
Proof.
  intros sort Hs. unfold count_lexparse_main. destruct (Hs []) as (HP & _). apply Permutation_sym, Permutation_nil in HP.
  rewrite HP. reflexivity.
Qed.
Print Assumptions C38_empty_panics.
Example C38_case : count_lexparse_main naive_sort [98;97;98;97] = Ok [LZ 2 2; LZ 98 0; LZ 97 0] /\
  count_lexparse_main naive_sort [97;97;97] = Ok [LZ 1 2; LZ 0 1].
Proof. split; reflexivity. Qed.

(** C39 *)
Theorem C39_mus_with_sentinel : forall sort s, (forall t, is_suffix_array t (sort t)) ->
  Forall (fun x => x <> 0) s ->
  exists L, mus_main sort (s ++ [0]) = Ok L /\ StronglySorted (fun p q => fst p < fst q) L /\
    forall i l, In (i, l) L <-> is_mus s i l.
Proof. exact mus_sentinel. Qed.
Print Assumptions C39_mus_with_sentinel.
Example C39_case : mus_main naive_sort [97;98;97;97;98;97;0] = Ok [(2,2)].
Proof. reflexivity. Qed.

(** C40: what the program does on a non-empty file (it appends no sentinel): it panics iff some suffix of
    length >= 2 occurs a second time, otherwise it prints the minimal unique substrings that do not contain
    the last letter. *)
Theorem C40_mus_program : forall sort t, (forall t, is_suffix_array t (sort t)) -> t <> [] ->
  ((forall i j, i + 2 <= length t -> j <> i -> ~ same_substring t j i (length t - i)) ->
   exists L, mus_main sort t = Ok L /\ StronglySorted (fun p q => fst p < fst q) L /\
    forall i l, In (i, l) L <-> is_mus t i l /\ i + l < length t) /\
  ((exists i j, i + 2 <= length t /\ j <> i /\ same_substring t j i (length t - i)) -> mus_main sort t = Panic).
Proof.
  intros sort t Hs Hne. destruct (Nat.le_gt_cases 2 (length t)) as [H2|H2].
  - destruct (mus_main_long sort t Hs H2) as (G1 & G2). split.
    + intros H. apply G1. intros i' j' Hi'. apply H. lia.
    + intros (i' & j' & Hi' & Hj' & HA). apply (G2 i' j'); auto. lia.
  - destruct t as [|c [|]]; [congruence| |simpl in H2; lia]. split; [|intros (i & j & Hi & _); simpl in Hi; lia].
    intros _. exists []. pose proof (Hs [c]) as (HP & _). apply Permutation_sym, Permutation_length_1_inv in HP.
    unfold mus_main. rewrite HP. split; [cbn; now rewrite Nat.eqb_refl|]. split; [constructor|].
    intros i l. split; [intros []|]. intros ((H1 & _) & H). simpl in H. lia.
Qed.
Theorem C40_empty_panics : forall sort, (forall t, is_suffix_array t (sort t)) -> mus_main sort [] = Panic.
Proof.
  intros sort Hs. pose proof (Hs []) as (HP & _). apply Permutation_sym, Permutation_nil in HP.
  unfold mus_main. rewrite HP. reflexivity.
Qed.
Print Assumptions C40_empty_panics.
Print Assumptions C40_mus_program.
(** the naive claim fails: the only minimal unique substring of "ab" ending at its last letter is lost,
    "aa" prints nothing although (0,2) is minimal unique, "abab" panics *)
Theorem C40_mus_program_refuted :
  mus_main naive_sort [97;97] = Ok [] /\ is_mus [97;97] 0 2 /\
  mus_main naive_sort [97;98] = Ok [(0,1)] /\ is_mus [97;98] 1 1 /\
  mus_main naive_sort [97;98;97;98] = Panic.
Proof.
  assert (Hu0 : forall t i, 2 <= length t -> ~ unique_substring t i 0).
  { intros t i Ht (Hi & H). pose proof (H 0). pose proof (H 1). pose proof (H (i-1)).
    assert (G : forall j, j <= length t -> j = i) by (intros j Hj; apply H; repeat split; intros; lia).
    pose proof (G 0 ltac:(lia)). pose proof (G 1 ltac:(lia)). lia. }
  split; [reflexivity|]. split; [|split; [reflexivity|split; [|reflexivity]]].
  - split; [lia|]. split.
    + split; [simpl; lia|]. intros j (H & _). simpl in H. lia.
    + intros i' l' A B C HU. destruct l' as [|[|l']]; [apply (Hu0 [97;97] i'); auto|..]; [|lia].
      destruct HU as (_ & HU). assert (i' = 0 \/ i' = 1) as [->| ->] by lia.
      * specialize (HU 1). assert (1 = 0); [|lia]. apply HU. repeat split; simpl; try lia. intros [|x]; simpl; auto; lia.
      * specialize (HU 0). assert (0 = 1); [|lia]. apply HU. repeat split; simpl; try lia. intros [|x]; simpl; auto; lia.
  - split; [lia|]. split.
    + split; [simpl; lia|]. intros [|[|j]] (H & _ & H2); simpl in *; try lia. specialize (H2 0 ltac:(lia)). discriminate.
    + intros i' l' A B C HU. assert (l' = 0) by lia. subst l'. apply (Hu0 [97;98] i'); auto.
Qed.
Print Assumptions C40_mus_program_refuted.
Example C40_case : mus_main naive_sort [97;98;97;97;99] = Ok [(1,1);(2,2)].
Proof. reflexivity. Qed.
