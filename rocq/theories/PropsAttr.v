(** PropsAttr.v : property theorem C41 (bin/is_stringattractor.rs). *)
From Verif Require Import Base SpecStr SortFacts SpecLz ModelAttr SpecAttr AttrProof AttrProof2.

(** C41: ASCII texts *)
Theorem C41_is_attractor_decides : forall sort s A, (forall t, is_suffix_array t (sort t)) -> s <> [] ->
  Forall (fun x => 0 < x < 128) s -> Forall (fun a => a <= length s) A ->
  exists b, is_attractor sort (s ++ [0]) A = Ok b /\ (b = true <-> string_attractor s A).
Proof.
  intros sort s A Hs Hne HF HA.
  assert (HF0 : Forall (fun x => x <> 0) s) by (eapply Forall_impl; [|exact HF]; cbv beta; lia).
  assert (HF1 : Forall (fun x => x < 128) s) by (eapply Forall_impl; [|exact HF]; cbv beta; lia).
  destruct (is_attractor_correct sort s A Hs Hne HF0 HA) as [(E & H)|(H & [E|(E & N)])]; [| |easy];
    (eexists; split; [exact E|]); split; intros; easy.
Qed.
Print Assumptions C41_is_attractor_decides.
(** all byte texts without 0: the answer true is given exactly for attractors; otherwise false or a panic
    (printing an uncovered substring that is not UTF-8) *)
Theorem C41_is_attractor_bytes : forall sort s A, (forall t, is_suffix_array t (sort t)) -> s <> [] ->
  Forall (fun x => x <> 0) s -> Forall (fun a => a <= length s) A ->
  (is_attractor sort (s ++ [0]) A = Ok true <-> string_attractor s A) /\
  (~ string_attractor s A -> is_attractor sort (s ++ [0]) A = Ok false \/ is_attractor sort (s ++ [0]) A = Panic).
Proof.
  intros sort s A Hs Hne HF HA.
  destruct (is_attractor_correct sort s A Hs Hne HF HA) as [(E & H)|(H & R)].
  - tauto.
  - split; [|tauto]. split; [|tauto]. intros E. exfalso. destruct R as [R|(R & _)]; rewrite E in R; discriminate.
Qed.
Print Assumptions C41_is_attractor_bytes.
(** positions outside the text are rejected by an assertion *)
Theorem C41_out_of_range : forall sort s A, ~ Forall (fun a => a <= length s) A -> is_attractor sort (s ++ [0]) A = Panic.
Proof.
  intros sort s A HA. unfold is_attractor.
  assert (En : length (s ++ [0]) = S (length s)) by (rewrite app_length; simpl; lia).
  rewrite En. change (0 <? S (length s)) with true. cbn [assert_ bind]. unfold last_. rewrite rev_app_distr. cbn [rev app bind Nat.eqb assert_].
  assert (Hp : for_in A (fun a (_ : unit) => assert_ (a <? S (length s))) tt = Panic); [|now rewrite Hp].
  induction A as [|a A IH]; [exfalso; apply HA; constructor|]. cbn [for_in].
  destruct (Nat.ltb_spec a (S (length s))) as [C|C]; [|reflexivity]. cbn [assert_ bind]. apply IH.
  intros HF. apply HA. constructor; [lia|exact HF].
Qed.
Print Assumptions C41_out_of_range.
(** the empty text is the one text for which the answer is wrong *)
Theorem C41_empty_text_refuted : forall sort, (forall t, is_suffix_array t (sort t)) ->
  is_attractor sort ([] ++ [0]) [] = Ok false /\ string_attractor [] [].
Proof.
  intros sort Hs. split.
  - unfold is_attractor. simpl app. destruct (Hs [0]) as (HP & _).
    apply Permutation_sym, Permutation_length_1_inv in HP. rewrite HP. reflexivity.
  - intros i l Hl Hi. simpl in Hi. lia.
Qed.
Print Assumptions C41_empty_text_refuted.
Example C41_case : is_attractor naive_sort [97;98;97;97;98;97;0] [1;2;3] = Ok true /\
  is_attractor naive_sort [97;98;97;97;98;97;0] [2;3] = Ok false /\
  is_attractor naive_sort [195;164;0] [] = Panic.
Proof. repeat split; reflexivity. Qed.
