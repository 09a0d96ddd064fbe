(** PropsAttr2.v : property theorem C77 (bin/is_stringattractor.rs, the program). *)
From Verif Require Import Base SpecStr SortFacts SpecLz ModelIo ModelAttr SpecAttr AttrProof2 AttrProof3 ModelMain SpecIo SpecMain MainProof2 PropsAttr.

Definition not_covered (w : str) : str := ascii "substring '" ++ w ++ ascii "' not covered!" ++ newline.

(** C77: status 1 and no output if a position is too large; 0 for attractors; otherwise 2, and the lines
    "substring '..' not covered!" *)
Theorem C77_program : forall sort content p A, (forall t, is_suffix_array t (sort t)) -> prefix_read content p <> [] ->
  Forall (fun x => 0 < x < 128) (prefix_read content p) ->
  exists code out, is_stringattractor_main sort true content p A = Ok (code, out) /\
    (code = 0 \/ code = 1 \/ code = 2) /\
    (code = 1 <-> exists a, In a A /\ length (prefix_read content p) < a) /\
    (code = 0 <-> Forall (fun a => a <= length (prefix_read content p)) A /\ string_attractor (prefix_read content p) A) /\
    (code = 1 -> out = []) /\ (code = 0 -> out = ascii "valid attractor" ++ newline).
Proof.
  intros sort content p A Hs Hne HF. unfold is_stringattractor_main. rewrite prefix_read_ok. cbn [bind].
  set (s := prefix_read content p) in *.
  assert (En : length (s ++ [0]) = S (length s)) by (rewrite app_length; simpl; lia). rewrite En.
  destruct (existsb (fun a => S (length s) <=? a) A) eqn:EX.
  - apply existsb_exists in EX. destruct EX as (a & Ha & HX). apply Nat.leb_le in HX.
    exists 1, []. split; [reflexivity|]. split; [auto|]. split; [|split; [|split; [auto|discriminate]]].
    + split; [intros _; exists a; auto|auto].
    + split; [discriminate|]. intros (HFA & _). rewrite Forall_forall in HFA. specialize (HFA a Ha). lia.
  - assert (HA : Forall (fun a => a <= length s) A).
    { apply Forall_forall. intros a Ha. apply Nat.lt_succ_r, Nat.nle_gt. intros HX. apply Nat.leb_le in HX.
      assert (existsb (fun a => S (length s) <=? a) A = true) by (apply existsb_exists; eauto). congruence. }
    destruct (io_run sort s A Hs Hne HF HA) as (ws & E & H1 & H2 & _). pose proof (is_attractor_io_fst sort (s ++ [0]) A) as EF.
    rewrite E in EF |- *. cbn [bind fst] in *.
    destruct (C41_is_attractor_decides sort s A Hs Hne HF HA) as (b & Eb & Hb). rewrite Eb in EF. injection EF as EF.
    assert (Hno1 : ~ exists a, In a A /\ length s < a).
    { intros (a & Ha & HL). rewrite Forall_forall in HA. specialize (HA a Ha). lia. }
    destruct ws as [|w ws]; subst b; cbn [negb].
    + eexists 0, _. split; [reflexivity|]. split; [auto|]. split; [split; [discriminate|tauto]|].
      split; [|split; [discriminate|reflexivity]]. split; [|auto]. intros _. split; [exact HA|]. now apply Hb.
    + eexists 2, _. split; [reflexivity|]. split; [auto|]. split; [split; [discriminate|tauto]|].
      split; [|split; discriminate]. split; [discriminate|]. intros (_ & Hat). apply Hb in Hat. discriminate.
Qed.
Print Assumptions C77_program.
(** status 2: some lines followed by "not a valid attractor"; with at least one position given, every word
    shown is an uncovered substring, and every uncovered substring has a prefix that is shown *)
Theorem C77_lines : forall sort content p A, (forall t, is_suffix_array t (sort t)) -> prefix_read content p <> [] ->
  Forall (fun x => 0 < x < 128) (prefix_read content p) -> Forall (fun a => a <= length (prefix_read content p)) A ->
  ~ string_attractor (prefix_read content p) A ->
  exists ws, is_stringattractor_main sort true content p A =
      Ok (2, concat (map not_covered ws) ++ ascii "not a valid attractor" ++ newline) /\ ws <> [] /\
    (A <> [] -> forall w, In w ws -> exists i, uncovered (prefix_read content p) A i (length w) /\
       w = firstn (length w) (skipn i (prefix_read content p))) /\
    (forall i l, uncovered (prefix_read content p) A i l ->
       exists l', 1 <= l' <= l /\ In (firstn l' (skipn i (prefix_read content p))) ws).
Proof.
  intros sort content p A Hs Hne HF HA HN. unfold is_stringattractor_main. rewrite prefix_read_ok. cbn [bind].
  set (s := prefix_read content p) in *.
  assert (En : length (s ++ [0]) = S (length s)) by (rewrite app_length; simpl; lia). rewrite En.
  destruct (existsb (fun a => S (length s) <=? a) A) eqn:EX.
  { exfalso. apply existsb_exists in EX. destruct EX as (a & Ha & HX). apply Nat.leb_le in HX.
    rewrite Forall_forall in HA. specialize (HA a Ha). lia. }
  destruct (io_run sort s A Hs Hne HF HA) as (ws & E & H1 & H2 & _). pose proof (is_attractor_io_fst sort (s ++ [0]) A) as EF.
  rewrite E in EF |- *. cbn [bind fst] in *.
  destruct (C41_is_attractor_decides sort s A Hs Hne HF HA) as (b & Eb & Hb). rewrite Eb in EF. injection EF as EF.
  exists ws. destruct ws as [|w ws]; subst b; [exfalso; apply HN, Hb; reflexivity|].
  split; [reflexivity|]. split; [discriminate|]. split.
  - intros HAne v Hv. destruct (H1 v Hv) as [(_ & C)|(i & l & L1 & L2 & -> & HU)]; [contradiction|].
    assert (EL : length (firstn l (skipn i s)) = l) by (rewrite firstn_length, skipn_length; lia).
    exists i. rewrite EL. split; [|reflexivity]. split; [exact L1|]. split; [exact L2|exact HU].
  - intros i l (L1 & L2 & HU). now apply H2.
Qed.
Print Assumptions C77_lines.
(** with no position given one of the words shown is the end marker 0, which the text does not contain *)
Theorem C77_no_position_refuted : forall sort content p, (forall t, is_suffix_array t (sort t)) -> prefix_read content p <> [] ->
  Forall (fun x => 0 < x < 128) (prefix_read content p) ->
  exists ws, is_stringattractor_main sort true content p [] =
      Ok (2, concat (map not_covered ws) ++ ascii "not a valid attractor" ++ newline) /\
    In [0] ws /\ ~ In 0 (prefix_read content p).
Proof.
  intros sort content p Hs Hne HF. unfold is_stringattractor_main. rewrite prefix_read_ok. cbn [bind existsb].
  set (s := prefix_read content p) in *.
  destruct (io_run sort s [] Hs Hne HF (Forall_nil _)) as (ws & E & H1 & H2 & H3). rewrite E. cbn [bind].
  exists ws. specialize (H3 eq_refl). destruct ws as [|w ws]; [destruct H3|]. split; [reflexivity|]. split; [exact H3|].
  intros Hin. rewrite Forall_forall in HF. specialize (HF 0 Hin). lia.
Qed.
Print Assumptions C77_no_position_refuted.
Example C77_case : is_stringattractor_main naive_sort true (ascii "abaaba") 0 [1;2;3] = Ok (0, ascii "valid attractor" ++ newline) /\
  is_stringattractor_main naive_sort true (ascii "abaaba") 0 [1;7] = Ok (1, []) /\
  is_stringattractor_main naive_sort true (ascii "abaaba") 0 [2] =
    Ok (2, not_covered (ascii "ab") ++ not_covered (ascii "b") ++ ascii "not a valid attractor" ++ newline).
Proof. vm_compute. auto. Qed.
