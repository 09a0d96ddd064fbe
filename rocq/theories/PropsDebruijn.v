(** PropsDebruijn.v : property theorems C121: the tools on the word binary_debruijn (src/word.rs: binary_debruijn_word). *)
From Verif Require Import Base SpecStr LexFacts BorderProof LyndonProof BwtFacts BwtProof UnifyProof LynMorph LynFam5 ModelCore ModelWord NeckProof PropsLyndon PropsArrays PropsNeck.
From Coq Require Import NArith.

Lemma window_rot (w : str) i n : i < length w -> n <= length w -> firstn n (skipn i (w ++ w)) = firstn n (rot i w).
Proof.
  intros Hi Hn. unfold rot. rewrite skipn_app. replace (i - length w) with 0 by lia. cbn [skipn].
  rewrite !firstn_app, skipn_length, firstn_firstn. f_equal. f_equal. lia.
Qed.
Lemma power_rot (u : str) m : 1 <= m -> rot (length u) (power u m) = power u m.
Proof.
  intros Hm. destruct m as [|m]; [lia|]. cbn [power]. unfold rot. rewrite skipn_app, skipn_all, Nat.sub_diag. cbn [skipn app].
  rewrite firstn_app, firstn_all, Nat.sub_diag. cbn [firstn]. rewrite app_nil_r. clear Hm.
  induction m as [|m IH]; [cbn [power app]; now rewrite app_nil_r|]. cbn [power]. now rewrite <- app_assoc, IH.
Qed.
Lemma least_is_rep n : forall x y : str, Forall isab x -> n <= length x -> lex_le x (repeat 97 n ++ y) -> firstn n x = repeat 97 n.
Proof.
  induction n as [|n IH]; intros x y HF Hl HL; [reflexivity|]. destruct x as [|c x]; [cbn [length] in Hl; lia|].
  inversion HF as [|? ? Hc HF']; subst. cbn [repeat app firstn length] in *.
  destruct HL as [HL|HL].
  - injection HL as -> E. f_equal. apply (IH x y); [exact HF'|lia|now left].
  - inversion HL as [|? ? ? ? Hlt|? ? ? Ht]; subst.
    + exfalso. unfold isab in Hc. destruct Hc as [-> | ->]; lia.
    + f_equal. apply (IH x y); [exact HF'|lia|now right].
Qed.
Section Word.
  Context (k : nat) (w : str) (Ew : binary_debruijn_word k = Ok w).
  Let n := k + 1.
  Let r0 := length w - n.
  Lemma facts : n < length w /\ Forall isab w /\ skipn r0 w = repeat 97 n /\
    forall i j, i < length w -> j < length w -> firstn n (rot i w) = firstn n (rot j w) -> i = j.
  Proof.
    destruct (C52_debruijn_windows_unique k) as (w' & E' & (L & _) & HF & HE & HU). rewrite Ew in E'. injection E' as <-.
    split; [exact L|]. split; [exact HF|]. split; [exact HE|]. intros i j Hi Hj E. apply HU; auto.
    subst n. rewrite !window_rot by lia. exact E.
  Qed.
  Lemma rot_r0 : rot r0 w = repeat 97 n ++ firstn r0 w.
  Proof. destruct facts as (_ & _ & E & _). unfold rot. now rewrite E. Qed.
  Lemma debruijn_primitive : primitive w.
  Proof.
    destruct facts as (L & _ & _ & U). intros (u & m & Hm & E).
    assert (Lw : length w = m * length u) by (rewrite E; apply power_length).
    assert (R : rot (length u) w = rot 0 w) by (rewrite rot_0; rewrite E; apply power_rot; lia).
    assert (length u = 0) as Z; [|rewrite Z in Lw; lia].
    apply U; [nia|lia|]. now rewrite R.
  Qed.
  Lemma conjugate_r0 : lyndon_conjugate w = Ok r0.
  Proof.
    destruct facts as (L & HF & E & U).
    destruct (C04_lyndon_conjugate_smallest_rotation w) as (r & Er & Hr & Hmin); [intros ->; cbn [length] in L; lia|].
    rewrite Er. f_equal. apply U; [exact Hr|subst r0; lia|].
    specialize (Hmin r0 ltac:(subst r0 n; lia)). rewrite rot_r0 in *.
    rewrite (least_is_rep n (rot r w) (firstn r0 w)); [| |rewrite rot_length; lia|exact Hmin].
    - rewrite firstn_app, firstn_all2 by (rewrite repeat_length; lia). rewrite repeat_length, Nat.sub_diag. cbn [firstn]. now rewrite app_nil_r.
    - unfold rot. apply Forall_app. rewrite <- (firstn_skipn r w) in HF. apply Forall_app in HF. tauto.
  Qed.
  Lemma conjugate_lyndon : lyndon (rot r0 w).
  Proof.
    destruct facts as (L & HF & E & U).
    destruct (C04_lyndon_conjugate_smallest_rotation w) as (r & Er & Hr & Hmin); [intros ->; cbn [length] in L; lia|].
    rewrite conjugate_r0 in Er. injection Er as <-.
    apply primitive_necklace_lyndon; [intros Q; apply (f_equal (@length nat)) in Q; rewrite rot_length in Q; cbn [length] in Q; lia| |].
    - apply primitive_rot; [exact Hr|exact debruijn_primitive].
    - now apply rot_necklace.
  Qed.
  Lemma before_tail : nth (r0 - 1) w 0 = 98.
  Proof.
    destruct facts as (L & HF & E & U).
    assert (Hb : isab (nth (r0 - 1) w 0)) by (rewrite Forall_forall in HF; apply HF, nth_In; subst r0 n; lia).
    destruct Hb as [Hb|Hb]; [exfalso|exact Hb].
    assert (r0 - 1 = r0); [|subst r0 n; lia]. apply U; [subst r0 n; lia|subst r0 n; lia|].
    apply (nth_ext_len _ _ 0); [rewrite !firstn_length, !rot_length; reflexivity|]. intros i Hi. rewrite firstn_length, rot_length in Hi.
    rewrite !nth_firstn by lia. rewrite rot_r0. rewrite (app_nth1 (repeat 97 n)) by (rewrite repeat_length; lia).
    rewrite nth_rep by lia. unfold rot. rewrite app_nth1 by (rewrite skipn_length; subst r0 n; lia). rewrite nth_skipn.
    destruct i as [|i]; [rewrite Nat.add_0_r; exact Hb|].
    replace (r0 - 1 + S i) with (r0 + i) by (subst r0 n; lia). rewrite <- nth_skipn, E. apply nth_rep. lia.
  Qed.
  Lemma debruijn_factors : exists gs, concat gs = firstn r0 w /\ lyndon_factorization w (gs ++ repeat [97] n).
  Proof.
    destruct facts as (L & HF & E & U).
    destruct (C01_duval_is_lyndon_factorization (firstn r0 w)) as (ends & gs & _ & HG & _). exists gs.
    split; [apply HG|]. rewrite <- (firstn_skipn r0 w) at 1. rewrite E. apply factors_app; [exact HG|apply rep_factors|].
    intros f r g s Ef Eg. destruct n as [|n']; [discriminate Eg|]. cbn [repeat] in Eg. injection Eg as <- _.
    destruct HG as (Ec & HL & _). subst gs. apply Forall_app in HL. destruct HL as (_ & HL). inversion HL as [|? ? Hf _]; subst.
    apply single_le; [exact Hf|].
    assert (H : Forall isab (firstn r0 w)) by (rewrite <- (firstn_skipn r0 w) in HF; apply Forall_app in HF; tauto).
    rewrite <- Ec, concat_app in H. apply Forall_app in H. destruct H as (_ & H). cbn [concat] in H. rewrite app_nil_r in H.
    eapply Forall_impl; [|exact H]. intros c [-> | ->]; lia.
  Qed.
End Word.

(** the smallest rotation starts with the k+1 letters a the word ends with; it is a Lyndon word *)
Theorem C121_lyndon_conjugate : forall k w, binary_debruijn_word k = Ok w ->
  lyndon_conjugate w = Ok (length w - (k + 1)) /\
  rot (length w - (k + 1)) w = repeat 97 (k + 1) ++ firstn (length w - (k + 1)) w /\
  lyndon (repeat 97 (k + 1) ++ firstn (length w - (k + 1)) w).
Proof.
  intros k w E. split; [now apply conjugate_r0|]. split; [now apply rot_r0|]. rewrite <- (rot_r0 k w E). now apply conjugate_lyndon.
Qed.
Print Assumptions C121_lyndon_conjugate.
Theorem C121_primitive : forall k w, binary_debruijn_word k = Ok w -> is_primitive w = Ok true.
Proof.
  intros k w E. pose proof (facts k w E) as (L & _).
  destruct (C07_is_primitive_decides w) as (b & Eb & Hb); [intros ->; cbn [length] in L; lia|].
  rewrite Eb. destruct b; [reflexivity|]. f_equal. apply Hb. now apply (debruijn_primitive k).
Qed.
Print Assumptions C121_primitive.
(** duval cuts off exactly the k+1 last letters a one by one; the factor before ends with b *)
Theorem C121_duval : forall k w, binary_debruijn_word k = Ok w ->
  exists gs, lyndon_factorization (firstn (length w - (k + 1)) w) gs /\ duval w = Ok (ends_from 0 (gs ++ repeat [97] (k + 1))) /\
    nth (length w - (k + 1) - 1) w 0 = 98.
Proof.
  intros k w E. destruct (debruijn_factors k w E) as (gs & Ec & HF). exists gs.
  destruct (C01_duval_is_lyndon_factorization w) as (ends & fs & Ed & _ & _).
  pose proof (C02_duval_unique _ _ _ Ed HF) as ->. split; [|split; [exact Ed|now apply before_tail]].
  destruct HF as (_ & H1 & H2). split; [exact Ec|]. split; [apply Forall_app in H1; tauto|].
  clear -H2. revert H2. generalize (repeat [97] (k + 1)). intros hs. induction gs as [|g gs IH]; intros H; [exact I|].
  destruct gs as [|h gs]; [exact (conj I I) || exact I|]. destruct H as (H & H'). split; [exact H|]. now apply IH.
Qed.
Print Assumptions C121_duval.
Example C121_case : binary_debruijn_word 2 = Ok [98;98;98;97;98;97;97;97] /\ lyndon_conjugate [98;98;98;97;98;97;97;97] = Ok 5 /\
  duval [98;98;98;97;98;97;97;97] = Ok [0;1;2;4;5;6;7].
Proof. vm_compute. repeat split. Qed.
