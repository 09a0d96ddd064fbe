(** PropsKolakoski.v : property theorems C122: the run lengths of one word kolakoski are the word before (src/word.rs: kolakoski_word;
    src/bin/count_runs.rs; src/bin/word.rs). *)
From Verif Require Import Base SpecStr SpecIo SpecMain SpecWord SpecArgs SpecArgs2 SpecFs LexFacts RunFacts ModelIo ModelCore ModelMain ModelWord ModelFs ModelArgs ModelArgs2
  WordProof4 PropsArgs2 PropsWord PropsWord2 SpecResult MainProof2 PropsSession.
From Coq Require Import NArith.

Definition letters_a (w : str) : nat := count_occ Nat.eq_dec w 97.
Definition letters_b (w : str) : nat := count_occ Nat.eq_dec w 98.

Lemma ab_count w : Forall ab w -> letters_a w + letters_b w = length w.
Proof.
  unfold letters_a, letters_b. induction w as [|c w IH]; intros H; [reflexivity|]. inversion H as [|? ? [-> | ->] H']; subst;
  specialize (IH H'); cbn [count_occ length]; [destruct (Nat.eq_dec 97 97), (Nat.eq_dec 97 98)|destruct (Nat.eq_dec 98 97), (Nat.eq_dec 98 98)]; lia.
Qed.
Lemma kruns_len x w : length (kruns x w) = length w.
Proof. revert x. induction w as [|c w IH]; intros x; [reflexivity|]. cbn [kruns length]. now rewrite IH. Qed.
Lemma kruns_val x w : Forall ab w -> map (fun r => length_letter (snd r)) (kruns x w) = w.
Proof.
  revert x. induction w as [|c w IH]; intros x F; [reflexivity|]. inversion F as [|? ? Hc F']; subst.
  cbn [kruns map snd]. rewrite IH by exact F'. f_equal. destruct Hc as [->| ->]; reflexivity.
Qed.
Lemma kexp_count x w : Forall ab w -> length (kexp x w) = letters_a w + 2 * letters_b w.
Proof.
  unfold letters_a, letters_b. revert x. induction w as [|c w IH]; intros x H; [reflexivity|]. inversion H as [|? ? [-> | ->] H']; subst;
  cbn [kexp count_occ]; rewrite app_length, repeat_length, IH by exact H'; unfold kval; cbn [Nat.eqb];
  [destruct (Nat.eq_dec 97 97), (Nat.eq_dec 97 98)|destruct (Nat.eq_dec 98 97), (Nat.eq_dec 98 98)]; try lia;
  change (98 =? 97) with false; change (97 =? 97) with true; cbv iota; lia.
Qed.
Lemma count_rep c d n : count_occ Nat.eq_dec (repeat c n) d = if c =? d then n else 0.
Proof.
  induction n as [|n IH]; [cbn; now destruct (c =? d)|]. cbn [repeat count_occ]. rewrite IH.
  destruct (Nat.eq_dec c d), (Nat.eqb_spec c d); congruence.
Qed.
(** runs of b and of a alternate, b first; every run has one or two letters *)
Lemma kexp_balance w :
  (letters_a (kexp 98 w) <= 2 * letters_b (kexp 98 w) /\ letters_b (kexp 98 w) <= 2 * letters_a (kexp 98 w) + 2) /\
  (letters_b (kexp 97 w) <= 2 * letters_a (kexp 97 w) /\ letters_a (kexp 97 w) <= 2 * letters_b (kexp 97 w) + 2).
Proof.
  unfold letters_a, letters_b. enough (G : forall w,
    ((exists r s, letters_b (kexp 98 w) <= 2 * r /\ r <= letters_b (kexp 98 w) /\ letters_a (kexp 98 w) <= 2 * s /\ s <= letters_a (kexp 98 w) /\ s <= r <= s + 1)) /\
    ((exists r s, letters_a (kexp 97 w) <= 2 * r /\ r <= letters_a (kexp 97 w) /\ letters_b (kexp 97 w) <= 2 * s /\ s <= letters_b (kexp 97 w) /\ s <= r <= s + 1))).
  { unfold letters_a, letters_b in G. destruct (G w) as ((r & s & A) & (r' & s' & B)). lia. }
  clear w. unfold letters_a, letters_b. induction w as [|c w ((r & s & A) & (r' & s' & B))].
  - split; exists 0, 0; cbn [kexp count_occ]; lia.
  - pose proof (kval_pos c). split; cbn [kexp]; rewrite !count_occ_app, !count_rep.
    + change (flip 98) with 97. change (98 =? 98) with true. change (98 =? 97) with false. cbv iota. exists (S s'), r'. lia.
    + change (flip 97) with 98. change (97 =? 97) with true. change (97 =? 98) with false. cbv iota. exists (S s), r. lia.
Qed.
Lemma kol_balance k : letters_a (kol k) <= 2 * letters_b (kol k) /\ letters_b (kol k) <= 2 * letters_a (kol k) + 2.
Proof. destruct k as [|k]; [vm_compute; lia|]. rewrite kol_S. exact (proj1 (kexp_balance (kol k))). Qed.

(** the runs of the next word spell this word: a for 1, b for 2; runs of b and a alternate *)
Theorem C122_runs_spell_the_word_before : forall k w w', kolakoski_word k = Ok w -> kolakoski_word (S k) = Ok w' ->
  exists rs, is_runs w' rs /\ map (fun r => length_letter (snd r)) rs = w /\
    forall i, i < length rs -> fst (nth i rs (0, 0)) = if Nat.even i then 98 else 97.
Proof.
  intros k w w' E E'. assert (Hk : k <= 60) by (destruct (Nat.le_gt_cases k 60) as [H|H]; [exact H|]; rewrite C45_too_large in E by lia; discriminate E).
  assert (Hk' : S k <= 60) by (destruct (Nat.le_gt_cases (S k) 60) as [H|H]; [exact H|]; rewrite C45_too_large in E' by lia; discriminate E').
  rewrite kolakoski_word_ok in E, E' by assumption. assert (w = kol k) by congruence. assert (w' = kol (S k)) by congruence. subst w w'. rewrite kol_S.
  exists (kruns 98 (kol k)). split; [apply kruns_spec; unfold ab; tauto|]. split; [apply kruns_val, kol_ab|].
  enough (G : forall w x i, ab x -> i < length (kruns x w) -> fst (nth i (kruns x w) (0, 0)) = if Nat.even i then x else flip x) by (intros i Hi; apply G; [unfold ab; tauto|exact Hi]).
  clear. induction w as [|c w IH]; intros x i Hx Hi; [cbn [kruns length] in Hi; lia|]. destruct i as [|i]; [reflexivity|].
  cbn [kruns nth length] in *. destruct (flip_ne x Hx) as (_ & Hf). rewrite IH by (exact Hf || lia).
  assert (FF : flip (flip x) = x) by (destruct Hx as [-> | ->]; reflexivity). rewrite FF.
  rewrite Nat.even_succ. rewrite <- Nat.negb_even. now destruct (Nat.even i).
Qed.
Print Assumptions C122_runs_spell_the_word_before.
(** so count_runs prints the length of the word before *)
Theorem C122_count_runs : forall k w w' rd fuel, kolakoski_word k = Ok w -> kolakoski_word (S k) = Ok w' ->
  delivers rd w' -> length w' < fuel -> number_of_runs fuel rd = Ok (length w).
Proof.
  intros k w w' rd fuel E E' HD HF. destruct (C122_runs_spell_the_word_before k w w' E E') as (rs & HR & HM & _).
  rewrite (number_of_runs_ok rd w' fuel HD HF). rewrite (is_runs_unique _ _ _ (runs_ok w') HR). rewrite <- HM, map_length. reflexivity.
Qed.
Print Assumptions C122_count_runs.
(** the length grows by the number of letters b, which is between a third and two thirds (within 2/3 of a letter) of the length *)
Theorem C122_length : forall k w w', kolakoski_word k = Ok w -> kolakoski_word (S k) = Ok w' ->
  length w' = length w + letters_b w /\ length w <= 3 * letters_b w <= 2 * length w + 2 /\
  4 * length w <= 3 * length w' <= 5 * length w + 2.
Proof.
  intros k w w' E E'.
  assert (Hk : S k <= 60) by (destruct (Nat.le_gt_cases (S k) 60) as [H|H]; [exact H|]; rewrite C45_too_large in E' by lia; discriminate E').
  rewrite kolakoski_word_ok in E, E' by lia. assert (w = kol k) by congruence. assert (w' = kol (S k)) by congruence. subst w w'.
  pose proof (kexp_count 98 (kol k) (kol_ab k)). rewrite <- kol_S in *. pose proof (ab_count _ (kol_ab k)). pose proof (kol_balance k). lia.
Qed.
Print Assumptions C122_length.
(** the length of the k-th word is between 2 (4/3)^k and 3 (5/3)^k - 1; the program allocates 2^(k+2) + 2 *)
Theorem C122_growth : forall k w, kolakoski_word k = Ok w ->
  2 * 4 ^ k <= 3 ^ k * length w /\ 3 ^ k * (length w + 1) <= 3 * 5 ^ k.
Proof.
  intros k w E. assert (Hk : k <= 60) by (destruct (Nat.le_gt_cases k 60) as [H|H]; [exact H|]; rewrite C45_too_large in E by lia; discriminate E).
  rewrite kolakoski_word_ok in E by exact Hk. injection E as <-. clear Hk. induction k as [|k IH]; [vm_compute; lia|].
  pose proof (kexp_count 98 (kol k) (kol_ab k)) as E. rewrite <- kol_S in E. pose proof (ab_count _ (kol_ab k)). pose proof (kol_balance k).
  cbn [Nat.pow]. assert (4 * length (kol k) <= 3 * length (kol (S k))) by lia. assert (3 * (length (kol (S k)) + 1) <= 5 * (length (kol k) + 1)) by lia.
  generalize dependent (length (kol k)). generalize dependent (length (kol (S k))). intros a b. set (p := 3 ^ k) in *. set (q := 4 ^ k) in *. set (s := 5 ^ k) in *. nia.
Qed.
Print Assumptions C122_growth.
(** word -n kolakoski -k (k+1) -o F, then count_runs -i F, prints the length of the k-th word *)
Theorem C122_word_then_count_runs : forall fuel file_of us1 line1 k F w0 us2 line2 input,
  good word_options us1 line1 -> makes_word us1 (ascii "kolakoski") (S k) F -> good count_runs_options us2 line2 -> uses_of us2 o_in = [[F]] -> k < 60 ->
  exists u, kolakoski_word k = Ok u /\ exists p w t, word_program file_of line1 = Ran p /\ run p w0 = (w, Ok tt) /\ files w (file_of F) = Some t /\
    (sees_by file_of w input -> length t < fuel -> exists d, count_runs_program fuel input line2 = Ran (Ok (d ++ newline)) /\ is_decimal d (length u)).
Proof.
  intros fuel file_of us1 line1 k F w0 us2 line2 input G1 (A & B & C) G2 D Hk.
  exists (kol k). split; [apply kolakoski_word_ok; lia|].
  assert (HW : writes Kolakoski (S k)) by (left; cbn [writes_up_to]; lia).
  destruct (C115_word file_of us1 line1 (ascii "kolakoski") Kolakoski (S k) F w0 G1 ltac:(find_in) A B C HW) as (p & w & t & E & R & _ & W & ET & _).
  exists p, w, t. do 3 (split; [assumption|]). intros HS HF.
  destruct (proj1 (C112_count_runs fuel input line2) us2 G2) as (i & Si & E2). rewrite (string_is _ _ _ _ Si D) in E2.
  cbn [word_main] in ET. rewrite (C122_count_runs k (kol k) t (input (Some F)) fuel) in E2; [|apply kolakoski_word_ok; lia|exact ET|exact (HS F t W)|exact HF].
  exists (dec_usize (length (kol k))). split; [exact E2|apply dec_usize_ok].
Qed.
Print Assumptions C122_word_then_count_runs.
Example C122_case : exists w w', kolakoski_word 3 = Ok w /\ kolakoski_word 4 = Ok w' /\ length w = 9 /\ letters_b w = 5 /\ length w' = 14 /\
  number_of_runs 20 (reader_of w') = Ok 9.
Proof. eexists. eexists. split; [vm_compute; reflexivity|]. split; [vm_compute; reflexivity|]. repeat split; vm_compute; reflexivity. Qed.
