(** PropsEndBwt.v : property theorems C129, the default (end-marked) BWT of the Thue-Morse, period-doubling, ternary Thue-Morse and quaternary
    paperfolding words of src/word.rs and what count_r prints for them (src/bin/word.rs, src/bin/bwt.rs, src/bin/count_r.rs, src/core.rs). *)
From Verif Require Import Base SpecStr SpecIo SpecMain SpecBwt SpecWord SpecResult SpecArgs SpecArgs2 SpecFs LexFacts RunFacts BwtFacts BwtProof.
From Verif Require Import ModelWord ModelIo ModelCore ModelMain ModelFs ModelArgs ModelArgs2.
From Verif Require Import SortFacts MorphBwt MorphBwt2 MorphRuns MorphBwt3 MorphBwt4 MorphBwt5 MorphBwt6 MorphBwt7.
From Verif Require Import WordProof WordProof2 WordProof3 WordProof4 FibFacts LynFam LynFam5 PropsLynFam PropsWord PropsWord2 PropsMain PropsArgs PropsArgs2 MainProof2 PropsSession PropsMorph.
From Coq Require Import NArith.

(** the number of runs in the BWT of the word followed by the end marker *)
Definition end_marked_runs (v : word_name) (k : nat) : option nat :=
  if k <=? writes_up_to v then
    match v with
    | ThueMorse => Some (if k <? 2 then k + 2 else if k =? 2 then 5 else 3 * k - 2)
    | PeriodDoubling => Some (if k <? 3 then k + 2 else 2 * k - 1)
    | Vtm => Some (2 * k + 2)
    | QuaternaryPaperFolding => Some (if k <? 2 then k + 2 else if k =? 2 then 5 else if k =? 3 then 8 else 4 * k - 5)
    | _ => None
    end
  else None.
Definition has_end_runs (w : str) (r : nat) : Prop := exists b, is_matrix_bwt (w ++ [0]) b /\ length (runs b) = r.
Lemma small_runs w b r : bwt_by_matrix_naive (w ++ [0]) = Ok b -> length (runs b) = r -> has_end_runs w r.
Proof. intros E L. exists b. split; [now apply bwt_by_matrix_naive_spec|exact L]. Qed.
Lemma end_runs_tm k : has_end_runs (iter_morphism thuemorse_morphism k [97]) (if k <? 2 then k + 2 else if k =? 2 then 5 else 3 * k - 2).
Proof.
  destruct k as [|[|[|k]]]; [eapply small_runs; vm_compute; reflexivity..|]. replace (S (S (S k))) with (k + 3) by lia.
  destruct (tm_end_runs k) as (b & H & L). exists b. split; [exact H|]. rewrite L. destruct (Nat.ltb_spec (k + 3) 2); [lia|]. destruct (Nat.eqb_spec (k + 3) 2); lia.
Qed.
Lemma end_runs_pd k : has_end_runs (iter_morphism period_doubling_morphism k [97]) (if k <? 3 then k + 2 else 2 * k - 1).
Proof.
  destruct k as [|[|[|k]]]; [eapply small_runs; vm_compute; reflexivity..|]. replace (S (S (S k))) with (k + 3) by lia.
  destruct (pd_end_runs k) as (b & H & L). exists b. split; [exact H|]. rewrite L. destruct (Nat.ltb_spec (k + 3) 3); lia.
Qed.
Lemma end_runs_vt k : has_end_runs (iter_morphism vtm_morphism k [97]) (2 * k + 2).
Proof.
  destruct k as [|[|[|k]]]; [eapply small_runs; vm_compute; reflexivity..|]. replace (S (S (S k))) with (k + 3) by lia.
  destruct (vt_end_runs k) as (b & H & L). exists b. split; [exact H|]. rewrite L. lia.
Qed.
Lemma end_runs_qf k : has_end_runs (iter_morphism pfh k [100]) (if k <? 2 then k + 2 else if k =? 2 then 5 else if k =? 3 then 8 else 4 * k - 5).
Proof.
  destruct k as [|[|[|[|[|k]]]]]; [eapply small_runs; vm_compute; reflexivity..|]. replace (S (S (S (S (S k))))) with (k + 5) by lia.
  destruct (qf_runs true k) as (b & H & L). exists b. split; [exact H|]. rewrite L. destruct (Nat.ltb_spec (k + 5) 2); [lia|]. destruct (Nat.eqb_spec (k + 5) 2); [lia|]. destruct (Nat.eqb_spec (k + 5) 3); lia.
Qed.
Lemma end_marked_word v k r : end_marked_runs v k = Some r -> exists w, word_main v k = Ok w /\ ~ In 0 w /\ has_end_runs w r.
Proof.
  intros H. unfold end_marked_runs in H. destruct (Nat.leb_spec k (writes_up_to v)) as [B|B]; [|discriminate H].
  destruct v; try discriminate H; apply some_inj in H; cbn [word_main writes_up_to] in *; rewrite <- H.
  - exists (iter_morphism thuemorse_morphism k [97]). split; [exact (TM_word k ltac:(lia))|]. split; [exact (TM_no0 k)|apply end_runs_tm].
  - exists (iter_morphism period_doubling_morphism k [97]). split; [exact (PD_word k ltac:(lia))|]. split; [exact (PD_no0 k)|apply end_runs_pd].
  - exists (iter_morphism pfh k [100]). split; [apply quaternary_ok; lia|]. split; [|apply end_runs_qf].
    intros X. pose proof (pf_iter_quat k) as Q. rewrite Forall_forall in Q. destruct (Q _ X) as [E|[E|[E|E]]]; discriminate E.
  - exists (iter_morphism vtm_morphism k [97]). split; [exact (VT_word k ltac:(lia))|]. split; [exact (VT_no0 k)|apply end_runs_vt].
Qed.
(** every routine for the end-marked BWT returns the same b, which has this number of runs, and count_r reports it *)
Theorem C129_end_marked : forall sort v k r, (forall t, is_suffix_array t (sort t)) -> end_marked_runs v k = Some r ->
  exists w b, word_main v k = Ok w /\ bwt_by_matrix_naive (w ++ [0]) = Ok b /\ bwt_from_text_by_sa sort (w ++ [0]) = Ok b /\
    bwt_main sort true w 0 false false = Ok b /\ (exists rs, is_runs b rs /\ length rs = r) /\
    count_r_main sort true w 0 false false = Ok (length w + 1, r).
Proof.
  intros sort v k r Hs H. destruct (end_marked_word v k r H) as (w & E & N & b & HB & L). exists w, b. split; [exact E|].
  pose proof (proj2 (bwt_by_matrix_naive_spec (w ++ [0]) b) HB) as EB. split; [exact EB|].
  pose proof (dollar_agree sort w N (Hs _)) as A. rewrite EB in A. split; [exact A|].
  assert (M : bwt_main sort true w 0 false false = Ok b) by (rewrite bwt_main_text; exact A). split; [exact M|]. split; [exists (runs b); split; [apply runs_ok|exact L]|].
  rewrite (count_r_ok _ _ _ _ _ _ _ M), L. do 2 f_equal. rewrite (matrix_bwt_length _ _ HB), app_length. reflexivity.
Qed.
Print Assumptions C129_end_marked.
(** without the end marker: the quaternary paperfolding word and its rotations *)
Theorem C129_quaternary : forall sort k, (forall t, is_suffix_array t (sort t)) -> 3 <= k <= 62 ->
  exists w b, word_main QuaternaryPaperFolding k = Ok w /\ matrix_transform_is sort w b /\ (exists rs, is_runs b rs /\ length rs = 4 * k - 7) /\
    forall s, s <= length w -> count_r_main sort true (rot s w) 0 true true = Ok (2 ^ k, 4 * k - 7).
Proof.
  intros sort k Hs Hk. exists (iter_morphism pfh k [100]).
  assert (G : exists b, is_matrix_bwt (iter_morphism pfh k [100]) b /\ length (runs b) = 4 * k - 7).
  { destruct (Nat.leb_spec 5 k) as [K|K].
    - destruct (qf_runs false (k - 5)) as (b & H & L). exists b. cbn [mark] in H. rewrite app_nil_r in H. replace (k - 5 + 5) with k in H by lia. split; [exact H|lia].
    - assert (k = 3 \/ k = 4) as [-> | ->] by lia; eexists; (split; [apply bwt_by_matrix_naive_spec; vm_compute; reflexivity|vm_compute; reflexivity]). }
  destruct G as (b & H & L). exists b. split; [cbn [word_main]; apply quaternary_ok; lia|].
  assert (N0 : ~ In 0 (iter_morphism pfh k [100])) by (intros X; pose proof (pf_iter_quat k) as Q; rewrite Forall_forall in Q; destruct (Q _ X) as [E|[E|[E|E]]]; discriminate E).
  pose proof (u2_iter_length _ k 100 pfh_u2) as LN.
  assert (NE : iter_morphism pfh k [100] <> []) by (intros E; rewrite E in LN; pose proof (two_pow_pos k); cbn [length] in LN; lia).
  pose proof (transform_ok sort _ b Hs NE N0 H) as T. split; [exact T|]. split; [exists (runs b); split; [apply runs_ok|exact L]|].
  intros s Hle. destruct (T s Hle) as (_ & _ & B). rewrite (count_r_ok _ _ _ _ _ _ _ B), L, (matrix_bwt_length _ _ H), LN. reflexivity.
Qed.
Print Assumptions C129_quaternary.
(** word -n s -k K -o F, then count_r -i F *)
Definition end_counts_runs_of (us : list use) (F : str) : Prop := uses_of us o_in = [[F]] /\ unused us o_prefix /\ unused us o_matrix /\ unused us o_nodollar.
Theorem C129_word_then_count_r : forall sort time file_of us1 line1 s v k r F w0 us2 line2 input, (forall t, is_suffix_array t (sort t)) ->
  good word_options us1 line1 -> In (s, v) the_words -> makes_word us1 s k F -> good count_r_options us2 line2 -> end_counts_runs_of us2 F -> word_like F ->
  end_marked_runs v k = Some r ->
  exists p w t, word_program file_of line1 = Ran p /\ run p w0 = (w, Ok tt) /\ files w (file_of F) = Some t /\ (sees file_of w input ->
    exists l, count_r_report sort time input line2 = Ran (Ok l) /\ count_r_line F time (length t + 1) r false false l).
Proof.
  intros sort time file_of us1 line1 s v k r F w0 us2 line2 input Hs G1 HV (A & B & C) G2 (HI & HP & HM & HD) HF H.
  destruct (C129_end_marked sort v k r Hs H) as (t & b & ET & _ & _ & _ & _ & ER).
  assert (HW : writes v k) by (unfold end_marked_runs in H; destruct (Nat.leb_spec k (writes_up_to v)) as [X|X]; [left; exact X|discriminate H]).
  destruct (C115_word file_of us1 line1 s v k F w0 G1 HV A B C HW) as (p & w & t' & E & R & _ & W & ET' & _). assert (t' = t) by congruence. subst t'.
  exists p, w, t. split; [exact E|]. split; [exact R|]. split; [exact W|]. intros S.
  destruct (proj1 (C112_count_r sort time input line2) us2 G2) as (p' & mx & nd & i & Sp & Sm & Sn & Si & E2).
  rewrite (string_is _ _ _ _ Si HI), (number_default _ _ _ _ Sp HP), (switch_off _ _ _ Sm HM), (switch_off _ _ _ Sn HD), (S F t W) in E2.
  destruct (count_r_shows sort time F t false false _ r HF ER) as (l & EL & HL). rewrite EL in E2. exists l. auto.
Qed.
Print Assumptions C129_word_then_count_r.
(** the words and count_r, executed *)
Example C129_case :
  (exists w, word_main ThueMorse 4 = Ok w /\ count_r_main naive_sort true w 0 false false = Ok (17, 10)) /\ end_marked_runs ThueMorse 4 = Some 10 /\
  (exists w, word_main PeriodDoubling 5 = Ok w /\ count_r_main naive_sort true w 0 false false = Ok (33, 9)) /\ end_marked_runs PeriodDoubling 5 = Some 9 /\
  (exists w, word_main Vtm 4 = Ok w /\ count_r_main naive_sort true w 0 false false = Ok (25, 10)) /\ end_marked_runs Vtm 4 = Some 10 /\
  (exists w, word_main QuaternaryPaperFolding 5 = Ok w /\ count_r_main naive_sort true w 0 false false = Ok (33, 15)) /\ end_marked_runs QuaternaryPaperFolding 5 = Some 15 /\
  (exists w, word_main QuaternaryPaperFolding 5 = Ok w /\ count_r_main naive_sort true w 0 true true = Ok (32, 13)).
Proof. repeat (split; [eexists; split; vm_compute; reflexivity|]; split; [vm_compute; reflexivity|]). eexists; split; vm_compute; reflexivity. Qed.
(** word -n thue-morse -k3 -o F; count_r -i F *)
Example C129_session_case : forall file_of w0 input time,
  let us1 := [(o_name, [ascii "thue-morse"]); (o_k, [ascii "3"]); (o_out, [ascii "F"])] in let us2 := [(o_in, [ascii "F"])] in
  exists p w t, word_program file_of (ws ["-n"; "thue-morse"; "-k3"; "-o"; "F"]%string) = Ran p /\ run p w0 = (w, Ok tt) /\ files w (file_of (ascii "F")) = Some t /\
    (sees file_of w input -> exists l, count_r_report naive_sort time input (ws ["-i"; "F"]%string) = Ran (Ok l) /\ count_r_line (ascii "F") time (length t + 1) 7 false false l).
Proof.
  intros file_of w0 input time us1 us2. destruct (C115_case file_of 0 w0 (fun _ => [])) as (G1 & M1 & _). fold us1 in G1, M1.
  assert (G2 : good count_r_options us2 (ws ["-i"; "F"]%string)).
  { split.
    - eexists. split; [|left; reflexivity].
      change (spelled count_r_options ([(o_in, [ascii "F"])] ++ []) (ws ["-i"; "F"]%string ++ [])).
      constructor; [apply (pc_short count_r_options [] [] o_in 105 [ascii "F"]); [constructor|find_in|reflexivity|reflexivity|]|constructor].
      split; [discriminate|]. split; [|reflexivity]. constructor; [intros (x & y & X); discriminate X|constructor].
    - split; [|split; [|split]].
      + constructor; [constructor; [exists (VStr (ascii "F")); constructor|constructor]|constructor].
      + apply Forall_forall. repeat (constructor; [right; apply Nat.leb_le; vm_compute; reflexivity|]). constructor.
      + repeat constructor; discriminate.
      + intros a Ha R. exfalso. revert a Ha R. apply (proj1 (Forall_forall (fun a => arg_required a = true -> False) count_r_options)). repeat (constructor; [intros R; discriminate R|]). constructor. }
  apply (C129_word_then_count_r naive_sort time file_of us1 _ (ascii "thue-morse") ThueMorse 3 7 (ascii "F") w0 us2 _ input naive_sort_ok G1 ltac:(find_in) M1 G2); [repeat split; reflexivity| |reflexivity].
  split; [discriminate|split; intros [X|[]]; discriminate X].
Qed.
