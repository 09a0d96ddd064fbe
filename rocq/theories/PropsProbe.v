(** PropsProbe.v : unfinished/parallel.rs: the closing remark on smallest rotations, [probe_main], and what [main] prints. *)
From Verif Require Import Base SpecStr SpecBwt SpecIo SpecMain SpecPar SpecProbe LexFacts SortFacts PermFacts ModelIo ModelCore ModelMain ModelPar ModelProbe.
From Verif Require Import DuvalProof LyndonProof BwtFacts BwtProof BbwtProof MainProof2 ParProof ParProof2 ParProof3 PropsPar UnifyProof ProbeProof.

(** *** C86 *)
Theorem C86_transforms_of_smallest_rotation sort t : (forall u, is_suffix_array u (sort u)) -> t <> [] ->
  exists r b, lyndon_conjugate t = Ok r /\ bwt_by_matrix_naive t = Ok b /\
    bwt_by_matrix_naive (rot r t) = Ok b /\ bbwt_naive (rot r t) = Ok b /\ bwt_from_sa (rot r t) (sort (rot r t)) = Ok b /\
    (~ In 0 t -> bwt_from_text_by_sa sort (rot r t) = Ok b /\
       exists l1 l2, bwt_from_text_by_sa sort (rot r t ++ [0]) = Ok (l1 ++ 0 :: l2) /\ l1 ++ l2 = b).
Proof.
  intros Hsort Hne. destruct (lyndon_conjugate_correct t Hne) as (r & E & Hr & Hmin).
  pose proof (rot_necklace t r Hr Hmin) as HN. pose proof (rot_nn t r Hne) as Hrn.
  assert (Lr : length (rot r t) = length t) by apply rot_length.
  destruct (bwt_by_matrix_naive_ok t) as (b & Eb & Hb). exists r, b.
  assert (HM : is_matrix_bwt (rot r t) b) by now apply matrix_bwt_rot.
  pose proof (necklace_sa_matrix _ _ HN (Hsort (rot r t))) as HM2.
  assert (Esa : sa_letters (rot r t) (sort (rot r t)) = b) by exact (matrix_bwt_unique _ _ _ HM2 HM).
  split; [exact E|]. split; [exact Eb|]. split; [now apply bwt_by_matrix_naive_spec|].
  split; [rewrite bbwt_necklace by auto; now apply bwt_by_matrix_naive_spec|].
  split; [rewrite bwt_from_sa_ok by (auto; apply Hsort); now rewrite Esa|].
  intros Hz. assert (Hz' : ~ In 0 (rot r t)).
  { unfold rot. intros H. apply Hz. rewrite <- (firstn_skipn r t). apply in_app_iff in H. apply in_app_iff. tauto. }
  split.
  - rewrite bwt_from_text_by_sa_ok; [now rewrite Esa|exact Hrn|apply Hsort|].
    intros H. apply Hz'. rewrite <- (firstn_skipn (length (rot r t) - 1) (rot r t)). apply in_app_iff. now left.
  - destruct (necklace_bwt_list (rot r t) _ Hrn Hz' HN (Hsort (rot r t ++ [0]))) as (l1 & l2 & E1 & _ & H2).
    exists l1, l2. split; [|exact (matrix_bwt_unique _ _ _ H2 HM)]. rewrite <- E1. apply bwt_from_text_by_sa_ok.
    + destruct (rot r t); easy.
    + apply Hsort.
    + rewrite app_length. cbn [length]. replace (length (rot r t) + 1 - 1) with (length (rot r t)) by lia.
      rewrite firstn_app, Nat.sub_diag, firstn_all. cbn [firstn]. now rewrite app_nil_r.
Qed.
Print Assumptions C86_transforms_of_smallest_rotation.
(** BWT and BBWT agree only for smallest rotations *)
Theorem C86_agree_iff_smallest_rotation t : t <> [] ->
  (bbwt_naive t = bwt_by_matrix_naive t <-> forall i, i < length t -> lex_le t (rot i t)).
Proof. intros Hne. split; [now apply bbwt_agree_necklace|now apply bbwt_necklace]. Qed.
Print Assumptions C86_agree_iff_smallest_rotation.
(** "the Lyndon factor of TT that spans over the border has length n; this is the Lyndon conjugate of T": true for primitive T *)
Theorem C86_factor_across_the_border t fs : t <> [] -> primitive t -> lyndon_factorization (t ++ t) fs ->
  exists r p q, lyndon_conjugate t = Ok r /\ lyndon (rot r t) /\ fs = p ++ rot r t :: q /\ length (concat p) = r /\
    length (concat p) < length t <= length (concat p) + length (rot r t).
Proof.
  intros Hne HP HF. destruct (lyndon_conjugate_correct t Hne) as (r & E & Hr & Hmin).
  destruct (border_factor t fs r Hne HP Hr Hmin HF) as (p & q & Ef & Lp). exists r, p, q.
  split; [exact E|]. split.
  - apply primitive_necklace_lyndon; [now apply rot_nn|now apply primitive_rot|now apply rot_necklace].
  - split; [exact Ef|]. split; [exact Lp|]. rewrite rot_length. lia.
Qed.
Print Assumptions C86_factor_across_the_border.
(** ... and only then: otherwise every factor of TT is shorter than T *)
Theorem C86_not_primitive_refuted : exists t fs, t <> [] /\ lyndon_factorization (t ++ t) fs /\ Forall (fun f => length f < length t) fs.
Proof.
  exists [1;2;1;2], [[1;2];[1;2];[1;2];[1;2]]. split; [discriminate|].
  assert (H : lyndon [1;2]).
  { split; [discriminate|]. intros u v E Hu Hv. destruct u as [|a [|b u]]; [easy| |].
    - injection E as <- <-. constructor. lia.
    - injection E as <- <- E. symmetry in E. apply app_eq_nil in E. destruct E as (_ & ->). easy. }
  split; [|repeat constructor]. split; [reflexivity|]. split; [repeat (constructor; try exact H)|]. simpl. repeat split; apply lex_le_refl.
Qed.
Print Assumptions C86_not_primitive_refuted.
Example C86_case : lyndon_conjugate [2;1;2;1;1] = Ok 3 /\ bwt_by_matrix_naive [2;1;2;1;1] = Ok [2;2;1;1;1] /\
  bbwt_naive [1;1;2;1;2] = Ok [2;2;1;1;1] /\ bbwt_naive [2;1;2;1;1] = Ok [1;1;2;1;2] /\
  bwt_from_text_by_sa naive_sort [1;1;2;1;2;0] = Ok [2;0;2;1;1;1].
Proof. repeat split; vm_compute; reflexivity. Qed.

(** *** C87 *)
Theorem C87_probe_output max threshold : 1 <= max -> exists L ls K,
  (forall fuel, K < fuel -> probe_main fuel max threshold = Ok (lines ls)) /\
  StronglySorted lex_lt L /\ Forall2 is_probe_line L ls /\
  forall w, In w L <-> lyndon w /\ length w <= max /\ Forall (fun c => c < 2) w /\ unbeaten threshold w.
Proof. apply probe_main_ok. Qed.
Print Assumptions C87_probe_output.
(** words of length at most 4 without a better conjugate and at least 2 runs (0011 has the better conjugate 1100) *)
Example C87_case : probe_main 30 4 2 = Ok (lines
  [ascii "text=aaab conj=aaab rbwt=2 rbbwt=2"; ascii "text=aab conj=aab rbwt=2 rbbwt=2"; ascii "text=ab conj=ab rbwt=2 rbbwt=2";
   ascii "text=abb conj=abb rbwt=2 rbbwt=2"; ascii "text=abbb conj=abbb rbwt=2 rbbwt=2"]).
Proof. vm_compute. reflexivity. Qed.

(** *** C88 *)
Lemma first_two_dec fs : first_two_differ_in_last_letter fs \/ ~ first_two_differ_in_last_letter fs.
Proof.
  destruct fs as [|f [|g fs]].
  - right. intros (u & x & y & rest & E & _). discriminate.
  - right. intros (u & x & y & rest & E & _). discriminate.
  - destruct f as [|c f] using rev_ind; [right; intros (u & x & y & rest & E & _); injection E as E _ _; destruct u; discriminate|clear IHf].
    destruct g as [|d g] using rev_ind; [right; intros (u & x & y & rest & E & _); injection E as _ E _; destruct u; discriminate|clear IHg].
    destruct (list_eq_dec Nat.eq_dec f g) as [->|N]; [destruct (Nat.eq_dec c d) as [->|N]|].
    + right. intros (u & x & y & rest & E & Hxy). injection E as E1 E2 _. apply app_inj_tail in E1, E2. destruct E1, E2. congruence.
    + left. exists g, c, d, fs. auto.
    + right. intros (u & x & y & rest & E & Hxy). injection E as E1 E2 _. apply app_inj_tail in E1, E2. destruct E1, E2. congruence.
Qed.
Lemma distinct_members_unique fs n m : distinct_members fs n -> distinct_members fs m -> n = m.
Proof.
  intros (D & N1 & H1 & <-) (D' & N2 & H2 & <-). apply Permutation_length, NoDup_Permutation; auto.
  intros w. now rewrite H1, H2.
Qed.
Lemma reported_ndf c d : c <> [] -> (reported_factors c d <-> d = ndf c).
Proof.
  intros Hc. destruct (duval_correct c) as (_ & gs & _ & HG & _).
  destruct (C65_number_distinct_lyndon_factors c gs Hc HG) as (r & Er & A & B).
  assert (En : ndf c = r) by (unfold ndf; now rewrite Er). rewrite En. split.
  - intros (fs & HF & A' & B'). rewrite (lyndon_factorization_unique c gs fs HG HF) in *.
    destruct (first_two_dec fs) as [Y|N].
    + specialize (B Y). specialize (B' Y). pose proof (distinct_members_unique _ _ _ B B'). lia.
    + exact (distinct_members_unique _ _ _ (A' N) (A N)).
  - intros ->. exists gs. auto.
Qed.
Theorem C88_worker_lines max w : w <> [] -> length w <= max -> exists r b I ls,
  par_work max w = Ok (r, b) /\ par_work_out max w = Ok (r, b, lines ls) /\
  StronglySorted lt I /\ (forall i, In i I <-> i < length w /\ few_runs (rot i w)) /\
  Forall2 (fun i l => is_worker_line (rot i w) l) I ls.
Proof.
  intros Hw Hl. destruct (par_work_out_ok max w Hw Hl) as (r & b & E1 & E2).
  exists r, b, (filter (fun i => fewb (rot i w)) (seq 0 (length w))), (map wl (filter fewb (map (fun i => rot i w) (seq 0 (length w))))).
  split; [exact E1|]. split; [exact E2|]. split; [|split].
  - assert (HS : forall s n, StronglySorted lt (seq s n)).
    { clear. intros s n. revert s. induction n as [|n IH]; intros s; constructor; auto. apply Forall_forall. intros x Hx. apply in_seq in Hx. lia. }
    specialize (HS 0 (length w)). clear -HS. induction HS as [|x l HS IH HF]; [constructor|]. cbn [filter].
    destruct (fewb (rot x w)); [|exact IH]. constructor; [exact IH|]. rewrite Forall_forall in *. intros y Hy. apply filter_In in Hy. apply HF. tauto.
  - intros i. rewrite filter_In, in_seq. pose proof (rot_nn w i Hw) as Hr. unfold fewb, few_runs. rewrite Nat.leb_le. split.
    + intros (H1 & H2). split; [lia|]. exists (bbr (rot i w)), (ndf (rot i w)).
      split; [now apply bbr_ok|]. split; [now apply reported_ndf|exact H2].
    + intros (H1 & x & d & H2 & H3 & H4). split; [lia|]. apply reported_ndf in H3; [|exact Hr]. subst d.
      rewrite (bbwt_runs_unique _ (bbr (rot i w)) x Hr); [exact H4| |exact H2]. now apply bbr_ok.
  - assert (G : forall l, Forall2 (fun i s => is_worker_line (rot i w) s) (filter (fun i => fewb (rot i w)) l)
        (map wl (filter fewb (map (fun i => rot i w) l)))); [|apply G].
    induction l as [|i l IH]; [constructor|]. cbn [filter map]. destruct (fewb (rot i w)); [|exact IH].
    cbn [map]. constructor; [|exact IH]. pose proof (rot_nn w i Hw) as Hr.
    destruct (bbw_ok (rot i w) Hr) as (_ & _ & H1 & rs & H2 & H3).
    exists (bbw (rot i w)), rs, (ndf (rot i w)), (dec_usize (bbr (rot i w))), (dec_usize (ndf (rot i w))).
    split; [exact H1|]. split; [exact H2|]. split; [now apply reported_ndf|]. rewrite <- H3.
    split; [apply dec_usize_ok|]. split; [apply dec_usize_ok|reflexivity].
Qed.
Print Assumptions C88_worker_lines.
Example C88_case : par_work_out 5 [0;0;1;0;1] = Ok (2, 2, lines
  [ascii "bbwt=bbaaa conjugate=aabab bbwt_runs=2 #factors=1"; ascii "bbwt=abbaa conjugate=ababa bbwt_runs=3 #factors=2";
   ascii "bbwt=aabab conjugate=babaa bbwt_runs=4 #factors=3"; ascii "bbwt=abaab conjugate=baaba bbwt_runs=4 #factors=3"]).
Proof. vm_compute. reflexivity. Qed.

(** *** C89 *)
Theorem C89_printed_table max p threads sched s stats total : 1 <= p < max -> max <= 100 -> 1 <= threads ->
  par_run max p sched (par_init max threads) = Some s -> par_result s = Some (stats, total) ->
  exists (cells : nat -> nat -> nat) width dp dt hdr rows,
    par_table max p stats total = Ok (lines ((ascii "binary string length: " ++ dp ++ ascii " ") ::
       (ascii "bwt \ bbwt : #= " ++ dt) :: hdr :: rows)) /\
    is_decimal dp p /\ is_decimal dt total /\
    is_row width (seq 0 max) hdr /\
    Forall2 (fun r l => is_row width (r :: map (cells r) (seq 1 (max - 1))) l) (seq 1 (max - 1)) rows /\
    number_of (binary_lyndon p) total /\
    (forall r b, 1 <= r < max -> 1 <= b < max ->
      number_of (fun w => binary_lyndon p w /\ bwt_runs_of w r /\ least_bbwt_runs max w b) (cells r b)) /\
    list_sum (map (fun r => list_sum (map (cells r) (seq 1 (max - 1)))) (seq 1 (max - 1))) = total /\
    (forall r b, 1 <= r < max -> 1 <= b < max -> r < b -> cells r b = 0) /\
    (forall r b, 1 <= r < max -> 1 <= b < max -> 2 <= p -> Nat.Odd r -> cells r b = 0).
Proof.
  intros Hp Hm Ht E ER. pose proof (par_square max p threads sched s stats total ltac:(lia) Ht E ER) as HSq.
  destruct (par_stats_ok max p threads sched s stats total ltac:(lia) Ht E ER) as (HT & HC).
  destruct (par_table_ok max p stats total ltac:(lia) HSq) as (width & hdr & rows & E1 & H1 & H2).
  exists (tcell stats), width, (dec_usize p), (dec_usize total), hdr, rows.
  split; [exact E1|]. split; [apply dec_usize_ok|]. split; [apply dec_usize_ok|]. split; [exact H1|]. split; [exact H2|].
  split; [exact HT|]. split; [intros r b Hr Hb; apply HC; lia|]. split; [now apply (table_sum max p)|].
  assert (ZERO : forall r b, r <= max -> b <= max -> (forall w, binary_lyndon p w -> bwt_runs_of w r -> least_bbwt_runs max w b -> False) -> tcell stats r b = 0).
  { intros r b Hr Hb F. destruct (HC r b Hr Hb) as (L & _ & HL & EL). unfold tcell. rewrite <- EL.
    destruct L as [|w L]; [reflexivity|]. exfalso. destruct (proj1 (HL w) ltac:(now left)) as (A & B & C). exact (F w A B C). }
  split; intros r b Hr Hb.
  - intros Hrb. apply ZERO; [lia|lia|]. intros w A B C. pose proof (class_bounds max p w r b ltac:(lia) A B C). lia.
  - intros H2p Ho. apply ZERO; [lia|lia|]. intros w (A1 & A2 & A3) B C.
    rewrite (bwt_runs_unique w r (bwr w) B) in Ho by apply bwr_ok.
    apply (Nat.Even_Odd_False (bwr w)); [|exact Ho]. apply bwr_even; auto; lia.
Qed.
Print Assumptions C89_printed_table.
Example C89_case : exists sched s, par_run 6 5 sched (par_init 6 1) = Some s /\ exists stats total, par_result s = Some (stats, total) /\
  par_table 6 5 stats total = Ok (lines [ascii "binary string length: 5 "; ascii "bwt \ bbwt : #= 6";
    ascii " 0| 1| 2| 3| 4| 5|"; ascii " 1| 0| 0| 0| 0| 0|"; ascii " 2| 0| 4| 0| 0| 0|"; ascii " 3| 0| 0| 0| 0| 0|";
    ascii " 4| 0| 2| 0| 0| 0|"; ascii " 5| 0| 0| 0| 0| 0|"]).
Proof. exists (repeat 0 95). eexists. split; [vm_compute; reflexivity|]. do 2 eexists. split; [vm_compute; reflexivity|]. vm_compute. reflexivity. Qed.
