(** PropsBounds.v : property theorems C118: the sizes the tools print, against the number of different substrings of the
    text. [sort] stands for cdivsufsort; [naive_sort] is an instance. *)
From Verif Require Import Base SpecStr ModelCore ModelLz SpecLz LzProof ModelMain ModelWord SpecMain SpecAttr ModelAttr AttrProof2
  PropsLz PropsAttr PropsLex PropsNeck SortFacts SpecSub SubCount.
From Coq Require Import NArith.

(** whatever is_attractor accepts has at least one position per m different substrings of length m *)
Theorem C118_accepted_attractor : forall sort s A m, (forall t, is_suffix_array t (sort t)) -> s <> [] ->
  Forall (fun x => x <> 0) s -> is_attractor sort (s ++ [0]) A = Ok true -> 1 <= m ->
  distinct m s <= m * length A.
Proof.
  intros sort s A m Hs Hne HF H Hm.
  assert (HA : Forall (fun a => a <= length s) A).
  { destruct (Forall_dec (fun a => a <= length s) (fun a => le_dec a (length s)) A) as [|N]; [assumption|].
    rewrite (C41_out_of_range sort s A N) in H. discriminate. }
  apply (C41_is_attractor_bytes sort s A Hs Hne HF HA) in H. now apply attractor_complexity.
Qed.
Print Assumptions C118_accepted_attractor.
Theorem C118_count_z : forall sort s, (forall t, is_suffix_array t (sort t)) -> s <> [] ->
  Forall (fun x => 0 < x < 256) s -> (N.of_nat (length s) < 2^32)%N ->
  exists fs, count_z_main sort s = Ok fs /\ forall m, 1 <= m -> distinct m s <= m * length fs.
Proof.
  intros sort s Hs Hne HF Hn. destruct (C75_lz77_attractor sort s Hs Hne HF Hn) as (fs & E & L & HA).
  exists fs. split; [exact E|]. intros m Hm. rewrite <- L. apply (C118_accepted_attractor sort); auto.
  eapply Forall_impl; [|exact HF]. cbv beta. lia.
Qed.
Print Assumptions C118_count_z.
Theorem C118_count_lexparse : forall sort s, (forall t, is_suffix_array t (sort t)) -> s <> [] ->
  Forall (fun x => x <> 0) s ->
  exists fs, count_lexparse_main sort s = Ok fs /\ forall m, 1 <= m -> distinct m s <= m * length fs.
Proof.
  intros sort s Hs Hne HF. destruct (C75_lexparse_attractor sort s Hs Hne HF) as (fs & E & L & HA).
  exists fs. split; [exact E|]. intros m Hm. rewrite <- L. now apply (C118_accepted_attractor sort).
Qed.
Print Assumptions C118_count_lexparse.
Theorem C118_count_r : forall sort s, (forall t, is_suffix_array t (sort t)) -> s <> [] ->
  Forall (fun x => x <> 0) s ->
  exists r, count_r_main sort true s 0 false false = Ok (S (length s), r) /\
    forall m, 1 <= m -> distinct m s + m <= m * r.
Proof.
  intros sort s Hs Hne HF. destruct (C75_bwt_attractor sort s Hs Hne HF) as (b & A & r & _ & E & _ & L & _ & HA).
  exists r. split; [exact E|]. intros m Hm. rewrite <- L.
  pose proof (C118_accepted_attractor sort s A m Hs Hne HF HA Hm). lia.
Qed.
Print Assumptions C118_count_r.
(** a bound from above: factors of length l and more are at most n / l, shorter ones (all but the last) are followed by a
    letter that makes a string not seen before *)
Theorem C118_count_z_at_most : forall sort s, (forall t, is_suffix_array t (sort t)) -> s <> [] ->
  Forall (fun x => x < 256) s -> (N.of_nat (length s) < 2^32)%N ->
  exists fs, count_z_main sort s = Ok fs /\ forall l, 1 <= l ->
    length fs <= length s / l + sum_from_to 2 l (fun m => distinct m s) + 1 /\
    length fs <= length s / l + sum_from_to 2 l (fun m => length (nodup Nat.eq_dec s) ^ m) + 1.
Proof.
  intros sort s Hs Hne HF Hn. destruct (count_z_ok sort s Hs Hne HF Hn) as (fs & E & HP & _).
  exists fs. split; [exact E|]. intros l Hl. pose proof (lz77_bound s l fs HP Hl) as B. split; [exact B|].
  etransitivity; [exact B|]. apply Nat.add_le_mono_r, Nat.add_le_mono_l. apply sum_le. intros m. apply distinct_sigma.
Qed.
Print Assumptions C118_count_z_at_most.

Lemma unique_windows m (s : str) : (forall i j, i + m <= length s -> j + m <= length s ->
    firstn m (skipn i s) = firstn m (skipn j s) -> i = j) -> distinct m s = length s + 1 - m.
Proof.
  intros H. unfold distinct. rewrite nodup_fixed_point; [unfold substrings; now rewrite map_length, seq_length|].
  unfold substrings. assert (G : forall q, (forall x, In x q -> In x (seq 0 (length s + 1 - m))) -> NoDup q ->
    NoDup (map (fun i => firstn m (skipn i s)) q)).
  { induction q as [|x q IH]; intros Hq HN; cbn [map]; [constructor|]. apply NoDup_cons_iff in HN. destruct HN as (N1 & N2).
    constructor.
    - rewrite in_map_iff. intros (y & Ey & Hy). apply N1.
      assert (A : In x (seq 0 (length s + 1 - m))) by (apply Hq; now left).
      assert (B : In y (seq 0 (length s + 1 - m))) by (apply Hq; now right).
      apply in_seq in A, B. assert (y = x) by (apply H; [lia|lia|exact Ey]). congruence.
    - apply IH; [|exact N2]. intros y Hy. apply Hq. now right. }
  apply G; [auto|apply seq_NoDup].
Qed.
Lemma window_app m i (s u : str) : i + m <= length s -> firstn m (skipn i (s ++ u)) = firstn m (skipn i s).
Proof.
  intros H. rewrite skipn_app, firstn_app, skipn_length. replace (m - (length s - i)) with 0 by lia.
  cbn [firstn]. now rewrite app_nil_r.
Qed.
(** the word binary_debruijn: all its windows of length k+1 differ, so none of the tools finds a short description *)
Theorem C118_debruijn : forall sort k w, (forall t, is_suffix_array t (sort t)) -> binary_debruijn_word k = Ok w ->
  (N.of_nat (length w) < 2^32)%N ->
  distinct (k + 1) w = length w - k /\
  exists fs gs r, count_z_main sort w = Ok fs /\ count_lexparse_main sort w = Ok gs /\
    count_r_main sort true w 0 false false = Ok (S (length w), r) /\
    length w <= k + (k + 1) * length fs /\ length w <= k + (k + 1) * length gs /\
    length w + 1 <= (k + 1) * r.
Proof.
  intros sort k w Hs E Hn. destruct (C52_debruijn_windows_unique k) as (w' & E' & (L & _) & HF & _ & HU).
  rewrite E in E'. injection E' as <-.
  assert (D : distinct (k + 1) w = length w - k).
  { rewrite unique_windows; [lia|]. intros i j Hi Hj Q. apply HU; [lia|lia|]. now rewrite !window_app by lia. }
  assert (Hne : w <> []) by (destruct w; [cbn [length] in L; lia|discriminate]).
  destruct (C118_count_z sort w Hs Hne) as (fs & Ez & Bz); [eapply Forall_impl; [|exact HF]; cbv beta; lia|exact Hn|].
  destruct (C118_count_lexparse sort w Hs Hne) as (gs & El & Bl); [eapply Forall_impl; [|exact HF]; cbv beta; lia|].
  destruct (C118_count_r sort w Hs Hne) as (r & Er & Br); [eapply Forall_impl; [|exact HF]; cbv beta; lia|].
  split; [exact D|]. exists fs, gs, r.
  specialize (Bz (k + 1) ltac:(lia)). specialize (Bl (k + 1) ltac:(lia)). specialize (Br (k + 1) ltac:(lia)).
  rewrite D in Bz, Bl, Br. repeat split; auto; lia.
Qed.
Print Assumptions C118_debruijn.

Example C118_case :
  distinct 2 [97;98;97;97;98] = 3 /\ is_attractor naive_sort [97;98;97;97;98;0] [1;2] = Ok true /\
  count_z_main naive_sort [97;98;97;97;98] = Ok [LZ 97 0; LZ 98 0; LZ 2 1; LZ 3 2] /\
  length [97;98;97;97;98] / 2 + sum_from_to 2 2 (fun m => distinct m [97;98;97;97;98]) + 1 = 6 /\
  (exists w, binary_debruijn_word 3 = Ok w /\ length w = 16 /\ distinct 4 w = 13 /\
     exists fs, count_z_main naive_sort w = Ok fs /\ length fs = 7).
Proof.
  split; [vm_compute; reflexivity|]. split; [vm_compute; reflexivity|]. split; [vm_compute; reflexivity|].
  split; [vm_compute; reflexivity|]. eexists. split; [vm_compute; reflexivity|]. split; [reflexivity|].
  split; [vm_compute; reflexivity|]. eexists. split; [vm_compute; reflexivity|]. reflexivity.
Qed.
