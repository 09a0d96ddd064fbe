(** PropsEntropy.v : property theorems C56, C57. Floating point numbers are read as real numbers. [sort] stands for
    cdivsufsort; [naive_sort] is an instance. *)
From Verif Require Import Base SpecStr SpecIo SpecMain SpecEntropy LexFacts PermFacts SortFacts.
From Verif Require Import ModelIo ModelCore ModelEntropy EntropyProof EntropyProof2 EntropyProof3 MainProof2.
From Coq Require Import NArith Reals Lra.

Lemma zero_free s : ~ In 0 s -> Forall (fun x => x <> 0) s.
Proof. intros H. apply Forall_forall. intros x Hx ->. contradiction. Qed.
Lemma pos_length (s : str) : s <> [] -> 0 < length s.
Proof. destruct s; [easy|simpl; lia]. Qed.

(** C56 *)
Theorem C56_zero_order_entropy : forall v, bytes v -> v <> [] -> zero_order_entropy v = Ok (Some (H0 v)).
Proof. exact zero_order_ok. Qed.
Print Assumptions C56_zero_order_entropy.

Theorem C56_kth_order_entropy : forall sort s k W, (forall t, is_suffix_array t (sort t)) ->
  s <> [] -> bytes s -> ~ In 0 s -> 1 <= k -> contexts (s ++ [0]) k W ->
  kth_order_entropy sort (s ++ [0]) k = Ok (Some (Hk (s ++ [0]) W)).
Proof.
  intros sort s k W Hs Hne HB Hz Hkk HW.
  rewrite (kth_ok s k (sort (s ++ [0])) (zero_free s Hz) HB Hkk (Hs _) sort eq_refl (pos_length s Hne)).
  rewrite (gsum_contexts s k (sort (s ++ [0])) (zero_free s Hz) Hkk (Hs _) W HW). reflexivity.
Qed.
Print Assumptions C56_kth_order_entropy.

(** the contexts of a text can always be listed, and the entropy does not depend on how *)
Theorem C56_contexts : forall t k, (exists W, contexts t k W) /\
  forall W W', contexts t k W -> contexts t k W' -> Hk t W = Hk t W'.
Proof.
  intros t k. split; [apply contexts_ex|]. intros W W' (N1 & H1) (N2 & H2). unfold Hk. f_equal. apply sumR_perm, Permutation_map.
  apply NoDup_Permutation; auto. intros w. now rewrite H1, H2.
Qed.
Print Assumptions C56_contexts.

(** the number printed by the program on a file *)
Theorem C56_program : forall sort content p k W, (forall t, is_suffix_array t (sort t)) ->
  let s := prefix_read content p in bytes s ->
  entropy_main sort true content p 0 = Ok (Some (H0 (s ++ [0]))) /\
  (s <> [] -> ~ In 0 s -> 1 <= k -> contexts (s ++ [0]) k W ->
   entropy_main sort true content p k = Ok (Some (Hk (s ++ [0]) W))).
Proof.
  intros sort content p k W Hs s HB. unfold entropy_main. rewrite prefix_read_ok. cbn [bind]. fold s. split.
  - apply zero_order_ok; [|now destruct s]. apply Forall_app. split; [exact HB|]. repeat constructor.
  - intros Hne Hz Hk' HW. destruct (Nat.eqb_spec k 0) as [E|_]; [lia|]. now apply C56_kth_order_entropy.
Qed.
Print Assumptions C56_program.

(** order 0 and a zero before the last byte are rejected; the bare terminator panics for order 1 *)
Theorem C56_panics : forall sort text k,
  (k = 0 \/ text = [] \/ In 0 (firstn (length text - 1) text)) -> kth_order_entropy sort text k = Panic.
Proof.
  intros sort text k H. unfold kth_order_entropy. destruct (Nat.ltb_spec 0 k) as [Hk'|Hk']; [|reflexivity]. cbn [assert_ bind].
  destruct (Nat.eq_dec (length text) 0) as [E|E].
  - rewrite sub_panic by lia. reflexivity.
  - rewrite sub_ok by lia. cbn [bind]. destruct H as [H|[H|H]]; [lia|subst; easy|].
    assert (EE : existsb (fun x => x =? 0) (firstn (length text - 1) text) = true).
    { apply existsb_exists. exists 0. auto. }
    rewrite EE. reflexivity.
Qed.
Print Assumptions C56_panics.
Lemma sa_one (sort : str -> list nat) c : (forall t, is_suffix_array t (sort t)) -> sort [c] = [0].
Proof.
  intros Hs. destruct (Hs [c]) as (HP & _). unfold is_perm in HP. simpl in HP.
  apply Permutation_sym, Permutation_length_1_inv in HP. exact HP.
Qed.
Theorem C56_empty_text : forall sort k, (forall t, is_suffix_array t (sort t)) -> 
  kth_order_entropy sort [0] 1 = Panic /\ (2 <= k -> kth_order_entropy sort [0] k = Ok (Some 0%R)).
Proof.
  intros sort k Hs. unfold kth_order_entropy. rewrite (sa_one sort 0 Hs). split; [reflexivity|].
  intros H. destruct k as [|[|k]]; [lia|lia|]. cbn. do 2 f_equal. lra.
Qed.
Print Assumptions C56_empty_text.

Lemma contexts_list t k : contexts t k (nodup strdec (map (key t k) (seq 0 (length t - k)))).
Proof.
  split; [apply NoDup_nodup|].
  intros w. rewrite nodup_In, in_map_iff. split.
  - intros (i & <- & Hi). apply in_seq in Hi. rewrite key_full by lia. split; auto. exists i.
    unfold context_at, occurs_at. rewrite key_full by lia. split; [split; [lia|reflexivity]|lia].
  - intros (L & i & (O1 & O2) & O3). rewrite L in *. exists i. split; [exact O2|]. apply in_seq. lia.
Qed.
(** an order of at least the length of the text leaves no context: the entropy is 0 *)
Theorem C56_long_order : forall sort s k, (forall t, is_suffix_array t (sort t)) ->
  s <> [] -> bytes s -> ~ In 0 s -> length s < k -> kth_order_entropy sort (s ++ [0]) k = Ok (Some 0%R).
Proof.
  intros sort s k Hs Hne HB Hz Hkk. rewrite (C56_kth_order_entropy sort s k []); auto; [|lia|].
  - unfold Hk, sumR. cbn. do 2 f_equal. unfold Rdiv. lra.
  - pose proof (contexts_list (s ++ [0]) k) as C. rewrite app_length in C. cbn [length] in C.
    replace (length s + 1 - k) with 0 in C by lia. exact C.
Qed.
Print Assumptions C56_long_order.

(** concrete: in aab0 the letter a is followed by a and b, one bit each; b is followed by 0 only *)
Lemma lg_2 : lg 2 = 1%R.
Proof. unfold lg. field. pose proof ln2_pos. lra. Qed.
Lemma aab_contexts : contexts (ascii "aab" ++ [0]) 1 [[97]; [98]].
Proof. exact (contexts_list (ascii "aab" ++ [0]) 1). Qed.
Lemma aab_entropy : Hk (ascii "aab" ++ [0]) [[97]; [98]] = (1 / 2)%R.
Proof.
  unfold Hk. cbn [map].
  replace (followers (ascii "aab" ++ [0]) [97]) with [97; 98] by reflexivity.
  replace (followers (ascii "aab" ++ [0]) [98]) with [0] by reflexivity.
  rewrite H0_single. replace (H0 [97; 98]) with 1%R; [unfold sumR; simpl; lra|].
  unfold H0. replace (nodup Nat.eq_dec [97; 98]) with [97; 98] by reflexivity. cbn [map].
  replace (occ [97; 98] 97) with 1 by reflexivity. replace (occ [97; 98] 98) with 1 by reflexivity.
  cbn [length]. replace (INR 2 / INR 1)%R with 2%R by (simpl; lra). rewrite lg_2. unfold sumR. simpl. lra.
Qed.
Example C56_case : kth_order_entropy naive_sort (ascii "aab" ++ [0]) 1 = Ok (Some (1 / 2)%R).
Proof.
  rewrite (C56_kth_order_entropy naive_sort (ascii "aab") 1 [[97]; [98]]).
  - now rewrite aab_entropy.
  - exact naive_sort_ok.
  - discriminate.
  - repeat constructor.
  - simpl. intuition discriminate.
  - lia.
  - exact aab_contexts.
Qed.

(** C57 *)
Theorem C57_same_entropy : forall sort it1 it2 s k, (forall t, is_suffix_array t (sort t)) ->
  (forall m, Permutation (it1 m) m) -> (forall m, Permutation (it2 m) m) ->
  s <> [] -> bytes s -> ~ In 0 s -> 1 <= k <= 7 -> k <= length (s ++ [0]) ->
  exists x, kth_order_entropy sort (s ++ [0]) k = Ok (Some x) /\
    entropy_via_kmer_counting it1 it2 (s ++ [0]) k = Ok (Some x, length (s ++ [0])).
Proof.
  intros sort it1 it2 s k Hs P1 P2 Hne HB Hz Hk7 Hl. destruct (contexts_ex (s ++ [0]) k) as (W & HW).
  exists (Hk (s ++ [0]) W). split; [apply C56_kth_order_entropy; auto; lia|].
  assert (HB' : bytes (s ++ [0])) by (apply Forall_app; split; [exact HB|repeat constructor]).
  rewrite (kmer_counting_ok it1 it2 (s ++ [0]) k HB' Hk7 Hl P1 P2).
  rewrite (counts_entropy s k (zero_free s Hz) ltac:(lia) W HW Hl). reflexivity.
Qed.
Print Assumptions C57_same_entropy.

(** the programs on a file *)
Theorem C57_programs_agree : forall sort it1 it2 content p k, (forall t, is_suffix_array t (sort t)) ->
  (forall m, Permutation (it1 m) m) -> (forall m, Permutation (it2 m) m) ->
  let s := prefix_read content p in s <> [] -> bytes s -> ~ In 0 s -> 1 <= k <= 7 -> k <= length s + 1 ->
  exists x, entropy_main sort true content p k = Ok (Some x) /\
    entropy_kmer_main it1 it2 true content p k = Ok (Some x, length s + 1).
Proof.
  intros sort it1 it2 content p k Hs P1 P2 s Hne HB Hz Hk7 Hl.
  destruct (C57_same_entropy sort it1 it2 s k) as (x & E1 & E2); auto; [rewrite app_length; exact Hl|].
  exists x. unfold entropy_main, entropy_kmer_main. rewrite prefix_read_ok. cbn [bind]. fold s. split.
  - destruct (Nat.eqb_spec k 0); [lia|exact E1].
  - destruct (Nat.ltb_spec 0 k); [|lia]. destruct (Nat.leb_spec k 7); [|lia]. cbn [assert_ bind].
    rewrite E2, app_length. reflexivity.
Qed.
Print Assumptions C57_programs_agree.

(** where they differ: orders beyond the text, the empty text, orders the k-mer program rejects *)
Theorem C57_long_order_differs : forall sort it1 it2 s k, (forall t, is_suffix_array t (sort t)) ->
  s <> [] -> bytes s -> ~ In 0 s -> length s + 1 < k <= 7 ->
  kth_order_entropy sort (s ++ [0]) k = Ok (Some 0%R) /\
  entropy_via_kmer_counting it1 it2 (s ++ [0]) k = Panic.
Proof.
  intros sort it1 it2 s k Hs Hne HB Hz Hl. split; [apply C56_long_order; auto; lia|].
  unfold entropy_via_kmer_counting. rewrite kmer_prefix_panic; [reflexivity|]. rewrite app_length. simpl. lia.
Qed.
Print Assumptions C57_long_order_differs.
Theorem C57_empty_text_differs : forall sort it1 it2, (forall t, is_suffix_array t (sort t)) ->
  (forall m, Permutation (it1 m) m) -> (forall m, Permutation (it2 m) m) ->
  kth_order_entropy sort [0] 1 = Panic /\ entropy_via_kmer_counting it1 it2 [0] 1 = Ok (Some 0%R, 1).
Proof.
  intros sort it1 it2 Hs P1 P2. split; [now apply (C56_empty_text sort 1)|].
  rewrite (kmer_counting_ok it1 it2 [0] 1); auto; [|repeat constructor|simpl; lia].
  do 3 f_equal. replace (dsum (keys [0] 1 (length [0] - 1 + 1))) with (clg 1 + 0)%R by reflexivity.
  replace (dsum (keys [0] (1 + 1) (length [0] - 1))) with 0%R by reflexivity. rewrite clg_1. unfold Rdiv. lra.
Qed.
Print Assumptions C57_empty_text_differs.
Theorem C57_kmer_program_orders : forall it1 it2 is_file content p k, k = 0 \/ 7 < k ->
  entropy_kmer_main it1 it2 is_file content p k = Panic.
Proof.
  intros it1 it2 is_file content p k H. unfold entropy_kmer_main. destruct (Nat.ltb_spec 0 k); [|reflexivity].
  destruct (Nat.leb_spec k 7); [lia|reflexivity].
Qed.
Print Assumptions C57_kmer_program_orders.
(** the function behind it, called with such an order: the shifts u64::MAX >> 8 * (8 - order) and
    u64::MAX >> 8 * (7 - order) are out of range, except for one text that is exactly one 8-mer long *)
Theorem C57_kmer_function_orders : forall it1 it2 t k, (forall m, Permutation (it1 m) m) -> (forall m, Permutation (it2 m) m) ->
  bytes t -> k = 0 \/ 8 <= k ->
  (k = 8 /\ length t = 8 -> entropy_via_kmer_counting it1 it2 t k = Ok (Some 0%R, 8)) /\
  (~ (k = 8 /\ length t = 8) -> entropy_via_kmer_counting it1 it2 t k = Panic).
Proof.
  intros it1 it2 t k P1 P2 HB Hk. split.
  - intros [-> Hl]. unfold entropy_via_kmer_counting. rewrite kmer_prefix_loop by (auto; lia). cbn [bind].
    rewrite skipn_all2 by lia. cbn [for_in bind]. set (r := N.modulo _ _). clearbody r.
    assert (E : exists z, increment 8 8 r [] = Ok [(z, 1)]) by (eexists; reflexivity). destruct E as [z ->]. cbn [bind].
    pose proof (Permutation_length_1_inv (Permutation_sym (P1 [(z, 1)]))) as ->.
    pose proof (Permutation_nil (Permutation_sym (P2 []))) as ->.
    unfold log_sum, f_div. cbn [fold_left snd Nat.eqb]. do 3 f_equal. unfold log2. cbn [INR]. rewrite ln_1. unfold Rdiv.
    rewrite !Rmult_0_l, Rmult_0_r. lra.
  - intros Hn. unfold entropy_via_kmer_counting. destruct (Nat.lt_ge_cases (length t) k) as [L|L].
    + now rewrite kmer_prefix_panic.
    + rewrite kmer_prefix_loop by auto. cbn [bind]. set (r := N.modulo _ _). clearbody r.
      assert (K8 : k <> 8 -> forall r m, increment 8 k r m = Panic).
      { intros N r' m. unfold increment, kmer_mask, sub_. destruct (Nat.ltb_spec 8 k); [reflexivity|].
        replace k with 0 by lia. reflexivity. }
      destruct (Nat.eq_dec k 8) as [->|N].
      * destruct (skipn 8 t) as [|c rest] eqn:E.
        { exfalso. apply Hn. split; [reflexivity|]. apply (f_equal (@length nat)) in E. rewrite skipn_length in E.
          simpl in E. lia. }
        cbn [for_in bind]. reflexivity.
      * destruct (skipn k t) as [|c rest]; cbn [for_in bind]; rewrite K8 by exact N; reflexivity.
Qed.
Print Assumptions C57_kmer_function_orders.
(** concrete: also when the maps are iterated backwards *)
Example C57_case : entropy_via_kmer_counting (@rev _) (fun m => m) (ascii "aab" ++ [0]) 1 = Ok (Some (1 / 2)%R, 4).
Proof.
  destruct (C57_same_entropy naive_sort (@rev _) (fun m => m) (ascii "aab") 1 naive_sort_ok) as (x & E1 & E2).
  - intros m. apply Permutation_sym, Permutation_rev.
  - intros m. apply Permutation_refl.
  - discriminate.
  - repeat constructor.
  - simpl. intuition discriminate.
  - lia.
  - simpl. lia.
  - rewrite C56_case in E1. injection E1 as <-. exact E2.
Qed.
