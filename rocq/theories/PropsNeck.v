(** PropsNeck.v : property theorems C52 and C53 (src/word.rs: binary_debruijn_word, is_necklace). *)
From Verif Require Import Base SpecStr LexFacts BorderProof ModelWord NeckProof NeckProof2.
From Coq Require Import NArith.

(** C53: is_necklace(text, n) decides whether text[0..n) can be extended to a necklace *)
Theorem C53_is_necklace : forall text n, 1 <= n <= length text ->
  exists b, is_necklace text n = Ok b /\ (b = true <-> prenecklace (firstn n text)).
Proof. exact is_necklace_ok. Qed.
Print Assumptions C53_is_necklace.
(** in particular no necklace is rejected *)
Theorem C53_accepts_necklaces : forall text, text <> [] -> necklace text -> is_necklace text (length text) = Ok true.
Proof.
  intros text Hne HN. destruct (is_necklace_ok text (length text)) as (b & E & Hb); [destruct text; [easy|simpl; lia]|].
  rewrite firstn_all in Hb. destruct b; [exact E|]. destruct Hb as (_ & Hb). now specialize (Hb (necklace_pre _ HN)).
Qed.
Print Assumptions C53_accepts_necklaces.
(** the documented claim (only necklaces are accepted) is false *)
Theorem C53_only_necklaces_refuted : is_necklace [97;98;97] 3 = Ok true /\ ~ necklace [97;98;97].
Proof.
  split; [reflexivity|]. intros H. specialize (H 2 ltac:(simpl; lia)). cbn in H.
  destruct H as [H|H]; [discriminate|]. inversion H as [| |? ? ? H1]; subst; [lia|]. inversion H1; lia.
Qed.
Print Assumptions C53_only_necklaces_refuted.
Theorem C53_zero_length : forall text, is_necklace text 0 <> Ok true.
Proof. intros text. apply is_necklace_zero. Qed.
Print Assumptions C53_zero_length.
Example C53_case : is_necklace [97;98;97;97;98] 5 = Ok false /\ is_necklace [97;97;98;97;98] 5 = Ok true.
Proof. split; reflexivity. Qed.

(** C52: cyclic windows of length k+1 are pairwise different; at most 2^(k+1) letters *)
Theorem C52_debruijn_windows_unique : forall k, exists w, binary_debruijn_word k = Ok w /\
  k + 1 < length w <= 2 ^ (k + 1) /\ Forall (fun c => c = 97 \/ c = 98) w /\
  skipn (length w - (k + 1)) w = repeat 97 (k + 1) /\
  forall i j, i < length w -> j < length w ->
    firstn (k + 1) (skipn i (w ++ w)) = firstn (k + 1) (skipn j (w ++ w)) -> i = j.
Proof. exact debruijn_ok. Qed.
Print Assumptions C52_debruijn_windows_unique.
(** up to k = 3 it is a de Bruijn sequence: length 2^(k+1), hence every window occurs exactly once *)
Theorem C52_small_k : forall k w, k <= 3 -> binary_debruijn_word k = Ok w -> length w = 2 ^ (k + 1).
Proof.
  intros k w Hk E. destruct k as [|[|[|[|k]]]]; [| | | |lia]; vm_compute in E; injection E as <-; reflexivity.
Qed.
Print Assumptions C52_small_k.
(** from k = 4 on the claim is false: 25 letters instead of 32, and the window aaaba is missing *)
Theorem C52_debruijn_refuted : exists w, binary_debruijn_word 4 = Ok w /\ length w = 25 /\
  exists v, length v = 5 /\ Forall (fun c => c = 97 \/ c = 98) v /\
    forall i, i < length w -> firstn 5 (skipn i (w ++ w)) <> v.
Proof.
  eexists. split; [vm_compute; reflexivity|]. split; [reflexivity|].
  exists [97;97;97;98;97]. split; [reflexivity|]. split; [repeat (apply Forall_cons; [tauto|]); apply Forall_nil|].
  intros i Hi. do 25 (destruct i as [|i]; [vm_compute; discriminate|]). exfalso. vm_compute in Hi. lia.
Qed.
Print Assumptions C52_debruijn_refuted.
(** ... and it is false for every even k from 4 on: fewer than 2^(k+1) letters, and aa(ab)^(k/2-1)a occurs nowhere *)
Theorem C52_even_k_refuted : forall k, Nat.Even k -> 4 <= k -> exists w v, binary_debruijn_word k = Ok w /\ length w < 2 ^ (k + 1) /\
  v = [97; 97] ++ power [97; 98] (k / 2 - 1) ++ [97] /\ length v = k + 1 /\
  forall i, i < length w -> firstn (k + 1) (skipn i (w ++ w)) <> v.
Proof.
  intros k (m & ->) Hk. destruct (debruijn_odd m ltac:(lia)) as (w & E & HL & HV).
  exists w, ([97; 97] ++ power [97; 98] (m - 1) ++ [97]). rewrite (Nat.mul_comm 2 m), Nat.div_mul, (Nat.mul_comm m 2) by lia.
  assert (L : length ([97; 97] ++ power [97; 98] (m - 1) ++ [97]) = 2 * m + 1).
  { rewrite !app_length, power_length. cbn [length]. lia. }
  repeat (split; [assumption || reflexivity|]). apply HV; [apply W0|exact L|].
  repeat (apply Forall_cons; [now left|]). apply Forall_app. split; [apply P_isab|]. repeat constructor.
Qed.
Print Assumptions C52_even_k_refuted.
(** ... and for the odd k from 5 to 15, where the missing windows follow no pattern, by evaluation: the exact lengths *)
Theorem C52_odd_k_refuted : forall k l, In (k, l) [(5, 41); (7, 81); (9, 166); (11, 3399); (13, 6321); (15, 9445)]%N ->
  exists w, binary_debruijn_word (N.to_nat k) = Ok w /\ N.of_nat (length w) = l /\ (l < 2 ^ (k + 1))%N.
Proof.
  assert (G : forall k l, (match binary_debruijn_word (N.to_nat k) with Ok w => N.eqb (N.of_nat (length w)) l | _ => false end && N.ltb l (2 ^ (k + 1)))%bool = true ->
    exists w, binary_debruijn_word (N.to_nat k) = Ok w /\ N.of_nat (length w) = l /\ (l < 2 ^ (k + 1))%N).
  { intros k l H. apply andb_prop in H. destruct H as (H1 & H2). destruct (binary_debruijn_word (N.to_nat k)) as [w| |]; try discriminate.
    exists w. split; [reflexivity|]. split; [now apply N.eqb_eq|now apply N.ltb_lt]. }
  intros k l HI. apply G. cbn [In] in HI.
  repeat (destruct HI as [HI|HI]; [injection HI as <- <-; vm_compute; reflexivity|]). destruct HI.
Qed.
Print Assumptions C52_odd_k_refuted.
Example C52_case : binary_debruijn_word 2 = Ok [98;98;98;97;98;97;97;97].
Proof. vm_compute. reflexivity. Qed.
