(** PropsDebug.v : property theorems C104 (checks that exist only in builds with debug assertions). *)
From Verif Require Import Base SpecStr LexFacts ModelCore PermFacts SortFacts ModelLz ModelIo ModelTools ModelMain ModelAttr ModelDebug DebugProof.
From Coq Require Import NArith.

(** C104: whatever the input, the programs do the same in a build with debug assertions as in one without: none of the checks fires *)
Theorem C104_programs_same : forall sort, (forall t, is_suffix_array t (sort t)) ->
  (forall t, Forall (fun x => x < 256) t -> (N.of_nat (length t) < 2 ^ 32)%N -> count_z_main_release sort t = count_z_main sort t) /\
  (forall t, count_lexparse_main_release sort t = count_lexparse_main sort t) /\
  (forall t, mus_main_release sort t = mus_main sort t) /\
  (forall f content p A, is_stringattractor_main_release sort f content p A = is_stringattractor_main sort f content p A) /\
  (forall f content p w, lyndonfactorization_main_debug sort f content p w = lyndonfactorization_main f content p w).
Proof.
  intros sort Hs. split; [intros; now apply count_z_same|]. split; [intros; now apply count_lexparse_same|].
  split; [intros; now apply mus_same|]. split; [intros; now apply attractor_main_same|]. intros. now apply lyndonfactorization_debug_same.
Qed.
Print Assumptions C104_programs_same.

(** the library functions with tables of a wrong length: the checked build always panics; the release build panics if the table is
    too short and otherwise ignores what is too much *)
Theorem C104_plcp_tables : forall text phi, length phi <> length text ->
  compute_plcp text phi = Panic /\
  compute_plcp_release text phi = if length phi <? length text then Panic else compute_plcp text (firstn (length text) phi).
Proof.
  intros text phi H. split.
  - unfold compute_plcp. destruct (Nat.eqb_spec (length text) (length phi)); [congruence|reflexivity].
  - destruct (Nat.ltb_spec (length phi) (length text)); [now apply plcp_release_short|now apply plcp_release_long].
Qed.
Print Assumptions C104_plcp_tables.
Theorem C104_lcp_tables : forall plcp sa, length sa <> length plcp ->
  compute_lcp plcp sa = Panic /\
  compute_lcp_release plcp sa = if length sa <? length plcp then Panic else compute_lcp plcp (firstn (length plcp) sa).
Proof.
  intros plcp sa H. split.
  - unfold compute_lcp. destruct (Nat.eqb_spec (length plcp) (length sa)); [congruence|reflexivity].
  - destruct (Nat.ltb_spec (length sa) (length plcp)); [now apply lcp_release_short|now apply lcp_release_long].
Qed.
Print Assumptions C104_lcp_tables.
Theorem C104_tables_same : forall text phi plcp sa, length phi = length text -> length sa = length plcp ->
  compute_plcp_release text phi = compute_plcp text phi /\ compute_lcp_release plcp sa = compute_lcp plcp sa.
Proof. intros. split; [now apply plcp_release_eq|now apply lcp_release_eq]. Qed.
Print Assumptions C104_tables_same.

Example C104_case :
  count_z_main_release naive_sort [97;98;97;98;97] = Ok [LZ 97 0; LZ 98 0; LZ 2 3] /\
  is_stringattractor_main_release naive_sort true [97;98;97] 0 [0;1] = is_stringattractor_main naive_sort true [97;98;97] 0 [0;1] /\
  is_stringattractor_main_release naive_sort true [97;0;97] 0 [0;1] = Panic /\
  lyndonfactorization_main_debug naive_sort true [98;97;98] 0 false = Ok (2, None) /\
  compute_plcp [97;97] [1;0;5] = Panic /\ compute_plcp_release [97;97] [1;0;5] = Ok [1;1].
Proof. vm_compute. repeat split. Qed.
