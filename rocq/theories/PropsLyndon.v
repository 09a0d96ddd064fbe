(** PropsLyndon.v : property theorems C01-C04, C20. Statements use only SpecStr.v (specification)
    and ModelCore.v (model); proofs are in DuvalProof.v, LyndonProof.v, LwgProof.v. *)
From Verif Require Import Base SpecStr LexFacts ModelCore PermFacts SortFacts DuvalProof LyndonProof LwgProof.

(** C01: duval terminates, does not panic and returns the ending positions of a Lyndon
    factorization of the text. *)
Theorem C01_duval_is_lyndon_factorization : forall t : str,
  exists ends fs, duval t = Ok ends /\ lyndon_factorization t fs /\ ends = ends_from 0 fs.
Proof. exact duval_correct. Qed.
Print Assumptions C01_duval_is_lyndon_factorization.
Example C01_case : duval [2;3;1;2;1;2;1] = Ok [1;3;5;6] /\
  lyndon_factorization [2;3;1;2;1;2;1] [[2;3];[1;2];[1;2];[1]].
Proof.
  split; [reflexivity|]. destruct (duval_correct [2;3;1;2;1;2;1]) as (e & fs & E & HF & HE).
  vm_compute in E. injection E as <-.
  assert (fs = [[2;3];[1;2];[1;2];[1]]); [|subst; exact HF].
  destruct HF as (HC & HL & _).
  destruct fs as [|[|? [|? [|]]] [|[|? [|? [|]]] [|[|? [|? [|]]] [|[|? [|]] [|]]]]]; simpl in *;
    try discriminate; try congruence; try lia;
    repeat match goal with H : Forall lyndon (_ :: _) |- _ => inversion H; clear H; subst end;
    try (exfalso; match goal with H : lyndon [] |- _ => now apply lyndon_not_nil in H end).
Qed.

(** C02: any Lyndon factorization of the text has the ending positions duval returns. *)
Theorem C02_duval_unique : forall (t : str) ends gs,
  duval t = Ok ends -> lyndon_factorization t gs -> ends = ends_from 0 gs.
Proof. exact duval_unique. Qed.
Print Assumptions C02_duval_unique.
(** the factors themselves are unique *)
Theorem C02_lyndon_factorization_unique : forall (t : str) fs gs,
  lyndon_factorization t fs -> lyndon_factorization t gs -> fs = gs.
Proof. exact lyndon_factorization_unique. Qed.
Print Assumptions C02_lyndon_factorization_unique.
Example C02_case : [1;2] = ends_from 0 [[1;2];[1]].
Proof.
  apply (C02_duval_unique [1;2;1]); [reflexivity|].
  split; [reflexivity|]. split.
  - constructor; [|constructor; [apply lyndon_single|constructor]].
    apply lyndon_idx. split; [easy|]. intros r Hr. exists 0. simpl in Hr.
    assert (r = 1) by lia. subst r. simpl. repeat split; try lia.
  - simpl. split; [|auto]. right. apply lex_tail, lex_nil.
Qed.

(** C03: on the inverse suffix array of any non-empty text. *)
Theorem C03_isa_lyndon_agrees_with_duval : forall (t : str) sa isa,
  t <> [] -> is_suffix_array t sa -> inverse_permutation sa = Ok isa ->
  isa_lyndon_factorization isa = duval t.
Proof. exact isa_lyndon_correct. Qed.
Print Assumptions C03_isa_lyndon_agrees_with_duval.
Example C03_case : is_suffix_array [2;1;2;1] (naive_sort [2;1;2;1]) /\
  naive_sort [2;1;2;1] = [3;1;2;0] /\ inverse_permutation [3;1;2;0] = Ok [3;1;2;0] /\
  isa_lyndon_factorization [3;1;2;0] = Ok [0;2;3].
Proof. split; [apply naive_sort_ok|]. repeat split. Qed.

(** C04: smallest rotation; panics exactly on the empty text. *)
Theorem C04_lyndon_conjugate_smallest_rotation : forall t : str, t <> [] ->
  exists r, lyndon_conjugate t = Ok r /\ r < length t /\
    forall i, i < length t -> lex_le (rot r t) (rot i t).
Proof. exact lyndon_conjugate_correct. Qed.
Print Assumptions C04_lyndon_conjugate_smallest_rotation.
Theorem C04_lyndon_conjugate_empty_panics : lyndon_conjugate [] = Panic.
Proof. exact lyndon_conjugate_empty. Qed.
Print Assumptions C04_lyndon_conjugate_empty_panics.
Example C04_case : lyndon_conjugate [2;1;2;1;1] = Ok 3 /\ rot 3 [2;1;2;1;1] = [1;1;2;1;2].
Proof. split; reflexivity. Qed.

(** C20: the generator yields exactly the Lyndon words of length <= n over {0..sigma-1} in
    strictly increasing order and then None forever. *)
Theorem C20_generator_enumerates_lyndon_words : forall n sigma, 1 <= n -> 1 <= sigma <= 256 ->
  exists L, StronglySorted lex_lt L /\
   (forall w, In w L <-> lyndon w /\ length w <= n /\ Forall (fun c => c < sigma) w) /\
   forall k, calls lwg_next k (lwg_new n sigma) = Ok (yields L k).
Proof. exact lwg_correct. Qed.
Print Assumptions C20_generator_enumerates_lyndon_words.
Theorem C20_generator_zero_length : forall sigma k,
  calls lwg_next k (lwg_new 0 sigma) = Ok (repeat None k).
Proof. exact lwg_zero_length. Qed.
Print Assumptions C20_generator_zero_length.
(** outside the range: an empty alphabet panics on the second call, having produced a word that
    is not over that alphabet *)
Theorem C20_generator_sigma_zero : forall n, 1 <= n ->
  calls lwg_next 1 (lwg_new n 0) = Ok [Some [0]] /\ calls lwg_next 2 (lwg_new n 0) = Panic.
Proof.
  intros n Hn. destruct (lwg_fill_ok n [0] ltac:(simpl; lia)) as (x & Ex & Lx & _).
  split.
  - unfold calls, lwg_next. simpl. destruct (Nat.eqb_spec n 0); [lia|]. reflexivity.
  - simpl calls. unfold lwg_next at 1. simpl lwg_length. destruct (Nat.eqb_spec n 0); [lia|].
    cbn [lwg_stack lwg_new bind]. unfold lwg_next. simpl lwg_length.
    destruct (Nat.eqb_spec n 0); [lia|]. cbn [lwg_stack].
    change (length [0]) with 1 in *. rewrite Ex. cbn [bind].
    unfold lwg_trim. destruct x as [|a x']; [simpl in Lx; lia|]. simpl loop.
    destruct (rev x' ++ [a]) eqn:E; [destruct (rev x'); easy|]. reflexivity.
Qed.
Print Assumptions C20_generator_sigma_zero.
Example C20_case : calls lwg_next 7 (lwg_new 3 2) =
  Ok [Some [0]; Some [0;0;1]; Some [0;1]; Some [0;1;1]; Some [1]; None; None].
Proof. reflexivity. Qed.
