(** PropsAttr3.v : property theorem C99 (bin/is_stringattractor.rs on the remaining inputs: texts that contain the
    zero byte, the empty text, positions behind the text). *)
From Verif Require Import Base SpecStr SortFacts SpecLz ModelIo ModelAttr SpecAttr AttrProof2 AttrProof3 AttrZero ModelMain SpecIo SpecMain MainProof2 PropsAttr PropsAttr2.

Lemma pos_ok (n : nat) A : Forall (fun a => a <= n) A -> existsb (fun a => S n <=? a) A = false.
Proof.
  intros HA. destruct (existsb (fun a => S n <=? a) A) eqn:EX; auto. exfalso.
  apply existsb_exists in EX. destruct EX as (a & Ha & HX). apply Nat.leb_le in HX.
  rewrite Forall_forall in HA. specialize (HA a Ha). lia.
Qed.

(** C99: a position behind the end of the text is found before anything else, whatever the text *)
Theorem C99_position : forall sort content p A a, In a A -> length (prefix_read content p) < a ->
  is_stringattractor_main sort true content p A = Ok (1, []).
Proof.
  intros sort content p A a Ha Hl. unfold is_stringattractor_main. rewrite prefix_read_ok. cbn [bind].
  rewrite app_length. cbn [length]. rewrite Nat.add_1_r.
  replace (existsb (fun a => S (length (prefix_read content p)) <=? a) A) with true; [reflexivity|].
  symmetry. apply existsb_exists. exists a. split; auto. apply Nat.leb_le. lia.
Qed.
Print Assumptions C99_position.

(** a text that contains a zero byte makes the program panic, whatever the set, even if it is an attractor *)
Theorem C99_zero_byte : forall sort content p A, (forall t, is_suffix_array t (sort t)) -> In 0 (prefix_read content p) ->
  Forall (fun a => a <= length (prefix_read content p)) A -> is_stringattractor_main sort true content p A = Panic.
Proof.
  intros sort content p A Hs H0 HA. unfold is_stringattractor_main. rewrite prefix_read_ok. cbn [bind].
  rewrite app_length. cbn [length]. rewrite Nat.add_1_r, (pos_ok _ A HA), (zero_panics sort _ A Hs H0 HA). reflexivity.
Qed.
Print Assumptions C99_zero_byte.
Theorem C99_attractor_judged_refuted : exists content A, string_attractor content A /\
  is_stringattractor_main naive_sort true content 0 A = Panic.
Proof.
  exists [0], [0]. split; [|now vm_compute].
  intros i l Hl Hi. simpl in Hi. exists 0, 0. replace i with 0 by lia. replace l with 1 by lia.
  repeat split; simpl; auto; lia.
Qed.
Print Assumptions C99_attractor_judged_refuted.

(** the empty text: without positions the end marker is reported, with the position 0 it is not *)
Theorem C99_empty : forall sort p A, (forall t, is_suffix_array t (sort t)) -> Forall (fun a => a = 0) A ->
  is_stringattractor_main sort true [] p A =
    match A with
    | [] => Ok (2, not_covered [0] ++ ascii "not a valid attractor" ++ newline)
    | _ => Ok (0, ascii "valid attractor" ++ newline)
    end.
Proof.
  intros sort p A Hs HA. unfold is_stringattractor_main. rewrite prefix_read_ok. cbn [bind].
  assert (E : prefix_read [] p = []) by (unfold prefix_read; destruct (p =? 0); [auto|apply firstn_nil]). rewrite E.
  cbn [app length]. rewrite (pos_ok 0 A) by (eapply Forall_impl; [|exact HA]; cbv beta; lia).
  assert (EI : is_attractor_io sort [0] A = match A with [] => Ok (false, not_covered_line [0]) | _ => Ok (true, []) end).
  { unfold is_attractor_io. destruct (Hs [0]) as (HP & _).
    apply Permutation_sym, Permutation_length_1_inv in HP. rewrite HP.
    assert (E1 : for_in A (fun a (_ : unit) => assert_ (a <? length [0])) tt = Ok tt).
    { clear -HA. induction HA as [|a A -> HA IH]; cbn [for_in]; auto. }
    rewrite E1. cbn [bind length last_ rev app Nat.ltb Nat.leb Nat.eqb assert_].
    destruct A as [|a A]; [reflexivity|].
    assert (E2 : for_in (a :: A) (fun s v => set v s true) (repeat false 1) = Ok [true]).
    { inversion HA as [|? ? -> HA']; subst. cbn [for_in]. replace (set (repeat false 1) 0 true) with (Ok [true]) by reflexivity.
      cbn [bind]. clear -HA'. induction HA' as [|a A -> HA IH]; cbn [for_in]; auto. }
    rewrite E2. reflexivity. }
  rewrite EI. destruct A; reflexivity.
Qed.
Print Assumptions C99_empty.

Example C99_case : is_stringattractor_main naive_sort true (ascii "ab" ++ [0] ++ ascii "a") 0 [0;1;2;3] = Panic /\
  is_stringattractor_main naive_sort true (ascii "ab" ++ [0] ++ ascii "a") 0 [0;5] = Ok (1, []) /\
  is_stringattractor_main naive_sort true (ascii "ab" ++ [0] ++ ascii "a") 2 [0;1] = Ok (0, ascii "valid attractor" ++ newline).
Proof. repeat split; now vm_compute. Qed.
