(** ReleaseProof2.v : the release-build variants of the functions of word.rs. *)
From Verif Require Import Base SpecStr SpecWord ModelTools ModelWord ModelMain ModelRelease ReleaseProof WordProof WordProof2 WordProof3 WordProof4.
From Coq Require Import NArith ZArith.

Definition M64 : N := 18446744073709551616%N.
Lemma fib_release_for n : forall i, for_in (seq i n) (fun _ '(sum, cur, old) =>
      let s := add_usize_release cur old in Ok (s, s, cur)) ((fib (S i) mod M64)%N, (fib (S i) mod M64)%N, (fib i mod M64)%N) =
  Ok ((fib (S (i + n)) mod M64)%N, (fib (S (i + n)) mod M64)%N, (fib (i + n) mod M64)%N).
Proof.
  induction n as [|n IH]; intros i; cbn [seq for_in].
  - now rewrite Nat.add_0_r.
  - cbn [bind].
    assert (E : add_usize_release (fib (S i) mod M64) (fib i mod M64) = (fib (S (S i)) mod M64)%N).
    { unfold add_usize_release. change 18446744073709551616%N with M64. rewrite <- N.add_mod by discriminate. now rewrite fib_SS. }
    cbv zeta in IH |- *. rewrite E, IH. replace (S i + n) with (i + S n) by lia. reflexivity.
Qed.
Lemma fibonacci_number_release_ok k : k < 255 -> fibonacci_number_release k = Ok (fib (k + 2) mod M64)%N.
Proof.
  intros Hk. unfold fibonacci_number_release. destruct (Nat.eqb_spec k 0) as [->|]; [reflexivity|].
  unfold add_u8_release. rewrite Nat.mod_small by lia. unfold range. rewrite Nat.sub_0_r.
  pose proof (fib_release_for (k + 1) 0) as E. change (fib 1 mod M64)%N with 1%N in E. change (fib 0 mod M64)%N with 0%N in E.
  cbv zeta in E |- *. rewrite E. cbn [bind]. do 3 f_equal. lia.
Qed.

Lemma vec_zero_release k : vec_zero (shl1_release k) = n <- shl1 (k mod 64) ;; vec_zero n.
Proof.
  unfold shl1, shl1_release. pose proof (Nat.mod_upper_bound k 64 ltac:(lia)).
  destruct (Nat.leb_spec 64 (k mod 64)); [lia|]. reflexivity.
Qed.
Lemma iterate_2morphism_release_eq k m : k mod 64 <> 0 -> iterate_2morphism_release k m = iterate_2morphism (k mod 64) m.
Proof.
  intros H. unfold iterate_2morphism_release, iterate_2morphism.
  destruct (Nat.eqb_spec k 0) as [->|]; [exfalso; apply H; reflexivity|]. destruct (Nat.eqb_spec (k mod 64) 0); [contradiction|].
  rewrite vec_zero_release. destruct (shl1 (k mod 64)); reflexivity.
Qed.
Lemma iterate_2morphism_release_0 k m : k mod 64 = 0 -> iterate_2morphism_release k m = if k =? 0 then Ok [97] else Panic.
Proof.
  intros H. unfold iterate_2morphism_release. destruct (Nat.eqb_spec k 0) as [->|]; [reflexivity|].
  rewrite vec_zero_release, H. reflexivity.
Qed.
Lemma quaternary_release_eq k : quaternary_paperfolding_word_release k = quaternary_paperfolding_word (k mod 64).
Proof.
  unfold quaternary_paperfolding_word_release, quaternary_paperfolding_word.
  rewrite vec_zero_release. destruct (shl1 (k mod 64)); reflexivity.
Qed.
Lemma shl1_release_small j : j < 64 -> N.to_nat (shl1_release j) = 2 ^ j.
Proof. intros H. unfold shl1_release. rewrite Nat.mod_small by lia. rewrite N2Nat.inj_pow, Nat2N.id. reflexivity. Qed.

Lemma loop_refine {S R} (body body' : S -> res (ctl S R)) : (forall s r, body s = Ok r -> body' s = Ok r) ->
  forall fuel s r, loop fuel body s = Ok r -> loop fuel body' s = Ok r.
Proof.
  intros H. induction fuel as [|f IH]; intros s r E; cbn [loop] in *; [discriminate|].
  destruct (body s) as [[s'|r']| |] eqn:Eb; cbn [bind] in E; try discriminate; rewrite (H _ _ Eb); cbn [bind]; auto.
Qed.
Lemma power2_msb_release_ok j msb r : power2_msb j msb = Ok r -> power2_msb_release j msb = Ok r /\ r < 63.
Proof.
  intros E. split.
  - unfold power2_msb_release, power2_msb in *. revert E. apply loop_refine. clear. intros m r E.
    destruct (Nat.leb_spec 64 (m + 1)) as [|L]; [discriminate|]. now rewrite shl1_release_small by lia.
  - unfold power2_msb in E. revert E. generalize 66. intros fuel. revert msb. induction fuel as [|f IH]; intros msb E; cbn [loop] in E; [discriminate|].
    destruct (Nat.leb_spec 64 (msb + 1)) as [|L]; [discriminate|].
    destruct (2 ^ (msb + 1) <? j); cbn [bind] in E; [now apply IH in E|]. injection E as <-. lia.
Qed.
Lemma power2_release_eq k : power2_sequence_release k = power2_sequence (k mod 64).
Proof.
  pose proof (Nat.mod_upper_bound k 64 ltac:(lia)) as Hm. unfold power2_sequence_release. rewrite vec_zero_release.
  destruct (Nat.eq_dec (k mod 64) 63) as [E|E].
  - rewrite E. unfold power2_sequence. reflexivity.
  - destruct (power2_ok (k mod 64) ltac:(lia)) as (w & Ew & _). rewrite Ew. unfold power2_sequence in Ew.
    destruct (shl1 (k mod 64)) as [n| |]; cbn [bind] in *; try discriminate.
    destruct (vec_zero n) as [text| |]; cbn [bind] in *; try discriminate.
    match type of Ew with bind ?e _ = _ => destruct e as [(text', msb')| |] eqn:EF; cbn [bind] in Ew; try discriminate end.
    injection Ew as <-.
    eapply (for_in_refine _ _ _ (fun _ => True)) in EF; [|clear EF|exact I].
    + destruct EF as (-> & _). reflexivity.
    + intros j (t1, m1) y Hj _ EB. split; [|exact I]. cbv beta iota zeta in EB |- *.
      destruct (power2_msb j m1) as [m2| |] eqn:EM; cbn [bind] in EB; try discriminate.
      apply power2_msb_release_ok in EM. destruct EM as (-> & Hm2). cbn [bind].
      apply in_seq in Hj. rewrite sub_ok in EB by lia. cbn [bind] in EB. now rewrite shl1_release_small by lia.
Qed.

Lemma thuemorse_release_small k : k < 63 -> thuemorse_word_release k = thuemorse_word k.
Proof.
  intros Hk. destruct (thuemorse_word_ok k Hk) as (w & Ew & _). rewrite Ew. unfold thuemorse_word in Ew. unfold thuemorse_word_release.
  rewrite vec_zero_release, Nat.mod_small by lia.
  destruct (shl1 k) as [n| |]; cbn [bind] in *; try discriminate.
  destruct (vec_zero n) as [text| |]; cbn [bind] in *; try discriminate.
  destruct (set text 0 97) as [t1| |]; cbn [bind] in *; try discriminate.
  eapply (for_in_refine _ _ _ (fun _ => True)) in Ew; [|clear Ew|exact I]; [apply Ew|].
  intros j x y Hj _ E. split; [|exact I]. cbv zeta in *. apply in_seq in Hj. now rewrite shl1_release_small by lia.
Qed.
Lemma thuemorse_release_large k : 63 <= k -> thuemorse_word_release k = Panic.
Proof.
  intros Hk. pose proof (Nat.mod_upper_bound k 64 ltac:(lia)) as Hm. set (m := k mod 64) in *.
  destruct (Nat.eq_dec m 63) as [E|E].
  { unfold thuemorse_word_release. rewrite vec_zero_release. fold m. rewrite E. reflexivity. }
  assert (HK : m < k).
  { unfold m in *. destruct (Nat.eq_dec k 63) as [->|]; [exfalso; apply E; reflexivity|]. lia. }
  destruct (thuemorse_word_ok m ltac:(lia)) as (w & Ew & Lw & _).
  rewrite <- thuemorse_release_small in Ew by lia. unfold thuemorse_word_release in *. rewrite vec_zero_release in *. fold m.
  rewrite (Nat.mod_small m 64) in Ew by lia.
  destruct (shl1 m) as [n| |]; cbn [bind] in *; try discriminate.
  destruct (vec_zero n) as [text| |]; cbn [bind] in *; try discriminate.
  destruct (set text 0 97) as [t1| |]; cbn [bind] in *; try discriminate.
  unfold range in Ew |- *. rewrite !Nat.sub_0_r in *. replace k with (m + S (k - m - 1)) by lia. rewrite seq_app, for_in_app, Ew.
  cbn [bind seq for_in]. cbv zeta. rewrite shl1_release_small by lia. change (0 + m) with m.
  pose proof (Nat.pow_nonzero 2 m ltac:(lia)). destruct (2 ^ m) as [|q] eqn:EQ; [lia|]. rewrite Nat.sub_0_r. cbn [seq for_in].
  rewrite get_ok with (d := 0) by lia. cbn [bind]. rewrite set_panic by lia. reflexivity.
Qed.

Lemma fibonacci_word_release_eq k : k < 255 -> fibonacci_word_release k = fibonacci_word k.
Proof.
  intros Hk.
  assert (HI : forall len, fibonacci_word_in_release len k = fibonacci_word_in len k).
  { intros len. unfold fibonacci_word_in_release, fibonacci_word_in, add_u8_release, add_u8.
    destruct (Nat.leb_spec 256 (k + 1)); [lia|]. rewrite Nat.mod_small by lia. reflexivity. }
  unfold fibonacci_word_release. rewrite HI. unfold fibonacci_word, add_u8.
  destruct (Nat.leb_spec 256 (k + 2)) as [L|L].
  - assert (k = 254) by lia. subst k. cbn [bind].
    change (fibonacci_word_in 2 254 = Panic).
    apply fibonacci_word_in_panic; [lia| |lia]. rewrite fib_fast. vm_compute. auto.
  - cbn [bind]. unfold add_u8_release. rewrite Nat.mod_small by lia. fold (est k). unfold add_usize, add_usize_release.
    destruct (N.leb_spec 18446744073709551616 (est k + 1)) as [G|G].
    + assert (HX : (est k <= 18446744073709551615)%N).
      { unfold est, f64_as_usize. destruct fadd as [[]|[]| |[] m e]; lia. }
      assert (EX : (est k + 1 = 18446744073709551616)%N) by lia. rewrite EX. reflexivity.
    + cbn [bind]. now rewrite N.mod_small by lia.
Qed.

(** ** tribonacci, ternary Thue-Morse, Lyndon factors, Kolakoski *)
Lemma trib_release_for n : forall lo i sum, (sum = (tr (S (S i)) mod M64)%N \/ n <> 0) ->
  for_in (seq lo n) (fun _ '(sum, cur, old, ancient) =>
      let s := add_usize_release (add_usize_release cur old) ancient in Ok (s, s, cur, old))
    (sum, (tr (S (S i)) mod M64)%N, (tr (S i) mod M64)%N, (tr i mod M64)%N) =
  Ok ((tr (S (S i) + n) mod M64)%N, (tr (S (S i) + n) mod M64)%N, (tr (S i + n) mod M64)%N, (tr (i + n) mod M64)%N).
Proof.
  induction n as [|n IH]; intros lo i sum Hs; cbn [seq for_in].
  - rewrite !Nat.add_0_r. destruct Hs as [->|Hs]; [reflexivity|lia].
  - cbn [bind].
    assert (E : add_usize_release (add_usize_release (tr (S (S i)) mod M64) (tr (S i) mod M64)) (tr i mod M64) = (tr (S (S (S i))) mod M64)%N).
    { unfold add_usize_release. change 18446744073709551616%N with M64. rewrite <- (N.add_mod (tr (S (S i)))) by discriminate.
      rewrite <- N.add_mod by discriminate. now rewrite tr_SSS. }
    cbv zeta in IH |- *. rewrite E, IH by now left. replace (S (S (S i)) + n) with (S (S i) + S n) by lia.
    replace (S (S i) + n) with (S i + S n) by lia. replace (S i + n) with (i + S n) by lia. reflexivity.
Qed.
Lemma tribonacci_number_release_ok k : tribonacci_number_release k = Ok (trib k mod M64)%N.
Proof.
  unfold tribonacci_number_release. destruct (Nat.eqb_spec k 0) as [->|Hk0]; [reflexivity|].
  unfold range. rewrite Nat.sub_0_r. pose proof (trib_release_for k 0 0 0%N (or_intror Hk0)) as E.
  change (tr 2 mod M64)%N with 1%N in E. change (tr 1 mod M64)%N with 1%N in E. change (tr 0 mod M64)%N with 0%N in E.
  cbv zeta in E |- *. rewrite E. cbn [bind]. reflexivity.
Qed.
Section General.
Context (h : nat -> str).
Lemma iterate_general_release_pos k hint : (0 < hint)%N -> iterate_general_morphism_release k h hint = iterate_general_morphism k h hint.
Proof. intros H. unfold iterate_general_morphism_release, iterate_general_morphism. destruct (N.ltb_spec 0 hint); [reflexivity|lia]. Qed.
Lemma iterate_general_release_zero k : iterate_general_morphism_release k h 0%N = iterate_general_morphism k h (shl1_release k).
Proof.
  unfold iterate_general_morphism_release, iterate_general_morphism.
  assert (H : (0 < shl1_release k)%N) by (unfold shl1_release; apply N.neq_0_lt_0, N.pow_nonzero; discriminate).
  destruct (N.ltb_spec 0 (shl1_release k)); [reflexivity|lia].
Qed.
Lemma iterate_general_release_hint k hint : exists hint', (0 < hint')%N /\ iterate_general_morphism_release k h hint = iterate_general_morphism k h hint'.
Proof.
  destruct (N.eq_dec hint 0) as [->|H].
  - exists (shl1_release k). split; [unfold shl1_release; apply N.neq_0_lt_0, N.pow_nonzero; discriminate|apply iterate_general_release_zero].
  - exists hint. split; [lia|]. apply iterate_general_release_pos. lia.
Qed.
End General.
Lemma tribonacci_word_release_safe k : tribonacci_word_release k = Ok (trib_word k) \/ tribonacci_word_release k = Panic.
Proof.
  unfold tribonacci_word_release. rewrite tribonacci_number_release_ok. cbn [bind].
  destruct (iterate_general_release_hint tribonacci_morphism k (trib k mod M64)%N) as (hint & H0 & ->).
  destruct (N.lt_ge_cases hint 9223372036854775808) as [C|C].
  - left. rewrite (iterate_general_ok tribonacci_morphism [98] eq_refl ltac:(easy) (fun c _ => trib_ne c) (fun c _ => trib_bytes c)); [f_equal; apply trib_word_iter|lia].
  - destruct (Nat.eq_dec k 0) as [->|Hk]; [left; reflexivity|]. right. apply iterate_general_panic; [exact Hk|exact C].
Qed.
Lemma tribonacci_word_release_agrees k w : tribonacci_word k = Ok w -> tribonacci_word_release k = Ok w.
Proof.
  intros E. destruct (N.lt_ge_cases (trib k) 9223372036854775808) as [C|C]; [|rewrite tribonacci_word_panic in E by exact C; discriminate].
  unfold tribonacci_word in E. rewrite tribonacci_number_ok in E by lia. cbn [bind] in E.
  unfold tribonacci_word_release. rewrite tribonacci_number_release_ok. cbn [bind]. rewrite N.mod_small by (unfold M64; lia).
  pose proof (trib_pos k). rewrite iterate_general_release_pos by lia. exact E.
Qed.

Lemma sizehint3_release_cases k : (k mod 32 <= 29 /\ (0 < sizehint3_release k < 9223372036854775808)%N) \/
  (30 <= k mod 32 /\ (9223372036854775808 <= sizehint3_release k)%N).
Proof.
  pose proof (Nat.mod_upper_bound k 32 ltac:(lia)) as Hm. unfold sizehint3_release. set (m := k mod 32) in *. clearbody m.
  assert (G : forallb (fun m => let n := (let v := ((3 * 2 ^ Z.of_nat m) mod 4294967296)%Z in
       let v := ((v + 1) mod 4294967296)%Z in
       let v := (if 2147483648 <=? v then v - 4294967296 else v)%Z in
       Z.to_N (v mod 18446744073709551616)) in
     if m <=? 29 then (0 <? n)%N && (n <? 9223372036854775808)%N else (9223372036854775808 <=? n)%N) (seq 0 32) = true) by (vm_compute; reflexivity).
  rewrite forallb_forall in G. specialize (G m). rewrite in_seq in G. specialize (G ltac:(lia)). cbv zeta in G |- *.
  destruct (Nat.leb_spec m 29) as [L|L].
  - left. apply andb_prop in G. destruct G as (G1 & G2). apply N.ltb_lt in G1, G2. split; [lia|auto].
  - right. apply N.leb_le in G. split; [lia|exact G].
Qed.
Lemma vtm_word_release_ok k : vtm_word_release k = if k mod 32 <=? 29 then Ok (iter_morphism vtm_morphism k [97]) else Panic.
Proof.
  unfold vtm_word_release. destruct (sizehint3_release_cases k) as [(L & H)|(L & H)].
  - destruct (Nat.leb_spec (k mod 32) 29) as [L'|L']; [|lia]. rewrite iterate_general_release_pos by lia.
    apply (iterate_general_ok vtm_morphism [98; 99] eq_refl ltac:(easy) (fun c _ => vtm_ne c) (fun c _ => vtm_bytes c)). lia.
  - destruct (Nat.leb_spec (k mod 32) 29) as [L'|L']; [lia|]. rewrite iterate_general_release_pos by lia.
    apply iterate_general_panic; [|exact H]. intros ->. cbn in L. lia.
Qed.
Lemma fibonacci_lyndonfactor_release_ok k : fibonacci_lyndonfactor_release k = if k mod 32 <=? 29 then Ok (lw k) else Panic.
Proof.
  unfold fibonacci_lyndonfactor_release.
  assert (E : forall hint, (0 < hint)%N -> iterate_general_morphism_with_startsymbol_release k fibonacci_lyndonfactor_morphism hint [97; 98] =
     iterate_general_morphism_with_startsymbol k fibonacci_lyndonfactor_morphism hint [97; 98]).
  { intros hint H. unfold iterate_general_morphism_with_startsymbol_release, iterate_general_morphism_with_startsymbol.
    destruct (N.ltb_spec 0 hint); [reflexivity|lia]. }
  destruct (sizehint3_release_cases k) as [(L & H)|(L & H)]; rewrite E by lia.
  - destruct (Nat.leb_spec (k mod 32) 29) as [L'|L']; [|lia]. apply iterate_start_ok. lia.
  - destruct (Nat.leb_spec (k mod 32) 29) as [L'|L']; [lia|]. apply iterate_start_panic. exact H.
Qed.

Lemma kolakoski_len_small k : k < 61 -> (f64_as_usize (fadd (powi f_two (k + 2)) f_one) + 1 < 18446744073709551616)%N.
Proof.
  intros C.
  assert (G : forallb (fun k => (f64_as_usize (fadd (powi f_two (k + 2)) f_one) + 1 <? 18446744073709551616)%N) (seq 0 61) = true)
      by (vm_compute; reflexivity).
  rewrite forallb_forall in G. specialize (G k). rewrite in_seq in G. specialize (G ltac:(lia)). now apply N.ltb_lt in G.
Qed.
Lemma kolakoski_len_large k : 61 <= k < 254 -> (9223372036854775808 <= kolakoski_length_release k)%N \/ kolakoski_length_release k = 0%N.
Proof.
  intros C.
  assert (G : forallb (fun k => (9223372036854775808 <=? kolakoski_length_release k)%N || (kolakoski_length_release k =? 0)%N) (seq 61 193) = true)
        by (vm_compute; reflexivity).
  rewrite forallb_forall in G. specialize (G k). rewrite in_seq in G. specialize (G ltac:(lia)). apply orb_prop in G.
  destruct G as [G|G]; [left; now apply N.leb_le|right; now apply N.eqb_eq].
Qed.
Lemma kolakoski_254 : kolakoski_word_release 254 = Panic.
Proof. vm_compute. reflexivity. Qed.
Lemma kolakoski_255 : kolakoski_word_release 255 = Panic.
Proof. vm_compute. reflexivity. Qed.
Lemma kolakoski_release_len k : k < 61 -> kolakoski_length k = Ok (kolakoski_length_release k).
Proof.
  intros C. pose proof (kolakoski_len_small k C) as G. unfold kolakoski_length, kolakoski_length_release, add_u8, add_u8_release.
  destruct (Nat.leb_spec 256 (k + 2)); [lia|]. rewrite Nat.mod_small by lia. cbn [bind].
  generalize dependent (f64_as_usize (fadd (powi f_two (k + 2)) f_one)). intros n G. unfold add_usize, add_usize_release.
  rewrite N.mod_small by exact G. destruct (N.leb_spec 18446744073709551616 (n + 1)); [lia|]. reflexivity.
Qed.
Lemma kolakoski_release_small k : k < 61 -> kolakoski_word_release k = kolakoski_word k.
Proof.
  intros C. assert (G : forall n, kolakoski_length k = Ok n -> n = kolakoski_length_release k -> kolakoski_word_release k = kolakoski_word k).
  { intros n H1 H2. unfold kolakoski_word. rewrite H1. unfold kolakoski_word_release. rewrite <- H2. clear H1 H2. reflexivity. }
  exact (G _ (kolakoski_release_len k C) eq_refl).
Qed.
Lemma kolakoski_release_mid n k : (9223372036854775808 <= n)%N \/ n = 0%N -> n = kolakoski_length_release k -> kolakoski_word_release k = Panic.
Proof.
  intros L E. unfold kolakoski_word_release. rewrite <- E. clear E. destruct L as [L|L].
  - now rewrite vec_zero_panic.
  - rewrite L. reflexivity.
Qed.
Lemma kolakoski_word_release_eq k : k < 256 -> kolakoski_word_release k = kolakoski_word k.
Proof.
  intros Hk. destruct (Nat.lt_ge_cases k 61) as [C|C].
  - exact (kolakoski_release_small k C).
  - rewrite (kolakoski_word_panic k C). destruct (Nat.lt_ge_cases k 254) as [D|D].
    + exact (kolakoski_release_mid _ k (kolakoski_len_large k (conj C D)) eq_refl).
    + assert (E : k = 254 \/ k = 255) by lia.
      destruct E as [E|E]; [exact (eq_ind_r (fun k => kolakoski_word_release k = Panic) kolakoski_254 E)|exact (eq_ind_r (fun k => kolakoski_word_release k = Panic) kolakoski_255 E)].
Qed.
