(** AttrZero.v : bin/is_stringattractor.rs on texts that contain the zero byte. *)
From Verif Require Import Base SpecStr LexFacts ModelCore PermFacts SortFacts LcpProof ModelLz SpecLz LzProof MusProof ModelIo
  ModelMain MainProof2 SpecMain ModelAttr SpecAttr AttrProof AttrProof2 AttrProof3.

Lemma rank_of_0 s sa : is_suffix_array (s ++ [0]) sa -> nth 0 sa 0 = length s.
Proof.
  intros H. set (t := s ++ [0]) in *.
  assert (Lt : length t = S (length s)) by (unfold t; rewrite app_length; simpl; lia).
  pose proof (proj1 H) as HP.
  destruct (is_perm_surj _ _ (length s) HP ltac:(lia)) as (k & Hk & Ek).
  destruct (Nat.eq_dec k 0) as [->|Hk0]; auto. exfalso.
  pose proof (sa_lt t sa 0 k H ltac:(lia)) as L. rewrite Ek in L.
  assert (E : skipn (length s) t = [0]) by (unfold t; now rewrite skipn_app, skipn_all, Nat.sub_diag).
  rewrite E in L. pose proof (is_perm_nth _ _ 0 HP ltac:(lia)) as B.
  assert (Hne : length (skipn (nth 0 sa 0) t) <> 0) by (rewrite skipn_length; lia).
  destruct (skipn (nth 0 sa 0) t) as [|x r]; [now apply Hne|].
  inversion L; subst; [lia|]. match goal with H : lex_lt _ [] |- _ => inversion H end.
Qed.

Lemma zero_panics sort s A : (forall t, is_suffix_array t (sort t)) -> In 0 s -> Forall (fun a => a <= length s) A ->
  is_attractor_io sort (s ++ [0]) A = Panic.
Proof.
  intros Hsort H0 HA. unfold is_attractor_io. set (t := s ++ [0]).
  assert (En : length t = S (length s)) by (unfold t; rewrite app_length; simpl; lia).
  assert (Htne : t <> []) by (intros E0; rewrite E0 in En; discriminate).
  assert (Ls : 0 < length s) by (destruct s; [easy|simpl; lia]).
  destruct (Nat.ltb_spec 0 (length t)); [|lia]. cbn [assert_ bind].
  unfold last_. unfold t at 1. rewrite rev_app_distr. cbn [rev app bind Nat.eqb assert_].
  assert (Hass : for_in A (fun a (_ : unit) => assert_ (a <? length t)) tt = Ok tt).
  { clear -HA En. induction HA as [|a A Ha HA IH]; cbn [for_in]; auto.
    destruct (Nat.ltb_spec a (length t)); [|lia]. exact IH. }
  rewrite Hass. cbn [bind]. specialize (Hsort t). set (sa := sort t) in *. clearbody sa.
  destruct (lcp_structures' t sa Htne Hsort) as (isa & phi & plcp & lcp & E1 & E2 & E3 & E4 & HPi & HPp & Lp & Ll & Hi1 & Hi2 & Hp1 & Hp0 & Hplcp & Hl & Hl0).
  rewrite E2. cbn [bind]. rewrite E3. cbn [bind]. rewrite E4. cbn [bind].
  pose proof (proj1 Hsort) as HP. pose proof (is_perm_length _ _ HP) as Lsa.
  pose proof (rank_of_0 s sa Hsort) as R0.
  (* lcp[1] >= 1 *)
  assert (L1 : 1 <= nth 1 lcp 0).
  { destruct (In_nth _ _ 0 H0) as (z & Hz & Ez).
    assert (Tz : nth z t 0 = 0) by (unfold t; now rewrite app_nth1).
    assert (Tn : nth (length s) t 0 = 0) by (unfold t; rewrite app_nth2, Nat.sub_diag by lia; reflexivity).
    destruct (is_perm_surj _ _ z HP ltac:(lia)) as (k & Hk & Ek).
    assert (Hk0 : k <> 0) by (intros ->; lia).
    assert (AG : agree t (nth 0 sa 0) (nth k sa 0) 1).
    { rewrite R0, Ek. split; [lia|]. split; [lia|]. intros x Hx. replace x with 0 by lia. rewrite !Nat.add_0_r. congruence. }
    pose proof (is_perm_nth _ _ 1 HP ltac:(lia)) as B1.
    destruct (agree_sandwich t (nth 0 sa 0) (nth 1 sa 0) (nth k sa 0) 1) as (G & _); try lia; auto.
    - right. apply sa_lt; auto. lia.
    - destruct (Nat.eq_dec k 1) as [->|]; [now left|]. right. apply sa_lt; auto. lia.
    - exact (lcpv_max _ _ _ _ _ (Hl 1 ltac:(lia)) G). }
  unfold lcp_intervals. rewrite En.
  rewrite sub_ok by lia. cbn [bind].
  rewrite (get_ok sa 0 0) by lia. rewrite R0. cbn [bind].
  rewrite sub_ok by lia. cbn [bind]. rewrite sub_ok by lia. cbn [bind].
  replace (S (length s) - length s - 1) with 0 by lia.
  assert (ER : range 1 (S (length s)) = 1 :: range 2 (S (length s))).
  { unfold range. destruct (length s) as [|m]; [lia|]. cbn [Nat.sub]. now rewrite Nat.sub_0_r. }
  rewrite ER. cbn [for_in]. unfold interval_step at 1. unfold pop_loop.
  cbn [length loop]. rewrite (get_ok lcp 1 0) by lia. cbn [bind get nth_error nd_depth].
  destruct (Nat.ltb_spec (nth 1 lcp 0) 0); [lia|]. cbn [bind get nth_error nd_depth].
  destruct (Nat.ltb_spec 0 (nth 1 lcp 0)); [|lia]. reflexivity.
Qed.
