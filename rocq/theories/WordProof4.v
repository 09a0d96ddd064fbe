(** WordProof4.v : powers of two, ternary Thue-Morse, Lyndon factors of the Fibonacci word, Kolakoski. *)
From Verif Require Import Base SpecStr LexFacts SpecWord SpecIo ModelWord WordProof WordProof2 WordProof3.
From Coq Require Import NArith ZArith.

(** ** power2_sequence *)
Lemma land_mod j m : Nat.land j (2 ^ m - 1) = j mod 2 ^ m.
Proof. rewrite <- Nat.land_ones. f_equal. rewrite Nat.ones_equiv. lia. Qed.
(** the value of most_significant_bit when letter j is decided *)
Definition msb_ok (j m : nat) : Prop := j <= 2 ^ (m + 1) /\ (m = 0 \/ 2 ^ m < j).
Lemma power2_msb_ok j m : (m = 0 \/ 2 ^ m < j) -> (forall x, 2 ^ x < j -> x < 62) -> 1 <= j ->
  exists m', power2_msb j m = Ok m' /\ msb_ok j m'.
Proof.
  intros Hm B H1. unfold power2_msb.
  match goal with |- exists m', ?e = Ok m' /\ _ => cut (okp e (msb_ok j)) end.
  { intros (x & -> & H). exists x. auto. }
  clear - B Hm H1.
  apply (okp_loop (fun m => m = 0 \/ 2 ^ m < j) (fun m => 65 - m)); [|exact Hm|lia].
  clear m Hm. intros m Hm. assert (m < 62) by (destruct Hm as [->|Hm]; [lia|exact (B m Hm)]).
  destruct (Nat.leb_spec 64 (m + 1)); [lia|].
  destruct (Nat.ltb_spec (2 ^ (m + 1)) j); apply okp_ok; [|split; auto].
  split; [now right|lia].
Qed.
Lemma msb_letter j m : 1 <= j -> msb_ok j m ->
  (Nat.land j (2 ^ m - 1) = 0 <-> exists e, j = 2 ^ e).
Proof.
  intros H1 (Hu & Hl). rewrite land_mod. pose proof (pow2_pos m) as Hp.
  rewrite Nat.add_1_r in Hu. simpl in Hu.
  split.
  - intros Hm. apply Nat.mod_divide in Hm; [|lia]. destruct Hm as (q & Eq).
    assert (q = 1 \/ q = 2).
    { destruct q as [|[|[|q]]]; [lia|auto|auto|]. exfalso. nia. }
    destruct H as [-> | ->]; [exists m|exists (S m); simpl]; lia.
  - intros (e & ->). destruct Hl as [->|Hl]; [apply Nat.mod_1_r|].
    assert (m < e) by (apply (Nat.pow_lt_mono_r_iff 2); lia).
    apply Nat.mod_divide; [lia|]. exists (2 ^ (e - m)). rewrite <- Nat.pow_add_r. f_equal. lia.
Qed.
Theorem power2_ok k : k < 63 -> exists w, power2_sequence k = Ok w /\ length w = 2 ^ k /\
  nth (2 ^ k - 1) w 1 = 0 /\
  (forall j, 1 <= j < 2 ^ k -> nth (j - 1) w 0 = 97 \/ nth (j - 1) w 0 = 98) /\
  (forall j, 1 <= j < 2 ^ k -> (nth (j - 1) w 0 = 98 <-> exists e, j = 2 ^ e)).
Proof.
  intros Hk. unfold power2_sequence. rewrite vec_pow_bind. destruct (Nat.ltb_spec k 63); [|lia].
  rewrite repeat_length. pose proof (pow2_pos k) as Hp.
  assert (B : forall j x, j < 2 ^ k -> 2 ^ x < j -> x < 62).
  { intros j x Hj Hx. assert (x < k) by (apply (Nat.pow_lt_mono_r_iff 2); lia). lia. }
  match goal with |- exists w, (bind ?e _) = Ok w /\ _ => cut (okp e (fun '(w, msb) => length w = 2 ^ k /\
      nth (2 ^ k - 1) w 1 = 0 /\
      (forall j, 1 <= j < 2 ^ k -> nth (j - 1) w 0 = 97 \/ nth (j - 1) w 0 = 98) /\
      (forall j, 1 <= j < 2 ^ k -> (nth (j - 1) w 0 = 98 <-> exists ex, j = 2 ^ ex)))) end.
  { intros ((w & msb) & -> & H1). exists w. auto. }
  eapply okp_imp.
  - apply (okp_for_range (fun x '(w, msb) => length w = 2 ^ k /\ (msb = 0 \/ 2 ^ msb < x) /\ nth (2 ^ k - 1) w 1 = 0 /\
      (forall j, 1 <= j < x -> nth (j - 1) w 0 = 97 \/ nth (j - 1) w 0 = 98) /\
      (forall j, 1 <= j < x -> (nth (j - 1) w 0 = 98 <-> exists e, j = 2 ^ e)))); [lia| |].
    + split; [apply repeat_length|]. split; [now left|]. split; [|split; intros; lia].
      rewrite (nth_indep _ 1 0) by (rewrite repeat_length; lia). apply nth_repeat.
    + intros j (w & msb) Hj (L & Hm & H0 & HA & HB).
      destruct (power2_msb_ok j msb) as (m' & -> & Hm'); [destruct Hm; [now left|right; lia]|intros x Hx; apply (B j x); lia|lia|].
      cbn [bind]. rewrite sub_ok by lia. cbn [bind].
      pose proof (msb_letter j m' ltac:(lia) Hm') as HL.
      rewrite set_ok by lia. cbn [bind]. apply okp_ok. split; [now rewrite upd_length|].
      split; [destruct Hm' as (_ & [|]); [now left|right; lia]|].
      split; [rewrite nth_upd_ne by lia; exact H0|].
      split; intros y Hy.
      * destruct (Nat.eq_dec y j) as [->|Ne].
        -- rewrite nth_upd_eq by lia. destruct (0 <? Nat.land j (2 ^ m' - 1)); auto.
        -- rewrite nth_upd_ne by lia. apply HA. lia.
      * destruct (Nat.eq_dec y j) as [->|Ne].
        -- rewrite nth_upd_eq by lia. rewrite <- HL. destruct (Nat.ltb_spec 0 (Nat.land j (2 ^ m' - 1))); split; intros; lia.
        -- rewrite nth_upd_ne by lia. apply HB. lia.
  - cbv beta. intros (w & msb) (L & _ & H0 & HA & HB). auto.
Qed.
Theorem power2_panic k : 63 <= k -> power2_sequence k = Panic.
Proof.
  intros H. unfold power2_sequence. rewrite vec_pow_bind. destruct (Nat.ltb_spec k 63); [lia|]. reflexivity.
Qed.

(** ** sizes *)
Lemma sizehint3_ok k : k <= 29 -> exists n, sizehint3 k = Ok n /\ (0 < n < 9223372036854775808)%N.
Proof.
  intros Hk.
  assert (G : forallb (fun k => match sizehint3 k with Ok n => (0 <? n)%N && (n <? 9223372036854775808)%N | _ => false end)
     (seq 0 30) = true) by (vm_compute; reflexivity).
  rewrite forallb_forall in G. specialize (G k). rewrite in_seq in G. specialize (G ltac:(lia)).
  destruct (sizehint3 k) as [n| |]; try discriminate. exists n. split; [reflexivity|].
  apply andb_prop in G. destruct G as (G1 & G2). apply N.ltb_lt in G1, G2. lia.
Qed.
Lemma sizehint3_big k : 30 <= k -> sizehint3 k = Panic \/ exists n, sizehint3 k = Ok n /\ (9223372036854775808 <= n)%N.
Proof.
  intros Hk. destruct (Nat.le_gt_cases 32 k) as [C|C].
  - left. unfold sizehint3. destruct (Nat.leb_spec 32 k); [reflexivity|lia].
  - right. assert (k = 30 \/ k = 31) as [-> | ->] by lia; eexists; (split; [vm_compute; reflexivity|vm_compute; discriminate]).
Qed.

(** ** ternary Thue-Morse *)
Definition vtm_g (c : nat) : str := if c =? 97 then [97; 98; 98] else if c =? 98 then [97; 98] else [97].
Lemma vtm_g_morph c : flat_map vtm_g (vtm_morphism c) = flat_map thuemorse_morphism (vtm_g c).
Proof. unfold vtm_morphism, vtm_g at 2. destruct (c =? 97); [reflexivity|]. destruct (c =? 98); reflexivity. Qed.
Lemma vtm_g_flat w : flat_map vtm_g (flat_map vtm_morphism w) = flat_map thuemorse_morphism (flat_map vtm_g w).
Proof.
  induction w as [|c w IH]; [reflexivity|]. cbn [flat_map]. rewrite !flat_map_app, IH, vtm_g_morph. reflexivity.
Qed.
Lemma vtm_g_iter k : flat_map vtm_g (iter_morphism vtm_morphism k [97]) = iter_morphism thuemorse_morphism k [97; 98; 98].
Proof. induction k as [|k IH]; [reflexivity|]. rewrite !iter_S, vtm_g_flat, IH. reflexivity. Qed.
Lemma vtm_g_tm k i : i < length (flat_map vtm_g (iter_morphism vtm_morphism k [97])) ->
  nth i (flat_map vtm_g (iter_morphism vtm_morphism k [97])) 0 = tm i.
Proof.
  rewrite vtm_g_iter. intros Hi.
  assert (E : iter_morphism thuemorse_morphism (S (S k)) [97] =
     iter_morphism thuemorse_morphism k [97; 98; 98] ++ iter_morphism thuemorse_morphism k [97]).
  { rewrite !iter_S'. rewrite <- iter_app. reflexivity. }
  rewrite <- (tm_iter (S (S k)) i).
  - rewrite E, app_nth1 by exact Hi. reflexivity.
  - rewrite <- (u2_iter_length thuemorse_morphism (S (S k)) 97 tmh_u2), E, app_length. lia.
Qed.
Lemma vtm_g_head c : exists r, vtm_g c = 97 :: r.
Proof. unfold vtm_g. destruct (c =? 97); [eexists; reflexivity|]. destruct (c =? 98); eexists; reflexivity. Qed.
Lemma vtm_ne c : vtm_morphism c <> [].
Proof. unfold vtm_morphism. destruct (c =? 97); [easy|]. destruct (c =? 98); easy. Qed.
Lemma vtm_bytes c : Forall (fun x => x < 256) (vtm_morphism c).
Proof. unfold vtm_morphism. destruct (c =? 97); [|destruct (c =? 98)]; repeat constructor; lia. Qed.

Theorem vtm_square_free k : square_free (iter_morphism vtm_morphism k [97]).
Proof.
  intros u x v E. destruct x as [|c x]; [reflexivity|exfalso].
  (* W_{k+1} = u x x v d ... *)
  pose proof (W_S vtm_morphism [98; 99] eq_refl k) as ES. cbv beta zeta in ES.
  pose proof (iter_ne vtm_morphism (fun c _ => vtm_ne c) (fun c _ => vtm_bytes c) k [98; 99] ltac:(repeat constructor; lia) ltac:(easy)) as Hne.
  destruct (iter_morphism vtm_morphism k [98; 99]) as [|d rest] eqn:Ed; [easy|].
  rewrite E in ES.
  assert (Hv : exists d' r', v ++ d :: rest = d' :: r') by (destruct v; simpl; eauto).
  destruct Hv as (d' & r' & Hv).
  assert (E2 : iter_morphism vtm_morphism (S k) [97] = u ++ (c :: x) ++ (c :: x) ++ d' :: r').
  { rewrite ES, <- Hv. now rewrite <- !app_assoc. }
  set (g := flat_map vtm_g) in *.
  assert (E3 : g (iter_morphism vtm_morphism (S k) [97]) = g u ++ g (c :: x) ++ g (c :: x) ++ g (d' :: r')).
  { rewrite E2. unfold g. now rewrite !flat_map_app. }
  destruct (vtm_g_head c) as (r1 & Er1). destruct (vtm_g_head d') as (r2 & Er2).
  set (X := g (c :: x)) in *. assert (HX : exists X', X = 97 :: X') by (unfold X, g; simpl; rewrite Er1; simpl; eauto).
  destruct HX as (X' & HX).
  assert (HY : exists Y', g (d' :: r') = 97 :: Y') by (unfold g; simpl; rewrite Er2; simpl; eauto).
  destruct HY as (Y' & HY).
  apply (tm_overlap_free (length X) (length (g u))); [rewrite HX; simpl; lia|].
  intros j Hj. pose proof (vtm_g_tm (S k)) as T. fold g in T. rewrite E3 in T. rewrite HY in T.
  assert (L : length (g u ++ X ++ X ++ 97 :: Y') = length (g u) + length X + length X + 1 + length Y').
  { rewrite !app_length. simpl. lia. }
  rewrite <- (T j), <- (T (j + length X)) by (rewrite L; lia).
  rewrite (app_nth2 (g u)) by lia. rewrite (app_nth2 (g u)) by lia.
  replace (j + length X - length (g u)) with (length X + (j - length (g u))) by lia.
  set (i := j - length (g u)) in *. assert (Hi : i <= length X) by lia.
  rewrite (app_nth2 X) with (n := length X + i) by lia. replace (length X + i - length X) with i by lia.
  destruct (Nat.eq_dec i (length X)) as [Ei|Ni].
  - rewrite Ei, nth_middle. 
    assert (EX : X ++ 97 :: Y' = 97 :: (X' ++ 97 :: Y')) by (rewrite HX at 1; reflexivity).
    rewrite EX, nth_middle. reflexivity.
  - rewrite !(app_nth1 X) by lia. reflexivity.
Qed.
Theorem vtm_word_ok k : k <= 29 -> vtm_word k = Ok (iter_morphism vtm_morphism k [97]).
Proof.
  intros Hk. unfold vtm_word. destruct (sizehint3_ok k Hk) as (n & -> & Hn). cbn [bind].
  apply (iterate_general_ok vtm_morphism [98; 99] eq_refl ltac:(easy) (fun c _ => vtm_ne c) (fun c _ => vtm_bytes c)). exact Hn.
Qed.
Theorem vtm_word_panic k : 30 <= k -> vtm_word k = Panic.
Proof.
  intros Hk. unfold vtm_word. destruct (sizehint3_big k Hk) as [->|(n & -> & Hn)]; [reflexivity|]. cbn [bind].
  apply iterate_general_panic; [lia|exact Hn].
Qed.

(** ** Lyndon factors of the Fibonacci word *)
Notation lfm := fibonacci_lyndonfactor_morphism.
Definition ab (c : nat) : Prop := c = 97 \/ c = 98.
Lemma lfm_ab c : Forall ab (lfm c).
Proof. unfold lfm. destruct (c =? 97); repeat (apply Forall_cons; [unfold ab; tauto|]); apply Forall_nil. Qed.
Lemma lfm_flat_ab w : Forall ab (flat_map lfm w).
Proof. induction w as [|c w IH]; [constructor|]. cbn [flat_map]. apply Forall_app. split; [apply lfm_ab|exact IH]. Qed.
Lemma lex_lt_app_l p u v : lex_lt u v -> lex_lt (p ++ u) (p ++ v).
Proof. intros H. induction p as [|c p IH]; [exact H|]. simpl. now constructor. Qed.
Lemma lfm_mono u v : lex_lt u v -> Forall ab u -> Forall ab v -> lex_lt (flat_map lfm u) (flat_map lfm v).
Proof.
  induction 1 as [y ys|x y xs ys Hxy|x xs ys H IH]; intros Hu Hv.
  - cbn [flat_map]. unfold lfm at 1. destruct (y =? 97); simpl; constructor.
  - inversion Hu as [|? ? Hx _]; subst. inversion Hv as [|? ? Hy _]; subst.
    destruct Hx as [->| ->], Hy as [->| ->]; try lia. simpl. apply lex_tail. apply lex_head. lia.
  - inversion Hu; subst. inversion Hv; subst. cbn [flat_map]. apply lex_lt_app_l. auto.
Qed.
Lemma flat_map_split (h : nat -> str) (w : str) : forall u v : str, flat_map h w = u ++ v ->
  (exists w1 w2, w = w1 ++ w2 /\ u = flat_map h w1 /\ v = flat_map h w2) \/
  (exists w1 c w2 p s, w = w1 ++ c :: w2 /\ h c = p ++ s /\ p <> [] /\ s <> [] /\
     u = flat_map h w1 ++ p /\ v = s ++ flat_map h w2).
Proof.
  induction w as [|c w IH]; intros u v E.
  - symmetry in E. apply app_eq_nil in E. destruct E as (-> & ->). left. exists [], []. auto.
  - cbn [flat_map] in E. apply app_eq_app in E. destruct E as (l & [(E1 & E2)|(E1 & E2)]).
    + (* h c = u ++ l, v = l ++ .. *)
      destruct u as [|x u].
      * left. exists [], (c :: w). simpl in *. subst. auto.
      * destruct l as [|y l].
        -- left. exists [c], w. simpl in *. rewrite app_nil_r in *. rewrite E1. auto.
        -- right. exists [], c, w, (x :: u), (y :: l). simpl. repeat split; auto; easy.
    + (* u = h c ++ l *)
      destruct (IH l v E2) as [(w1 & w2 & -> & -> & ->)|(w1 & d & w2 & p & s & -> & Hd & Hp & Hs & -> & ->)].
      * left. exists (c :: w1), w2. simpl. rewrite E1. auto.
      * right. exists (c :: w1), d, w2, p, s. simpl. rewrite E1, <- app_assoc. repeat split; auto.
Qed.
Lemma lfm_lyndon w : Forall ab w -> (exists r, w = 97 :: r) -> lyndon w -> lyndon (flat_map lfm w).
Proof.
  intros Hab (r & Er) (Hne & HL). split; [rewrite Er; easy|]. intros u v E Hu Hv.
  destruct (flat_map_split lfm w u v E) as [(w1 & w2 & Ew & -> & ->)|(w1 & c & w2 & p & s & Ew & Hc & Hp & Hs & -> & ->)].
  - apply lfm_mono; [|exact Hab|].
    + apply (HL w1 w2 Ew).
      * intros ->. apply Hu. reflexivity.
      * intros ->. apply Hv. reflexivity.
    + rewrite Ew in Hab. apply Forall_app in Hab. tauto.
  - rewrite Er. cbn [flat_map]. unfold lfm at 1. simpl.
    unfold lfm in Hc. destruct (c =? 97).
    + destruct p as [|p1 [|p2 [|p3 p]]]; [easy| | |]; simpl in Hc.
      * injection Hc as <- Hs1. subst s. simpl. apply lex_tail. apply lex_head. lia.
      * injection Hc as <- <- Hs1. subst s. simpl. apply lex_head. lia.
      * injection Hc as <- <- <- Hs1. symmetry in Hs1. apply app_eq_nil in Hs1. destruct Hs1. easy.
    + destruct p as [|p1 [|p2 p]]; [easy| |]; simpl in Hc.
      * injection Hc as <- Hs1. subst s. simpl. apply lex_head. lia.
      * injection Hc as <- <- Hs1. symmetry in Hs1. apply app_eq_nil in Hs1. destruct Hs1. easy.
Qed.
Definition lw (k : nat) : str := iter_morphism lfm k [97; 98].
Lemma lw_S k : lw (S k) = flat_map lfm (lw k). Proof. reflexivity. Qed.
Lemma lw_ab k : Forall ab (lw k).
Proof.
  destruct k as [|k]; [|apply lfm_flat_ab]. repeat (apply Forall_cons; [unfold ab; tauto|]); apply Forall_nil.
Qed.
Lemma lw_head k : exists r, lw k = 97 :: r.
Proof.
  destruct k as [|k]; [eexists; reflexivity|]. induction k as [|k IH]; [eexists; reflexivity|].
  destruct IH as (r & E). rewrite lw_S, E. eexists. reflexivity.
Qed.
Lemma lw_lyndon k : lyndon (lw k).
Proof.
  induction k as [|k IH].
  - split; [easy|]. intros u v E Hu Hv. destruct u as [|x [|y [|z u]]]; [easy| | |]; simpl in E.
    + injection E as <- <-. apply lex_head. lia.
    + injection E as <- <- <-. easy.
    + injection E as _ _ E. discriminate E.
  - rewrite lw_S. apply lfm_lyndon; [apply lw_ab|apply lw_head|exact IH].
Qed.
Lemma lw_decr k : lex_lt (lw (S k)) (lw k).
Proof.
  induction k as [|k IH].
  - cbn. apply lex_tail. apply lex_head. lia.
  - rewrite (lw_S (S k)), (lw_S k). apply lfm_mono; [exact IH|apply lfm_flat_ab|apply lw_ab].
Qed.
Lemma lw_decr_lt j k : j < k -> lex_lt (lw k) (lw j).
Proof.
  induction 1 as [|k H IH]; [apply lw_decr|]. eapply lex_lt_trans; [apply lw_decr|exact IH].
Qed.
Definition f2 (c : nat) : str := if c =? 97 then [97; 98; 97] else [97; 98].
Lemma lfm_f2 w : [97; 98] ++ flat_map lfm w = flat_map f2 w ++ [97; 98].
Proof.
  induction w as [|c w IH]; [reflexivity|]. cbn [flat_map]. rewrite <- app_assoc, <- IH. unfold lfm at 1, f2 at 1.
  destruct (c =? 97); reflexivity.
Qed.
Lemma f2_fib k : flat_map f2 (fib_word k) = fib_word (S (S k)).
Proof.
  rewrite <- fphi_fib, <- fphi_fib. generalize (fib_word k) as z. induction z as [|c w IH]; [reflexivity|].
  cbn [flat_map]. rewrite flat_map_app, <- IH. f_equal. unfold f2, fphi at 2. destruct (c =? 97); reflexivity.
Qed.
Definition lcat (k : nat) : str := concat (map lw (seq 0 k)).
Lemma lcat_S k : lcat (S k) = [97; 98] ++ flat_map lfm (lcat k).
Proof.
  unfold lcat. simpl seq. cbn [map concat]. f_equal. rewrite <- seq_shift, map_map.
  induction (seq 0 k) as [|x l IH]; [reflexivity|]. cbn [map concat]. rewrite flat_map_app, IH. reflexivity.
Qed.
Lemma fib_word_prefix_le j k : j <= k -> prefix (fib_word j) (fib_word k).
Proof. induction 1 as [|k _ IH]; [apply prefix_refl|]. eapply prefix_trans; [exact IH|apply fib_word_prefix]. Qed.
Lemma lcat_prefix k : exists K c, prefix (lcat k ++ [c]) (fib_word K).
Proof.
  induction k as [|k (K & c & IH)].
  - exists 0, 97. apply prefix_refl.
  - (* f2 (lcat k ++ [c]) starts with f2 (lcat k) ab = lcat (S k) *)
    destruct IH as (r & Er). 
    assert (E : fib_word (S (S K)) = flat_map f2 (lcat k) ++ f2 c ++ flat_map f2 r).
    { rewrite <- f2_fib, Er, !flat_map_app. simpl. rewrite app_nil_r, <- app_assoc. reflexivity. }
    rewrite lcat_S, lfm_f2.
    assert (P : prefix (flat_map f2 (lcat k) ++ [97; 98]) (fib_word (S (S K)))).
    { rewrite E. assert (Ec : f2 c = if c =? 97 then [97; 98; 97] else [97; 98]) by reflexivity. rewrite Ec. destruct (c =? 97).
      - exists ([97] ++ flat_map f2 r). rewrite <- !app_assoc. reflexivity.
      - exists (flat_map f2 r). rewrite <- !app_assoc. reflexivity. }
    (* one more letter from the next word *)
    exists (S (S (S K))). rewrite fib_word_SS. destruct P as (r' & P).
    pose proof (fib_word_ne (S K)). destruct (fib_word (S K)) as [|y ys]; [simpl in *; lia|].
    destruct r' as [|z zs].
    + exists y. exists ys. rewrite P, app_nil_r. rewrite <- !app_assoc. reflexivity.
    + exists z. exists (zs ++ y :: ys). rewrite P. rewrite <- !app_assoc. reflexivity.
Qed.
Theorem fibonacci_lyndonfactor_ok k : k <= 29 -> fibonacci_lyndonfactor k = Ok (lw k).
Proof.
  intros Hk. unfold fibonacci_lyndonfactor. destruct (sizehint3_ok k Hk) as (n & -> & Hn). cbn [bind].
  apply iterate_start_ok. exact Hn.
Qed.
Theorem fibonacci_lyndonfactor_panic k : 30 <= k -> fibonacci_lyndonfactor k = Panic.
Proof.
  intros Hk. unfold fibonacci_lyndonfactor. destruct (sizehint3_big k Hk) as [->|(n & -> & Hn)]; [reflexivity|]. cbn [bind].
  apply iterate_start_panic. exact Hn.
Qed.

(** ** Kolakoski *)
Definition flip (x : nat) : nat := if x =? 97 then 98 else 97.
Definition kval (c : nat) : nat := if c =? 97 then 1 else 2.
Fixpoint kexp (x : nat) (w : str) : str :=
  match w with [] => [] | c :: w' => repeat x (kval c) ++ kexp (flip x) w' end.
Fixpoint kruns (x : nat) (w : str) : list (nat * nat) :=
  match w with [] => [] | c :: w' => (x, kval c) :: kruns (flip x) w' end.
Lemma kval_pos c : 1 <= kval c <= 2.
Proof. unfold kval. destruct (c =? 97); lia. Qed.
Lemma kexp_runs x w : kexp x w = expand (kruns x w).
Proof. revert x. induction w as [|c w IH]; intros x; [reflexivity|]. simpl. unfold expand in *. simpl. now rewrite IH. Qed.
Lemma flip_ne x : ab x -> flip x <> x /\ ab (flip x).
Proof. unfold ab, flip. intros [->| ->]; simpl; lia. Qed.
Lemma kexp_snoc x w c : kexp x (w ++ [c]) = kexp x w ++ repeat (Nat.iter (length w) flip x) (kval c).
Proof.
  revert x. induction w as [|d w IH]; intros x; simpl; [now rewrite app_nil_r|].
  rewrite IH, app_assoc. f_equal. f_equal. clear. induction (length w) as [|n IHn]; [reflexivity|]. simpl. now rewrite IHn.
Qed.
Lemma kexp_app x w v : kexp x (w ++ v) = kexp x w ++ kexp (Nat.iter (length w) flip x) v.
Proof.
  revert x. induction w as [|d w IH]; intros x; simpl; [reflexivity|]. rewrite IH, app_assoc. f_equal. f_equal.
  clear. induction (length w) as [|n IHn]; [reflexivity|]. simpl. now rewrite IHn.
Qed.
Lemma kexp_length x w : length w <= length (kexp x w) <= 2 * length w.
Proof.
  revert x. induction w as [|c w IH]; intros x; simpl; [lia|]. rewrite app_length, repeat_length.
  pose proof (IH (flip x)). pose proof (kval_pos c). lia.
Qed.
Lemma kexp_prefix x u v : prefix u v -> prefix (kexp x u) (kexp x v).
Proof. intros (r & ->). rewrite kexp_app. apply prefix_app. Qed.
Lemma iter_flip_ab n x : ab x -> ab (Nat.iter n flip x).
Proof. intros H. induction n as [|n IH]; [exact H|]. simpl. now apply flip_ne. Qed.
Lemma kexp_ab x w : ab x -> Forall ab (kexp x w).
Proof.
  revert x. induction w as [|c w IH]; intros x Hx; simpl; [constructor|]. apply Forall_app. split.
  - rewrite Forall_forall. intros y Hy. apply repeat_spec in Hy. now subst.
  - apply IH. now apply flip_ne.
Qed.
(** the last letter written *)
Lemma kexp_last x w : w <> [] -> last (kexp x w) 0 = Nat.iter (length w - 1) flip x.
Proof.
  intros H. destruct (exists_last H) as (w' & c & ->). rewrite kexp_snoc, app_length. simpl.
  replace (length w' + 1 - 1) with (length w') by lia.
  pose proof (kval_pos c). destruct (kval c) as [|[|[|n]]]; try lia; simpl; rewrite ?last_last; auto.
  change ([?a; ?b]) with ([a] ++ [b]). rewrite app_assoc, last_last. reflexivity.
Qed.
Definition kol (k : nat) : str := Nat.iter k (kexp 98) [98; 98].
Lemma kol_S k : kol (S k) = kexp 98 (kol k). Proof. reflexivity. Qed.
Lemma kol_prefix k : prefix (kol k) (kol (S k)).
Proof.
  induction k as [|k IH]; [exists [97; 97]; reflexivity|]. rewrite (kol_S (S k)), (kol_S k). now apply kexp_prefix.
Qed.
Lemma kol_prefix_le j k : j <= k -> prefix (kol j) (kol k).
Proof. induction 1 as [|k _ IH]; [apply prefix_refl|]. eapply prefix_trans; [exact IH|apply kol_prefix]. Qed.
Lemma kol_length k : 2 <= length (kol k) <= 2 ^ (k + 1).
Proof.
  induction k as [|k IH]; [simpl; lia|]. rewrite kol_S. pose proof (kexp_length 98 (kol k)). simpl. lia.
Qed.
Lemma kol_ab k : Forall ab (kol k).
Proof.
  destruct k as [|k]; [|rewrite kol_S; apply kexp_ab; unfold ab; tauto].
  repeat (apply Forall_cons; [unfold ab; tauto|]); apply Forall_nil.
Qed.
Lemma kexp_grow k : length (kol k) < length (kol (S k)).
Proof.
  rewrite kol_S. destruct (kol_prefix_le 0 k ltac:(lia)) as (r & ->). change (kol 0) with [98; 98]. change (kexp 98 ([98; 98] ++ r)) with ([98; 98] ++ [97; 97] ++ kexp 98 r).
  rewrite !app_length. pose proof (kexp_length 98 r). simpl. lia.
Qed.
Lemma kruns_spec x w : ab x -> is_runs (kexp x w) (kruns x w).
Proof.
  intros Hx. split; [symmetry; apply kexp_runs|]. split.
  - revert x Hx. induction w as [|c w IH]; intros x Hx; simpl; [constructor|]. constructor; [simpl; apply kval_pos|].
    apply IH. now apply flip_ne.
  - revert x Hx. induction w as [|c w IH]; intros x Hx i Hi; simpl in Hi; [lia|].
    destruct i as [|i].
    + destruct w as [|d w]; [simpl in Hi; lia|]. simpl. pose proof (flip_ne x Hx) as (F & _). congruence.
    + simpl. apply (IH (flip x)); [now apply flip_ne|lia].
Qed.

Definition kinv (L : nat) (text : str) (s t : nat) : Prop :=
  length text = L /\ 1 <= s < t /\ t <= L /\ firstn t text = kexp 98 (firstn s text).

Lemma kinv_step L text s t : kinv L text s t -> t + 2 <= L -> 
  exists text' t', (forall B (f : str * nat -> res B),
   (p <- get text (t - 1) ;;
    let sym := if p =? 97 then 98 else 97 in
    c <- get text s ;;
    '(text, t) <- (if c =? 97 then text <- set text t sym ;; Ok (text, t + 1) else Ok (text, t)) ;;
    c <- get text s ;;
    '(text, t) <- (if c =? 98 then text <- set text t sym ;;
                                        text <- set text (t + 1) sym ;; Ok (text, t + 2)
                        else Ok (text, t)) ;;
    f (text, t)) = f (text', t')) /\ kinv L text' (S s) t' /\ firstn t text' = firstn t text /\ t <= t'.
Proof.
  intros (L0 & Hs & Ht & HF) HL.
  assert (Lf : length (firstn s text) = s) by (rewrite firstn_length; lia).
  assert (Hlast : nth (t - 1) text 0 = Nat.iter (s - 1) flip 98).
  { assert (E := kexp_last 98 (firstn s text)). rewrite Lf, <- HF, last_nth in E. rewrite firstn_length in E.
    rewrite Nat.min_l in E by lia. rewrite nth_firstn in E by lia. apply E. intros C. rewrite C in Lf. simpl in Lf. lia. }
  assert (Hsym : (if nth (t - 1) text 0 =? 97 then 98 else 97) = Nat.iter s flip 98).
  { rewrite Hlast. destruct s as [|s0]; [lia|]. simpl. rewrite Nat.sub_0_r. reflexivity. }
  set (y := Nat.iter s flip 98) in *.
  assert (Hab : ab (nth s text 0)).
  { assert (F : Forall ab (firstn t text)) by (rewrite HF; apply kexp_ab; unfold ab; tauto).
    rewrite Forall_forall in F. apply F. rewrite <- (nth_firstn text t s 0) by lia. apply nth_In. rewrite firstn_length. lia. }
  assert (Hfs : kexp 98 (firstn (S s) text) = firstn t text ++ repeat y (kval (nth s text 0))).
  { rewrite (firstn_snoc_nth text s 0) by lia. rewrite kexp_snoc, <- HF, Lf. reflexivity. }
  destruct Hab as [Ec|Ec]; rewrite Ec in Hfs.
  - destruct (set_next text t y) as (u & Eu & Lu & Fu & Gu & Nu); [lia|].
    exists u, (t + 1). split.
    { intros B f. rewrite (get_ok _ _ 0) by lia. cbn [bind]. cbv zeta. rewrite Hsym.
      rewrite (get_ok _ _ 0) by lia. cbn [bind]. rewrite Ec. cbn [Nat.eqb]. rewrite Eu. cbn [bind].
      rewrite (get_ok _ _ 0) by lia. cbn [bind]. rewrite Nu by lia. rewrite Ec. cbn [Nat.eqb bind]. reflexivity. } split; [|split; [apply Gu; lia|lia]].
    split; [lia|]. split; [lia|]. split; [lia|]. replace (t + 1) with (S t) by lia. rewrite Fu.
    rewrite (firstn_le_eq u text (S s) t) by (lia || (apply Gu; lia)). rewrite Hfs. reflexivity.
  - destruct (set_next text t y) as (u & Eu & Lu & Fu & Gu & Nu); [lia|].
    destruct (set_next u (t + 1) y) as (v & Ev & Lv & Fv & Gv & Nv); [lia|].
    exists v, (t + 2). split.
    { intros B f. rewrite (get_ok _ _ 0) by lia. cbn [bind]. cbv zeta. rewrite Hsym.
      rewrite (get_ok _ _ 0) by lia. cbn [bind]. rewrite Ec. cbn [Nat.eqb bind].
      rewrite (get_ok _ _ 0) by lia. cbn [bind]. rewrite Ec. cbn [Nat.eqb bind]. rewrite Eu. cbn [bind].
      rewrite Ev. cbn [bind]. reflexivity. }
    assert (Gt : firstn t v = firstn t text) by (rewrite Gv by lia; apply Gu; lia).
    split; [|split; [exact Gt|lia]].
    split; [lia|]. split; [lia|]. split; [lia|]. replace (t + 2) with (S (t + 1)) by lia. rewrite Fv.
    replace (t + 1) with (S t) by lia. rewrite Fu.
    rewrite (firstn_le_eq v text (S s) t) by (lia || exact Gt). rewrite Hfs, <- app_assoc. reflexivity.
Qed.

(** one round: from w (already written up to its own length) to kexp 98 w *)
Lemma kol_round_ok L text s t cs : kinv L text s t -> s < cs -> 
  (forall text', firstn t text' = firstn t text -> True) -> 2 * cs + 2 <= L -> cs <= t ->
  exists text' t', kol_round cs text s t = Ok (text', cs, t') /\ kinv L text' cs t' /\ firstn cs text' = firstn cs text.
Proof.
  intros HI Hs _ HL Hct. unfold kol_round.
  match goal with |- exists text' t', ?e = _ /\ _ => cut (okp e (fun '(text', s', t') =>
     s' = cs /\ kinv L text' cs t' /\ firstn cs text' = firstn cs text)) end.
  { intros (((text' & s') & t') & -> & -> & H). exists text', t'. auto. }
  apply (okp_loop (fun '(x, s, t) => kinv L x s t /\ s < cs /\ cs <= t /\ firstn cs x = firstn cs text) (fun '(x, s, t) => cs - s)).
  2:{ auto. } 2: lia.
  clear s t HI Hs Hct. intros ((x & s) & t) (HI & Hs & Hct & HF).
  assert (Ht2 : t + 2 <= L).
  { destruct HI as (L0 & Hst & HtL & HE). pose proof (kexp_length 98 (firstn s x)) as K.
    rewrite <- HE in K. rewrite !firstn_length in K. lia. }
  destruct (kinv_step L x s t HI Ht2) as (x' & t' & E & HI' & HG & Htt).
  specialize (E _ (fun '(text, target) => let source := s + 1 in
    if source =? cs then Ok (Brk (text, source, target)) else Ok (Cont (text, source, target)))).
  match goal with |- okp ?e _ => match type of E with _ = ?r => replace e with r by (symmetry; exact E) end end.
  cbv beta zeta iota. rewrite Nat.add_1_r.
  assert (HF' : firstn cs x' = firstn cs text) by (rewrite <- HF; now apply (firstn_le_eq _ _ cs t)).
  destruct (Nat.eqb_spec (S s) cs) as [Es|Ns]; apply okp_ok.
  - rewrite <- Es at 1. split; [now rewrite Es|]. rewrite <- Es at 1. auto.
  - split; [|lia]. split; [exact HI'|]. split; [lia|]. split; [lia|exact HF'].
Qed.

Lemma kol_len_ok k : k <= 60 -> exists n, kolakoski_length k = Ok n /\ (n < 9223372036854775808)%N /\ 2 ^ (k + 1) + 2 <= N.to_nat n.
Proof.
  intros Hk.
  assert (G : forallb (fun k => match kolakoski_length k with Ok n => (2 ^ N.of_nat (k + 1) + 2 <=? n)%N && (n <? 9223372036854775808)%N | _ => false end)
     (seq 0 61) = true) by (vm_compute; reflexivity).
  rewrite forallb_forall in G. specialize (G k). rewrite in_seq in G. specialize (G ltac:(lia)).
  destruct (kolakoski_length k) as [n| |]; try discriminate. exists n. split; [reflexivity|].
  apply andb_prop in G. destruct G as (G1 & G2). apply N.leb_le in G1. apply N.ltb_lt in G2. split; [exact G2|].
  rewrite <- of_pow2 in G1. lia.
Qed.
Lemma kol_len_panic k : 61 <= k -> kolakoski_length k = Panic \/ exists n, kolakoski_length k = Ok n /\ (9223372036854775808 <= n)%N.
Proof.
  intros Hk. destruct (Nat.le_gt_cases 254 k) as [C|C].
  - left. unfold kolakoski_length, add_u8. destruct (Nat.leb_spec 256 (k + 2)); [reflexivity|lia].
  - assert (G : forallb (fun k => match kolakoski_length k with Ok n => (9223372036854775808 <=? n)%N | Panic => true | _ => false end)
     (seq 61 193) = true) by (vm_compute; reflexivity).
    rewrite forallb_forall in G. specialize (G k). rewrite in_seq in G. specialize (G ltac:(lia)).
    destruct (kolakoski_length k) as [n| |]; try discriminate; [right; exists n; split; [reflexivity|now apply N.leb_le]|now left].
Qed.
Theorem kolakoski_word_ok k : k <= 60 -> kolakoski_word k = Ok (kol k).
Proof.
  intros Hk. unfold kolakoski_word. destruct (kol_len_ok k Hk) as (n & -> & Hn & HL). cbn [bind].
  rewrite vec_zero_ok by exact Hn. cbn [bind]. set (L := N.to_nat n) in *. pose proof (pow2_pos (k + 1)) as Hp.
  destruct (set_next (repeat 0 L) 0 98) as (t0 & E0 & L0 & F0 & _); [rewrite repeat_length; lia|].
  rewrite repeat_length in L0. rewrite E0. cbn [bind].
  destruct (set_next t0 1 98) as (t1 & E1 & L1 & F1 & G1 & _); [lia|]. rewrite E1. cbn [bind].
  rewrite F0 in F1. change ((firstn 0 (repeat 0 L) ++ [98]) ++ [98]) with [98; 98] in F1.
  match goal with |- bind ?e _ = _ => cut (okp e (fun '(text, s, t, cs, os) =>
     kinv L text s t /\ firstn t text = kol k)) end.
  { intros (((((text & s) & t) & cs) & os) & -> & (I1 & I2 & I3 & I4) & HK). cbn [bind].
    destruct (Nat.leb_spec t (length text)); [|lia]. cbn [assert_ bind]. now rewrite HK. }
  eapply okp_imp.
  - apply (okp_for_range (fun i '(text, s, t, cs, os) => kinv L text s t /\ cs = t /\ os = 0 /\ s < cs /\
       firstn t text = kol i)); [lia| |].
    + split; [|split; [reflexivity|split; [reflexivity|split; [lia|exact F1]]]].
      split; [lia|]. split; [lia|]. split; [lia|]. rewrite F1.
      rewrite (firstn_le_eq t1 t0 1 1) by (lia || (apply G1; lia)). rewrite F0. reflexivity.
    + intros i ((((text & s) & t) & cs) & os) Hi (HI & -> & -> & Hst & HK).
      assert (Ht : t = length (kol i)).
      { rewrite <- HK, firstn_length. destruct HI as (I1 & I2 & I3 & I4). lia. }
      pose proof (kol_length i) as KL. pose proof (Nat.pow_le_mono_r 2 (i + 1) k ltac:(lia) ltac:(lia)).
      assert (2 ^ (k + 1) = 2 * 2 ^ k) by (rewrite Nat.add_1_r; reflexivity).
      destruct (kol_round_ok L text s t t HI Hst ltac:(auto) ltac:(lia) ltac:(lia)) as (text' & t' & -> & HI' & HF').
      cbn [bind]. cbv zeta. rewrite sub_ok by lia. cbn [bind]. apply okp_ok.
      split; [exact HI'|]. split; [lia|]. split; [lia|]. destruct HI' as (J1 & J2 & J3 & J4). split; [lia|].
      rewrite J4, HF', HK. reflexivity.
  - cbv beta. intros ((((text & s) & t) & cs) & os) (HI & _ & _ & _ & HK). auto.
Qed.
Theorem kolakoski_word_panic k : 61 <= k -> kolakoski_word k = Panic.
Proof.
  intros Hk. unfold kolakoski_word. destruct (kol_len_panic k Hk) as [->|(n & -> & Hn)]; [reflexivity|]. cbn [bind].
  now rewrite vec_zero_panic.
Qed.
