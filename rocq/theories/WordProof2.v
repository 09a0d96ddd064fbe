(** WordProof2.v : iterated morphisms (word.rs:100-127, 212-353, 615-639). *)
From Verif Require Import Base SpecStr SpecWord ModelWord WordProof.
From Coq Require Import NArith ZArith.

Lemma iter_S h k w : iter_morphism h (S k) w = flat_map h (iter_morphism h k w).
Proof. reflexivity. Qed.
Lemma iter_S' h k w : iter_morphism h (S k) w = iter_morphism h k (flat_map h w).
Proof. unfold iter_morphism. induction k as [|k IH]; [reflexivity|]. simpl in *. now rewrite IH. Qed.
Lemma iter_app h k u v : iter_morphism h k (u ++ v) = iter_morphism h k u ++ iter_morphism h k v.
Proof. induction k as [|k IH]; [reflexivity|]. rewrite !iter_S, IH. apply flat_map_app. Qed.
Lemma iter_add h j k w : iter_morphism h (j + k) w = iter_morphism h j (iter_morphism h k w).
Proof. induction j as [|j IH]; [reflexivity|]. simpl plus. rewrite !iter_S, IH. reflexivity. Qed.

Lemma shl1_ok k : k < 64 -> shl1 k = Ok (2 ^ N.of_nat k)%N.
Proof. intros H. unfold shl1. destruct (Nat.leb_spec 64 k); [lia|]. reflexivity. Qed.
Lemma shl1_panic k : 64 <= k -> shl1 k = Panic.
Proof. intros H. unfold shl1. destruct (Nat.leb_spec 64 k); [|lia]. reflexivity. Qed.
Lemma pow2_63 k : k < 63 -> (2 ^ N.of_nat k < 9223372036854775808)%N.
Proof.
  intros H. change 9223372036854775808%N with (2 ^ 63)%N. apply N.pow_lt_mono_r; lia.
Qed.
Lemma to_nat_pow2 k : N.to_nat (2 ^ N.of_nat k) = 2 ^ k.
Proof.
  induction k as [|k IH]; [reflexivity|]. rewrite Nat2N.inj_succ, N.pow_succ_r by lia.
  rewrite N2Nat.inj_mul, IH. simpl. lia.
Qed.
Lemma pow2_pos k : 1 <= 2 ^ k.
Proof. induction k; simpl; lia. Qed.

(** vec![0; 1 << k] *)
Lemma vec_pow k : k < 63 -> (n <- shl1 k ;; vec_zero n) = Ok (repeat 0 (2 ^ k)).
Proof.
  intros H. rewrite shl1_ok by lia. cbn [bind]. rewrite vec_zero_ok by now apply pow2_63. now rewrite to_nat_pow2.
Qed.
Lemma vec_pow_panic k : 63 <= k -> (n <- shl1 k ;; vec_zero n) = Panic.
Proof.
  intros H. destruct (Nat.eq_dec k 63) as [->|N].
  - reflexivity.
  - rewrite shl1_panic by lia. reflexivity.
Qed.
Lemma vec_pow_bind {A} k (f : str -> res A) :
  (n <- shl1 k ;; text <- vec_zero n ;; f text) = if k <? 63 then f (repeat 0 (2 ^ k)) else Panic.
Proof.
  destruct (Nat.ltb_spec k 63) as [H|H].
  - pose proof (vec_pow k H) as E. destruct (shl1 k); cbn [bind] in *; try discriminate. now rewrite E.
  - pose proof (vec_pow_panic k H) as E. destruct (shl1 k); cbn [bind] in *; try discriminate; auto. now rewrite E.
Qed.

(** ** uniform morphisms of length 2 *)
Definition uniform2 (h : nat -> str) : Prop := forall c, length (h c) = 2.
Lemma u2_length h w : uniform2 h -> length (flat_map h w) = 2 * length w.
Proof. intros H. induction w as [|c w IH]; [reflexivity|]. cbn [flat_map]. rewrite app_length, H, IH. simpl. lia. Qed.
Lemma u2_firstn h w m : uniform2 h -> firstn (2 * m) (flat_map h w) = flat_map h (firstn m w).
Proof.
  intros H. revert w. induction m as [|m IH]; intros w; [reflexivity|]. destruct w as [|c w]; [reflexivity|].
  cbn [flat_map firstn]. pose proof (H c) as Hc. destruct (h c) as [|x [|y [|]]]; try discriminate.
  replace (2 * S m) with (S (S (2 * m))) by lia. cbn [app firstn]. now rewrite IH.
Qed.
Lemma u2_nth h w i e : uniform2 h -> i < length w -> e < 2 -> nth (2 * i + e) (flat_map h w) 0 = nth e (h (nth i w 0)) 0.
Proof.
  intros H. revert i. induction w as [|c w IH]; intros i Hi He; [simpl in Hi; lia|].
  cbn [flat_map]. destruct i as [|i].
  - rewrite app_nth1 by (rewrite H; lia). reflexivity.
  - rewrite app_nth2 by (rewrite H; lia). rewrite H. replace (2 * S i + e - 2) with (2 * i + e) by lia.
    apply IH; simpl in *; lia.
Qed.
Lemma u2_iter_length h k c : uniform2 h -> length (iter_morphism h k [c]) = 2 ^ k.
Proof. intros H. induction k as [|k IH]; [reflexivity|]. rewrite iter_S, u2_length by exact H. rewrite IH. simpl. lia. Qed.
Lemma u2_fixed h text r c : uniform2 h -> firstn 1 text = [c] ->
  length text = 2 ^ S r -> text = flat_map h (firstn (2 ^ r) text) ->
  forall j, j <= S r -> firstn (2 ^ j) text = iter_morphism h j [c].
Proof.
  intros H H1 HL HF j. induction j as [|j IH]; intros Hj; [exact H1|].
  rewrite iter_S, <- IH by lia. rewrite HF at 1. change (2 ^ S j) with (2 * 2 ^ j).
  rewrite u2_firstn by exact H. f_equal. rewrite firstn_firstn. f_equal.
  apply Nat.min_l. apply Nat.pow_le_mono_r; lia.
Qed.

Theorem iterate_2morphism_ok h k : uniform2 h -> h 97 = [97; 98] -> k < 63 ->
  iterate_2morphism k h = Ok (iter_morphism h k [97]).
Proof.
  intros Hu Ha Hk. unfold iterate_2morphism. destruct (Nat.eqb_spec k 0) as [->|Hk0]; [reflexivity|].
  rewrite vec_pow_bind. destruct (Nat.ltb_spec k 63); [|lia]. cbv zeta. rewrite repeat_length.
  destruct k as [|r]; [lia|]. assert (Hn : 2 <= 2 ^ S r) by (simpl; pose proof (pow2_pos r); lia).
  set (n := 2 ^ S r) in *.
  destruct (set_next (repeat 0 n) 0 97) as (t0 & E0 & L0 & F0 & _); [rewrite repeat_length; lia|].
  rewrite repeat_length in L0. rewrite E0. cbn [bind].
  destruct (set_next t0 1 98) as (t1 & E1 & L1 & F1 & G1 & _); [lia|]. rewrite E1. cbn [bind].
  rewrite F0 in F1. simpl in F1.
  match goal with |- ?e = _ => cut (okp e (fun text => text = iter_morphism h (S r) [97])) end.
  { intros (x & -> & ->). reflexivity. }
  apply (okp_loop (fun '(text, s, t) => length text = n /\ 1 <= s /\ t = 2 * s /\ t <= n /\
      firstn 1 text = [97] /\ firstn t text = flat_map h (firstn s text)) (fun '(text, s, t) => n - t)).
  2:{ split; [lia|]. split; [lia|]. split; [lia|]. split; [lia|].
      assert (E : firstn 1 t1 = [97]) by (rewrite G1 by lia; exact F0).
      split; [exact E|]. rewrite E. simpl flat_map. rewrite Ha. exact F1. }
  2: lia.
  intros ((text & s) & t) (H1 & H2 & H3 & H4 & H5 & H6). destruct (Nat.ltb_spec t n) as [C|C].
  - rewrite (get_ok _ _ 0) by lia. cbn [bind].
    pose proof (Hu (nth s text 0)) as Hc. destruct (h (nth s text 0)) as [|x [|y [|]]] eqn:Eh; try discriminate.
    cbn [for_in]. destruct (Nat.eqb_spec t n); [lia|].
    assert (t + 1 < n).
    { assert (Nat.Even n) by (exists (2 ^ r); unfold n; simpl; lia). destruct H0 as (q & Hq). lia. }
    destruct (set_next text t x) as (u & Eu & Lu & Fu & Gu & _); [lia|]. rewrite Eu. cbn [bind].
    destruct (Nat.eqb_spec (t + 1) n); [lia|].
    destruct (set_next u (t + 1) y) as (v & Ev & Lv & Fv & Gv & _); [lia|]. rewrite Ev. cbn [bind].
    apply okp_ok. split; [|lia]. split; [lia|]. split; [lia|]. split; [lia|]. split; [lia|].
    assert (Gt : forall i, i <= t -> firstn i v = firstn i text) by (intros i Hi; rewrite Gv by lia; apply Gu; lia).
    split; [rewrite Gt by lia; exact H5|].
    replace (t + 1 + 1) with (S (t + 1)) by lia. rewrite Fv. replace (t + 1) with (S t) by lia. rewrite Fu.
    rewrite H6. replace (s + 1) with (S s) by lia. rewrite (Gt (S s)) by lia.
    rewrite (firstn_snoc_nth text s 0) by lia. rewrite flat_map_app. simpl. rewrite Eh.
    rewrite <- app_assoc. reflexivity.
  - apply okp_ok. assert (t = n) by lia. assert (Es : s = 2 ^ r) by (unfold n in *; simpl in *; lia).
    assert (Et : text = flat_map h (firstn (2 ^ r) text)).
    { rewrite <- Es, <- H6. symmetry. apply firstn_all2. lia. }
    pose proof (u2_fixed h text r 97 Hu H5 H1 Et (S r) (le_n _)) as E. rewrite <- E. symmetry. apply firstn_all2. fold n. lia.
Qed.
Lemma iterate_2morphism_panic h k : 63 <= k -> iterate_2morphism k h = Panic.
Proof.
  intros H. unfold iterate_2morphism. destruct (Nat.eqb_spec k 0); [lia|]. rewrite vec_pow_bind.
  destruct (Nat.ltb_spec k 63); [lia|]. reflexivity.
Qed.

(** ** general prolongable morphisms *)
Lemma push_all (l t : str) : for_in l (fun c text => Ok (text ++ [c])) t = Ok (t ++ l).
Proof.
  revert t. induction l as [|c l IH]; intros t; cbn [for_in]; [now rewrite app_nil_r|].
  cbn [bind]. rewrite IH, <- app_assoc. reflexivity.
Qed.

Section General.
Context (h : nat -> str) (u : str).
Context (Ha : h 97 = 97 :: u) (Hune : u <> []) (Hne : forall c, c < 256 -> h c <> []).
Context (Hby : forall c, c < 256 -> Forall (fun x => x < 256) (h c)).
Let W r := iter_morphism h r [97].
Let B := max_image h.

Lemma max_image_le c : c < 256 -> length (h c) <= B.
Proof.
  intros Hc. unfold B, max_image.
  assert (G : forall l, In c l -> length (h c) <= fold_right Nat.max 0 (map (fun c => length (h c)) l)).
  { induction l as [|d l IH]; [easy|]. cbn [In map fold_right]. intros [->|H]; [apply Nat.le_max_l|].
    etransitivity; [exact (IH H)|apply Nat.le_max_r]. }
  apply G. apply in_seq. lia.
Qed.
Lemma B_pos : 0 < B.
Proof. pose proof (max_image_le 97 ltac:(lia)) as H. rewrite Ha in H. simpl in H. lia. Qed.
Lemma iter_bytes r w : Forall (fun x => x < 256) w -> Forall (fun x => x < 256) (iter_morphism h r w).
Proof.
  intros Hw. induction r as [|r IH]; [exact Hw|]. rewrite iter_S. revert IH. generalize (iter_morphism h r w).
  intros l Hl. induction Hl as [|c l Hc Hl IH]; [constructor|]. cbn [flat_map]. apply Forall_app. split; auto.
Qed.
Lemma u_bytes : Forall (fun x => x < 256) u.
Proof. pose proof (Hby 97 ltac:(lia)) as H. rewrite Ha in H. now inversion H. Qed.
Lemma W_bytes r : Forall (fun x => x < 256) (W r).
Proof. apply iter_bytes. repeat constructor. Qed.

Lemma W_S r : W (S r) = W r ++ iter_morphism h r u.
Proof.
  unfold W. rewrite iter_S'. simpl flat_map. rewrite app_nil_r, Ha.
  change (97 :: u) with ([97] ++ u). apply iter_app.
Qed.
Lemma iter_ne r w : Forall (fun x => x < 256) w -> w <> [] -> iter_morphism h r w <> [].
Proof.
  intros HB Hw. induction r as [|r IH]; [exact Hw|]. rewrite iter_S. pose proof (iter_bytes r w HB) as HB'.
  destruct (iter_morphism h r w) as [|c x]; [easy|]. inversion HB'; subst.
  simpl. intros E. apply app_eq_nil in E. exact (Hne c ltac:(assumption) (proj1 E)).
Qed.
Lemma W_prefix r : prefix (W r) (W (S r)).
Proof. rewrite W_S. apply prefix_app. Qed.
Lemma W_grow r : length (W r) < length (W (S r)).
Proof.
  rewrite W_S, app_length. pose proof (iter_ne r u u_bytes Hune). destruct (iter_morphism h r u); [easy|]. simpl. lia.
Qed.
Lemma W_prefix_le r j : r <= j -> prefix (W r) (W j).
Proof. induction 1 as [|j _ IH]; [apply prefix_refl|]. eapply prefix_trans; [exact IH|apply W_prefix]. Qed.
Lemma W_lenB r : length (W r) <= B ^ r.
Proof.
  induction r as [|r IH]; [simpl; lia|]. pose proof (W_bytes r) as HB. unfold W in *. rewrite iter_S.
  assert (G : forall w, Forall (fun x => x < 256) w -> length (flat_map h w) <= B * length w).
  { induction 1 as [|c w Hc Hw IHw]; [simpl; lia|]. cbn [flat_map]. rewrite app_length. pose proof (max_image_le c Hc). simpl length. lia. }
  pose proof (G (iter_morphism h r [97]) HB). rewrite Nat.pow_succ_r'. nia.
Qed.
Lemma W_ne r : 1 <= length (W r).
Proof. pose proof (iter_ne r [97] ltac:(repeat constructor; lia) ltac:(easy)) as H. fold (W r) in *. destruct (W r); [easy|simpl; lia]. Qed.

Theorem iterate_general_ok k hint : (0 < hint < 9223372036854775808)%N ->
  iterate_general_morphism k h hint = Ok (iter_morphism h k [97]).
Proof.
  intros Hh. unfold iterate_general_morphism. destruct (Nat.eqb_spec k 0) as [->|Hk0]; [reflexivity|].
  destruct (N.ltb_spec 0 hint); [|lia]. cbn [bind]. unfold capacity.
  destruct (N.ltb_spec hint 9223372036854775808); [|lia]. cbn [assert_ bind].
  rewrite push_all. cbn [bind app].
  assert (E1 : h 97 = W 1) by (unfold W; cbn; now rewrite app_nil_r).
  rewrite E1. rewrite sub_ok by apply W_ne. cbn [bind]. fold (W k).
  match goal with |- ?e = _ => cut (okp e (fun text => text = W k)) end.
  { intros (x & -> & ->). reflexivity. }
  apply (okp_loop (fun '(text, r, e, s) => 1 <= r <= k /\ (r = k -> text = W k) /\ prefix (W r) text /\
      S e = length (W r) /\ 1 <= s <= e /\ text = flat_map h (firstn s text))
      (fun '(text, r, e, s) => B ^ k - s)).
  2:{ split; [lia|]. split; [intros; now subst|]. split; [apply prefix_refl|]. split; [pose proof (W_ne 1); lia|].
      pose proof (W_grow 0). change (length (W 0)) with 1 in *. split; [lia|].
      rewrite <- E1. rewrite Ha at 2. simpl. now rewrite app_nil_r. }
  2: fold B; lia.
  intros (((text & r) & e) & s) (I1 & I2 & I3 & I4 & I5 & I6).
  destruct (Nat.ltb_spec r k) as [C|C].
  2:{ apply okp_ok. apply I2. lia. }
  pose proof (prefix_length _ _ I3) as Hl. rewrite (get_ok _ _ 0) by lia. cbn [bind]. rewrite push_all. cbn [bind].
  assert (Et : text ++ h (nth s text 0) = flat_map h (firstn (S s) text)).
  { rewrite (firstn_snoc_nth text s 0) by lia. rewrite flat_map_app, <- I6. simpl. now rewrite app_nil_r. }
  assert (Ef : firstn (S s) (text ++ h (nth s text 0)) = firstn (S s) text).
  { rewrite firstn_app. replace (S s - length text) with 0 by lia. simpl. now rewrite app_nil_r. }
  assert (B4 : s < B ^ k).
  { pose proof (W_lenB r). pose proof B_pos. pose proof (Nat.pow_le_mono_r B r k ltac:(lia) ltac:(lia)). lia. }
  replace (s + 1) with (S s) by lia.
  destruct (Nat.eqb_spec s e) as [->|Nse].
  - assert (Ew : text ++ h (nth e text 0) = W (S r)).
    { rewrite Et, I4. rewrite <- (prefix_eq _ _ I3). reflexivity. }
    rewrite Ew. rewrite sub_ok by apply W_ne. cbn [bind]. apply okp_ok. split; [|lia].
    split; [lia|]. split; [intros <-; f_equal; lia|]. replace (r + 1) with (S r) by lia.
    split; [apply prefix_refl|]. pose proof (W_ne (S r)). pose proof (W_grow r). split; [lia|]. split; [lia|].
    rewrite <- Ew at 2. rewrite Ef, <- Et. now symmetry.
  - cbn [bind]. apply okp_ok. split; [|lia]. split; [lia|]. split; [intros; lia|].
    split; [eapply prefix_trans; [exact I3|apply prefix_app]|]. split; [exact I4|]. split; [lia|].
    rewrite Ef. exact Et.
Qed.
End General.
Lemma iterate_general_panic h k hint : k <> 0 -> (9223372036854775808 <= hint)%N -> iterate_general_morphism k h hint = Panic.
Proof.
  intros H0 H. unfold iterate_general_morphism. destruct (Nat.eqb_spec k 0); [lia|].
  destruct (N.ltb_spec 0 hint); [|lia]. cbn [bind]. unfold capacity.
  destruct (N.ltb_spec hint 9223372036854775808); [lia|]. reflexivity.
Qed.

Theorem iterate_start_ok h k hint w : (0 < hint < 9223372036854775808)%N ->
  iterate_general_morphism_with_startsymbol k h hint w = Ok (iter_morphism h k w).
Proof.
  intros Hh. unfold iterate_general_morphism_with_startsymbol.
  destruct (N.ltb_spec 0 hint); [|lia]. cbn [bind]. unfold capacity.
  destruct (N.ltb_spec hint 9223372036854775808); [|lia]. cbn [assert_ bind].
  assert (G : forall l t, for_in l (fun start_char text => for_in (h start_char) (fun c text => Ok (text ++ [c])) text) t
     = Ok (t ++ flat_map h l)).
  { induction l as [|c l IH]; intros t; cbn [for_in flat_map]; [now rewrite app_nil_r|].
    rewrite push_all. cbn [bind]. rewrite IH, <- app_assoc. reflexivity. }
  unfold range. rewrite Nat.sub_0_r. generalize 0. revert w. induction k as [|k IH]; intros w lo; [reflexivity|].
  cbn [seq for_in]. rewrite G. cbn [bind app]. rewrite IH. now rewrite iter_S'.
Qed.
Lemma iterate_start_panic h k hint w : (9223372036854775808 <= hint)%N ->
  iterate_general_morphism_with_startsymbol k h hint w = Panic.
Proof.
  intros H. unfold iterate_general_morphism_with_startsymbol.
  destruct (N.ltb_spec 0 hint); [|lia]. cbn [bind]. unfold capacity.
  destruct (N.ltb_spec hint 9223372036854775808); [lia|]. reflexivity.
Qed.

(** ** tribonacci *)
Lemma trib_SSS n : trib (S (S (S n))) = (trib (S (S n)) + trib (S n) + trib n)%N.
Proof. reflexivity. Qed.
Lemma trib_word_SSS n : trib_word (S (S (S n))) = trib_word (S (S n)) ++ trib_word (S n) ++ trib_word n.
Proof. reflexivity. Qed.
Lemma trib_word_length k : N.of_nat (length (trib_word k)) = trib k.
Proof.
  assert (G : N.of_nat (length (trib_word k)) = trib k /\ N.of_nat (length (trib_word (S k))) = trib (S k)
    /\ N.of_nat (length (trib_word (S (S k)))) = trib (S (S k))).
  { induction k as [|k (I1 & I2 & I3)]; [repeat split; reflexivity|]. split; [exact I2|]. split; [exact I3|].
    rewrite trib_word_SSS, !app_length, !Nat2N.inj_add, I1, I2, I3, trib_SSS. lia. }
  apply G.
Qed.
Lemma trib_word_morph k : flat_map tribonacci_morphism (trib_word k) = trib_word (S k).
Proof.
  assert (G : flat_map tribonacci_morphism (trib_word k) = trib_word (S k) /\
    flat_map tribonacci_morphism (trib_word (S k)) = trib_word (S (S k)) /\
    flat_map tribonacci_morphism (trib_word (S (S k))) = trib_word (S (S (S k)))).
  { induction k as [|k (I1 & I2 & I3)]; [repeat split; reflexivity|]. split; [exact I2|]. split; [exact I3|].
    rewrite (trib_word_SSS k), !flat_map_app, I1, I2, I3. reflexivity. }
  apply G.
Qed.
Lemma trib_word_iter k : iter_morphism tribonacci_morphism k [97] = trib_word k.
Proof. induction k as [|k IH]; [reflexivity|]. rewrite iter_S, IH. apply trib_word_morph. Qed.
Lemma trib_mono n : (trib n <= trib (S n))%N.
Proof. destruct n as [|[|n]]; [cbn; lia|cbn; lia|]. rewrite trib_SSS. lia. Qed.
Lemma trib_mono_le m n : m <= n -> (trib m <= trib n)%N.
Proof. induction 1 as [|n H IH]; [lia|]. pose proof (trib_mono n). lia. Qed.
Lemma trib_pos n : (1 <= trib n)%N.
Proof. pose proof (trib_mono_le 0 n ltac:(lia)). cbn in *. lia. Qed.
Fixpoint trib3 (n : nat) : N * N * N :=
  match n with O => (1, 2, 4)%N | S m => let '(a, b, c) := trib3 m in (b, c, c + b + a)%N end.
Lemma trib3_ok n : trib3 n = (trib n, trib (S n), trib (S (S n))).
Proof. induction n as [|n IH]; [reflexivity|]. cbn [trib3]. rewrite IH, trib_SSS. reflexivity. Qed.
Lemma trib_fast n : trib n = fst (fst (trib3 n)).
Proof. now rewrite trib3_ok. Qed.

(** the values 0, 1, 1 before the sequence 1, 2, 4, ...: tr i = trib shifted by 2 *)
Definition tr (i : nat) : N := match i with O => 0%N | S O => 1%N | S (S j) => trib j end.
Lemma tr_SSS n : tr (S (S (S n))) = (tr (S (S n)) + tr (S n) + tr n)%N.
Proof. destruct n as [|[|[|n]]]; try reflexivity. Qed.
Lemma tr_mono n : (tr n <= tr (S n))%N.
Proof. destruct n as [|[|n]]; [cbn; lia|cbn; lia|]. apply trib_mono. Qed.
Lemma tr_mono_le m n : m <= n -> (tr m <= tr n)%N.
Proof. induction 1 as [|n H IH]; [lia|]. pose proof (tr_mono n). lia. Qed.
Definition tribnum_body : nat -> N * N * N * N -> res (N * N * N * N) := fun _ '(sum, cur, old, ancient) =>
  s <- add_usize cur old ;; s <- add_usize s ancient ;; Ok (s, s, cur, old).
Lemma tribnum_loop : forall m lo i sum, (sum = tr (S (S i)) \/ m <> 0) ->
  (tr (S (S i) + m) < 18446744073709551616)%N ->
  for_in (seq lo m) tribnum_body (sum, tr (S (S i)), tr (S i), tr i) =
    Ok (tr (S (S i) + m), tr (S (S i) + m), tr (S i + m), tr (i + m)).
Proof.
  induction m as [|m IH]; intros lo i sum Hs HB.
  - rewrite !Nat.add_0_r. cbn [seq for_in]. destruct Hs as [->|]; [reflexivity|easy].
  - cbn [seq for_in]. unfold tribnum_body at 1. unfold add_usize.
    pose proof (tr_SSS i) as E. pose proof (tr_mono_le (S (S (S i))) (S (S i) + S m) ltac:(lia)).
    destruct (N.leb_spec 18446744073709551616 (tr (S (S i)) + tr (S i))); [lia|]. cbn [bind].
    destruct (N.leb_spec 18446744073709551616 (tr (S (S i)) + tr (S i) + tr i)); [lia|]. cbn [bind].
    rewrite <- E. rewrite IH; [|now left|now replace (S (S (S i)) + m) with (S (S i) + S m) by lia].
    replace (S (S (S i)) + m) with (S (S i) + S m) by lia. replace (S (S i) + m) with (S i + S m) by lia.
    replace (S i + m) with (i + S m) by lia. reflexivity.
Qed.
Lemma tribnum_loop_panic : forall m lo i sum, (tr (S (S i)) < 18446744073709551616)%N ->
  (18446744073709551616 <= tr (S (S i) + m))%N ->
  for_in (seq lo m) tribnum_body (sum, tr (S (S i)), tr (S i), tr i) = Panic.
Proof.
  induction m as [|m IH]; intros lo i sum H0 HB.
  - rewrite Nat.add_0_r in HB. lia.
  - cbn [seq for_in]. unfold tribnum_body at 1. unfold add_usize. pose proof (tr_SSS i) as E.
    destruct (N.leb_spec 18446744073709551616 (tr (S (S i)) + tr (S i))); [reflexivity|]. cbn [bind].
    destruct (N.leb_spec 18446744073709551616 (tr (S (S i)) + tr (S i) + tr i)); [reflexivity|]. cbn [bind].
    rewrite <- E. apply IH; [lia|]. now replace (S (S (S i)) + m) with (S (S i) + S m) by lia.
Qed.
Theorem tribonacci_number_ok k : (trib k < 18446744073709551616)%N -> tribonacci_number k = Ok (trib k).
Proof.
  intros Hk. unfold tribonacci_number. destruct (Nat.eqb_spec k 0) as [->|Hk0]; [reflexivity|].
  unfold range. rewrite Nat.sub_0_r. change (0%N, 1%N, 1%N, 0%N) with (0%N, tr 2, tr 1, tr 0).
  pose proof (tribnum_loop k 0 0 0%N) as L. unfold tribnum_body in L. rewrite L.
  - reflexivity.
  - now right.
  - exact Hk.
Qed.
Theorem tribonacci_number_overflow k : (18446744073709551616 <= trib k)%N -> tribonacci_number k = Panic.
Proof.
  intros Hk. unfold tribonacci_number. destruct (Nat.eqb_spec k 0) as [->|Hk0]; [cbn in Hk; lia|].
  unfold range. rewrite Nat.sub_0_r. change (0%N, 1%N, 1%N, 0%N) with (0%N, tr 2, tr 1, tr 0).
  pose proof (tribnum_loop_panic k 0 0 0%N) as L. unfold tribnum_body in L. rewrite L; [reflexivity|cbn; lia|exact Hk].
Qed.
Lemma trib_bytes c : Forall (fun x => x < 256) (tribonacci_morphism c).
Proof. unfold tribonacci_morphism. destruct (c =? 97); [|destruct (c =? 98)]; repeat constructor; lia. Qed.
Lemma trib_ne c : tribonacci_morphism c <> [].
Proof. unfold tribonacci_morphism. destruct (c =? 97); [easy|]. destruct (c =? 98); easy. Qed.
Theorem tribonacci_word_ok k : (trib k < 9223372036854775808)%N -> tribonacci_word k = Ok (trib_word k).
Proof.
  intros Hk. unfold tribonacci_word. rewrite tribonacci_number_ok by lia. cbn [bind].
  rewrite (iterate_general_ok tribonacci_morphism [98] eq_refl ltac:(easy) (fun c _ => trib_ne c) (fun c _ => trib_bytes c)); [f_equal; apply trib_word_iter|].
  pose proof (trib_pos k). lia.
Qed.
Theorem tribonacci_word_panic k : (9223372036854775808 <= trib k)%N -> tribonacci_word k = Panic.
Proof.
  intros Hk. unfold tribonacci_word. destruct (N.lt_ge_cases (trib k) 18446744073709551616) as [C|C].
  - rewrite tribonacci_number_ok by lia. cbn [bind]. apply iterate_general_panic; [|exact Hk].
    intros ->. cbn in Hk. lia.
  - rewrite tribonacci_number_overflow by exact C. reflexivity.
Qed.
