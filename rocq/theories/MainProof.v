(** MainProof.v : enumerate.rs and generator_kmer.rs *)
From Verif Require Import Base SpecStr SpecIo SpecMain LexFacts ModelIo ModelTools ModelCore ModelWord ModelMain IterProof.
From Coq Require Import NArith.

(** big-endian representation of v in base s with n digits *)
Fixpoint digits (s n v : nat) : list nat :=
  match n with O => [] | S n' => digits s n' (v / s) ++ [v mod s] end.

Lemma digits_length s n : forall v, length (digits s n v) = n.
Proof. induction n as [|n IH]; intros v; simpl; auto. rewrite app_length, IH. simpl. lia. Qed.

Lemma digits_lt s n : 0 < s -> forall v, Forall (fun d => d < s) (digits s n v).
Proof.
  intros Hs. induction n as [|n IH]; intros v; simpl; [constructor|].
  apply Forall_app. split; [apply IH|]. constructor; [|constructor]. apply Nat.mod_upper_bound. lia.
Qed.

Lemma digits_zero s n : 0 < s -> digits s n 0 = repeat 0 n.
Proof.
  intros Hs. induction n as [|n IH]; [reflexivity|]. cbn [digits].
  rewrite Nat.div_small, Nat.mod_small, IH by lia. rewrite <- (repeat_cons n 0). reflexivity.
Qed.

Lemma digits_surj s n : 0 < s -> forall w, length w = n -> Forall (fun d => d < s) w ->
  exists v, v < s ^ n /\ digits s n v = w.
Proof.
  intros Hs. induction n as [|n IH]; intros w L F.
  - destruct w; [|discriminate]. exists 0. split; [simpl; lia|reflexivity].
  - destruct (exists_last (l := w)) as (w' & d & ->); [intros ->; discriminate|].
    rewrite app_length in L. simpl in L. apply Forall_app in F. destruct F as (F1 & F2).
    inversion F2; subst. destruct (IH w' ltac:(lia) F1) as (v & Hv & E).
    exists (v * s + d). split.
    + cbn [Nat.pow]. nia.
    + cbn [digits]. rewrite Nat.div_add_l, Nat.div_small, Nat.add_0_r, E by lia. f_equal.
      rewrite Nat.add_comm, Nat.mod_add, Nat.mod_small by lia. reflexivity.
Qed.

Lemma digits_mono s n : 0 < s -> forall v w, v < w -> w < s ^ n -> lex_lt (digits s n v) (digits s n w).
Proof.
  intros Hs. induction n as [|n IH]; intros v w H1 H2.
  - simpl in H2. lia.
  - cbn [digits]. cbn [Nat.pow] in H2.
    pose proof (Nat.div_mod v s ltac:(lia)). pose proof (Nat.div_mod w s ltac:(lia)).
    pose proof (Nat.mod_upper_bound v s ltac:(lia)). pose proof (Nat.mod_upper_bound w s ltac:(lia)).
    assert (v / s <= w / s) by (apply Nat.div_le_mono; lia).
    destruct (Nat.eq_dec (v / s) (w / s)) as [E|E].
    + rewrite <- E. apply lex_lt_app_same. apply lex_head. nia.
    + apply lex_lt_app_samelen; [now rewrite !digits_length|]. apply IH; [lia|].
      apply Nat.div_lt_upper_bound; lia.
Qed.

Lemma SSorted_map_seq {B} (R : B -> B -> Prop) (f : nat -> B) n : forall a,
  (forall i j, a <= i -> i < j -> j < a + n -> R (f i) (f j)) -> StronglySorted R (map f (seq a n)).
Proof.
  induction n as [|n IH]; intros a H; simpl; constructor.
  - apply IH. intros i j Hi Hij Hj. apply H; lia.
  - apply Forall_forall. intros x Hx. apply in_map_iff in Hx. destruct Hx as (j & <- & Hj).
    apply in_seq in Hj. apply H; lia.
Qed.

Lemma SSorted_app {B} (R : B -> B -> Prop) (l1 l2 : list B) :
  StronglySorted R l1 -> StronglySorted R l2 -> (forall x y, In x l1 -> In y l2 -> R x y) ->
  StronglySorted R (l1 ++ l2).
Proof.
  intros H1 H2 H. induction H1 as [|x l H1 IH F]; simpl; auto. constructor.
  - apply IH. intros; apply H; simpl; auto.
  - apply Forall_app. split; [exact F|]. apply Forall_forall. intros y Hy. apply H; simpl; auto.
Qed.

(** the letters *)
Definition letters (w : list nat) : str := map (fun d => 97 + d) w.
Lemma letters_lt u v : lex_lt u v -> lex_lt (letters u) (letters v).
Proof. induction 1; simpl; [apply lex_nil|apply lex_head; lia|now apply lex_tail]. Qed.
Lemma letters_surj s w : Forall (fun c => 97 <= c < 97 + s) w ->
  exists u, letters u = w /\ length u = length w /\ Forall (fun d => d < s) u.
Proof.
  intros H. exists (map (fun c => c - 97) w). split; [|split; [apply map_length|]].
  - unfold letters. rewrite map_map. rewrite <- (map_id w) at 2. apply map_ext_in.
    intros c Hc. rewrite Forall_forall in H. specialize (H c Hc). lia.
  - apply Forall_forall. intros x Hx. apply in_map_iff in Hx. destruct Hx as (c & <- & Hc).
    rewrite Forall_forall in H. specialize (H c Hc). lia.
Qed.
Lemma letters_range s u : Forall (fun d => d < s) u -> Forall (fun c => 97 <= c < 97 + s) (letters u).
Proof. unfold letters. intros H. apply Forall_map. eapply Forall_impl; [|exact H]. simpl. intros; lia. Qed.

(** words of length n over the first s letters, in lexicographic order *)
Definition all_words (s n : nat) : list str := map (fun v => letters (digits s n v)) (seq 0 (s ^ n)).
Lemma all_words_in s n w : 0 < s ->
  (In w (all_words s n) <-> length w = n /\ Forall (fun c => 97 <= c < 97 + s) w).
Proof.
  intros Hs. unfold all_words. rewrite in_map_iff. split.
  - intros (v & <- & _). split; [unfold letters; now rewrite map_length, digits_length|].
    apply letters_range, digits_lt; auto.
  - intros (L & F). destruct (letters_surj s w F) as (u & <- & Lu & Fu).
    destruct (digits_surj s n Hs u ltac:(lia) Fu) as (v & Hv & <-). exists v. split; auto. apply in_seq. lia.
Qed.
Lemma all_words_sorted s n : 0 < s -> StronglySorted lex_lt (all_words s n).
Proof.
  intros Hs. apply SSorted_map_seq. intros i j _ H1 H2. apply letters_lt, digits_mono; auto; lia.
Qed.

(** ** enumerate *)
Lemma enum_line_ok s w : s <= 26 -> Forall (fun d => d < s) w -> enum_line w = Ok (letters w).
Proof.
  intros Hs F. unfold enum_line, letters. rewrite (for_push w (fun d => 97 + d)); [reflexivity|].
  intros i r Hi. rewrite Forall_forall in F. specialize (F i Hi). unfold add_u8.
  rewrite Nat.mod_small by lia. destruct (Nat.leb_spec 256 (97 + i)); [lia|]. cbn [bind].
  unfold utf8_char. destruct (Nat.ltb_spec (97 + i) 128); [reflexivity|lia].
Qed.

Lemma nth_mid {A} (l1 l2 : list A) x d : nth (length l1) (l1 ++ x :: l2) d = x.
Proof. rewrite app_nth2, Nat.sub_diag by lia. reflexivity. Qed.
Lemma upd_mid {A} (l1 l2 : list A) x y : upd (l1 ++ x :: l2) (length l1) y = l1 ++ y :: l2.
Proof. induction l1; simpl; congruence. Qed.

Lemma div_succ s v : 0 < s ->
  (v mod s + 1 < s -> (v + 1) / s = v / s /\ (v + 1) mod s = v mod s + 1) /\
  (s <= v mod s + 1 -> (v + 1) / s = v / s + 1 /\ (v + 1) mod s = 0).
Proof.
  intros Hs. pose proof (Nat.div_mod v s ltac:(lia)). pose proof (Nat.mod_upper_bound v s ltac:(lia)). split.
  - intros H1. split; symmetry.
    + apply (Nat.div_unique (v + 1) s (v / s) (v mod s + 1)); lia.
    + apply (Nat.mod_unique (v + 1) s (v / s) (v mod s + 1)); lia.
  - intros H1. split; symmetry.
    + apply (Nat.div_unique (v + 1) s (v / s + 1) 0); lia.
    + apply (Nat.mod_unique (v + 1) s (v / s + 1) 0); lia.
Qed.

Lemma enum_incr_loop s : 0 < s -> forall p v tl fuel, v < s ^ p -> p < fuel ->
  exists q ind, loop fuel (fun '(pos1, indices) =>
    if 0 <? pos1 then
      x <- get indices (pos1 - 1) ;;
      if x + 1 <? s then
        indices' <- set indices (pos1 - 1) (x + 1) ;; Ok (Brk (pos1, indices'))
      else
        indices' <- set indices (pos1 - 1) 0 ;; Ok (Cont (pos1 - 1, indices'))
    else Ok (Brk (pos1, indices))) (p, digits s p v ++ tl) = Ok (q, ind) /\
  (v + 1 < s ^ p -> 0 < q /\ ind = digits s p (v + 1) ++ tl) /\ (v + 1 = s ^ p -> q = 0).
Proof.
  intros Hs. induction p as [|p IH]; intros v tl fuel Hv Hf.
  - destruct fuel; [lia|]. exists 0, tl. cbn [loop bind digits app]. change (0 <? 0) with false. cbn [bind].
    split; [reflexivity|]. simpl in *. split; intros; auto; lia.
  - destruct fuel as [|fuel]; [lia|]. cbn [loop]. change (0 <? S p) with true. cbn beta iota.
    replace (S p - 1) with p by lia. cbn [digits]. rewrite <- app_assoc. cbn [app].
    pose proof (digits_length s p (v / s)) as L.
    pose proof (nth_mid (digits s p (v / s)) tl (v mod s) 0) as HN. rewrite L in HN.
    assert (HU : forall y, upd (digits s p (v / s) ++ v mod s :: tl) p y = digits s p (v / s) ++ y :: tl)
      by (intros y; rewrite <- L at 2; apply upd_mid).
    assert (HL : p < length (digits s p (v / s) ++ v mod s :: tl)) by (rewrite app_length, L; simpl; lia).
    rewrite (get_ok _ p 0) by exact HL. rewrite HN. cbn [bind].
    destruct (div_succ s v Hs) as (D1 & D2). cbn [Nat.pow] in *.
    pose proof (Nat.div_mod v s ltac:(lia)) as E.
    destruct (Nat.ltb_spec (v mod s + 1) s) as [C|C].
    + rewrite set_ok, HU by exact HL. cbn [bind]. destruct (D1 C) as (-> & ->).
      eexists _, _. split; [reflexivity|]. split.
      * intros _. split; [lia|]. now rewrite <- app_assoc.
      * intros H. exfalso. assert (v / s < s ^ p) by (apply Nat.div_lt_upper_bound; lia). nia.
    + rewrite set_ok, HU by exact HL. cbn [bind]. destruct (D2 C) as (-> & ->).
      assert (Hq : v / s < s ^ p) by (apply Nat.div_lt_upper_bound; lia).
      destruct (IH (v / s) (0 :: tl) fuel Hq ltac:(lia)) as (q & ind & E1 & E2 & E3).
      exists q, ind. split; [exact E1|]. pose proof (Nat.mod_upper_bound v s ltac:(lia)). split.
      * intros H1. destruct E2 as (E2a & E2b); [nia|]. split; [exact E2a|]. rewrite E2b, <- app_assoc. reflexivity.
      * intros H1. apply E3. nia.
Qed.

Lemma enum_incr_ok s n v : 0 < s -> v < s ^ n ->
  exists q ind, enum_incr s n (digits s n v) = Ok (q, ind) /\
  (v + 1 < s ^ n -> 0 < q /\ ind = digits s n (v + 1)) /\ (v + 1 = s ^ n -> q = 0).
Proof.
  intros Hs Hv. destruct (enum_incr_loop s Hs n v [] (S n) Hv ltac:(lia)) as (q & ind & E1 & E2 & E3).
  rewrite app_nil_r in *. exists q, ind. auto.
Qed.

Lemma lines_app a b : lines (a ++ b) = lines a ++ lines b.
Proof. unfold lines. now rewrite map_app, concat_app. Qed.

Lemma enumerate_loop s n : 1 <= s <= 26 -> forall k v out fuel, v + k = s ^ n -> 0 < k -> k <= fuel ->
  loop fuel (fun '(indices, out) =>
    s0 <- enum_line indices ;;
    let out := out ++ println s0 in
    '(pos1, indices') <- enum_incr s n indices ;;
    if pos1 =? 0 then Ok (Brk out) else Ok (Cont (indices', out))) (digits s n v, out) =
  Ok (out ++ lines (map (fun v => letters (digits s n v)) (seq v k))).
Proof.
  intros Hs. induction k as [|k IH]; intros v out fuel Hv Hk Hf; [lia|].
  destruct fuel as [|fuel]; [lia|]. cbn [loop].
  rewrite (enum_line_ok s) by (try apply digits_lt; lia). cbn [bind].
  destruct (enum_incr_ok s n v ltac:(lia) ltac:(lia)) as (q & ind & -> & E2 & E3). cbn [bind].
  destruct k as [|k].
  - rewrite E3 by lia. cbn [Nat.eqb bind seq map]. unfold lines, newline, println. cbn [map concat]. now rewrite app_nil_r.
  - destruct E2 as (Hq & ->); [lia|]. destruct (Nat.eqb_spec q 0); [lia|]. cbn [bind].
    rewrite IH by lia. cbn [seq map]. replace (v + 1) with (S v) by lia.
    unfold lines, newline. cbn [map concat]. unfold println. rewrite <- !app_assoc. reflexivity.
Qed.

Lemma enumerate_for_length_ok s n out fuel : 1 <= s <= 26 -> 1 <= n -> s ^ n <= fuel ->
  enumerate_for_length fuel s n out = Ok (out ++ lines (all_words s n)).
Proof.
  intros Hs Hn Hf. unfold enumerate_for_length. destruct (Nat.eqb_spec n 0); [lia|].
  rewrite <- (digits_zero s n) by lia. unfold all_words.
  apply enumerate_loop; auto. pose proof (Nat.pow_nonzero s n). lia.
Qed.

Lemma enumerate_all s fuel : 1 <= s <= 26 -> forall k a out, 1 <= a -> (forall n, n < a + k -> s ^ n <= fuel) ->
  for_in (seq a k) (fun len out => enumerate_for_length fuel s len out) out =
  Ok (out ++ lines (flat_map (all_words s) (seq a k))).
Proof.
  intros Hs. induction k as [|k IH]; intros a out Ha Hf; simpl; [now rewrite app_nil_r|].
  rewrite enumerate_for_length_ok by (auto; apply Hf; lia). cbn [bind].
  rewrite IH by (try lia; intros; apply Hf; lia). now rewrite lines_app, app_assoc.
Qed.

Lemma all_words_shortlex s k : 0 < s -> forall a, StronglySorted shortlex (flat_map (all_words s) (seq a k)).
Proof.
  intros Hs. induction k as [|k IH]; intros a; simpl; [constructor|].
  apply SSorted_app; [|apply IH|].
  - unfold all_words. apply SSorted_map_seq. intros i j _ H1 H2. right.
    split; [unfold letters; now rewrite !map_length, !digits_length|].
    apply letters_lt, digits_mono; auto; lia.
  - intros x y Hx Hy. left. apply all_words_in in Hx; auto. apply in_flat_map in Hy.
    destruct Hy as (n & Hn & Hy). apply in_seq in Hn. apply all_words_in in Hy; auto. lia.
Qed.

Lemma enumerate_main_ok s mn mx fuel : 1 <= s <= 26 -> 1 <= mn <= mx -> s ^ mx <= fuel ->
  exists ws, enumerate_main fuel s mn (Some mx) = Ok (Some (lines ws)) /\ StronglySorted shortlex ws /\
    forall w, In w ws <-> mn <= length w <= mx /\ Forall (fun c => 97 <= c < 97 + s) w.
Proof.
  intros Hs Hm Hf. exists (flat_map (all_words s) (seq mn (mx + 1 - mn))). split; [|split].
  - unfold enumerate_main.
    destruct (Nat.eqb_spec s 0); [lia|]. destruct (Nat.ltb_spec 26 s); [lia|]. cbn [orb].
    destruct (Nat.eqb_spec mn 0); [lia|]. destruct (Nat.ltb_spec mx mn); [lia|].
    unfold range. rewrite enumerate_all; [reflexivity|lia|lia|].
    intros m Hm'. transitivity (s ^ mx); [|exact Hf]. apply Nat.pow_le_mono_r; lia.
  - apply all_words_shortlex. lia.
  - intros w. rewrite in_flat_map. split.
    + intros (n & Hn & Hw). apply in_seq in Hn. apply all_words_in in Hw; [|lia]. split; [lia|tauto].
    + intros (L & F). exists (length w). split; [apply in_seq; lia|]. apply all_words_in; [lia|]. auto.
Qed.

(** ** generator_kmer *)
Lemma kmer_text_ok s n num : 0 < s <= 159 -> kmer_text n s num = Ok (rev (letters (digits s n num))).
Proof.
  intros Hs. unfold kmer_text.
  assert (G : forall k i tl rem, length tl = k ->
    forall pre, length pre = i ->
    for_in (seq i k) (fun i '(text, remainder) =>
     r <- mod_ remainder s ;;
     c <- add_u8 97 (r mod 256) ;;
     text' <- set text i c ;;
     Ok (text', remainder / s)) (pre ++ tl, rem) = Ok (pre ++ rev (letters (digits s k rem)), rem / s ^ k)).
  { induction k as [|k IH]; intros i tl rem L pre Lp.
    - destruct tl; [|discriminate]. cbn [seq for_in digits letters map rev Nat.pow]. now rewrite Nat.div_1_r.
    - destruct tl as [|x tl]; [discriminate|]. cbn [seq for_in]. rewrite mod_ok by lia. cbn [bind].
      pose proof (Nat.mod_upper_bound rem s ltac:(lia)).
      rewrite (Nat.mod_small (rem mod s) 256) by lia. unfold add_u8 at 1.
      destruct (Nat.leb_spec 256 (97 + rem mod s)); [lia|]. cbn [bind].
      rewrite set_ok by (rewrite app_length; simpl; lia). cbn [bind].
      rewrite <- Lp at 2. rewrite upd_mid.
      change (pre ++ 97 + rem mod s :: tl) with (pre ++ [97 + rem mod s] ++ tl). rewrite app_assoc.
      rewrite (IH (S i) tl (rem / s) ltac:(simpl in L; lia) (pre ++ [97 + rem mod s])) by (rewrite app_length; simpl; lia).
      cbn [digits Nat.pow]. unfold letters. rewrite map_app, rev_app_distr. cbn [map rev app].
      rewrite <- app_assoc. cbn [app]. now rewrite Nat.div_div by (try lia; apply Nat.pow_nonzero; lia). }
  unfold range. rewrite Nat.sub_0_r. pose proof (G n 0 (repeat 97 n) num (repeat_length _ _) [] eq_refl) as E. cbn [app] in E. rewrite E. reflexivity.
Qed.

Lemma kmer_generator_ok s n : s <= 159 -> (N.of_nat s ^ N.of_nat n < 2 ^ 64)%N ->
  kmer_generator n s = Ok (map (@rev nat) (all_words s n)).
Proof.
  intros Hs Hn. unfold kmer_generator, pow_usize. change (2 ^ 64)%N with 18446744073709551616%N in Hn.
  apply N.ltb_lt in Hn. rewrite Hn. cbn [bind]. unfold range. rewrite Nat.sub_0_r. unfold all_words. rewrite map_map.
  rewrite (for_push _ (fun v => rev (letters (digits s n v)))); [reflexivity|].
  intros i r Hi. apply in_seq in Hi.
  destruct s as [|s].
  - destruct n; [|simpl in Hi; lia]. reflexivity.
  - rewrite kmer_text_ok by lia. reflexivity.
Qed.

Lemma kmer_generator_overflow s n : (2 ^ 64 <= N.of_nat s ^ N.of_nat n)%N -> kmer_generator n s = Panic.
Proof.
  intros H. unfold kmer_generator, pow_usize. change (2 ^ 64)%N with 18446744073709551616%N in H.
  apply N.ltb_ge in H. now rewrite H.
Qed.

Lemma all_words_zero n w : In w (all_words 0 n) <-> length w = n /\ Forall (fun c => 97 <= c < 97 + 0) w.
Proof.
  destruct n as [|n]; simpl.
  - destruct w; simpl; [split; [split; [reflexivity|constructor]|auto]|]. split; [intros [H|[]]; discriminate|].
    intros (H & _). discriminate.
  - split; [intros []|]. intros (L & F). destruct w; [discriminate|]. inversion F; subst. lia.
Qed.

Lemma SSorted_NoDup {B} (R : B -> B -> Prop) (l : list B) : (forall x, ~ R x x) -> StronglySorted R l -> NoDup l.
Proof.
  intros HR. induction 1 as [|x l H IH F]; constructor; auto.
  intros Hin. rewrite Forall_forall in F. exact (HR x (F x Hin)).
Qed.
Lemma SSorted_map {A B} (R : A -> A -> Prop) (Q : B -> B -> Prop) (f : A -> B) (l : list A) :
  (forall x y, R x y -> Q (f x) (f y)) -> StronglySorted R l -> StronglySorted Q (map f l).
Proof.
  intros HR. induction 1 as [|x l H IH F]; simpl; constructor; auto.
  apply Forall_map. eapply Forall_impl; [|exact F]. simpl. auto.
Qed.

Lemma kmer_spec s n : s <= 159 -> (N.of_nat s ^ N.of_nat n < 2 ^ 64)%N ->
  exists L, kmer_generator n s = Ok L /\ StronglySorted (fun u v => lex_lt (rev u) (rev v)) L /\
    forall w, In w L <-> length w = n /\ Forall (fun c => 97 <= c < 97 + s) w.
Proof.
  intros Hs Hn. exists (map (@rev nat) (all_words s n)). split; [now apply kmer_generator_ok|]. split.
  - apply (SSorted_map lex_lt); [intros x y; now rewrite !rev_involutive|].
    destruct s as [|s]; [|apply all_words_sorted; lia].
    destruct n; simpl; repeat constructor.
  - intros w. rewrite in_map_iff.
    assert (HI : forall w, In w (all_words s n) <-> length w = n /\ Forall (fun c => 97 <= c < 97 + s) w)
      by (intros; destruct s; [apply all_words_zero|apply all_words_in; lia]).
    split.
    + intros (x & <- & Hx). apply HI in Hx. rewrite rev_length. split; [tauto|]. apply Forall_rev. tauto.
    + intros (L & F). exists (rev w). split; [apply rev_involutive|]. apply HI. rewrite rev_length.
      split; auto. now apply Forall_rev.
Qed.

Lemma kmer_main_ok s n : s <= 31 -> (N.of_nat s ^ N.of_nat n < 2 ^ 64)%N ->
  exists L, kmer_generator n s = Ok L /\ kmer_main n s = Ok (lines L).
Proof.
  intros Hs Hn. destruct (kmer_spec s n ltac:(lia) Hn) as (L & E & _ & HL).
  exists L. split; [exact E|]. unfold kmer_main. rewrite E. cbn [bind].
  assert (G : forall l out, (forall w, In w l -> Forall (fun c => c < 128) w) ->
     for_in l (fun t out => assert_ (forallb (fun c => c <? 128) t) ;;; Ok (out ++ println t)) out = Ok (out ++ lines l)).
  { induction l as [|w l IH]; intros out Hl; simpl; [now rewrite app_nil_r|].
    assert (Hb : forallb (fun c => c <? 128) w = true).
    { apply forallb_forall. intros c Hc. apply Nat.ltb_lt. pose proof (Hl w (or_introl eq_refl)) as F.
      rewrite Forall_forall in F. auto. }
    rewrite Hb. cbn [assert_ bind]. rewrite IH by (intros; apply Hl; simpl; auto).
    unfold lines, newline, println. cbn [map concat]. now rewrite <- !app_assoc. }
  rewrite G; [reflexivity|]. intros w Hw. apply HL in Hw. destruct Hw as (_ & F).
  eapply Forall_impl; [|exact F]. simpl. intros; lia.
Qed.
