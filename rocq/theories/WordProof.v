(** WordProof.v : buffers, Fibonacci words and numbers (word.rs:13-70). *)
From Verif Require Import Base SpecStr SpecWord ModelWord.
From Coq Require Import NArith ZArith.

(** ** buffers *)
Lemma set_next (text : str) t c : t < length text ->
  exists text', set text t c = Ok text' /\ length text' = length text /\
    firstn (S t) text' = firstn t text ++ [c] /\
    (forall i, i <= t -> firstn i text' = firstn i text) /\
    (forall i, i <> t -> nth i text' 0 = nth i text 0).
Proof.
  intros Ht. exists (upd text t c).
  assert (Hn : forall i, i <> t -> nth i (upd text t c) 0 = nth i text 0) by (intros i Hi; apply nth_upd_ne; lia).
  assert (Hf : forall i, i <= t -> firstn i (upd text t c) = firstn i text).
  { intros i Hi. apply (nth_ext_len _ _ 0).
    - rewrite !firstn_length, upd_length. reflexivity.
    - intros j Hj. rewrite firstn_length in Hj. rewrite !nth_firstn by lia. apply Hn. lia. }
  rewrite set_ok by exact Ht. repeat split; auto using upd_length.
  rewrite (firstn_snoc_nth _ t 0) by (rewrite upd_length; exact Ht).
  rewrite Hf by lia. now rewrite nth_upd_eq.
Qed.

Lemma firstn_le_eq {A} (l l' : list A) i t : i <= t -> firstn t l = firstn t l' -> firstn i l = firstn i l'.
Proof.
  intros H E. rewrite <- (Nat.min_l i t) by exact H. rewrite <- !firstn_firstn. now rewrite E.
Qed.

Lemma vec_zero_ok n : (n < 9223372036854775808)%N -> vec_zero n = Ok (repeat 0 (N.to_nat n)).
Proof.
  intros H. unfold vec_zero, capacity. destruct (N.ltb_spec n 9223372036854775808); [|lia]. reflexivity.
Qed.
Lemma vec_zero_panic n : (9223372036854775808 <= n)%N -> vec_zero n = Panic.
Proof.
  intros H. unfold vec_zero, capacity. destruct (N.ltb_spec n 9223372036854775808); [lia|]. reflexivity.
Qed.

(** ** prefixes *)
Lemma prefix_refl w : prefix w w.
Proof. exists []. now rewrite app_nil_r. Qed.
Lemma prefix_trans u v w : prefix u v -> prefix v w -> prefix u w.
Proof. intros (r & ->) (r' & ->). exists (r ++ r'). now rewrite app_assoc. Qed.
Lemma prefix_app u v : prefix u (u ++ v).
Proof. now exists v. Qed.
Lemma prefix_firstn i w : prefix (firstn i w) w.
Proof. exists (skipn i w). symmetry. apply firstn_skipn. Qed.
Lemma prefix_eq p w : prefix p w -> p = firstn (length p) w.
Proof. intros (r & ->). rewrite firstn_app, Nat.sub_diag, firstn_all. simpl. now rewrite app_nil_r. Qed.
Lemma prefix_len p q w : prefix p w -> prefix q w -> length p <= length q -> prefix p q.
Proof.
  intros Hp Hq H. apply prefix_eq in Hp. apply prefix_eq in Hq. rewrite Hp.
  exists (skipn (length p) q). rewrite <- (firstn_skipn (length p) q) at 1. f_equal.
  rewrite Hq at 1. rewrite firstn_firstn. now rewrite Nat.min_l.
Qed.
Lemma prefix_length p w : prefix p w -> length p <= length w.
Proof. intros (r & ->). rewrite app_length. lia. Qed.
Lemma prefix_flat_map h p w : prefix p w -> prefix (flat_map h p) (flat_map h w).
Proof. intros (r & ->). rewrite flat_map_app. apply prefix_app. Qed.
Lemma prefix_nth p w i : prefix p w -> i < length p -> nth i p 0 = nth i w 0.
Proof. intros (r & ->) H. now rewrite app_nth1. Qed.

(** ** Fibonacci numbers *)
Lemma fib_SS n : fib (S (S n)) = (fib (S n) + fib n)%N.
Proof. reflexivity. Qed.
Lemma fib_word_SS n : fib_word (S (S n)) = fib_word (S n) ++ fib_word n.
Proof. reflexivity. Qed.
Lemma fib_word_length k : N.of_nat (length (fib_word k)) = fib (k + 2).
Proof.
  assert (G : N.of_nat (length (fib_word k)) = fib (k + 2) /\ N.of_nat (length (fib_word (S k))) = fib (S k + 2)).
  { induction k as [|k (IH1 & IH2)]; [split; reflexivity|]. split; [exact IH2|].
    rewrite fib_word_SS, app_length, Nat2N.inj_add, IH1, IH2. reflexivity. }
  apply G.
Qed.
Lemma fib_mono n : (fib n <= fib (S n))%N.
Proof. destruct n as [|n]; [cbn; lia|]. rewrite fib_SS. lia. Qed.
Lemma fib_mono_le m n : m <= n -> (fib m <= fib n)%N.
Proof. induction 1 as [|n H IH]; [lia|]. pose proof (fib_mono n). lia. Qed.

(** fast computation for numeric facts *)
Fixpoint fib2 (n : nat) : N * N := match n with O => (0, 1)%N | S m => let '(a, b) := fib2 m in (b, a + b)%N end.
Lemma fib2_ok n : fib2 n = (fib n, fib (S n)).
Proof. induction n as [|n IH]; [reflexivity|]. cbn [fib2]. rewrite IH. rewrite fib_SS. f_equal. lia. Qed.
Lemma fib_fast n : fib n = fst (fib2 n).
Proof. now rewrite fib2_ok. Qed.

Definition fibnum_body : nat -> N * N * N -> res (N * N * N) := fun _ '(sum, cur, old) =>
      s <- add_usize cur old ;; Ok (s, s, cur).
Lemma fibnum_loop : forall m lo i sum, (sum = fib (S i) \/ m <> 0) ->
  (fib (S i + m) < 18446744073709551616)%N ->
  for_in (seq lo m) fibnum_body (sum, fib (S i), fib i) = Ok (fib (S i + m), fib (S i + m), fib (i + m)).
Proof.
  induction m as [|m IH]; intros lo i sum Hs HB.
  - rewrite !Nat.add_0_r. cbn [seq for_in]. destruct Hs as [->|]; [reflexivity|easy].
  - cbn [seq for_in]. unfold fibnum_body at 1. unfold add_usize.
    assert (E : (fib (S i) + fib i)%N = fib (S (S i))) by reflexivity. rewrite E.
    pose proof (fib_mono_le (S (S i)) (S i + S m) ltac:(lia)).
    destruct (N.leb_spec 18446744073709551616 (fib (S (S i)))); [lia|]. cbn [bind].
    rewrite IH; [|now left|now replace (S (S i) + m) with (S i + S m) by lia].
    replace (S (S i) + m) with (S i + S m) by lia. replace (S i + m) with (i + S m) by lia. reflexivity.
Qed.
Lemma fibnum_loop_panic : forall m lo i sum, (fib (S i) < 18446744073709551616)%N ->
  (18446744073709551616 <= fib (S i + m))%N ->
  for_in (seq lo m) fibnum_body (sum, fib (S i), fib i) = Panic.
Proof.
  induction m as [|m IH]; intros lo i sum H0 HB.
  - rewrite Nat.add_0_r in HB. lia.
  - cbn [seq for_in]. unfold fibnum_body at 1. unfold add_usize.
    assert (E : (fib (S i) + fib i)%N = fib (S (S i))) by reflexivity. rewrite E.
    destruct (N.leb_spec 18446744073709551616 (fib (S (S i)))) as [C|C]; [reflexivity|]. cbn [bind].
    apply IH; [exact C|]. now replace (S (S i) + m) with (S i + S m) by lia.
Qed.
Theorem fibonacci_number_ok k : k <= 91 -> fibonacci_number k = Ok (fib (k + 2)).
Proof.
  intros Hk. unfold fibonacci_number. destruct (Nat.eqb_spec k 0) as [->|Hk0]; [reflexivity|].
  unfold add_u8. destruct (Nat.leb_spec 256 (k + 1)); [lia|]. cbn [bind]. unfold range. rewrite Nat.sub_0_r.
  change (1%N, 1%N, 0%N) with (1%N, fib 1, fib 0).
  pose proof (fibnum_loop (k + 1) 0 0 1%N) as L. unfold fibnum_body in L. rewrite L.
  - cbn [bind]. f_equal. f_equal. lia.
  - right. lia.
  - replace (1 + (k + 1)) with (k + 2) by lia. pose proof (fib_mono_le (k + 2) 93 ltac:(lia)) as H1.
    rewrite (fib_fast 93) in H1. vm_compute (fst (fib2 93)) in H1. lia.
Qed.
Theorem fibonacci_number_overflow k : 92 <= k -> fibonacci_number k = Panic.
Proof.
  intros Hk. unfold fibonacci_number. destruct (Nat.eqb_spec k 0) as [->|Hk0]; [lia|].
  unfold add_u8. destruct (Nat.leb_spec 256 (k + 1)); [reflexivity|]. cbn [bind]. unfold range. rewrite Nat.sub_0_r.
  change (1%N, 1%N, 0%N) with (1%N, fib 1, fib 0).
  pose proof (fibnum_loop_panic (k + 1) 0 0 1%N) as L. unfold fibnum_body in L. rewrite L; [reflexivity|cbn; lia|].
  replace (1 + (k + 1)) with (k + 2) by lia. pose proof (fib_mono_le 94 (k + 2) ltac:(lia)) as H1.
  rewrite (fib_fast 94) in H1. vm_compute (fst (fib2 94)) in H1. lia.
Qed.

(** ** Fibonacci words *)
Definition fphi (c : nat) : str := if c =? 97 then [97; 98] else [97].
Definition fpsi (c : nat) : str := if c =? 97 then [98; 97] else [97].
Lemma phi_psi w : flat_map fphi w ++ [97] = 97 :: flat_map fpsi w.
Proof.
  induction w as [|c w IH]; [reflexivity|]. cbn [flat_map]. rewrite <- app_assoc, IH.
  unfold fphi, fpsi. destruct (c =? 97); reflexivity.
Qed.
Lemma fphi_fib k : flat_map fphi (fib_word k) = fib_word (S k).
Proof.
  assert (G : flat_map fphi (fib_word k) = fib_word (S k) /\ flat_map fphi (fib_word (S k)) = fib_word (S (S k))).
  { induction k as [|k (IH1 & IH2)]; [split; reflexivity|]. split; [exact IH2|].
    rewrite (fib_word_SS k), flat_map_app, IH1, IH2. reflexivity. }
  apply G.
Qed.
Lemma fib_word_prefix k : prefix (fib_word k) (fib_word (S k)).
Proof. destruct k as [|k]; [now exists [98]|]. rewrite fib_word_SS. apply prefix_app. Qed.
Lemma fib_word_ne k : 1 <= length (fib_word k).
Proof.
  pose proof (fib_word_length k) as H. pose proof (fib_mono_le 2 (k + 2) ltac:(lia)) as H1. cbn in H1. lia.
Qed.

Section FibWord.
Variables (k L : nat).
Let fw := fib_word (k + 2).
Definition finv (text : str) (s t : nat) : Prop :=
  length text = L /\ s < t <= L /\ t <= S (length (fib_word k)) /\
  firstn t text = 97 :: flat_map fpsi (firstn s text) /\ prefix (firstn t text) fw.

Lemma fw_len : S (length (fib_word k)) <= length fw.
Proof.
  unfold fw. replace (k + 2) with (S (S k)) by lia. rewrite fib_word_SS, app_length.
  pose proof (fib_word_ne k). pose proof (prefix_length _ _ (fib_word_prefix k)). lia.
Qed.

(** appending the image of the letter at [s] keeps the invariant *)
Lemma finv_step text s t text' c : finv text s t -> c = nth s text 0 ->
  length text' = L -> firstn (t + length (fpsi c)) text' = firstn t text ++ fpsi c ->
  firstn t text' = firstn t text ->
  t + length (fpsi c) <= S (length (fib_word k)) -> t + length (fpsi c) <= L ->
  finv text' (S s) (t + length (fpsi c)).
Proof.
  intros (H1 & H2 & H3 & H4 & H5) Ec L' F' Ft Hb HbL.
  assert (1 <= length (fpsi c)) by (unfold fpsi; destruct (c =? 97); simpl; lia).
  assert (Es : firstn (S s) text' = firstn s text ++ [c]).
  { rewrite (firstn_le_eq text' text (S s) t) by (lia || exact Ft).
    rewrite (firstn_snoc_nth _ s 0) by lia. now rewrite Ec. }
  assert (E' : firstn (t + length (fpsi c)) text' = 97 :: flat_map fpsi (firstn (S s) text')).
  { rewrite F', Es, flat_map_app, H4. simpl. now rewrite app_nil_r. }
  repeat split; [exact L'|lia|lia|exact Hb|exact E'|].
  assert (P1 : prefix (firstn (S s) text') fw).
  { eapply prefix_trans; [|exact H5]. rewrite (firstn_le_eq text' text (S s) t) by (lia || exact Ft).
    replace (firstn (S s) text) with (firstn (S s) (firstn t text)); [apply prefix_firstn|].
    rewrite firstn_firstn. now rewrite Nat.min_l by lia. }
  assert (P2 : prefix (97 :: flat_map fpsi (firstn (S s) text')) (fib_word (S (k + 2)) ++ [97])).
  { rewrite <- fphi_fib, phi_psi. destruct (prefix_flat_map fpsi _ _ P1) as (r & Er). exists r. fold fw. rewrite Er. reflexivity. }
  rewrite E'. eapply prefix_len; [exact P2| |].
  - eapply prefix_trans; [apply (fib_word_prefix (k + 2))|apply prefix_app].
  - rewrite <- E', firstn_length. pose proof fw_len. unfold fw in *. lia.
Qed.

(** filling up to [new] either writes outside the buffer (and panics) or keeps the invariant *)
Lemma fib_fill_weak new text s t : finv text s t -> new <= length (fib_word k) ->
  fib_fill new text s t = Panic /\ L <= length (fib_word k) \/
  exists text' s' t', fib_fill new text s t = Ok (text', s', t') /\ finv text' s' t' /\ new <= t'.
Proof.
  intros HI Hnew. unfold fib_fill.
  match goal with |- loop ?f ?b _ = _ /\ _ \/ _ => set (body := b) end.
  assert (G : forall fuel text s t, finv text s t -> new - t < fuel -> 
     loop fuel body (text, s, t) = Panic /\ L <= length (fib_word k) \/
     exists text' s' t', loop fuel body (text, s, t) = Ok (text', s', t') /\ finv text' s' t' /\ new <= t').
  2: apply G; [exact HI|lia].
  clear text s t HI. intros fuel. induction fuel as [|fuel IH]; intros text s t HI Hf; [lia|].
  pose proof HI as (H1 & H2 & H3 & H4 & H5). cbn [loop]. unfold body at 1 3.
  destruct (Nat.ltb_spec t new) as [C|C]; [|right; cbn [bind]; exists text, s, t; auto].
  rewrite (get_ok _ _ 0) by lia. cbn [bind].
  destruct (nth s text 0 =? 97) eqn:Ec.
  - destruct (Nat.le_gt_cases L t) as [O|O]; [left; rewrite set_panic by lia; cbn [bind]; split; [reflexivity|lia]|].
    destruct (set_next text t 98) as (t1 & E1 & L1 & F1 & G1 & _); [lia|].
    rewrite E1. cbn [bind]. destruct (Nat.le_gt_cases L (t + 1)) as [O1|O1].
    { left. rewrite set_panic by lia. cbn [bind]. split; [reflexivity|lia]. }
    destruct (set_next t1 (t + 1) 97) as (t2 & E2 & L2 & F2 & G2 & _); [lia|].
    rewrite E2. cbn [bind]. apply IH; [|lia].
    rewrite Nat.add_1_r. assert (Ep : fpsi (nth s text 0) = [98; 97]) by (unfold fpsi; now rewrite Ec).
    replace (t + 2) with (t + length (fpsi (nth s text 0))) by now rewrite Ep.
    apply (finv_step text s t t2 _ HI eq_refl).
    + lia.
    + rewrite Ep. cbn [length]. replace (t + 2) with (S (t + 1)) by lia. rewrite F2.
      replace (t + 1) with (S t) by lia. rewrite F1, <- app_assoc. reflexivity.
    + rewrite G2 by lia. apply G1. lia.
    + rewrite Ep. simpl. lia.
    + rewrite Ep. simpl. lia.
  - destruct (Nat.le_gt_cases L t) as [O|O]; [left; rewrite set_panic by lia; cbn [bind]; split; [reflexivity|lia]|].
    destruct (set_next text t 97) as (t1 & E1 & L1 & F1 & G1 & _); [lia|].
    rewrite E1. cbn [bind]. apply IH; [|lia].
    rewrite Nat.add_1_r. assert (Ep : fpsi (nth s text 0) = [97]) by (unfold fpsi; now rewrite Ec).
    replace (t + 1) with (t + length (fpsi (nth s text 0))) by now rewrite Ep.
    apply (finv_step text s t t1 _ HI eq_refl).
    + lia.
    + rewrite Ep. cbn [length]. replace (t + 1) with (S t) by lia. exact F1.
    + apply G1. lia.
    + rewrite Ep. simpl. lia.
    + rewrite Ep. simpl. lia.
Qed.
End FibWord.

(** for every buffer length: the word or, only when the buffer is too short, a panic *)
Theorem fibonacci_word_in_spec len k : k < 255 -> (0 < len < 9223372036854775808)%N ->
  fibonacci_word_in len k = Ok (fib_word k) /\ (fib (k + 2) <= len)%N /\
    (len = fib (k + 2) -> exists u, fib_word k = u ++ [97]) \/
  fibonacci_word_in len k = Panic /\ (len <= fib (k + 2))%N.
Proof.
  intros Hk H2. unfold fibonacci_word_in. rewrite vec_zero_ok by lia. cbn [bind].
  set (L := N.to_nat len).
  destruct (set_next (repeat 0 L) 0 97) as (t0 & E0 & L0 & F0 & _); [rewrite repeat_length; lia|].
  rewrite E0. cbn [bind]. unfold add_u8. destruct (Nat.leb_spec 256 (k + 1)); [lia|]. cbn [bind].
  rewrite repeat_length in L0.
  match goal with |- bind ?e _ = _ /\ _ \/ _ => cut (e = Panic /\ L <= length (fib_word k) \/ 
     exists text s t prev cur, e = Ok (text, s, t, prev, cur) /\
     finv k L text s t /\ cur = N.to_nat (fib (S (k + 1))) /\ cur <= t) end.
  { pose proof (fib_word_length k) as E.
    intros [(-> & HL)|(text & s & t & prev & cur & -> & (I1 & I2 & I3 & I4 & I5) & Hc & Hct)];
      [right; cbn [bind]; split; [reflexivity|lia]|]. left. cbn [bind].
    assert (Ecur : cur = length (fib_word k)).
    { replace (S (k + 1)) with (k + 2) in Hc by lia. lia. }
    assert (EQ : firstn cur text = fib_word k).
    2: { split; [now f_equal|]. split; [lia|]. intros El. assert (t = cur) by lia. subst t.
         exists (flat_map fphi (firstn s text)). now rewrite <- EQ, I4, <- phi_psi. }
    assert (P : prefix (firstn cur text) (fib_word (k + 2))).
    { eapply prefix_trans; [|exact I5]. exists (skipn cur (firstn t text)).
      rewrite <- (firstn_skipn cur (firstn t text)) at 1. rewrite firstn_firstn. now rewrite Nat.min_l by lia. }
    assert (Q : prefix (fib_word k) (fib_word (k + 2))).
    { replace (k + 2) with (S (S k)) by lia. eapply prefix_trans; apply fib_word_prefix. }
    apply prefix_eq in P. apply prefix_eq in Q. rewrite P, Q. f_equal. rewrite firstn_length. lia. }
  unfold range. rewrite Nat.sub_0_r.
  match goal with |- for_in _ ?b _ = _ /\ _ \/ _ => set (body := b) end.
  assert (G : forall n i text s t prev cur, i + n = k + 1 -> 
      finv k L text s t -> prev = N.to_nat (fib i) -> cur = N.to_nat (fib (S i)) -> (n = 0 -> cur <= t) ->
      for_in (seq i n) body (text, s, t, prev, cur) = Panic /\ L <= length (fib_word k) \/
      exists text' s' t' prev' cur', for_in (seq i n) body (text, s, t, prev, cur) = Ok (text', s', t', prev', cur') /\
       finv k L text' s' t' /\ cur' = N.to_nat (fib (S (k + 1))) /\ cur' <= t').
  { induction n as [|n IH]; intros i text s t prev cur Hi HI Hp Hc Hn.
    - right. cbn [seq for_in]. exists text, s, t, prev, cur. replace (k + 1) with i by lia. auto.
    - assert (En : cur + prev = N.to_nat (fib (S (S i)))) by (rewrite fib_SS; lia).
      assert (Hnew : cur + prev <= length (fib_word k)).
      { rewrite En. pose proof (fib_mono_le (S (S i)) (k + 2) ltac:(lia)). pose proof (fib_word_length k). lia. }
      cbn [seq for_in]. unfold body at 1 3. 
      destruct (fib_fill_weak k L (cur + prev) text s t HI Hnew) as [(-> & HL)|(text' & s' & t' & -> & HI' & Ht')].
      + left. cbn [bind]. auto.
      + cbn [bind]. fold body. apply IH; auto; lia. }
  apply G; auto.
  - split; [exact L0|]. split; [lia|]. split; [lia|]. split; [exact F0|]. rewrite F0. simpl.
    replace (k + 2) with (S (S k)) by lia. eapply prefix_trans; [|apply fib_word_prefix].
    clear. induction k as [|j IH]; [now exists [98]|]. eapply prefix_trans; [exact IH|]. apply fib_word_prefix.
Qed.
Theorem fibonacci_word_in_ok len k : k < 255 -> (fib (k + 2) < len)%N -> (len < 9223372036854775808)%N ->
  fibonacci_word_in len k = Ok (fib_word k).
Proof.
  intros Hk H1 H2. destruct (fibonacci_word_in_spec len k Hk ltac:(lia)) as [(E & _)|(_ & E)]; [exact E|lia].
Qed.
Theorem fibonacci_word_in_panic len k : k < 255 -> (0 < len < fib (k + 2))%N -> (len < 9223372036854775808)%N ->
  fibonacci_word_in len k = Panic.
Proof.
  intros Hk H1 H2. destruct (fibonacci_word_in_spec len k Hk ltac:(lia)) as [(_ & E)|(E & _)]; [lia|exact E].
Qed.

(** the floating-point estimate is large enough up to k = 74 *)
Definition est (k : nat) : N := f64_as_usize (fadd (fibonacci_number_estimate (k + 2)) f_one).
Lemma est_ok k : k <= 74 -> (fib (k + 2) <= est k)%N /\ (est k + 1 < 9223372036854775808)%N.
Proof.
  intros Hk.
  assert (G : forallb (fun k => (fst (fib2 (k + 2)) <=? est k)%N && (est k + 1 <? 9223372036854775808)%N) (seq 0 75) = true)
    by (vm_compute; reflexivity).
  rewrite forallb_forall in G. specialize (G k). rewrite in_seq in G. specialize (G ltac:(lia)).
  apply andb_prop in G. destruct G as (G1 & G2). rewrite fib_fast. split; [now apply N.leb_le|now apply N.ltb_lt].
Qed.
Theorem fibonacci_word_ok k : k <= 74 -> fibonacci_word k = Ok (fib_word k).
Proof.
  intros Hk. destruct (est_ok k Hk) as (E1 & E2). unfold fibonacci_word. unfold add_u8.
  destruct (Nat.leb_spec 256 (k + 2)); [lia|]. cbn [bind]. fold (est k). unfold add_usize.
  destruct (N.leb_spec 18446744073709551616 (est k + 1)); [lia|]. cbn [bind].
  apply fibonacci_word_in_ok; lia.
Qed.

(** from k = 78 on the floating-point estimate is too small (or exceeds the address space): a panic *)
Theorem fibonacci_word_panic k : 78 <= k -> fibonacci_word k = Panic.
Proof.
  intros Hk. unfold fibonacci_word. unfold add_u8 at 1.
  destruct (Nat.leb_spec 256 (k + 2)) as [|C]; [reflexivity|]. cbn [bind]. fold (est k). 
  assert (G : forallb (fun k => (18446744073709551616 <=? est k + 1)%N || (9223372036854775808 <=? est k + 1)%N ||
     (est k + 1 <? fst (fib2 (k + 2)))%N) (seq 78 176) = true) by (vm_compute; reflexivity).
  rewrite forallb_forall in G. specialize (G k). rewrite in_seq in G. specialize (G ltac:(lia)).
  unfold add_usize. destruct (N.leb_spec 18446744073709551616 (est k + 1)); [reflexivity|]. cbn [bind].
  destruct (N.leb_spec 9223372036854775808 (est k + 1)).
  { unfold fibonacci_word_in. now rewrite vec_zero_panic. }
  rewrite <- fib_fast in G. 
  destruct (N.leb_spec 18446744073709551616 (est k + 1)) in G; [lia|].
  destruct (N.leb_spec 9223372036854775808 (est k + 1)) in G; [lia|]. cbn [orb] in G. apply N.ltb_lt in G.
  assert (0 < est k + 1)%N by lia. clear -G C H H0 H3.
  apply fibonacci_word_in_panic; lia.
Qed.
(** between 75 and 77 the estimate is the length itself, except that it is one more for k = 76 *)
Lemma fib_word_ends_b j : exists u, fib_word (2 * j + 1) = u ++ [98].
Proof.
  induction j as [|j (u & IH)]; [now exists [97]|]. replace (2 * S j + 1) with (S (S (2 * j + 1))) by lia.
  rewrite fib_word_SS, IH. exists (fib_word (S (2 * j + 1)) ++ u). now rewrite app_assoc.
Qed.
Lemma fibonacci_word_in_exact_odd len k : k < 255 -> Nat.odd k = true -> len = fib (k + 2) -> (len < 9223372036854775808)%N ->
  fibonacci_word_in len k = Panic.
Proof.
  intros Hk Ho El H2. assert (0 < len)%N.
  { pose proof (fib_word_length k) as HL. pose proof (fib_word_ne k). destruct (fib_word k); [easy|]. simpl in HL. lia. }
  destruct (fibonacci_word_in_spec len k Hk ltac:(lia)) as [(_ & _ & E)|(E & _)]; [|exact E].
  exfalso. destruct (E El) as (u & Eu). apply Nat.odd_spec in Ho. destruct Ho as (j & ->).
  destruct (fib_word_ends_b j) as (v & Ev). rewrite Ev in Eu. apply app_inj_tail in Eu. now destruct Eu.
Qed.
Lemma fibonacci_word_76 : fibonacci_word 76 = Ok (fib_word 76).
Proof.
  unfold fibonacci_word. change (add_u8 76 2) with (Ok 78). cbn [bind]. change 78 with (76 + 2) at 1. fold (est 76).
  assert (G : (fst (fib2 (76 + 2)) <? est 76 + 1)%N && (est 76 + 1 <? 9223372036854775808)%N = true) by (vm_compute; reflexivity).
  rewrite <- fib_fast in G. apply andb_prop in G. destruct G as (G1 & G2). apply N.ltb_lt in G1, G2.
  unfold add_usize. destruct (N.leb_spec 18446744073709551616 (est 76 + 1)); [lia|]. cbn [bind].
  apply fibonacci_word_in_ok; [lia|exact G1|exact G2].
Qed.
Lemma fibonacci_word_75_77 k : k = 75 \/ k = 77 -> fibonacci_word k = Panic.
Proof.
  intros Hk. assert (Hk2 : k < 78) by lia. unfold fibonacci_word, add_u8.
  destruct (Nat.leb_spec 256 (k + 2)); [lia|]. cbn [bind]. fold (est k).
  assert (G : (fst (fib2 (k + 2)) =? est k + 1)%N && (est k + 1 <? 9223372036854775808)%N && Nat.odd k = true)
    by (destruct Hk as [-> | ->]; vm_compute; reflexivity).
  rewrite <- fib_fast in G. apply andb_prop in G. destruct G as (G & Go). apply andb_prop in G. destruct G as (G1 & G2).
  apply N.eqb_eq in G1. apply N.ltb_lt in G2.
  unfold add_usize. destruct (N.leb_spec 18446744073709551616 (est k + 1)); [lia|]. cbn [bind].
  apply fibonacci_word_in_exact_odd; auto; lia.
Qed.
Theorem fibonacci_word_exact k : (k <= 74 \/ k = 76 -> fibonacci_word k = Ok (fib_word k)) /\
  (~ (k <= 74 \/ k = 76) -> fibonacci_word k = Panic).
Proof.
  split.
  - intros [H|H]; [now apply fibonacci_word_ok|]. rewrite H. exact fibonacci_word_76.
  - intros H. destruct (Nat.le_gt_cases 78 k); [now apply fibonacci_word_panic|]. apply fibonacci_word_75_77. lia.
Qed.
(** no k whatsoever gives a wrong word *)
Theorem fibonacci_word_safe k : fibonacci_word k = Ok (fib_word k) \/ fibonacci_word k = Panic.
Proof.
  unfold fibonacci_word, add_u8.
  destruct (Nat.leb_spec 256 (k + 2)) as [|C]; [now right|]. cbn [bind]. fold (est k). 
  unfold add_usize. destruct (N.leb_spec 18446744073709551616 (est k + 1)); [now right|]. cbn [bind].
  destruct (N.leb_spec 9223372036854775808 (est k + 1)).
  { right. unfold fibonacci_word_in. now rewrite vec_zero_panic. }
  destruct (fibonacci_word_in_spec (est k + 1) k) as [(E & _)|(E & _)]; try lia; auto.
Qed.
