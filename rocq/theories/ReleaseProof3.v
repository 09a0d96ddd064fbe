(** ReleaseProof3.v : the generators in a release build. *)
From Verif Require Import Base SpecStr SpecMain SpecIo LexFacts ModelCore ModelIo ModelTools ModelWord ModelMain ModelRelease2
  DuvalProof LwgProof IterProof MainProof MainProof2.
From Coq Require Import NArith.

(** ** refinement: what the checked build returns, the release build returns *)
Lemma for_in_refines {S I} (l : list I) (f g : I -> S -> res S) s r :
  (forall i s r, f i s = Ok r -> g i s = Ok r) -> for_in l f s = Ok r -> for_in l g s = Ok r.
Proof.
  intros H. revert s. induction l as [|i l IH]; intros s; cbn [for_in]; [auto|]. intros E.
  destruct (f i s) as [s'| |] eqn:E1; cbn [bind] in E; try discriminate. rewrite (H _ _ _ E1). cbn [bind]. auto.
Qed.
Lemma loop_refines {S A} (f g : S -> res (ctl S A)) fuel s r :
  (forall s r, f s = Ok r -> g s = Ok r) -> loop fuel f s = Ok r -> loop fuel g s = Ok r.
Proof.
  intros H. revert s. induction fuel as [|fuel IH]; intros s E; [discriminate|]. cbn [loop] in *.
  destruct (f s) as [c| |] eqn:E1; cbn [bind] in E; try discriminate. rewrite (H _ _ E1). cbn [bind]. destruct c; auto.
Qed.
Lemma calls_refines {G A} (P : G -> Prop) (next next' : G -> res (option A * G)) k g L :
  (forall g o g', P g -> next g = Ok (o, g') -> next' g = Ok (o, g') /\ P g') ->
  P g -> calls next k g = Ok L -> calls next' k g = Ok L.
Proof.
  intros H. revert g L. induction k as [|k IH]; intros g L HP; cbn [calls]; [auto|]. intros E.
  destruct (next g) as [(o & g')| |] eqn:E1; cbn [bind] in E; try discriminate.
  destruct (H _ _ _ HP E1) as (-> & HP'). cbn [bind].
  destruct (calls next k g') as [r| |] eqn:E2; cbn [bind] in E; try discriminate. now rewrite (IH _ _ HP' E2).
Qed.

(** ** BinaryStringGenerator *)
Definition bits64 (len : nat) (r : N) : str := map (fun i => if N.testbit r (N.of_nat (i mod 64)) then 49 else 48) (seq 0 len).
Lemma bsg_next_release_ok len r : (r < 18446744073709551615)%N ->
  bsg_next_release (BSG len r) = Ok (Some (bits64 len r), BSG len (r + 1)%N).
Proof.
  intros Hr. unfold bsg_next_release. cbn [bsg_length bsg_rank]. destruct (N.eqb_spec r 18446744073709551615); [lia|].
  rewrite (@for_push _ _ _ (fun i => if N.testbit r (N.of_nat (i mod 64)) then 49 else 48)).
  - cbn [bind]. unfold range. rewrite Nat.sub_0_r. reflexivity.
  - intros i x Hi. cbv zeta. rewrite land_shiftl1. now destruct (N.testbit r (N.of_nat (i mod 64))).
Qed.
Lemma bsg_release_calls len k : (N.of_nat k <= 18446744073709551615)%N ->
  calls bsg_next_release k (bsg_new len) = Ok (map (fun r => Some (bits64 len (N.of_nat r))) (seq 0 k)).
Proof.
  unfold bsg_new.
  assert (G : forall k r, (N.of_nat (r + k) <= 18446744073709551615)%N ->
    calls bsg_next_release k (BSG len (N.of_nat r)) = Ok (map (fun r => Some (bits64 len (N.of_nat r))) (seq r k))).
  { clear k. induction k as [|k IH]; intros r Hr; [reflexivity|]. cbn [calls].
    rewrite bsg_next_release_ok by lia. cbn [bind]. replace (N.of_nat r + 1)%N with (N.of_nat (S r)) by lia.
    rewrite IH by (replace (S r + k) with (r + S k) by lia; auto). reflexivity. }
  intros Hk. apply (G k 0). exact Hk.
Qed.
Lemma bsg_agrees g o g' : bsg_next g = Ok (o, g') -> bsg_next_release g = Ok (o, g').
Proof.
  unfold bsg_next, bsg_next_release. destruct (_ =? _)%N; [auto|]. intros E.
  destruct (for_in _ _ _) as [t| |] eqn:E1; cbn [bind] in E; try discriminate.
  erewrite for_in_refines; [| |exact E1]; [exact E|]. intros i s r. cbv beta. destruct (Nat.leb_spec 64 i); [discriminate|].
  now rewrite Nat.mod_small by lia.
Qed.

(** ** LyndonWordGenerator *)
Lemma lwg_trim_agrees s x y : lwg_trim s x = Ok y -> lwg_trim_release s x = Ok y.
Proof.
  apply loop_refines. intros st r. destruct (rev st) as [|c l]; [auto|]. destruct s as [|s]; [discriminate|].
  rewrite sub_ok by lia. cbn [bind]. now rewrite Nat.sub_succ, Nat.sub_0_r.
Qed.
Lemma lwg_agrees g o g' : lwg_next g = Ok (o, g') -> lwg_next_release g = Ok (o, g').
Proof.
  unfold lwg_next, lwg_next_release. destruct (_ =? _); [auto|]. destruct (lwg_stack g) as [|c st]; [auto|].
  intros E. destruct (lwg_fill _ _ _) as [x| |]; cbn [bind] in *; try discriminate.
  destruct (lwg_trim _ x) as [y| |] eqn:E1; cbn [bind] in *; try discriminate. rewrite (lwg_trim_agrees _ _ _ E1). cbn [bind].
  destruct (rev y) as [|d r]; [exact E|]. destruct (Nat.leb_spec 255 d); [discriminate|]. now rewrite Nat.mod_small by lia.
Qed.
(** outside the range: no letter is ever the last one *)
Definition odd_word (n j : nat) : str := if j =? 0 then [0] else repeat 0 (n - 1) ++ [j mod 256].
Lemma odd_word_bytes n j : Forall (fun c => c < 256) (odd_word n j).
Proof.
  unfold odd_word. destruct (j =? 0); [repeat constructor; lia|]. apply Forall_app. split.
  - apply Forall_forall. intros x Hx. apply repeat_spec in Hx. lia.
  - constructor; [|constructor]. apply Nat.mod_upper_bound. lia.
Qed.
Lemma trim_none s x c r : s = 0 \/ 256 < s -> rev x = c :: r -> c < 256 -> lwg_trim_release s x = Ok x.
Proof.
  intros Hs E Hc. unfold lwg_trim_release. cbn [loop]. rewrite E. destruct s as [|s]; [reflexivity|].
  destruct (Nat.eqb_spec c s); [lia|]. reflexivity.
Qed.
Lemma lwg_release_odd n s j : 1 <= n -> s = 0 \/ 256 < s ->
  lwg_next_release (LWG n s (odd_word n j)) = Ok (Some (odd_word n (S j)), LWG n s (odd_word n (S j))).
Proof.
  intros Hn Hs. set (w := odd_word n j).
  assert (Lw : 0 < length w <= n).
  { unfold w, odd_word. destruct (j =? 0); [simpl; lia|]. rewrite app_length, repeat_length. simpl. lia. }
  destruct (lwg_fill_ok n w Lw) as (x & Ex & Lx & Hx).
  assert (X : x = repeat 0 (n - 1) ++ [j mod 256]).
  { apply (nth_ext_len _ _ 0); [rewrite Lx, app_length, repeat_length; simpl; lia|]. intros i Hi. rewrite Lx in Hi. rewrite Hx by lia.
    unfold w, odd_word. destruct (Nat.eqb_spec j 0) as [->|Nj].
    - cbn [length]. rewrite Nat.mod_1_r. cbn [nth]. change (0 mod 256) with 0. change [0] with (repeat 0 1). rewrite <- repeat_app.
      rewrite nth_repeat. reflexivity.
    - rewrite app_length, repeat_length. cbn [length]. rewrite Nat.mod_small by lia. reflexivity. }
  unfold lwg_next_release. cbn [lwg_length lwg_stack lwg_sigma]. destruct (Nat.eqb_spec n 0); [lia|].
  fold w. destruct w as [|c w'] eqn:Ew; [simpl in Lw; lia|]. rewrite Ex. cbn [bind].
  assert (Er : rev x = j mod 256 :: rev (repeat 0 (n - 1))) by (rewrite X, rev_app_distr; reflexivity).
  rewrite (trim_none s x _ _ Hs Er) by (apply Nat.mod_upper_bound; lia). cbn [bind]. rewrite Er, rev_involutive.
  assert (EE : odd_word n (S j) = repeat 0 (n - 1) ++ [(j mod 256 + 1) mod 256]).
  { unfold odd_word. cbn [Nat.eqb]. do 2 f_equal. rewrite Nat.add_mod_idemp_l by lia. f_equal. lia. }
  now rewrite EE.
Qed.
Lemma lwg_release_calls n s k : 1 <= n -> s = 0 \/ 256 < s ->
  calls lwg_next_release k (lwg_new n s) = Ok (map (fun j => Some (odd_word n j)) (seq 0 k)).
Proof.
  intros Hn Hs. destruct k as [|k]; [reflexivity|]. cbn [calls seq map]. unfold lwg_next_release at 1, lwg_new. cbn [lwg_length lwg_stack lwg_sigma].
  destruct (Nat.eqb_spec n 0); [lia|]. cbn [bind].
  assert (G : forall k j, calls lwg_next_release k (LWG n s (odd_word n j)) = Ok (map (fun j => Some (odd_word n j)) (seq (S j) k))).
  { clear k. induction k as [|k IH]; intros j; [reflexivity|]. cbn [calls seq map]. rewrite lwg_release_odd by auto. cbn [bind]. now rewrite IH. }
  pose proof (G k 0) as E. unfold odd_word at 1 in E. cbn [Nat.eqb] in E. rewrite E. reflexivity.
Qed.
(** the checked build stops with a panic at the 257th call *)
Lemma lwg_large_step n s j : 1 <= n -> 256 < s -> j < 256 ->
  lwg_next (LWG n s (odd_word n j)) = if j =? 255 then Panic else Ok (Some (odd_word n (S j)), LWG n s (odd_word n (S j))).
Proof.
  intros Hn Hs Hj. pose proof (lwg_release_odd n s j Hn (or_intror Hs)) as HR.
  unfold lwg_next. unfold lwg_next_release in HR. cbn [lwg_length lwg_stack lwg_sigma] in *. destruct (Nat.eqb_spec n 0); [lia|].
  assert (Lw : 0 < length (odd_word n j) <= n).
  { unfold odd_word. destruct (j =? 0); [simpl; lia|]. rewrite app_length, repeat_length. simpl. lia. }
  destruct (lwg_fill_ok n _ Lw) as (x & Ex & Lx & Hx).
  destruct (odd_word n j) as [|c w] eqn:Ew; [simpl in Lw; lia|]. rewrite Ex in *. cbn [bind] in *.
  assert (Er : exists r, rev x = j :: r).
  { destruct (rev x) as [|d r] eqn:E; [apply (f_equal (@length nat)) in E; rewrite rev_length in E; simpl in E; lia|]. exists r. f_equal.
    assert (Hd : d = nth (n - 1) x 0).
    { change d with (nth 0 (d :: r) 0). rewrite <- E, rev_nth by lia. now rewrite Lx. }
    rewrite Hd, Hx, <- Ew by lia.
    unfold odd_word. destruct (Nat.eqb_spec j 0) as [->|Nj]; [cbn [length]; now rewrite Nat.mod_1_r|].
    rewrite app_length, repeat_length. cbn [length]. rewrite Nat.mod_small by lia. rewrite app_nth2 by (rewrite repeat_length; lia).
    rewrite repeat_length, Nat.sub_diag. cbn [nth]. apply Nat.mod_small. lia. }
  destruct Er as (r & Er).
  assert (ET : lwg_trim s x = Ok x).
  { unfold lwg_trim. cbn [loop]. rewrite Er, sub_ok by lia. cbn [bind]. destruct (Nat.eqb_spec j (s - 1)); [lia|]. reflexivity. }
  rewrite (lwg_trim_agrees _ _ _ ET) in HR. rewrite ET. cbn [bind] in *. rewrite Er in *.
  destruct (Nat.eqb_spec j 255) as [->|N]; [reflexivity|]. destruct (Nat.leb_spec 255 j); [lia|].
  rewrite Nat.mod_small in HR by lia. exact HR.
Qed.
Lemma lwg_large_calls n s k : 1 <= n -> 256 < s ->
  calls lwg_next k (lwg_new n s) = if k <=? 256 then Ok (map (fun j => Some (odd_word n j)) (seq 0 k)) else Panic.
Proof.
  intros Hn Hs. destruct k as [|k]; [reflexivity|]. cbn [calls seq map]. unfold lwg_next at 1, lwg_new. cbn [lwg_length lwg_stack lwg_sigma].
  destruct (Nat.eqb_spec n 0); [lia|]. cbn [bind].
  assert (G : forall k j, j < 256 -> calls lwg_next k (LWG n s (odd_word n j)) =
    if j + k <=? 255 then Ok (map (fun j => Some (odd_word n j)) (seq (S j) k)) else Panic).
  { clear k. induction k as [|k IH]; intros j Hj; [destruct (Nat.leb_spec (j + 0) 255); [reflexivity|lia]|]. cbn [calls seq map].
    rewrite lwg_large_step by auto. destruct (Nat.eqb_spec j 255) as [->|N]; cbn [bind].
    - destruct (Nat.leb_spec (255 + S k) 255); [lia|reflexivity].
    - rewrite IH by lia. destruct (Nat.leb_spec (S j + k) 255), (Nat.leb_spec (j + S k) 255); try lia; reflexivity. }
  pose proof (G k 0 ltac:(lia)) as E. unfold odd_word at 1 in E. cbn [Nat.eqb] in E. rewrite E.
  destruct (Nat.leb_spec (0 + k) 255), (Nat.leb_spec (S k) 256); try lia; reflexivity.
Qed.

(** ** lyndonwords *)
Definition wrap97 (w : str) : str := map (fun x => (x + 97) mod 256) w.
Lemma lwg_release_yields n s L : (forall k, calls lwg_next k (lwg_new n s) = Ok (yields L k)) ->
  forall k, calls lwg_next_release k (lwg_new n s) = Ok (yields L k).
Proof.
  intros H k. apply (calls_refines (fun _ => True) lwg_next); [|exact I|apply H]. intros g o g' _ E. split; [now apply lwg_agrees|exact I].
Qed.
Lemma lw_loop_release : forall L g out fuel, (forall k, calls lwg_next_release k g = Ok (yields L k)) -> length L < fuel ->
  loop fuel (fun '(g, out) =>
    '(it, g') <- lwg_next_release g ;;
    match it with
    | None => Ok (Brk out)
    | Some w => Ok (Cont (g', out ++ map (fun x => (x + 97) mod 256) w ++ [10]))
    end) (g, out) = Ok (out ++ lines (map wrap97 L)).
Proof.
  induction L as [|w L IH]; intros g out fuel H Hf; (destruct fuel as [|fuel]; [simpl in Hf; lia|]); cbn [loop].
  - destruct (calls_nil _ _ H) as (g' & ->). cbn [bind]. unfold lines. simpl. now rewrite app_nil_r.
  - destruct (calls_cons _ _ _ _ H) as (g' & -> & H'). cbn [bind]. rewrite IH by (auto; simpl in Hf; lia).
    unfold lines, newline. cbn [map concat]. now rewrite <- !app_assoc.
Qed.

(** ** RandomStringGenerator *)
Lemma rsg_agrees g o g' : (rsg_start g < 2 ^ 64)%N -> (rsg_end g < 2 ^ 64)%N -> rsg_next g = Ok (o, g') ->
  rsg_next_release g = Ok (o, g') /\ (rsg_start g' < 2 ^ 64)%N /\ (rsg_end g' < 2 ^ 64)%N.
Proof.
  change (2 ^ 64)%N with 18446744073709551616%N. destruct g as [s e l]. cbn [rsg_start rsg_end]. intros Hs He.
  unfold rsg_next, rsg_next_release. cbn [rsg_start rsg_end rsg_log].
  destruct (N.leb_spec 18446744073709551616 (s * 2)); [discriminate|]. rewrite (N.mod_small (s * 2)) by assumption.
  destruct (N.leb_spec e (s * 2)); [intros E; injection E as <- <-; auto|].
  destruct (N.leb_spec e s); [intros E; injection E as <- <-; auto|].
  destruct (N.ltb_spec 64 l); [discriminate|]. destruct (N.eqb_spec l 0); [discriminate|]. cbv zeta. intros E.
  rewrite (N.mod_small (s + 1)) by lia.
  assert (EM : ((320 - l) mod 256 mod 64 = 64 - l)%N).
  { replace (320 - l)%N with (64 - l + 1 * 256)%N by lia. rewrite N.mod_add by lia. rewrite (N.mod_small (64 - l) 256) by lia. apply N.mod_small. lia. }
  rewrite EM.
  destruct (for_in _ _ _) as [t| |] eqn:E1; cbn [bind] in E; try discriminate.
  erewrite for_in_refines; [| |exact E1].
  - cbn [bind]. rewrite E. split; [reflexivity|]. injection E as <- <-. cbn [rsg_start rsg_end]. split; lia.
  - intros i x r. cbv beta. destruct (N.leb_spec 256 (l * N.of_nat i)); [discriminate|]. destruct (N.leb_spec 64 (l * N.of_nat i)); [discriminate|].
    destruct (N.leb_spec 18446744073709551616 (N.land (N.shiftr (s + 1) (l * N.of_nat i)) (N.shiftr 18446744073709551615 (64 - l)) + 1)); [discriminate|].
    assert (N.of_nat i < 64)%N by nia. rewrite (N.mod_small (N.of_nat i)) by lia. rewrite (N.mod_small (l * N.of_nat i) 256), (N.mod_small (l * N.of_nat i) 64) by lia.
    intros <-. now rewrite (N.mod_small (_ + 1) 18446744073709551616) by lia.
Qed.
Lemma rsg_release_some s e l : (s < 2 ^ 64)%N -> (e < 2 ^ 64)%N -> (s * 2 mod 2 ^ 64 < e)%N -> (l <> 0)%N ->
  exists w, rsg_next_release (RSG s e l) = Ok (Some w, RSG (if (e <=? s)%N then s else s + 1) e l) /\
    ((e <= s)%N -> w = repeat 1 128) /\ ((s < e)%N -> exists u, w = u ++ [0]) /\ ((s < e)%N -> (64 < l)%N -> w = [0]).
Proof.
  change (2 ^ 64)%N with 18446744073709551616%N. intros Hs He H Hl. unfold rsg_next_release. cbn [rsg_start rsg_end rsg_log].
  destruct (N.leb_spec e (s * 2 mod 18446744073709551616)); [lia|].
  destruct (N.leb_spec e s) as [C|C].
  - eexists. split; [reflexivity|]. split; [reflexivity|]. split; intros; lia.
  - cbv zeta. destruct (N.eqb_spec l 0); [lia|]. rewrite (N.mod_small (s + 1)) by lia. set (start := (s + 1)%N).
    match goal with |- context [for_in (range 1 ?m) ?b []] => set (M := m); set (B := b) end.
    assert (E : exists t, for_in (range 1 M) B [] = Ok t /\ (M = 0 -> t = [])).
    { destruct M as [|M']; [exists []; split; [reflexivity|auto]|]. eexists. split; [|discriminate].
      apply for_push. intros i r _. unfold B. reflexivity. }
    destruct E as (t & -> & Ht). cbn [bind]. eexists. split; [reflexivity|]. split; [intros; lia|]. split; [intros; eauto|].
    intros _ Hl64. rewrite Ht; [reflexivity|]. unfold M. rewrite N.div_small; [reflexivity|].
    assert (Hb : (bit_size start <= 64)%N) by (unfold bit_size; lia). lia.
Qed.
