(** NeckProof.v : is_necklace decides prenecklaces; the de Bruijn construction visits every window at most once. *)
From Verif Require Import Base SpecStr LexFacts DuvalProof LwgProof BorderProof BbwtSurj ModelWord.
From Coq Require Import NArith ZArith.

(** ** powers of Lyndon words are necklaces *)
Lemma power_lyndon_necklace w m : lyndon w -> necklace (power w m).
Proof.
  intros HL i Hi. rewrite power_length in Hi. pose proof (lyndon_length _ HL) as Hp. set (p := length w) in *.
  assert (Ln : length (power w m) = m * p) by apply power_length.
  assert (Hm : 0 < m) by nia.
  assert (E : forall x, x < m * p -> nth x (rot i (power w m)) 0 = nth ((i + x) mod p) w 0).
  { intros x Hx. rewrite nth_rot by (rewrite Ln; lia). rewrite Ln. destruct (Nat.ltb_spec (i + x) (m * p)).
    - now apply nth_power.
    - rewrite nth_power by (unfold p in *; lia). f_equal. 
      replace (i + x) with ((i + x - m * p) + m * p) at 2 by lia. rewrite Nat.mod_add by lia. reflexivity. }
  assert (F : forall x, x < m * p -> nth x (power w m) 0 = nth (x mod p) w 0) by (intros; now apply nth_power).
  set (r := i mod p). assert (Hr : r < p) by (apply Nat.mod_upper_bound; lia).
  destruct (Nat.eq_dec r 0) as [E0|N0].
  - left. apply (nth_ext_len _ _ 0); [now rewrite rot_length|]. intros x Hx. rewrite Ln in Hx. rewrite E, F by exact Hx.
    f_equal. rewrite Nat.add_mod by lia. fold r. rewrite E0. simpl. now rewrite Nat.mod_mod by lia.
  - right. pose proof HL as HLi. apply lyndon_idx in HLi. destruct HLi as (_ & HLi).
    destruct (HLi r ltac:(lia)) as (y & H1 & H2 & H3).
    assert (G : forall x, x <= y -> (i + x) mod p = r + x).
    { intros x Hx. rewrite Nat.add_mod by lia. fold r. rewrite (Nat.mod_small x) by (unfold p; lia).
      apply Nat.mod_small. unfold p. lia. }
    assert (y < m * p) by (unfold p in *; nia).
    apply (lex_lt_mismatch _ _ y); rewrite ?rot_length, ?Ln; try lia.
    + intros x Hx. rewrite E, F by lia. rewrite G by lia. rewrite Nat.mod_small by (unfold p in *; lia). now apply H2.
    + rewrite E, F by lia. rewrite G by lia. rewrite Nat.mod_small by (unfold p in *; lia). exact H3.
Qed.
Lemma lynper_prenecklace t p : lynper t p -> prenecklace t.
Proof.
  intros HP. pose proof HP as (Hp & HL & _). set (w := firstn p t) in *.
  assert (Lw : length w = p) by (unfold w; rewrite firstn_length; lia).
  set (m := length t). exists (skipn (length t) (power w m)).
  replace (t ++ skipn (length t) (power w m)) with (power w m); [now apply power_lyndon_necklace|].
  rewrite <- (firstn_skipn (length t) (power w m)) at 1. f_equal.
  apply (nth_ext_len _ _ 0).
  - rewrite firstn_length, power_length, Lw. unfold m. nia.
  - intros x Hx. rewrite firstn_length, power_length, Lw in Hx. assert (x < m) by (unfold m; lia).
    rewrite nth_firstn by (unfold m in *; lia). rewrite nth_power by (rewrite Lw; unfold m in *; nia). rewrite Lw.
    rewrite (lynper_mod t p x HP) by (unfold m in *; lia). unfold w. rewrite nth_firstn; [reflexivity|].
    apply Nat.mod_upper_bound. lia.
Qed.
(** a descent against the periodic continuation rules out every continuation *)
Lemma descent_not_prenecklace (t : str) (p j : nat) : 1 <= p <= j -> j < length t ->
  (forall x, x + p < j -> nth (x + p) t 0 = nth x t 0) -> nth j t 0 < nth (j - p) t 0 -> ~ prenecklace t.
Proof.
  intros Hp Hj HP HD (u & HN). specialize (HN p ltac:(rewrite app_length; lia)).
  assert (L : lex_lt (rot p (t ++ u)) (t ++ u)).
  { apply (lex_lt_mismatch _ _ (j - p)); rewrite ?rot_length, ?app_length; try lia.
    - intros x Hx. rewrite nth_rot by (rewrite app_length; lia). rewrite app_length.
      destruct (Nat.ltb_spec (p + x) (length t + length u)); [|lia]. rewrite !app_nth1 by lia.
      rewrite Nat.add_comm. apply HP. lia.
    - rewrite nth_rot by (rewrite app_length; lia). rewrite app_length.
      destruct (Nat.ltb_spec (p + (j - p)) (length t + length u)); [|lia]. rewrite !app_nth1 by lia.
      replace (p + (j - p)) with j by lia. exact HD. }
  exact (lex_le_not_lt _ _ HN L).
Qed.
Lemma prenecklace_prefix t u : prenecklace (t ++ u) -> prenecklace t.
Proof. intros (v & H). exists (u ++ v). now rewrite app_assoc. Qed.
Lemma necklace_pre t : necklace t -> prenecklace t.
Proof. intros H. exists []. now rewrite app_nil_r. Qed.

Definition neck_inv (text : str) (i j : nat) : Prop :=
  i < j <= length text /\ lynper (firstn j text) (j - i).
Lemma neck_inv_first text : 1 <= length text -> neck_inv text 0 1.
Proof. intros H. split; [lia|]. destruct text as [|a l]; [simpl in H; lia|]. simpl. apply lynper_single. Qed.
Lemma neck_min text i j x : neck_inv text i j -> x < j -> nth 0 text 0 <= nth x text 0.
Proof.
  intros (Hij & HP) Hx. pose proof HP as (Hp & HL & _). rewrite firstn_length_le in Hp by lia.
  assert (E : nth x text 0 = nth (x mod (j - i)) text 0).
  { pose proof (lynper_mod _ _ x HP) as M. rewrite firstn_length_le in M by lia. specialize (M ltac:(lia)).
    pose proof (Nat.mod_upper_bound x (j - i) ltac:(lia)). rewrite !nth_firstn in M by lia. exact M. }
  pose proof (Nat.mod_upper_bound x (j - i) ltac:(lia)) as B. rewrite firstn_firstn, Nat.min_l in HL by lia.
  pose proof (lyndon_first_min _ (x mod (j - i)) HL) as F. rewrite firstn_length_le in F by lia. specialize (F B).
  rewrite !nth_firstn in F by lia. lia.
Qed.
Lemma neck_step text i j : neck_inv text i j -> j < length text -> nth i text 0 <= nth j text 0 ->
  let i1 := if nth i text 0 <? nth j text 0 then 0 else i in
  let i2 := if nth i1 text 0 =? nth j text 0 then i1 + 1 else i1 in
  neck_inv text i2 (j + 1).
Proof.
  intros HI Hj Hle i1 i2. pose proof HI as (Hij & HP).
  assert (Eij : nth (length (firstn j text) - (j - i)) (firstn j text) 0 = nth i text 0).
  { rewrite firstn_length_le by lia. replace (j - (j - i)) with i by lia. apply nth_firstn. lia. }
  assert (ES : firstn (j + 1) text = firstn j text ++ [nth j text 0]) by (rewrite Nat.add_1_r; apply firstn_snoc_nth; lia).
  unfold i2, i1. destruct (Nat.ltb_spec (nth i text 0) (nth j text 0)) as [Lt|Ge].
  - pose proof (neck_min text i j i HI ltac:(lia)) as M. destruct (Nat.eqb_spec (nth 0 text 0) (nth j text 0)) as [C|_]; [lia|].
    split; [lia|]. rewrite ES. rewrite Nat.sub_0_r.
    assert (HL : lyndon (firstn j text ++ [nth j text 0])) by (apply (lyndon_extend _ (j - i)); [exact HP|now rewrite Eij]).
    apply lynper_full in HL. rewrite app_length, firstn_length_le in HL by lia. exact HL.
  - destruct (Nat.eqb_spec (nth i text 0) (nth j text 0)) as [E|]; [|lia].
    split; [lia|]. rewrite ES. replace (j + 1 - (i + 1)) with (j - i) by lia. apply lynper_same; [exact HP|]. now rewrite Eij.
Qed.
Lemma is_necklace_ok text n : 1 <= n <= length text ->
  exists b, is_necklace text n = Ok b /\ (b = true <-> prenecklace (firstn n text)).
Proof.
  intros Hn. unfold is_necklace.
  match goal with |- context [loop ?f ?b ?s] => assert (G : okp (loop f b s) (fun '(i, j) => neck_inv text i j /\ 
     (j = n \/ j < n /\ nth j text 0 < nth i text 0))) end.
  { apply (okp_loop (fun '(i, j) => neck_inv text i j /\ j <= n) (fun '(i, j) => n - j)).
    - intros (i & j) (HI & Hj). pose proof HI as (Hij & HP).
      destruct (Nat.eqb_spec j n) as [->|Nj]; [apply okp_ok; auto|].
      apply okp_bind, (okp_get _ _ 0); [lia|]. apply okp_bind, (okp_get _ _ 0); [lia|].
      destruct (Nat.leb_spec (nth i text 0) (nth j text 0)) as [Le|Gt]; [|apply okp_ok; split; [exact HI|lia]].
      cbv zeta. apply okp_bind, (okp_get _ _ 0); [destruct (_ <? _); lia|]. apply okp_ok.
      split; [|lia]. split; [|lia]. apply neck_step; [exact HI|lia|exact Le].
    - split; [apply neck_inv_first; lia|lia].
    - lia. }
  destruct G as ((i & j) & -> & HI & HJ). cbn [bind]. pose proof HI as (Hij & HP).
  destruct HJ as [->|(Hj & HD)].
  - rewrite Nat.eqb_refl. exists true. split; [reflexivity|]. split; [intros _|auto]. now apply (lynper_prenecklace _ _ HP).
  - destruct (Nat.eqb_spec j n); [lia|]. exists false. split; [reflexivity|]. split; [discriminate|]. intros HN. exfalso.
    destruct HP as (Hp & _ & HP). rewrite firstn_length_le in Hp, HP by lia.
    apply (descent_not_prenecklace (firstn n text) (j - i) j); [lia|rewrite firstn_length_le; lia| | |exact HN].
    + intros x Hx. specialize (HP x Hx). rewrite !nth_firstn in * by lia. exact HP.
    + replace (j - (j - i)) with i by lia. rewrite !nth_firstn by lia. exact HD.
Qed.
(** the zero length is never accepted *)
Lemma is_necklace_zero text : is_necklace text 0 <> Ok true /\ is_necklace text 0 <> OutOfFuel.
Proof.
  unfold is_necklace. match goal with |- context [loop _ ?b _] => set (body := b) end.
  assert (G : forall fuel i j, 1 <= j -> length text < j + fuel -> 1 <= fuel -> 
     loop fuel body (i, j) = Panic \/ exists i' j', loop fuel body (i, j) = Ok (i', j') /\ 1 <= j').
  { induction fuel as [|fuel IH]; intros i j Hj HL Hf; [lia|]. cbn [loop]. unfold body at 1 3.
    destruct (Nat.eqb_spec j 0); [lia|].
    destruct (Nat.lt_ge_cases i (length text)) as [Ci|Ci]; [|rewrite (get_panic text i) by lia; now left].
    rewrite (get_ok _ _ 0) by lia. cbn [bind].
    destruct (Nat.lt_ge_cases j (length text)) as [Cj|Cj]; [|rewrite (get_panic text j) by lia; now left].
    rewrite (get_ok _ _ 0) by lia. cbn [bind].
    destruct (_ <=? _); [|right; cbn [bind]; eauto]. cbv zeta.
    assert (0 < length text) by lia.
    rewrite (get_ok _ _ 0) by (destruct (_ <? _); lia). cbn [bind].
    apply IH; lia. }
  destruct (G (S (length text)) 0 1) as [->|(i' & j' & -> & Hj)]; try lia; [split; discriminate|].
  cbn [bind]. destruct (Nat.eqb_spec j' 0); [lia|]. split; discriminate.
Qed.

(** ** the de Bruijn construction *)
Definition isab (c : nat) : Prop := c = 97 \/ c = 98.
Definition state_ok (n : nat) (w : str) : Prop := length w = n /\ Forall isab w.
Definition neckb (t : str) : bool := match is_necklace t (length t) with Ok b => b | _ => false end.
Lemma neckb_ok t : t <> [] -> is_necklace t (length t) = Ok (neckb t) /\ (neckb t = true <-> prenecklace t).
Proof.
  intros H. unfold neckb. destruct (is_necklace_ok t (length t)) as (b & -> & Hb); [destruct t; [easy|simpl; lia]|].
  rewrite firstn_all in Hb. auto.
Qed.
Definition out_letter (w : str) : nat :=
  match w with [] => 0 | x :: r => if neckb (r ++ [98]) then reverse x else x end.
Definition nxt (w : str) : str := tl w ++ [out_letter w].
Lemma step_nxt w : w <> [] -> debruijn_step w = Ok (out_letter w, nxt w).
Proof.
  intros H. destruct w as [|x r]; [easy|]. unfold debruijn_step.
  destruct (neckb_ok (r ++ [98])) as (E & _); [destruct r; easy|]. rewrite E. cbn [bind]. reflexivity.
Qed.
Lemma reverse_ab c : isab c -> isab (reverse c).
Proof. unfold isab, reverse. intros [->| ->]; simpl; auto. Qed.
Lemma out_ab w : w <> [] -> Forall isab w -> isab (out_letter w).
Proof.
  intros H HF. destruct w as [|x r]; [easy|]. inversion HF; subst. simpl. destruct (neckb _); [now apply reverse_ab|assumption].
Qed.
Lemma nxt_ok n w : 1 <= n -> state_ok n w -> state_ok n (nxt w).
Proof.
  intros Hn (L & HF). destruct w as [|x r]; [simpl in L; lia|]. split.
  - unfold nxt. rewrite app_length. simpl in *. lia.
  - unfold nxt. apply Forall_app. split; [now inversion HF|]. constructor; [|constructor]. apply out_ab; [easy|exact HF].
Qed.
Lemma nxt_inj n w v : 1 <= n -> state_ok n w -> state_ok n v -> nxt w = nxt v -> w = v.
Proof.
  intros Hn (L & HF) (L' & HF') E. destruct w as [|x r]; [simpl in L; lia|]. destruct v as [|y s]; [simpl in L'; lia|].
  unfold nxt in E. apply app_inj_tail in E. cbn [tl] in E. destruct E as (-> & E). f_equal.
  inversion HF as [|? ? Hx _]; subst. inversion HF' as [|? ? Hy _]; subst. simpl in E.
  destruct (neckb (s ++ [98])); [|exact E]. destruct Hx as [->| ->], Hy as [->| ->]; cbn in E; congruence || reflexivity.
Qed.
Definition st (n i : nat) : str := Nat.iter i nxt (repeat 97 n).
Lemma st_S n i : st n (S i) = nxt (st n i). Proof. reflexivity. Qed.
Lemma st_ok n i : 1 <= n -> state_ok n (st n i).
Proof.
  intros Hn. induction i as [|i IH]; [|now apply nxt_ok]. split; [apply repeat_length|].
  rewrite Forall_forall. intros x Hx. apply repeat_spec in Hx. left. exact Hx.
Qed.
Lemma st_shift n i d : 1 <= n -> st n i = st n (i + d) -> st n 0 = st n d.
Proof.
  intros Hn. induction i as [|i IH]; intros E; [exact E|]. apply IH. change (S i + d) with (S (i + d)) in E. rewrite !st_S in E.
  apply (nxt_inj n) in E; auto using st_ok.
Qed.
Lemma words_count n : length (words_over [97; 98] n) = 2 ^ n.
Proof.
  induction n as [|n IH]; [reflexivity|]. cbn [words_over]. cbn [Nat.pow]. rewrite <- IH. clear IH.
  induction (words_over [97; 98] n) as [|w l IHl]; [reflexivity|]. cbn [flat_map]. rewrite app_length, IHl. simpl. lia.
Qed.
(** the first return to the start *)
Lemma first_return n : 1 <= n -> exists m, 1 <= m <= 2 ^ n /\ st n m = st n 0 /\
  forall i j, i < m -> j < m -> st n i = st n j -> i = j.
Proof.
  intros Hn.
  assert (Hex : exists m, 1 <= m <= 2 ^ n /\ st n m = st n 0).
  { assert (Hd : ~ NoDup (map (st n) (seq 0 (S (2 ^ n))))).
    { intros ND. pose proof (NoDup_incl_length (l' := words_over [97; 98] n) ND) as H.
      rewrite map_length, seq_length, words_count in H. enough (S (2 ^ n) <= 2 ^ n) by lia. apply H.
      intros w Hw. apply in_map_iff in Hw. destruct Hw as (i & <- & _). destruct (st_ok n i Hn) as (L & HF).
      apply in_words_over. split; [exact L|]. intros x Hx. rewrite Forall_forall in HF. destruct (HF x Hx) as [->| ->]; simpl; auto. }
    assert (Hij : exists i j, i < j <= 2 ^ n /\ st n i = st n j).
    { assert (Dec : forall N, (exists i j, i < j <= N /\ st n i = st n j) \/ NoDup (map (st n) (seq 0 (S N)))).
      { induction N as [|N IH]; [right; repeat constructor; simpl; tauto|].
        destruct IH as [(i & j & H & E)|ND]; [left; exists i, j; split; [lia|exact E]|].
        destruct (in_dec (list_eq_dec Nat.eq_dec) (st n (S N)) (map (st n) (seq 0 (S N)))) as [HI|HI].
        - left. apply in_map_iff in HI. destruct HI as (i & E & Hi). apply in_seq in Hi. exists i, (S N). split; [lia|exact E].
        - right. rewrite seq_S, map_app. simpl. apply (Permutation_NoDup (l := st n (S N) :: map (st n) (seq 0 (S N)))).
          + apply Permutation_cons_append.
          + now constructor. }
      destruct (Dec (2 ^ n)) as [H|H]; [exact H|contradiction]. }
    destruct Hij as (i & j & Hij & E). exists (j - i). split; [lia|]. symmetry.
    apply (st_shift n i). - exact Hn. - rewrite E. f_equal. lia. }
  destruct Hex as (m0 & Hm0 & E0).
  assert (Hmin : exists m, 1 <= m <= 2 ^ n /\ st n m = st n 0 /\ forall i, 1 <= i < m -> st n i <> st n 0).
  { clear - Hm0 E0. revert Hm0 E0. induction m0 as [m0 IH] using lt_wf_ind. intros Hm0 E0.
    destruct (in_dec (list_eq_dec Nat.eq_dec) (st n 0) (map (st n) (seq 1 (m0 - 1)))) as [HI|HI].
    - apply in_map_iff in HI. destruct HI as (i & E & Hi). apply in_seq in Hi. apply (IH i); [lia|lia|exact E].
    - exists m0. split; [exact Hm0|]. split; [exact E0|]. intros i Hi E. apply HI. apply in_map_iff. exists i.
      split; [exact E|]. apply in_seq. lia. }
  destruct Hmin as (m & Hm & E & HM). exists m. split; [exact Hm|]. split; [exact E|].
  intros i j Hi Hj Eij. destruct (Nat.lt_trichotomy i j) as [C|[C|C]]; [exfalso|exact C|exfalso].
  - apply (HM (j - i)); [lia|]. symmetry. apply (st_shift n i _ Hn). rewrite Eij. f_equal. lia.
  - apply (HM (i - j)); [lia|]. symmetry. apply (st_shift n j _ Hn). rewrite <- Eij. f_equal. lia.
Qed.
Definition outs (n i : nat) : str := map (fun j => out_letter (st n j)) (seq 0 i).
Lemma outs_length n i : length (outs n i) = i.
Proof. unfold outs. now rewrite map_length, seq_length. Qed.
Lemma outs_S n i : outs n (S i) = outs n i ++ [out_letter (st n i)].
Proof. unfold outs. now rewrite seq_S, map_app. Qed.
(** the state is the window of the last n letters *)
Lemma st_window n i : 1 <= n -> st n i = skipn i (repeat 97 n ++ outs n i).
Proof.
  intros Hn. induction i as [|i IH]; [simpl; now rewrite app_nil_r|].
  rewrite st_S, outs_S, app_assoc. unfold nxt. pose proof (st_ok n i Hn) as (L & _). rewrite skipn_app.
  f_equal.
  - assert (EZ : forall Z : str, skipn (S i) Z = skipn 1 (skipn i Z)) by (intros Z; rewrite skipn_skipn; f_equal; lia).
    rewrite EZ, <- IH. destruct (st n i); reflexivity.
  - rewrite app_length, repeat_length, outs_length. replace (S i - (n + i)) with 0 by lia. reflexivity.
Qed.
Lemma all_a_st0 n w : state_ok n w -> existsb (fun l => l =? 98) (firstn n w) = false <-> w = st n 0.
Proof.
  intros (L & HF). rewrite firstn_all2 by lia. change (st n 0) with (repeat 97 n). split.
  - revert n L. induction HF as [|x w Hx HF IH]; intros n L H; [destruct n; [reflexivity|discriminate]|].
    destruct n as [|n]; [discriminate|]. simpl in H. apply orb_false_iff in H. destruct H as (H1 & H2). simpl in L.
    simpl. rewrite <- (IH n) by (lia || exact H2). destruct Hx as [->| ->]; [reflexivity|discriminate].
  - intros ->. clear. induction n as [|n IH]; [reflexivity|exact IH].
Qed.
Lemma loop_run (n m : nat) : 1 <= n -> 1 <= m -> st n m = st n 0 -> (forall i, 1 <= i < m -> st n i <> st n 0) ->
  forall d i fuel, i + d = m -> 1 <= d -> d <= fuel -> 
  loop fuel (fun '(word, output) =>
    '(c, word) <- debruijn_step word ;;
    let output := output ++ [c] in
    if existsb (fun l => l =? CB) (firstn n word) then Ok (Cont (word, output))
    else Ok (Brk output)) (st n i, outs n i) = Ok (outs n m).
Proof.
  intros Hn Hm E HM. induction d as [|d IH]; intros i fuel Hi Hd Hf; [lia|]. destruct fuel as [|fuel]; [lia|].
  cbn [loop]. rewrite step_nxt by (pose proof (st_ok n i Hn) as (L & _); destruct (st n i); [simpl in L; lia|easy]).
  cbn [bind]. cbv zeta. rewrite <- st_S, <- outs_S.
  pose proof (all_a_st0 n (st n (S i)) (st_ok n (S i) Hn)) as HA.
  destruct (existsb _ _) eqn:Ex.
  - cbn [bind]. destruct d as [|d].
    + exfalso. replace (S i) with m in * by lia. destruct HA as (_ & HA). specialize (HA E). congruence.
    + apply IH; lia.
  - cbn [bind]. destruct HA as (HA & _). specialize (HA eq_refl).
    destruct d as [|d]; [do 2 f_equal; lia|]. exfalso. apply (HM (S i)); [lia|exact HA].
Qed.
Lemma first_letter n : 1 <= n -> out_letter (st n 0) = 98.
Proof.
  intros Hn. destruct n as [|n]; [lia|]. change (st (S n) 0) with (97 :: repeat 97 n). simpl.
  destruct (neckb_ok (repeat 97 n ++ [98])) as (_ & H); [destruct n; easy|].
  assert (HP : neckb (repeat 97 n ++ [98]) = true); [|now rewrite HP]. apply H.
  apply (lynper_prenecklace _ (length (repeat 97 n ++ [98]))). apply lynper_full.
  destruct n as [|n]; [apply lyndon_single|]. apply (lyndon_extend _ 1).
  - split; [simpl; lia|]. split; [apply lyndon_single|]. intros x Hx. rewrite repeat_length in Hx.
    rewrite !(nth_indep _ 0 97) by (rewrite repeat_length; lia). now rewrite !nth_repeat.
  - rewrite (nth_indep _ 0 97) by (rewrite repeat_length; simpl; lia). rewrite nth_repeat. lia.
Qed.

Lemma debruijn_full k : exists w, binary_debruijn_word k = Ok w /\ k + 1 < length w <= 2 ^ (k + 1) /\ Forall isab w /\
  skipn (length w - (k + 1)) w = repeat 97 (k + 1) /\
  (forall i, i < length w -> exists q, firstn (k + 1) (skipn i (w ++ w)) = st (k + 1) q) /\
  forall i j, i < length w -> j < length w ->
    firstn (k + 1) (skipn i (w ++ w)) = firstn (k + 1) (skipn j (w ++ w)) -> i = j.
Proof.
  set (n := k + 1). assert (Hn : 1 <= n) by (unfold n; lia).
  destruct (first_return n Hn) as (m & Hm & E & HU).
  assert (HM : forall i, 1 <= i < m -> st n i <> st n 0).
  { intros i Hi C. specialize (HU i 0 ltac:(lia) ltac:(lia) C). lia. }
  exists (outs n m). split.
  { unfold binary_debruijn_word. fold n. cbv zeta.
    apply (loop_run n m Hn ltac:(lia) E HM m 0 (S (2 ^ n))); lia. }
  rewrite outs_length.
  assert (Hw : skipn m (repeat 97 n ++ outs n m) = repeat 97 n) by (rewrite <- st_window by exact Hn; exact E).
  assert (Hnm : n < m).
  { destruct (Nat.lt_ge_cases n m) as [|C]; [assumption|exfalso].
    assert (Hb : nth (n - m) (skipn m (repeat 97 n ++ outs n m)) 0 = 98).
    { rewrite nth_skipn. replace (m + (n - m)) with n by lia. rewrite app_nth2 by (rewrite repeat_length; lia).
      rewrite repeat_length, Nat.sub_diag. destruct m as [|m]; [lia|]. unfold outs. cbn [seq map nth]. now apply first_letter. }
    rewrite Hw in Hb. rewrite (nth_indep _ 0 97) in Hb by (rewrite repeat_length; lia). rewrite nth_repeat in Hb. discriminate. }
  split; [lia|]. split.
  { rewrite Forall_forall. intros x Hx. apply in_map_iff in Hx. destruct Hx as (j & <- & _).
    pose proof (st_ok n j Hn) as (L & HF). apply out_ab; [|exact HF]. destruct (st n j); [simpl in L; lia|easy]. }
  assert (Hend : skipn (m - n) (outs n m) = repeat 97 n).
  { rewrite skipn_app, skipn_all2, repeat_length in Hw by (rewrite repeat_length; lia). exact Hw. }
  split; [exact Hend|].
  assert (Hwin : forall i, i < m -> firstn n (skipn i (outs n m ++ outs n m)) = st n (if i + n <? m then i + n else i + n - m)).
  { intros i Hi.
    assert (Hgen : forall q, q <= m -> st n q = firstn n (skipn q (repeat 97 n ++ outs n m))).
    { intros q Hq. rewrite st_window by exact Hn.
      assert (Ho : outs n m = outs n q ++ map (fun j => out_letter (st n j)) (seq q (m - q))).
      { unfold outs. rewrite <- map_app, <- seq_app. do 2 f_equal. lia. }
      rewrite Ho, app_assoc, (skipn_app q (repeat 97 n ++ outs n q)).
      assert (Ls : length (skipn q (repeat 97 n ++ outs n q)) = n) by (rewrite skipn_length, app_length, repeat_length, outs_length; lia).
      rewrite firstn_app, Ls, Nat.sub_diag. simpl. rewrite app_nil_r. rewrite firstn_all2 by lia. reflexivity. }
    assert (Hoo : skipn (m - n) (outs n m ++ outs n m) = repeat 97 n ++ outs n m).
    { rewrite skipn_app, Hend, outs_length. replace (m - n - m) with 0 by lia. reflexivity. }
    destruct (Nat.ltb_spec (i + n) m) as [C|C].
    - rewrite Hgen by lia. rewrite (skipn_app i), outs_length. replace (i - m) with 0 by lia.
      rewrite firstn_app, skipn_length, outs_length. replace (n - (m - i)) with 0 by lia. simpl skipn at 2. rewrite firstn_O, app_nil_r.
      rewrite skipn_app, repeat_length. rewrite (skipn_all2 (repeat 97 n)) by (rewrite repeat_length; lia). simpl app. f_equal. f_equal. lia.
    - rewrite Hgen by lia. rewrite <- Hoo, skipn_skipn. f_equal. f_equal. lia. }
  split; [intros i Hi; eexists; now apply Hwin|].
  intros i j Hi Hj Eij. rewrite !Hwin in Eij by assumption.
  apply HU in Eij; [|destruct (Nat.ltb_spec (i + n) m); lia|destruct (Nat.ltb_spec (j + n) m); lia].
  destruct (Nat.ltb_spec (i + n) m), (Nat.ltb_spec (j + n) m); lia.
Qed.
Lemma debruijn_ok k : exists w, binary_debruijn_word k = Ok w /\ k + 1 < length w <= 2 ^ (k + 1) /\ Forall isab w /\
  skipn (length w - (k + 1)) w = repeat 97 (k + 1) /\
  forall i j, i < length w -> j < length w ->
    firstn (k + 1) (skipn i (w ++ w)) = firstn (k + 1) (skipn j (w ++ w)) -> i = j.
Proof. destruct (debruijn_full k) as (w & H1 & H2 & H3 & H4 & _ & H5). exists w. auto. Qed.
