(** LexRuns.v : the lexparse has at most r + sigma factors, r the number of runs of the BWT. *)
From Verif Require Import Base SpecStr LexFacts ModelCore PermFacts SortFacts LcpProof ModelLz SpecLz LzProof MusProof SpecLex LexProof
  BbwtProof
  SpecBwt BwtFacts BwtProof SpecIo RunFacts ModelMain MainProof2 SpecMain.
From Coq Require Import NArith.

(** ** runs and letter changes *)
Definition change (b : str) (i : nat) : bool := (i =? 0) || negb (nth i b 0 =? nth (i - 1) b 0).

Lemma length_filter_map {A B} (f : B -> bool) (g : A -> B) L :
  length (filter f (map g L)) = length (filter (fun x => f (g x)) L).
Proof. induction L as [|x L IH]; [reflexivity|]. cbn [map filter]. destruct (f (g x)); cbn [length]; now rewrite IH. Qed.
Lemma runs_from_count t : forall c l, length (runs_from c l t) =
  S (length (filter (fun i => negb (nth i t 0 =? nth i (c :: t) 0)) (seq 0 (length t)))).
Proof.
  induction t as [|d t IH]; intros c l; [reflexivity|].
  cbn [runs_from length seq filter]. cbn [nth].
  assert (E : length (filter (fun i => negb (nth i (d :: t) 0 =? nth i (c :: d :: t) 0)) (seq 1 (length t))) =
              length (filter (fun i => negb (nth i t 0 =? nth i (d :: t) 0)) (seq 0 (length t)))).
  { rewrite <- seq_shift, length_filter_map. reflexivity. }
  destruct (Nat.eqb_spec d c) as [->|Ne]; cbn [negb length].
  - rewrite IH. f_equal. symmetry. exact E.
  - rewrite IH. do 2 f_equal. symmetry. exact E.
Qed.
Lemma runs_changes b : length (runs b) = length (filter (change b) (seq 0 (length b))).
Proof.
  destruct b as [|c b]; [reflexivity|]. unfold runs. rewrite runs_from_count. cbn [length seq filter].
  change (change (c :: b) 0) with true. cbn [length]. f_equal.
  rewrite <- seq_shift, length_filter_map. f_equal. apply filter_ext. intros x.
  unfold change. cbn [Nat.eqb orb]. replace (S x - 1) with x by lia. reflexivity.
Qed.
Lemma runs_letters b : length (nodup Nat.eq_dec b) <= length (runs b).
Proof.
  destruct (runs_ok b) as (E & _ & _). rewrite <- (map_length fst (runs b)).
  apply NoDup_incl_length; [apply NoDup_nodup|]. intros x Hx. apply nodup_In in Hx. rewrite <- E in Hx.
  unfold expand in Hx. apply in_concat in Hx. destruct Hx as (u & Hu & Hx). apply in_map_iff in Hu.
  destruct Hu as ((c, l) & <- & Hc). apply repeat_spec in Hx. subst x. apply in_map_iff. exists (c, l). auto.
Qed.
Lemma nodup_length_perm (a b : str) : Permutation a b -> length (nodup Nat.eq_dec a) = length (nodup Nat.eq_dec b).
Proof.
  intros H. apply Permutation_length, NoDup_Permutation; try apply NoDup_nodup.
  intros x. rewrite !nodup_In. split; apply Permutation_in; auto. now symmetry.
Qed.

(** ** irreducible positions *)
Section Irr.
Context (s : str) (Hz : ~ In 0 s).
Let t := s ++ [0].
Context (sa isa phi plcp : list nat).
Context (HSA : is_suffix_array t sa) (Ei : inverse_permutation sa = Ok isa) (HPi : is_perm (length t) isa)
  (HPp : is_perm (length t) phi) (Lp : length plcp = length t)
  (Hi1 : forall i, i < length t -> nth (nth i sa 0) isa 0 = i)
  (Hi2 : forall j, j < length t -> nth (nth j isa 0) sa 0 = j)
  (Hp1 : forall i, 0 < i < length t -> nth (nth i sa 0) phi 0 = nth (i - 1) sa 0)
  (Hp0 : nth (nth 0 sa 0) phi 0 = nth (length t - 1) sa 0)
  (Hplcp : forall i, i < length t -> lcpv t (nth i phi 0) i (nth i plcp 0)).
Let HP : is_perm (length t) sa := proj1 HSA.
Let b := sa_letters t sa.

Lemma t_len : length t = S (length s).
Proof. unfold t. rewrite app_length. simpl. lia. Qed.
Lemma t_zero i : i < length t -> nth i t 0 = 0 -> i = length t - 1.
Proof.
  intros Hi E. rewrite t_len in *. destruct (Nat.eq_dec i (length s)) as [|N]; [lia|]. exfalso.
  unfold t in E. rewrite app_nth1 in E by lia. apply Hz. rewrite <- E. apply nth_In. lia.
Qed.
Lemma t_last : nth (length t - 1) t 0 = 0.
Proof. rewrite t_len. unfold t. rewrite app_nth2 by lia. now replace (S (length s) - 1 - length s) with 0 by lia. Qed.
Lemma b_len : length b = length t.
Proof. unfold b, sa_letters. rewrite map_length. now apply is_perm_length. Qed.
Lemma b_nth r : r < length t -> nth r b 0 = if nth r sa 0 =? 0 then 0 else nth (nth r sa 0 - 1) t 0.
Proof.
  intros Hr. unfold b, sa_letters. rewrite (nth_map _ _ _ 0) by (rewrite (is_perm_length _ _ HP); lia).
  pose proof (is_perm_nth _ sa r HP Hr) as Hs. rewrite last_rot by auto.
  destruct (Nat.eqb_spec (nth r sa 0) 0) as [E|E].
  - rewrite E. replace (0 + length t - 1) with (length t - 1) by lia. rewrite Nat.mod_small by lia. apply t_last.
  - replace (nth r sa 0 + length t - 1) with (nth r sa 0 - 1 + 1 * length t) by lia.
    rewrite Nat.mod_add by lia. rewrite Nat.mod_small by lia. reflexivity.
Qed.
Definition irr (x : nat) : bool := change b (nth x isa 0).

Lemma irr_0 : irr 0 = true.
Proof.
  assert (H0 : 0 < length t) by (rewrite t_len; lia).
  unfold irr, change. destruct (Nat.eqb_spec (nth 0 isa 0) 0) as [E|E]; [reflexivity|]. cbn [orb].
  pose proof (is_perm_nth _ isa 0 HPi H0) as Hr.
  destruct (Nat.eqb_spec (nth (nth 0 isa 0) b 0) (nth (nth 0 isa 0 - 1) b 0)) as [E2|]; [|reflexivity]. exfalso.
  rewrite !b_nth in E2 by lia. rewrite Hi2 in E2 by lia. cbn [Nat.eqb] in E2.
  pose proof (is_perm_nth _ sa (nth 0 isa 0 - 1) HP ltac:(lia)) as Hs.
  destruct (Nat.eqb_spec (nth (nth 0 isa 0 - 1) sa 0) 0) as [E3|E3].
  - pose proof (Hi1 (nth 0 isa 0 - 1) ltac:(lia)) as E4. rewrite E3 in E4. lia.
  - symmetry in E2. apply t_zero in E2; lia.
Qed.
Lemma reducible x : S x < length t -> irr (S x) = false -> S (nth (S x) plcp 0) <= nth x plcp 0.
Proof.
  intros Hx H. unfold irr, change in H. apply orb_false_iff in H. destruct H as (Hr & H).
  apply Nat.eqb_neq in Hr. apply negb_false_iff, Nat.eqb_eq in H.
  pose proof (is_perm_nth _ isa (S x) HPi Hx) as Hrl.
  rewrite !b_nth in H by lia. rewrite Hi2 in H by lia. cbn [Nat.eqb] in H. replace (S x - 1) with x in H by lia.
  pose proof (is_perm_nth _ sa (nth (S x) isa 0 - 1) HP ltac:(lia)) as Hs.
  set (y := nth (nth (S x) isa 0 - 1) sa 0) in *.
  assert (Ey : nth (S x) phi 0 = y).
  { unfold y. rewrite <- Hp1 by lia. now rewrite Hi2 by lia. }
  destruct (Nat.eqb_spec y 0) as [E|E]; [apply t_zero in H; lia|].
  destruct y as [|y]; [lia|]. replace (S y - 1) with y in H by lia.
  destruct (Hplcp (S x) Hx) as (HA & _). rewrite Ey in HA.
  assert (HA2 : agree t y x (S (nth (S x) plcp 0))).
  { destruct HA as (A1 & A2 & A3). split; [lia|]. split; [lia|]. intros [|k] Hk.
    - now rewrite !Nat.add_0_r.
    - rewrite <- !plus_n_Sm. apply (A3 k). lia. }
  assert (HL : lex_lt (skipn (S y) t) (skipn (S x) t)).
  { rewrite <- Ey. exact (proj1 (proj2 (phi_pred t sa isa phi HSA Ei HPi HPp Hi2 Hp1 Hp0 (S x) Hx ltac:(lia)))). }
  assert (HL2 : lex_lt (skipn y t) (skipn x t)).
  { apply (lex_lt_shift t y x); auto; lia. }
  assert (Hrx : 0 < nth x isa 0).
  { apply (isa_lt_iff t sa isa) in HL2; auto; lia. }
  destruct (phi_pred t sa isa phi HSA Ei HPi HPp Hi2 Hp1 Hp0 x ltac:(lia) Hrx) as (Q1 & Q2 & Q3).
  specialize (Q3 y ltac:(lia) HL2).
  apply (lcpv_max t (nth x phi 0) x); [apply Hplcp; lia|].
  destruct (agree_sandwich t y (nth x phi 0) x (S (nth (S x) plcp 0))) as (A1 & A2); auto; try lia.
  now right.
Qed.
Lemma descend x : forall k, x + k < length t -> (forall y, x < y <= x + k -> irr y = false) ->
  nth (x + k) plcp 0 + k <= nth x plcp 0.
Proof.
  induction k as [|k IH]; intros Hk H.
  - rewrite !Nat.add_0_r. lia.
  - specialize (IH ltac:(lia) ltac:(intros; apply H; lia)).
    pose proof (reducible (x + k) ltac:(lia) ltac:(rewrite plus_n_Sm; apply H; lia)) as R.
    replace (x + S k) with (S (x + k)) by lia. lia.
Qed.
Lemma filter_seq_app (f : nat -> bool) a k m :
  length (filter f (seq a (k + m))) = length (filter f (seq a k)) + length (filter f (seq (a + k) m)).
Proof. rewrite seq_app, filter_app, app_length. reflexivity. Qed.
Lemma filter_pos (f : nat -> bool) L : (exists x, In x L /\ f x = true) \/ (forall x, In x L -> f x = false).
Proof.
  induction L as [|y L [(x & H1 & H2)|H]].
  - right. intros x [].
  - left. exists x. split; [now right|exact H2].
  - destruct (f y) eqn:E; [left; exists y; split; [now left|exact E]|].
    right. intros x [<-|Hx]; auto.
Qed.
Lemma copies_le fs : forall p a, p < length t -> a = p + Nat.max 1 (nth p plcp 0) -> lexparse_upto t plcp phi a (length t) fs ->
  length (filter (fun f => 0 <? lz_len f) fs) <= length (filter irr (seq (S p) (length t - S p))).
Proof.
  induction fs as [|f fs IH]; intros p a Hp Ea H; [simpl; lia|].
  cbn [lexparse_upto] in H. destruct H as (Ha & Hf & H).
  replace (length t - S p) with (a - p + (length t - S a)) by lia. rewrite filter_seq_app.
  replace (S p + (a - p)) with (S a) by lia.
  cbn [filter]. destruct Hf as [(E & ->)|(E & ->)]; cbn [lz_len] in *.
  - change (0 <? 0) with false. cbv iota. specialize (IH a (a + Nat.max 1 0) Ha ltac:(rewrite E; reflexivity) H). lia.
  - destruct (Nat.ltb_spec 0 (nth a plcp 0)) as [_|]; [|lia]. cbn [length].
    specialize (IH a _ Ha eq_refl H).
    enough (1 <= length (filter irr (seq (S p) (a - p)))) by lia.
    destruct (filter_pos irr (seq (S p) (a - p))) as [(x & H1 & H2)|Hno].
    + assert (Hin : In x (filter irr (seq (S p) (a - p)))) by (apply filter_In; auto).
      destruct (filter irr (seq (S p) (a - p))); [easy|simpl; lia].
    + exfalso. pose proof (descend p (a - p) ltac:(lia)) as D. replace (p + (a - p)) with a in D by lia.
      specialize (D ltac:(intros y Hy; apply Hno, in_seq; lia)). lia.
Qed.
Lemma copies_le_irr fs : lexparse_upto t plcp phi 0 (length t) fs ->
  length (filter (fun f => 0 <? lz_len f) fs) <= length (filter irr (seq 0 (length t))).
Proof.
  destruct fs as [|f fs]; [simpl; lia|]. intros H. cbn [lexparse_upto] in H. destruct H as (Ha & Hf & H).
  replace (length t) with (S (length t - 1)) at 1 by lia. cbn [seq filter]. rewrite irr_0. cbn [length].
  assert (length (filter (fun f => 0 <? lz_len f) fs) <= length (filter irr (seq 1 (length t - 1)))).
  { apply (copies_le fs 0 (0 + Nat.max 1 (lz_len f)) Ha); auto.
    destruct Hf as [(E & ->)|(E & ->)]; cbn [lz_len]; lia. }
  destruct (0 <? lz_len f); cbn [length]; lia.
Qed.
(** number of irreducible positions = number of runs *)
Lemma irr_runs : length (filter irr (seq 0 (length t))) = length (runs b).
Proof.
  rewrite runs_changes, b_len. unfold irr.
  rewrite <- (length_filter_map (change b) (fun x => nth x isa 0)).
  apply Permutation_length. apply filter_perm.
  replace (map (fun x => nth x isa 0) (seq 0 (length t))) with isa; [exact HPi|].
  apply (nth_ext_len _ _ 0).
  - rewrite map_length, seq_length. now apply is_perm_length.
  - intros i Hi. rewrite (is_perm_length _ _ HPi) in Hi. rewrite (nth_map _ _ _ 0) by now rewrite seq_length.
    now rewrite nth_seq0 by auto.
Qed.
(** literal factors have distinct letters *)
Lemma lit_distinct a a' : a < length t -> a' < length t -> a <> a' -> nth a plcp 0 = 0 -> nth a' plcp 0 = 0 ->
  nth a t 0 <> nth a' t 0.
Proof.
  assert (G : forall a a', a < length t -> a' < length t -> nth a isa 0 < nth a' isa 0 -> nth a' plcp 0 = 0 -> nth a t 0 <> nth a' t 0).
  { clear a a'. intros a a' Ha Ha' Hlt E0 E. assert (HL : lex_lt (skipn a t) (skipn a' t)) by (apply (isa_lt_iff t sa isa); auto).
    destruct (phi_pred t sa isa phi HSA Ei HPi HPp Hi2 Hp1 Hp0 a' Ha' ltac:(lia)) as (Q1 & Q2 & Q3).
    specialize (Q3 a Ha HL).
    assert (HA : agree t a a' 1).
    { split; [lia|]. split; [lia|]. intros [|x] Hx; [|lia]. now rewrite !Nat.add_0_r. }
    destruct (agree_sandwich t a (nth a' phi 0) a' 1) as (_ & A2); auto; try lia.
    { now right. }
    pose proof (lcpv_max t _ _ _ _ (Hplcp a' Ha') A2). lia. }
  intros Ha Ha' Hne E1 E2. destruct (Nat.lt_trichotomy (nth a isa 0) (nth a' isa 0)) as [L|[E|L]].
  - apply G; auto.
  - exfalso. apply Hne. rewrite <- (Hi2 a Ha), <- (Hi2 a' Ha'), E. reflexivity.
  - intros E. symmetry in E. revert E. apply G; auto.
Qed.
Lemma lits_pos fs : forall a f, lexparse_upto t plcp phi a (length t) fs -> In f (filter (fun f => lz_len f =? 0) fs) ->
  exists i, a <= i < length t /\ nth i plcp 0 = 0 /\ lz_pos f = nth i t 0.
Proof.
  induction fs as [|g fs IH]; intros a f H Hin; [easy|]. cbn [lexparse_upto] in H. destruct H as (Ha & Hg & H).
  apply filter_In in Hin. destruct Hin as ([->|Hin] & E0).
  - exists a. split; [lia|]. apply Nat.eqb_eq in E0. destruct Hg as [(E & ->)|(E & ->)]; cbn [lz_len lz_pos] in *; [auto|lia].
  - destruct (IH _ f H) as (i & H1 & H2); [now apply filter_In|]. exists i. split; [lia|exact H2].
Qed.
Lemma lits_nodup fs : forall a, lexparse_upto t plcp phi a (length t) fs -> NoDup (map lz_pos (filter (fun f => lz_len f =? 0) fs)).
Proof.
  induction fs as [|g fs IH]; intros a H; [constructor|]. cbn [lexparse_upto] in H. destruct H as (Ha & Hg & H).
  cbn [filter]. specialize (IH _ H). destruct (Nat.eqb_spec (lz_len g) 0) as [E0|E0]; [|exact IH].
  cbn [map]. constructor; [|exact IH]. intros Hin. apply in_map_iff in Hin. destruct Hin as (f & Ef & Hin).
  destruct (lits_pos fs _ f H Hin) as (i & H1 & H2 & H3).
  destruct Hg as [(E & ->)|(E & ->)]; cbn [lz_len lz_pos] in *; [|lia].
  apply (lit_distinct a i); auto; try lia; congruence.
Qed.
Lemma lits_le fs : lexparse_upto t plcp phi 0 (length t) fs ->
  length (filter (fun f => lz_len f =? 0) fs) <= length (nodup Nat.eq_dec t).
Proof.
  intros H. rewrite <- (map_length lz_pos). apply NoDup_incl_length; [now apply (lits_nodup fs 0)|].
  intros c Hc. apply in_map_iff in Hc. destruct Hc as (f & <- & Hf). destruct (lits_pos fs 0 f H Hf) as (i & H1 & _ & ->).
  apply nodup_In, nth_In. lia.
Qed.
Lemma split_count (fs : list lzfactor) : length fs = length (filter (fun f => 0 <? lz_len f) fs) + length (filter (fun f => lz_len f =? 0) fs).
Proof.
  induction fs as [|f fs IH]; [reflexivity|]. cbn [filter length].
  destruct (Nat.ltb_spec 0 (lz_len f)), (Nat.eqb_spec (lz_len f) 0); cbn [length]; lia.
Qed.
Lemma lexparse_le_runs fs : lexparse_upto t plcp phi 0 (length t) fs ->
  length fs <= length (runs b) + length (nodup Nat.eq_dec t).
Proof.
  intros H. rewrite (split_count fs). pose proof (copies_le_irr fs H). pose proof (lits_le fs H). rewrite irr_runs in *. lia.
Qed.
End Irr.

Lemma lexparse_runs sort s : (forall t, is_suffix_array t (sort t)) -> ~ In 0 s ->
  exists fs, count_lexparse_main sort (s ++ [0]) = Ok fs /\
    length fs <= length (runs (sa_letters (s ++ [0]) (sort (s ++ [0])))) + length (nodup Nat.eq_dec (s ++ [0])).
Proof.
  intros Hs Hz. specialize (Hs (s ++ [0])). unfold count_lexparse_main. set (sa := sort (s ++ [0])) in *. clearbody sa.
  assert (Hne : s ++ [0] <> []) by (destruct s; easy).
  destruct (lcp_structures' (s ++ [0]) sa Hne Hs) as (isa & phi & plcp & lcp & E1 & E2 & E3 & E4 & HPi & HPp & Lp & Ll & Hi1 & Hi2 & Hp1 & Hp0 & Hplcp & _ & _).
  rewrite E2. cbn [bind]. rewrite E3. cbn [bind].
  destruct (compute_lexparse_ok (s ++ [0]) plcp phi Lp (is_perm_length _ _ HPp)) as (fs & E & Hfs).
  { intros i Hi. destruct (Hplcp i Hi) as ((_ & H & _) & _). exact H. }
  exists fs. split; [exact E|]. eapply (lexparse_le_runs s Hz sa isa phi plcp); eauto.
Qed.
