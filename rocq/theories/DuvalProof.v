(** DuvalProof.v : correctness of [duval] and uniqueness of Lyndon factorizations. *)
From Verif Require Import Base SpecStr LexFacts ModelCore.

(** substring [a,b) *)
Definition sub (t : str) (a b : nat) : str := firstn (b - a) (skipn a t).

Lemma sub_length t a b : b <= length t -> length (sub t a b) = b - a.
Proof. intros H. unfold sub. rewrite firstn_length, skipn_length. lia. Qed.
Lemma nth_sub t a b x : a + x < b -> nth x (sub t a b) 0 = nth (a + x) t 0.
Proof. intros H. unfold sub. rewrite nth_firstn by lia. apply nth_skipn. Qed.
Lemma sub_app t a b c : a <= b <= c -> c <= length t -> sub t a b ++ sub t b c = sub t a c.
Proof.
  intros H1 H2. apply (nth_ext_len _ _ 0).
  - rewrite app_length, !sub_length by lia. lia.
  - intros i Hi. rewrite app_length, !sub_length in Hi by lia.
    destruct (Nat.lt_ge_cases i (b - a)).
    + rewrite app_nth1 by (rewrite sub_length; lia). rewrite !nth_sub by lia. auto.
    + rewrite app_nth2 by (rewrite sub_length; lia). rewrite sub_length by lia.
      rewrite !nth_sub by lia. f_equal. lia.
Qed.
Lemma firstn_sub t a b p : p <= b - a -> firstn p (sub t a b) = sub t a (a + p).
Proof.
  intros H. unfold sub. rewrite firstn_firstn. f_equal. lia.
Qed.
Lemma skipn_split_sub t a b : a <= b <= length t -> skipn a t = sub t a b ++ skipn b t.
Proof.
  intros H. unfold sub. rewrite <- (firstn_skipn (b - a) (skipn a t)) at 1. f_equal.
  rewrite skipn_skipn. f_equal. lia.
Qed.

(** u is a prefix of a power of the Lyndon word [firstn p u] *)
Definition lynper (u : str) (p : nat) : Prop :=
  1 <= p <= length u /\ lyndon (firstn p u) /\
  forall x, x + p < length u -> nth (x + p) u 0 = nth x u 0.

Lemma lynper_mod u p x : lynper u p -> x < length u -> nth x u 0 = nth (x mod p) u 0.
Proof.
  intros (Hp & _ & H). induction x as [x IH] using lt_wf_ind. intros Hx.
  destruct (Nat.lt_ge_cases x p).
  - now rewrite Nat.mod_small.
  - replace x with ((x - p) + p) at 1 by lia. rewrite H by lia.
    rewrite IH by lia. f_equal.
    replace x with ((x - p) + 1 * p) at 2 by lia. now rewrite Nat.mod_add by lia.
Qed.

Lemma lynper_single c : lynper [c] 1.
Proof. split; [simpl; lia|]. split; [apply lyndon_single|]. simpl. intros; lia. Qed.

(** reading the expected letter keeps the period *)
Lemma lynper_same u p c : lynper u p -> c = nth (length u - p) u 0 -> lynper (u ++ [c]) p.
Proof.
  intros (Hp & HL & H) ->. split; [rewrite app_length; simpl; lia|]. split.
  - rewrite firstn_app. replace (p - length u) with 0 by lia. simpl. now rewrite app_nil_r.
  - intros x Hx. rewrite app_length in Hx. simpl in Hx.
    rewrite (app_nth1 u _ 0 (n := x)) by lia.
    destruct (Nat.eq_dec (x + p) (length u)) as [E|E].
    + rewrite app_nth2 by lia. rewrite E, Nat.sub_diag. simpl. f_equal. lia.
    + rewrite app_nth1 by lia. apply H. lia.
Qed.

(** reading a larger letter makes the whole window a Lyndon word *)
Lemma lyndon_extend u p c : lynper u p -> nth (length u - p) u 0 < c -> lyndon (u ++ [c]).
Proof.
  intros HP Hc. pose proof HP as (Hp & HL & H).
  apply lyndon_idx. split; [destruct u; easy|].
  intros s Hs. rewrite app_length in *. simpl in Hs.
  apply lyndon_idx in HL. destruct HL as [_ HL].
  rewrite firstn_length_le in HL by lia.
  assert (Hmodlt : forall x, x mod p < p) by (intros x; apply Nat.mod_upper_bound; lia).
  assert (Hc' : nth (length u mod p) u 0 < c).
  { rewrite (lynper_mod u p _ HP) in Hc by lia.
    replace (length u) with ((length u - p) + 1 * p) at 1 by lia. now rewrite Nat.mod_add by lia. }
  assert (Hs' : s = p * (s / p) + s mod p) by (apply Nat.div_mod; lia).
  set (q := s / p) in *. set (r := s mod p) in *.
  assert (Hr : r < p) by (apply Hmodlt).
  assert (Hsx : forall x, r + x < p -> (s + x) mod p = r + x).
  { intros x Hx. replace (s + x) with ((r + x) + q * p) by lia. rewrite Nat.mod_add by lia.
    now apply Nat.mod_small. }
  assert (nthC : nth (length u) (u ++ [c]) 0 = c).
  { rewrite app_nth2 by lia. now rewrite Nat.sub_diag. }
  destruct (Nat.eq_dec r 0) as [E|E].
  - (* s is a multiple of p *)
    assert (Hx0 : forall x, (s + x) mod p = x mod p).
    { intros x. replace (s + x) with (x + q * p) by lia. now rewrite Nat.mod_add by lia. }
    exists (length u - s). repeat split.
    + simpl. lia.
    + intros x Hx. rewrite !app_nth1 by lia.
      rewrite (lynper_mod u p x HP), (lynper_mod u p (s + x) HP) by lia. now rewrite Hx0.
    + replace (s + (length u - s)) with (length u) by lia. rewrite nthC.
      rewrite app_nth1 by lia. rewrite (lynper_mod u p _ HP) by lia.
      rewrite <- Hx0. replace (s + (length u - s)) with (length u) by lia. exact Hc'.
  - destruct (HL r ltac:(lia)) as (y & Hy1 & Hy2 & Hy3).
    assert (Hy2' : forall x, x < y -> nth x u 0 = nth (r + x) u 0).
    { intros x Hx. specialize (Hy2 x Hx). now rewrite !nth_firstn in Hy2 by lia. }
    rewrite !nth_firstn in Hy3 by lia.
    destruct (Nat.lt_ge_cases (s + y) (length u)) as [L|L].
    + exists y. repeat split.
      * simpl; lia.
      * intros x Hx. rewrite !app_nth1 by lia. rewrite (Hy2' x Hx).
        rewrite (lynper_mod u p (s + x) HP) by lia. now rewrite Hsx by lia.
      * rewrite !app_nth1 by lia. rewrite (lynper_mod u p (s + y) HP) by lia.
        now rewrite Hsx by lia.
    + exists (length u - s). repeat split.
      * simpl; lia.
      * intros x Hx. rewrite !app_nth1 by lia. rewrite (Hy2' x) by lia.
        rewrite (lynper_mod u p (s + x) HP) by lia. now rewrite Hsx by lia.
      * replace (s + (length u - s)) with (length u) by lia. rewrite nthC.
        rewrite app_nth1 by lia.
        set (z := length u - s) in *.
        assert (Ez : length u mod p = r + z).
        { replace (length u) with (s + z) by (unfold z; lia). apply Hsx. lia. }
        rewrite Ez in Hc'.
        destruct (Nat.eq_dec z y) as [->|Nzy]; [lia|].
        rewrite (Hy2' z) by lia. exact Hc'.
Qed.

Lemma lynper_full u : lyndon u -> lynper u (length u).
Proof.
  intros H. split; [pose proof (lyndon_length u H); lia|]. split; [now rewrite firstn_all|].
  intros; lia.
Qed.

(** ** the scanning loop *)
Lemma sub_snoc t a b : a <= b < length t -> sub t a (S b) = sub t a b ++ [nth b t 0].
Proof.
  intros H. unfold sub. replace (S b - a) with (S (b - a)) by lia.
  rewrite (firstn_snoc_nth _ _ 0) by (rewrite skipn_length; lia).
  rewrite nth_skipn. do 2 f_equal. f_equal. lia.
Qed.

Definition scan_inv (t : str) (k i j : nat) : Prop :=
  k <= i < j /\ j <= length t /\ lynper (sub t k j) (j - i).

Lemma duval_scan_ok t k : k < length t ->
  okp (duval_scan t k) (fun '(i, j) => scan_inv t k i j /\
     (j = length t \/ (j < length t /\ nth j t 0 < nth i t 0))).
Proof.
  intros Hk. unfold duval_scan.
  eapply (okp_loop (fun '(i, j) => scan_inv t k i j) (fun '(i, j) => length t - j)).
  2:{ unfold scan_inv. split; [lia|]. split; [lia|]. split; [|split].
      - rewrite sub_length; lia.
      - replace (k + 1 - k) with 1 by lia.
        replace (k + 1) with (S k) by lia. rewrite (sub_snoc t k k) by lia.
        replace (sub t k k) with (@nil nat) by (unfold sub; now rewrite Nat.sub_diag).
        simpl. apply lyndon_single.
      - intros x Hx. rewrite sub_length in Hx by lia. lia. }
  2:{ lia. }
  intros [i j] (Hij & Hj & HL). cbv beta iota.
  destruct (Nat.eqb_spec j (length t)) as [E|E].
  { apply okp_ok. split; [unfold scan_inv; auto|]. auto. }
  apply okp_bind, (okp_get _ _ 0); [lia|].
  apply okp_bind, (okp_get _ _ 0); [lia|].
  assert (Eij : nth (length (sub t k j) - (j - i)) (sub t k j) 0 = nth i t 0).
  { rewrite sub_length by lia. replace (j - k - (j - i)) with (i - k) by lia.
    rewrite nth_sub by lia. f_equal. lia. }
  destruct (Nat.leb_spec (nth i t 0) (nth j t 0)) as [Le|Gt].
  2:{ apply okp_ok. split; [unfold scan_inv; auto|]. right. lia. }
  apply okp_bind.
  destruct (Nat.ltb_spec (nth i t 0) (nth j t 0)) as [Lt|Ge].
  - apply (okp_get _ _ 0); [lia|].
    (* the window becomes Lyndon; the second test of the code cannot succeed *)
    assert (HLy : lyndon (sub t k (j + 1))).
    { replace (j + 1) with (S j) by lia. rewrite sub_snoc by lia.
      apply (lyndon_extend _ (j - i)); [exact HL|]. now rewrite Eij. }
    assert (Hk1 : nth k t 0 < nth j t 0).
    { destruct (Nat.eq_dec i k) as [->|Nik]; [exact Lt|].
      pose proof HL as (Hp & HLy0 & _). rewrite sub_length in Hp by lia.
      enough (nth k t 0 <= nth i t 0) by lia.
      assert (Hm := lynper_mod _ _ (i - k) HL). rewrite sub_length in Hm by lia.
      specialize (Hm ltac:(lia)). rewrite nth_sub in Hm by lia.
      replace (k + (i - k)) with i in Hm by lia. rewrite Hm.
      assert (Hb : (i - k) mod (j - i) < j - i) by (apply Nat.mod_upper_bound; lia).
      pose proof (lyndon_first_min _ ((i - k) mod (j - i)) HLy0) as Hmin.
      rewrite firstn_length_le in Hmin by (rewrite sub_length; lia).
      specialize (Hmin Hb). rewrite !nth_firstn in Hmin by lia.
      rewrite (nth_sub t k j 0) in Hmin by lia. rewrite Nat.add_0_r in Hmin. exact Hmin. }
    destruct (Nat.eqb_spec (nth k t 0) (nth j t 0)) as [Ek|Nk]; [lia|].
    apply okp_ok. split; [|lia].
    split; [lia|]. split; [lia|].
    replace (j + 1 - k) with (length (sub t k (j + 1))) by (rewrite sub_length; lia).
    now apply lynper_full.
  - assert (Eq : nth i t 0 = nth j t 0) by lia.
    apply (okp_get _ _ 0); [lia|].
    destruct (Nat.eqb_spec (nth i t 0) (nth j t 0)) as [_|N]; [|lia].
    apply okp_ok. split; [|lia]. split; [lia|]. split; [lia|].
    replace (j + 1 - (i + 1)) with (j - i) by lia. replace (j + 1) with (S j) by lia.
    rewrite sub_snoc by lia. apply lynper_same; [exact HL|]. now rewrite Eij.
Qed.

(** ** emitting factors *)
Lemma ends_from_snoc s fs f :
  ends_from s (fs ++ [f]) = ends_from s fs ++ [s + length (concat fs) + length f - 1].
Proof.
  revert s; induction fs as [|g fs IH]; intros s; simpl.
  - now rewrite Nat.add_0_r.
  - rewrite IH. rewrite app_length. do 3 f_equal. lia.
Qed.

Lemma non_increasing_snoc fs f :
  non_increasing fs -> (fs = [] \/ lex_le f (last fs [])) -> non_increasing (fs ++ [f]).
Proof.
  induction fs as [|g fs IH]; intros H Hl; [simpl; auto|].
  destruct Hl as [Hl|Hl]; [easy|]. simpl in H. destruct H as [H1 H2].
  destruct fs as [|h fs].
  - simpl in *. auto.
  - change ((g :: h :: fs) ++ [f]) with (g :: (h :: fs) ++ [f]).
    split.
    + exact H1.
    + apply IH; [exact H2|]. right. exact Hl.
Qed.

Definition good_prefix (t : str) (k : nat) (ends : list nat) (fs : list str) : Prop :=
  k <= length t /\ concat fs = firstn k t /\ Forall lyndon fs /\ non_increasing fs /\
  ends = ends_from 0 fs.

Definition boundary (t : str) (k : nat) (fs : list str) : Prop :=
  forall f rest, skipn k t = f ++ rest -> lyndon f -> fs = [] \/ lex_le f (last fs []).

Lemma good_prefix_snoc t k ends fs k' :
  good_prefix t k ends fs -> k < k' <= length t -> lyndon (sub t k k') ->
  (fs = [] \/ lex_le (sub t k k') (last fs [])) ->
  good_prefix t k' (ends ++ [k' - 1]) (fs ++ [sub t k k']).
Proof.
  intros (H1 & H2 & H3 & H4 & H5) Hk HL Hb.
  split; [lia|]. split; [|split; [|split]].
  - rewrite concat_app, H2. simpl. rewrite app_nil_r.
    change (firstn k t) with (firstn k (skipn 0 t)).
    replace k with (k - 0) at 1 by lia. fold (sub t 0 k). rewrite sub_app by lia.
    unfold sub. now rewrite Nat.sub_0_r.
  - apply Forall_app. split; [exact H3|]. now constructor.
  - now apply non_increasing_snoc.
  - rewrite ends_from_snoc, H5. do 2 f_equal. rewrite H2, firstn_length, sub_length by lia. lia.
Qed.

Lemma duval_emit_ok t k i j ends fs :
  scan_inv t k i j -> (j = length t \/ (j < length t /\ nth j t 0 < nth i t 0)) ->
  good_prefix t k ends fs -> boundary t k fs ->
  okp (duval_emit (length t) i j k ends) (fun '(k', ends') =>
     k < k' <= length t /\ exists fs', good_prefix t k' ends' fs' /\ boundary t k' fs').
Proof.
  intros (Hij & Hj & HL) Hend HG HB. unfold duval_emit.
  set (p := j - i). set (w := sub t k (k + p)).
  assert (Hp : 1 <= p) by (unfold p; lia).
  assert (Hpk : k + p <= j) by (unfold p; lia).
  assert (HLw : lyndon w).
  { destruct HL as (_ & HLw & _). rewrite firstn_sub in HLw by lia. exact HLw. }
  assert (Lw : length w = p) by (unfold w; rewrite sub_length; lia).
  eapply (okp_loop (fun '(k', ends') => k <= k' <= i /\ lynper (sub t k' j) p /\
             sub t k' (k' + p) = w /\
             exists fs', good_prefix t k' ends' fs' /\ (fs' = [] \/ lex_le w (last fs' [])))
             (fun '(k', ends') => length t - k')).
  2:{ split; [lia|]. split; [exact HL|]. split; [reflexivity|].
      exists fs. split; [exact HG|].
        apply (HB w (skipn (k + p) t)); [|exact HLw]. apply skipn_split_sub. lia. }
  2:{ lia. }
  intros [k' ends'] (Hk' & HL' & Ew & fs' & HG' & HB'). cbv beta iota.
  apply okp_bind, okp_assert; [apply Nat.ltb_lt; lia|]. cbv zeta. fold p.
  apply okp_bind, okp_sub; [lia|].
  assert (HG'' : good_prefix t (k' + p) (ends' ++ [k' + p - 1]) (fs' ++ [w])).
  { rewrite <- Ew. apply good_prefix_snoc; [exact HG'|lia| |]; rewrite Ew; auto. }
  assert (Hwin : forall x, k' + x < j -> nth (k' + x) t 0 = nth (x mod p) w 0).
  { intros x Hx.
    pose proof (lynper_mod _ _ x HL') as Hm. rewrite sub_length in Hm by lia.
    specialize (Hm ltac:(lia)). rewrite nth_sub in Hm by lia. rewrite Hm.
    assert (Hb : x mod p < p) by (apply Nat.mod_upper_bound; lia).
    rewrite <- Ew. rewrite !nth_sub by lia. reflexivity. }
  destruct (Nat.leb_spec i (k' + p)) as [Le|Gt].
  - (* last factor of this round *)
    apply okp_ok. split; [lia|]. exists (fs' ++ [w]). split; [exact HG''|].
    intros f rest Hf HLf. right. rewrite last_last.
    assert (Hfl : length f + length rest = length t - (k' + p)).
    { rewrite <- app_length, <- Hf, skipn_length. reflexivity. }
    assert (Hfn : forall x, x < length f -> nth x f 0 = nth (k' + p + x) t 0).
    { intros x Hx. rewrite <- nth_skipn, Hf, app_nth1 by lia. reflexivity. }
    destruct (Nat.lt_ge_cases (j - (k' + p)) (length f)) as [Lf|Lf].
    + (* f extends beyond the window *)
      destruct Hend as [Hend|(Hjn & Hlt)]; [lia|].
      set (z := j - (k' + p)) in *.
      assert (Hz : z <= p) by (unfold z, p; lia).
      assert (Hi : nth i t 0 = nth (z mod p) w 0).
      { replace i with (k' + (j - p - k')) by (unfold p; lia).
        rewrite Hwin by (unfold p; lia). f_equal.
        replace (j - p - k') with z by (unfold z; lia). reflexivity. }
      assert (Hfz : nth z f 0 = nth j t 0).
      { rewrite Hfn by lia. f_equal. unfold z. lia. }
      assert (Hpre : forall x, x < z -> nth x f 0 = nth x w 0).
      { intros x Hx. rewrite Hfn by lia. replace (k' + p + x) with (k' + (p + x)) by lia.
        rewrite Hwin by lia. f_equal. replace (p + x) with (x + 1 * p) by lia.
        rewrite Nat.mod_add by lia. apply Nat.mod_small. lia. }
      destruct (Nat.eq_dec z p) as [Ezp|Nzp].
      * exfalso. pose proof (lyndon_first_min f z HLf Lf) as Hmin.
        rewrite Hfz, (Hpre 0) in Hmin by lia.
        rewrite Hi, Ezp, Nat.mod_same in Hlt by lia. lia.
      * rewrite Nat.mod_small in Hi by lia.
        right. apply (lex_lt_mismatch _ _ z); try lia.
        -- exact Hpre.
    + (* f is a prefix of w *)
      assert (E : w = f ++ skipn (length f) w).
      { rewrite <- (firstn_skipn (length f) w) at 1. f_equal.
        apply (nth_ext_len _ _ 0).
        - rewrite firstn_length. lia.
        - intros x Hx. rewrite firstn_length in Hx. rewrite nth_firstn by lia.
          rewrite Hfn by lia. replace (k' + p + x) with (k' + (p + x)) by lia.
          rewrite Hwin by lia. f_equal. replace (p + x) with (x + 1 * p) by lia.
          rewrite Nat.mod_add by lia. symmetry. apply Nat.mod_small. lia. }
      rewrite E. apply lex_le_prefix.
  - apply okp_ok. split; [|lia].
    assert (Ew' : sub t (k' + p) (k' + p + p) = w).
    { apply (nth_ext_len _ _ 0); [rewrite sub_length; lia|].
      intros x Hx. rewrite sub_length in Hx by lia. rewrite nth_sub by lia.
      replace (k' + p + x) with (k' + (p + x)) by lia. rewrite Hwin by lia.
      f_equal. replace (p + x) with (x + 1 * p) by lia. rewrite Nat.mod_add by lia.
      apply Nat.mod_small. lia. }
    split; [lia|]. split.
    + split; [rewrite sub_length; lia|]. split.
      * rewrite firstn_sub by lia. now rewrite Ew'.
      * intros x Hx. rewrite sub_length in Hx by lia. rewrite !nth_sub by lia.
        replace (k' + p + (x + p)) with (k' + (p + (x + p))) by lia.
        replace (k' + p + x) with (k' + (p + x)) by lia.
        rewrite !Hwin by lia. f_equal.
        replace (p + (x + p)) with ((p + x) + 1 * p) by lia. now rewrite Nat.mod_add by lia.
    + split; [exact Ew'|]. exists (fs' ++ [w]). split; [exact HG''|].
      right. rewrite last_last. apply lex_le_refl.
Qed.

(** ** main theorem *)
Lemma duval_correct t :
  exists ends fs, duval t = Ok ends /\ lyndon_factorization t fs /\ ends = ends_from 0 fs.
Proof.
  assert (H : okp (duval t) (fun ends => exists fs, lyndon_factorization t fs /\ ends = ends_from 0 fs)).
  { unfold duval.
    eapply (okp_loop (fun '(k, ends) => exists fs, good_prefix t k ends fs /\ boundary t k fs)
              (fun '(k, ends) => length t - k)).
    2:{ exists []. split; [|intros f rest _ _; now left].
        split; [lia|]. repeat split; constructor. }
    2:{ lia. }
    intros [k ends] (fs & HG & HB). cbv beta iota.
    destruct (Nat.ltb_spec k (length t)) as [Lt|Ge].
    - apply okp_bind. eapply okp_imp; [apply duval_scan_ok; exact Lt|].
      intros [i j] (HS & HE). cbv beta iota.
      apply okp_bind. eapply okp_imp; [eapply duval_emit_ok; eauto|].
      intros [k' ends'] (Hk & fs' & HG' & HB'). apply okp_ok. split; [|lia]. eauto.
    - apply okp_ok. destruct HG as (H1 & H2 & H3 & H4 & H5). exists fs. split; [|exact H5].
      split; [|split; assumption]. rewrite H2. apply firstn_all2. lia. }
  destruct H as (ends & E & fs & HF & HE). exists ends, fs. auto.
Qed.

(** ** uniqueness *)
(** the first factor of a Lyndon factorization is its longest Lyndon prefix *)
Lemma lex_le_concat_head f fs :
  Forall lyndon fs -> non_increasing (f :: fs) -> forall s, s <> [] ->
  (exists q, concat fs = s ++ q) -> exists g, (g <> [] /\ (exists x, s = g ++ x) /\ lex_le g f).
Proof.
  intros HF HN s Hs (q & Hq).
  destruct fs as [|g fs]; simpl in Hq.
  - destruct s; easy.
  - simpl in HN. destruct HN as [Hle HN].
    destruct (Nat.le_ge_cases (length g) (length s)) as [L|L].
    + exists g. split; [apply lyndon_not_nil; now inversion HF|]. split; [|exact Hle].
      exists (skipn (length g) s).
      assert (E : firstn (length g) (g ++ concat fs) = firstn (length g) (s ++ q)) by now rewrite Hq.
      rewrite !firstn_app, Nat.sub_diag, firstn_all in E. simpl in E. rewrite app_nil_r in E.
      replace (length g - length s) with 0 in E by lia. simpl in E. rewrite app_nil_r in E.
      rewrite E at 1. now rewrite firstn_skipn.
    + exists s. split; [exact Hs|]. split; [exists []; now rewrite app_nil_r|].
      assert (E : firstn (length s) (g ++ concat fs) = firstn (length s) (s ++ q)) by now rewrite Hq.
      rewrite !firstn_app, Nat.sub_diag, firstn_all in E. simpl in E. rewrite app_nil_r in E.
      replace (length s - length g) with 0 in E by lia. simpl in E. rewrite app_nil_r in E.
      apply (lex_le_trans _ g); [|exact Hle].
      rewrite <- (firstn_skipn (length s) g), E. apply lex_le_prefix.
Qed.

(** no Lyndon word properly extends the first factor of a factorization *)
Lemma first_factor_longest f fs u r :
  Forall lyndon (f :: fs) -> non_increasing (f :: fs) ->
  concat (f :: fs) = u ++ r -> lyndon u -> length u <= length f.
Proof.
  intros HF HN E HL.
  destruct (Nat.le_gt_cases (length u) (length f)) as [L|L]; [exact L|exfalso].
  (* u = f ++ s with s non-empty; a suffix of u, made of pieces <= f, is not larger than u *)
  assert (Hall : forall fs f u r, Forall lyndon (f :: fs) -> non_increasing (f :: fs) ->
      concat (f :: fs) = u ++ r -> length f < length u ->
      exists v s, u = v ++ s /\ v <> [] /\ s <> [] /\ lex_le s f).
  { clear. intros fs. induction fs as [|g fs IH]; intros f u r HF HN E L.
    - simpl in E. rewrite app_nil_r in E. apply (f_equal (@length nat)) in E.
      rewrite app_length in E. lia.
    - (* cut u into f, g, ..., last piece possibly partial *)
      assert (Eu : u = f ++ skipn (length f) u).
      { simpl in E. assert (E' : firstn (length f) (f ++ g ++ concat fs) = firstn (length f) (u ++ r)) by now rewrite E.
        rewrite !firstn_app, Nat.sub_diag, firstn_all in E'. simpl in E'. rewrite app_nil_r in E'.
        replace (length f - length u) with 0 in E' by lia. simpl in E'. rewrite app_nil_r in E'.
        rewrite E' at 1. now rewrite firstn_skipn. }
      set (u' := skipn (length f) u) in *.
      assert (Lu' : length u' = length u - length f) by (unfold u'; now rewrite skipn_length).
      assert (E2 : concat (g :: fs) = u' ++ r).
      { rewrite Eu in E. simpl in E. rewrite <- app_assoc in E. now apply app_inv_head in E. }
      assert (Hne : f <> []) by (apply lyndon_not_nil; now inversion HF).
      simpl in HN. destruct HN as [Hgf HN].
      destruct (Nat.le_gt_cases (length u') (length g)) as [L2|L2].
      + exists f, u'. split; [exact Eu|]. split; [exact Hne|].
        split; [intros ->; simpl in Lu'; lia|].
        apply (lex_le_trans _ g); [|exact Hgf].
        simpl in E2. assert (E' : firstn (length u') (g ++ concat fs) = firstn (length u') (u' ++ r)) by now rewrite E2.
        rewrite !firstn_app, Nat.sub_diag, firstn_all in E'. simpl in E'. rewrite app_nil_r in E'.
        replace (length u' - length g) with 0 in E' by lia. simpl in E'. rewrite app_nil_r in E'.
        rewrite <- (firstn_skipn (length u') g), E'. apply lex_le_prefix.
      + destruct (IH g u' r ltac:(now inversion HF) HN E2 L2) as (v & s & Evs & Hv & Hs & Hle).
        exists (f ++ v), s. split; [rewrite Eu, Evs; now rewrite app_assoc|].
        split; [destruct f; easy|]. split; [exact Hs|].
        eapply lex_le_trans; eauto. }
  destruct (Hall fs f u r HF HN E L) as (v & s & Evs & Hv & Hs & Hle).
  destruct HL as [_ HL]. specialize (HL v s Evs Hv Hs).
  assert (Hfu : lex_le f u).
  { simpl in E. assert (E' : firstn (length f) (f ++ concat fs) = firstn (length f) (u ++ r)) by now rewrite E.
    rewrite !firstn_app, Nat.sub_diag, firstn_all in E'. simpl in E'. rewrite app_nil_r in E'.
    replace (length f - length u) with 0 in E' by lia. simpl in E'. rewrite app_nil_r in E'.
    rewrite E'. rewrite <- (firstn_skipn (length f) u) at 2. apply lex_le_prefix. }
  apply (lex_lt_irrefl u). eapply lex_lt_le_trans; [exact HL|]. eapply lex_le_trans; eauto.
Qed.

Lemma lyndon_factorization_unique t fs gs :
  lyndon_factorization t fs -> lyndon_factorization t gs -> fs = gs.
Proof.
  revert t gs. induction fs as [|f fs IH]; intros t gs (E1 & F1 & N1) (E2 & F2 & N2).
  - destruct gs as [|g gs]; auto. simpl in *. subst t.
    inversion F2 as [|? ? Hg _]; subst. apply lyndon_not_nil in Hg. destruct g; easy.
  - destruct gs as [|g gs].
    + simpl in *. inversion F1 as [|? ? Hf _]; subst. apply lyndon_not_nil in Hf. destruct f; easy.
    + assert (L1 : length g <= length f).
      { apply (first_factor_longest f fs g (concat gs)); auto; [|now inversion F2].
        simpl in *. congruence. }
      assert (L2 : length f <= length g).
      { apply (first_factor_longest g gs f (concat fs)); auto; [|now inversion F1].
        simpl in *. congruence. }
      simpl in E1, E2. rewrite <- E2 in E1.
      assert (f = g).
      { apply (f_equal (firstn (length f))) in E1. rewrite !firstn_app in E1.
        replace (length f - length g) with 0 in E1 by lia. rewrite Nat.sub_diag in E1. simpl in E1.
        rewrite !app_nil_r, firstn_all in E1. rewrite E1. apply firstn_all2. lia. }
      subst g. apply app_inv_head in E1. f_equal.
      apply (IH (concat gs)).
      * split; [exact E1|]. split; [now inversion F1|]. simpl in N1. tauto.
      * split; [reflexivity|]. split; [now inversion F2|]. simpl in N2. tauto.
Qed.

Lemma duval_unique t ends gs :
  duval t = Ok ends -> lyndon_factorization t gs -> ends = ends_from 0 gs.
Proof.
  intros HD HG. destruct (duval_correct t) as (e & fs & HD' & HF & HE).
  rewrite HD in HD'. injection HD' as <-. rewrite HE.
  now rewrite (lyndon_factorization_unique t fs gs HF HG).
Qed.
