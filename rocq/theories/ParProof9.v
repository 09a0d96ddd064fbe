(** ParProof9.v : the status messages of max_lyndon_word (unfinished/parallel.rs), for every schedule. *)
From Coq Require Import NArith.
From Verif Require Import Base SpecStr SpecBwt SpecIo SpecMain SpecPar SpecProbe SpecStatus LexFacts RunFacts ModelIo ModelCore ModelMain ModelPar ModelPar2 ModelProbe ModelResult ModelPar3.
From Verif Require Import DuvalProof LyndonProof BwtFacts BwtProof BbwtProof IterProof LwgProof MainProof2 ParProof LockFacts ParProof2 ParProof3 ParProof4 ParProof5 ParProof6 ParProof7 ParProof8 PropsPar ProbeProof ResultProof.

(** ** sums *)
Lemma list_sum_swap {A B} (g : A -> B -> nat) (X : list A) (Y : list B) :
  list_sum (map (fun y => list_sum (map (fun x => g x y) X)) Y) = list_sum (map (fun x => list_sum (map (g x) Y)) X).
Proof.
  induction X as [|x X IH]; cbn [map list_sum fold_right].
  - induction Y; simpl; auto.
  - fold (list_sum (map (fun x => list_sum (map (g x) Y)) X)). rewrite <- IH. clear IH.
    induction Y as [|y Y IHY]; [reflexivity|]. cbn [map list_sum fold_right] in *. unfold list_sum in *. cbn [fold_right] in *. lia.
Qed.
Lemma list_sum_plus {A} (f g : A -> nat) (X : list A) : list_sum (map (fun x => f x + g x) X) = list_sum (map f X) + list_sum (map g X).
Proof. induction X as [|x X IH]; [reflexivity|]. cbn [map]. change (list_sum (?a :: ?l)) with (a + list_sum l). lia. Qed.
Lemma list_sum_ext_in {A} (f g : A -> nat) (X : list A) : (forall x, In x X -> f x = g x) -> list_sum (map f X) = list_sum (map g X).
Proof. intros H. f_equal. now apply map_ext_in. Qed.
Lemma list_sum_ind (l a n : nat) : list_sum (map (fun x => if l =? x then 1 else 0) (seq a n)) = if (a <=? l) && (l <? a + n) then 1 else 0.
Proof.
  revert a. induction n as [|n IH]; intros a; cbn [seq map].
  - destruct (Nat.leb_spec a l); cbn [andb]; [|reflexivity]. destruct (Nat.ltb_spec l (a + 0)); [lia|reflexivity].
  - change (list_sum (?x :: ?l)) with (x + list_sum l). rewrite IH.
    destruct (Nat.eqb_spec l a) as [->|N].
    + destruct (Nat.leb_spec (S a) a); [lia|]. destruct (Nat.leb_spec a a); [|lia]. destruct (Nat.ltb_spec a (a + S n)); [reflexivity|lia].
    + destruct (Nat.leb_spec (S a) l); destruct (Nat.leb_spec a l); try lia; cbn [andb]; [|reflexivity].
      destruct (Nat.ltb_spec l (S a + n)); destruct (Nat.ltb_spec l (a + S n)); lia.
Qed.
Lemma filter_sum {A} (f : A -> bool) (X : list A) : length (filter f X) = list_sum (map (fun x => if f x then 1 else 0) X).
Proof. induction X as [|x X IH]; [reflexivity|]. cbn [filter map]. change (list_sum (?a :: ?l)) with (a + list_sum l). destruct (f x); simpl; lia. Qed.
Lemma msum_le (g : mpc -> nat) b ths i t : nth_error ths i = Some t -> g t = 0 -> (forall t, In t ths -> g t <= b) -> msum g ths <= (length ths - 1) * b.
Proof.
  intros E Hg Hb. destruct (upd_split ths i t E) as (l1 & l2 & -> & _). unfold msum.
  assert (G : forall l, (forall t, In t l -> g t <= b) -> list_sum (map g l) <= length l * b).
  { induction l as [|x l IH]; intros Hl; [simpl; lia|]. cbn [map length]. change (list_sum (?a :: ?l)) with (a + list_sum l).
    pose proof (Hl x (or_introl eq_refl)). specialize (IH (fun t Ht => Hl t (or_intror Ht))). lia. }
  rewrite map_app, list_sum_app. cbn [map]. change (list_sum (?a :: ?l)) with (a + list_sum l). rewrite Hg.
  pose proof (G l1 (fun t Ht => Hb t (in_or_app _ _ _ (or_introl Ht)))).
  pose proof (G l2 (fun u Hu => Hb u (in_or_app l1 (t :: l2) u (or_intror (or_intror Hu))))).
  rewrite app_length. cbn [length]. replace (length l1 + S (length l2) - 1) with (length l1 + length l2) by lia. lia.
Qed.
Lemma cnt_le k w p : cnt k w p <= length w.
Proof.
  unfold cnt. pose proof (filter_len (fun i => cls w i =? k) (seq p (length w - p))). rewrite seq_length in H. lia.
Qed.
Lemma cnt_total w p : cnt 0 w p + cnt 1 w p + cnt 2 w p = length w - p.
Proof.
  unfold cnt. rewrite <- (seq_length (length w - p) p) at 4. induction (seq p (length w - p)) as [|i l IH]; [reflexivity|]. cbn [filter length].
  assert (cls w i = 0 \/ cls w i = 1 \/ cls w i = 2) as [E|[E|E]] by (unfold cls; destruct (_ <? _); [auto|destruct (_ <? _); auto]);
  rewrite E; cbn [Nat.eqb length]; lia.
Qed.

(** ** conjugates of the words handed out *)
Lemma conjugates_in_ok (p : nat) (F : list str) k (P : nat -> nat -> Prop) : NoDup F -> (forall w, In w F -> w <> []) ->
  (forall w i, cls w i = k <-> P (bwr w) (bbr (rot i w))) ->
  conjugates_in F p P (list_sum (map (fun w => cnt k w 0) (filter (fun w => length w =? p) F))).
Proof.
  intros HN HF HP. exists (flat_map (fun w => map (pair w) (filter (fun i => cls w i =? k) (seq 0 (length w)))) (filter (fun w => length w =? p) F)).
  split; [|split].
  - assert (HN' : NoDup (filter (fun w => length w =? p) F)) by now apply NoDup_filter.
    clear HN HF. induction HN' as [|w W Hw HN IH]; [constructor|]. cbn [flat_map]. apply NoDup_app_intro.
    + apply FinFun.Injective_map_NoDup; [intros x y E; congruence|]. apply NoDup_filter, seq_NoDup.
    + exact IH.
    + intros (u, i) H1 H2. apply in_map_iff in H1. destruct H1 as (j & E & _). injection E as -> ->.
      apply in_flat_map in H2. destruct H2 as (v & Hv & H2). apply in_map_iff in H2. destruct H2 as (j' & E & _). injection E as -> ->. contradiction.
  - clear. induction (filter _ F) as [|w W IH]; [reflexivity|]. cbn [flat_map map list_sum fold_right]. rewrite app_length, map_length, IH.
    unfold cnt at 2. rewrite Nat.sub_0_r. reflexivity.
  - intros w i. rewrite in_flat_map. split.
    + intros (u & Hu & H). apply in_map_iff in H. destruct H as (j & E & Hj). injection E as -> ->. apply filter_In in Hj. destruct Hj as (Hj & Hk).
      apply in_seq in Hj. apply Nat.eqb_eq in Hk. apply filter_In in Hu. destruct Hu as (Hu & Hl). apply Nat.eqb_eq in Hl.
      split; [exact Hu|]. split; [exact Hl|]. split; [lia|].
      exists (bwr w), (bbr (rot i w)). split; [apply bwr_ok|]. split; [apply bbr_ok, rot_not_nil, HF, Hu|]. now apply HP.
    + intros (Hw & Hl & Hi & r & b & Hr & Hb & HPrb). exists w. split; [apply filter_In; split; [exact Hw|now apply Nat.eqb_eq]|].
      apply in_map_iff. exists i. split; [reflexivity|]. apply filter_In. split; [apply in_seq; lia|]. apply Nat.eqb_eq, HP.
      rewrite (bwt_runs_unique _ _ _ (proj1 (bwr_ok w)) Hr).
      rewrite (bbwt_runs_unique _ _ _ (rot_not_nil w i (HF w Hw)) (proj1 (bbr_ok _ (rot_not_nil w i (HF w Hw)))) Hb). exact HPrb.
Qed.

Definition status_of (s : mst) : status :=
  Status (m_total s) (fun p => nth (p - 1) (m_num s) 0) (fun p => nth (p - 1) (m_bwt_win s) 0) (fun p => nth (p - 1) (m_bbwt_win s) 0)
    (fun p => nth (p - 1) (m_tie_win s) 0) (fun p => b_text (nth (p - 1) (m_best s) (Best 0 0 [])))
    (fun p => b_bwt (nth (p - 1) (m_best s) (Best 0 0 []))) (fun p => b_bbwt (nth (p - 1) (m_best s) (Best 0 0 []))).

Section S.
Context (max q : nat) (L : list str).
Hypothesis HL : forall w, In w L -> w <> [] /\ length w <= max.
Hypothesis HB : forall w, In w L -> lyndon w /\ Forall (fun c => c < 2) w.
Hypothesis HND : NoDup L.

Lemma isl_len p w : In w L -> 1 <= p -> isl (p - 1) w = (length w =? p).
Proof.
  intros Hw Hp. destruct (HL w Hw) as (H & _). assert (0 < length w) by (destruct w; [easy|simpl; lia]). unfold isl.
  destruct (Nat.eqb_spec (length w - 1) (p - 1)); destruct (Nat.eqb_spec (length w) p); lia || reflexivity.
Qed.
Lemma status_true_ok m s i : MInv max L m s -> nth_error (m_threads s) i = Some MPrint ->
  exists n, status_true max (length (m_threads s) - 1) (firstn n L) (status_of s).
Proof.
  intros (L1 & L2 & EL & HI & HW & HBl & HNl & HC & HN & HT & HG & K1 & K2 & K3 & HBo & KF & KN & Em) Ei.
  exists (length L1). assert (EF : firstn (length L1) L = L1) by (rewrite EL, firstn_app, Nat.sub_diag, firstn_all; cbn; apply app_nil_r).
  rewrite EF. clear EF. rewrite Forall_forall in HG.
  assert (HL1 : forall w, In w L1 -> In w L) by (intros w Hw; rewrite EL; apply in_or_app; auto).
  assert (Hcur : forall t w c, In t (m_threads s) -> cur t = Some (w, c) -> In w L).
  { intros t w c Ht Hc. specialize (HG t Ht). destruct t; simpl in Hc; try discriminate; injection Hc as <- <-; simpl in HG; try (now apply HG); auto; now apply (proj1 HG). }
  assert (Hlen : forall w, In w L -> 1 <= length w <= max).
  { intros w Hw. destruct (HL w Hw) as (H1 & H2). split; [|exact H2]. destruct w; [easy|simpl; lia]. }
  assert (Hnum : forall t, In t (m_threads s) -> list_sum (map (fun l => fnum l t) (seq 0 max)) = ftot t).
  { intros t Ht. unfold fnum, ftot. destruct (cur t) as [(w, c)|] eqn:Ec.
    - pose proof (Hlen w (Hcur t w c Ht Ec)) as Hw. unfold isl. rewrite (list_sum_ind (length w - 1) 0 max).
      destruct (Nat.leb_spec 0 (length w - 1)); [|lia]. destruct (Nat.ltb_spec (length w - 1) (0 + max)); [reflexivity|lia].
    - assert (Z : list_sum (map (fun _ : nat => 0) (seq 0 max)) = 0) by (clear; induction (seq 0 max); simpl; auto).
      assert (HnK : h_num t -> t = MPrint).
      { intros Hh. destruct (m_num_lock s) as [|j|]; [exfalso; eapply K2; [exact Ei|exact I]| |easy]. destruct K2 as (_ & K2).
        destruct (In_nth_error _ _ Ht) as (k & Ek). assert (k = i) by (rewrite (K2 k t Ek Hh); symmetry; apply (K2 i MPrint Ei I)).
        subst k. congruence. }
      destruct t; try discriminate; try exact Z; try (discriminate (HnK I)).
      specialize (HG _ Ht). cbn in HG. rewrite (list_sum_ind lindex 0 max).
      destruct (Nat.leb_spec 0 lindex); [|lia]. destruct (Nat.ltb_spec lindex (0 + max)); [reflexivity|lia]. }
  assert (HF1 : forall l t, fnum l t <= 1).
  { intros l t. unfold fnum. destruct (cur t) as [(w, c)|]; [destruct (isl l w); lia|]. destruct t; try lia; match goal with |- (if ?b then _ else _) <= _ => destruct b; lia end. }
  assert (HF2 : forall t, ftot t <= 1) by (intros t; unfold ftot; destruct (cur t); [lia|]; destruct t; lia).
  assert (HF3 : forall k l t, In t (m_threads s) -> fwin k l t <= l + 1).
  { intros k l t Ht. unfold fwin. destruct (cur t) as [(w, c)|] eqn:Ec; [|lia]. unfold isl. destruct (Nat.eqb_spec (length w - 1) l) as [E|]; [|lia].
    pose proof (cnt_le k w c). pose proof (Hlen w (Hcur t w c Ht Ec)). lia. }
  unfold status_true, status_of. cbn [st_total st_words st_bwt_wins st_bbwt_wins st_ties st_text st_bwt_runs st_bbwt_runs].
  split; [|split].
  - unfold up_to. pose proof (msum_le ftot 1 (m_threads s) i MPrint Ei eq_refl (fun t _ => HF2 t)). lia.
  - rewrite <- seq_shift, map_map. rewrite (map_ext _ (fun l => nth l (m_num s) 0)) by (intros l; now replace (S l - 1) with l by lia).
    assert (E1 : list_sum (map (fun l => nth l (m_num s) 0) (seq 0 max)) + list_sum (map (fun l => msum (fnum l) (m_threads s)) (seq 0 max))
                 = list_sum (map (fun l => length (filter (isl l) L1)) (seq 0 max))).
    { rewrite <- list_sum_plus. apply list_sum_ext_in. intros l Hl. apply in_seq in Hl. apply HN. lia. }
    assert (E2 : list_sum (map (fun l => msum (fnum l) (m_threads s)) (seq 0 max)) = msum ftot (m_threads s)).
    { unfold msum. etransitivity; [exact (list_sum_swap (fun t l => fnum l t) (m_threads s) (seq 0 max))|]. apply list_sum_ext_in. exact Hnum. }
    assert (E3 : list_sum (map (fun l => length (filter (isl l) L1)) (seq 0 max)) = length L1).
    { rewrite (map_ext _ (fun l => list_sum (map (fun w => if isl l w then 1 else 0) L1))) by (intros l; apply filter_sum).
      rewrite (list_sum_swap (fun w l => if isl l w then 1 else 0) L1 (seq 0 max)).
      rewrite (list_sum_ext_in _ (fun _ => 1)).
      - clear. induction L1 as [|w l IH]; [reflexivity|]. cbn [map length]. change (list_sum (?a :: ?l)) with (a + list_sum l). lia.
      - intros w Hw. unfold isl. rewrite (list_sum_ind (length w - 1) 0 max). pose proof (Hlen w (HL1 w Hw)).
        destruct (Nat.leb_spec 0 (length w - 1)); [|lia]. destruct (Nat.ltb_spec (length w - 1) (0 + max)); [reflexivity|lia]. }
    lia.
  - intros p Hp. assert (Hp1 : p - 1 < max) by lia.
    assert (EFi : filter (isl (p - 1)) L1 = filter (fun w => length w =? p) L1).
    { apply filter_ext_in. intros w Hw. apply isl_len; [now apply HL1|lia]. }
    assert (HND1 : NoDup L1) by (rewrite EL in HND; clear - HND; induction L1 as [|x l IH]; [constructor|]; cbn [app] in HND; inversion HND as [|? ? X1 X2]; subst; constructor; [intros C; apply X1, in_or_app; auto|auto]).
    assert (Hne : forall w, In w L1 -> w <> []) by (intros w Hw; apply HL, HL1, Hw).
    pose proof (HN (p - 1) Hp1) as N0. pose proof (HC 0 (p - 1) Hp1) as C0. pose proof (HC 1 (p - 1) Hp1) as C1. pose proof (HC 2 (p - 1) Hp1) as C2.
    rewrite EFi in N0, C0, C1, C2. cbn [Nat.min wins] in C0, C1, C2.
    assert (B0 : forall k, msum (fwin k (p - 1)) (m_threads s) <= (length (m_threads s) - 1) * p).
    { intros k. apply (msum_le _ p _ i MPrint Ei eq_refl). intros t Ht. pose proof (HF3 k (p - 1) t Ht). lia. }
    split; [|split; [|split; [|split; [|split]]]].
    + eexists. split; [reflexivity|]. pose proof (msum_le (fnum (p - 1)) 1 _ i MPrint Ei eq_refl (fun t _ => HF1 (p - 1) t)). unfold up_to. lia.
    + eexists. split; [apply (conjugates_in_ok p L1 0 _ HND1 Hne); intros w j; apply cls_cases|]. specialize (B0 0). unfold up_to. lia.
    + eexists. split; [apply (conjugates_in_ok p L1 1 _ HND1 Hne); intros w j; apply cls_cases|]. specialize (B0 1). unfold up_to. lia.
    + eexists. split; [apply (conjugates_in_ok p L1 2 _ HND1 Hne); intros w j; apply cls_cases|]. specialize (B0 2). unfold up_to. lia.
    + assert (S1 : list_sum (map (fun w => cnt 0 w 0) (filter (fun w => length w =? p) L1)) + list_sum (map (fun w => cnt 1 w 0) (filter (fun w => length w =? p) L1))
                   + list_sum (map (fun w => cnt 2 w 0) (filter (fun w => length w =? p) L1)) = p * length (filter (fun w => length w =? p) L1)).
      { rewrite <- !list_sum_plus. rewrite (list_sum_ext_in _ (fun _ => p)).
        - clear. induction (filter _ L1) as [|w l IH]; [simpl; lia|]. cbn [map length]. change (list_sum (?a :: ?l)) with (a + list_sum l). lia.
        - intros w Hw. apply filter_In in Hw. destruct Hw as (_ & Hw). apply Nat.eqb_eq in Hw. pose proof (cnt_total w 0). lia. }
      assert (S2 : msum (fwin 0 (p - 1)) (m_threads s) + msum (fwin 1 (p - 1)) (m_threads s) + msum (fwin 2 (p - 1)) (m_threads s) <= p * msum (fnum (p - 1)) (m_threads s)).
      { clear - Hcur Hlen Hp. unfold msum. induction (m_threads s) as [|t l IH]; [simpl; lia|]. cbn [map]. change (list_sum (?a :: ?l)) with (a + list_sum l).
        specialize (IH (fun t w c H => Hcur t w c (or_intror H))).
        enough (fwin 0 (p - 1) t + fwin 1 (p - 1) t + fwin 2 (p - 1) t <= p * fnum (p - 1) t) by nia.
        unfold fwin, fnum. destruct (cur t) as [(w, c)|] eqn:Ec; [|lia]. pose proof (Hlen w (Hcur t w c (or_introl eq_refl) Ec)).
        unfold isl. destruct (Nat.eqb_spec (length w - 1) (p - 1)); [|lia]. pose proof (cnt_total w c). lia. }
      nia.
    + destruct (HBo (p - 1) Hp1) as [->|(w & j & Hw & Hl & Hj & -> & Hlt)]; [left; auto|right]. cbn [b_text b_bwt b_bbwt].
      exists w, j. destruct (HB w Hw) as (B1 & B2). split; [split; [exact B1|split; [lia|exact B2]]|]. split; [lia|]. split; [reflexivity|].
      split; [apply bwr_ok|]. split; [apply bbr_ok, rot_not_nil, HL, Hw|exact Hlt].
Qed.

(** ** the text of a message *)
Lemma lit_ascii z : lit z = ascii z.
Proof. reflexivity. Qed.
Lemma binary_ab w : binary_vector_to_str w = ab w.
Proof. unfold binary_vector_to_str, ab. apply map_ext. intros [|c]; reflexivity. Qed.
Lemma lines_app a b : lines (a ++ b) = lines a ++ lines b.
Proof. unfold lines. now rewrite map_app, concat_app. Qed.
Lemma status_block_ok first s : length (m_best s) = max -> length (m_num s) = max -> (forall k, length (wins s k) = max) ->
  exists text, status_block first max s = Ok text /\ status_message first max (status_of s) text.
Proof.
  intros H1 H2 H3. pose proof (H3 0) as W1. pose proof (H3 1) as W2. pose proof (H3 2) as W3. cbn [wins] in W1, W2, W3.
  unfold status_block, range.
  assert (G : forall n a out, a + n <= max -> exists ls, Forall2 (status_lines (status_of s)) (seq a n) ls /\
    for_in (seq a n) (fun length out =>
      b <- get (m_best s) length ;; n <- get (m_num s) length ;;
      w1 <- get (m_bwt_win s) length ;; w2 <- get (m_bbwt_win s) length ;; w3 <- get (m_tie_win s) length ;;
      Ok (out ++ count_line length n w1 w2 w3 ++ best_line length b)) out = Ok (out ++ lines (concat ls))).
  { induction n as [|n IH]; intros a out Ha; cbn [seq for_in].
    - exists []. split; [constructor|]. cbn. now rewrite app_nil_r.
    - rewrite (get_ok _ a (Best 0 0 [])), !(get_ok _ a 0) by lia. cbn [bind].
      destruct (IH (S a) (out ++ count_line a (nth a (m_num s) 0) (nth a (m_bwt_win s) 0) (nth a (m_bbwt_win s) 0) (nth a (m_tie_win s) 0) ++
        best_line a (nth a (m_best s) (Best 0 0 []))) ltac:(lia)) as (ls & HF & E).
      rewrite E. eexists (_ :: ls). split; [constructor; [|exact HF]|].
      + unfold status_lines, status_of. cbn [st_total st_words st_bwt_wins st_bbwt_wins st_ties st_text st_bwt_runs st_bbwt_runs].
        rewrite Nat.add_sub. do 7 eexists. repeat (split; [apply dec_usize_ok|]). reflexivity.
      + f_equal. rewrite <- app_assoc. f_equal. cbn [concat]. rewrite lines_app. f_equal.
        unfold count_line, best_line, println. rewrite binary_ab. unfold lines. cbn [map concat]. rewrite app_nil_r. reflexivity. }
  destruct (le_lt_dec first max) as [Hle|Hgt].
  - destruct (G (max - first) first (println (lit "total_count=" ++ dec_usize (m_total s))) ltac:(lia)) as (ls & HF & E).
    rewrite E. eexists. split; [reflexivity|]. exists (dec_usize (m_total s)), ls. split; [apply dec_usize_ok|]. split; [exact HF|reflexivity].
  - replace (max - first) with 0 by lia. cbn [seq for_in]. eexists. split; [reflexivity|]. exists (dec_usize (m_total s)), [].
    split; [apply dec_usize_ok|]. split; [replace (max - first) with 0 by lia; constructor|]. unfold lines. cbn. now rewrite app_nil_r.
Qed.

(** ** the executions *)
Definition pr (t : mpc) : Prop := match t with MPrintWantNum | MPrint => True | _ => False end.
Definition post (t : mpc) : Prop := match t with MWantTotal2 | MTotal2 | MPrintWantNum | MPrint => True | _ => False end.
Definition QInv (s : mst) : Prop := forall t, In t (m_threads s) -> (pr t -> m_total s mod q = 0) /\ (post t -> 0 < m_total s).
Lemma qinv_step m s i s' : MInv max L m s -> QInv s -> m_step max q i s = Some s' -> QInv s' /\ m_total s <= m_total s'.
Proof.
  intros (L1 & L2 & _ & _ & _ & _ & _ & _ & _ & _ & _ & _ & _ & K3 & _) HQ E.
  destruct s as [it itl w1 w2 w3 bs num numl tot totl ths]. unfold m_step in E. unfold QInv in *. simp.
  destruct (nth_error ths i) as [t|] eqn:Et; [|discriminate].
  assert (HQi := HQ t (nth_error_In _ _ Et)).
  assert (KEEP : forall x, (pr x -> tot mod q = 0) -> (post x -> 0 < tot) -> forall u, In u (upd ths i x) -> (pr u -> tot mod q = 0) /\ (post u -> 0 < tot)).
  { intros x X1 X2 u Hu. destruct (in_upd _ _ _ _ Hu) as [->|Hu']; auto. }
  destruct t; inv; simp; (split; [|lia]); try (apply KEEP; simpl; (tauto || (intros; easy) || (intros; apply HQi; exact I)); fail).
  - destruct (_ <? _); apply KEEP; simpl; easy.
  - match goal with |- context [if ?b then MWrite _ _ _ _ _ else _] => destruct b end; apply KEEP; simpl; easy.
  - intros u Hu. split; [|lia]. intros Hpr. exfalso. destruct (In_nth_error _ _ Hu) as (k & Ek). destruct (Nat.eq_dec i k) as [->|N].
    + rewrite (nth_error_upd_eq _ _ _ _ Et) in Ek. injection Ek as <-. exact Hpr.
    + rewrite nth_error_upd_ne in Ek by auto. assert (Hh : h_tot u) by (destruct u; easy).
      destruct totl as [|j|]; [exact (K3 k u Ek Hh)| |exact K3]. destruct K3 as (_ & K3). apply N. rewrite (K3 i _ Et I). symmetry. exact (K3 k u Ek Hh).
  - apply KEEP; [intros _; now apply Nat.eqb_eq|intros _; apply HQi; exact I].
Qed.
(** good: no panic so far; otherwise nothing will be printed any more *)
Definition Good (p : pst) : Prop := p_poison p = false /\ exists m, MInv max L m (p_st p) /\ QInv (p_st p).
Definition Mute (p : pst) : Prop := p_poison p = true \/ numdead (p_st p).
Lemma mute_step i p p' : Mute p -> p_step max q i p = Some p' -> Mute p'.
Proof.
  intros [H|H] E; [left; eapply poison_step; eauto|right; eapply numdead_step; eauto].
Qed.
Lemma good_step i p p' : i32s (p_st p) = true -> Good p -> p_step max q i p = Some p' ->
  i32s (p_st p') = true /\ (Good p' /\ m_total (p_st p) <= m_total (p_st p') /\ length (m_threads (p_st p')) = length (m_threads (p_st p)) \/ Mute p' /\ In MPanicked (m_threads (p_st p'))).
Proof.
  destruct p as (s, poison). cbn [p_st p_poison]. intros Hok (HP & m & HM & HQ) E. cbn [p_poison p_st] in *. subst poison.
  destruct (p_cases max q i s false p' E Hok) as (s' & Es & [(-> & Hok')|(HPan & _)]).
  - split; [exact Hok'|]. left. destruct (minv_step max q L HL m s i s' HM Es) as (m' & _ & HM'). destruct (qinv_step m s i s' HM HQ Es) as (HQ' & Hle).
    split; [split; [reflexivity|exists m'; auto]|]. split; [exact Hle|]. exact (proj2 (total_mono _ _ _ _ _ Es)).
  - destruct (m_step_thread _ _ _ _ _ Es) as (t & Et & _). destruct (panics_in i s (p_st p') t Et HPan) as (_ & HX & _).
    destruct HPan as (HCn & _). split; [unfold i32s; now rewrite HCn|]. right. split; [|eapply nth_error_In; exact HX].
    destruct (first_panic max q L HL m s i p' HM Hok E (nth_error_In _ _ HX)) as [(A & _)|(A & _)]; [left|right]; exact A.
Qed.
Lemma mute_out first i p p' b : Mute p -> out_step max q first i p = Some (p', b) -> b = [].
Proof.
  intros HM E. unfold out_step in E. destruct (p_step max q i p) as [p1|]; [|discriminate]. injection E as <- <-.
  destruct (nth_error (m_threads (p_st p)) i) as [t|] eqn:Et; [|reflexivity]. destruct t; try reflexivity.
  destruct HM as [->|(_ & HM)]; [reflexivity|]. exfalso. exact (HM _ (nth_error_In _ _ Et) I).
Qed.
Lemma mute_run first sched : forall p p' bs, Mute p -> out_run max q first sched p = Some (p', bs) -> bs = [].
Proof.
  induction sched as [|i sched IH]; intros p p' bs HM E; cbn [out_run] in E; [now injection E as <- <-|].
  destruct (out_step max q first i p) as [(p1, b)|] eqn:E1; [|discriminate]. destruct (out_run max q first sched p1) as [(p2, bs2)|] eqn:E2; [|discriminate].
  injection E as <- <-. rewrite (mute_out _ _ _ _ _ HM E1).
  assert (HM1 : Mute p1) by (unfold out_step in E1; destruct (p_step max q i p) as [p3|] eqn:E3; [|discriminate]; injection E1 as <- <-; eapply mute_step; eauto).
  exact (IH p1 p2 bs2 HM1 E2).
Qed.
(** a message printed in a good state *)
Definition told (first threads : nat) (c : status) (b : res str) : Prop :=
  exists text, b = Ok text /\ status_message first max c text /\ 0 < st_total c /\ st_total c mod q = 0 /\
    exists n, status_true max (threads - 1) (firstn n L) c.
Lemma good_out first i p p' b : Good p -> out_step max q first i p = Some (p', b) ->
  b = [] \/ exists x, b = [x] /\ told first (length (m_threads (p_st p))) (status_of (p_st p)) x.
Proof.
  intros (HP & m & HM & HQ) E. unfold out_step in E. destruct (p_step max q i p) as [p1|]; [|discriminate]. injection E as <- <-.
  destruct (nth_error (m_threads (p_st p)) i) as [t|] eqn:Et; [|auto]. destruct t; auto. rewrite HP. right. eexists. split; [reflexivity|].
  pose proof HM as (L1 & L2 & _ & _ & HW & HBl & HNl & _).
  destruct (status_block_ok first (p_st p) HBl HNl HW) as (text & E & Hm). exists text. split; [exact E|]. split; [exact Hm|].
  destruct (HQ MPrint (nth_error_In _ _ Et)) as (Q1 & Q2). split; [apply Q2; exact I|]. split; [apply Q1; exact I|].
  exact (status_true_ok m _ i HM Et).
Qed.
Lemma good_run first threads sched : forall p p' bs, i32s (p_st p) = true -> Good p -> length (m_threads (p_st p)) = threads ->
  out_run max q first sched p = Some (p', bs) ->
  exists cs, Forall2 (told first threads) cs bs /\ Forall (fun c => m_total (p_st p) <= st_total c) cs /\
    StronglySorted (fun c c' => st_total c <= st_total c') cs.
Proof.
  induction sched as [|i sched IH]; intros p p' bs Hok HG Hl E; cbn [out_run] in E.
  { injection E as <- <-. exists []. repeat constructor. }
  destruct (out_step max q first i p) as [(p1, b)|] eqn:E1; [|discriminate]. destruct (out_run max q first sched p1) as [(p2, bs2)|] eqn:E2; [|discriminate].
  injection E as <- <-. pose proof (good_out _ _ _ _ _ HG E1) as HB1.
  assert (Es : p_step max q i p = Some p1) by (unfold out_step in E1; destruct (p_step max q i p); [|discriminate]; now injection E1 as <- <-).
  destruct (good_step i p p1 Hok HG Es) as (Hok1 & [(HG1 & Hle & Hl1)|(HM & _)]).
  - destruct (IH p1 p2 bs2 Hok1 HG1 ltac:(congruence) E2) as (cs & HF & HB2 & HS).
    assert (HB2' : Forall (fun c => m_total (p_st p) <= st_total c) cs) by (eapply Forall_impl; [|exact HB2]; cbv beta; intros; lia).
    destruct HB1 as [->|(x & -> & Hx)]; [exists cs; auto|].
    exists (status_of (p_st p) :: cs). rewrite Hl in Hx. split; [constructor; [exact Hx|exact HF]|]. split; [constructor; [reflexivity|exact HB2']|].
    constructor; [exact HS|exact HB2'].
  - rewrite (mute_run first sched p1 p2 bs2 HM E2), app_nil_r. destruct HB1 as [->|(x & -> & Hx)]; [exists []; repeat constructor|].
    exists [status_of (p_st p)]. rewrite Hl in Hx. repeat constructor; auto.
Qed.
End S.
