(** LzMorph.v : the LZ77 factorizations of the Thue-Morse, period-doubling, vtm and power2 words, by doubling: the
    longest previous factor at the position 2i (or 2i+1) is twice as long as the one at i. *)
From Coq Require Import PArith Pnat.
From Verif Require Import Base SpecStr SpecWord SpecLz ModelLz ModelWord WordProof WordProof2 WordProof3 WordProof4.

Definition occ (s : nat -> nat) (j i l : nat) : Prop := forall x, x < l -> s (j + x) = s (i + x).
Definition lpf (s : nat -> nat) (i l : nat) : Prop := (exists j, j < i /\ occ s j i l) /\ forall j, j < i -> ~ occ s j i (l + 1).
Definition agrees (t : str) (s : nat -> nat) : Prop := forall i, i < length t -> nth i t 0 = s i.
Definition lens (t : str) (i : nat) (ls : list nat) : Prop := exists fs, is_lz77_parsing t i fs /\ map lz_len fs = ls.

Lemma lens_end t i : i = length t -> lens t i [].
Proof. intros ->. exists []. split; reflexivity. Qed.
Lemma lens_lit t s i ls : agrees t s -> i < length t -> (forall j, j < i -> s j <> s i) -> lens t (i + 1) ls -> lens t i (0 :: ls).
Proof.
  intros A Hi H (fs & P & E). exists (LZ (nth i t 0) 0 :: fs). split; [|cbn; now rewrite E].
  split; [exact Hi|]. split; [|exact P]. left. cbn. split; [reflexivity|]. split; [reflexivity|].
  intros j Hj. rewrite !A by lia. now apply H.
Qed.
Lemma occ_less s j i l m : occ s j i l -> m <= l -> occ s j i m.
Proof. intros H Hm x Hx. apply H. lia. Qed.
Lemma lens_copy t s i l m ls : agrees t s -> lpf s i l -> 1 <= m -> (m = l /\ i + m <= length t \/ i + m = length t /\ m <= l) ->
  lens t (i + m) ls -> lens t i (m :: ls).
Proof.
  intros A ((j & Hj & O) & M) Hm C (fs & P & E). exists (LZ (i - j) m :: fs). split; [|cbn; now rewrite E].
  assert (Hl : i + m <= length t) by lia. assert (Hml : m <= l) by lia.
  split; [lia|]. split; [|cbn [lz_len]; replace (Nat.max 1 m) with m by lia; exact P]. right. cbn [lz_len lz_pos].
  split; [lia|]. split; [lia|]. split.
  - split; [lia|]. split; [lia|]. intros x Hx. replace (i - (i - j)) with j by lia. rewrite !A by lia. apply O. lia.
  - intros j' l' Hj' (L1 & L2 & S). destruct (Nat.le_gt_cases l' m) as [|G]; [assumption|exfalso].
    destruct C as [(-> & _)|(C & _)]; [|lia]. apply (M j' Hj'). intros x Hx. rewrite <- !A by lia. apply S. lia.
Qed.
(** small positions are computed *)
Definition occb (s : nat -> nat) (j i l : nat) : bool := forallb (fun x => s (j + x) =? s (i + x)) (seq 0 l).
Lemma occb_ok s j i l : occb s j i l = true <-> occ s j i l.
Proof.
  unfold occb, occ. rewrite forallb_forall. split; intros H x Hx.
  - apply Nat.eqb_eq, H, in_seq. lia.
  - apply Nat.eqb_eq, H. apply in_seq in Hx. lia.
Qed.
Definition lpfb (s : nat -> nat) (i l : nat) : bool := existsb (fun j => occb s j i l) (seq 0 i) && forallb (fun j => negb (occb s j i (l + 1))) (seq 0 i).
Lemma lpfb_ok s i l : lpfb s i l = true -> lpf s i l.
Proof.
  unfold lpfb. intros H. apply andb_prop in H. destruct H as (A & B). split.
  - apply existsb_exists in A. destruct A as (j & Hj & O). apply in_seq in Hj. exists j. split; [lia|]. now apply occb_ok.
  - intros j Hj O. rewrite forallb_forall in B. specialize (B j ltac:(apply in_seq; lia)). apply occb_ok in O. rewrite O in B. discriminate.
Qed.
Lemma parity_case n : (exists m, n = 2 * m) \/ exists m, n = 2 * m + 1.
Proof. destruct (Nat.Even_or_Odd n) as [(m & E)|(m & E)]; [left|right]; exists m; exact E. Qed.

(** ** Thue-Morse *)
Lemma tm_occ_double j i l : occ tm j i l -> occ tm (2 * j) (2 * i) (2 * l).
Proof.
  intros H x Hx. destruct (parity_case x) as [(y & ->)|(y & ->)].
  - replace (2 * j + 2 * y) with (2 * (j + y)) by lia. replace (2 * i + 2 * y) with (2 * (i + y)) by lia. rewrite !tm_double. apply H. lia.
  - replace (2 * j + (2 * y + 1)) with (2 * (j + y) + 1) by lia. replace (2 * i + (2 * y + 1)) with (2 * (i + y) + 1) by lia. rewrite !tm_double1, H by lia. reflexivity.
Qed.
(** an occurrence of an even position at an odd one is short *)
Lemma tm_odd_even j i l : occ tm (2 * j + 1) (2 * i) l -> l <= 4.
Proof.
  intros H. destruct (Nat.le_gt_cases l 4) as [|G]; [assumption|exfalso].
  assert (A : forall y, y < 2 -> tm (j + y) = tm (j + y + 1)).
  { intros y Hy. pose proof (H (2 * y) ltac:(lia)) as H1. pose proof (H (2 * y + 1) ltac:(lia)) as H2.
    replace (2 * j + 1 + 2 * y) with (2 * (j + y) + 1) in H1 by lia. replace (2 * i + 2 * y) with (2 * (i + y)) in H1 by lia.
    replace (2 * j + 1 + (2 * y + 1)) with (2 * (j + y + 1)) in H2 by lia. replace (2 * i + (2 * y + 1)) with (2 * (i + y) + 1) in H2 by lia.
    rewrite tm_double, tm_double1 in H1, H2. rewrite H2, <- H1. destruct (tm_cases (j + y)) as [->| ->]; reflexivity. }
  pose proof (A 0 ltac:(lia)) as A0. pose proof (A 1 ltac:(lia)) as A1. rewrite Nat.add_0_r in A0.
  apply (tm_three j); [exact A0|]. replace (j + 2) with (j + 1 + 1) by lia. exact A1.
Qed.
Lemma tm_even_odd j i l : occ tm (2 * j) (2 * i + 1) l -> l <= 4.
Proof. intros H. apply (tm_odd_even i j). intros x Hx. symmetry. now apply H. Qed.
Lemma tm_lpf_double i l : 2 <= l -> lpf tm i l -> lpf tm (2 * i) (2 * l).
Proof.
  intros Hl ((j & Hj & O) & M). split.
  - exists (2 * j). split; [lia|]. now apply tm_occ_double.
  - intros j' Hj' O'. destruct (parity_case j') as [(m & ->)|(m & ->)].
    + apply (M m ltac:(lia)). intros y Hy. specialize (O' (2 * y) ltac:(lia)). rewrite <- !Nat.mul_add_distr_l, !tm_double in O'. exact O'.
    + apply tm_odd_even in O'. lia.
Qed.
Lemma tm_lpf_odd i l : 3 <= l -> lpf tm i l -> lpf tm (2 * i + 1) (2 * l - 1).
Proof.
  intros Hl ((j & Hj & O) & M). split.
  - exists (2 * j + 1). split; [lia|]. intros x Hx. pose proof (tm_occ_double j i l O (1 + x) ltac:(lia)) as E. rewrite !Nat.add_assoc in E. exact E.
  - intros j' Hj' O'. destruct (parity_case j') as [(m & ->)|(m & ->)].
    + apply tm_even_odd in O'. lia.
    + apply (M m ltac:(lia)). intros y Hy. destruct y as [|y].
      * specialize (O' 0 ltac:(lia)). rewrite !Nat.add_0_r in *. now apply tm_double_eq.
      * specialize (O' (2 * y + 1) ltac:(lia)). replace (2 * m + 1 + (2 * y + 1)) with (2 * (m + S y)) in O' by lia.
        replace (2 * i + 1 + (2 * y + 1)) with (2 * (i + S y)) in O' by lia. rewrite !tm_double in O'. exact O'.
Qed.
Lemma tm_lpf_pow i l j : 2 <= l -> lpf tm i l -> lpf tm (i * 2 ^ j) (l * 2 ^ j).
Proof.
  intros Hl H. induction j as [|j IH]; [now rewrite !Nat.mul_1_r|].
  replace (i * 2 ^ S j) with (2 * (i * 2 ^ j)) by (cbn [Nat.pow]; lia). replace (l * 2 ^ S j) with (2 * (l * 2 ^ j)) by (cbn [Nat.pow]; lia).
  apply tm_lpf_double; [|exact IH]. pose proof (Nat.pow_nonzero 2 j). nia.
Qed.
Definition tm_lengths (k : nat) : list nat := [0; 0; 1; 2; 1; 4] ++ flat_map (fun j => [3 * 2 ^ j; 7 * 2 ^ j]) (seq 0 (k - 4)) ++ [3 * 2 ^ (k - 4); 3 * 2 ^ (k - 4)].
Lemma tm_lens_from t k : agrees t tm -> length t = 16 * 2 ^ k ->
  forall d j, j + d = k -> lens t (10 * 2 ^ j) (flat_map (fun j => [3 * 2 ^ j; 7 * 2 ^ j]) (seq j d) ++ [3 * 2 ^ k; 3 * 2 ^ k]).
Proof.
  intros A L. assert (P : forall j, 1 <= 2 ^ j) by (intros j; pose proof (Nat.pow_nonzero 2 j); lia).
  assert (B1 : lpf tm 10 3) by (apply lpfb_ok; vm_compute; reflexivity). assert (B2 : lpf tm 13 7) by (apply lpfb_ok; vm_compute; reflexivity).
  induction d as [|d IH]; intros j E.
  - cbn [seq flat_map app]. rewrite Nat.add_0_r in E. subst j. specialize (P k).
    apply (lens_copy t tm _ (3 * 2 ^ k)); [exact A|apply tm_lpf_pow; [lia|exact B1]|lia|left; lia|].
    replace (10 * 2 ^ k + 3 * 2 ^ k) with (13 * 2 ^ k) by lia.
    apply (lens_copy t tm _ (7 * 2 ^ k)); [exact A|apply tm_lpf_pow; [lia|exact B2]|lia|right; lia|]. apply lens_end. lia.
  - cbn [seq flat_map app]. assert (Q : 2 * 2 ^ j <= 2 ^ k) by (change (2 * 2 ^ j) with (2 ^ S j); apply Nat.pow_le_mono_r; lia). specialize (P j).
    apply (lens_copy t tm _ (3 * 2 ^ j)); [exact A|apply tm_lpf_pow; [lia|exact B1]|lia|left; lia|].
    replace (10 * 2 ^ j + 3 * 2 ^ j) with (13 * 2 ^ j) by lia.
    apply (lens_copy t tm _ (7 * 2 ^ j)); [exact A|apply tm_lpf_pow; [lia|exact B2]|lia|left; lia|].
    replace (13 * 2 ^ j + 7 * 2 ^ j) with (10 * 2 ^ S j) by (cbn [Nat.pow]; lia). apply IH. lia.
Qed.
Theorem tm_lz77 t k : agrees t tm -> length t = 2 ^ (k + 4) -> lens t 0 (tm_lengths (k + 4)).
Proof.
  intros A L. rewrite Nat.pow_add_r in L. unfold tm_lengths. replace (k + 4 - 4) with k by lia. assert (1 <= 2 ^ k) by (pose proof (Nat.pow_nonzero 2 k); lia).
  cbn [app]. change (2 ^ 4) with 16 in L.
  apply (lens_lit t tm); [exact A|lia|lia|]. apply (lens_lit t tm); [exact A|lia| |].
  { intros j Hj. replace j with 0 by lia. vm_compute. discriminate. }
  apply (lens_copy t tm _ 1); [exact A|apply lpfb_ok; vm_compute; reflexivity|lia|left; lia|].
  apply (lens_copy t tm _ 2); [exact A|apply lpfb_ok; vm_compute; reflexivity|lia|left; lia|].
  apply (lens_copy t tm _ 1); [exact A|apply lpfb_ok; vm_compute; reflexivity|lia|left; lia|].
  apply (lens_copy t tm _ 4); [exact A|apply lpfb_ok; vm_compute; reflexivity|lia|left; lia|].
  apply (tm_lens_from t k A ltac:(lia) k 0). reflexivity.
Qed.

(** ** vtm: the differences of the Thue-Morse word *)
Definition D (x y : nat) : nat := if x =? y then 98 else if x =? 97 then 97 else 99.
Definition v (i : nat) : nat := D (tm i) (tm (i + 1)).
Lemma v_of_tm j i l : occ tm j i (l + 1) -> occ v j i l.
Proof. intros H x Hx. unfold v. rewrite <- !Nat.add_assoc, !H by lia. reflexivity. Qed.
Lemma D_first x y x' y' : x = 97 \/ x = 98 -> y = 97 \/ y = 98 -> x' = 97 \/ x' = 98 -> y' = 97 \/ y' = 98 -> D x y = D x' y' -> x <> y -> x = x' /\ y = y'.
Proof. intros [->| ->] [->| ->] [->| ->] [->| ->]; cbn; intros E N; try discriminate; try (split; reflexivity); now contradict N. Qed.
Lemma D_eq x y x' y' : D x y = D x' y' -> x = y -> x' = y'.
Proof. unfold D. intros E ->. rewrite Nat.eqb_refl in E. destruct (x' =? y') eqn:Q; [now apply Nat.eqb_eq|]. destruct (x' =? 97); discriminate. Qed.
Lemma D_next x y y' : x = 97 \/ x = 98 -> y = 97 \/ y = 98 -> y' = 97 \/ y' = 98 -> D x y = D x y' -> y = y'.
Proof. intros [->| ->] [->| ->] [->| ->]; cbn; intros E; try reflexivity; discriminate. Qed.
Lemma tm_of_v j i l : 2 <= l -> occ v j i l -> occ tm j i (l + 1).
Proof.
  intros Hl H. assert (E0 : tm j = tm i).
  { pose proof (H 0 ltac:(lia)) as H0. pose proof (H 1 ltac:(lia)) as H1. rewrite !Nat.add_0_r in H0. unfold v in H0, H1.
    destruct (Nat.eq_dec (tm i) (tm (i + 1))) as [E|N].
    - pose proof (D_eq _ _ _ _ (eq_sym H0) E) as E'. destruct (Nat.eq_dec (tm (i + 1)) (tm (i + 1 + 1))) as [E2|N2].
      + exfalso. apply (tm_three i E). now replace (i + 2) with (i + 1 + 1) by lia.
      + destruct (D_first (tm (i + 1)) (tm (i + 1 + 1)) (tm (j + 1)) (tm (j + 1 + 1))) as (X & _); auto using tm_cases. congruence.
    - destruct (D_first (tm i) (tm (i + 1)) (tm j) (tm (j + 1))) as (X & _); auto using tm_cases. }
  intros x. induction x as [|x IH]; intros Hx; [now rewrite !Nat.add_0_r|]. specialize (IH ltac:(lia)). specialize (H x ltac:(lia)). unfold v in H. rewrite IH in H.
  rewrite !Nat.add_succ_r, <- (Nat.add_1_r (j + x)), <- (Nat.add_1_r (i + x)). apply (D_next _ _ _ (tm_cases (i + x)) (tm_cases _) (tm_cases _) H).
Qed.
Lemma v_lpf i l : 2 <= l -> lpf tm i (l + 1) -> lpf v i l.
Proof.
  intros Hl ((j & Hj & O) & M). split; [exists j; split; [exact Hj|now apply v_of_tm]|].
  intros j' Hj' O'. apply (M j' Hj'). apply tm_of_v; [lia|exact O'].
Qed.
Lemma v_lpf_double i l j : 2 <= l -> lpf tm i (l + 1) -> lpf tm ((i + 1) * 2 ^ j - 1) (l * 2 ^ j + 1).
Proof.
  intros Hl H. induction j as [|j IH]; [rewrite !Nat.mul_1_r; now replace (i + 1 - 1) with i by lia|].
  assert (1 <= 2 ^ j) by (pose proof (Nat.pow_nonzero 2 j); lia).
  replace ((i + 1) * 2 ^ S j - 1) with (2 * ((i + 1) * 2 ^ j - 1) + 1) by (cbn [Nat.pow]; nia).
  replace (l * 2 ^ S j + 1) with (2 * (l * 2 ^ j + 1) - 1) by (cbn [Nat.pow]; nia). apply tm_lpf_odd; [nia|exact IH].
Qed.
Fixpoint diff (w : str) : str := match w with x :: w' => match w' with y :: _ => D x y :: diff w' | [] => [] end | [] => [] end.
Lemma diff_len w : length (diff w) = length w - 1.
Proof. induction w as [|x w IH]; [reflexivity|]. destruct w as [|y w]; [reflexivity|]. change (diff (x :: y :: w)) with (D x y :: diff (y :: w)). cbn [length] in *. lia. Qed.
Lemma diff_nth w : forall i, i + 1 < length w -> nth i (diff w) 0 = D (nth i w 0) (nth (i + 1) w 0).
Proof.
  induction w as [|x w IH]; intros i Hi; [cbn in Hi; lia|]. destruct w as [|y w]; [cbn in Hi; lia|]. change (diff (x :: y :: w)) with (D x y :: diff (y :: w)).
  destruct i as [|i]; [reflexivity|]. cbn [nth Nat.add]. rewrite IH by (cbn [length] in *; lia). reflexivity.
Qed.
Lemma diff_g w : diff (flat_map vtm_g w ++ [97]) = flat_map vtm_morphism w.
Proof.
  induction w as [|c w IH]; [reflexivity|]. assert (H : exists r, flat_map vtm_g w ++ [97] = 97 :: r).
  { destruct w as [|c' w]; [eexists; reflexivity|]. cbn [flat_map]. destruct (vtm_g_head c') as (r & ->). eexists. reflexivity. }
  destruct H as (r & Hr). cbn [flat_map]. rewrite <- app_assoc, Hr. rewrite Hr in IH. rewrite <- IH. unfold vtm_g, vtm_morphism.
  destruct (c =? 97); [reflexivity|]. destruct (c =? 98); reflexivity.
Qed.
Definition vt (k : nat) : str := iter_morphism vtm_morphism k [97].
Lemma vt_diff k : vt (S k) = diff (flat_map vtm_g (vt k) ++ [97]).
Proof. rewrite diff_g. reflexivity. Qed.
Lemma g_len k : length (flat_map vtm_g (vt k)) = 3 * 2 ^ k.
Proof.
  unfold vt. rewrite vtm_g_iter. assert (E : iter_morphism thuemorse_morphism (S (S k)) [97] = iter_morphism thuemorse_morphism k [97; 98; 98] ++ iter_morphism thuemorse_morphism k [97]).
  { rewrite !iter_S'. rewrite <- iter_app. reflexivity. }
  pose proof (f_equal (@length nat) E) as L. rewrite app_length, !(u2_iter_length thuemorse_morphism _ 97 tmh_u2) in L. cbn [Nat.pow] in L. lia.
Qed.
Lemma vt_len k : length (vt (S k)) = 3 * 2 ^ k.
Proof. rewrite vt_diff, diff_len, app_length, g_len. cbn [length]. lia. Qed.
Lemma tm_3pow k : tm (3 * 2 ^ k) = 97.
Proof. induction k as [|k IH]; [reflexivity|]. replace (3 * 2 ^ S k) with (2 * (3 * 2 ^ k)) by (cbn [Nat.pow]; lia). rewrite tm_double. exact IH. Qed.
Lemma vt_agrees k : agrees (vt (S k)) v.
Proof.
  intros i Hi. rewrite vt_len in Hi. rewrite vt_diff, diff_nth by (rewrite app_length, g_len; cbn [length]; lia). unfold v.
  assert (A : forall i, i <= 3 * 2 ^ k -> nth i (flat_map vtm_g (vt k) ++ [97]) 0 = tm i).
  { intros x Hx. pose proof (g_len k) as L. destruct (Nat.eq_dec x (3 * 2 ^ k)) as [->|N].
    - rewrite app_nth2 by lia. rewrite L, Nat.sub_diag, tm_3pow. reflexivity.
    - rewrite app_nth1 by lia. apply vtm_g_tm. unfold vt in L. lia. }
  rewrite !A by lia. reflexivity.
Qed.
Definition vtm_lengths (k : nat) : list nat :=
  [0; 0; 0; 1; 1; 1] ++ flat_map (fun j => [3 * 2 ^ j; 2 * 2 ^ j; 2 * 2 ^ j]) (seq 0 (k - 3)) ++ [3 * 2 ^ (k - 3); 2 * 2 ^ (k - 3); 1].
Lemma vtm_lens_from t k : agrees t v -> length t = 12 * 2 ^ k ->
  forall d j, j + d = k -> lens t (7 * 2 ^ j - 1) (flat_map (fun j => [3 * 2 ^ j; 2 * 2 ^ j; 2 * 2 ^ j]) (seq j d) ++ [3 * 2 ^ k; 2 * 2 ^ k; 1]).
Proof.
  intros A L. assert (P : forall j, 1 <= 2 ^ j) by (intros j; pose proof (Nat.pow_nonzero 2 j); lia).
  assert (B1 : forall j, lpf v (7 * 2 ^ j - 1) (3 * 2 ^ j)).
  { intros j. specialize (P j). apply v_lpf; [lia|]. apply (v_lpf_double 6 3); [lia|]. apply lpfb_ok; vm_compute; reflexivity. }
  assert (B2 : forall j, lpf v (10 * 2 ^ j - 1) (2 * 2 ^ j)).
  { intros j. specialize (P j). apply v_lpf; [lia|]. apply (v_lpf_double 9 2); [lia|]. apply lpfb_ok; vm_compute; reflexivity. }
  assert (B3 : forall j, lpf v (12 * 2 ^ j - 1) (2 * 2 ^ j)).
  { intros j. specialize (P j). apply v_lpf; [lia|]. apply (v_lpf_double 11 2); [lia|]. apply lpfb_ok; vm_compute; reflexivity. }
  induction d as [|d IH]; intros j E.
  - cbn [seq flat_map app]. rewrite Nat.add_0_r in E. subst j. specialize (P k).
    apply (lens_copy t v _ (3 * 2 ^ k)); [exact A|apply B1|lia|left; lia|]. replace (7 * 2 ^ k - 1 + 3 * 2 ^ k) with (10 * 2 ^ k - 1) by lia.
    apply (lens_copy t v _ (2 * 2 ^ k)); [exact A|apply B2|lia|left; lia|]. replace (10 * 2 ^ k - 1 + 2 * 2 ^ k) with (12 * 2 ^ k - 1) by lia.
    apply (lens_copy t v _ (2 * 2 ^ k)); [exact A|apply B3|lia|right; lia|]. apply lens_end. lia.
  - cbn [seq flat_map app]. assert (Q : 2 * 2 ^ j <= 2 ^ k) by (change (2 * 2 ^ j) with (2 ^ S j); apply Nat.pow_le_mono_r; lia). specialize (P j).
    apply (lens_copy t v _ (3 * 2 ^ j)); [exact A|apply B1|lia|left; lia|]. replace (7 * 2 ^ j - 1 + 3 * 2 ^ j) with (10 * 2 ^ j - 1) by lia.
    apply (lens_copy t v _ (2 * 2 ^ j)); [exact A|apply B2|lia|left; lia|]. replace (10 * 2 ^ j - 1 + 2 * 2 ^ j) with (12 * 2 ^ j - 1) by lia.
    apply (lens_copy t v _ (2 * 2 ^ j)); [exact A|apply B3|lia|left; lia|]. replace (12 * 2 ^ j - 1 + 2 * 2 ^ j) with (7 * 2 ^ S j - 1) by (cbn [Nat.pow]; lia). apply IH. lia.
Qed.
Theorem vtm_lz77 t k : agrees t v -> length t = 12 * 2 ^ k -> lens t 0 (vtm_lengths (k + 3)).
Proof.
  intros A L. unfold vtm_lengths. replace (k + 3 - 3) with k by lia. assert (1 <= 2 ^ k) by (pose proof (Nat.pow_nonzero 2 k); lia). cbn [app].
  apply (lens_lit t v); [exact A|lia|lia|]. apply (lens_lit t v); [exact A|lia| |].
  { intros j Hj. replace j with 0 by lia. vm_compute. discriminate. }
  apply (lens_lit t v); [exact A|lia| |].
  { intros j Hj. destruct j as [|[|j]]; [vm_compute; discriminate|vm_compute; discriminate|lia]. }
  apply (lens_copy t v _ 1); [exact A|apply lpfb_ok; vm_compute; reflexivity|lia|left; lia|].
  apply (lens_copy t v _ 1); [exact A|apply lpfb_ok; vm_compute; reflexivity|lia|left; lia|].
  apply (lens_copy t v _ 1); [exact A|apply lpfb_ok; vm_compute; reflexivity|lia|left; lia|].
  apply (vtm_lens_from t k A L k 0). reflexivity.
Qed.

(** ** period doubling *)
Fixpoint pd_pos (p : positive) : nat := match p with xO q => if pd_pos q =? 97 then 98 else 97 | _ => 97 end.
Definition pd (i : nat) : nat := pd_pos (Pos.of_succ_nat i).
Lemma pd_even i : pd (2 * i) = 97.
Proof.
  unfold pd. destruct (Pos.of_succ_nat (2 * i)) as [q|q|] eqn:E; try reflexivity. exfalso. apply (f_equal Pos.to_nat) in E.
  rewrite SuccNat2Pos.id_succ, Pos2Nat.inj_xO in E. lia.
Qed.
Lemma pd_odd i : pd (2 * i + 1) = if pd i =? 97 then 98 else 97.
Proof.
  unfold pd. assert (E : Pos.of_succ_nat (2 * i + 1) = xO (Pos.of_succ_nat i)); [|rewrite E; reflexivity].
  apply Pos2Nat.inj. rewrite Pos2Nat.inj_xO, !SuccNat2Pos.id_succ. lia.
Qed.
Lemma pd_cases i : pd i = 97 \/ pd i = 98.
Proof. unfold pd. generalize (Pos.of_succ_nat i). intros p. destruct p as [q|q|]; cbn; auto. destruct (pd_pos q =? 97); auto. Qed.
Lemma pd_agrees k : agrees (iter_morphism period_doubling_morphism k [97]) pd.
Proof.
  intros i Hi. rewrite (u2_iter_length _ _ _ pdh_u2) in Hi. revert i Hi. induction k as [|k IH]; intros i Hi.
  - cbn in Hi. replace i with 0 by lia. reflexivity.
  - rewrite iter_S. cbn [Nat.pow] in Hi. destruct (parity_case i) as [(q & ->)|(q & ->)].
    + rewrite pd_even. replace (2 * q) with (2 * q + 0) by lia. rewrite (u2_nth _ _ _ _ pdh_u2) by (try rewrite (u2_iter_length _ _ _ pdh_u2); lia).
      unfold period_doubling_morphism. destruct (_ =? 97); reflexivity.
    + rewrite pd_odd. rewrite (u2_nth _ _ _ _ pdh_u2) by (try rewrite (u2_iter_length _ _ _ pdh_u2); lia). rewrite IH by lia.
      unfold period_doubling_morphism. destruct (pd q =? 97); reflexivity.
Qed.
Lemma pd_lpf_double i l : 1 <= l -> lpf pd i l -> lpf pd (2 * i + 1) (2 * l).
Proof.
  intros Hl ((j & Hj & O) & M). split.
  - exists (2 * j + 1). split; [lia|]. intros x Hx. destruct (parity_case x) as [(y & ->)|(y & ->)].
    + replace (2 * j + 1 + 2 * y) with (2 * (j + y) + 1) by lia. replace (2 * i + 1 + 2 * y) with (2 * (i + y) + 1) by lia. rewrite !pd_odd, O by lia. reflexivity.
    + replace (2 * j + 1 + (2 * y + 1)) with (2 * (j + y + 1)) by lia. replace (2 * i + 1 + (2 * y + 1)) with (2 * (i + y + 1)) by lia. rewrite !pd_even. reflexivity.
  - intros j' Hj' O'. destruct (parity_case j') as [(m & ->)|(m & ->)].
    + assert (B : forall y, y < 2 -> pd (i + y) = 98).
      { intros y Hy. specialize (O' (2 * y) ltac:(lia)). replace (2 * m + 2 * y) with (2 * (m + y)) in O' by lia. replace (2 * i + 1 + 2 * y) with (2 * (i + y) + 1) in O' by lia.
        rewrite pd_even, pd_odd in O'. destruct (pd_cases (i + y)) as [E|E]; [rewrite E in O'; discriminate|exact E]. }
      destruct (parity_case i) as [(q & Eq)|(q & Eq)].
      * specialize (B 0 ltac:(lia)). rewrite Nat.add_0_r, Eq, pd_even in B. discriminate.
      * specialize (B 1 ltac:(lia)). replace (i + 1) with (2 * (q + 1)) in B by lia. rewrite pd_even in B. discriminate.
    + apply (M m ltac:(lia)). intros y Hy. specialize (O' (2 * y) ltac:(lia)). replace (2 * m + 1 + 2 * y) with (2 * (m + y) + 1) in O' by lia.
      replace (2 * i + 1 + 2 * y) with (2 * (i + y) + 1) in O' by lia. rewrite !pd_odd in O'.
      destruct (pd_cases (m + y)) as [A|A], (pd_cases (i + y)) as [B|B]; rewrite A, B in *; try reflexivity; discriminate.
Qed.
Lemma pd_lpf_pow i l j : 1 <= l -> lpf pd i l -> lpf pd ((i + 1) * 2 ^ j - 1) (l * 2 ^ j).
Proof.
  intros Hl H. induction j as [|j IH]; [rewrite !Nat.mul_1_r; now replace (i + 1 - 1) with i by lia|].
  assert (1 <= 2 ^ j) by (pose proof (Nat.pow_nonzero 2 j); lia).
  replace ((i + 1) * 2 ^ S j - 1) with (2 * ((i + 1) * 2 ^ j - 1) + 1) by (cbn [Nat.pow]; nia).
  replace (l * 2 ^ S j) with (2 * (l * 2 ^ j)) by (cbn [Nat.pow]; nia). apply pd_lpf_double; [nia|exact IH].
Qed.
Definition pd_lengths (k : nat) : list nat := [0; 0; 1] ++ flat_map (fun j => [2 ^ j; 2 ^ j]) (seq 1 (k - 2)) ++ [1].
Lemma pd_lens_from t k : agrees t pd -> length t = 4 * 2 ^ k ->
  forall d j, j + d = k -> lens t (4 * 2 ^ j - 1) (flat_map (fun j => [2 ^ j; 2 ^ j]) (seq (S j) d) ++ [1]).
Proof.
  intros A L. assert (P : forall j, 1 <= 2 ^ j) by (intros j; pose proof (Nat.pow_nonzero 2 j); lia).
  assert (B1 : forall j, lpf pd (4 * 2 ^ j - 1) (2 * 2 ^ j)).
  { intros j. apply (pd_lpf_pow 3 2); [lia|]. apply lpfb_ok; vm_compute; reflexivity. }
  assert (B2 : forall j, lpf pd (6 * 2 ^ j - 1) (2 * 2 ^ j)).
  { intros j. apply (pd_lpf_pow 5 2); [lia|]. apply lpfb_ok; vm_compute; reflexivity. }
  induction d as [|d IH]; intros j E.
  - cbn [seq flat_map app]. rewrite Nat.add_0_r in E. subst j. specialize (P k).
    apply (lens_copy t pd _ (2 * 2 ^ k)); [exact A|apply B1|lia|right; lia|]. apply lens_end. lia.
  - cbn [seq flat_map app]. assert (Q : 2 * 2 ^ j <= 2 ^ k) by (change (2 * 2 ^ j) with (2 ^ S j); apply Nat.pow_le_mono_r; lia). specialize (P j).
    change (2 ^ S j) with (2 * 2 ^ j).
    apply (lens_copy t pd _ (2 * 2 ^ j)); [exact A|apply B1|lia|left; lia|]. replace (4 * 2 ^ j - 1 + 2 * 2 ^ j) with (6 * 2 ^ j - 1) by lia.
    apply (lens_copy t pd _ (2 * 2 ^ j)); [exact A|apply B2|lia|left; lia|]. replace (6 * 2 ^ j - 1 + 2 * 2 ^ j) with (4 * 2 ^ S j - 1) by (cbn [Nat.pow]; lia). apply IH. lia.
Qed.
Theorem pd_lz77 t k : agrees t pd -> length t = 4 * 2 ^ k -> lens t 0 (pd_lengths (k + 2)).
Proof.
  intros A L. unfold pd_lengths. replace (k + 2 - 2) with k by lia. assert (1 <= 2 ^ k) by (pose proof (Nat.pow_nonzero 2 k); lia). cbn [app].
  apply (lens_lit t pd); [exact A|lia|lia|]. apply (lens_lit t pd); [exact A|lia| |].
  { intros j Hj. replace j with 0 by lia. vm_compute. discriminate. }
  apply (lens_copy t pd _ 1); [exact A|apply lpfb_ok; vm_compute; reflexivity|lia|left; lia|].
  apply (pd_lens_from t k A L k 0). reflexivity.
Qed.

(** ** power2 *)
Section Power2.
Variable t : str.
Variable k : nat.
Hypothesis Hk : 2 <= k.
Hypothesis L : length t = 2 ^ k.
Hypothesis Z : nth (2 ^ k - 1) t 1 = 0.
Hypothesis AB : forall j, 1 <= j < 2 ^ k -> nth (j - 1) t 0 = 97 \/ nth (j - 1) t 0 = 98.
Hypothesis B : forall j, 1 <= j < 2 ^ k -> (nth (j - 1) t 0 = 98 <-> exists e, j = 2 ^ e).
Let q (i : nat) : nat := nth i t 0.
Lemma p2_agrees : agrees t q.
Proof. intros i _. reflexivity. Qed.
Lemma pow_pos j : 1 <= 2 ^ j.
Proof. pose proof (Nat.pow_nonzero 2 j). lia. Qed.
Lemma pow_lt i j : i < j -> 2 * 2 ^ i <= 2 ^ j.
Proof. intros H. change (2 * 2 ^ i) with (2 ^ S i). apply Nat.pow_le_mono_r; lia. Qed.
Lemma pow_lt_inv i j : 2 ^ i < 2 ^ j -> i < j.
Proof. intros H. destruct (Nat.lt_ge_cases i j); [assumption|]. pose proof (Nat.pow_le_mono_r 2 j i). lia. Qed.
Lemma q_b e : e < k -> q (2 ^ e - 1) = 98.
Proof. intros H. pose proof (pow_lt e k H). pose proof (pow_pos e). apply B; [lia|]. eexists; reflexivity. Qed.
(** strictly between two powers *)
Lemma q_a e i : e < k -> 2 ^ e - 1 < i < 2 * 2 ^ e - 1 -> q i = 97.
Proof.
  intros H Hi. pose proof (pow_lt e k H). destruct (AB (i + 1) ltac:(lia)) as [E|E]; replace (i + 1 - 1) with i in E by lia; [exact E|exfalso].
  assert (X : exists d, i + 1 = 2 ^ d) by (apply B; [lia|]; now replace (i + 1 - 1) with i by lia).
  destruct X as (d & X). assert (e < d) by (apply pow_lt_inv; lia). pose proof (pow_lt e d ltac:(lia)). lia.
Qed.
Lemma q_inv i : i < 2 ^ k - 1 -> q i = 98 -> exists e, i = 2 ^ e - 1 /\ e < k.
Proof.
  intros Hi E. assert (X : exists d, i + 1 = 2 ^ d) by (apply B; [lia|]; now replace (i + 1 - 1) with i by lia).
  destruct X as (d & X). exists d. split; [lia|]. apply pow_lt_inv. lia.
Qed.
Lemma q_end : q (2 ^ k - 1) = 0.
Proof. transitivity (nth (2 ^ k - 1) t 1); [|exact Z]. apply nth_indep. pose proof (pow_pos k). lia. Qed.
Lemma q_ne i : i < 2 ^ k - 1 -> q i <> 0.
Proof. intros Hi E. destruct (AB (i + 1) ltac:(lia)) as [X|X]; replace (i + 1 - 1) with i in X by lia; unfold q in E; congruence. Qed.
Lemma p2_first j : S j < k -> lpf q (2 * 2 ^ j - 1) (2 ^ j).
Proof.
  intros Hj. pose proof (pow_pos j) as P. pose proof (pow_lt (S j) k Hj) as Q. cbn [Nat.pow] in Q. split.
  - exists (2 ^ j - 1). split; [lia|]. intros x Hx. destruct x as [|x].
    + rewrite !Nat.add_0_r, (q_b j) by lia. symmetry. apply (q_b (S j)). lia.
    + rewrite (q_a j) by lia. symmetry. apply (q_a (S j)); [lia|]. cbn [Nat.pow]. lia.
  - intros j' Hj' O. pose proof (O 0 ltac:(lia)) as O0. rewrite !Nat.add_0_r in O0. pose proof (q_b (S j) ltac:(lia)) as QB. change (2 ^ S j) with (2 * 2 ^ j) in QB. rewrite QB in O0.
    destruct (q_inv j' ltac:(lia) O0) as (e & -> & He). pose proof (pow_pos e) as Pe.
    assert (HS : e < S j) by (apply pow_lt_inv; cbn [Nat.pow]; lia). assert (Q' : 2 ^ e <= 2 ^ j) by (apply Nat.pow_le_mono_r; lia).
    specialize (O (2 ^ e) ltac:(lia)). replace (2 ^ e - 1 + 2 ^ e) with (2 ^ S e - 1) in O by (cbn [Nat.pow]; lia). rewrite (q_b (S e)) in O by lia.
    rewrite (q_a (S j)) in O; [discriminate|lia|cbn [Nat.pow]; lia].
Qed.
Lemma p2_second j : 1 <= j -> S j < k -> lpf q (3 * 2 ^ j - 1) (2 ^ j).
Proof.
  intros H1 Hj. pose proof (pow_lt 0 j H1) as P. cbn [Nat.pow] in P. pose proof (pow_lt (S j) k Hj) as Q. cbn [Nat.pow] in Q. split.
  - exists (3 * 2 ^ j - 2). split; [lia|]. intros x Hx. rewrite !(q_a (S j)) by (cbn [Nat.pow]; lia). reflexivity.
  - intros j' Hj' O. assert (AL : forall x, x < 2 ^ j -> q (j' + x) = 97).
    { intros x Hx. rewrite O by lia. apply (q_a (S j)); [lia|cbn [Nat.pow]; lia]. }
    specialize (O (2 ^ j) ltac:(lia)). replace (3 * 2 ^ j - 1 + 2 ^ j) with (2 ^ S (S j) - 1) in O by (cbn [Nat.pow]; lia).
    destruct (Nat.eq_dec (S (S j)) k) as [E|N].
    + rewrite E, q_end in O. apply (q_ne (j' + 2 ^ j)); [|exact O]. rewrite <- E. cbn [Nat.pow]. lia.
    + rewrite (q_b (S (S j))) in O by lia. destruct (q_inv (j' + 2 ^ j) ltac:(pose proof (pow_lt (S j) k Hj); cbn [Nat.pow] in *; lia) O) as (e & E & He).
      pose proof (pow_pos e) as Pe. destruct e as [|e]; [cbn [Nat.pow] in E; lia|]. cbn [Nat.pow] in E.
      assert (HS : e < S j) by (apply pow_lt_inv; cbn [Nat.pow]; lia). assert (Q' : 2 ^ e <= 2 ^ j) by (apply Nat.pow_le_mono_r; lia).
      specialize (AL (2 ^ e - 1 - j')). pose proof (pow_pos e) as Pe'. replace (j' + (2 ^ e - 1 - j')) with (2 ^ e - 1) in AL by lia. rewrite (q_b e) in AL by lia.
      specialize (AL ltac:(lia)). discriminate.
Qed.
Definition p2_lengths (k : nat) : list nat := [0; 1; 0] ++ flat_map (fun j => [2 ^ j; 2 ^ j]) (seq 1 (k - 2)) ++ [0].
Lemma p2_lens_from d : forall j, 1 <= j -> j + d = k - 1 -> lens t (2 * 2 ^ j - 1) (flat_map (fun j => [2 ^ j; 2 ^ j]) (seq j d) ++ [0]).
Proof.
  induction d as [|d IH]; intros j H1 E; pose proof (pow_pos j) as P.
  - assert (E' : 2 * 2 ^ j = 2 ^ k) by (change (2 * 2 ^ j) with (2 ^ S j); f_equal; lia). cbn [seq flat_map app]. rewrite E'.
    apply (lens_lit t q); [apply p2_agrees|lia| |apply lens_end; lia]. intros i Hi. rewrite q_end. now apply q_ne.
  - pose proof (pow_lt (S j) k ltac:(lia)) as Q. cbn [Nat.pow] in Q. cbn [seq flat_map app].
    apply (lens_copy t q _ (2 ^ j)); [apply p2_agrees|apply p2_first; lia|lia|left; lia|]. replace (2 * 2 ^ j - 1 + 2 ^ j) with (3 * 2 ^ j - 1) by lia.
    apply (lens_copy t q _ (2 ^ j)); [apply p2_agrees|apply p2_second; lia|lia|left; lia|]. replace (3 * 2 ^ j - 1 + 2 ^ j) with (2 * 2 ^ S j - 1) by (cbn [Nat.pow]; lia). apply IH; lia.
Qed.
Theorem p2_lz77 : lens t 0 (p2_lengths k).
Proof.
  unfold p2_lengths. cbn [app]. assert (Q : 4 <= 2 ^ k) by exact (pow_lt 1 k ltac:(lia)).
  apply (lens_lit t q); [apply p2_agrees|lia|lia|].
  apply (lens_copy t q _ 1); [apply p2_agrees|apply (p2_first 0); lia|lia|left; lia|].
  apply (lens_lit t q); [apply p2_agrees|lia| |].
  { change (0 + 1 + 1) with 2. intros i Hi. rewrite (q_a 1 2) by (cbn [Nat.pow]; lia). destruct i as [|[|i]]; [| |lia].
    - change 0 with (2 ^ 0 - 1) at 1. rewrite (q_b 0) by lia. discriminate.
    - change 1 with (2 ^ 1 - 1) at 1. rewrite (q_b 1) by lia. discriminate. }
  apply (p2_lens_from (k - 2) 1); lia.
Qed.
End Power2.
