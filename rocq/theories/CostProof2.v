(** CostProof2.v : bounds on the number of iterations. *)
From Verif Require Import Base SpecStr LexFacts PermFacts ModelCore ModelLz ModelAttr ModelCost CostFacts CostProof DuvalProof BorderProof LcpProof.
From Coq Require Import NArith.

Ltac iv E := cbv zeta in E; repeat (lazymatch type of E with
  | bind ?r _ = Ok _ => destruct r eqn:?; cbn [bind] in E; [|discriminate E|discriminate E]
  | (if ?b then _ else _) = Ok _ => destruct b eqn:?
  | match ?x with _ => _ end = Ok _ => destruct x eqn:?
  | Ok _ = Ok _ => injection E as E; subst
  | Panic = Ok _ => discriminate E
  | OutOfFuel = Ok _ => discriminate E
  end).

Lemma assert_true b u : assert_ b = Ok u -> b = true.
Proof. unfold assert_. now destruct b. Qed.
Lemma get_some {A} (l : list A) i x : get l i = Ok x -> i < length l /\ forall d, nth i l d = x.
Proof.
  unfold get. destruct (nth_error l i) eqn:E; intros H; inversion H; subst. split; [apply nth_error_Some; congruence|].
  intros d. now apply nth_error_nth.
Qed.
Lemma set_some {A} (l : list A) i v l' : set l i v = Ok l' -> i < length l /\ l' = upd l i v.
Proof. unfold set. destruct (Nat.ltb_spec i (length l)); intros H'; inversion H'; auto. Qed.
Lemma sub_some a b c : sub_ a b = Ok c -> b <= a /\ c = a - b.
Proof. unfold sub_. destruct (Nat.ltb_spec a b); intros E; inversion E. auto. Qed.

(** ** duval *)
Lemma duval_scan_cost t k : pc (duval_scan_c t k) (fun ij c => k < snd ij /\ c = snd ij - k).
Proof.
  unfold duval_scan_c. eapply pc_loop with (Inv := fun ij c => snd ij = k + 1 + c); [|cbn [snd]; lia].
  intros [i j] c HI. cbn [snd] in HI. apply pc_free. intros a E. iv E; cbn [snd]; lia.
Qed.
Lemma duval_emit_cost n i j k e : k <= i -> i < j -> pc (duval_emit_c n i j k e) (fun ke c => c <= fst ke - k /\ k < fst ke <= j /\ i <= fst ke /\ j - i <= fst ke - k).
Proof.
  intros Hk Hj. unfold duval_emit_c.
  eapply pc_loop with (Inv := fun ke c => k <= fst ke <= i /\ c <= fst ke - k); [|cbn [fst]; lia].
  intros [k' e'] c (H1 & H2). cbn [fst] in *. apply pc_free. intros a E. iv E; cbn [fst];
  match goal with H : (_ <=? _) = _ |- _ => first [apply Nat.leb_le in H|apply Nat.leb_gt in H] end; lia.
Qed.
Lemma duval_cost t : pc (duval_c t) (fun _ c => c <= 4 * length t + 1).
Proof.
  unfold duval_c. eapply pc_loop with (Inv := fun ke c => c <= 4 * fst ke /\ fst ke <= length t); [|cbn [fst]; lia].
  intros [k e] c (H1 & H2). cbn [fst] in *. destruct (Nat.ltb_spec k (length t)) as [L|L].
  - apply pc_bind. eapply pc_imp; [apply pc_okp; [rewrite duval_scan_erase; apply duval_scan_ok; exact L|apply duval_scan_cost]|].
    intros [i j] cs ((HS & _) & Hkj & Hcs). cbn [snd] in *. destruct HS as ((Hki & Hij) & Hjn & _).
    apply pc_bind. eapply pc_imp; [apply duval_emit_cost; lia|]. intros [k' e'] ce (Hce & Hk' & Hi & Hp). cbn [fst] in *.
    apply pc_free. intros a E. inversion E; subst. cbn [fst]. lia.
  - apply pc_free. intros a E. inversion E; subst. lia.
Qed.
Lemma isa_lyndon_cost isa : pc (isa_lyndon_factorization_c isa) (fun _ c => c <= length isa).
Proof.
  unfold isa_lyndon_factorization_c. apply pc_bind_free. intros c0 _. apply pc_bind.
  eapply pc_imp; [eapply pc_for with (Inv := fun p _ c => c = length p); [reflexivity|]|].
  - intros p i q [s1 s2] c _ ->. apply pc_free. intros s' _. rewrite app_length. cbn [length]. lia.
  - intros [x y] c ->. unfold range. rewrite seq_length. apply pc_free. intros. lia.
Qed.
Lemma ends_length t ends : duval t = Ok ends -> length ends <= length t.
Proof.
  intros E. destruct (duval_correct t) as (e & fs & E' & HF & He). rewrite E in E'. inversion E'; subst e ends.
  assert (L : forall s (gs : list str), length (ends_from s gs) = length gs).
  { intros s gs. revert s. induction gs as [|g gs IH]; intros s; [reflexivity|]. cbn [ends_from length]. now rewrite IH. }
  rewrite L. destruct HF as (<- & HL & _). induction fs as [|f fs IH]; [cbn; lia|]. inversion HL as [|? ? Hf HL']; subst.
  cbn [concat length]. rewrite app_length. assert (length f <> 0) by (destruct f; [now destruct Hf|discriminate]).
  assert (length fs <= length (concat fs)); [|lia].
  clear - HL'. induction fs as [|g gs IH]; [cbn; lia|]. inversion HL' as [|? ? Hg HG]; subst. cbn [concat length]. rewrite app_length.
  assert (length g <> 0) by (destruct g; [now destruct Hg|discriminate]). specialize (IH HG). lia.
Qed.
Lemma lyndon_conjugate_cost t : pc (lyndon_conjugate_c t) (fun _ c => c <= 12 * length t + 1).
Proof.
  unfold lyndon_conjugate_c. apply pc_bind_const. apply pc_bind.
  eapply pc_imp; [apply pc_okp with (P := fun e => length e <= length (t ++ t)); [|apply duval_cost]|].
  { rewrite duval_erase. destruct (duval_correct (t ++ t)) as (e & fs & E & _). exists e. split; [exact E|]. now apply ends_length. }
  intros fs c (HL & Hc). rewrite app_length in *. cbv zeta. apply pc_bind_free. intros f0 _. destruct (f0 + 1 =? length t).
  - apply pc_free. intros. lia.
  - apply pc_bind_free. intros m Em. apply sub_some in Em. destruct Em as [_ ->]. cbn [length].
    apply pc_bind. eapply pc_imp; [apply pc_for_ret_free|]. intros r cr Hr. cbv beta in Hr. unfold range in Hr. rewrite seq_length in Hr.
    apply pc_free. intros. lia.
Qed.

(** ** border array *)
Lemma border_descend_cost t B i len0 : (forall j, j < length B -> nth j B 0 <= j) ->
  pc (border_descend_c t B i len0) (fun len c => len <= len0 /\ c <= len0 - len + 1).
Proof.
  intros HB. unfold border_descend_c. eapply pc_loop with (Inv := fun len c => len <= len0 /\ c <= len0 - len); [|lia].
  intros len c (H1 & H2). apply pc_free. intros a E. iv E; try lia. subst.
  repeat match goal with H : sub_ _ _ = Ok _ |- _ => apply sub_some in H; destruct H as [? ->] end.
  repeat match goal with H : get B _ = Ok _ |- _ => apply get_some in H; destruct H as [? H]; specialize (H 0) end.
  specialize (HB (len - 1) ltac:(lia)). lia.
Qed.
Lemma border_array_cost t : pc (border_array_c t) (fun _ c => c <= 4 * length t).
Proof.
  unfold border_array_c. apply pc_bind.
  eapply pc_imp; [eapply (pc_for_range (fun i B c => length B = S i /\ (forall j, j <= i -> nth j B 0 <= j) /\ c + nth i B 0 <= 3 * i)); [lia| |]|].
  - cbn [length nth]. split; [reflexivity|]. split; [|lia]. intros j Hj. assert (j = 0) by lia. subst. cbn. lia.
  - intros i B c Hi (HL & HB & Hc). apply pc_bind_free. intros len0 E0. apply get_some in E0. destruct E0 as [_ E0]. specialize (E0 0).
    apply pc_bind. eapply pc_imp; [apply border_descend_cost; intros; apply HB; lia|]. intros len cd (Hl & Hcd).
    apply pc_free. intros B' E. inversion E; subst B'. rewrite app_length. cbn [length]. split; [lia|].
    assert (EN : nth (S i) (B ++ [len + 1]) 0 = len + 1) by (rewrite app_nth2 by lia; now replace (S i - length B) with 0 by lia).
    split.
    + intros j Hj. destruct (Nat.eq_dec j (S i)) as [->|Ne].
      * rewrite EN. specialize (HB i ltac:(lia)). lia.
      * rewrite app_nth1 by lia. apply HB. lia.
    + rewrite EN. lia.
  - intros B c (HL & _ & Hc). rewrite HL. eapply pc_imp; [apply pc_for_free|]. intros B' c' ->. unfold range. rewrite seq_length. lia.
Qed.
Lemma is_primitive_cost t : pc (is_primitive_c t) (fun _ c => c <= 4 * length t).
Proof. unfold is_primitive_c. apply pc_bind. eapply pc_imp; [apply border_array_cost|]. intros b c H. cbv beta in H. apply pc_free. intros. lia. Qed.

(** ** the arrays of the suffix array *)
Lemma compute_phi_cost sa : pc (compute_phi_c sa) (fun phi c => length phi = length sa /\ c <= 2 * length sa).
Proof.
  unfold compute_phi_c. apply pc_bind_free. intros u _. apply pc_bind_const. apply pc_bind.
  eapply pc_imp; [eapply pc_for with (Inv := fun p phi c => length phi = length sa /\ c = length p); [split; [apply repeat_length|reflexivity]|]|].
  - intros p i q phi c _ (HL & ->). apply pc_free. intros phi' E. iv E. apply set_some in E. destruct E as [_ ->].
    rewrite upd_length, app_length. cbn [length]. lia.
  - intros phi c (HL & ->). apply pc_free. intros phi' E. iv E. apply set_some in E. destruct E as [_ ->]. rewrite upd_length.
    unfold range. rewrite seq_length. lia.
Qed.
Lemma inverse_permutation_cost a : pc (inverse_permutation_c a) (fun _ c => c = 2 * length a).
Proof.
  unfold inverse_permutation_c. apply pc_bind_const. eapply pc_imp; [apply pc_for_free|]. intros x c ->. unfold range. rewrite seq_length. lia.
Qed.
Lemma compute_lcp_cost p sa : pc (compute_lcp_c p sa) (fun _ c => c = 2 * length p).
Proof.
  unfold compute_lcp_c. apply pc_bind_free. intros u _. apply pc_bind_const. eapply pc_imp; [apply pc_for_free|]. intros x c ->.
  unfold range. rewrite seq_length. lia.
Qed.
Lemma plcp_extend_cost t a b l : pc (plcp_extend_c t a b l) (fun l' c => l <= l' /\ l' <= Nat.max l (length t) /\ c = l' - l + 1).
Proof.
  unfold plcp_extend_c. eapply pc_loop with (Inv := fun l' c => l <= l' /\ l' <= Nat.max l (length t) /\ c = l' - l); [|lia].
  intros l' c (H1 & H2 & ->). apply pc_free. intros x E. iv E; try lia. subst.
  match goal with H : (_ && _)%bool = true |- _ => apply andb_true_iff in H; destruct H as [Ha Hb] end.
  apply Nat.ltb_lt in Ha. lia.
Qed.
Lemma compute_plcp_cost t phi : pc (compute_plcp_c t phi) (fun plcp c => length plcp = length t /\ c <= 5 * length t).
Proof.
  unfold compute_plcp_c. apply pc_bind_free. intros u _. apply pc_bind_const. apply pc_bind.
  eapply pc_imp; [eapply (pc_for_range (fun i pl c => length (fst pl) = length t /\ snd pl <= length t /\ c <= 3 * i + snd pl)); [lia| |]|].
  - cbn [fst snd]. rewrite repeat_length. lia.
  - intros i [plcp len] c Hi (HL & Hn & Hc). cbn [fst snd] in *. apply pc_bind_free. intros pa _. apply pc_bind.
    eapply pc_imp; [apply plcp_extend_cost|]. intros len' ce (H1 & H2 & ->). apply pc_bind_free. intros plcp' E.
    apply set_some in E. destruct E as [_ ->]. apply pc_free. intros a E. inversion E; subst. cbn [fst snd]. rewrite upd_length. lia.
  - intros [plcp len] c (HL & Hn & Hc). cbn [fst snd] in *. apply pc_free. intros a E. inversion E; subst. lia.
Qed.
