(** FloatSign.v : the sign bit of the values computed by the entropy program: no negative zeros. *)
From Verif Require Import Base SpecStr SpecIo SpecEntropy SpecLog LexFacts PermFacts ModelIo ModelCore ModelEntropy EntropyProof EntropyProof2 EntropyProof3 ModelFloat FloatFacts FloatProof FloatProof2 FloatProof3 FloatProof4 FloatProof5.
From Coq Require Import ZArith Reals Lra.
From Flocq Require Import Core BinarySingleNaN.
Close Scope nat_scope. Local Open Scope R_scope.

Lemma overflow_not_finite (x : b64) s : B2SF x = binary_overflow 53 1024 mode_NE s -> is_finite x = true -> False.
Proof. destruct x; cbn; intros H F; easy. Qed.
Lemma zoe_eq (A : arith) v : zoe A v = a_div A (fold_left (fun s c => a_add A s (a_term A (length v) c)) (positives v) (a_zero A)) (a_of A (length v)).
Proof. reflexivity. Qed.
Section SIGN.
Context (l2 : b64 -> b64).
Notation A := (ieee l2).
Lemma add_fin (x y : b64) : fin (a_add A x y) -> fin x /\ fin y.
Proof. unfold fin. cbn [ieee a_add]. destruct x as [sx|sx| |sx mx ex Ex], y as [sy|sy| |sy my ey Ey]; cbn; try (now split); try discriminate. destruct (Bool.eqb _ _); discriminate. Qed.
Lemma add_sign (x y : b64) : fin (a_add A x y) -> Bsign x = false -> 0 <= B2R x -> 0 <= B2R y -> Bsign (a_add A x y) = false.
Proof.
  intros F Sx Px Py. destruct (add_fin x y F) as (Fx & Fy). unfold fin in *. cbn [ieee a_add] in *.
  pose proof (Bplus_correct 53 1024 prec53 emax1024 mode_NE x y Fx Fy) as H. destruct (Rlt_bool _ _).
  - destruct H as (_ & _ & ->). destruct (Rcompare_spec (B2R x + B2R y) 0) as [L|E|G]; [lra| |reflexivity]. now rewrite Sx.
  - destruct H as (H & _). exfalso. eapply overflow_not_finite; [exact H|exact F].
Qed.
Lemma fin_not_nan (x : b64) : is_finite x = true -> is_nan x = false. Proof. now destruct x. Qed.
Lemma pos_sign (x : b64) : is_finite x = true -> 0 < B2R x -> Bsign x = false.
Proof.
  destruct x as [s|s| |s m e E]; cbn; intros F P; try easy; [lra|]. destruct s; [|reflexivity]. exfalso.
  revert P. apply Rle_not_lt. apply F2R_le_0. cbn. lia.
Qed.
Lemma of_sign n : (1 <= n)%nat -> (Z.of_nat n <= 2 ^ 53)%Z -> Bsign (a_of A n) = false.
Proof. intros Hn Hs. destruct (op_of l2 n Hs) as (F & E). apply pos_sign; [exact F|]. rewrite E. pose proof (INR_ge1 n Hn). lra. Qed.
Lemma div_sign (x y : b64) : fin (a_div A x y) -> B2R y <> 0 -> Bsign x = false -> Bsign y = false -> Bsign (a_div A x y) = false.
Proof.
  intros F Hy Sx Sy. unfold fin in *. cbn [ieee a_div] in *. pose proof (Bdiv_correct 53 1024 prec53 emax1024 mode_NE x y Hy) as H. destruct (Rlt_bool _ _).
  - destruct H as (_ & _ & H). rewrite H by now apply fin_not_nan. now rewrite Sx, Sy.
  - exfalso. eapply overflow_not_finite; [exact H|exact F].
Qed.
Lemma div_fin (x y : b64) : fin (a_div A x y) -> fin x.
Proof. unfold fin. cbn [ieee a_div]. destruct x as [sx|sx| |sx mx ex Ex], y as [sy|sy| |sy my ey Ey]; cbn; try (now split); discriminate. Qed.
Lemma sign_nonneg (x : b64) : Bsign x = false -> 0 <= B2R x.
Proof. destruct x as [s|s| |s m e E]; cbn; intros H; try lra. rewrite H. apply F2R_ge_0. cbn. lia. Qed.
Lemma fold_sign {I} (f : I -> b64) l : forall s, Bsign s = false -> (forall i, In i l -> 0 <= B2R (f i)) ->
  fin (fold_left (fun s i => a_add A s (f i)) l s) -> Bsign (fold_left (fun s i => a_add A s (f i)) l s) = false.
Proof.
  induction l as [|i l IH]; intros s Ss Hl F; [exact Ss|]. cbn [fold_left] in *. apply IH; [|intros j Hj; apply Hl; now right|exact F].
  assert (Fi : fin (a_add A s (f i))).
  { clear - F. revert F. generalize (a_add A s (f i)). induction l as [|j l IH]; intros y F; [exact F|]. cbn [fold_left] in F. apply IH in F. now apply add_fin in F. }
  apply add_sign; [exact Fi|exact Ss|now apply sign_nonneg|apply Hl; now left].
Qed.
Context (delta : R) (HL : log2_accurate l2 delta) (Hd : 0 <= delta <= / 2).
Lemma of_nz n : (1 <= n)%nat -> (Z.of_nat n <= 2 ^ 53)%Z -> B2R (a_of A n) <> 0.
Proof. intros Hn Hs. destruct (op_of l2 n Hs) as (F & E). rewrite E. pose proof (INR_ge1 n Hn). lra. Qed.
Lemma K258 : exists K, (258 <= K)%nat /\ (Z.of_nat K <= 2 ^ 53)%Z.
Proof. exists 258%nat. split; [apply le_n|vm_compute; discriminate]. Qed.
Lemma zoe_fin v : bytes v -> v <> [] -> small (length v) -> fin (zoe A v).
Proof. intros HB Hne Hs. destruct K258 as (K & HK & _). pose proof (zoe_appr l2 delta HL Hd v HB Hne Hs K HK) as (F & _). exact F. Qed.
Lemma small53 n : small n -> (Z.of_nat n <= 2 ^ 53)%Z. Proof. unfold small. lia. Qed.
Lemma zoe_sign_gen l n : (1 <= n)%nat -> small n -> (forall c, In c l -> (1 <= c <= n)%nat) ->
  fin (a_div A (fold_left (fun s c => a_add A s (a_term A n c)) l (a_zero A)) (a_of A n)) ->
  Bsign (a_div A (fold_left (fun s c => a_add A s (a_term A n c)) l (a_zero A)) (a_of A n)) = false.
Proof.
  intros Hn Hs PI F. apply div_sign; [exact F|apply of_nz; [exact Hn|now apply small53]| |apply of_sign; [exact Hn|now apply small53]].
  apply (fold_sign (a_term A n)); [reflexivity| |eapply div_fin; exact F].
  intros c Hc. destruct (term_ok l2 delta HL Hd n c (PI c Hc) Hs) as (_ & P & _). exact P.
Qed.
Lemma zoe_sign v : bytes v -> v <> [] -> small (length v) -> Bsign (zoe A v) = false.
Proof.
  intros HB Hne Hs. pose proof (zoe_fin v HB Hne Hs) as F. assert (Hn : (1 <= length v)%nat) by (destruct v; [easy|simpl; lia]). rewrite zoe_eq in *.
  exact (zoe_sign_gen (positives v) (length v) Hn Hs (positive_in v) F).
Qed.
Lemma groups_sign t k gs n : Forall (good_group_ t k) gs -> (1 <= n)%nat -> (length (concat gs) <= n)%nat -> small n ->
  Bsign (a_div A (groups_sum A t k gs) (a_of A n)) = false.
Proof.
  intros HF Hn Hl Hs. assert (EK : exists K, (260 + n <= K)%nat) by (exists (260 + n)%nat; apply le_n). destruct EK as (K0 & HK0).
  destruct (groups_appr l2 delta HL Hd t k gs n K0 HF Hn Hl Hs HK0) as (F & _).
  pose proof (small53 n Hs) as Hs'.
  apply div_sign; [exact F|now apply of_nz| |now apply of_sign].
  unfold groups_sum in *. apply (fold_sign (group_val A t k)); [reflexivity| |eapply div_fin; exact F].
  intros g Hg. rewrite Forall_forall in HF.
  assert (Lg : (length g <= n)%nat). { clear - Hl Hg. induction gs as [|h gs IH]; [easy|]. cbn [concat] in Hl. rewrite app_length in Hl. destruct Hg as [->|Hg]; [lia|]. apply IH; [lia|exact Hg]. }
  assert (Sg : small (length g)) by (unfold small in *; lia). destruct K258 as (K & HK & HK2).
  destruct (group_appr l2 delta HL Hd t k g K (HF g Hg) Sg HK HK2) as (_ & P & _). exact P.
Qed.
End SIGN.
