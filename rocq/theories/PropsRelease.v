(** PropsRelease.v : property theorems C79 (rle), C80 (count_sigma) and C81 (word) for a release build, where
    integer overflow wraps. The theorems C27-C29, C32, C42-C52 and C64 are about a checked build. *)
From Verif Require Import Base SpecStr SpecIo SpecWord ModelIo ModelTools ModelWord ModelMain ModelRelease.
From Verif Require Import RunFacts ToolsProof ToolsProof2 WordProof WordProof2 WordProof3 WordProof4 ReleaseProof ReleaseProof2.
From Verif Require Import PropsTools PropsWord PropsWord2.
From Coq Require Import NArith ZArith.

(** C79. rle: aborts iff the length of some run but the last is a multiple of 256; otherwise each run
    contributes its letter and its length minus one, modulo 256 *)
Theorem C79_rle_release : forall rd bs rs fuel, delivers rd bs -> is_runs bs rs -> length bs < fuel ->
  ((exists i, S i < length rs /\ snd (nth i rs (0, 0)) mod 256 = 0) /\ rle_release fuel rd = Panic) \/
  ((forall i, S i < length rs -> snd (nth i rs (0, 0)) mod 256 <> 0) /\
   rle_release fuel rd = Ok (flat_map (fun r => [fst r; (snd r - 1) mod 256]) rs)).
Proof.
  intros rd bs rs fuel HD HR HF. pose proof (is_runs_unique _ _ _ HR (runs_ok bs)) as ->.
  destruct (fits_release_dec (runs bs)) as [H|(i & Hi & H)].
  - right. split; [exact H|]. now apply rle_release_ok.
  - left. split; [eauto|]. apply (rle_release_panic rd bs); auto. intros C. exact (C i Hi H).
Qed.
Print Assumptions C79_rle_release.
(** it does the same as a checked build if that one does not abort *)
Theorem C79_rle_release_agrees : forall rd bs fuel code, delivers rd bs -> length bs < fuel ->
  rle fuel rd = Ok code -> rle_release fuel rd = Ok code.
Proof.
  intros rd bs fuel code HD HF E. destruct (C27_rle rd bs (runs bs) fuel HD (runs_ok bs) HF) as (HP & HO & _).
  destruct (HO code E) as (_ & ->). pose proof (runs_ok bs) as (_ & H1 & _). rewrite Forall_forall in H1.
  assert (B : forall i, i < length (runs bs) -> snd (nth i (runs bs) (0, 0)) <= (if S i =? length (runs bs) then 256 else 255)).
  { intros i Hi. destruct (Nat.le_gt_cases (snd (nth i (runs bs) (0, 0))) (if S i =? length (runs bs) then 256 else 255)) as [L|L]; [exact L|].
    assert (X : rle fuel rd = Panic) by (apply HP; eauto). rewrite E in X. discriminate. }
  destruct (C79_rle_release rd bs (runs bs) fuel HD (runs_ok bs) HF) as [((i & Hi & H) & _)|(_ & ->)].
  - exfalso. specialize (B i ltac:(lia)). destruct (Nat.eqb_spec (S i) (length (runs bs))); [lia|].
    specialize (H1 _ (nth_In _ (0, 0) (Nat.lt_trans _ _ _ (Nat.lt_succ_diag_r i) Hi))). rewrite Nat.mod_small in H by lia. lia.
  - f_equal. rewrite !flat_map_concat_map. f_equal. apply map_ext_in. intros r Hr. destruct (In_nth _ _ (0, 0) Hr) as (i & Hi & <-).
    specialize (B i Hi). specialize (H1 _ (nth_In _ (0, 0) Hi)). rewrite Nat.mod_small; [reflexivity|].
    destruct (S i =? length (runs bs)); lia.
Qed.
Print Assumptions C79_rle_release_agrees.
(** the code determines the text if all runs have at most 256 letters *)
Theorem C79_rle_release_decodable : forall rd bs rs fuel code, delivers rd bs -> is_runs bs rs -> length bs < fuel ->
  Forall (fun r => snd r <= 256) rs -> rle_release fuel rd = Ok code -> rle_decode code = Some bs.
Proof.
  intros rd bs rs fuel code HD HR HF HS E. pose proof HR as (HE & HP & _). destruct (C79_rle_release rd bs rs fuel HD HR HF) as [(_ & E')|(_ & E')];
    rewrite E' in E; [discriminate|].
  replace code with (flat_map (fun r => [fst r; (snd r - 1) mod 256]) rs) by congruence. rewrite <- HE. clear HE E' E HR.
  induction rs as [|(c, l) rs IH]; [reflexivity|]. inversion HS as [|? ? S1 S2]; subst. inversion HP as [|? ? P1 P2]; subst.
  cbn [flat_map fst snd] in *. rewrite (Nat.mod_small (l - 1) 256) by lia. cbn [app rle_decode]. rewrite (IH S2 P2). cbn [option_map].
  unfold expand. cbn [map concat]. replace (S (l - 1)) with l by lia. reflexivity.
Qed.
Print Assumptions C79_rle_release_decodable.
(** ... but not in general: a run and the run 256 letters longer have the same code *)
Theorem C79_lossless_refuted : forall c l fuel, 1 <= l -> l + 256 < fuel ->
  exists code, rle_release fuel (reader_of (repeat c l)) = Ok code /\ rle_release fuel (reader_of (repeat c (l + 256))) = Ok code.
Proof.
  assert (G : forall c l fuel, 1 <= l -> l < fuel -> rle_release fuel (reader_of (repeat c l)) = Ok [c; (l - 1) mod 256]).
  { intros c l fuel Hl HF. assert (HR : is_runs (repeat c l) [(c, l)]).
    { split; [unfold expand; cbn; now rewrite app_nil_r|]. split; [repeat constructor; exact Hl|]. intros i Hi. cbn in Hi. lia. }
    destruct (C79_rle_release _ _ _ fuel (reader_of_delivers (repeat c l)) HR) as [((i & Hi & _) & _)|(_ & E)];
      [now rewrite repeat_length|cbn in Hi; lia|exact E]. }
  intros c l fuel Hl HF. exists [c; (l - 1) mod 256]. split; [apply G; lia|]. rewrite G by lia.
  replace (l + 256 - 1) with (l - 1 + 1 * 256) by lia. now rewrite Nat.mod_add by lia.
Qed.
Print Assumptions C79_lossless_refuted.
(** the human-readable output never aborts; it shows the run lengths modulo 256 *)
Theorem C79_rle_text_release : forall rd bs rs fuel, delivers rd bs -> bytes bs -> is_runs bs rs -> length bs < fuel ->
  exists pieces, rle_text_release fuel rd = Ok (concat pieces) /\
    Forall2 is_run_text pieces (map (fun r => (fst r, snd r mod 256)) rs).
Proof.
  intros rd bs rs fuel HD HB HR HF. pose proof (is_runs_unique _ _ _ HR (runs_ok bs)) as ->.
  rewrite (rle_text_release_ok rd bs) by auto. exists (map (fun r => fmt_run (fst r) (snd r mod 256)) (runs bs)).
  split; [now rewrite flat_map_concat_map|].
  assert (G : forall r, In r (runs bs) -> fst r < 256).
  { intros (c, l) Hr. unfold bytes in HB. rewrite Forall_forall in HB. apply HB. destruct HR as (HE & HP & _).
    rewrite <- HE. unfold expand. rewrite in_concat. exists (repeat c l). split; [apply in_map_iff; now exists (c, l)|].
    rewrite Forall_forall in HP. specialize (HP _ Hr). cbn in *. destruct l; [lia|now left]. }
  clear HR. induction (runs bs) as [|r rs IH]; cbn [map]; [constructor|]. constructor; [|apply IH; intros; apply G; now right].
  specialize (G r (or_introl eq_refl)). exists (utf8_char (fst r)), (dec_u8 (snd r mod 256)). cbn [fst snd].
  split; [now apply utf8_char_utf8|]. split; [|reflexivity]. apply dec_u8_decimal.
  pose proof (Nat.mod_upper_bound (snd r) 256 ltac:(lia)). lia.
Qed.
Print Assumptions C79_rle_text_release.
(** -z: block by block. A run of k '0' characters before another character c is written as '0' and
    k mod 256 - 1, and c is dropped; if k is a multiple of 256 the run itself is dropped and c is kept. Every
    input is such a sequence of blocks, so the program never aborts. *)
Theorem C79_rle_zero_release : forall (blocks : list (str * nat * nat)) (w : str) k rd fuel,
  Forall (fun '(w, k, c) => ~ In 48 w /\ 1 <= k /\ c <> 48) blocks -> ~ In 48 w ->
  delivers rd (concat (map (fun '(w, k, c) => w ++ repeat 48 k ++ [c]) blocks) ++ w ++ repeat 48 k) ->
  length (concat (map (fun '(w, k, c) => w ++ repeat 48 k ++ [c]) blocks) ++ w ++ repeat 48 k) < fuel ->
  rle_zero_release fuel rd =
    Ok (concat (map (fun '(w, k, c) => w ++ (if k mod 256 =? 0 then [c] else [48; k mod 256 - 1])) blocks) ++ w ++
        (if k mod 256 =? 0 then [] else [48; k mod 256])).
Proof. intros blocks w k rd fuel HB Hw HD HF. exact (rle_zero_release_ok rd blocks w k fuel HB Hw HD HF). Qed.
Print Assumptions C79_rle_zero_release.
Theorem C79_rle_zero_release_total : forall (t : str), exists blocks w k,
  t = concat (map (fun '(w, k, c) => w ++ repeat 48 k ++ [c]) blocks) ++ w ++ repeat 48 k /\
  Forall (fun '(w, k, c) => ~ In 48 w /\ 1 <= k /\ c <> 48) blocks /\ ~ In 48 w.
Proof. exact rz_decompose_release. Qed.
Print Assumptions C79_rle_zero_release_total.
Example C79_case : rle_release 600 (reader_of (repeat 97 300 ++ [98])) = Ok [97; 43; 98; 0] /\
  rle_release 600 (reader_of (repeat 97 256 ++ [98])) = Panic /\
  rle_text_release 600 (reader_of (repeat 97 256)) = Ok [40; 97; 44; 48; 41] /\
  rle_zero_release 600 (reader_of (repeat 48 256 ++ [98])) = Ok [98].
Proof. repeat split; vm_compute; reflexivity. Qed.

(** C80. count_sigma: right for at most 255 letters; with all 256 byte values it says 0, or 1 if the letter that
    appears last for the first time occurs again. D lists the letters of t. *)
Theorem C80_count_sigma_release : forall t D, bytes t -> NoDup D -> (forall c, In c D <-> In c t) -> length D <= 255 ->
  count_sigma_release t = Ok (length D).
Proof.
  intros t D HB HN HD HL. assert (E : length (nodup Nat.eq_dec t) = length D).
  { apply Permutation.Permutation_length, NoDup_Permutation; [apply NoDup_nodup|exact HN|]. intros c. rewrite nodup_In. symmetry. apply HD. }
  rewrite count_sigma_release_ok by (auto; lia). now rewrite E.
Qed.
Print Assumptions C80_count_sigma_release.
Theorem C80_all_bytes : forall t, bytes t -> (forall c, c < 256 -> In c t) ->
  exists p c q, t = p ++ c :: q /\ ~ In c p /\ (forall b, b < 256 -> b <> c -> In b p) /\
    count_sigma_release t = Ok (if in_dec Nat.eq_dec c q then 1 else 0).
Proof.
  intros t HB HA. assert (L : 255 < length (nodup Nat.eq_dec t)).
  { pose proof (NoDup_incl_length (l := seq 0 256) (l' := nodup Nat.eq_dec t) (seq_NoDup 256 0)) as H. rewrite seq_length in H.
    specialize (H ltac:(intros x Hx; apply in_seq in Hx; apply nodup_In, HA; lia)). lia. }
  destruct (last_letter t HB L) as (p & c & q & E & Hi & Hl & Bp & Hc & Bq). exists p, c, q.
  split; [exact E|]. split; [exact Hi|]. split; [now apply full_all|]. rewrite E. now apply count_sigma_release_full.
Qed.
Print Assumptions C80_all_bytes.
Theorem C80_never_aborts : forall t, bytes t -> exists n, count_sigma_release t = Ok n /\ n <= 255.
Proof.
  intros t HB. destruct (Nat.le_gt_cases (length (nodup Nat.eq_dec t)) 255) as [H|H].
  - exists (length (nodup Nat.eq_dec t)). split; [now apply count_sigma_release_ok|exact H].
  - destruct (last_letter t HB H) as (p & c & q & -> & Hi & Hl & Bp & Hc & Bq).
    rewrite count_sigma_release_full by auto. eexists. split; [reflexivity|]. destruct (in_dec Nat.eq_dec c q); lia.
Qed.
Print Assumptions C80_never_aborts.
Example C80_case : count_sigma_release (seq 0 256) = Ok 0 /\ count_sigma_release (seq 0 256 ++ [255]) = Ok 1 /\
  count_sigma_release (seq 0 256 ++ [254]) = Ok 0 /\ count_sigma_release (seq 0 255) = Ok 255.
Proof. repeat split; vm_compute; reflexivity. Qed.

(** C81. The program word. *)
Lemma release_fib_ok k w : k < 255 -> fibonacci_word_release k = Ok w -> w = fib_word k.
Proof. intros Hk E. rewrite fibonacci_word_release_eq in E by exact Hk. now apply C42_never_wrong. Qed.
(** Whenever a checked build writes a word, a release build writes the same. *)
Theorem C81_agrees : forall name k w, k < 256 -> word_main name k = Ok w -> word_main_release name k = Ok w.
Proof.
  intros name k w Hk E. assert (M : k < 64 -> k mod 64 = k) by (intros; now apply Nat.mod_small).
  assert (B : k <= writes_up_to name \/ name = Fibonacci /\ k = 76).
  { destruct (writes_dec name k) as [C|C]; [exact C|]. rewrite C64_aborts in E by auto. discriminate. }
  destruct name; cbn [word_main word_main_release writes_up_to] in *; try (destruct B as [B|(B & _)]; [|discriminate B]).
  - rewrite fibonacci_word_release_eq by lia. exact E.
  - rewrite fibonacci_lyndonfactor_release_ok. rewrite fibonacci_lyndonfactor_ok in E by lia. injection E as <-.
    rewrite Nat.mod_small by lia. destruct (Nat.leb_spec k 29); [reflexivity|lia].
  - now apply tribonacci_word_release_agrees.
  - rewrite kolakoski_word_release_eq by exact Hk. exact E.
  - rewrite thuemorse_release_small by lia. exact E.
  - unfold period_doubling_word_release, period_doubling_word in *. destruct (Nat.eq_dec k 0) as [E0|E0].
    + rewrite iterate_2morphism_release_0 by (rewrite E0; reflexivity). rewrite E0 in *. exact E.
    + rewrite iterate_2morphism_release_eq; rewrite M by lia; [exact E|exact E0].
  - unfold paperfolding_word_release. rewrite quaternary_release_eq, M by lia. exact E.
  - rewrite quaternary_release_eq, M by lia. exact E.
  - exact E.
  - rewrite power2_release_eq, M by lia. exact E.
  - rewrite vtm_word_release_ok. destruct (C48_vtm_word k ltac:(lia)) as (w' & E' & -> & _). rewrite E in E'. injection E' as ->.
    rewrite Nat.mod_small by lia. destruct (Nat.leb_spec k 29); [reflexivity|lia].
Qed.
Print Assumptions C81_agrees.
(** For these names a release build never writes a wrong word ... *)
Definition safe_in_release (name : word_name) (k : nat) : Prop :=
  match name with
  | Fibonacci => k < 255
  | FibonacciLyndonFactor | Tribonacci | Kolakoski | ThueMorse | BinaryDeBrujin | Vtm => True
  | PeriodDoubling | PaperFolding | QuaternaryPaperFolding | Power2 => k < 64
  end.
Lemma rel_never_fib k w : k < 255 -> fibonacci_word_release k = Ok w -> described Fibonacci k w.
Proof. intros H E. cbn [described]. now apply release_fib_ok. Qed.
Lemma rel_never_lf k w : fibonacci_lyndonfactor_release k = Ok w -> described FibonacciLyndonFactor k w.
Proof.
  intros E. rewrite fibonacci_lyndonfactor_release_ok in E. destruct (k mod 32 <=? 29); [|discriminate]. injection E as <-.
  split; [reflexivity|apply lw_lyndon].
Qed.
Lemma rel_never_trib k w : tribonacci_word_release k = Ok w -> described Tribonacci k w.
Proof.
  intros E. destruct (tribonacci_word_release_safe k) as [E'|E']; rewrite E' in E; [|discriminate]. injection E as <-. reflexivity.
Qed.
Lemma rel_never_kol k w : k < 256 -> kolakoski_word_release k = Ok w -> described Kolakoski k w.
Proof. intros Hk E. rewrite kolakoski_word_release_eq in E by exact Hk. exact (C64_never_wrong Kolakoski k w Hk E). Qed.
Lemma rel_never_tm k w : k < 256 -> thuemorse_word_release k = Ok w -> described ThueMorse k w.
Proof.
  intros Hk E. destruct (Nat.lt_ge_cases k 63) as [L|L]; [|rewrite thuemorse_release_large in E by exact L; discriminate].
  rewrite thuemorse_release_small in E by exact L. exact (C64_never_wrong ThueMorse k w Hk E).
Qed.
Lemma rel_never_pd k w : k < 64 -> period_doubling_word_release k = Ok w -> described PeriodDoubling k w.
Proof.
  intros Hk E. apply (C64_never_wrong PeriodDoubling k w); [lia|]. change (iterate_2morphism k period_doubling_morphism = Ok w).
  change (iterate_2morphism_release k period_doubling_morphism = Ok w) in E. destruct (Nat.eq_dec k 0) as [E0|E0].
  - rewrite iterate_2morphism_release_0 in E by (rewrite E0; reflexivity). rewrite E0 in *. exact E.
  - rewrite iterate_2morphism_release_eq in E; rewrite Nat.mod_small in * by lia; [exact E|exact E0].
Qed.
Lemma rel_never_qpf k w : k < 64 -> quaternary_paperfolding_word_release k = Ok w -> described QuaternaryPaperFolding k w.
Proof.
  intros Hk E. rewrite quaternary_release_eq, Nat.mod_small in E by exact Hk. exact (C64_never_wrong QuaternaryPaperFolding k w ltac:(lia) E).
Qed.
Lemma rel_never_pf k w : k < 64 -> paperfolding_word_release k = Ok w -> described PaperFolding k w.
Proof.
  intros Hk E. unfold paperfolding_word_release in E. rewrite quaternary_release_eq, Nat.mod_small in E by exact Hk.
  exact (C64_never_wrong PaperFolding k w ltac:(lia) E).
Qed.
Lemma rel_never_p2 k w : k < 64 -> power2_sequence_release k = Ok w -> described Power2 k w.
Proof.
  intros Hk E. rewrite power2_release_eq, Nat.mod_small in E by exact Hk. exact (C64_never_wrong Power2 k w ltac:(lia) E).
Qed.
Lemma rel_never_vtm k w : vtm_word_release k = Ok w -> described Vtm k w.
Proof.
  intros E. rewrite vtm_word_release_ok in E. destruct (k mod 32 <=? 29); [|discriminate]. injection E as <-.
  split; [reflexivity|apply vtm_square_free].
Qed.
Theorem C81_never_wrong : forall name k w, k < 256 -> safe_in_release name k -> word_main_release name k = Ok w -> described name k w.
Proof.
  intros name k w Hk HS. destruct name.
  - now apply rel_never_fib.
  - apply rel_never_lf.
  - apply rel_never_trib.
  - now apply rel_never_kol.
  - now apply rel_never_tm.
  - now apply rel_never_pd.
  - now apply rel_never_pf.
  - now apply rel_never_qpf.
  - now apply (C64_never_wrong BinaryDeBrujin).
  - now apply rel_never_p2.
  - apply rel_never_vtm.
Qed.
Print Assumptions C81_never_wrong.
(** ... but for the others the number k is silently taken modulo 64 *)
Theorem C81_modulo_64 : forall k w, k < 256 ->
  (word_main_release PaperFolding k = Ok w <-> word_main PaperFolding (k mod 64) = Ok w) /\
  (word_main_release QuaternaryPaperFolding k = Ok w <-> word_main QuaternaryPaperFolding (k mod 64) = Ok w) /\
  (word_main_release Power2 k = Ok w <-> word_main Power2 (k mod 64) = Ok w) /\
  (k mod 64 <> 0 -> (word_main_release PeriodDoubling k = Ok w <-> word_main PeriodDoubling (k mod 64) = Ok w)) /\
  (k mod 64 = 0 -> 0 < k -> word_main_release PeriodDoubling k = Panic).
Proof.
  intros k w Hk. cbn [word_main_release word_main]. unfold paperfolding_word_release, paperfolding_word, period_doubling_word_release, period_doubling_word.
  rewrite quaternary_release_eq, power2_release_eq. split; [tauto|]. split; [tauto|]. split; [tauto|]. split.
  - intros H. rewrite iterate_2morphism_release_eq by exact H. tauto.
  - intros H H0. rewrite iterate_2morphism_release_0 by exact H. destruct (Nat.eqb_spec k 0); [lia|reflexivity].
Qed.
Print Assumptions C81_modulo_64.
(** so the documented words are not what is written; the same for the Fibonacci word of order 255 *)
Theorem C81_described_refuted :
  (forall name k, In name [PaperFolding; QuaternaryPaperFolding; Power2] -> 64 <= k < 256 -> k mod 64 <= 61 ->
     exists w, word_main_release name k = Ok w /\ ~ described name k w) /\
  (exists w, word_main_release Fibonacci 255 = Ok w /\ ~ described Fibonacci 255 w).
Proof.
  split.
  - intros name k Hn Hk Hm.
    assert (P : forall a b, a < b -> 2 ^ a < 2 ^ b) by (intros; apply Nat.pow_lt_mono_r; lia).
    assert (D : k mod 64 < k) by (pose proof (Nat.mod_upper_bound k 64 ltac:(lia)); lia).
    assert (HL : exists w, word_main name (k mod 64) = Ok w /\ described name (k mod 64) w)
      by (apply C64_word_program; left; destruct Hn as [<-|[<-|[<-|[]]]]; cbn [writes_up_to]; lia).
    destruct HL as (w & E & Dw). exists w. destruct (C81_modulo_64 k w ltac:(lia)) as (H1 & H2 & H3 & _).
    destruct Hn as [<-|[<-|[<-|[]]]]; cbn [described] in *.
    + split; [now apply H1|]. intros (L & _). destruct Dw as (L' & _). rewrite L in L'. specialize (P (k mod 64 + 1) (k + 1) ltac:(lia)). rewrite L' in P. exact (Nat.lt_irrefl _ P).
    + split; [now apply H2|]. intros C. assert (L : length w = 2 ^ k) by (rewrite C; apply u2_iter_length; exact pfh_u2).
      assert (L' : length w = 2 ^ (k mod 64)) by (rewrite Dw; apply u2_iter_length; exact pfh_u2).
      rewrite L in L'. specialize (P _ _ D). rewrite L' in P. exact (Nat.lt_irrefl _ P).
    + split; [now apply H3|]. intros (L & _). destruct Dw as (L' & _). rewrite L in L'. specialize (P _ _ D). rewrite L' in P. exact (Nat.lt_irrefl _ P).
  - exists [97]. split; [vm_compute; reflexivity|]. cbn [described]. intros C.
    assert (L : N.of_nat (length [97]) = fib (255 + 2)) by (rewrite C at 1; apply fib_word_length). rewrite fib_fast in L. vm_compute in L. discriminate.
Qed.
Print Assumptions C81_described_refuted.
(** fibonacci_number and tribonacci_number are taken modulo 2^64, and fibonacci_number 255 is 1 *)
Theorem C81_numbers : (forall k, k < 255 -> fibonacci_number_release k = Ok (fib (k + 2) mod 2 ^ 64)%N) /\
  fibonacci_number_release 255 = Ok 1%N /\
  (forall k, k < 256 -> tribonacci_number_release k = Ok (trib k mod 2 ^ 64)%N).
Proof.
  split; [exact fibonacci_number_release_ok|]. split; [vm_compute; reflexivity|]. intros k _. exact (tribonacci_number_release_ok k).
Qed.
Print Assumptions C81_numbers.
Example C81_case : word_main_release Power2 66 = Ok [98; 98; 97; 0] /\ word_main Power2 66 = Panic /\
  word_main_release PeriodDoubling 64 = Panic /\ word_main_release Vtm 34 = Ok (iter_morphism vtm_image 34 [97]).
Proof.
  split; [vm_compute; reflexivity|]. split; [apply C51_too_large; lia|]. split; [vm_compute; reflexivity|].
  exact (vtm_word_release_ok 34).
Qed.
