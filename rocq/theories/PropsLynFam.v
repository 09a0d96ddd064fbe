(** PropsLynFam.v : C117, the Lyndon factorizations that duval and lyndonfactorization find in the word families. *)
From Verif Require Import Base SpecStr SpecIo SpecMain SpecWord SpecResult SpecArgs SpecArgs2 SpecFs LexFacts.
From Verif Require Import ModelWord ModelIo ModelCore ModelMain ModelResult ModelFs ModelArgs ModelArgs2.
From Verif Require Import WordProof WordProof2 WordProof3 WordProof4 FibFacts LynMorph LynFam LynFam2 LynFam3 LynFam4 LynFam5 PropsLyndon PropsWord PropsWord2 PropsResult PropsArgs PropsArgs2 PropsSession.
From Coq Require Import NArith.

(** duval finds the factors fs, whose lengths are ls *)
Definition duval_lengths (w : str) (ls : list nat) : Prop :=
  exists fs, lyndon_factorization w fs /\ duval w = Ok (ends_from 0 fs) /\ map (@length nat) fs = ls.
Lemma found w fs ls : lyndon_factorization w fs -> map (@length nat) fs = ls -> duval_lengths w ls.
Proof.
  intros H E. exists fs. split; [exact H|]. split; [|exact E]. destruct (C01_duval_is_lyndon_factorization w) as (ends & gs & D & _). rewrite D. f_equal. exact (C02_duval_unique w ends fs D H).
Qed.
Lemma map_len (X : nat -> str) (g : nat -> nat) l : (forall j, length (X j) = g j) -> map (@length nat) (map X l) = map g l.
Proof. intros H. rewrite map_map. apply map_ext. exact H. Qed.
Ltac lens := rewrite ?map_app; cbn [map length]; rewrite ?map_app; cbn [map length].

(** Fibonacci *)
Theorem C117_fibonacci : forall k, k <= 74 -> exists w, fibonacci_word k = Ok w /\
  duval_lengths w (map (fun j => length (fib_word (2 * j + 1))) (seq 0 (k / 2)) ++
    (if Nat.even k then [1] else if k =? 1 then [2] else map (fun j => length (fib_word (2 * j + 2))) (rev (seq 0 (k / 2 - 1))) ++ [3])).
Proof.
  intros k Hk. exists (fib_word k). split; [now apply fibonacci_word_ok|]. destruct (Nat.Even_or_Odd k) as [(m & ->)|(m & ->)].
  - rewrite Nat.even_mul. cbn [Nat.even orb]. rewrite (Nat.mul_comm 2 m), Nat.div_mul, (Nat.mul_comm m 2) by lia. eapply found; [apply fib_even_factors|]. lens. rewrite (map_len lw _ _ lw_len). reflexivity.
  - rewrite Nat.even_add, Nat.even_mul. cbn [Nat.even orb eqb]. replace ((2 * m + 1) / 2) with m by (apply (Nat.div_unique _ 2 m 1); lia). destruct m as [|m].
    + eapply found; [apply factors_one, lyndonb_ok; reflexivity|reflexivity].
    + destruct (Nat.eqb_spec (2 * S m + 1) 1); [lia|]. eapply found; [apply fib_odd_factors; lia|]. unfold fib_rest. lens. rewrite (map_len lw _ _ lw_len), (map_len vw _ _ vw_length). reflexivity.
Qed.
Print Assumptions C117_fibonacci.
(** the factors of the Fibonacci word and the ternary Thue-Morse words are Lyndon words *)
Theorem C117_fibonacci_lyndonfactor : forall k, k <= 29 -> exists w, fibonacci_lyndonfactor k = Ok w /\ duval_lengths w [length (fib_word (2 * k + 1))].
Proof.
  intros k Hk. exists (lw k). split; [now apply fibonacci_lyndonfactor_ok|]. eapply found; [apply factors_one, lw_lyndon|]. cbn [map]. now rewrite lw_len.
Qed.
Print Assumptions C117_fibonacci_lyndonfactor.
Theorem C117_vtm : forall k, k <= 29 -> exists w, vtm_word k = Ok w /\ duval_lengths w [length w].
Proof.
  intros k Hk. eexists. split; [now apply vtm_word_ok|]. eapply found; [apply factors_one, vtm_lyndon; reflexivity|reflexivity].
Qed.
Print Assumptions C117_vtm.

(** period doubling *)
Lemma pds_len w : length (flat_map pds w) = 4 * length w.
Proof. induction w as [|c w IH]; [reflexivity|]. cbn [flat_map length]. rewrite app_length, IH. unfold pds. destruct (c =? 97); cbn [length]; lia. Qed.
Lemma pds_iter_len w j : length (iter_morphism pds j w) = length w * 4 ^ j.
Proof. induction j as [|j IH]; [cbn; lia|]. rewrite iter_S, pds_len, IH. cbn [Nat.pow]. lia. Qed.
Lemma pdP_len j : length (pdP j) = 2 * 4 ^ j. Proof. unfold pdP. now rewrite pds_iter_len. Qed.
Lemma pdV_len j : length (pdV j) = 4 ^ j. Proof. unfold pdV. rewrite pds_iter_len. cbn [length]. lia. Qed.
Lemma pdy_len m : length (pdy m) = (4 ^ (m + 1) + 2) / 3.
Proof.
  assert (H : 3 * length (pdx m) + 1 = 4 ^ (m + 1)).
  { induction m as [|m IH]; [reflexivity|]. cbn [pdx Nat.add]. rewrite app_length, pds_len. change (4 ^ S (m + 1)) with (4 * 4 ^ (m + 1)). cbn [length]. lia. }
  unfold pdy. rewrite app_length. cbn [length]. apply (Nat.div_unique _ 3 _ 0); lia.
Qed.
Theorem C117_period_doubling : forall k, k <= 62 -> exists w, period_doubling_word k = Ok w /\
  duval_lengths w (map (fun j => 2 * 4 ^ j) (seq 0 (k / 2)) ++ (if Nat.even k then map (fun j => 4 ^ j) (rev (seq 0 (k / 2))) ++ [1] else [(4 ^ (k / 2 + 1) + 2) / 3])).
Proof.
  intros k Hk. eexists. split; [apply period_doubling_word_ok; lia|]. destruct (Nat.Even_or_Odd k) as [(m & ->)|(m & ->)].
  - rewrite Nat.even_mul. cbn [Nat.even orb]. rewrite (Nat.mul_comm 2 m), Nat.div_mul, (Nat.mul_comm m 2) by lia. eapply found; [apply pd_even_factors|]. lens. rewrite (map_len pdP _ _ pdP_len), (map_len pdV _ _ pdV_len). reflexivity.
  - rewrite Nat.even_add, Nat.even_mul. cbn [Nat.even orb eqb]. replace ((2 * m + 1) / 2) with m by (apply (Nat.div_unique _ 2 m 1); lia).
    eapply found; [apply pd_odd_factors|]. lens. rewrite (map_len pdP _ _ pdP_len), pdy_len. reflexivity.
Qed.
Print Assumptions C117_period_doubling.

(** quaternary paperfolding *)
Theorem C117_quaternary_paperfolding : forall k, 1 <= k <= 62 -> exists w, quaternary_paperfolding_word k = Ok w /\
  let m := (k - 1) / 2 in
  duval_lengths w (map (fun j => 4 ^ j) (seq 0 (S m)) ++ (if Nat.even k then [2 * 4 ^ m] else []) ++ [(2 * 4 ^ m + 1) / 3]).
Proof.
  intros k Hk. eexists. split; [apply quaternary_ok; lia|]. destruct (Nat.Even_or_Odd k) as [(m & ->)|(m & ->)].
  - destruct m as [|m]; [lia|]. rewrite Nat.even_mul. cbn [Nat.even orb]. replace ((2 * S m - 1) / 2) with m by (apply (Nat.div_unique _ 2 m 1); lia). cbv zeta.
    replace (2 * S m) with (2 * m + 2) by lia. eapply found; [apply q_even_factors|]. rewrite map_app, (map_len qX _ _ qX_len). cbn [map app]. rewrite qZ_len, qy_len. reflexivity.
  - rewrite Nat.even_add, Nat.even_mul. cbn [Nat.even orb eqb]. replace ((2 * m + 1 - 1) / 2) with m by (apply (Nat.div_unique _ 2 m 0); lia). cbv zeta.
    eapply found; [apply q_odd_factors|]. rewrite map_app, (map_len qX _ _ qX_len). cbn [map app]. rewrite qy_len. reflexivity.
Qed.
Print Assumptions C117_quaternary_paperfolding.
(** paperfolding *)
Theorem C117_paperfolding : forall k, 4 <= k <= 61 -> exists w, paperfolding_word k = Ok w /\
  let m := k / 2 - 1 in
  duval_lengths w ([1; 1; 3; 5; 11] ++ map (fun j => 4 ^ (j + 3)) (seq 0 (m - 1)) ++ (if Nat.even k then [] else [2 * 4 ^ (m + 1)]) ++ [(2 * 4 ^ (m + 1) + 1) / 3]).
Proof.
  intros k Hk. eexists. split; [apply paperfolding_ok; lia|]. destruct (Nat.Even_or_Odd k) as [(m & ->)|(m & ->)].
  - replace m with (m - 2 + 2) by lia. set (q := m - 2). rewrite Nat.even_mul. cbn [Nat.even orb]. replace (2 * (q + 2) / 2 - 1) with (S q) by (rewrite (Nat.mul_comm 2), Nat.div_mul; lia). cbv zeta.
    replace (2 * (q + 2)) with (2 * q + 4) by lia. eapply found; [apply pf_even_factors|]. rewrite !map_app, (map_len pX _ _ pX_len). cbn [map]. rewrite pe_len, <- app_assoc. replace (S q - 1) with q by lia. reflexivity.
  - replace m with (m - 2 + 2) by lia. set (q := m - 2). rewrite Nat.even_add, Nat.even_mul. cbn [Nat.even orb eqb].
    replace ((2 * (q + 2) + 1) / 2 - 1) with (S q) by (replace ((2 * (q + 2) + 1) / 2) with (q + 2) by (apply (Nat.div_unique _ 2 _ 1); lia); lia). cbv zeta.
    replace (2 * (q + 2) + 1) with (2 * q + 5) by lia. eapply found; [apply pf_odd_factors|]. rewrite !map_app, (map_len pX _ _ pX_len). cbn [map]. rewrite pe_len, pZ_len, <- app_assoc. replace (S q - 1) with q by lia. reflexivity.
Qed.
Print Assumptions C117_paperfolding.

(** tribonacci *)
Definition tl (k : nat) : nat := length (trib_word k).
Lemma tpairs_lens m : map (@length nat) (tpairs m) = flat_map (fun j => [tl (3 * j + 2); tl (3 * j + 1)]) (seq 0 m).
Proof. unfold tpairs. induction (seq 0 m) as [|j l IH]; [reflexivity|]. cbn [flat_map app map]. rewrite IH, tW_len, tx_len. reflexivity. Qed.
Lemma trib_writes k : k <= 71 -> tribonacci_word k = Ok (trib_word k).
Proof. intros Hk. apply C47_tribonacci_word. eapply N.le_lt_trans; [apply (trib_mono_le k 71 Hk)|]. rewrite trib_fast. vm_compute. reflexivity. Qed.
Theorem C117_tribonacci : forall m, let pairs n := flat_map (fun j => [tl (3 * j + 2); tl (3 * j + 1)]) (seq 0 n) in
  (3 * m <= 71 -> exists w, tribonacci_word (3 * m) = Ok w /\ duval_lengths w (pairs m ++ [1])) /\
  (3 * m + 4 <= 71 -> exists w, tribonacci_word (3 * m + 4) = Ok w /\
     duval_lengths w (pairs (S m) ++ map (fun j => tl (3 * j + 3) + tl (3 * j + 5)) (rev (seq 0 m)) ++ [7])) /\
  (3 * m + 5 <= 71 -> exists w, tribonacci_word (3 * m + 5) = Ok w /\
     duval_lengths w (pairs (S m) ++ tl (3 * m + 4) :: map (fun j => tl (3 * j + 3) + tl (3 * j + 4)) (rev (seq 0 m)) ++ [5])).
Proof.
  intros m pairs. split; [|split]; intros H; eexists; (split; [apply trib_writes, H|]); unfold pairs.
  - eapply found; [apply t0_factors|]. rewrite map_app, tpairs_lens. reflexivity.
  - eapply found; [apply t1_factors|]. rewrite !map_app, tpairs_lens, (map_len tS _ _ tS_len). reflexivity.
  - eapply found; [apply t2_factors|]. rewrite map_app, tpairs_lens. cbn [map]. rewrite map_app, (map_len tq _ _ tq_len), tx_len. replace (3 * S m + 1) with (3 * m + 4) by lia. reflexivity.
Qed.
Print Assumptions C117_tribonacci.

(** Thue-Morse *)
Theorem C117_thuemorse : forall k, 3 <= k <= 62 -> exists w, thuemorse_word k = Ok w /\
  duval_lengths w (3 :: map (fun j => 2 ^ (j + 1)) (seq 0 (k - 2)) ++
    (if Nat.even k then map (fun j => 3 * 2 ^ (2 * j + 1)) (rev (seq 0 (k / 2 - 1))) ++ [1] else map (fun j => 3 * 2 ^ (2 * j)) (rev (seq 0 (k / 2))))).
Proof.
  intros k Hk. destruct (C44_thuemorse_word k ltac:(lia)) as (w & EW & L & H & _). exists w. split; [exact EW|]. rewrite (tm_word_iter k w L H). clear w EW L H.
  destruct (Nat.Even_or_Odd k) as [(m & ->)|(m & ->)].
  - replace m with (m - 2 + 2) by lia. set (q := m - 2). rewrite Nat.even_mul. cbn [Nat.even orb]. replace (2 * (q + 2) / 2 - 1) with (S q) by (rewrite (Nat.mul_comm 2), Nat.div_mul; lia).
    replace (2 * (q + 2) - 2) with (2 * q + 2) by lia. replace (2 * (q + 2)) with (2 * q + 4) by lia. eapply found; [apply tm_even_factors|]. rewrite !map_app, (map_len mc _ _ mc_len), (map_len d1 (fun j => 3 * 2 ^ (2 * j + 1))) by (intros; apply md_len). reflexivity.
  - replace m with (m - 1 + 1) by lia. set (q := m - 1). rewrite Nat.even_add, Nat.even_mul. cbn [Nat.even orb eqb].
    replace ((2 * (q + 1) + 1) / 2) with (S q) by (apply (Nat.div_unique _ 2 _ 1); lia).
    replace (2 * (q + 1) + 1 - 2) with (2 * q + 1) by lia. replace (2 * (q + 1) + 1) with (2 * q + 3) by lia. eapply found; [apply tm_odd_factors|]. rewrite !map_app, (map_len mc _ _ mc_len), (map_len d0 (fun j => 3 * 2 ^ (2 * j))) by (intros; apply md_len). reflexivity.
Qed.
Print Assumptions C117_thuemorse.
(** power2 *)
Theorem C117_power2 : forall k, 1 <= k <= 62 -> exists w, power2_sequence k = Ok w /\
  duval_lengths w (1 :: map (fun j => 2 ^ j) (seq 0 (k - 1)) ++ repeat 1 (2 ^ (k - 1))).
Proof.
  intros k Hk. destruct (power2_ok k ltac:(lia)) as (w & EW & L & Z & AB & HB). exists w. split; [exact EW|].
  eapply found; [apply (p2_factors_ok k); [lia|apply p2_concat; auto; lia]|apply p2_factors_lengths; lia].
Qed.
Print Assumptions C117_power2.

(** Together: the number of Lyndon factors of the word that [word -n s -k k] writes, for the names with a regular one *)
Definition lyndon_size (v : word_name) (k : nat) : option nat :=
  if k <=? writes_up_to v then
    match v with
    | Fibonacci => Some (if Nat.even k then k / 2 + 1 else if k =? 1 then 1 else k - 1)
    | FibonacciLyndonFactor | Vtm => Some 1
    | Tribonacci => Some (if k mod 3 =? 0 then 2 * (k / 3) + 1 else if k <? 3 then 1 else k - 1)
    | ThueMorse => Some (if k <? 2 then 1 else 3 * k / 2 - 1)
    | PeriodDoubling => Some (if Nat.even k then k + 1 else (k + 1) / 2)
    | PaperFolding => Some (if k <? 3 then k + 2 else (k + 1) / 2 + 4)
    | QuaternaryPaperFolding => Some (if k =? 0 then 1 else k / 2 + 2)
    | Power2 => Some (if k =? 0 then 1 else k + 2 ^ (k - 1))
    | Kolakoski | BinaryDeBrujin => None
    end
  else None.
Lemma lens_count w ls n : duval_lengths w ls -> length ls = n -> exists fs, lyndon_factorization w fs /\ length fs = n.
Proof. intros (fs & H & _ & E) L. exists fs. split; [exact H|]. rewrite <- L, <- E, map_length. reflexivity. Qed.
Lemma flat2_len (g : nat -> list nat) l : (forall x, length (g x) = 2) -> length (flat_map g l) = 2 * length l.
Proof. intros H. induction l as [|x l IH]; [reflexivity|]. cbn [flat_map length]. rewrite app_length, H, IH. lia. Qed.
Ltac lenlia := rewrite ?app_length, ?map_length, ?rev_length, ?seq_length, ?repeat_length; cbn [length]; rewrite ?app_length, ?map_length, ?rev_length, ?seq_length, ?repeat_length; cbn [length].
Lemma some_inj (a b : nat) : Some a = Some b -> a = b.
Proof. congruence. Qed.
Lemma small_found fs w : concat fs = w -> Forall (fun f => lyndonb f = true) fs -> non_increasing fs -> duval_lengths w (map (@length nat) fs).
Proof.
  intros E L N. apply (found w fs); [|reflexivity]. split; [exact E|]. split; [|exact N]. eapply Forall_impl; [|exact L]. intros a. apply lyndonb_ok.
Qed.
Ltac nonin := cbn [non_increasing]; repeat match goal with |- _ /\ _ => split | |- True => exact I | |- lex_le _ _ => first [left; reflexivity|right; apply lex_ltb_ok; reflexivity] end.
Ltac fb := repeat (apply Forall_cons; [reflexivity|]); apply Forall_nil.
Theorem C117_number_of_factors : forall v k n, lyndon_size v k = Some n -> exists w fs, word_main v k = Ok w /\ lyndon_factorization w fs /\ duval w = Ok (ends_from 0 fs) /\ length fs = n.
Proof.
  intros v k n H. enough (X : exists w ls, word_main v k = Ok w /\ duval_lengths w ls /\ length ls = n).
  { destruct X as (w & ls & E & (fs & F & D & M) & L). exists w, fs. split; [exact E|]. split; [exact F|]. split; [exact D|]. rewrite <- L, <- M, map_length. reflexivity. }
  unfold lyndon_size in H. destruct (Nat.leb_spec k (writes_up_to v)) as [B|B]; [|discriminate H]. destruct v; try discriminate H; apply some_inj in H; symmetry in H; subst n; cbn [word_main writes_up_to] in *.
  - destruct (C117_fibonacci k B) as (w & E & D). exists w. eexists. split; [exact E|]. split; [exact D|]. lenlia. destruct (Nat.even k) eqn:EV; [cbn [length]; lia|].
    destruct (Nat.eqb_spec k 1) as [->|N]; [reflexivity|]. lenlia. assert (OD : Nat.odd k = true) by (rewrite <- Nat.negb_even, EV; reflexivity). apply Nat.odd_spec in OD. destruct OD as (m & ->).
    replace ((2 * m + 1) / 2) with m by (apply (Nat.div_unique _ 2 m 1); lia). lia.
  - destruct (C117_fibonacci_lyndonfactor k B) as (w & E & D). exists w. eexists. split; [exact E|]. split; [exact D|reflexivity].
  - pose proof (Nat.div_mod k 3 ltac:(lia)) as DM. pose proof (Nat.mod_upper_bound k 3 ltac:(lia)) as MB. set (m := k / 3) in *. set (r := k mod 3) in *. destruct (Nat.eqb_spec r 0) as [R|R].
    + destruct (C117_tribonacci m) as (A & _ & _). destruct (A ltac:(lia)) as (w & E & D). replace (3 * m) with k in E by lia. exists w. eexists. split; [exact E|]. split; [exact D|]. lenlia. rewrite flat2_len by reflexivity. rewrite seq_length. lia.
    + destruct (Nat.ltb_spec k 3) as [S3|S3].
      * assert (K : k = 1 \/ k = 2) by lia. clearbody m r. destruct K as [->| ->].
        -- exists [97; 98], [2]. split; [vm_compute; reflexivity|]. split; [|reflexivity]. eapply found; [apply factors_one, lyndonb_ok; reflexivity|reflexivity].
        -- exists [97; 98; 97; 99], [4]. split; [vm_compute; reflexivity|]. split; [|reflexivity]. eapply found; [apply factors_one, lyndonb_ok; reflexivity|reflexivity].
      * destruct (C117_tribonacci (m - 1)) as (_ & A1 & A2). assert (K : r = 1 \/ r = 2) by lia. destruct K as [K|K].
        -- destruct (A1 ltac:(lia)) as (w & E & D). replace (3 * (m - 1) + 4) with k in E by lia. exists w. eexists. split; [exact E|]. split; [exact D|]. lenlia. rewrite flat2_len by reflexivity. lenlia. lia.
        -- destruct (A2 ltac:(lia)) as (w & E & D). replace (3 * (m - 1) + 5) with k in E by lia. exists w. eexists. split; [exact E|]. split; [exact D|]. lenlia. rewrite flat2_len by reflexivity. lenlia. lia.
  - destruct (Nat.le_gt_cases 3 k) as [C|C].
    + destruct (C117_thuemorse k ltac:(lia)) as (w & E & D). exists w. eexists. split; [exact E|]. split; [exact D|]. destruct (Nat.ltb_spec k 2); [lia|]. lenlia.
      destruct (Nat.Even_or_Odd k) as [(m & ->)|(m & ->)].
      * rewrite Nat.even_mul. cbn [Nat.even orb]. lenlia. replace (3 * (2 * m) / 2) with (3 * m) by (apply (Nat.div_unique _ 2 _ 0); lia). replace (2 * m / 2) with m by (apply (Nat.div_unique _ 2 _ 0); lia). lia.
      * rewrite Nat.even_add, Nat.even_mul. cbn [Nat.even orb eqb]. lenlia. replace (3 * (2 * m + 1) / 2) with (3 * m + 1) by (apply (Nat.div_unique _ 2 _ 1); lia). replace ((2 * m + 1) / 2) with m by (apply (Nat.div_unique _ 2 _ 1); lia). lia.
    + assert (K : k = 0 \/ k = 1 \/ k = 2) by lia. destruct K as [->|[->| ->]].
      * exists [97], [1]. split; [vm_compute; reflexivity|]. split; [|reflexivity]. eapply found; [apply factors_one, lyndonb_ok; reflexivity|reflexivity].
      * exists [97; 98], [2]. split; [vm_compute; reflexivity|]. split; [|reflexivity]. eapply found; [apply factors_one, lyndonb_ok; reflexivity|reflexivity].
      * exists [97; 98; 98; 97], [3; 1]. split; [vm_compute; reflexivity|]. split; [|reflexivity]. apply (found _ [[97; 98; 98]; [97]]); [|reflexivity].
        split; [reflexivity|]. split; [repeat (apply Forall_cons; [apply lyndonb_ok; reflexivity|]); constructor|]. cbn [non_increasing]. split; [right; apply lex_ltb_ok; reflexivity|split; exact I].
  - destruct (C117_period_doubling k B) as (w & E & D). exists w. eexists. split; [exact E|]. split; [exact D|]. lenlia. destruct (Nat.Even_or_Odd k) as [(m & ->)|(m & ->)].
    + rewrite Nat.even_mul. cbn [Nat.even orb]. lenlia. replace (2 * m / 2) with m by (apply (Nat.div_unique _ 2 _ 0); lia). lia.
    + rewrite Nat.even_add, Nat.even_mul. cbn [Nat.even orb eqb]. lenlia. replace ((2 * m + 1) / 2) with m by (apply (Nat.div_unique _ 2 _ 1); lia). replace ((2 * m + 1 + 1) / 2) with (m + 1) by (apply (Nat.div_unique _ 2 _ 0); lia). lia.
  - destruct (Nat.le_gt_cases 4 k) as [C|C].
    + destruct (C117_paperfolding k ltac:(lia)) as (w & E & D). cbv zeta in D. exists w. eexists. split; [exact E|]. split; [exact D|]. destruct (Nat.ltb_spec k 3); [lia|]. lenlia.
      destruct (Nat.Even_or_Odd k) as [(m & ->)|(m & ->)].
      * rewrite Nat.even_mul. cbn [Nat.even orb]. lenlia. replace (2 * m / 2) with m by (apply (Nat.div_unique _ 2 _ 0); lia). replace ((2 * m + 1) / 2) with m by (apply (Nat.div_unique _ 2 _ 1); lia). lia.
      * rewrite Nat.even_add, Nat.even_mul. cbn [Nat.even orb eqb]. lenlia. replace ((2 * m + 1) / 2) with m by (apply (Nat.div_unique _ 2 _ 1); lia). replace ((2 * m + 1 + 1) / 2) with (m + 1) by (apply (Nat.div_unique _ 2 _ 0); lia). lia.
    + assert (K : k = 0 \/ k = 1 \/ k = 2 \/ k = 3) by lia. destruct K as [->|[->|[->| ->]]].
      * exists [49; 49]. eexists. split; [vm_compute; reflexivity|]. split; [apply (small_found [[49]; [49]]); [reflexivity|fb|nonin]|reflexivity].
      * exists [49; 49; 48; 49]. eexists. split; [vm_compute; reflexivity|]. split; [apply (small_found [[49]; [49]; [48; 49]]); [reflexivity|fb|nonin]|reflexivity].
      * exists [49; 49; 48; 49; 49; 48; 48; 49]. eexists. split; [vm_compute; reflexivity|]. split; [apply (small_found [[49]; [49]; [48; 49; 49]; [48; 48; 49]]); [reflexivity|fb|nonin]|reflexivity].
      * exists [49;49;48;49;49;48;48;49;49;49;48;48;49;48;48;49]. eexists. split; [vm_compute; reflexivity|]. split; [apply (small_found [[49]; [49]; [48; 49; 49]; [48; 48; 49; 49; 49]; [48; 48; 49]; [48; 48; 49]]); [reflexivity|fb|nonin]|reflexivity].
  - destruct (Nat.eqb_spec k 0) as [->|K].
    + exists [100]. eexists. split; [vm_compute; reflexivity|]. split; [apply (small_found [[100]]); [reflexivity|fb|nonin]|reflexivity].
    + destruct (C117_quaternary_paperfolding k ltac:(lia)) as (w & E & D). cbv zeta in D. exists w. eexists. split; [exact E|]. split; [exact D|]. lenlia. destruct (Nat.Even_or_Odd k) as [(m & ->)|(m & ->)].
      * rewrite Nat.even_mul. cbn [Nat.even orb]. lenlia. replace (2 * m / 2) with m by (apply (Nat.div_unique _ 2 _ 0); lia). replace ((2 * m - 1) / 2) with (m - 1) by (apply (Nat.div_unique _ 2 _ 1); lia). lia.
      * rewrite Nat.even_add, Nat.even_mul. cbn [Nat.even orb eqb]. lenlia. replace ((2 * m + 1) / 2) with m by (apply (Nat.div_unique _ 2 _ 1); lia). replace ((2 * m + 1 - 1) / 2) with m by (apply (Nat.div_unique _ 2 _ 0); lia). lia.
  - destruct (Nat.eqb_spec k 0) as [->|K].
    + exists [0]. eexists. split; [vm_compute; reflexivity|]. split; [apply (small_found [[0]]); [reflexivity|fb|nonin]|reflexivity].
    + destruct (C117_power2 k ltac:(lia)) as (w & E & D). exists w. eexists. split; [exact E|]. split; [exact D|]. lenlia. lia.
  - destruct (C117_vtm k B) as (w & E & D). exists w. eexists. split; [exact E|]. split; [exact D|reflexivity].
Qed.
Print Assumptions C117_number_of_factors.
Lemma lyndon_size_writes v k n : lyndon_size v k = Some n -> writes v k.
Proof. unfold lyndon_size. destruct (Nat.leb_spec k (writes_up_to v)) as [B|B]; [left; exact B|discriminate]. Qed.
(** the result line for a whole file shows the length 0 *)
Definition lyndon_line (F : str) (time n : nat) (line : str) : Prop := exists dt dp df,
  result_line line [(ascii "file", F); (ascii "length", dp); (ascii "algo", ascii "duval"); (ascii "time_ms", dt); (ascii "factors", df)] /\
  is_decimal dt time /\ is_decimal dp 0 /\ is_decimal df n.
(** word -n s -k K -o F, then lyndonfactorization -i F, prints this number *)
Theorem C117_word_then_lyndonfactorization : forall time file_of us1 line1 s v k n F w0 us2 line2 input,
  good word_options us1 line1 -> In (s, v) the_words -> makes_word us1 s k F -> good lyndonfactorization_options us2 line2 -> uses_of us2 o_in = [[F]] -> unused us2 o_prefix ->
  word_like F -> lyndon_size v k = Some n ->
  exists p w t, word_program file_of line1 = Ran p /\ run p w0 = (w, Ok tt) /\ files w (file_of F) = Some t /\ described v k t /\ (sees file_of w input ->
    exists l, lyndonfactorization_report time input line2 = Ran (Ok l) /\ lyndon_line F time n l).
Proof.
  intros time file_of us1 line1 s v k n F w0 us2 line2 input G1 HV (A & B & C) G2 D E HF HZ.
  destruct (C117_number_of_factors v k n HZ) as (t & fs & ET & HL & _ & L).
  destruct (C115_word file_of us1 line1 s v k F w0 G1 HV A B C (lyndon_size_writes v k n HZ)) as (p & w & t' & E' & R & _ & W & ET' & DE).
  rewrite ET in ET'. injection ET' as <-.
  exists p, w, t. do 4 (split; [assumption|]). intros S.
  destruct (proj1 (C112_lyndonfactorization_prints time input line2) us2 G2) as (p' & i & Sp & Si & E2).
  rewrite (string_is _ _ _ _ Si D), (number_default _ _ _ _ Sp E), (S F _ W) in E2.
  assert (HN : t <> []).
  { intros ->. destruct HL as (CC & FF & _). destruct fs as [|f fs]; [cbn [length] in L; subst n|].
    - clear - HZ. unfold lyndon_size in HZ. destruct (k <=? writes_up_to v); [|discriminate HZ]. destruct v; try discriminate HZ; apply some_inj in HZ.
      + destruct (Nat.even k) eqn:EV; [lia|]. destruct (Nat.eqb_spec k 1); [lia|]. destruct k as [|[|k]]; [discriminate EV|lia|lia].
      + destruct (k mod 3 =? 0); [lia|]. destruct (Nat.ltb_spec k 3); [lia|]. lia.
      + destruct (Nat.ltb_spec k 2) as [|G]; [lia|]. pose proof (Nat.div_le_lower_bound (3 * k) 2 3 ltac:(lia) ltac:(lia)). lia.
      + destruct (Nat.even k) eqn:EV; [lia|]. destruct k as [|k]; [discriminate EV|]. pose proof (Nat.div_le_lower_bound (S k + 1) 2 1 ltac:(lia) ltac:(lia)). lia.
      + destruct (k <? 3); lia.
      + destruct (k =? 0); lia.
      + destruct (Nat.eqb_spec k 0); lia.
    - cbn [concat] in CC. apply app_eq_nil in CC. inversion FF as [|? ? (X & _) _]; subst. tauto. }
  destruct (C96_lyndonfactorization time (Some F) t 0 t fs) as (l & dt & dp & df & EL & H1 & H2 & H3 & H4); auto.
  { split; [reflexivity|discriminate]. }
  rewrite EL in E2. exists l. split; [exact E2|]. exists dt, dp, df. rewrite <- L. do 3 (split; [assumption|]). exact H4.
Qed.
Print Assumptions C117_word_then_lyndonfactorization.

(** the words and duval, executed *)
Example C117_case : (exists w, fibonacci_word 7 = Ok w /\ duval w = Ok [1; 6; 19; 27; 30; 33]) /\
  (exists w, fibonacci_word 6 = Ok w /\ duval w = Ok [1; 6; 19; 20]) /\
  (exists w, thuemorse_word 5 = Ok w /\ duval w = Ok [2; 4; 8; 16; 28; 31]) /\ (exists w, tribonacci_word 5 = Ok w /\ duval w = Ok [3; 5; 18; 23]) /\
  (exists w, period_doubling_word 4 = Ok w /\ duval w = Ok [1; 9; 13; 14; 15]) /\ (exists w, paperfolding_word 4 = Ok w /\ duval w = Ok [0; 1; 4; 9; 20; 31]) /\
  (exists w, quaternary_paperfolding_word 4 = Ok w /\ duval w = Ok [0; 4; 12; 15]) /\ (exists w, power2_sequence 4 = Ok w /\ duval w = Ok [0; 1; 3; 7; 8; 9; 10; 11; 12; 13; 14; 15]) /\
  (exists w, vtm_word 4 = Ok w /\ duval w = Ok [23]) /\ lyndon_size Fibonacci 7 = Some 6 /\ lyndon_size ThueMorse 5 = Some 6 /\ lyndon_size Kolakoski 5 = None.
Proof. repeat (split; [eexists; split; vm_compute; reflexivity|]). repeat split; vm_compute; reflexivity. Qed.
(** word -n thue-morse -k3 -o F; lyndonfactorization -i F *)
Example C117_session_case : forall file_of time w0 input,
  let us1 := [(o_name, [ascii "thue-morse"]); (o_k, [ascii "3"]); (o_out, [ascii "F"])] in let us2 := [(o_in, [ascii "F"])] in
  good word_options us1 (ws ["-n"; "thue-morse"; "-k3"; "-o"; "F"]%string) /\ makes_word us1 (ascii "thue-morse") 3 (ascii "F") /\
  good lyndonfactorization_options us2 (ws ["-i"; "F"]%string) /\ word_like (ascii "F") /\
  (exists p w, word_program file_of (ws ["-n"; "thue-morse"; "-k3"; "-o"; "F"]%string) = Ran p /\ run p w0 = (w, Ok tt) /\ (sees file_of w input ->
    exists l, lyndonfactorization_report time input (ws ["-i"; "F"]%string) = Ran (Ok l) /\ lyndon_line (ascii "F") time 3 l)).
Proof.
  intros file_of time w0 input us1 us2. destruct (C115_case file_of time w0 (fun _ => [])) as (G1 & M1 & _). fold us1 in G1, M1. split; [exact G1|]. split; [exact M1|].
  assert (G2 : good lyndonfactorization_options us2 (ws ["-i"; "F"]%string)).
  { split.
    - eexists. split; [|left; reflexivity].
      change (spelled lyndonfactorization_options ([(o_in, [ascii "F"])] ++ []) (ws ["-i"; "F"]%string ++ [])).
      constructor; [apply (pc_short lyndonfactorization_options [] [] o_in 105 [ascii "F"]); [constructor|find_in|reflexivity|reflexivity|]|constructor].
      split; [discriminate|]. split; [|reflexivity]. constructor; [intros (x & y & X); discriminate X|constructor].
    - split; [|split; [|split]].
      + constructor; [constructor; [exists (VStr (ascii "F")); constructor|constructor]|constructor].
      + apply Forall_forall. repeat (constructor; [right; apply Nat.leb_le; vm_compute; reflexivity|]). constructor.
      + repeat constructor; discriminate.
      + intros a Ha R. exfalso. revert a Ha R. apply (proj1 (Forall_forall (fun a => arg_required a = true -> False) lyndonfactorization_options)). repeat (constructor; [intros R; discriminate R|]). constructor. }
  assert (WL : word_like (ascii "F")) by (split; [discriminate|split; intros [X|[]]; discriminate X]).
  split; [exact G2|]. split; [exact WL|].
  destruct (C117_word_then_lyndonfactorization time file_of us1 _ (ascii "thue-morse") ThueMorse 3 3 (ascii "F") w0 us2 _ input G1 ltac:(find_in) M1 G2 ltac:(reflexivity) ltac:(reflexivity) WL ltac:(reflexivity))
    as (p & w & t & E & R & W & D & H).
  exists p, w. split; [exact E|]. split; [exact R|]. exact H.
Qed.
