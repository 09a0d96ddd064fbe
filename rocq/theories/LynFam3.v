(** LynFam3.v : the Lyndon factorizations of the tribonacci, Thue-Morse and power2 words. *)
From Coq Require Import Permutation.
From Verif Require Import Base SpecStr LexFacts SpecWord ModelWord WordProof WordProof2 WordProof3 WordProof4 LynMorph LynFam LynFam2.

Local Notation iter := iter_morphism.
(** ** tribonacci: with psi a = aabacab, psi b = abacab, psi c = acab, the word number k+3 followed by abacab is abacab psi (the word number k) *)
Definition ts (c : nat) : str := if c =? 97 then [97; 97; 98; 97; 99; 97; 98] else if c =? 98 then [97; 98; 97; 99; 97; 98] else [97; 99; 97; 98].
Local Notation tal := [97; 98; 99].
Local Notation tmor := tribonacci_morphism.
Local Notation T k := (trib_word k).
Definition aba : str := [97; 98; 97; 99; 97; 98].
Lemma ts_lyn w : lyn ts tal [97; 97] w -> forall j, lyndon (iter ts j w).
Proof. intros H j. apply (lyn_iter ts tal 97 [97]); [good_morphism|good_morphism|good_morphism|eexists; reflexivity|exact H]. Qed.
Lemma t_over k : Forall (fun c => In c tal) (T k).
Proof. rewrite <- trib_word_iter. apply iter_over; [good_morphism|apply overb_ok; reflexivity]. Qed.
Lemma ts_conj w : Forall (fun c => In c tal) w -> aba ++ flat_map ts w = flat_map tmor (flat_map tmor (flat_map tmor w)) ++ aba.
Proof.
  intros H. induction w as [|c w IH]; [reflexivity|]. inversion H as [|? ? Hc Hw]; subst. cbn [flat_map]. rewrite !flat_map_app, <- app_assoc, <- IH by exact Hw.
  destruct Hc as [<-|[<-|[<-|[]]]]; reflexivity.
Qed.
Lemma t_SSS k : T (S (S (S k))) ++ aba = aba ++ flat_map ts (T k).
Proof. rewrite ts_conj by apply t_over. rewrite !trib_word_morph. reflexivity. Qed.
Definition tW (j : nat) : str := iter ts j [97; 98; 97; 99].
Definition tx (j : nat) : str := iter ts j [97; 98].
Definition tpairs (m : nat) : list str := flat_map (fun j => [tW j; tx j]) (seq 0 m).
Definition tS (j : nat) : str := iter ts (S j) [97; 97; 98; 97; 99].
Definition tq (j : nat) : str := iter ts (S j) [97; 97; 98].
Lemma tW_lyndon j : lyndon (tW j). Proof. apply ts_lyn. seed. Qed.
Lemma tx_lyndon j : lyndon (tx j). Proof. apply ts_lyn. seed. Qed.
Lemma tS_lyndon j : lyndon (tS j). Proof. apply (ts_lyn [97; 97; 98; 97; 99]). seed. Qed.
Lemma tq_lyndon j : lyndon (tq j). Proof. apply (ts_lyn [97; 97; 98]). seed. Qed.
Lemma tx_W j : lex_le (tx j) (tW j). Proof. unfold tx, tW. ilt [97; 98; 99]. Qed.
Lemma tW_x j : lex_le (tW (S j)) (tx j). Proof. unfold tx, tW. rewrite iter_S'. ilt [97; 98; 99]. Qed.
Lemma tx_down j : lex_le (tx (S j)) (tx j). Proof. unfold tx, tW. rewrite iter_S'. ilt [97; 98; 99]. Qed.
Lemma tS_up j : lex_le (tS j) (tS (S j)). Proof. unfold tS. rewrite (iter_S' _ (S j)). ilt [97; 98; 99]. Qed.
Lemma tq_up j : lex_le (tq j) (tq (S j)). Proof. unfold tq. rewrite (iter_S' _ (S j)). ilt [97; 98; 99]. Qed.
Lemma tS_x j : lex_le (tS j) (tx (S j)). Proof. unfold tS, tx. ilt [97; 98; 99]. Qed.
Lemma tq_x j : lex_le (tq j) (tx (S (S j))). Proof. unfold tq, tx. rewrite (iter_S' _ (S j) [97; 98]). ilt [97; 98; 99]. Qed.
Lemma tpairs_S m : tpairs (S m) = tpairs m ++ [tW m; tx m].
Proof. unfold tpairs. rewrite seq_S, flat_map_app. reflexivity. Qed.
Lemma tpairs_concat m : concat (tpairs (S m)) = aba ++ flat_map ts (concat (tpairs m)).
Proof.
  induction m as [|m IH]; [reflexivity|]. rewrite (tpairs_S m), (tpairs_S (S m)), !concat_app, IH, flat_map_app, <- app_assoc. do 2 f_equal. cbn [concat]. rewrite !app_nil_r, flat_map_app. reflexivity.
Qed.
Lemma tpairs_factors m : lyndon_factorization (concat (tpairs m)) (tpairs m).
Proof.
  induction m as [|m IH]; [split; [reflexivity|split; [constructor|exact I]]|]. rewrite tpairs_S, concat_app. apply factors_app; [exact IH| |].
  - cbn [concat]. rewrite app_nil_r. apply (factors_app [tW m] [tx m]); [apply factors_one, tW_lyndon|apply factors_one, tx_lyndon|]. intros f r g s E1 E2. injection E2 as <- _. apply (last_inj [] r _ f) in E1. subst f. apply tx_W.
  - intros f r g s E1 E2. injection E2 as <- _. destruct m as [|m]; [destruct r; discriminate E1|]. rewrite tpairs_S in E1. change [tW m; tx m] with ([tW m] ++ [tx m]) in E1. rewrite app_assoc in E1. apply last_inj in E1. subst f. apply tW_x.
Qed.
Lemma tpairs_last m f r : tpairs m = r ++ [f] -> exists n, m = S n /\ f = tx n.
Proof.
  destruct m as [|m]; [intros E; destruct r; discriminate E|]. intros E. exists m. split; [reflexivity|]. rewrite tpairs_S in E. change [tW m; tx m] with ([tW m] ++ [tx m]) in E. rewrite app_assoc in E. apply last_inj in E. now subst.
Qed.
Lemma tpairs_len m : length (tpairs m) = 2 * m.
Proof. induction m as [|m IH]; [reflexivity|]. rewrite tpairs_S, app_length, IH. cbn [length]. lia. Qed.
(** word number 3m *)
Lemma t0_concat m : T (3 * m) = concat (tpairs m) ++ [97].
Proof.
  induction m as [|m IH]; [reflexivity|]. replace (3 * S m) with (S (S (S (3 * m)))) by lia. apply (app_inv_tail aba). rewrite t_SSS, IH, tpairs_concat, flat_map_app, <- !app_assoc. reflexivity.
Qed.
Lemma tx_head j : exists y r, tx j = 97 :: y :: r.
Proof. induction j as [|j (y & r & E)]; [do 2 eexists; reflexivity|]. unfold tx in *. rewrite iter_S, E. do 2 eexists. reflexivity. Qed.
Theorem t0_factors m : lyndon_factorization (T (3 * m)) (tpairs m ++ [[97]]).
Proof.
  rewrite t0_concat. apply factors_app; [apply tpairs_factors|apply factors_one, lyndonb_ok; reflexivity|]. intros f r g s E1 E2. injection E2 as <- _.
  destruct (tpairs_last _ _ _ E1) as (n & _ & ->). destruct (tx_head n) as (y & q & ->). right. apply lex_tail. constructor.
Qed.
(** word number 3m+1 *)
Definition t1_rest (m : nat) : list str := map tS (rev (seq 0 m)) ++ [[97; 97; 98; 97; 99; 97; 98]].
Lemma t1_rest_S m : t1_rest (S m) = tS m :: t1_rest m.
Proof. unfold t1_rest. rewrite seq_S, rev_app_distr. reflexivity. Qed.
Lemma t1_rest_concat m : concat (t1_rest (S m)) ++ aba = flat_map ts (concat (t1_rest m)).
Proof.
  induction m as [|m IH]; [reflexivity|]. rewrite t1_rest_S, (t1_rest_S m). cbn [concat]. rewrite <- app_assoc. rewrite t1_rest_S in IH. cbn [concat] in IH. rewrite IH, flat_map_app. reflexivity.
Qed.
Lemma t1_concat m : T (3 * m + 4) = concat (tpairs (S m)) ++ concat (t1_rest m).
Proof.
  induction m as [|m IH]; [reflexivity|]. replace (3 * S m + 4) with (S (S (S (3 * m + 4)))) by lia. apply (app_inv_tail aba). rewrite t_SSS, IH, (tpairs_concat (S m)), <- !app_assoc, t1_rest_concat, flat_map_app. reflexivity.
Qed.
Theorem t1_factors m : lyndon_factorization (T (3 * m + 4)) (tpairs (S m) ++ map tS (rev (seq 0 m)) ++ [[97; 97; 98; 97; 99; 97; 98]]).
Proof.
  rewrite t1_concat. apply factors_app; [apply tpairs_factors| |].
  - unfold t1_rest. rewrite concat_app. cbn [concat]. rewrite app_nil_r. apply factors_app; [apply (up_chain tS); [apply tS_lyndon|apply tS_up]|apply factors_one, lyndonb_ok; reflexivity|].
    intros f r g s E1 E2. injection E2 as <- _. apply rev_last in E1. subst f. right. apply lex_ltb_ok. reflexivity.
  - intros f r g s E1 E2. destruct (tpairs_last _ _ _ E1) as (n & En & ->). injection En as <-. destruct m as [|m].
    + injection E2 as <- _. right. apply lex_ltb_ok. reflexivity.
    + rewrite seq_S, rev_app_distr in E2. cbn [rev app map Nat.add] in E2. injection E2 as <- _. apply tS_x.
Qed.
(** word number 3m+2 *)
Definition t2_rest (m : nat) : list str := map tq (rev (seq 0 m)) ++ [[97; 97; 98; 97; 99]].
Lemma t2_rest_S m : t2_rest (S m) = tq m :: t2_rest m.
Proof. unfold t2_rest. rewrite seq_S, rev_app_distr. reflexivity. Qed.
Lemma t2_rest_concat m : concat (t2_rest (S m)) ++ aba = flat_map ts (concat (t2_rest m)).
Proof.
  induction m as [|m IH]; [reflexivity|]. rewrite t2_rest_S, (t2_rest_S m). cbn [concat]. rewrite <- app_assoc. rewrite t2_rest_S in IH. cbn [concat] in IH. rewrite IH, flat_map_app. reflexivity.
Qed.
Lemma t2_concat m : T (3 * m + 5) = concat (tpairs (S m)) ++ tx (S m) ++ concat (t2_rest m).
Proof.
  induction m as [|m IH]; [reflexivity|]. replace (3 * S m + 5) with (S (S (S (3 * m + 5)))) by lia. apply (app_inv_tail aba). rewrite t_SSS, IH, (tpairs_concat (S m)), <- !app_assoc, t2_rest_concat, !flat_map_app. reflexivity.
Qed.
Theorem t2_factors m : lyndon_factorization (T (3 * m + 5)) (tpairs (S m) ++ tx (S m) :: map tq (rev (seq 0 m)) ++ [[97; 97; 98; 97; 99]]).
Proof.
  rewrite t2_concat. apply factors_app; [apply tpairs_factors| |].
  - apply (factors_app [tx (S m)]); [apply factors_one, tx_lyndon| |].
    + unfold t2_rest. rewrite concat_app. cbn [concat]. rewrite app_nil_r. apply factors_app; [apply (up_chain tq); [apply tq_lyndon|apply tq_up]|apply factors_one, lyndonb_ok; reflexivity|].
      intros f r g s E1 E2. injection E2 as <- _. apply rev_last in E1. subst f. right. apply lex_ltb_ok. reflexivity.
    + intros f r g s E1 E2. apply (last_inj [] r _ f) in E1. subst f. destruct m as [|m].
      * injection E2 as <- _. right. apply lex_ltb_ok. reflexivity.
      * rewrite seq_S, rev_app_distr in E2. cbn [rev app map Nat.add] in E2. injection E2 as <- _. apply tq_x.
  - intros f r g s E1 E2. destruct (tpairs_last _ _ _ E1) as (n & En & ->). injection En as <-. injection E2 as <- _. apply tx_down.
Qed.
(** lengths: psi has the letters of the third power of the morphism *)
Lemma ts_perm w : Forall (fun c => In c tal) w -> Permutation (flat_map ts w) (flat_map tmor (flat_map tmor (flat_map tmor w))).
Proof.
  intros H. apply (Permutation_app_inv_l aba). rewrite ts_conj by exact H. apply Permutation_app_comm.
Qed.
Lemma ts_iter_perm w k j : Permutation w (T k) -> Forall (fun c => In c tal) w -> Permutation (iter ts j w) (T (3 * j + k)).
Proof.
  intros H Ho. induction j as [|j IH]; [exact H|]. rewrite iter_S. replace (3 * S j + k) with (S (S (S (3 * j + k)))) by lia. rewrite <- !trib_word_morph.
  eapply Permutation_trans; [apply ts_perm; apply iter_over; [good_morphism|exact Ho]|]. now repeat apply flat_perm.
Qed.
Lemma iter_app_ts j u v : iter ts j (u ++ v) = iter ts j u ++ iter ts j v.
Proof. induction j as [|j IH]; [reflexivity|]. rewrite !iter_S, IH, flat_map_app. reflexivity. Qed.
Lemma tW_len j : length (tW j) = length (T (3 * j + 2)).
Proof. apply Permutation_length, ts_iter_perm; [reflexivity|apply overb_ok; reflexivity]. Qed.
Lemma tx_len j : length (tx j) = length (T (3 * j + 1)).
Proof. apply Permutation_length, ts_iter_perm; [reflexivity|apply overb_ok; reflexivity]. Qed.
Lemma ta_len j : length (iter ts j [97]) = length (T (3 * j)).
Proof. replace (3 * j) with (3 * j + 0) by lia. apply Permutation_length, ts_iter_perm; [reflexivity|apply overb_ok; reflexivity]. Qed.
Lemma tS_len j : length (tS j) = length (T (3 * j + 3)) + length (T (3 * j + 5)).
Proof.
  unfold tS. change [97; 97; 98; 97; 99] with ([97] ++ [97; 98; 97; 99]). rewrite iter_app_ts, app_length, ta_len. change (iter ts (S j) [97; 98; 97; 99]) with (tW (S j)). rewrite tW_len.
  replace (3 * S j) with (3 * j + 3) by lia. replace (3 * j + 3 + 2) with (3 * j + 5) by lia. reflexivity.
Qed.
Lemma tq_len j : length (tq j) = length (T (3 * j + 3)) + length (T (3 * j + 4)).
Proof.
  unfold tq. change [97; 97; 98] with ([97] ++ [97; 98]). rewrite iter_app_ts, app_length, ta_len. change (iter ts (S j) [97; 98]) with (tx (S j)). rewrite tx_len.
  replace (3 * S j) with (3 * j + 3) by lia. replace (3 * j + 3 + 1) with (3 * j + 4) by lia. reflexivity.
Qed.
