(** LynFam.v : the Lyndon factorizations of the Fibonacci, period-doubling, ternary Thue-Morse, paperfolding and tribonacci words. *)
From Coq Require Import Permutation.
From Verif Require Import Base SpecStr LexFacts SpecWord ModelWord WordProof WordProof2 WordProof3 WordProof4 FibFacts LynMorph.

Local Notation iter := iter_morphism.
Ltac good_morphism := vm_compute; reflexivity.
Lemma iter_one g w : flat_map g w = iter g 1 w. Proof. reflexivity. Qed.

(** ** Fibonacci words *)
Definition vw (j : nat) : str := iter lfm j [97; 97; 98].
Definition fib_rest (m : nat) : list str := map vw (rev (seq 0 (m - 1))) ++ [[97; 97; 98]].
Lemma lfm_inc : increasing lfm [97; 98] = true. Proof. good_morphism. Qed.
Lemma lfm_closed : closed lfm [97; 98] = true. Proof. good_morphism. Qed.
Lemma lfm_marked : marked lfm [97; 98] [97; 97] = true. Proof. good_morphism. Qed.
Lemma vw_lyndon j : lyndon (vw j).
Proof.
  apply (lyn_iter lfm [97; 98] 97 [97]); [apply lfm_inc|apply lfm_marked|apply lfm_closed|exists [98]; reflexivity|].
  split; [apply lyndonb_ok; reflexivity|]. split; [apply overb_ok; reflexivity|]. exists 97, [97; 98], [98]. split; reflexivity.
Qed.
Lemma vw_up j : lex_le (vw j) (vw (S j)).
Proof. unfold vw. rewrite iter_S'. apply (iter_le lfm [97; 98]); [apply lfm_inc|apply lfm_closed|apply overb_ok; reflexivity|apply overb_ok; reflexivity|]. right. apply lex_ltb_ok. reflexivity. Qed.
Lemma vw_lw j : lex_le (vw j) (lw (S j)).
Proof. unfold vw, lw. rewrite iter_S'. apply (iter_le lfm [97; 98]); [apply lfm_inc|apply lfm_closed|apply overb_ok; reflexivity|apply overb_ok; reflexivity|]. right. apply lex_ltb_ok. reflexivity. Qed.
Lemma lw_down j : lex_le (lw (S j)) (lw j). Proof. right. apply lw_decr. Qed.
Lemma fib_rest_S m : 1 <= m -> fib_rest (S m) = vw (m - 1) :: fib_rest m.
Proof. intros H. unfold fib_rest. replace (S m - 1) with (S (m - 1)) by lia. rewrite seq_S, rev_app_distr. reflexivity. Qed.
Lemma fib_rest_concat m : 1 <= m -> concat (fib_rest (S m)) ++ [97; 98] = flat_map lfm (concat (fib_rest m)).
Proof.
  induction m as [|m IH]; intros H; [lia|]. destruct m as [|m]; [reflexivity|]. rewrite fib_rest_S by lia. rewrite (fib_rest_S (S m)) at 2 by lia. cbn [concat].
  rewrite <- app_assoc, IH by lia. rewrite flat_map_app. f_equal. replace (S (S m) - 1) with (S (S m - 1)) by lia. reflexivity.
Qed.
Lemma fib_even_concat m : F (2 * m) = lcat m ++ [97].
Proof.
  induction m as [|m IH]; [reflexivity|]. replace (2 * S m) with (S (S (2 * m))) by lia. rewrite <- f2_fib, IH, flat_map_app, lcat_S, lfm_f2, <- app_assoc. reflexivity.
Qed.
Lemma fib_odd_concat m : 1 <= m -> F (2 * m + 1) = lcat m ++ concat (fib_rest m).
Proof.
  induction m as [|m IH]; intros H; [lia|]. destruct m as [|m]; [reflexivity|]. replace (2 * S (S m) + 1) with (S (S (2 * S m + 1))) by lia. rewrite <- f2_fib, IH by lia.
  apply (app_inv_tail [97; 98]). rewrite <- app_assoc, fib_rest_concat by lia. rewrite <- lfm_f2, flat_map_app, app_assoc, <- lcat_S. reflexivity.
Qed.
Lemma lcat_factors m : lyndon_factorization (lcat m) (map lw (seq 0 m)).
Proof. apply (down_chain lw); [apply lw_lyndon|apply lw_down]. Qed.
Lemma lw_two n : exists x q, lw n = 97 :: x :: q.
Proof.
  induction n as [|n (x & q & E)]; [exists 98, []; reflexivity|]. rewrite lw_S, E. cbn [flat_map]. eexists _, _. reflexivity.
Qed.
Theorem fib_even_factors m : lyndon_factorization (F (2 * m)) (map lw (seq 0 m) ++ [[97]]).
Proof.
  rewrite fib_even_concat. apply factors_app; [apply lcat_factors|apply factors_one, lyndonb_ok; reflexivity|].
  intros f r g s E1 E2. injection E2 as <- _. destruct (seq_last _ _ _ _ E1) as (n & _ & ->). destruct (lw_two n) as (x & q & ->). right. apply lex_tail. constructor.
Qed.
Lemma fib_rest_factors m : lyndon_factorization (concat (fib_rest m)) (fib_rest m).
Proof.
  unfold fib_rest at 2. unfold fib_rest. rewrite concat_app. cbn [concat]. rewrite app_nil_r. apply factors_app; [apply (up_chain vw); [apply vw_lyndon|apply vw_up]|apply factors_one, lyndonb_ok; reflexivity|].
  intros f r g s E1 E2. injection E2 as <- _. apply rev_last in E1. subst f. left. reflexivity.
Qed.
Theorem fib_odd_factors m : 1 <= m -> lyndon_factorization (F (2 * m + 1)) (map lw (seq 0 m) ++ fib_rest m).
Proof.
  intros H. rewrite fib_odd_concat by exact H. apply factors_app; [apply lcat_factors|apply fib_rest_factors|].
  intros f r g s E1 E2. destruct (seq_last _ _ _ _ E1) as (n & En & ->). unfold fib_rest in E2. destruct (m - 1) as [|q] eqn:Em.
  - injection E2 as <- _. assert (n = 0) by lia. subst n. right. apply lex_ltb_ok. reflexivity.
  - rewrite seq_S, rev_app_distr in E2. cbn [rev app map Nat.add] in E2. injection E2 as <- _. replace n with (S q) by lia. apply vw_lw.
Qed.
Lemma lfm_f2_perm w : Permutation (flat_map lfm w) (flat_map f2 w).
Proof.
  induction w as [|c w IH]; [constructor|]. cbn [flat_map]. apply Permutation_app; [|exact IH]. unfold lfm, f2. destruct (c =? 97); [|reflexivity].
  apply perm_skip. apply perm_swap.
Qed.
Lemma flat_perm (g : nat -> str) u v : Permutation u v -> Permutation (flat_map g u) (flat_map g v).
Proof.
  induction 1; cbn [flat_map]; [constructor|now apply Permutation_app_head| |eapply Permutation_trans; eassumption].
  rewrite !app_assoc. apply Permutation_app_tail, Permutation_app_comm.
Qed.
Lemma vw_length j : length (vw j) = length (F (2 * j + 2)).
Proof.
  apply Permutation_length. induction j as [|j IH]; [apply perm_skip, perm_swap|]. replace (2 * S j + 2) with (S (S (2 * j + 2))) by lia. rewrite <- f2_fib.
  change (vw (S j)) with (flat_map lfm (vw j)). eapply Permutation_trans; [apply lfm_f2_perm|]. now apply flat_perm.
Qed.
Lemma lw_len j : length (lw j) = length (F (2 * j + 1)).
Proof.
  apply Permutation_length. induction j as [|j IH]; [reflexivity|]. replace (2 * S j + 1) with (S (S (2 * j + 1))) by lia. rewrite <- f2_fib.
  rewrite lw_S. eapply Permutation_trans; [apply lfm_f2_perm|]. now apply flat_perm.
Qed.

(** ** the ternary Thue-Morse words are Lyndon words *)
Lemma vtm_lyndon g k : g 97 = [97; 98; 99] -> g 98 = [97; 99] -> g 99 = [98] -> lyndon (iter g k [97]).
Proof.
  intros E1 E2 E3. apply (lyn_iter g [97; 98; 99] 97 [] [97] k).
  - unfold increasing. cbn [forallb]. rewrite E1, E2, E3. reflexivity.
  - unfold marked. cbn [forallb]. rewrite E1, E2, E3. reflexivity.
  - unfold closed. cbn [forallb]. rewrite E1, E2, E3. reflexivity.
  - exists [98; 99]. exact E1.
  - split; [apply lyndonb_ok; reflexivity|]. split; [apply overb_ok; reflexivity|]. exists 97, [], [98; 99]. split; [reflexivity|exact E1].
Qed.

(** ** period-doubling words: with psi a = aaab, psi b = abab, the word number k+2 followed by ab is ab psi (the word number k) *)
Definition pds (c : nat) : str := if c =? 97 then [97; 97; 97; 98] else [97; 98; 97; 98].
Local Notation pdm := period_doubling_morphism.
Definition pdP (j : nat) : str := iter pds j [97; 98].
Definition pdV (j : nat) : str := iter pds j [97].
Fixpoint pdx (m : nat) : str := match m with O => [97] | S m => flat_map pds (pdx m) ++ [97] end.
Definition pdy (m : nat) : str := pdx m ++ [98].
Lemma pds_inc : increasing pds [97; 98] = true. Proof. good_morphism. Qed.
Lemma pds_closed : closed pds [97; 98] = true. Proof. good_morphism. Qed.
Lemma pds_marked : marked pds [97; 98] [97; 97; 97] = true. Proof. good_morphism. Qed.
Lemma pds_lyn w : lyn pds [97; 98] [97; 97; 97] w -> forall j, lyndon (iter pds j w).
Proof. intros H j. apply (lyn_iter pds [97; 98] 97 [97; 97]); [apply pds_inc|apply pds_marked|apply pds_closed|exists [98]; reflexivity|exact H]. Qed.
Lemma pdP_lyndon j : lyndon (pdP j).
Proof.
  apply pds_lyn. split; [apply lyndonb_ok; reflexivity|]. split; [apply overb_ok; reflexivity|]. exists 97, [98], [98]. split; reflexivity.
Qed.
Lemma pdV_lyndon j : lyndon (pdV j).
Proof.
  apply pds_lyn. split; [apply lyndonb_ok; reflexivity|]. split; [apply overb_ok; reflexivity|]. exists 97, [], [98]. split; reflexivity.
Qed.
Ltac iterle := apply (iter_le _ [97; 98]); [good_morphism|good_morphism|apply overb_ok; reflexivity|apply overb_ok; reflexivity|right; apply lex_ltb_ok; reflexivity].
Lemma pdP_down j : lex_le (pdP (S j)) (pdP j). Proof. unfold pdP. rewrite iter_S'. iterle. Qed.
Lemma pdV_up j : lex_le (pdV j) (pdV (S j)). Proof. unfold pdV. rewrite iter_S'. iterle. Qed.
Lemma pdV_P j : lex_le (pdV j) (pdP j). Proof. unfold pdV, pdP. iterle. Qed.
Lemma pds_conj w : Forall (fun c => In c [97; 98]) w -> [97; 98] ++ flat_map pds w = flat_map pdm (flat_map pdm w) ++ [97; 98].
Proof.
  intros H. induction w as [|c w IH]; [reflexivity|]. inversion H as [|? ? Hc Hw]; subst. cbn [flat_map]. rewrite flat_map_app, <- app_assoc, <- IH by exact Hw.
  destruct Hc as [<-|[<-|[]]]; reflexivity.
Qed.
Local Notation PD k := (iter pdm k [97]).
Lemma pd_over k : Forall (fun c => In c [97; 98]) (PD k).
Proof. apply iter_over; [good_morphism|apply overb_ok; reflexivity]. Qed.
Lemma pd_SS k : PD (S (S k)) ++ [97; 98] = [97; 98] ++ flat_map pds (PD k).
Proof. rewrite pds_conj by apply pd_over. reflexivity. Qed.
Lemma pdP_cat m : concat (map pdP (seq 0 (S m))) = [97; 98] ++ flat_map pds (concat (map pdP (seq 0 m))).
Proof.
  cbn [seq map concat]. f_equal. rewrite <- seq_shift, map_map. induction (seq 0 m) as [|x l IH]; [reflexivity|]. cbn [map concat]. rewrite flat_map_app, IH. reflexivity.
Qed.
Definition pd_rest (m : nat) : list str := map pdV (rev (seq 0 m)) ++ [[97]].
Lemma pd_rest_S m : pd_rest (S m) = pdV m :: pd_rest m.
Proof. unfold pd_rest. rewrite seq_S, rev_app_distr. reflexivity. Qed.
Lemma pd_rest_concat m : concat (pd_rest (S m)) ++ [97; 98] = flat_map pds (concat (pd_rest m)).
Proof.
  induction m as [|m IH]; [reflexivity|]. rewrite pd_rest_S, (pd_rest_S m) at 1. cbn [concat]. rewrite <- !app_assoc, (app_assoc (pdV m)).
  change (pdV m ++ concat (pd_rest m)) with (concat (pdV m :: pd_rest m)). rewrite <- pd_rest_S, IH. rewrite pd_rest_S. cbn [concat]. rewrite flat_map_app. reflexivity.
Qed.
Lemma pd_even_concat m : PD (2 * m) = concat (map pdP (seq 0 m)) ++ concat (pd_rest m).
Proof.
  induction m as [|m IH]; [reflexivity|]. replace (2 * S m) with (S (S (2 * m))) by lia. apply (app_inv_tail [97; 98]). rewrite pd_SS, IH, pdP_cat, <- !app_assoc, pd_rest_concat, flat_map_app. reflexivity.
Qed.
Lemma pd_odd_concat m : PD (2 * m + 1) = concat (map pdP (seq 0 m)) ++ pdy m.
Proof.
  induction m as [|m IH]; [reflexivity|]. replace (2 * S m + 1) with (S (S (2 * m + 1))) by lia. apply (app_inv_tail [97; 98]). rewrite pd_SS, IH, pdP_cat, <- !app_assoc.
  unfold pdy. cbn [pdx]. rewrite !flat_map_app, <- !app_assoc. reflexivity.
Qed.
Theorem pd_even_factors m : lyndon_factorization (PD (2 * m)) (map pdP (seq 0 m) ++ map pdV (rev (seq 0 m)) ++ [[97]]).
Proof.
  rewrite pd_even_concat. apply factors_app; [apply (down_chain pdP); [apply pdP_lyndon|apply pdP_down]| |].
  - unfold pd_rest. rewrite concat_app. cbn [concat]. rewrite app_nil_r. apply factors_app; [apply (up_chain pdV); [apply pdV_lyndon|apply pdV_up]|apply factors_one, lyndonb_ok; reflexivity|].
    intros f r g s E1 E2. injection E2 as <- _. apply rev_last in E1. subst f. left. reflexivity.
  - intros f r g s E1 E2. destruct (seq_last _ _ _ _ E1) as (n & -> & ->). rewrite seq_S, rev_app_distr in E2. cbn [rev app map Nat.add] in E2. injection E2 as <- _. apply pdV_P.
Qed.
Lemma pdx_ok m : Forall (fun c => In c [97; 98]) (pdx m) /\ (exists r, pdx m = 97 :: r) /\ lyndon (pdy m).
Proof.
  induction m as [|m (A & (r & E) & L)].
  - split; [apply overb_ok; reflexivity|]. split; [exists []; reflexivity|apply lyndonb_ok; reflexivity].
  - cbn [pdx]. split; [apply Forall_app; split; [apply closed_ok; [good_morphism|exact A]|apply overb_ok; reflexivity]|]. split; [rewrite E; eexists; reflexivity|].
    unfold pdy. cbn [pdx]. rewrite <- app_assoc. cbn [app]. rewrite E. apply (mor_lyndon_tail pds [97; 98] [97; 97; 97] pds_inc pds_marked 97 r 98 [97; 98]).
    + rewrite <- E. exact A.
    + exists [98]. reflexivity.
    + rewrite <- E. exact L.
    + intros d [<-|[<-|[]]] Hd; [|lia]. apply belowb_ok. reflexivity.
    + intros x z Ee Hx Hz. destruct x as [|x0 [|x1 [|x2 x]]]; [congruence| | |]; injection Ee; intros; subst; try congruence; try discriminate. apply belowb_ok. reflexivity.
Qed.
Lemma pdy_P m : lex_le (pdy (S m)) (pdP m).
Proof.
  induction m as [|m IH]; [right; apply lex_ltb_ok; reflexivity|].
  apply (lex_le_trans _ (flat_map pds (pdy (S m)))).
  - unfold pdy. cbn [pdx]. rewrite !flat_map_app, <- !app_assoc. right. change ([97] ++ [98]) with [97; 98]. change (flat_map pds [98]) with ([97; 98] ++ [97; 98]).
    rewrite !app_assoc. apply lex_lt_prefix. discriminate.
  - apply (mor_le pds [97; 98] pds_inc); [unfold pdy; apply Forall_app; split; [apply pdx_ok|apply overb_ok; reflexivity]| |exact IH]. apply iter_over; [good_morphism|apply overb_ok; reflexivity].
Qed.
Theorem pd_odd_factors m : lyndon_factorization (PD (2 * m + 1)) (map pdP (seq 0 m) ++ [pdy m]).
Proof.
  rewrite pd_odd_concat. apply factors_app; [apply (down_chain pdP); [apply pdP_lyndon|apply pdP_down]|apply factors_one, pdx_ok|].
  intros f r g s E1 E2. injection E2 as <- _. destruct (seq_last _ _ _ _ E1) as (n & -> & ->). apply pdy_P.
Qed.
