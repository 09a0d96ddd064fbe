(** LynFam2.v : the Lyndon factorizations of the quaternary and binary paperfolding words and of the tribonacci words. *)
From Coq Require Import Permutation.
From Verif Require Import Base SpecStr LexFacts SpecWord ModelWord WordProof WordProof2 WordProof3 WordProof4 LynMorph LynFam.

Local Notation iter := iter_morphism.
Ltac seed := split; [apply lyndonb_ok; reflexivity|split; [apply overb_ok; reflexivity|do 3 eexists; split; reflexivity]].
Ltac ilt al := apply (iter_le _ al); [good_morphism|good_morphism|apply overb_ok; reflexivity|apply overb_ok; reflexivity|right; apply lex_ltb_ok; reflexivity].
Lemma map_flat_concat (g : nat -> str) (l : list str) : flat_map g (concat l) = concat (map (flat_map g) l).
Proof. induction l as [|x l IH]; [reflexivity|]. cbn [map concat]. rewrite flat_map_app, IH. reflexivity. Qed.
Lemma concat_seq_S (g : nat -> str) (w : str) m :
  concat (map (fun j => iter g j w) (seq 0 (S m))) = w ++ flat_map g (concat (map (fun j => iter g j w) (seq 0 m))).
Proof. cbn [seq map concat]. f_equal. rewrite <- seq_shift, map_map, map_flat_concat, map_map. reflexivity. Qed.

(** ** quaternary paperfolding: with psi d = bcbd, psi b = acbd, psi c = bcad, psi a = acad, the word number k+2 followed by d is d psi (the word number k) *)
Definition qs (c : nat) : str :=
  if c =? 100 then [98; 99; 98; 100] else if c =? 98 then [97; 99; 98; 100] else if c =? 99 then [98; 99; 97; 100] else [97; 99; 97; 100].
Local Notation qal := [97; 98; 99; 100].
Definition qX (j : nat) : str := iter qs j [100].
Definition qZ (j : nat) : str := iter qs j [98; 99].
Fixpoint qx (m : nat) : str := match m with O => [] | S m => flat_map qs (qx m) ++ [97; 99] end.
Definition qy (m : nat) : str := qx m ++ [98].
Lemma qs_inc : increasing qs qal = true. Proof. good_morphism. Qed.
Lemma qs_closed : closed qs qal = true. Proof. good_morphism. Qed.
Lemma qs_marked : marked qs qal [97; 99] = true. Proof. good_morphism. Qed.
Lemma qs_lyn w : lyn qs qal [97; 99] w -> forall j, lyndon (iter qs j w).
Proof. intros H j. apply (lyn_iter qs qal 97 [99]); [apply qs_inc|apply qs_marked|apply qs_closed|exists [97; 100]; reflexivity|exact H]. Qed.
Lemma qX_lyndon j : lyndon (qX j).
Proof. destruct j as [|j]; [apply lyndonb_ok; reflexivity|]. unfold qX. rewrite iter_S'. apply (qs_lyn [98; 99; 98; 100]). seed. Qed.
Lemma qZ_lyndon j : lyndon (qZ j).
Proof. apply qs_lyn. seed. Qed.
Lemma qX_down j : lex_le (qX (S j)) (qX j). Proof. unfold qX. rewrite iter_S'. ilt [97; 98; 99; 100]. Qed.
Lemma qZ_X j : lex_le (qZ j) (qX j). Proof. unfold qX, qZ. ilt [97; 98; 99; 100]. Qed.
Lemma qX_over j : Forall (fun c => In c qal) (qX j). Proof. apply iter_over; [good_morphism|apply overb_ok; reflexivity]. Qed.
Lemma qZ_over j : Forall (fun c => In c qal) (qZ j). Proof. apply iter_over; [good_morphism|apply overb_ok; reflexivity]. Qed.
Lemma qx_over m : Forall (fun c => In c qal) (qx m).
Proof. induction m as [|m IH]; [constructor|]. cbn [qx]. apply Forall_app. split; [apply closed_ok; [good_morphism|exact IH]|apply overb_ok; reflexivity]. Qed.
Lemma qx_head m : exists r, qx (S m) = 97 :: r.
Proof. induction m as [|m (r & E)]; [eexists; reflexivity|]. cbn [qx] in *. rewrite E. eexists. reflexivity. Qed.
Lemma qy_lyndon m : lyndon (qy m).
Proof.
  destruct m as [|m]; [apply lyndonb_ok; reflexivity|]. induction m as [|m L]; [apply lyndonb_ok; reflexivity|].
  destruct (qx_head m) as (r & E). pose proof (qx_over (S m)) as A.
  unfold qy. change (qx (S (S m))) with (flat_map qs (qx (S m)) ++ [97; 99]). rewrite <- app_assoc. cbn [app]. rewrite E.
  apply (mor_lyndon_tail qs qal [97; 99] qs_inc qs_marked 97 r 98 [97; 99; 98]).
  - rewrite <- E. exact A.
  - exists [97; 100]. reflexivity.
  - rewrite <- E. exact L.
  - intros d [<-|[<-|[<-|[<-|[]]]]] Hd; try lia. apply belowb_ok. reflexivity.
  - intros x z Ee Hx Hz. destruct x as [|x0 [|x1 [|x2 [|x3 x]]]]; [congruence| | | |]; injection Ee; intros; subst; try congruence; try discriminate; apply belowb_ok; reflexivity.
Qed.
Lemma qy_over m : Forall (fun c => In c qal) (qy m).
Proof. apply Forall_app. split; [apply qx_over|apply overb_ok; reflexivity]. Qed.
Lemma qy_S m : lex_le (qy (S m)) (flat_map qs (qy m)).
Proof.
  unfold qy. cbn [qx]. rewrite flat_map_app, <- app_assoc. right. apply lex_lt_app_same, lex_ltb_ok. reflexivity.
Qed.
Lemma qy_X m : lex_le (qy m) (qX m).
Proof.
  induction m as [|m IH]; [right; apply lex_ltb_ok; reflexivity|]. eapply lex_le_trans; [apply qy_S|]. apply (mor_le qs qal qs_inc); [apply qy_over|apply qX_over|exact IH].
Qed.
Lemma qy_Z m : lex_le (qy m) (qZ m).
Proof.
  induction m as [|m IH]; [right; apply lex_ltb_ok; reflexivity|]. eapply lex_le_trans; [apply qy_S|]. apply (mor_le qs qal qs_inc); [apply qy_over|apply qZ_over|exact IH].
Qed.
Local Notation Q k := (iter pfh k [100]).
Lemma q_over k : Forall (fun c => In c qal) (Q k).
Proof. apply iter_over; [good_morphism|apply overb_ok; reflexivity]. Qed.
Lemma qs_conj w : Forall (fun c => In c qal) w -> [100] ++ flat_map qs w = flat_map pfh (flat_map pfh w) ++ [100].
Proof.
  intros H. induction w as [|c w IH]; [reflexivity|]. inversion H as [|? ? Hc Hw]; subst. cbn [flat_map]. rewrite flat_map_app, <- app_assoc, <- IH by exact Hw.
  destruct Hc as [<-|[<-|[<-|[<-|[]]]]]; reflexivity.
Qed.
Lemma q_SS k : Q (S (S k)) ++ [100] = [100] ++ flat_map qs (Q k).
Proof. rewrite qs_conj by apply q_over. reflexivity. Qed.
Lemma q_odd_concat m : Q (2 * m + 1) = concat (map qX (seq 0 (S m))) ++ qy m.
Proof.
  induction m as [|m IH]; [reflexivity|]. replace (2 * S m + 1) with (S (S (2 * m + 1))) by lia. apply (app_inv_tail [100]). rewrite q_SS, IH.
  change (map qX (seq 0 (S (S m)))) with (map (fun j => iter qs j [100]) (seq 0 (S (S m)))). rewrite concat_seq_S.
  unfold qy. cbn [qx]. rewrite !flat_map_app, <- !app_assoc. reflexivity.
Qed.
Lemma q_even_concat m : Q (2 * m + 2) = concat (map qX (seq 0 (S m))) ++ qZ m ++ qy m.
Proof.
  induction m as [|m IH]; [reflexivity|]. replace (2 * S m + 2) with (S (S (2 * m + 2))) by lia. apply (app_inv_tail [100]). rewrite q_SS, IH.
  change (map qX (seq 0 (S (S m)))) with (map (fun j => iter qs j [100]) (seq 0 (S (S m)))). rewrite concat_seq_S.
  unfold qy. cbn [qx]. rewrite !flat_map_app, <- !app_assoc. reflexivity.
Qed.
Theorem q_odd_factors m : lyndon_factorization (Q (2 * m + 1)) (map qX (seq 0 (S m)) ++ [qy m]).
Proof.
  rewrite q_odd_concat. apply factors_app; [apply (down_chain qX); [apply qX_lyndon|apply qX_down]|apply factors_one, qy_lyndon|].
  intros f r g s E1 E2. injection E2 as <- _. destruct (seq_last _ _ _ _ E1) as (n & En & ->). injection En as <-. apply qy_X.
Qed.
Theorem q_even_factors m : lyndon_factorization (Q (2 * m + 2)) (map qX (seq 0 (S m)) ++ [qZ m; qy m]).
Proof.
  rewrite q_even_concat. apply factors_app; [apply (down_chain qX); [apply qX_lyndon|apply qX_down]| |].
  - apply (factors_app [qZ m] [qy m]); [apply factors_one, qZ_lyndon|apply factors_one, qy_lyndon|]. intros f r g s E1 E2. injection E2 as <- _. apply (last_inj [] r (qZ m) f) in E1. subst f. apply qy_Z.
  - intros f r g s E1 E2. injection E2 as <- _. destruct (seq_last _ _ _ _ E1) as (n & En & ->). injection En as <-. apply qZ_X.
Qed.
Lemma qs_len w : length (flat_map qs w) = 4 * length w.
Proof. induction w as [|c w IH]; [reflexivity|]. cbn [flat_map length]. rewrite app_length, IH. unfold qs. destruct (c =? 100); [|destruct (c =? 98); [|destruct (c =? 99)]]; cbn [length]; lia. Qed.
Lemma qs_iter_len w j : length (iter qs j w) = length w * 4 ^ j.
Proof. induction j as [|j IH]; [cbn; lia|]. rewrite iter_S, qs_len, IH. cbn [Nat.pow]. lia. Qed.
Lemma qX_len j : length (qX j) = 4 ^ j. Proof. unfold qX. rewrite qs_iter_len. cbn [length]. lia. Qed.
Lemma qZ_len j : length (qZ j) = 2 * 4 ^ j. Proof. unfold qZ. rewrite qs_iter_len. cbn [length]. lia. Qed.
Lemma qx_len m : 3 * length (qx m) + 2 = 2 * 4 ^ m.
Proof. induction m as [|m IH]; [reflexivity|]. cbn [qx]. rewrite app_length, qs_len. cbn [length Nat.pow]. lia. Qed.
Lemma qy_len m : length (qy m) = (2 * 4 ^ m + 1) / 3.
Proof. unfold qy. rewrite app_length. cbn [length]. apply (Nat.div_unique _ 3 _ 0); [lia|]. pose proof (qx_len m). lia. Qed.

(** ** binary paperfolding: with tau a = 0001, tau b = 0011, tau c = 1001, tau d = 1011, the word number k+1 followed by 1 is 1 tau (the quaternary word number k) *)
Definition pt (c : nat) : str :=
  if c =? 100 then [49; 48; 49; 49] else if c =? 98 then [48; 48; 49; 49] else if c =? 99 then [49; 48; 48; 49] else [48; 48; 48; 49].
Lemma pt_inc : increasing pt qal = true. Proof. good_morphism. Qed.
Lemma pt_marked : marked pt qal [48; 48; 48] = true. Proof. good_morphism. Qed.
Lemma pt_conj w : Forall (fun c => In c qal) w -> [49] ++ flat_map pt w = flat_map pfe (flat_map pfh w) ++ [49].
Proof.
  intros H. induction w as [|c w IH]; [reflexivity|]. inversion H as [|? ? Hc Hw]; subst. cbn [flat_map]. rewrite flat_map_app, <- app_assoc, <- IH by exact Hw.
  destruct Hc as [<-|[<-|[<-|[<-|[]]]]]; reflexivity.
Qed.
Local Notation P k := (flat_map pfe (iter pfh k [100])).
Lemma pf_S k : P (S k) ++ [49] = [49] ++ flat_map pt (Q k).
Proof. rewrite pt_conj by apply q_over. reflexivity. Qed.
Lemma pt_lyn w : Forall (fun c => In c qal) w -> (exists r, w = 97 :: r) -> lyndon w -> lyndon (flat_map pt w).
Proof. intros Ho (r & ->) L. apply (mor_lyndon pt qal [48; 48; 48] pt_inc pt_marked); [exact Ho|exists [49]; reflexivity|exact L]. Qed.
Lemma q_head w j : (exists r, w = 97 :: r) -> exists r, iter qs j w = 97 :: r.
Proof. intros H. induction j as [|j (r & E)]; [exact H|]. rewrite iter_S, E. eexists. reflexivity. Qed.
Definition pX (j : nat) : str := flat_map pt (qX (j + 2)).
Definition pZ (j : nat) : str := flat_map pt (qZ j).
Definition pe (m : nat) : str := flat_map pt (qx m) ++ [48; 48; 49].
Lemma iter_add g a b (w : str) : iter g (a + b) w = iter g a (iter g b w).
Proof. induction a as [|a IH]; [reflexivity|]. cbn [Nat.add]. rewrite !iter_S, IH. reflexivity. Qed.
Lemma pX_lyndon j : lyndon (pX j).
Proof. apply pt_lyn; [apply qX_over| |apply qX_lyndon]. unfold qX. rewrite iter_add. apply q_head. eexists. reflexivity. Qed.
Lemma pX_down j : lex_le (pX (S j)) (pX j).
Proof. apply (mor_le pt qal pt_inc); [apply qX_over|apply qX_over|apply qX_down]. Qed.
Lemma pZ_lyndon j : lyndon (pZ (S j)).
Proof. apply pt_lyn; [apply qZ_over| |apply qZ_lyndon]. unfold qZ. replace (S j) with (j + 1) by lia. rewrite iter_add. apply q_head. eexists. reflexivity. Qed.
Lemma pe_lyndon m : lyndon (pe (S m)).
Proof.
  destruct (qx_head m) as (r & E). unfold pe. rewrite E. apply (mor_lyndon_tail pt qal [48; 48; 48] pt_inc pt_marked 97 r 98 [48; 48; 49]).
  - rewrite <- E. apply qx_over.
  - exists [49]. reflexivity.
  - rewrite <- E. apply qy_lyndon.
  - intros d [<-|[<-|[<-|[<-|[]]]]] Hd; try lia. apply belowb_ok. reflexivity.
  - intros x z Ee Hx Hz. destruct x as [|x0 [|x1 [|x2 [|x3 x]]]]; [congruence| | | |]; injection Ee; intros; subst; try congruence; try discriminate; apply belowb_ok; reflexivity.
Qed.
Lemma pe_le m : lex_le (pe m) (flat_map pt (qy m)).
Proof.
  unfold pe, qy. rewrite flat_map_app. right. apply lex_lt_app_same, lex_ltb_ok. reflexivity.
Qed.
Lemma pe_X m : lex_le (pe (S (S m))) (pX m).
Proof. eapply lex_le_trans; [apply pe_le|]. unfold pX. replace (m + 2) with (S (S m)) by lia. apply (mor_le pt qal pt_inc); [apply qy_over|apply qX_over|apply qy_X]. Qed.
Lemma pe_Z m : lex_le (pe m) (pZ m).
Proof. eapply lex_le_trans; [apply pe_le|]. apply (mor_le pt qal pt_inc); [apply qy_over|apply qZ_over|apply qy_Z]. Qed.
Lemma pZ_X m : lex_le (pZ (S (S m))) (pX m).
Proof. unfold pX, pZ. replace (m + 2) with (S (S m)) by lia. apply (mor_le pt qal pt_inc); [apply qZ_over|apply qX_over|apply qZ_X]. Qed.
Definition pf_first : list str := [[49]; [49]; [48; 49; 49]; [48; 48; 49; 49; 49]; [48; 48; 49; 48; 48; 49; 49; 49; 48; 49; 49]].
Lemma first_factors : lyndon_factorization (concat pf_first) pf_first.
Proof.
  split; [reflexivity|]. split.
  - unfold pf_first. repeat (apply Forall_cons; [apply lyndonb_ok; reflexivity|]). constructor.
  - cbn [non_increasing pf_first]. repeat split; try (left; reflexivity); right; apply lex_ltb_ok; reflexivity.
Qed.
Lemma qX_first m : [49] ++ flat_map pt (concat (map qX (seq 0 (S (S m))))) = concat pf_first ++ concat (map pX (seq 0 m)).
Proof.
  replace (seq 0 (S (S m))) with ([0; 1] ++ map (fun j => j + 2) (seq 0 m)).
  - rewrite map_app, concat_app, flat_map_app, app_assoc. f_equal. rewrite map_map, map_flat_concat, map_map. reflexivity.
  - cbn [seq app]. do 2 f_equal. rewrite <- !seq_shift, map_map. apply map_ext. intros; lia.
Qed.
Lemma small_le w : (exists r, w = [48; 48; 48] ++ r) -> forall f r, pf_first = r ++ [f] -> lex_le w f.
Proof.
  intros (q & ->) f r E. apply (last_inj [[49]; [49]; [48; 49; 49]; [48; 48; 49; 49; 49]] r _ f) in E. subst f. right. rewrite <- (app_nil_r [48; 48; 49; _; _; _; _; _; _; _; _]). apply below_lt_app, belowb_ok. reflexivity.
Qed.
Lemma pt_small w : (exists r, w = 97 :: r) -> exists r, flat_map pt w = [48; 48; 48] ++ r.
Proof. intros (r & ->). eexists. reflexivity. Qed.
Lemma pX_small j : exists r, pX j = [48; 48; 48] ++ r.
Proof. apply pt_small. unfold qX. rewrite iter_add. apply q_head. eexists. reflexivity. Qed.
Lemma pZ_small j : exists r, pZ (S j) = [48; 48; 48] ++ r.
Proof. apply pt_small. unfold qZ. replace (S j) with (j + 1) by lia. rewrite iter_add. apply q_head. eexists. reflexivity. Qed.
Lemma pe_small j : exists r, pe (S j) = [48; 48; 48] ++ r.
Proof. unfold pe. destruct (qx_head j) as (r & ->). eexists. reflexivity. Qed.
Lemma pf_prefix m : lyndon_factorization (concat pf_first ++ concat (map pX (seq 0 m))) (pf_first ++ map pX (seq 0 m)).
Proof.
  apply factors_app; [apply first_factors|apply (down_chain pX); [apply pX_lyndon|apply pX_down]|]. intros f r g s E1 E2. apply (small_le g) with (r := r); [|exact E1].
  destruct m as [|m]; [discriminate E2|]. injection E2 as <- _. apply pX_small.
Qed.
Lemma pf_last m f r : pf_first ++ map pX (seq 0 m) = r ++ [f] -> (m = 0 /\ pf_first = r ++ [f]) \/ exists n, m = S n /\ f = pX n.
Proof.
  destruct m as [|m]; [intros E; left; rewrite app_nil_r in E; auto|]. intros E. right. exists m. split; [reflexivity|]. rewrite seq_S, map_app, app_assoc in E. apply last_inj in E. now subst.
Qed.
(** m >= 0: word number 2m+4 *)
Theorem pf_even_factors m : lyndon_factorization (P (2 * m + 4)) ((pf_first ++ map pX (seq 0 m)) ++ [pe (S m)]).
Proof.
  replace (P (2 * m + 4)) with ((concat pf_first ++ concat (map pX (seq 0 m))) ++ pe (S m)).
  - apply factors_app; [apply pf_prefix|apply factors_one, pe_lyndon|]. intros f r g s E1 E2. injection E2 as <- _. destruct (pf_last _ _ _ E1) as [(_ & E)|(n & -> & ->)]; [|apply pe_X].
    exact (small_le _ (pe_small m) f r E).
  - apply (app_inv_tail [49]). replace (2 * m + 4) with (S (2 * (S m) + 1)) by lia. rewrite pf_S, q_odd_concat, flat_map_app, (app_assoc [49]), qX_first, <- !app_assoc. do 2 f_equal.
    unfold pe, qy. rewrite flat_map_app, <- app_assoc. reflexivity.
Qed.
(** word number 2m+5 *)
Theorem pf_odd_factors m : lyndon_factorization (P (2 * m + 5)) ((pf_first ++ map pX (seq 0 m)) ++ [pZ (S m); pe (S m)]).
Proof.
  replace (P (2 * m + 5)) with ((concat pf_first ++ concat (map pX (seq 0 m))) ++ pZ (S m) ++ pe (S m)).
  - apply factors_app; [apply pf_prefix| |].
    + apply (factors_app [pZ (S m)] [pe (S m)]); [apply factors_one, pZ_lyndon|apply factors_one, pe_lyndon|]. intros f r g s E1 E2. injection E2 as <- _. apply (last_inj [] r _ f) in E1. subst f. apply pe_Z.
    + intros f r g s E1 E2. injection E2 as <- _. destruct (pf_last _ _ _ E1) as [(_ & E)|(n & -> & ->)]; [|apply pZ_X]. exact (small_le _ (pZ_small m) f r E).
  - apply (app_inv_tail [49]). replace (2 * m + 5) with (S (2 * (S m) + 2)) by lia. rewrite pf_S, q_even_concat, !flat_map_app, (app_assoc [49]), qX_first, <- !app_assoc. do 3 f_equal.
    unfold pe, qy. rewrite flat_map_app, <- app_assoc. reflexivity.
Qed.
Lemma pt_len w : length (flat_map pt w) = 4 * length w.
Proof. induction w as [|c w IH]; [reflexivity|]. cbn [flat_map length]. rewrite app_length, IH. unfold pt. destruct (c =? 100); [|destruct (c =? 98); [|destruct (c =? 99)]]; cbn [length]; lia. Qed.
Lemma pX_len j : length (pX j) = 4 ^ (j + 3).
Proof. unfold pX. rewrite pt_len, qX_len. replace (j + 3) with (S (j + 2)) by lia. reflexivity. Qed.
Lemma pZ_len j : length (pZ j) = 2 * 4 ^ (j + 1).
Proof. unfold pZ. rewrite pt_len, qZ_len. replace (j + 1) with (S j) by lia. cbn [Nat.pow]. lia. Qed.
Lemma pe_len m : length (pe m) = (2 * 4 ^ (m + 1) + 1) / 3.
Proof. unfold pe. rewrite app_length, pt_len. cbn [length]. apply (Nat.div_unique _ 3 _ 0); [lia|]. pose proof (qx_len m). replace (m + 1) with (S m) by lia. cbn [Nat.pow]. lia. Qed.
