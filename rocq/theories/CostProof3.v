(** CostProof3.v : bounds on the number of iterations, continued. *)
From Verif Require Import Base SpecStr LexFacts PermFacts ModelCore ModelLz ModelAttr ModelCost CostFacts CostProof CostProof2 DuvalProof BorderProof LcpProof.
From Coq Require Import NArith.

(** ** nearest smaller values: a chain of d table entries ends in the marker; all of them lie in Z *)
Inductive chain (Z : nat -> Prop) (tab : list N) : N -> nat -> Prop :=
| chain_end : chain Z tab INVALID_VALUE 0
| chain_step k d : Z k -> N.of_nat k <> INVALID_VALUE -> (N.of_nat k < 4294967296)%N ->
    chain Z tab (nth k tab 0%N) d -> chain Z tab (N.of_nat k) (S d).
Lemma chain_mono (Z Z' : nat -> Prop) tab tab' p d : (forall k, Z k -> Z' k) -> (forall k, Z k -> nth k tab' 0%N = nth k tab 0%N) ->
  chain Z tab p d -> chain Z' tab' p d.
Proof. intros HZ Ht H. induction H as [|k d Hk H1 H2 _ IH]; [constructor|]. constructor; auto. now rewrite Ht. Qed.
Lemma psv_chain_cost Z arr psv i p0 d0 : chain Z psv p0 d0 ->
  pc (psv_chain_c arr psv i p0) (fun v c => exists d, chain Z psv v d /\ c + d <= d0 + 1).
Proof.
  intros H0. unfold psv_chain_c. eapply pc_loop with (Inv := fun p c => exists d, chain Z psv p d /\ c + d <= d0); [|exists d0; auto].
  intros p c (d & Hd & Hc). apply pc_free. intros a E. iv E.
  - exists 0. split; [constructor|lia].
  - exists d. split; [|lia]. inversion Hd as [E1|k d' Hk H1 H2 H3 E1 E2].
    + subst p. rewrite N.eqb_refl in *. discriminate.
    + unfold as_u32. rewrite N.mod_small by exact H2. now rewrite E1, E2.
  - inversion Hd as [E1|k d' Hk H1 H2 H3 E1 E2].
    + subst p. rewrite N.eqb_refl in *. discriminate.
    + subst p d. rewrite Nnat.Nat2N.id in *.
      match goal with H : get psv _ = Ok _ |- _ => apply get_some in H; destruct H as [_ H]; specialize (H 0%N); subst end.
      exists d'. split; [exact H3|lia].
Qed.
Lemma compute_psv_cost arr : (N.of_nat (length arr) < 2^32)%N -> pc (compute_psv_c arr) (fun _ c => c <= 4 * length arr).
Proof.
  intros Hn. unfold compute_psv_c. apply pc_bind_const. apply pc_bind_free. intros psv0 E0. apply set_some in E0.
  rewrite repeat_length in E0. destruct E0 as [L0 ->].
  eapply pc_imp; [eapply (pc_for_range (fun i psv c => length psv = length arr /\ exists d, chain (fun k => k < i) psv (N.of_nat (i - 1)) d /\ c + d <= 3 * i)); [lia| |]|].
  - rewrite upd_length, repeat_length. split; [reflexivity|]. exists 1. split; [|lia]. apply chain_step.
    + lia.
    + apply (small_not_invalid arr); [exact Hn|lia].
    + change (2^32)%N with 4294967296%N in Hn. lia.
    + rewrite nth_upd_eq by (rewrite repeat_length; lia). constructor.
  - intros i psv c Hi (HL & d & Hd & Hc). apply pc_bind_free. intros i1 E1. apply sub_some in E1. destruct E1 as [_ ->].
    apply pc_bind_free. intros psv1 E1. apply set_some in E1. destruct E1 as [_ ->]. apply pc_bind.
    eapply pc_imp; [apply (psv_chain_cost (fun k => k < i) _ _ _ _ d); eapply (chain_mono (fun k => k < i)); [|intros; rewrite nth_upd_ne by lia; reflexivity|exact Hd]; auto|].
    intros v cv (dv & Hdv & Hcv). apply pc_free. intros psv2 E2. apply set_some in E2. destruct E2 as [_ ->].
    rewrite !upd_length. split; [exact HL|]. exists (S dv). split; [|lia]. replace (S i - 1) with i by lia. apply chain_step.
    + lia.
    + apply (small_not_invalid arr); [exact Hn|lia].
    + change (2^32)%N with 4294967296%N in Hn. lia.
    + rewrite nth_upd_eq by (rewrite upd_length; lia). eapply (chain_mono (fun k => k < i)); [|intros; rewrite nth_upd_ne by lia; reflexivity|exact Hdv]. intros; lia.
  - cbv beta. intros psv c (_ & d & _ & Hc). lia.
Qed.
Lemma pc_for_rev {S} (Inv : nat -> S -> nat -> Prop) (body : nat -> S -> cres S) hi s :
  Inv hi s 0 ->
  (forall i s c, i < hi -> Inv (Datatypes.S i) s c -> pc (body i s) (fun s' m => Inv i s' (c + (1 + m)))) ->
  pc (for_c (rev (range 0 hi)) body s) (Inv 0).
Proof.
  intros H0 Hb. eapply pc_imp; [eapply (pc_for (fun p s c => Inv (hi - length p) s c))|].
  - cbn [length]. now rewrite Nat.sub_0_r.
  - intros p i q s1 c El HI. unfold range in El. rewrite Nat.sub_0_r in El.
    assert (Ei : i = hi - length p - 1 /\ length p < hi).
    { pose proof (f_equal (@length nat) El) as EL. rewrite rev_length, seq_length, app_length in EL. cbn [length] in EL.
      split; [|lia]. assert (E : nth (length p) (rev (seq 0 hi)) 0 = i) by (rewrite El, app_nth2, Nat.sub_diag by lia; reflexivity).
      rewrite rev_nth, seq_nth in E by (rewrite ?seq_length; lia). rewrite seq_length in E. lia. }
    destruct Ei as [Ei Hp]. subst i. eapply pc_imp; [apply (Hb _ s1 c); [lia|now replace (Datatypes.S (hi - length p - 1)) with (hi - length p) by lia]|].
    intros s' m H. rewrite app_length. cbn [length]. now replace (hi - (length p + 1)) with (hi - length p - 1) by lia.
  - cbv beta. intros s' c. rewrite rev_length. unfold range. rewrite seq_length. now replace (hi - (hi - 0)) with 0 by lia.
Qed.
Lemma compute_nsv_cost arr : (N.of_nat (length arr) < 2^32)%N -> pc (compute_nsv_c arr) (fun _ c => c <= 4 * length arr).
Proof.
  intros Hn. unfold compute_nsv_c. apply pc_bind_free. intros l1 E1. apply sub_some in E1. destruct E1 as [L1 ->].
  apply pc_bind_const. apply pc_bind_free. intros nsv0 E0. apply set_some in E0. rewrite repeat_length in E0. destruct E0 as [L0 ->].
  assert (Sm : forall k, k < length arr -> N.of_nat k <> INVALID_VALUE /\ (N.of_nat k < 4294967296)%N).
  { intros k Hk. split; [now apply (small_not_invalid arr)|]. change (2^32)%N with 4294967296%N in Hn. lia. }
  eapply pc_imp; [eapply (pc_for_rev (fun i nsv c => length nsv = length arr /\ exists d, chain (fun k => i <= k) nsv (N.of_nat i) d /\ c + d <= 3 * (length arr - i))); [|]|].
  - rewrite upd_length, repeat_length. split; [reflexivity|]. exists 1. split; [|lia]. destruct (Sm (length arr - 1) ltac:(lia)).
    apply chain_step; auto. rewrite nth_upd_eq by (rewrite repeat_length; lia). constructor.
  - intros i nsv c Hi (HL & d & Hd & Hc). apply pc_bind_free. intros nsv1 E1. apply set_some in E1. destruct E1 as [_ ->]. apply pc_bind.
    replace (i + 1) with (S i) by lia.
    eapply pc_imp; [apply (psv_chain_cost (fun k => S i <= k) _ _ _ _ d); eapply (chain_mono (fun k => S i <= k)); [|intros; rewrite nth_upd_ne by lia; reflexivity|exact Hd]; auto|].
    intros v cv (dv & Hdv & Hcv). apply pc_free. intros nsv2 E2. apply set_some in E2. destruct E2 as [_ ->].
    rewrite !upd_length. split; [exact HL|]. exists (S dv). split; [|lia]. destruct (Sm i ltac:(lia)). apply chain_step; auto.
    rewrite nth_upd_eq by (rewrite upd_length; lia). eapply (chain_mono (fun k => S i <= k)); [|intros; rewrite nth_upd_ne by lia; reflexivity|exact Hdv]. intros; lia.
  - cbv beta. intros nsv c (_ & d & _ & Hc). lia.
Qed.

(** ** the word generator *)
Lemma lwg_next_cost g : length (lwg_stack g) <= lwg_length g -> pc (lwg_next_c g) (fun og c => c <= 2 * lwg_length g + 2 /\
  length (lwg_stack (snd og)) <= lwg_length (snd og) <= lwg_length g).
Proof.
  intros HL. unfold lwg_next_c. destruct (Nat.eqb_spec (lwg_length g) 0) as [Z|NZ]; [apply pc_free; intros a E; inversion E; subst; cbn [snd]; lia|].
  destruct (lwg_stack g) as [|y s] eqn:ES; [apply pc_const; cbn [snd lwg_stack lwg_length length]; lia|]. set (n := lwg_length g) in *. rewrite <- ES in HL |- *.
  apply pc_bind. eapply pc_imp with (P := fun st c => length st = n /\ c <= n - length (lwg_stack g) + 1).
  { unfold lwg_fill_c. eapply pc_loop with (Inv := fun st c => length (lwg_stack g) <= length st <= n /\ c <= length st - length (lwg_stack g)); [|lia].
    intros st c (H1 & H2). apply pc_free. intros a E. iv E.
    - apply Nat.ltb_lt in Heqb. rewrite app_length. cbn [length]. lia.
    - apply Nat.ltb_ge in Heqb. lia. }
  intros st1 c1 (L1 & H1). apply pc_bind. eapply pc_imp with (P := fun st c => length st <= n /\ c <= n - length st + 1).
  { unfold lwg_trim_c. eapply pc_loop with (Inv := fun st c => length st <= n /\ c <= n - length st); [|lia].
    intros st c (H2 & H3). apply pc_free. intros a E. destruct (rev st) as [|x r] eqn:ER.
    - iv E. lia.
    - assert (length st = S (length r)) by (rewrite <- (rev_length st), ER; reflexivity). iv E; rewrite ?rev_length; lia. }
  intros st2 c2 (L2 & H2). destruct (rev st2) as [|x r] eqn:ER; [apply pc_free; intros a E; inversion E; subst; cbn [snd lwg_stack lwg_length length]; lia|].
  assert (length st2 = S (length r)) by (rewrite <- (rev_length st2), ER; reflexivity).
  destruct (255 <=? x); [intros a c E; discriminate E|]. apply pc_const. cbn [snd lwg_stack lwg_length]. rewrite app_length, rev_length. cbn [length].
  assert (1 <= length (lwg_stack g)) by (rewrite ES; cbn [length]; lia). lia.
Qed.

(** ** the programs *)
Lemma compute_lexparse_cost t p phi : pc (compute_lexparse_c t p phi) (fun _ c => c <= length t + 1).
Proof.
  unfold compute_lexparse_c. eapply pc_loop with (Inv := fun ifs c => c <= Nat.min (fst ifs) (length t)); [|cbn [fst]; lia].
  intros [i f] c HI. cbn [fst] in *. apply pc_free. intros a E. iv E; cbn [fst];
  repeat match goal with H : (_ <? _) = _ |- _ => first [apply Nat.ltb_lt in H|apply Nat.ltb_ge in H]
   | H : (_ =? _) = _ |- _ => first [apply Nat.eqb_eq in H|apply Nat.eqb_neq in H] end; lia.
Qed.
Lemma count_lexparse_cost sort t : length (sort t) = length t -> pc (count_lexparse_main_c sort t) (fun _ c => c <= 8 * length t + 1).
Proof.
  intros HL. unfold count_lexparse_main_c. apply pc_bind. eapply pc_imp; [apply compute_phi_cost|]. intros phi c1 (L1 & H1).
  apply pc_bind. eapply pc_imp; [apply compute_plcp_cost|]. intros plcp c2 (L2 & H2).
  eapply pc_imp; [apply compute_lexparse_cost|]. intros f c3 H3. cbv beta in *. lia.
Qed.
Lemma compute_lz77_cost t sa isa lcp nsv psv : pc (compute_lz77_c t sa isa lcp nsv psv) (fun _ c => c <= length t + 1).
Proof.
  unfold compute_lz77_c. eapply pc_loop with (Inv := fun ifs c => c <= Nat.min (fst ifs) (length t)); [|cbn [fst]; lia].
  intros [i f] c HI. cbn [fst] in *. apply pc_free. intros a E. iv E; cbn [fst];
  try (match goal with |- context [if ?b then _ else _] => destruct b eqn:? end);
  repeat match goal with H : (_ <? _) = _ |- _ => first [apply Nat.ltb_lt in H|apply Nat.ltb_ge in H]
   | H : (_ && _)%bool = false |- _ => apply andb_false_iff in H
   | H : _ \/ _ |- _ => destruct H
   | H : (_ =? _) = _ |- _ => first [apply Nat.eqb_eq in H|apply Nat.eqb_neq in H] end; lia.
Qed.
Lemma decode_lz77_cost f : pc (decode_lz77_c f) (fun text c => c <= 2 * length text).
Proof.
  unfold decode_lz77_c. eapply pc_for with (Inv := fun _ (text : str) c => c <= 2 * length text); [cbn; lia|].
  intros p x q text c _ HI. destruct (Nat.eqb_spec (lz_len x) 0) as [Z|NZ].
  - apply pc_free. intros a E. inversion E; subst. rewrite app_length. cbn [length]. lia.
  - apply pc_bind_free. intros r _.
    eapply pc_imp; [eapply pc_for with (Inv := fun p (text' : str) c => length text' = length text + length p /\ c = length p); [cbn [length]; lia|]|].
    + intros p' i q' text' c' _ (HL & ->). apply pc_free. intros a E. iv E. rewrite !app_length. cbn [length]. lia.
    + intros text' c' (HL & ->). unfold range in *. rewrite seq_length in *. lia.
Qed.
Lemma count_z_cost sort t : length (sort t) = length t -> (N.of_nat (length t) < 2^32)%N ->
  pc (count_z_main_c sort t) (fun _ c => c <= 24 * length t + 1).
Proof.
  intros HL Hn. unfold count_z_main_c. apply pc_bind. eapply pc_imp; [apply inverse_permutation_cost|]. intros isa c1 H1.
  apply pc_bind. eapply pc_imp; [apply compute_psv_cost; now rewrite HL|]. intros psv c2 H2.
  apply pc_bind. eapply pc_imp; [apply compute_nsv_cost; now rewrite HL|]. intros nsv c3 H3.
  apply pc_bind. eapply pc_imp; [apply compute_phi_cost|]. intros phi c4 (L4 & H4).
  apply pc_bind. eapply pc_imp; [apply compute_plcp_cost|]. intros plcp c5 (L5 & H5).
  apply pc_bind. eapply pc_imp; [apply compute_lcp_cost|]. intros lcp c6 H6.
  apply pc_bind. eapply pc_imp; [apply compute_lz77_cost|]. intros f c7 H7.
  apply pc_bind. eapply pc_imp; [apply decode_lz77_cost|]. intros d c8 H8.
  apply pc_bind_const. apply pc_free. intros f' E. cbv beta in *. destruct (list_eq_dec Nat.eq_dec t d) as [<-|]; [|discriminate]. lia.
Qed.
Lemma mus_cost sort t : length (sort t) = length t -> pc (mus_main_c sort t) (fun _ c => c <= 12 * length t).
Proof.
  intros HL. unfold mus_main_c. apply pc_bind. eapply pc_imp; [apply inverse_permutation_cost|]. intros isa c1 H1.
  apply pc_bind. eapply pc_imp; [apply compute_phi_cost|]. intros phi c4 (L4 & H4).
  apply pc_bind. eapply pc_imp; [apply compute_plcp_cost|]. intros plcp c5 (L5 & H5).
  apply pc_bind. eapply pc_imp; [apply compute_lcp_cost|]. intros lcp c6 H6.
  unfold get_mus_c. apply pc_bind_free. intros n En. apply sub_some in En. eapply pc_imp; [apply pc_for_free|]. intros m c7 ->.
  unfold range. rewrite seq_length. cbv beta in *. lia.
Qed.

(** ** the lcp intervals *)
Lemma pop_loop_cost t sa lcp i nodes path edges : pc (pop_loop_c t sa lcp i nodes path edges)
  (fun st c => let '(nodes', path', edges', _) := st in c + length path' <= length path + 1 /\ length nodes' = length nodes /\ length path' <= length path /\
     length edges' + length path' <= length edges + length path).
Proof.
  unfold pop_loop_c.
  eapply pc_loop with (Inv := fun st c => let '(nodes', path', edges', _) := st in c + length path' <= length path /\ length nodes' = length nodes /\
     length edges' + length path' <= length edges + length path); [|lia].
  intros [[[nodes' path'] edges'] child] c (H1 & H2 & H3). apply pc_free. intros a E. destruct path' as [|x path']; [discriminate|].
  cbn [length] in *.
  destruct (get lcp i) as [l| |]; cbn [bind] in E; try discriminate. destruct (get nodes' x) as [nd| |] eqn:EN; cbn [bind] in E; try discriminate.
  destruct (l <? nd_depth nd).
  - destruct (set_end nodes' x (i - 1)) as [n2| |] eqn:ES; cbn [bind] in E; try discriminate.
    assert (L2 : length n2 = length nodes').
    { unfold set_end in ES. rewrite EN in ES. cbn [bind] in ES. apply set_some in ES. destruct ES as [_ ->]. apply upd_length. }
    destruct child as [ch|].
    + destruct (edge_label t sa n2 ch (nd_depth nd)); cbn [bind] in E; try discriminate. inversion E; subst a. rewrite app_length. cbn [length]. lia.
    + cbn [bind] in E. inversion E; subst a. lia.
  - inversion E; subst a. cbn [length]. lia.
Qed.
Lemma interval_step_cost t sa lcp i st : pc (interval_step_c t sa lcp i st)
  (fun st' c => let '(nodes, path, edges) := st in let '(nodes', path', edges') := st' in
     c + length path' <= length path + 3 /\ length nodes' <= length nodes + 2 /\ length edges' + length path' <= length edges + length path + 3).
Proof.
  unfold interval_step_c. destruct st as [[nodes path] edges]. cbv zeta. apply pc_bind. eapply pc_imp; [apply pop_loop_cost|].
  intros [[[n1 p1] e1] child] c (H1 & H2 & H3 & H4). apply pc_free. intros [[n2 p2] e2] E.
  destruct (get lcp i) as [l| |]; cbn [bind] in E; try discriminate. destruct (get p1 0) as [top| |]; cbn [bind] in E; try discriminate.
  destruct (get n1 top) as [tnd| |]; cbn [bind] in E; try discriminate.
  match type of E with bind ?r _ = _ => destruct r as [[n3 p3]| |] eqn:E3; cbn [bind] in E; try discriminate end.
  assert (H5 : length n3 <= length n1 + 1 /\ length p3 <= length p1 + 1).
  { destruct (nd_depth tnd <? l); [|inversion E3; subst; lia]. destruct child as [ch|]; [|discriminate]. iv E3. 
    rewrite app_length. cbn [length]. lia. }
  match type of E with bind ?r _ = _ => destruct r as [e3| |] eqn:E4; cbn [bind] in E; try discriminate end.
  assert (H6 : length e3 <= length e1 + 1).
  { destruct child as [ch|]; [|inversion E4; subst; lia]. iv E4. rewrite app_length. cbn [length]. lia. }
  iv E. rewrite app_length. cbn [length]. lia.
Qed.
Lemma lcp_intervals_cost t sa lcp : pc (lcp_intervals_c t sa lcp)
  (fun ne c => c <= 9 * length t + 4 /\ length (fst ne) <= 2 * length t + 0 /\ length (snd ne) <= 3 * length t + 2).
Proof.
  unfold lcp_intervals_c. apply pc_bind_free. intros e Ee. apply sub_some in Ee. apply pc_bind_free. intros s0 _.
  apply pc_bind_free. intros d0 _. apply pc_bind_free. intros d1 _. apply pc_bind.
  eapply pc_imp; [eapply (pc_for_range (fun i st c => let '(nodes, path, edges) := st in
     c + length path <= 4 * i /\ length nodes <= 2 * i /\ length edges + length path <= 3 * i)); [lia|cbn [length]; lia|]|].
  - intros i [[n p] ed] c Hi (H1 & H2 & H3). eapply pc_imp; [apply interval_step_cost|]. intros [[n' p'] ed'] c' (H4 & H5 & H6). lia.
  - intros [[n p] ed] c (H1 & H2 & H3). unfold pop_rest_c. apply pc_bind.
    eapply pc_imp with (P := fun st c' => let '(nodes', edges') := st in length nodes' = length n /\ length edges' <= length ed + length p /\ c' = length p).
    { apply pc_bind. eapply pc_imp; [eapply pc_for with (Inv := fun q st c' => let '(nodes', edges', _) := st in
        length nodes' = length n /\ length edges' <= length ed + length q /\ c' = length q); [cbn [length]; lia|]|].
      - intros q x r [[n' e'] ch] c' _ (G1 & G2 & ->). apply pc_free. intros [[n2 e2] ch2] E. rewrite app_length. cbn [length].
        destruct (set_end n' x (length t - 1)) as [n3| |] eqn:ES; cbn [bind] in E; try discriminate.
        assert (L3 : length n3 = length n').
        { unfold set_end in ES. iv ES. apply set_some in ES. destruct ES as [_ ->]. apply upd_length. }
        destruct (get n3 x) as [nd| |]; cbn [bind] in E; try discriminate. destruct ch as [cc|].
        + destruct (edge_label t sa n3 cc (nd_depth nd)); cbn [bind] in E; try discriminate. inversion E; subst. rewrite app_length. cbn [length]. lia.
        + cbn [bind] in E. inversion E; subst. lia.
      - intros [[n' e'] ch] c' (G1 & G2 & ->). apply pc_free. intros [n2 e2] E. inversion E; subst. lia. }
    intros [n' e'] c' (G1 & G2 & ->). apply pc_bind. eapply pc_imp; [apply pc_for_free|]. intros u c'' ->. apply pc_free. intros [n2 e2] E.
    inversion E; subst. cbn [fst snd]. lia.
Qed.
