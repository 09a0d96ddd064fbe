(** LwgCost.v : the total number of steps of the generator of Lyndon words. *)
From Verif Require Import Base SpecStr SpecCost LexFacts ModelCore ModelLz ModelAttr ModelCost CostFacts CostProof CostProof2 LwgProof LwgCount.

(** one call from a state that holds a word: the exact count *)
Lemma lwg_next_exact n sigma w : 0 < length w <= n ->
  pc (lwg_next_c (LWG n sigma w)) (fun og c => match fst og with
    | Some v => snd og = LWG n sigma v /\ 0 < length v <= n /\ c = (n - length w + 1) + (n - length v + 1) + length v
    | None => snd og = LWG 0 sigma [] /\ c = (n - length w + 1) + (n + 1) end).
Proof.
  intros HL. unfold lwg_next_c. cbn [lwg_length lwg_stack lwg_sigma]. destruct (Nat.eqb_spec n 0) as [Z|NZ]; [lia|].
  destruct w as [|y s] eqn:ES; [cbn [length] in HL; lia|]. rewrite <- ES in HL |- *.
  apply pc_bind. eapply pc_imp with (P := fun st c => length st = n /\ c = n - length w + 1).
  { unfold lwg_fill_c. eapply pc_loop with (Inv := fun st c => length w <= length st <= n /\ c = length st - length w); [|lia].
    intros st c (H1 & H2). apply pc_free. intros a E. iv E.
    - apply Nat.ltb_lt in Heqb. rewrite app_length. cbn [length] in *. lia.
    - apply Nat.ltb_ge in Heqb. cbn [length] in *. lia. }
  intros st1 c1 (L1 & H1). apply pc_bind. eapply pc_imp with (P := fun st c => length st <= n /\ c = n - length st + 1).
  clear ES HL. { unfold lwg_trim_c. eapply pc_loop with (Inv := fun st c => length st <= n /\ c = n - length st); [|lia].
    intros st c (H2 & H3). apply pc_free. intros a E. destruct (rev st) as [|x r] eqn:ER.
    - iv E. lia.
    - assert (length st = S (length r)) by (rewrite <- (rev_length st), ER; reflexivity). iv E; rewrite ?rev_length; lia. }
  intros st2 c2 (L2 & H2). destruct (rev st2) as [|x r] eqn:ER.
  - apply pc_free. intros a E. injection E as <-. cbn [fst snd]. split; [reflexivity|].
    assert (length st2 = 0) by (rewrite <- (rev_length st2), ER; reflexivity). lia.
  - assert (length st2 = S (length r)) by (rewrite <- (rev_length st2), ER; reflexivity).
    destruct (255 <=? x); [intros a c E; discriminate E|]. apply pc_const. cbn [fst snd]. split; [reflexivity|].
    rewrite app_length, rev_length. cbn [length]. lia.
Qed.

Lemma yields_all {A} (L : list A) : yields L (S (length L)) = map Some L ++ [None].
Proof. induction L as [|x L IH]; [reflexivity|]. cbn [length]. rewrite yields_cons. cbn [map app]. now rewrite IH. Qed.
Lemma total_erase n sigma L : forall w, 0 < length w <= n ->
  calls lwg_next (S (length L)) (LWG n sigma w) = Ok (map Some L ++ [None]) ->
  exists c, total lwg_next_c (S (length L)) (LWG n sigma w) = Ok (map Some L ++ [None], c) /\
    c = (n - length w + 1) + list_sum (map (fun v => (n - length v + 1) + length v + (n - length v + 1)) L) + (n + 1).
Proof.
  induction L as [|v L IH]; intros w Hw E; cbn [length calls] in E; cbn [length total].
  - destruct (lwg_next (LWG n sigma w)) as [[o g]| |] eqn:F; cbn [bind] in E; try discriminate.
    injection E as ->. rewrite <- lwg_next_erase in F. apply erase_ok in F. destruct F as (c & F).
    destruct (lwg_next_exact n sigma w Hw _ _ F) as (_ & Hc). rewrite F. cbn [bind total map app]. eexists. split; [reflexivity|].
    cbn [map list_sum fold_right]. unfold list_sum. cbn [fold_right]. lia.
  - destruct (lwg_next (LWG n sigma w)) as [[o g]| |] eqn:F; cbn [bind] in E; try discriminate.
    destruct (calls lwg_next (S (length L)) g) as [l| |] eqn:C; cbn [calls] in C; rewrite ?C in E; cbn [bind] in E; try discriminate.
    injection E as -> ->. rewrite <- lwg_next_erase in F. apply erase_ok in F. destruct F as (c & F).
    destruct (lwg_next_exact n sigma w Hw _ _ F) as (Hg & Hv & Hc). cbn [fst snd] in Hg. subst g.
    destruct (IH v Hv C) as (d & Hd & Ed). cbn [total] in Hd. rewrite F. cbn [bind]. rewrite Hd. cbn [bind map app]. eexists. split; [reflexivity|].
    unfold list_sum in *. cbn [map fold_right]. lia.
Qed.
Lemma lwg_total n sigma : 1 <= n -> 1 <= sigma <= 256 -> exists L c, NoDup L /\ StronglySorted lex_lt L /\
  (forall w, In w L <-> valid n sigma w) /\
  total lwg_next_c (S (length L)) (lwg_new n sigma) = Ok (map Some L ++ [None], c) /\
  c + list_sum (map (@length nat) L) = 2 * (n + 1) * length L + 1.
Proof.
  intros Hn Hs. destruct (lwg_correct n sigma Hn Hs) as (L & HS & HI & HC).
  specialize (HC (S (length L))). rewrite yields_all in HC.
  assert (HL : forall w, In w L -> length w <= n) by (intros w Hw; apply HI in Hw; apply Hw).
  unfold lwg_new in *. cbn [calls] in HC. unfold lwg_next at 1 in HC. cbn [lwg_length lwg_stack lwg_sigma] in HC.
  destruct (Nat.eqb_spec n 0); [lia|]. cbn [bind] in HC.
  destruct (calls lwg_next (length L) (LWG n sigma [0])) as [l| |] eqn:C; cbn [bind] in HC; try discriminate.
  injection HC as HC. destruct L as [|w L]; [discriminate HC|]. cbn [map app] in HC. injection HC as Ew El. subst w l.
  destruct (total_erase n sigma L [0]) as (d & Hd & Ed); [cbn [length]; lia|exact C|].
  exists ([0] :: L), (1 + d). split; [now apply SSorted_NoDup|]. split; [exact HS|]. split; [intros v; rewrite HI; reflexivity|]. split.
  - change (length ([0] :: L)) with (S (length L)). remember (S (length L)) as k. cbn [total]. unfold lwg_next_c at 1. cbn [lwg_length lwg_stack lwg_sigma].
    destruct (Nat.eqb_spec n 0); [lia|]. cbn [bind]. rewrite Hd. cbn [bind map app]. reflexivity.
  - cbn [length map] in *. unfold list_sum in *. cbn [fold_right length]. rewrite Ed. clear - HL Hn.
    assert (H : forall v, In v L -> length v <= n) by (intros v Hv; apply HL; right; exact Hv). clear HL.
    assert (G : fold_right Nat.add 0 (map (fun v => n - length v + 1 + length v + (n - length v + 1)) L) + fold_right Nat.add 0 (map (@length nat) L) = 2 * (n + 1) * length L).
    { induction L as [|v L IH]; [cbn; lia|]. specialize (H v (or_introl eq_refl)) as Hv. specialize (IH (fun x Hx => H x (or_intror Hx))).
      cbn [map fold_right length]. lia. }
    lia.
Qed.
Lemma slack_length n L : (forall w, In w L -> length w <= n) -> slack n L + list_sum (map (@length nat) L) = n * length L.
Proof.
  unfold slack, list_sum. induction L as [|w L IH]; intros H; [cbn; lia|]. specialize (H w (or_introl eq_refl)) as Hw.
  specialize (IH (fun x Hx => H x (or_intror Hx))). cbn [map fold_right length]. lia.
Qed.
