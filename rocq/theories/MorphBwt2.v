(** MorphBwt2.v : how the matrix BWT changes under the Thue-Morse, period-doubling and ternary Thue-Morse morphisms. *)
From Verif Require Import Base SpecStr SpecBwt SpecWord LexFacts BwtFacts MorphBwt.

Ltac lx := repeat first [apply lex_head; lia | apply lex_tail].
Definition ab (c : nat) : Prop := c = 97 \/ c = 98.
Definition abc (c : nat) : Prop := c = 97 \/ c = 98 \/ c = 99.
(** exchange of the letters a and b *)
Definition comp (c : nat) : nat := if c =? 97 then 98 else 97.

Lemma map_const_repeat {A} (g : A -> nat) c l : (forall q, In q l -> g q = c) -> map g l = repeat c (length l).
Proof. intros H. induction l as [|q l IH]; [reflexivity|]. cbn [map length repeat]. rewrite H by now left. f_equal. apply IH. intros x Hx. apply H. now right. Qed.

(** ** Thue-Morse *)
Definition tm_h (c : nat) : str := if c =? 97 then [97; 98] else [98; 97].
Definition no_cube (w : str) : Prop := forall s x r, In s (rotations w) -> s = x :: x :: r -> exists y r', r = y :: r' /\ y <> x.

Lemma tm_mono x y s t : ab x -> ab y -> x < y -> lex_lt (tm_h x ++ s) (tm_h y ++ t).
Proof. intros [->| ->] [->| ->] L; try lia. cbn. lx. Qed.
Lemma rot2 w s : 2 <= length w -> In s (rotations w) -> exists x y r, s = x :: y :: r.
Proof. intros L H. apply rotations_len in H. destruct s as [|x [|y r]]; cbn in H; try lia. eauto. Qed.
Lemma rot2' w s : 2 <= length w -> In s (rotations w) -> exists y r, removelast s = y :: r /\ In (last s 0 :: y :: r) (rotations w).
Proof.
  intros L H. apply rotations_back in H. pose proof (rotations_len _ _ H) as E. destruct (removelast s) as [|y r]; [cbn in E; lia|]. eauto.
Qed.
Lemma tm_no_cube w : Forall ab w -> 2 <= length w -> no_cube (flat_map tm_h w).
Proof.
  intros F L s x r Hs E. rewrite rotations_morph in Hs. apply in_flat_map in Hs. destruct Hs as (s0 & Hs0 & Hs).
  unfold blk in Hs. apply in_map_iff in Hs. destruct Hs as (e & <- & He). apply in_seq in He.
  pose proof (rotations_Forall ab w s0 F Hs0) as F0. destruct (rot2 w s0 L Hs0) as (p & q & r0 & ->).
  cbn [hd] in He. inversion F0 as [|? ? Hp F1]; subst. inversion F1 as [|? ? Hq F2]; subst.
  assert (e = 0 \/ e = 1) as [->| ->] by (destruct Hp as [->| ->]; cbn in He; lia); destruct Hp as [->| ->]; destruct Hq as [->| ->]; cbn in E;
    injection E as E1 E2 E3; rewrite <- E1 in *; try discriminate; rewrite <- E3; eexists; eexists; (split; [reflexivity|discriminate]).
Qed.

Theorem tm_bwt_step w b : Forall ab w -> 2 <= length w -> no_cube w -> is_matrix_bwt w b ->
  is_matrix_bwt (flat_map tm_h w) (repeat 98 (count_occ Nat.eq_dec w 98) ++ map comp b ++ repeat 97 (count_occ Nat.eq_dec w 97)).
Proof.
  intros F L NC (M & HM & HS & ->).
  assert (Nw : w <> []) by (intros ->; cbn in L; lia).
  assert (IN : forall s, In s M -> In s (rotations w)) by (intros s Hs; now rewrite <- HM).
  assert (LA : forall s, In s M -> ab (last s 0)).
  { intros s Hs. pose proof (rotations_Forall ab w s F (IN s Hs)) as G. rewrite Forall_forall in G. apply G.
    pose proof (rotations_ne _ _ (IN s Hs)) as N. rewrite (app_removelast_last 0 N) at 2. apply in_or_app. right. now left. }
  set (f := fun s : str => last s 0 =? 98).
  exists (map (inner tm_h 1) (filter f M) ++ map (flat_map tm_h) M ++ map (inner tm_h 1) (filter (fun s => negb (f s)) M)).
  split; [|split].
  - rewrite (rotations_morph_perm tm_h w M Nw) by (try exact HM; intros c _; unfold tm_h; now destruct (c =? 97)).
    assert (E : flat_map (fun s => map (fun e => inner tm_h e s) (seq 1 (length (tm_h (last s 0)) - 1))) M = map (inner tm_h 1) M).
    { clear. induction M as [|s M IH]; [reflexivity|]. cbn [flat_map map]. rewrite IH. unfold tm_h at 2. now destruct (last s 0 =? 97). }
    rewrite E. assert (E2 : Permutation (map (inner tm_h 1) M) (map (inner tm_h 1) (filter f M) ++ map (inner tm_h 1) (filter (fun s => negb (f s)) M))).
    { rewrite <- map_app. apply Permutation_map. symmetry. apply filter_split. }
    rewrite E2, !app_assoc. apply Permutation_app_tail, Permutation_app_comm.
  - assert (SF : forall x g, (forall s, In s M -> g s = true -> last s 0 = x) -> StronglySorted lex_le (map (inner tm_h 1) (filter g M))).
    { intros x g Hg. apply (SS_map_in lex_le); [|now apply SS_filter]. intros s1 s2 H1 H2 Hl. apply filter_In in H1, H2.
      apply (inner_sorted tm_h ab w); auto using tm_mono; [now apply IN|now apply IN|].
      rewrite (Hg s1), (Hg s2) by tauto. reflexivity. }
    (* the three groups begin differently *)
    assert (G1 : forall s, In s M -> last s 0 = 98 -> exists r, inner tm_h 1 s = 97 :: 97 :: 98 :: r \/ inner tm_h 1 s = 97 :: 98 :: 97 :: 97 :: r).
    { intros s Hs E. destruct (rot2' w s L (IN s Hs)) as (y & r & E1 & E2). rewrite E in E2. pose proof (rotations_Forall ab w _ F E2) as G.
      inversion G as [|? ? _ G1]; subst. inversion G1 as [|? ? Hy G2]; subst.
      unfold inner. rewrite E, E1. cbn [flat_map]. destruct Hy as [->| ->].
      - eexists. left. cbn. reflexivity.
      - destruct (NC _ 98 r E2 eq_refl) as (z & r' & -> & Hz). inversion G2 as [|? ? Hz' _]; subst. destruct Hz' as [->| ->]; [|easy].
        eexists. right. cbn. reflexivity. }
    assert (G3 : forall s, In s M -> last s 0 = 97 -> exists r, inner tm_h 1 s = 98 :: 98 :: 97 :: r \/ inner tm_h 1 s = 98 :: 97 :: 98 :: 98 :: r).
    { intros s Hs E. destruct (rot2' w s L (IN s Hs)) as (y & r & E1 & E2). rewrite E in E2. pose proof (rotations_Forall ab w _ F E2) as G.
      inversion G as [|? ? _ G2]; subst. inversion G2 as [|? ? Hy G4]; subst.
      unfold inner. rewrite E, E1. cbn [flat_map]. destruct Hy as [->| ->].
      - destruct (NC _ 97 r E2 eq_refl) as (z & r' & -> & Hz). inversion G4 as [|? ? Hz' _]; subst. destruct Hz' as [->| ->]; [easy|].
        eexists. right. cbn. reflexivity.
      - eexists. left. cbn. reflexivity. }
    assert (G2 : forall s, In s M -> exists r, flat_map tm_h s = 97 :: 98 :: 97 :: 98 :: r \/ flat_map tm_h s = 97 :: 98 :: 98 :: r \/
       flat_map tm_h s = 98 :: 97 :: 98 :: 97 :: r \/ flat_map tm_h s = 98 :: 97 :: 97 :: r).
    { intros s Hs. pose proof (rotations_Forall ab w _ F (IN s Hs)) as G. destruct (rot2 w s L (IN s Hs)) as (p & q & r & ->).
      inversion G as [|? ? Hp G4]; subst. inversion G4 as [|? ? Hq _]; subst. destruct Hp as [->| ->]; destruct Hq as [->| ->]; eexists; cbn; auto. }
    apply SS_app; [|apply SS_app|].
    + apply (SF 98). intros s _ E. unfold f in E. now apply Nat.eqb_eq.
    + apply (SS_map_in lex_le); [|exact HS]. intros s1 s2 H1 H2. apply (image_sorted tm_h ab w); auto using tm_mono.
    + apply (SF 97). intros s Hs E. unfold f in E. destruct (LA s Hs) as [->|E2]; [reflexivity|]. rewrite E2 in E. discriminate.
    + intros x y Hx Hy. apply in_map_iff in Hx, Hy. destruct Hx as (s & <- & Hs). destruct Hy as (s' & <- & Hs'). apply filter_In in Hs'.
      destruct Hs' as (Hs' & E). assert (E' : last s' 0 = 97) by (unfold f in E; destruct (LA s' Hs') as [->|E2]; [reflexivity|]; rewrite E2 in E; discriminate).
      right. destruct (G2 s Hs) as (r & [->|[->|[->| ->]]]); destruct (G3 s' Hs' E') as (r' & [->| ->]); lx.
    + intros x y Hx Hy. apply in_map_iff in Hx. destruct Hx as (s & <- & Hs). apply filter_In in Hs. destruct Hs as (Hs & E). apply Nat.eqb_eq in E.
      right. apply in_app_or in Hy. destruct Hy as [Hy|Hy]; apply in_map_iff in Hy; destruct Hy as (s' & <- & Hs').
      * destruct (G1 s Hs E) as (r & [->| ->]); destruct (G2 s' Hs') as (r' & [->|[->|[->| ->]]]); lx.
      * apply filter_In in Hs'. destruct Hs' as (Hs' & E2). assert (E' : last s' 0 = 97) by (unfold f in E2; destruct (LA s' Hs') as [->|E3]; [reflexivity|]; rewrite E3 in E2; discriminate).
        destruct (G1 s Hs E) as (r & [->| ->]); destruct (G3 s' Hs' E') as (r' & [->| ->]); lx.
  - rewrite !map_app, !map_map.
    assert (CN : forall c, count_occ Nat.eq_dec w c = count_occ Nat.eq_dec (map (fun s => last s 0) M) c).
    { intros c. apply count_perm. rewrite HM. symmetry. apply last_rotations_perm. }
    f_equal; [|f_equal].
    + rewrite (map_const_repeat (fun s => last (inner tm_h 1 s) 0) 98).
      * f_equal. unfold f. rewrite filter_length_count. apply CN.
      * intros s Hs. apply filter_In in Hs. destruct Hs as (_ & E). apply Nat.eqb_eq in E. unfold inner. rewrite E. rewrite app_assoc. apply last_last.
    + apply map_ext_in. intros s Hs. rewrite last_flat_map; [|now apply (rotations_ne w), IN|unfold tm_h; now destruct (_ =? 97)].
      unfold tm_h, comp. now destruct (_ =? 97).
    + rewrite (map_const_repeat (fun s => last (inner tm_h 1 s) 0) 97).
      * f_equal. rewrite CN, <- filter_length_count. f_equal. apply filter_ext_in. intros s Hs. unfold f. now destruct (LA s Hs) as [->| ->].
      * intros s Hs. apply filter_In in Hs. destruct Hs as (Hs & E). unfold inner.
        assert (E' : last s 0 = 97) by (unfold f in E; destruct (LA s Hs) as [->|E2]; [reflexivity|]; rewrite E2 in E; discriminate).
        rewrite E'. rewrite app_assoc. apply last_last.
Qed.

(** ** period doubling *)
Definition pd_h (c : nat) : str := if c =? 97 then [97; 98] else [97; 97].
Definition no_bb (w : str) : Prop := forall s r, In s (rotations w) -> s <> 98 :: 98 :: r.
Lemma pd_mono x y s t : ab x -> ab y -> x < y -> lex_lt (pd_h y ++ s) (pd_h x ++ t).
Proof. intros [->| ->] [->| ->] L; try lia. cbn. lx. Qed.
Lemma pd_no_bb w : Forall ab w -> 2 <= length w -> no_bb (flat_map pd_h w).
Proof.
  intros F L s r Hs E. rewrite rotations_morph in Hs. apply in_flat_map in Hs. destruct Hs as (s0 & Hs0 & Hs).
  unfold blk in Hs. apply in_map_iff in Hs. destruct Hs as (e & <- & He). apply in_seq in He.
  pose proof (rotations_Forall ab w s0 F Hs0) as F0. destruct (rot2 w s0 L Hs0) as (p & q & r0 & ->).
  cbn [hd] in He. inversion F0 as [|? ? Hp F1]; subst. inversion F1 as [|? ? Hq F2]; subst.
  assert (e = 0 \/ e = 1) as [->| ->] by (destruct Hp as [->| ->]; cbn in He; lia); destruct Hp as [->| ->]; destruct Hq as [->| ->]; cbn in E; discriminate.
Qed.
Lemma app_inj_left (a b c d : str) : length a = length c -> a ++ b = c ++ d -> a = c.
Proof. intros L E. apply (f_equal (firstn (length a))) in E. rewrite firstn_app, firstn_all, Nat.sub_diag, app_nil_r in E. rewrite L, firstn_app, firstn_all, Nat.sub_diag, app_nil_r in E. exact E. Qed.

Theorem pd_bwt_step w P : Forall ab w -> 2 <= length w -> no_bb w -> length P = count_occ Nat.eq_dec w 97 ->
  is_matrix_bwt w (P ++ repeat 97 (count_occ Nat.eq_dec w 98)) ->
  is_matrix_bwt (flat_map pd_h w)
    ((repeat 98 (count_occ Nat.eq_dec w 98) ++ repeat 97 (count_occ Nat.eq_dec w 98) ++ map comp (rev P)) ++ repeat 97 (count_occ Nat.eq_dec w 97)).
Proof.
  intros F L NB LP (M & HM & HS & EM).
  assert (Nw : w <> []) by (intros ->; cbn in L; lia).
  assert (IN : forall s, In s M -> In s (rotations w)) by (intros s Hs; now rewrite <- HM).
  assert (LAB : forall s, In s M -> ab (last s 0)).
  { intros s Hs. pose proof (rotations_Forall ab w s F (IN s Hs)) as G. rewrite Forall_forall in G. apply G.
    pose proof (rotations_ne _ _ (IN s Hs)) as N. rewrite (app_removelast_last 0 N) at 2. apply in_or_app. right. now left. }
  assert (HAB : forall s, In s M -> ab (hd 0 s)).
  { intros s Hs. pose proof (rotations_Forall ab w s F (IN s Hs)) as G. destruct (rot2 w s L (IN s Hs)) as (p & q & r & ->). now inversion G. }
  set (g := fun s : str => hd 0 s =? 97). set (f := fun s : str => last s 0 =? 97).
  set (FA := filter g M). set (FB := filter (fun s => negb (g s)) M).
  set (LA := filter f M). set (LB := filter (fun s => negb (f s)) M).
  assert (HFA : forall s, In s FA -> In s M /\ hd 0 s = 97) by (intros s Hs; apply filter_In in Hs; destruct Hs as (Hs & E); split; [exact Hs|now apply Nat.eqb_eq]).
  assert (HFB : forall s, In s FB -> In s M /\ hd 0 s = 98).
  { intros s Hs; apply filter_In in Hs; destruct Hs as (Hs & E). split; [exact Hs|]. unfold g in E. destruct (HAB s Hs) as [E'|E']; [rewrite E' in E; discriminate|exact E']. }
  assert (HLA : forall s, In s LA -> In s M /\ last s 0 = 97) by (intros s Hs; apply filter_In in Hs; destruct Hs as (Hs & E); split; [exact Hs|now apply Nat.eqb_eq]).
  assert (HLB : forall s, In s LB -> In s M /\ last s 0 = 98).
  { intros s Hs; apply filter_In in Hs; destruct Hs as (Hs & E). split; [exact Hs|]. unfold f in E. destruct (LAB s Hs) as [E'|E']; [rewrite E' in E; discriminate|exact E']. }
  assert (C1 : length LA = count_occ Nat.eq_dec w 97).
  { unfold LA, f. rewrite filter_length_count. apply count_perm. rewrite HM. apply last_rotations_perm. }
  assert (C2 : length LB = count_occ Nat.eq_dec w 98).
  { unfold LB. rewrite <- (count_perm (map (fun s => last s 0) M) w 98), <- filter_length_count by (rewrite HM; apply last_rotations_perm).
    f_equal. apply filter_ext_in. intros s Hs. unfold f. now destruct (LAB s Hs) as [->| ->]. }
  assert (C3 : length FA = count_occ Nat.eq_dec w 97).
  { unfold FA, g. rewrite filter_length_count. apply count_perm. rewrite HM. apply hd_rotations_perm. }
  assert (C4 : length FB = count_occ Nat.eq_dec w 98).
  { unfold FB. rewrite <- (count_perm (map (hd 0) M) w 98), <- filter_length_count by (rewrite HM; apply hd_rotations_perm).
    f_equal. apply filter_ext_in. intros s Hs. unfold g. now destruct (HAB s Hs) as [->| ->]. }
  assert (EAB : M = FA ++ FB).
  { apply (sorted_unique_le lex_le); [intros x y; apply lex_le_antisym|exact HS| |].
    - apply SS_app; [now apply SS_filter|now apply SS_filter|]. intros a b Ha Hb. apply HFA in Ha. apply HFB in Hb. destruct Ha as (Ha & Ea). destruct Hb as (Hb & Eb).
      destruct (rot2 w a L (IN a Ha)) as (p & q & r & ->). destruct (rot2 w b L (IN b Hb)) as (p' & q' & r' & ->). cbn [hd] in Ea, Eb. subst. right. lx.
    - symmetry. apply filter_split. }
  assert (EP : map (fun s => last s 0) FA = P).
  { rewrite EAB, map_app in EM. symmetry. apply (app_inj_left _ _ _ _) with (2 := EM). rewrite map_length, LP. now symmetry. }
  exists (map (flat_map pd_h) (rev FB) ++ map (inner pd_h 1) (rev LB) ++ map (flat_map pd_h) (rev FA) ++ map (inner pd_h 1) (rev LA)).
  split; [|split].
  - rewrite (rotations_morph_perm pd_h w M Nw) by (try exact HM; intros c _; unfold pd_h; now destruct (c =? 97)).
    assert (E : flat_map (fun s => map (fun e => inner pd_h e s) (seq 1 (length (pd_h (last s 0)) - 1))) M = map (inner pd_h 1) M).
    { clear. induction M as [|s M IH]; [reflexivity|]. cbn [flat_map map]. rewrite IH. unfold pd_h at 2. now destruct (last s 0 =? 97). }
    rewrite E.
    assert (E2 : Permutation (map (inner pd_h 1) M) (map (inner pd_h 1) (rev LB) ++ map (inner pd_h 1) (rev LA))).
    { rewrite <- map_app. apply Permutation_map. rewrite <- (filter_split f M). fold LA LB. rewrite Permutation_app_comm. rewrite <- !Permutation_rev. reflexivity. }
    assert (E3 : Permutation (map (flat_map pd_h) M) (map (flat_map pd_h) (rev FB) ++ map (flat_map pd_h) (rev FA))).
    { rewrite <- map_app. apply Permutation_map. rewrite <- (filter_split g M). fold FA FB. rewrite Permutation_app_comm. rewrite <- !Permutation_rev. reflexivity. }
    rewrite E2, E3. rewrite <- !app_assoc. apply Permutation_app_head. rewrite !app_assoc. apply Permutation_app_tail, Permutation_app_comm.
  - assert (GB : forall s, In s FB -> exists r, flat_map pd_h s = 97 :: 97 :: 97 :: r).
    { intros s Hs. apply HFB in Hs. destruct Hs as (Hs & E). destruct (rot2 w s L (IN s Hs)) as (p & q & r & ->). cbn [hd] in E. subst p.
      cbn. unfold pd_h at 1. destruct (q =? 97); eexists; reflexivity. }
    assert (GA : forall s, In s FA -> exists r, flat_map pd_h s = 97 :: 98 :: r).
    { intros s Hs. apply HFA in Hs. destruct Hs as (Hs & E). destruct (rot2 w s L (IN s Hs)) as (p & q & r & ->). cbn [hd] in E. subst p.
      eexists. cbn. reflexivity. }
    assert (GC : forall s, In s LB -> exists r, inner pd_h 1 s = 97 :: 97 :: 98 :: r).
    { intros s Hs. apply HLB in Hs. destruct Hs as (Hs & E). destruct (rot2' w s L (IN s Hs)) as (y & r & E1 & E2). rewrite E in E2.
      pose proof (rotations_Forall ab w _ F E2) as G. apply Forall_inv_tail in G. apply Forall_inv in G. rename G into Hy.
      destruct Hy as [->| ->]; [|now apply (NB _ r) in E2].
      unfold inner. rewrite E, E1. eexists. cbn. reflexivity. }
    assert (GD : forall s, In s LA -> exists r, inner pd_h 1 s = 98 :: r).
    { intros s Hs. apply HLA in Hs. destruct Hs as (Hs & E). unfold inner. rewrite E. eexists. cbn. reflexivity. }
    assert (SI : forall l x, (forall s, In s l -> In s M /\ last s 0 = x) -> StronglySorted lex_le l -> StronglySorted lex_le (map (inner pd_h 1) (rev l))).
    { intros l x Hl Sl. apply (SS_map_in (fun a b => lex_le b a)); [|now apply SS_rev]. intros s1 s2 H1 H2 Hle. rewrite <- in_rev in H1, H2.
      apply Hl in H1, H2. destruct H1 as (H1 & E1). destruct H2 as (H2 & E2).
      apply (inner_sorted_rev pd_h ab w); auto using pd_mono. now rewrite E1, E2. }
    assert (SM : forall l, (forall s, In s l -> In s M) -> StronglySorted lex_le l -> StronglySorted lex_le (map (flat_map pd_h) (rev l))).
    { intros l Hl Sl. apply (SS_map_in (fun a b => lex_le b a)); [|now apply SS_rev]. intros s1 s2 H1 H2 Hle. rewrite <- in_rev in H1, H2.
      apply (image_sorted_rev pd_h ab w); auto using pd_mono. }
    apply SS_app; [|apply SS_app; [|apply SS_app|]|].
    + apply SM; [intros s Hs; now apply HFB|now apply SS_filter].
    + apply (SI LB 98 HLB). now apply SS_filter.
    + apply SM; [intros s Hs; now apply HFA|now apply SS_filter].
    + apply (SI LA 97 HLA). now apply SS_filter.
    + intros a b Ha Hb. apply in_map_iff in Ha, Hb. destruct Ha as (s & <- & Hs). destruct Hb as (s' & <- & Hs'). rewrite <- in_rev in Hs, Hs'.
      destruct (GA s Hs) as (r & ->). destruct (GD s' Hs') as (r' & ->). right. lx.
    + intros a b Ha Hb. apply in_map_iff in Ha. destruct Ha as (s & <- & Hs). rewrite <- in_rev in Hs. destruct (GC s Hs) as (r & ->). right.
      apply in_app_or in Hb. destruct Hb as [Hb|Hb]; apply in_map_iff in Hb; destruct Hb as (s' & <- & Hs'); rewrite <- in_rev in Hs'.
      * destruct (GA s' Hs') as (r' & ->). lx.
      * destruct (GD s' Hs') as (r' & ->). lx.
    + intros a b Ha Hb. apply in_map_iff in Ha. destruct Ha as (s & <- & Hs). rewrite <- in_rev in Hs. destruct (GB s Hs) as (r & ->). right.
      apply in_app_or in Hb. destruct Hb as [Hb|Hb]; [|apply in_app_or in Hb; destruct Hb as [Hb|Hb]]; apply in_map_iff in Hb; destruct Hb as (s' & <- & Hs'); rewrite <- in_rev in Hs'.
      * destruct (GC s' Hs') as (r' & ->). lx.
      * destruct (GA s' Hs') as (r' & ->). lx.
      * destruct (GD s' Hs') as (r' & ->). lx.
  - rewrite !map_app, !map_map, <- !app_assoc.
    assert (IM : forall s, In s M -> last (flat_map pd_h s) 0 = comp (last s 0)).
    { intros s Hs. rewrite last_flat_map; [|now apply (rotations_ne w), IN|unfold pd_h; now destruct (_ =? 97)]. unfold pd_h, comp. now destruct (_ =? 97). }
    assert (NI : forall s, In s M -> last (inner pd_h 1 s) 0 = 97).
    { intros s Hs. unfold inner. rewrite app_assoc. unfold pd_h at 3. destruct (_ =? 97); cbn [firstn]; apply last_last. }
    f_equal; [|f_equal; [|f_equal]].
    + rewrite (map_const_repeat (fun s => last (flat_map pd_h s) 0) 98); [now rewrite rev_length, C4|].
      intros s Hs. rewrite <- in_rev in Hs. apply HFB in Hs. destruct Hs as (Hs & E). rewrite IM by exact Hs.
      destruct (LAB s Hs) as [->|E2]; [reflexivity|]. exfalso. destruct (rot2' w s L (IN s Hs)) as (y & r & E3 & E4).
      rewrite E2 in E4. assert (hd 0 (removelast s) = hd 0 s) as E5.
      { destruct (rot2 w s L (IN s Hs)) as (p & q & r1 & ->). reflexivity. }
      rewrite E3, E in E5. cbn [hd] in E5. subst y. now apply (NB _ r) in E4.
    + rewrite (map_const_repeat (fun s => last (inner pd_h 1 s) 0) 97); [now rewrite rev_length, C2|].
      intros s Hs. rewrite <- in_rev in Hs. apply NI. now apply HLB.
    + rewrite <- EP, <- map_rev, map_map. apply map_ext_in. intros s Hs. rewrite <- in_rev in Hs. symmetry. apply IM. now apply HFA.
    + rewrite (map_const_repeat (fun s => last (inner pd_h 1 s) 0) 97); [now rewrite rev_length, C1|].
      intros s Hs. rewrite <- in_rev in Hs. apply NI. now apply HLA.
Qed.

(** ** the ternary Thue-Morse word *)
Definition vtm_h (c : nat) : str := if c =? 97 then [97; 98; 99] else if c =? 98 then [97; 99] else [98].
Definition no_cc (w : str) : Prop := forall s r, In s (rotations w) -> s <> 99 :: 99 :: r.
(** last letter of the image *)
Definition vtm_last (c : nat) : nat := if c =? 99 then 98 else 99.
Definition not_c (c : nat) : bool := negb (c =? 99).
Lemma vtm_mono x y s t : abc x -> abc y -> x < y -> lex_lt (vtm_h x ++ s) (vtm_h y ++ t).
Proof. intros [->|[->| ->]] [->|[->| ->]] L; try lia; cbn; lx. Qed.
Lemma vtm_ne c : vtm_h c <> [].
Proof. unfold vtm_h. destruct (c =? 97); [discriminate|]. now destruct (c =? 98). Qed.
Lemma vtm_no_cc w : Forall abc w -> 2 <= length w -> no_cc (flat_map vtm_h w).
Proof.
  intros F L s r Hs E. rewrite rotations_morph in Hs. apply in_flat_map in Hs. destruct Hs as (s0 & Hs0 & Hs).
  unfold blk in Hs. apply in_map_iff in Hs. destruct Hs as (e & <- & He). apply in_seq in He.
  pose proof (rotations_Forall abc w s0 F Hs0) as F0. destruct (rot2 w s0 L Hs0) as (p & q & r0 & ->).
  cbn [hd] in He. pose proof (Forall_inv F0) as Hp. pose proof (Forall_inv (Forall_inv_tail F0)) as Hq.
  destruct Hp as [->|[->| ->]]; cbn in He; destruct e as [|[|[|e]]]; try lia; destruct Hq as [->|[->| ->]]; cbn in E; discriminate.
Qed.

Theorem vtm_bwt_step w b : Forall abc w -> 2 <= length w -> no_cc w -> is_matrix_bwt w b ->
  is_matrix_bwt (flat_map vtm_h w) (map vtm_last b ++ repeat 97 (count_occ Nat.eq_dec w 97) ++ map comp (filter not_c b)).
Proof.
  intros F L NC (M & HM & HS & ->).
  assert (Nw : w <> []) by (intros ->; cbn in L; lia).
  assert (IN : forall s, In s M -> In s (rotations w)) by (intros s Hs; now rewrite <- HM).
  assert (LA : forall s, In s M -> abc (last s 0)).
  { intros s Hs. pose proof (rotations_Forall abc w s F (IN s Hs)) as G. rewrite Forall_forall in G. apply G.
    pose proof (rotations_ne _ _ (IN s Hs)) as N. rewrite (app_removelast_last 0 N) at 2. apply in_or_app. right. now left. }
  set (f := fun s : str => last s 0 =? 97). set (g := fun s : str => not_c (last s 0)).
  set (ci := fun s : str => inner vtm_h (if last s 0 =? 97 then 2 else 1) s).
  exists (map (flat_map vtm_h) M ++ map (inner vtm_h 1) (filter f M) ++ map ci (filter g M)).
  split; [|split].
  - rewrite (rotations_morph_perm vtm_h w M Nw) by (try exact HM; intros c _; apply vtm_ne).
    apply Permutation_app_head. clear HM HS IN. induction M as [|s M IH]; [constructor|].
    cbn [flat_map filter]. rewrite <- IH by (intros s' Hs'; apply LA; now right).
    unfold f, g, ci. destruct (LA s (or_introl eq_refl)) as [E|[E|E]]; rewrite E; cbn [Nat.eqb not_c negb vtm_h length Nat.sub seq map app]; rewrite ?E; cbn [Nat.eqb].
    + constructor. symmetry. apply Permutation_middle.
    + symmetry. apply Permutation_middle.
    + reflexivity.
  - assert (G1 : forall s, In s M -> exists r, flat_map vtm_h s = 97 :: r \/ flat_map vtm_h s = 98 :: 97 :: r).
    { intros s Hs. pose proof (rotations_Forall abc w _ F (IN s Hs)) as G. destruct (rot2 w s L (IN s Hs)) as (p & q & r & ->).
      pose proof (Forall_inv G) as Hp. pose proof (Forall_inv (Forall_inv_tail G)) as Hq.
      destruct Hp as [->|[->| ->]]; destruct Hq as [->|[->| ->]]; try (now apply (NC _ r) in IN); cbn; eauto.
      exfalso. now apply (NC _ r (IN _ Hs)). }
    assert (G2 : forall s, In s M -> last s 0 = 97 -> exists r, inner vtm_h 1 s = 98 :: 99 :: r) by (intros s Hs E; unfold inner; rewrite E; eexists; cbn; reflexivity).
    assert (HG : forall s, In s (filter g M) -> In s M /\ (last s 0 = 97 \/ last s 0 = 98)).
    { intros s Hs. apply filter_In in Hs. destruct Hs as (Hs & E). split; [exact Hs|]. unfold g, not_c in E. destruct (LA s Hs) as [->|[->|E2]]; auto. rewrite E2 in E. discriminate. }
    assert (G3 : forall s, last s 0 = 97 \/ last s 0 = 98 -> exists r, ci s = 99 :: r) by (intros s [E|E]; unfold ci, inner; rewrite E; eexists; cbn; reflexivity).
    apply SS_app; [|apply SS_app|].
    + apply (SS_map_in lex_le); [|exact HS]. intros s1 s2 H1 H2. apply (image_sorted vtm_h abc w); auto using vtm_mono.
    + apply (SS_map_in lex_le); [|now apply SS_filter]. intros s1 s2 H1 H2 Hl. apply filter_In in H1, H2. destruct H1 as (H1 & E1). destruct H2 as (H2 & E2).
      apply Nat.eqb_eq in E1, E2. apply (inner_sorted vtm_h abc w); auto using vtm_mono. now rewrite E1, E2.
    + apply (SS_map_in lex_le); [|now apply SS_filter]. intros s1 s2 H1 H2 Hl. apply HG in H1, H2. destruct H1 as (H1 & E1). destruct H2 as (H2 & E2).
      unfold ci. apply (inner_sorted vtm_h abc w); auto using vtm_mono.
      * now intros ->.
      * destruct E1 as [->| ->]; destruct E2 as [->| ->]; reflexivity.
    + intros a b Ha Hb. apply in_map_iff in Ha, Hb. destruct Ha as (s & <- & Hs). destruct Hb as (s' & <- & Hs'). apply filter_In in Hs. destruct Hs as (Hs & E). apply Nat.eqb_eq in E.
      apply HG in Hs'. destruct Hs' as (Hs' & E'). right. destruct (G2 s Hs E) as (r & ->). destruct (G3 s' E') as (r' & ->). lx.
    + intros a b Ha Hb. apply in_map_iff in Ha. destruct Ha as (s & <- & Hs). right. apply in_app_or in Hb. destruct Hb as [Hb|Hb]; apply in_map_iff in Hb; destruct Hb as (s' & <- & Hs').
      * apply filter_In in Hs'. destruct Hs' as (Hs' & E). apply Nat.eqb_eq in E. destruct (G1 s Hs) as (r & [->| ->]); destruct (G2 s' Hs' E) as (r' & ->); lx.
      * apply HG in Hs'. destruct Hs' as (Hs' & E). destruct (G1 s Hs) as (r & [->| ->]); destruct (G3 s' E) as (r' & ->); lx.
  - rewrite !map_app, !map_map. f_equal; [|f_equal].
    + apply map_ext_in. intros s Hs. rewrite last_flat_map; [|now apply (rotations_ne w), IN|apply vtm_ne]. destruct (LA s Hs) as [->|[->| ->]]; reflexivity.
    + rewrite (map_const_repeat (fun s => last (inner vtm_h 1 s) 0) 97).
      * f_equal. unfold f. rewrite filter_length_count. apply count_perm. rewrite HM. symmetry. apply last_rotations_perm.
      * intros s Hs. apply filter_In in Hs. destruct Hs as (_ & E). apply Nat.eqb_eq in E. unfold inner. rewrite E, app_assoc. apply last_last.
    + assert (FM : forall l, filter not_c (map (fun r : str => last r 0) l) = map (fun r => last r 0) (filter g l)).
      { intros l. induction l as [|s l IH]; [reflexivity|]. cbn [map filter]. unfold g at 1. destruct (not_c (last s 0)); cbn [map]; now rewrite IH. }
      rewrite FM, map_map. apply map_ext_in. intros s Hs. apply filter_In in Hs. destruct Hs as (Hs & E). unfold g, not_c in E.
      unfold ci, inner. rewrite app_assoc. destruct (LA s Hs) as [E2|[E2|E2]]; rewrite E2 in *; [|change (firstn (if 98 =? 97 then 2 else 1) (vtm_h 98)) with [97]; now rewrite last_last|discriminate].
      change (firstn (if 97 =? 97 then 2 else 1) (vtm_h 97)) with ([97] ++ [98]). rewrite app_assoc. now rewrite last_last.
Qed.
