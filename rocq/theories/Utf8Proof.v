(** Utf8Proof.v : [utf8_valid] decides well-formedness. *)
From Coq Require Import NArith ZArith ZifyN.
From Verif Require Import Base SpecStr SpecUtf8 ModelAttr.
Local Open Scope N_scope.

Ltac dm := Z.div_mod_to_equations; lia.
Lemma enc1 b : b < 128 -> scalar b /\ utf8_encode b = [b].
Proof. intros H. unfold scalar, utf8_encode. destruct (N.ltb_spec b 128); [|lia]. split; [lia|reflexivity]. Qed.
Lemma enc2 b c : 194 <= b <= 223 -> 128 <= c <= 191 ->
  let u := (b - 192) * 64 + (c - 128) in scalar u /\ utf8_encode u = [b; c].
Proof.
  intros H1 H2. cbv zeta. set (u := _ + _). unfold scalar, utf8_encode.
  assert (128 <= u < 2048) by (unfold u; lia).
  destruct (N.ltb_spec u 128); [lia|]. destruct (N.ltb_spec u 2048); [|lia]. split; [lia|].
  assert (u / 64 = b - 192) by (symmetry; apply (N.div_unique u 64 _ (c - 128)); unfold u; lia).
  assert (u mod 64 = c - 128) by (symmetry; apply (N.mod_unique u 64 (b - 192)); unfold u; lia).
  repeat f_equal; lia.
Qed.
Lemma enc3 b c d : 224 <= b <= 239 -> 128 <= c <= 191 -> 128 <= d <= 191 -> (b = 224 -> 160 <= c) -> (b = 237 -> c <= 159) ->
  let u := (b - 224) * 4096 + (c - 128) * 64 + (d - 128) in scalar u /\ utf8_encode u = [b; c; d].
Proof.
  intros H1 H2 H3 H4 H5. cbv zeta. set (u := _ + _ + _). unfold scalar, utf8_encode.
  assert (2048 <= u < 65536) by (unfold u; lia).
  destruct (N.ltb_spec u 128); [lia|]. destruct (N.ltb_spec u 2048); [lia|]. destruct (N.ltb_spec u 65536); [|lia].
  split; [unfold u; lia|].
  assert (E1 : u / 4096 = b - 224) by (symmetry; apply (N.div_unique u 4096 _ ((c - 128) * 64 + (d - 128))); unfold u; lia).
  assert (E2 : u / 64 = (b - 224) * 64 + (c - 128)) by (symmetry; apply (N.div_unique u 64 _ (d - 128)); unfold u; lia).
  assert (E3 : u mod 64 = d - 128) by (symmetry; apply (N.mod_unique u 64 ((b - 224) * 64 + (c - 128))); unfold u; lia).
  rewrite E2. assert (E4 : ((b - 224) * 64 + (c - 128)) mod 64 = c - 128) by (symmetry; apply (N.mod_unique _ 64 (b - 224)); lia).
  rewrite E1, E3, E4. repeat f_equal; lia.
Qed.
Lemma enc4 b c d e : 240 <= b <= 244 -> 128 <= c <= 191 -> 128 <= d <= 191 -> 128 <= e <= 191 -> (b = 240 -> 144 <= c) -> (b = 244 -> c <= 143) ->
  let u := (b - 240) * 262144 + (c - 128) * 4096 + (d - 128) * 64 + (e - 128) in scalar u /\ utf8_encode u = [b; c; d; e].
Proof.
  intros H1 H2 H3 H3' H4 H5. cbv zeta. set (u := _ + _ + _ + _). unfold scalar, utf8_encode.
  assert (65536 <= u < 1114112) by (unfold u; lia).
  destruct (N.ltb_spec u 128); [lia|]. destruct (N.ltb_spec u 2048); [lia|]. destruct (N.ltb_spec u 65536); [lia|].
  split; [lia|].
  assert (E1 : u / 262144 = b - 240) by (symmetry; apply (N.div_unique u 262144 _ ((c - 128) * 4096 + (d - 128) * 64 + (e - 128))); unfold u; lia).
  assert (E2 : u / 4096 = (b - 240) * 64 + (c - 128)) by (symmetry; apply (N.div_unique u 4096 _ ((d - 128) * 64 + (e - 128))); unfold u; lia).
  assert (E3 : u / 64 = (b - 240) * 4096 + (c - 128) * 64 + (d - 128)) by (symmetry; apply (N.div_unique u 64 _ (e - 128)); unfold u; lia).
  assert (E4 : u mod 64 = e - 128) by (symmetry; apply (N.mod_unique u 64 (u / 64)); rewrite ?E3; unfold u; lia).
  rewrite E2, E3.
  assert (E5 : ((b - 240) * 64 + (c - 128)) mod 64 = c - 128) by (symmetry; apply (N.mod_unique _ 64 (b - 240)); lia).
  assert (E6 : ((b - 240) * 4096 + (c - 128) * 64 + (d - 128)) mod 64 = d - 128) by (symmetry; apply (N.mod_unique _ 64 ((b - 240) * 64 + (c - 128))); lia).
  rewrite E1, E4, E5, E6. repeat f_equal; lia.
Qed.
Lemma text_app us bs c : scalar c -> map N.of_nat us = utf8_encode c -> utf8_text bs -> utf8_text (us ++ bs).
Proof.
  intros H1 H2 (cs & H3 & H4). exists (c :: cs). split; [now constructor|]. rewrite map_app, H2, H4. reflexivity.
Qed.
Lemma cont_spec lo hi b : is_cont lo hi b = true <-> (lo <= b <= hi)%nat.
Proof. unfold is_cont. rewrite andb_true_iff, !Nat.leb_le. tauto. Qed.
Lemma valid_text n : forall bs, (length bs <= n)%nat -> utf8_valid bs = true -> utf8_text bs.
Proof.
  induction n as [|n IH]; intros [|b r] Hn H; try (exists []; split; [constructor|reflexivity]); [simpl in Hn; lia|].
  cbn [utf8_valid] in H. cbn [length] in Hn.
  destruct (Nat.ltb_spec b 128).
  { destruct (enc1 (N.of_nat b) ltac:(lia)) as (A1 & A2). apply (text_app [b] r _ A1); [now rewrite A2|]. apply IH; [lia|exact H]. }
  destruct r as [|c1 r1]; [discriminate|]. cbn [length] in Hn.
  destruct (is_cont 194 223 b) eqn:E1.
  { apply cont_spec in E1. apply andb_prop in H. destruct H as (H & H'). apply cont_spec in H.
    destruct (enc2 (N.of_nat b) (N.of_nat c1) ltac:(lia) ltac:(lia)) as (A1 & A2).
    apply (text_app [b; c1] r1 _ A1); [now rewrite A2|]. apply IH; [lia|exact H']. }
  destruct r1 as [|c2 r2]; [discriminate|]. cbn [length] in Hn.
  assert (T3 : (224 <= b <= 239)%nat -> (128 <= c1 <= 191)%nat -> is_cont 128 191 c2 = true -> (b = 224 -> 160 <= c1)%nat -> (b = 237 -> c1 <= 159)%nat ->
    utf8_valid r2 = true -> utf8_text (b :: c1 :: c2 :: r2)).
  { intros Z1 Z2 Z3 Z4 Z5 Z6. apply cont_spec in Z3.
    destruct (enc3 (N.of_nat b) (N.of_nat c1) (N.of_nat c2) ltac:(lia) ltac:(lia) ltac:(lia) ltac:(lia) ltac:(lia)) as (A1 & A2).
    apply (text_app [b; c1; c2] r2 _ A1); [now rewrite A2|]. apply IH; [lia|exact Z6]. }
  destruct (Nat.eqb_spec b 224) as [Eb|Nb].
  { apply andb_prop in H. destruct H as (H & H'). apply andb_prop in H. destruct H as (H & H''). apply cont_spec in H. apply T3; auto; lia. }
  destruct (Nat.eqb_spec b 237) as [Eb'|Nb'].
  { apply andb_prop in H. destruct H as (H & H'). apply andb_prop in H. destruct H as (H & H''). apply cont_spec in H. apply T3; auto; lia. }
  destruct (is_cont 225 239 b) eqn:E2.
  { apply cont_spec in E2. apply andb_prop in H. destruct H as (H & H'). apply andb_prop in H. destruct H as (H & H''). apply cont_spec in H. apply T3; auto; lia. }
  destruct r2 as [|c3 r3]; [discriminate|]. cbn [length] in Hn.
  apply andb_prop in H. destruct H as (H & H'). apply andb_prop in H. destruct H as (H & Z3). apply andb_prop in H. destruct H as (H & Z2).
  apply cont_spec in Z2. apply cont_spec in Z3.
  assert (Z1 : (240 <= b <= 244)%nat /\ (128 <= c1 <= 191)%nat /\ (b = 240 -> 144 <= c1)%nat /\ (b = 244 -> c1 <= 143)%nat).
  { destruct (Nat.eqb_spec b 240); [apply cont_spec in H; lia|]. destruct (Nat.eqb_spec b 244); [apply cont_spec in H; lia|].
    apply andb_prop in H. destruct H as (H & Hq). apply cont_spec in H. apply cont_spec in Hq. lia. }
  destruct Z1 as (Z1 & Z4 & Z5 & Z6).
  destruct (enc4 (N.of_nat b) (N.of_nat c1) (N.of_nat c2) (N.of_nat c3) ltac:(lia) ltac:(lia) ltac:(lia) ltac:(lia) ltac:(lia) ltac:(lia)) as (A1 & A2).
  apply (text_app [b; c1; c2; c3] r3 _ A1); [now rewrite A2|]. apply IH; [lia|exact H'].
Qed.
Lemma cont_true lo hi b : (lo <= b <= hi)%nat -> is_cont lo hi b = true.
Proof. apply cont_spec. Qed.
Lemma cont_false lo hi b : (b < lo \/ hi < b)%nat -> is_cont lo hi b = false.
Proof. intros H. destruct (is_cont lo hi b) eqn:E; [|reflexivity]. apply cont_spec in E. lia. Qed.
Lemma div_bnd c k lo hi : 0 < k -> lo * k <= c -> c < (hi + 1) * k -> lo <= c / k <= hi.
Proof.
  intros Hk H1 H2. split; [apply N.div_le_lower_bound; lia|]. assert (c / k < hi + 1) by (apply N.div_lt_upper_bound; lia). lia.
Qed.
Lemma cons_eq {X} (x y : X) l m : x :: l = y :: m -> x = y /\ l = m.
Proof. intros E. injection E. auto. Qed.
Lemma valid_encode c us r : scalar c -> map N.of_nat us = utf8_encode c -> utf8_valid (us ++ r) = utf8_valid r.
Proof.
  intros (H1 & H2) E. unfold utf8_encode in E.
  pose proof (N.mod_lt c 64 ltac:(lia)) as M1. pose proof (N.mod_lt (c / 64) 64 ltac:(lia)) as M2. pose proof (N.mod_lt (c / 4096) 64 ltac:(lia)) as M3.
  destruct (N.ltb_spec c 128).
  { destruct us as [|b [|]]; cbn [map] in E; try discriminate E. apply cons_eq in E; destruct E as (E & _). cbn [app utf8_valid]. destruct (Nat.ltb_spec b 128); [reflexivity|lia]. }
  destruct (N.ltb_spec c 2048).
  { destruct us as [|b [|b1 [|]]]; cbn [map] in E; try discriminate E. apply cons_eq in E; destruct E as (E1 & E); apply cons_eq in E; destruct E as (E2 & _). cbn [app utf8_valid].
    pose proof (div_bnd c 64 2 31 ltac:(lia) ltac:(lia) ltac:(lia)) as B.
    destruct (Nat.ltb_spec b 128); [lia|]. rewrite (cont_true 194 223 b) by lia. rewrite (cont_true 128 191 b1) by lia. reflexivity. }
  destruct (N.ltb_spec c 65536).
  { destruct us as [|b [|b1 [|b2 [|]]]]; cbn [map] in E; try discriminate E. apply cons_eq in E; destruct E as (E1 & E); apply cons_eq in E; destruct E as (E2 & E); apply cons_eq in E; destruct E as (E3 & _). cbn [app utf8_valid].
    pose proof (div_bnd c 4096 0 15 ltac:(lia) ltac:(lia) ltac:(lia)) as B.
    destruct (Nat.ltb_spec b 128); [lia|]. rewrite (cont_false 194 223 b) by lia.
    assert (D : c / 64 = 64 * (c / 4096) + (c / 64) mod 64).
    { assert (X : c / 4096 = c / 64 / 64) by (rewrite N.div_div by lia; reflexivity). rewrite X. apply N.div_mod. lia. }
    pose proof (N.div_mod c 64 ltac:(lia)) as D'.
    rewrite (cont_true 128 191 b2) by lia.
    destruct (Nat.eqb_spec b 224); [rewrite cont_true by lia; reflexivity|].
    destruct (Nat.eqb_spec b 237); [rewrite cont_true by lia; reflexivity|].
    rewrite (cont_true 225 239 b) by lia. rewrite cont_true by lia. reflexivity. }
  destruct us as [|b [|b1 [|b2 [|b3 [|]]]]]; cbn [map] in E; try discriminate E. apply cons_eq in E; destruct E as (E1 & E); apply cons_eq in E; destruct E as (E2 & E); apply cons_eq in E; destruct E as (E3 & E); apply cons_eq in E; destruct E as (E4 & _). cbn [app utf8_valid].
  pose proof (div_bnd c 262144 0 4 ltac:(lia) ltac:(lia) ltac:(lia)) as B.
  destruct (Nat.ltb_spec b 128); [lia|]. rewrite (cont_false 194 223 b) by lia.
  assert (D : c / 4096 = 64 * (c / 262144) + (c / 4096) mod 64).
  { assert (X : c / 262144 = c / 4096 / 64) by (rewrite N.div_div by lia; reflexivity). rewrite X. apply N.div_mod. lia. }
  pose proof (N.div_mod c 4096 ltac:(lia)) as D'. pose proof (N.mod_lt c 4096 ltac:(lia)).
  destruct (Nat.eqb_spec b 224); [lia|]. destruct (Nat.eqb_spec b 237); [lia|]. rewrite (cont_false 225 239 b) by lia.
  rewrite (cont_true 128 191 b2) by lia. rewrite (cont_true 128 191 b3) by lia.
  destruct (Nat.eqb_spec b 240); [rewrite cont_true by lia; reflexivity|].
  destruct (Nat.eqb_spec b 244); [rewrite cont_true by lia; reflexivity|].
  rewrite (cont_true 241 243 b) by lia. rewrite cont_true by lia. reflexivity.
Qed.
Lemma map_of_nat_app us l1 l2 : map N.of_nat us = l1 ++ l2 -> exists u1 u2, us = u1 ++ u2 /\ map N.of_nat u1 = l1 /\ map N.of_nat u2 = l2.
Proof.
  revert us. induction l1 as [|x l1 IH]; intros us E; [exists [], us; auto|]. destruct us as [|u us]; [discriminate|]. cbn [map app] in E.
  injection E as Ex E. destruct (IH us E) as (u1 & u2 & -> & <- & <-). exists (u :: u1), u2. cbn [map app]. subst x. auto.
Qed.
Lemma text_valid bs : utf8_text bs -> utf8_valid bs = true.
Proof.
  intros (cs & H & E). revert bs E. induction H as [|c cs Hc Hcs IH]; intros bs E.
  - destruct bs; [reflexivity|discriminate].
  - cbn [map concat] in E. destruct (map_of_nat_app _ _ _ E) as (u1 & u2 & -> & E1 & E2). rewrite (valid_encode c u1 u2 Hc E1). now apply IH.
Qed.
Lemma utf8_valid_iff bs : utf8_valid bs = true <-> utf8_text bs.
Proof. split; [apply (valid_text (length bs) bs (le_n _))|apply text_valid]. Qed.
