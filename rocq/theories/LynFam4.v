(** LynFam4.v : the Lyndon factorizations of the Thue-Morse words: the map y b -> a h(y) b keeps the order and the Lyndon words. *)
From Verif Require Import Base SpecStr LexFacts SpecWord ModelWord WordProof WordProof2 WordProof3 WordProof4 LynMorph LynFam LynFam2.

Local Notation iter := iter_morphism.
Local Notation h := thuemorse_morphism.
Local Notation M k := (iter h k [97]).
Definition ab (c : nat) : Prop := c = 97 \/ c = 98.
Definition B (y : str) : str := y ++ [98].
Definition ty (y : str) : str := 97 :: flat_map h y.
Ltac fab := repeat (apply Forall_cons; [unfold ab; auto|]); constructor.
Lemma h_ab y : Forall ab (flat_map h y).
Proof. induction y as [|c y IH]; [constructor|]. cbn [flat_map]. apply Forall_app. split; [|exact IH]. unfold thuemorse_morphism, ab. destruct (c =? 97); fab. Qed.
Lemma ty_ab y : Forall ab (ty y).
Proof. constructor; [left; reflexivity|apply h_ab]. Qed.
Lemma h_lt y : forall z, Forall ab y -> Forall ab z -> lex_lt (B y) (B z) -> lex_lt (B (flat_map h y)) (B (flat_map h z)).
Proof.
  induction y as [|c y IH]; intros [|d z] Hy Hz L.
  - exfalso. inversion L; subst; [lia|eapply lex_lt_nil_r; eassumption].
  - inversion Hz as [|? ? Hd _]; subst. cbn [B app] in L. inversion L; subst; [destruct Hd; subst; lia|]. cbn. apply lex_tail. constructor.
  - inversion Hy as [|? ? Hc _]; subst. cbn [B app] in L. inversion L; subst; [|exfalso; eapply lex_lt_nil_r; eassumption]. destruct Hc as [->| ->]; [|lia]. cbn. apply lex_head. lia.
  - inversion Hy as [|? ? Hc Hy']; inversion Hz as [|? ? Hd Hz']; subst. unfold B in *. cbn [app flat_map] in *. rewrite <- !app_assoc. inversion L; subst.
    + destruct Hc as [->| ->], Hd as [->| ->]; try lia. cbn. apply lex_head. lia.
    + apply lex_lt_app_same. auto.
Qed.
Lemma ty_lt y z : Forall ab y -> Forall ab z -> lex_lt (B y) (B z) -> lex_lt (B (ty y)) (B (ty z)).
Proof. intros Hy Hz L. unfold ty, B. cbn [app]. apply lex_tail. now apply h_lt. Qed.
Lemma ty_lyndon r : Forall ab r -> lyndon (B (97 :: r)) -> lyndon (B (ty (97 :: r))).
Proof.
  intros Hr (_ & HL). split; [discriminate|]. intros u v E Hu Hv. unfold B, ty in E. cbn [app] in E. destruct u as [|u0 u]; [congruence|]. injection E as <- E. change (flat_map h (97 :: r) ++ [98] = u ++ v) in E.
  assert (U : v = [98] \/ exists v', v = v' ++ [98] /\ flat_map h (97 :: r) = u ++ v' /\ v' <> []).
  { destruct (app_eq_app _ _ _ _ E) as (l & [(E1 & E2)|(E1 & E2)]).
    - destruct l as [|l0 l]; [left; exact E2|right; exists (l0 :: l); repeat split; auto; discriminate].
    - left. destruct l as [|l0 l]; [symmetry; exact E2|]. injection E2 as <- E2. destruct l; [cbn [app] in E2; congruence|discriminate E2]. }
  destruct U as [->|(v' & -> & E' & Hv')]; [unfold B, ty; cbn [app]; apply lex_head; lia|].
  destruct (flat_map_split h (97 :: r) u v' E') as [(w1 & w2 & Ew & -> & ->)|(w1 & d & w2 & x & z & Ew & Hd & Hx & Hz & -> & ->)].
  - assert (O : Forall ab (w1 ++ w2)) by (rewrite <- Ew; constructor; [left; reflexivity|exact Hr]). destruct w2 as [|c w2]; [now contradiction Hv'|].
    apply Forall_app in O. destruct O as (_ & O). inversion O as [|? ? Hc _]; subst. destruct Hc as [->| ->]; cbn; [apply lex_tail|]; apply lex_head; lia.
  - assert (O : Forall ab (w1 ++ d :: w2)) by (rewrite <- Ew; constructor; [left; reflexivity|exact Hr]). apply Forall_app in O. destruct O as (_ & O). inversion O as [|? ? Hc O2]; subst.
    destruct x as [|x0 x]; [congruence|]. destruct Hc as [->| ->]; cbn in Hd; injection Hd as <- Hd.
    + destruct x as [|x1 x]; [|injection Hd as _ Hd; destruct x; [cbn [app] in Hd; congruence|discriminate Hd]]. cbn [app] in Hd. subst z. cbn. apply lex_head. lia.
    + destruct x as [|x1 x]; [|injection Hd as _ Hd; destruct x; [cbn [app] in Hd; congruence|discriminate Hd]]. cbn [app] in Hd. subst z. change (([97] ++ flat_map h w2) ++ [98]) with (B (ty w2)).
      apply ty_lt; [constructor; [left; reflexivity|exact Hr]|exact O2|]. apply (HL (w1 ++ [98])).
      * unfold B. rewrite Ew, <- !app_assoc. reflexivity.
      * destruct w1; discriminate.
      * unfold B. destruct w2; discriminate.
Qed.
Fixpoint tyn (j : nat) (y : str) : str := match j with O => y | S j => ty (tyn j y) end.
Lemma tyn_ab j y : Forall ab y -> Forall ab (tyn j y).
Proof. intros H. destruct j as [|j]; [exact H|apply ty_ab]. Qed.
Lemma tyn_S j y : tyn (S j) y = tyn j (ty y).
Proof. induction j as [|j IH]; [reflexivity|]. cbn [tyn] in *. now rewrite IH. Qed.
Lemma tyn_lyndon j r : Forall ab r -> lyndon (B (97 :: r)) -> lyndon (B (tyn j (97 :: r))).
Proof.
  intros Hr L. assert (X : exists r', tyn j (97 :: r) = 97 :: r' /\ Forall ab r' /\ lyndon (B (97 :: r'))); [|destruct X as (r' & -> & _ & H); exact H].
  induction j as [|j (r' & E & O & L')]; [exists r; auto|]. cbn [tyn]. rewrite E. exists (flat_map h (97 :: r')). split; [reflexivity|]. split; [apply h_ab|]. exact (ty_lyndon r' O L').
Qed.
Lemma tyn_lt j y z : Forall ab y -> Forall ab z -> lex_lt (B y) (B z) -> lex_lt (B (tyn j y)) (B (tyn j z)).
Proof. intros Hy Hz L. induction j as [|j IH]; [exact L|]. cbn [tyn]. apply ty_lt; auto using tyn_ab. Qed.
Definition mc (j : nat) : str := B (tyn j [97]).
Definition md (j : nat) : str := B (tyn j [97; 97]).
Lemma mc_lyndon j : lyndon (mc j). Proof. apply tyn_lyndon; [fab|apply lyndonb_ok; reflexivity]. Qed.
Lemma md_lyndon j : lyndon (md j). Proof. apply tyn_lyndon; [fab|apply lyndonb_ok; reflexivity]. Qed.
Lemma mc_down j : lex_le (mc (S j)) (mc j).
Proof. right. unfold mc. rewrite tyn_S. apply tyn_lt; [apply ty_ab|fab|]. apply lex_ltb_ok. reflexivity. Qed.
Lemma md_c j : lex_le (md j) (mc j).
Proof. right. apply tyn_lt; [fab|fab|]. apply lex_ltb_ok. reflexivity. Qed.
Lemma md_up j : lex_le (md j) (md (S (S j))).
Proof. right. unfold md. rewrite !tyn_S. apply tyn_lt; [fab|apply ty_ab|]. apply lex_ltb_ok. reflexivity. Qed.
Lemma B_len y : length (B y) = S (length y). Proof. unfold B. rewrite app_length. cbn [length]. lia. Qed.
Lemma h_len y : length (flat_map h y) = 2 * length y.
Proof. induction y as [|c y IH]; [reflexivity|]. cbn [flat_map]. rewrite app_length, IH. unfold thuemorse_morphism. destruct (c =? 97); cbn [length]; lia. Qed.
Lemma tyn_len j y : length (B (tyn j y)) = 2 ^ j * length (B y).
Proof. induction j as [|j IH]; [cbn [tyn Nat.pow]; lia|]. cbn [tyn Nat.pow]. rewrite <- Nat.mul_assoc, <- IH. unfold ty. rewrite !B_len. cbn [length]. rewrite h_len. lia. Qed.
Lemma mc_len j : length (mc j) = 2 ^ (j + 1). Proof. unfold mc. rewrite tyn_len, Nat.pow_add_r. reflexivity. Qed.
Lemma md_len j : length (md j) = 3 * 2 ^ j. Proof. unfold md. rewrite tyn_len. change (length (B [97; 97])) with 3. lia. Qed.

(** the words *)
Lemma lift ys : 97 :: flat_map h (concat (map B ys)) = concat (map B (map ty ys)) ++ [97].
Proof.
  induction ys as [|y ys IH]; [reflexivity|]. cbn [map concat]. rewrite <- app_assoc, <- IH, flat_map_app. unfold B at 1 3. rewrite flat_map_app. cbn [flat_map]. unfold ty at 1. rewrite <- !app_assoc. reflexivity.
Qed.
Definition yc (n : nat) : list str := map (fun j => tyn j [97]) (seq 0 n).
Lemma yc_S n : yc (S n) = [97] :: map ty (yc n).
Proof. unfold yc. cbn [seq map]. rewrite <- seq_shift, !map_map. reflexivity. Qed.
Lemma yc_B n : map B (yc n) = map mc (seq 0 n).
Proof. unfold yc. now rewrite map_map. Qed.
Definition y0 (i : nat) : list str := map (fun j => tyn (2 * j) [97; 97]) (rev (seq 0 (S i))).
Definition y1 (i : nat) : list str := map (fun j => tyn (2 * j + 1) [97; 97]) (rev (seq 0 (S i))).
Definition d0 (j : nat) : str := md (2 * j).
Definition d1 (j : nat) : str := md (2 * j + 1).
Lemma y0_B i : map B (y0 i) = map d0 (rev (seq 0 (S i))). Proof. unfold y0. now rewrite map_map. Qed.
Lemma y1_B i : map B (y1 i) = map d1 (rev (seq 0 (S i))). Proof. unfold y1. now rewrite map_map. Qed.
Lemma y01 i : map ty (y0 i) = y1 i.
Proof. unfold y0, y1. rewrite map_map. apply map_ext. intros j. replace (2 * j + 1) with (S (2 * j)) by lia. reflexivity. Qed.
Lemma rev_seq_S n : rev (seq 0 (S n)) = map S (rev (seq 0 n)) ++ [0].
Proof. cbn [seq rev]. rewrite <- seq_shift, map_rev. reflexivity. Qed.
Lemma y10 i : map ty (y1 i) ++ [[97; 97]] = y0 (S i).
Proof.
  unfold y0. rewrite (rev_seq_S (S i)), map_app. cbn [map]. f_equal. unfold y1. rewrite !map_map. apply map_ext. intros j. replace (2 * S j) with (S (2 * j + 1)) by lia. reflexivity.
Qed.
Lemma tm_words i : M (2 * i + 3) = concat (map B (([97; 98] :: yc (2 * i + 1)) ++ y0 i)) /\ M (2 * i + 4) = concat (map B (([97; 98] :: yc (2 * i + 2)) ++ y1 i)) ++ [97].
Proof.
  assert (A : forall i, M (2 * i + 3) = concat (map B (([97; 98] :: yc (2 * i + 1)) ++ y0 i)) -> M (2 * i + 4) = concat (map B (([97; 98] :: yc (2 * i + 2)) ++ y1 i)) ++ [97]).
  { clear i. intros i E. replace (2 * i + 4) with (S (2 * i + 3)) by lia. rewrite iter_S, E. apply (app_inv_head [97]). change ([97] ++ flat_map h ?x) with (97 :: flat_map h x). rewrite lift.
    replace (2 * i + 2) with (S (2 * i + 1)) by lia. rewrite yc_S, map_app, y01, app_assoc. f_equal. }
  induction i as [|i (IH1 & IH2)]; [split; [reflexivity|apply A; reflexivity]|].
  assert (X : M (2 * S i + 3) = concat (map B (([97; 98] :: yc (2 * S i + 1)) ++ y0 (S i)))); [|split; [exact X|apply A; exact X]].
  replace (2 * S i + 3) with (S (2 * i + 4)) by lia. rewrite iter_S, IH2, flat_map_app. apply (app_inv_head [97]).
  change ([97] ++ flat_map h ?x ++ ?y) with ((97 :: flat_map h x) ++ y). rewrite lift. replace (2 * S i + 1) with (S (2 * i + 2)) by lia. rewrite yc_S, <- y10.
  rewrite (app_assoc _ (map ty (y1 i))), (map_app B _ [[97; 97]]), concat_app, <- app_assoc, (app_assoc [97]). rewrite map_app. reflexivity.
Qed.
Lemma tm_prefix n : lyndon_factorization ([97; 98; 98] ++ concat (map mc (seq 0 n))) ([[97; 98; 98]] ++ map mc (seq 0 n)).
Proof.
  apply factors_app; [apply factors_one, lyndonb_ok; reflexivity|apply (down_chain mc); [apply mc_lyndon|apply mc_down]|]. intros f r g s E1 E2. apply (last_inj [] r _ f) in E1. subst f.
  destruct n as [|n]; [discriminate E2|]. injection E2 as <- _. right. apply lex_ltb_ok. reflexivity.
Qed.
Lemma tm_prefix_last n f r : [[97; 98; 98]] ++ map mc (seq 0 (S n)) = r ++ [f] -> f = mc n.
Proof. rewrite seq_S, map_app, app_assoc. intros E. apply last_inj in E. now subst. Qed.
Theorem tm_odd_factors i : lyndon_factorization (M (2 * i + 3)) (([[97; 98; 98]] ++ map mc (seq 0 (2 * i + 1))) ++ map d0 (rev (seq 0 (S i)))).
Proof.
  destruct (tm_words i) as (-> & _). rewrite map_app, concat_app, y0_B. cbn [map concat]. rewrite yc_B. apply factors_app; [apply tm_prefix|apply (up_chain d0); [intros; apply md_lyndon|]|].
  - intros j. unfold d0. replace (2 * S j) with (S (S (2 * j))) by lia. apply md_up.
  - intros f r g s E1 E2. replace (2 * i + 1) with (S (2 * i)) in E1 by lia. apply tm_prefix_last in E1. subst f. destruct (rev_first _ _ _ _ E2) as (m & Em & ->). injection Em as <-. apply md_c.
Qed.
Theorem tm_even_factors i : lyndon_factorization (M (2 * i + 4)) (([[97; 98; 98]] ++ map mc (seq 0 (2 * i + 2))) ++ map d1 (rev (seq 0 (S i))) ++ [[97]]).
Proof.
  destruct (tm_words i) as (_ & ->). rewrite map_app, concat_app, y1_B, <- app_assoc. cbn [map concat]. rewrite yc_B. apply factors_app; [apply tm_prefix|apply factors_app; [apply (up_chain d1); [intros; apply md_lyndon|]|apply factors_one, lyndonb_ok; reflexivity|]|].
  - intros j. unfold d1. replace (2 * S j + 1) with (S (S (2 * j + 1))) by lia. apply md_up.
  - intros f r g s E1 E2. injection E2 as <- _. apply rev_last in E1. subst f. right. apply lex_ltb_ok. reflexivity.
  - intros f r g s E1 E2. replace (2 * i + 2) with (S (2 * i + 1)) in E1 by lia. apply tm_prefix_last in E1. subst f. rewrite seq_S, rev_app_distr in E2. cbn [rev app map Nat.add] in E2. injection E2 as <- _. apply md_c.
Qed.
