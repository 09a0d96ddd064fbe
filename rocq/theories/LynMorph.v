(** LynMorph.v : morphisms that preserve the lexicographic order and Lyndon words. *)
From Verif Require Import Base SpecStr LexFacts SpecWord WordProof WordProof2 WordProof4.

(** u is smaller than v, and stays so whatever is appended *)
Fixpoint below (u v : str) : Prop :=
  match u, v with x :: u', y :: v' => x < y \/ x = y /\ below u' v' | _, _ => False end.
Fixpoint belowb (u v : str) : bool :=
  match u, v with x :: u', y :: v' => (x <? y) || (x =? y) && belowb u' v' | _, _ => false end.
Lemma belowb_ok u : forall v, belowb u v = true -> below u v.
Proof.
  induction u as [|x u IH]; intros [|y v] H; try discriminate H. cbn in *. apply orb_prop in H. destruct H as [H|H].
  - left. now apply Nat.ltb_lt.
  - apply andb_prop in H. destruct H as (E & H). right. split; [now apply Nat.eqb_eq|auto].
Qed.
Lemma below_app u : forall v r s, below u v -> below (u ++ r) (v ++ s).
Proof. induction u as [|x u IH]; intros [|y v] r s H; try contradiction H. destruct H as [H|(E & H)]; cbn; auto. Qed.
Lemma below_lt u : forall v, below u v -> lex_lt u v.
Proof. induction u as [|x u IH]; intros [|y v] H; try contradiction H. destruct H as [H|(<- & H)]; [now apply lex_head|apply lex_tail; auto]. Qed.
Lemma below_l p u v : below u v -> below (p ++ u) (p ++ v).
Proof. intros H. induction p as [|x p IH]; [exact H|]. right. auto. Qed.
Lemma below_lt_app u v r s : below u v -> lex_lt (u ++ r) (v ++ s).
Proof. intros H. apply below_lt. now apply below_app. Qed.
Lemma lex_lt_below u v : lex_lt u v -> below u v \/ exists y r, v = u ++ y :: r.
Proof.
  induction 1 as [y ys|x y xs ys H|x xs ys H IH].
  - right. exists y, ys. reflexivity.
  - left. now left.
  - destruct IH as [B|(y & r & ->)]; [left; now right|right; now exists y, r].
Qed.
Fixpoint lex_ltb (u v : str) : bool :=
  match u, v with [], _ :: _ => true | x :: u', y :: v' => (x <? y) || (x =? y) && lex_ltb u' v' | _, _ => false end.
Lemma lex_ltb_ok u : forall v, lex_ltb u v = true -> lex_lt u v.
Proof.
  induction u as [|x u IH]; intros [|y v] H; try discriminate H; [constructor|]. cbn in H. apply orb_prop in H. destruct H as [H|H].
  - apply lex_head. now apply Nat.ltb_lt.
  - apply andb_prop in H. destruct H as (E & H). apply Nat.eqb_eq in E. subst y. apply lex_tail. auto.
Qed.
Definition lyndonb (w : str) : bool := negb (length w =? 0) && forallb (fun i => lex_ltb w (skipn i w)) (seq 1 (length w - 1)).
Lemma lyndonb_ok w : lyndonb w = true -> lyndon w.
Proof.
  unfold lyndonb. intros H. apply andb_prop in H. destruct H as (A & B). split.
  - intros ->. discriminate A.
  - intros u v E Hu Hv. rewrite forallb_forall in B. specialize (B (length u)).
    assert (S : skipn (length u) w = v) by (rewrite E, skipn_app, skipn_all, Nat.sub_diag; reflexivity). rewrite S in B. apply lex_ltb_ok, B, in_seq.
    rewrite E, app_length. destruct u, v; try congruence. cbn [length]. lia.
Qed.

Section Morphism.
  Context (g : nat -> str) (al : list nat) (p : str).
  Definition increasing : bool := forallb (fun c => forallb (fun d => negb (c <? d) || belowb (g c) (g d)) al && negb (length (g c) =? 0)) al.
  Definition marked : bool := forallb (fun c => forallb (fun i => belowb p (skipn i (g c))) (seq 1 (length (g c) - 1))) al.
  Context (HI : increasing = true).
  Let over (w : str) : Prop := Forall (fun c => In c al) w.
  Notation G := (flat_map g).
  Lemma inc c d : In c al -> In d al -> c < d -> below (g c) (g d).
  Proof.
    intros Hc Hd H. pose proof HI as H'. unfold increasing in H'. rewrite forallb_forall in H'. specialize (H' c Hc). apply andb_prop in H'. destruct H' as (H' & _).
    rewrite forallb_forall in H'. specialize (H' d Hd). apply belowb_ok. apply Nat.ltb_lt in H. rewrite H in H'. exact H'.
  Qed.
  Lemma img_ne c : In c al -> g c <> [].
  Proof. intros Hc E. pose proof HI as H'. unfold increasing in H'. rewrite forallb_forall in H'. specialize (H' c Hc). apply andb_prop in H'. destruct H' as (_ & H'). rewrite E in H'. discriminate H'. Qed.
  Lemma mor_below u : forall v, over u -> over v -> below u v -> below (G u) (G v).
  Proof.
    induction u as [|x u IH]; intros [|y v] Hu Hv H; try contradiction H. inversion Hu; inversion Hv; subst. cbn [flat_map]. destruct H as [H|(-> & H)].
    - apply below_app. now apply inc.
    - apply below_l. auto.
  Qed.
  Lemma mor_lt u v : over u -> over v -> lex_lt u v -> lex_lt (G u) (G v).
  Proof.
    intros Hu Hv H. destruct (lex_lt_below u v H) as [B|(y & r & ->)]; [apply below_lt; now apply mor_below|].
    rewrite flat_map_app. apply lex_lt_prefix. cbn [flat_map]. intros E. apply app_eq_nil in E. destruct E as (E & _). revert E. apply img_ne.
    apply Forall_app in Hv. destruct Hv as (_ & Hv). now inversion Hv.
  Qed.
  Lemma mor_le u v : over u -> over v -> lex_le u v -> lex_le (G u) (G v).
  Proof. intros Hu Hv [->|H]; [now left|right; now apply mor_lt]. Qed.
  Lemma mor_non_increasing l : Forall over l -> non_increasing l -> non_increasing (map G l).
  Proof.
    induction l as [|x l IH]; intros H N; [exact I|]. inversion H as [|? ? Hx Hl]; subst. destruct l as [|y l]; [exact (conj I I)|].
    destruct N as (N & N'). split; [|exact (IH Hl N')]. inversion Hl; subst. now apply mor_le.
  Qed.
  Context (HM : marked = true).
  Lemma mark c x y : In c al -> g c = x ++ y -> x <> [] -> y <> [] -> below p y.
  Proof.
    intros Hc E Hx Hy. pose proof HM as H'. unfold marked in H'. rewrite forallb_forall in H'. specialize (H' c Hc). rewrite forallb_forall in H'. specialize (H' (length x)).
    assert (S : skipn (length x) (g c) = y) by (rewrite E, skipn_app, skipn_all, Nat.sub_diag; reflexivity). rewrite S in H'. apply belowb_ok, H', in_seq.
    rewrite E, app_length. destruct x, y; try congruence. cbn [length]. lia.
  Qed.
  (** the image of a Lyndon word whose first letter has an image starting with the mark *)
  Lemma mor_lyndon c w : over (c :: w) -> (exists r, g c = p ++ r) -> lyndon (c :: w) -> lyndon (G (c :: w)).
  Proof.
    intros Ho (r & Er) (Hne & HL). inversion Ho as [|? ? Hc Hw]; subst. split.
    - cbn [flat_map]. intros E. apply app_eq_nil in E. exact (img_ne c Hc (proj1 E)).
    - intros u v E Hu Hv. destruct (flat_map_split g (c :: w) u v E) as [(w1 & w2 & Ew & -> & ->)|(w1 & d & w2 & x & y & Ew & Hd & Hx & Hy & -> & ->)].
      + apply mor_lt; [exact Ho|rewrite Ew in Ho; apply Forall_app in Ho; tauto|]. apply (HL w1 w2 Ew); intros ->; [now apply Hu|now apply Hv].
      + cbn [flat_map]. rewrite Er, <- app_assoc. apply below_lt_app. apply (mark d x); auto.
        rewrite Ew in Ho. apply Forall_app in Ho. destruct Ho as (_ & Ho). now inversion Ho.
  Qed.
  Lemma mor_tail_lt b e a : (forall d, In d al -> d < b -> below (g d) e) -> over a -> forall w, over w -> length w < length a -> lex_lt (a ++ [b]) (w ++ [b]) -> lex_lt (G a ++ e) (G w ++ e).
  Proof.
    intros He. induction a as [|a0 a IH]; intros Ha [|x w2] O2 LL L; cbn [length] in LL; try lia.
    - inversion Ha; subst. cbn [app flat_map] in *. inversion L; subst; [|exfalso; eapply lex_lt_nil_r; eassumption]. rewrite <- app_assoc, <- (app_nil_r e) at 1. rewrite <- (app_nil_r e). apply below_lt_app. apply He; assumption.
    - inversion Ha; inversion O2; subst. cbn [app flat_map] in *. rewrite <- !app_assoc. inversion L; subst.
      + apply below_lt_app. now apply inc.
      + apply lex_lt_app_same. apply IH; auto. lia.
  Qed.
  (** ... and with another image e of the last letter b *)
  Lemma mor_lyndon_tail c y b e : over (c :: y) -> (exists r, g c = p ++ r) -> lyndon ((c :: y) ++ [b]) -> (forall d, In d al -> d < b -> below (g d) e) ->
    (forall x z, e = x ++ z -> x <> [] -> z <> [] -> below p z) -> lyndon (G (c :: y) ++ e).
  Proof.
    intros Ho (r & Er) (Hne & HL) He Hs. inversion Ho as [|? ? Hc Hy]; subst.
    assert (Hcb : c < b).
    { pose proof (HL (c :: y) [b] eq_refl ltac:(discriminate) ltac:(discriminate)) as X. inversion X; subst; [assumption|]. exfalso. eapply lex_lt_nil_r. eassumption. }
    split.
    - cbn [flat_map]. intros E. apply app_eq_nil in E. destruct E as (E & _). apply app_eq_nil in E. exact (img_ne c Hc (proj1 E)).
    - intros u v E Hu Hv.
      assert (U : (exists x, u = G (c :: y) ++ x /\ e = x ++ v) \/ exists v', v = v' ++ e /\ G (c :: y) = u ++ v' /\ v' <> []).
      { destruct (app_eq_app _ _ _ _ E) as (l & [(E1 & E2)|(E1 & E2)]); [|left; eauto]. destruct l as [|l0 l]; [|right; exists (l0 :: l); repeat split; auto; discriminate].
        left. exists []. rewrite app_nil_r in *. auto. }
      destruct U as [(x & -> & Ee)|(v' & -> & E' & Hv')].
      + destruct x as [|x0 x].
        * cbn [app] in Ee. subst v. cbn [flat_map]. rewrite <- app_assoc. rewrite <- (app_nil_r e) at 2. apply below_lt_app. now apply He.
        * cbn [flat_map]. rewrite Er, <- !app_assoc. rewrite <- (app_nil_r v). apply below_lt_app. now apply (Hs (x0 :: x) v).
      + destruct (flat_map_split g (c :: y) u v' E') as [(w1 & w2 & Ew & -> & ->)|(w1 & d & w2 & x & z & Ew & Hd & Hx & Hz & -> & ->)].
        * assert (W1 : w1 <> []) by (intros ->; now apply Hu). assert (W2 : w2 <> []) by (intros ->; now apply Hv').
          assert (O2 : over w2) by (rewrite Ew in Ho; apply Forall_app in Ho; tauto).
          assert (L : lex_lt ((c :: y) ++ [b]) (w2 ++ [b])) by (apply (HL w1); [rewrite Ew, app_assoc; reflexivity|exact W1|destruct w2; discriminate]).
          assert (LL : length w2 < length (c :: y)) by (rewrite Ew, app_length; destruct w1; [congruence|cbn [length]; lia]).
          now apply (mor_tail_lt b).
        * cbn [flat_map]. rewrite Er, <- !app_assoc. apply below_lt_app. apply (mark d x); auto.
          rewrite Ew in Ho. apply Forall_app in Ho. destruct Ho as (_ & Ho). now inversion Ho.
  Qed.
End Morphism.

(** lists of factors *)
Lemma factors_app fs gs t u : lyndon_factorization t fs -> lyndon_factorization u gs -> (forall f r g s, fs = r ++ [f] -> gs = g :: s -> lex_le g f) ->
  lyndon_factorization (t ++ u) (fs ++ gs).
Proof.
  intros (A & B & C) (A' & B' & C') L. split; [rewrite concat_app; congruence|]. split; [apply Forall_app; auto|].
  clear A B A' B'. induction fs as [|x fs IH]; [exact C'|]. destruct fs as [|y fs].
  - cbn [app]. split; [|exact C']. destruct gs as [|g gs]; [exact I|]. exact (L x [] g gs eq_refl eq_refl).
  - destruct C as (C & C2). split; [exact C|]. apply (IH C2). intros f r g s E. apply (L f (x :: r)). rewrite E. reflexivity.
Qed.
Lemma factors_one w : lyndon w -> lyndon_factorization w [w].
Proof. intros H. split; [apply app_nil_r|]. split; [now constructor|exact (conj I I)]. Qed.
Lemma last_inj {A} (r r' : list A) x y : r ++ [x] = r' ++ [y] -> x = y.
Proof. intros H. apply app_inj_tail in H. tauto. Qed.
Lemma down_chain (X : nat -> str) : (forall j, lyndon (X j)) -> (forall j, lex_le (X (S j)) (X j)) -> forall n,
  lyndon_factorization (concat (map X (seq 0 n))) (map X (seq 0 n)).
Proof.
  intros HL HD. induction n as [|n IH]; [repeat split; constructor|]. rewrite seq_S, map_app, concat_app. cbn [map concat Nat.add]. rewrite app_nil_r.
  apply factors_app; [exact IH|now apply factors_one|]. intros f r g s E1 E2. injection E2 as <- _. destruct n as [|n]; [destruct r; discriminate E1|].
  rewrite seq_S, map_app in E1. cbn [map Nat.add] in E1. apply last_inj in E1. subst f. apply HD.
Qed.
Lemma up_chain (X : nat -> str) : (forall j, lyndon (X j)) -> (forall j, lex_le (X j) (X (S j))) -> forall n,
  lyndon_factorization (concat (map X (rev (seq 0 n)))) (map X (rev (seq 0 n))).
Proof.
  intros HL HD. induction n as [|n IH]; [repeat split; constructor|]. rewrite seq_S, rev_app_distr. cbn [rev app map concat Nat.add].
  apply (factors_app [X n]); [now apply factors_one|exact IH|]. intros f r g s E1 E2. destruct r as [|? [|? ?]]; try discriminate E1. injection E1 as <-.
  destruct n as [|n]; [discriminate E2|]. rewrite seq_S, rev_app_distr in E2. cbn [rev app map Nat.add] in E2. injection E2 as <- _. apply HD.
Qed.
Lemma seq_last (X : nat -> str) n f r : map X (seq 0 n) = r ++ [f] -> exists m, n = S m /\ f = X m.
Proof. destruct n as [|n]; intros E; [destruct r; discriminate E|]. rewrite seq_S, map_app in E. cbn [map Nat.add] in E. apply last_inj in E. eauto. Qed.
Lemma rev_first (X : nat -> str) n g s : map X (rev (seq 0 n)) = g :: s -> exists m, n = S m /\ g = X m.
Proof. destruct n as [|n]; intros E; [discriminate E|]. rewrite seq_S, rev_app_distr in E. cbn [rev app map Nat.add] in E. injection E as <- _. eauto. Qed.
Lemma rev_last (X : nat -> str) n f r : map X (rev (seq 0 n)) = r ++ [f] -> f = X 0.
Proof.
  destruct n as [|n]; intros E; [destruct r; discriminate E|]. cbn [seq rev] in E. rewrite map_app in E. cbn [map] in E. now apply last_inj in E.
Qed.

(** iterating such a morphism *)
Definition closed (g : nat -> str) (al : list nat) : bool := forallb (fun c => forallb (fun d => existsb (Nat.eqb d) al) (g c)) al.
Definition lyn (g : nat -> str) (al : list nat) (p : str) (w : str) : Prop :=
  lyndon w /\ Forall (fun c => In c al) w /\ exists c r s, w = c :: r /\ g c = p ++ s.
Lemma closed_ok g al w : closed g al = true -> Forall (fun c => In c al) w -> Forall (fun c => In c al) (flat_map g w).
Proof.
  intros H Hw. apply Forall_forall. intros x Hx. apply in_flat_map in Hx. destruct Hx as (c & Hc & Hx). unfold closed in H. rewrite forallb_forall in H.
  specialize (H c (proj1 (Forall_forall _ _) Hw c Hc)). rewrite forallb_forall in H. specialize (H x Hx). apply existsb_exists in H. destruct H as (d & Hd & E). apply Nat.eqb_eq in E. now subst.
Qed.
Lemma lyn_step g al c0 p w : increasing g al = true -> marked g al (c0 :: p) = true -> closed g al = true -> (exists s, g c0 = (c0 :: p) ++ s) ->
  lyn g al (c0 :: p) w -> lyn g al (c0 :: p) (flat_map g w).
Proof.
  intros HI HM HC (s0 & E0) (HL & HO & c & r & s & -> & Es). split; [|split].
  - apply (mor_lyndon g al (c0 :: p)); eauto.
  - now apply closed_ok.
  - cbn [flat_map]. rewrite Es. exists c0, (p ++ s ++ flat_map g r), s0. rewrite <- app_assoc. split; [reflexivity|exact E0].
Qed.
Lemma lyn_iter g al c0 p w k : increasing g al = true -> marked g al (c0 :: p) = true -> closed g al = true -> (exists s, g c0 = (c0 :: p) ++ s) ->
  lyn g al (c0 :: p) w -> lyn g al (c0 :: p) (iter_morphism g k w).
Proof. intros HI HM HC E0 H. induction k as [|k IH]; [exact H|]. rewrite ?iter_S. now apply lyn_step. Qed.
Lemma iter_over g al w k : closed g al = true -> Forall (fun c => In c al) w -> Forall (fun c => In c al) (iter_morphism g k w).
Proof. intros H Hw. induction k as [|k IH]; [exact Hw|]. rewrite ?iter_S. now apply closed_ok. Qed.
Lemma iter_le g al u v k : increasing g al = true -> closed g al = true -> Forall (fun c => In c al) u -> Forall (fun c => In c al) v -> lex_le u v ->
  lex_le (iter_morphism g k u) (iter_morphism g k v).
Proof. intros HI HC Hu Hv H. induction k as [|k IH]; [exact H|]. rewrite ?iter_S. apply (mor_le g al HI); [now apply iter_over|now apply iter_over|exact IH]. Qed.
Definition overb (al : list nat) (w : str) : bool := forallb (fun d => existsb (Nat.eqb d) al) w.
Lemma overb_ok al w : overb al w = true -> Forall (fun c => In c al) w.
Proof.
  intros H. apply Forall_forall. intros x Hx. unfold overb in H. rewrite forallb_forall in H. specialize (H x Hx). apply existsb_exists in H. destruct H as (d & Hd & E).
  apply Nat.eqb_eq in E. now subst.
Qed.
