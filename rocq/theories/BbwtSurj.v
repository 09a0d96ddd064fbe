(** BbwtSurj.v : the bijective BWT is onto (pigeonhole on the permutations of a word). *)
From Verif Require Import Base SpecStr SpecBwt ModelCore BbwtProof.

Lemma NoDup_map_in {A B} (f : A -> B) l : (forall x y, In x l -> In y l -> f x = f y -> x = y) ->
  NoDup l -> NoDup (map f l).
Proof.
  intros H ND. induction ND as [|x l Hx ND IH]; simpl; [constructor|]. constructor.
  - intros Hi. apply in_map_iff in Hi. destruct Hi as (y & E & Hy). apply Hx.
    rewrite <- (H y x); auto; [now right|now left].
  - apply IH. intros a b Ha Hb. apply H; now right.
Qed.

(** all words of length n over the letters of al *)
Fixpoint words_over (al : str) (n : nat) : list str :=
  match n with
  | O => [[]]
  | S n' => flat_map (fun w => map (fun c => c :: w) al) (words_over al n')
  end.
Lemma in_words_over al n w : In w (words_over al n) <-> length w = n /\ (forall x, In x w -> In x al).
Proof.
  revert w. induction n as [|n IH]; intros w; simpl.
  - split.
    + intros [<-|[]]. split; auto. intros x [].
    + intros [H _]. destruct w; [auto|discriminate].
  - rewrite in_flat_map. split.
    + intros (v & Hv & Hw). apply in_map_iff in Hw. destruct Hw as (c & <- & Hc).
      apply IH in Hv. destruct Hv as [H1 H2]. split; [simpl; lia|]. intros x [<-|Hx]; auto.
    + intros [H1 H2]. destruct w as [|c v]; [discriminate|]. simpl in H1. exists v. split.
      * apply IH. split; [lia|]. intros x Hx. apply H2. now right.
      * apply in_map_iff. exists c. split; auto. apply H2. now left.
Qed.

Definition permb (a b : str) : bool :=
  forallb (fun x => count_occ Nat.eq_dec a x =? count_occ Nat.eq_dec b x) (a ++ b).
Lemma permb_iff a b : permb a b = true <-> Permutation a b.
Proof.
  unfold permb. rewrite forallb_forall. rewrite (Permutation_count_occ Nat.eq_dec). split.
  - intros H x. destruct (in_dec Nat.eq_dec x (a ++ b)) as [Hi|Hn].
    + apply Nat.eqb_eq. auto.
    + rewrite in_app_iff in Hn.
      rewrite (proj1 (count_occ_not_In Nat.eq_dec a x)), (proj1 (count_occ_not_In Nat.eq_dec b x)); auto.
  - intros H x _. apply Nat.eqb_eq. auto.
Qed.

Definition perms (b : str) : list str :=
  nodup (list_eq_dec Nat.eq_dec) (filter (fun t => permb t b) (words_over b (length b))).
Lemma in_perms b t : In t (perms b) <-> Permutation t b.
Proof.
  unfold perms. rewrite nodup_In, filter_In, permb_iff, in_words_over. split; [tauto|].
  intros H. split; [|auto]. split; [now apply Permutation_length|]. intros x Hx.
  now apply (Permutation_in _ H).
Qed.

Lemma bbwt_naive_surjective b : b <> [] -> exists t, Permutation t b /\ bbwt_naive t = Ok b.
Proof.
  intros Hb.
  set (f := fun t => match bbwt_naive t with Ok x => x | _ => [] end).
  assert (Hf : forall t, Permutation t b -> bbwt_naive t = Ok (f t) /\ Permutation (f t) b).
  { intros t Ht. assert (Hne : t <> []) by (intros ->; apply Permutation_nil in Ht; congruence).
    destruct (bbwt_naive_ok t Hne) as (x & E & HB). unfold f. rewrite E. split; auto.
    apply bijective_bwt_perm in HB. now rewrite HB. }
  assert (ND : NoDup (map f (perms b))).
  { apply NoDup_map_in; [|apply NoDup_nodup].
    intros x y Hx Hy E. apply in_perms in Hx, Hy. destruct (Hf x Hx) as [E1 _], (Hf y Hy) as [E2 _].
    rewrite E in E1. eapply bbwt_naive_injective; eauto. }
  assert (HI : incl (perms b) (map f (perms b))).
  { apply NoDup_length_incl; auto; [rewrite map_length; lia|].
    intros y Hy. apply in_map_iff in Hy. destruct Hy as (x & <- & Hx). apply in_perms in Hx.
    apply in_perms. now apply Hf. }
  specialize (HI b ltac:(now apply in_perms)). apply in_map_iff in HI.
  destruct HI as (t & E & Ht). apply in_perms in Ht. exists t. split; auto.
  rewrite <- E. now apply Hf.
Qed.
