(** RenameProof2.v : entropies, parsings and attractors under renamings of the letters. *)
From Verif Require Import Base SpecStr SpecRename SpecEntropy SpecLz SpecAttr LexFacts RenameProof ModelLz.
From Coq Require Import Reals.

Section Entropy.
Context (f : nat -> nat) (t : str) (Hf : keeps_letters f t).
Lemma in_map_iff' x u : incl u t -> In x t -> (In (f x) (map f u) <-> In x u).
Proof.
  intros I Hx. rewrite in_map_iff. split; [|intros H; exists x; auto]. intros (y & E & Hy).
  apply Hf in E; auto. now subst.
Qed.
Lemma nodup_map u : incl u t -> nodup Nat.eq_dec (map f u) = map f (nodup Nat.eq_dec u).
Proof.
  induction u as [|x u IH]; intros I; [reflexivity|]. cbn [map nodup].
  assert (Iu : incl u t) by (intros z Hz; apply I; now right). assert (Hx : In x t) by (apply I; now left).
  rewrite (IH Iu). destruct (in_dec Nat.eq_dec (f x) (map f u)) as [H|H], (in_dec Nat.eq_dec x u) as [H'|H']; try reflexivity.
  - exfalso. apply H'. now apply (in_map_iff' x u Iu Hx).
  - exfalso. apply H, in_map_iff'; auto.
Qed.
Lemma occ_map u c : incl u t -> In c t -> occ (map f u) (f c) = occ u c.
Proof.
  unfold occ. intros I Hc. induction u as [|x u IH]; [reflexivity|]. cbn [map count_occ].
  assert (Iu : incl u t) by (intros z Hz; apply I; now right). assert (Hx : In x t) by (apply I; now left).
  rewrite (IH Iu). destruct (Nat.eq_dec (f x) (f c)) as [E|E], (Nat.eq_dec x c) as [E'|E']; try reflexivity.
  - exfalso. apply E'. now apply Hf.
  - subst. contradiction.
Qed.
Lemma H0_map u : incl u t -> H0 (map f u) = H0 u.
Proof.
  intros I. unfold H0. rewrite nodup_map, map_map, map_length by auto. f_equal. apply map_ext_in. intros c Hc.
  rewrite occ_map; auto. apply I. now apply nodup_In in Hc.
Qed.
Lemma key_map w i : incl w t -> (firstn (length w) (skipn i (map f t)) = map f w <-> firstn (length w) (skipn i t) = w).
Proof.
  intros I. rewrite skipn_map, firstn_map. split; [|now intros ->]. apply (map_inj f t Hf); auto.
  eapply incl_tran; [apply incl_firstn|apply incl_skipn].
Qed.
Lemma followers_map w : incl w t -> followers (map f t) (map f w) = map f (followers t w).
Proof.
  intros I. unfold followers. rewrite map_map, !map_length.
  rewrite (filter_ext (fun i => eqb_str (firstn (length w) (skipn i (map f t))) (map f w) && (i + length w <? length t))
     (fun i => eqb_str (firstn (length w) (skipn i t)) w && (i + length w <? length t))).
  - apply map_ext_in. intros i Hi. apply filter_In in Hi. destruct Hi as (_ & Hi). apply andb_prop in Hi. destruct Hi as (_ & Hi).
    apply Nat.ltb_lt in Hi. now apply nth_map_in.
  - intros i. f_equal. unfold eqb_str. pose proof (key_map w i I) as K.
    destruct (list_eq_dec Nat.eq_dec (firstn (length w) (skipn i (map f t))) (map f w)), (list_eq_dec Nat.eq_dec (firstn (length w) (skipn i t)) w); tauto.
Qed.
Lemma followers_incl w : incl (followers t w) t.
Proof.
  intros x Hx. apply in_map_iff in Hx. destruct Hx as (i & <- & Hi). apply filter_In in Hi. destruct Hi as (_ & Hi).
  apply andb_prop in Hi. destruct Hi as (_ & Hi). apply Nat.ltb_lt in Hi. now apply nth_In.
Qed.
Lemma context_incl w i : context_at t w i -> incl w t.
Proof. intros ((_ & <-) & _). eapply incl_tran; [apply incl_firstn|apply incl_skipn]. Qed.
Lemma contexts_map k W : contexts t k W -> contexts (map f t) k (map (map f) W).
Proof.
  intros (HN & HW). assert (HI : forall w, In w W -> incl w t).
  { intros w Hw. apply HW in Hw. destruct Hw as (_ & i & Hi). eapply context_incl; eauto. }
  split.
  - clear HW. induction HN as [|w W Hw HN IH]; cbn [map]; constructor.
    + intros H. apply in_map_iff in H. destruct H as (v & E & Hv). apply (map_inj f t Hf) in E; [|apply HI; now right|apply HI; now left]. now subst.
    + apply IH. intros v Hv. apply HI. now right.
  - intros w. rewrite in_map_iff. split.
    + intros (v & <- & Hv). pose proof (HI v Hv) as I. apply HW in Hv. destruct Hv as (L & i & (O1 & O2) & C). rewrite map_length. split; [exact L|].
      exists i. split; [split|]; rewrite ?map_length; auto. now apply key_map.
    + intros (L & i & (O1 & O2) & C). rewrite map_length in *. exists (firstn (length w) (skipn i t)).
      rewrite skipn_map, firstn_map in O2. split; [exact O2|]. apply HW.
      assert (Lw : length (firstn (length w) (skipn i t)) = length w) by (rewrite firstn_length, skipn_length; lia).
      split; [now rewrite Lw|]. exists i. split; [split|]; rewrite Lw; auto.
Qed.
Lemma Hk_map k W : contexts t k W -> Hk (map f t) (map (map f) W) = Hk t W.
Proof.
  intros (_ & HW). unfold Hk. rewrite map_map, map_length. f_equal. f_equal. apply map_ext_in. intros w Hw.
  assert (I : incl w t) by (apply HW in Hw; destruct Hw as (_ & i & Hi); eapply context_incl; eauto).
  rewrite followers_map by auto. rewrite map_length, H0_map by apply followers_incl. reflexivity.
Qed.
End Entropy.

Section Words.
Context (f : nat -> nat) (t : str) (Hf : keeps_letters f t).
Lemma attractor_map A : string_attractor (map f t) A <-> string_attractor t A.
Proof.
  unfold string_attractor. rewrite map_length. split; intros H i l Hl Hi; destruct (H i l Hl Hi) as (j & a & S1 & S2);
    exists j, a; (split; [|exact S2]); now apply (same_substring_map f t Hf).
Qed.
Lemma unique_map i l : unique_substring (map f t) i l <-> unique_substring t i l.
Proof.
  unfold unique_substring. rewrite map_length. split; intros (H1 & H2); (split; [exact H1|]); intros j Hj; apply H2;
    now apply (same_substring_map f t Hf).
Qed.
Lemma mus_map i l : is_mus (map f t) i l <-> is_mus t i l.
Proof.
  unfold is_mus. rewrite unique_map. split; intros (H1 & H2 & H3); (split; [exact H1|]; split; [exact H2|]);
    intros i' l' A1 A2 A3 U; apply (H3 i' l' A1 A2 A3); now apply unique_map.
Qed.
Lemma lz77_parsing_map fs : forall i, is_lz77_parsing t i fs -> is_lz77_parsing (map f t) i (map (rename_factor f) fs).
Proof.
  induction fs as [|g fs IH]; intros i H; cbn [map is_lz77_parsing] in *; [now rewrite map_length|].
  destruct H as (Hi & Hg & H). rewrite map_length. split; [exact Hi|].
  assert (El : lz_len (rename_factor f g) = lz_len g).
  { unfold rename_factor. destruct (Nat.eqb_spec (lz_len g) 0); [cbn; congruence|reflexivity]. }
  rewrite El. split; [|now apply IH]. destruct Hg as [(E & Ep & H0)|(E & Ep & HS & HM)].
  - left. rewrite El. unfold rename_factor. rewrite E, Nat.eqb_refl. cbn [lz_pos]. split; [reflexivity|].
    split; [now rewrite Ep, nth_map_in|]. intros j Hj C. apply (nth_eq_iff f t Hf) in C; try lia. now apply (H0 j).
  - right. rewrite El. unfold rename_factor. destruct (Nat.eqb_spec (lz_len g) 0) as [E0|_]; [lia|].
    split; [exact E|]. split; [exact Ep|]. split; [now apply (same_substring_map f t Hf)|].
    intros j l Hj S. apply (HM j l Hj). now apply (same_substring_map f t Hf) in S.
Qed.
Lemma border_map i b : is_border (firstn i (map f t)) b <-> is_border (firstn i t) b.
Proof.
  unfold is_border. rewrite firstn_map, map_length, firstn_map, skipn_map.
  split; intros (H1 & H2); (split; [exact H1|]); [|now rewrite H2].
  apply (map_inj f t Hf) in H2; auto.
  - eapply incl_tran; [apply incl_firstn|apply incl_firstn].
  - eapply incl_tran; [apply incl_skipn|apply incl_firstn].
Qed.
Lemma power_map u m : map f (power u m) = power (map f u) m.
Proof. induction m as [|m IH]; [reflexivity|]. cbn [power]. now rewrite map_app, IH. Qed.
End Words.
