(** MorphRuns.v : number of runs of the matrix BWT of the Thue-Morse, period-doubling and ternary Thue-Morse words. *)
From Verif Require Import Base SpecStr SpecIo SpecBwt SpecWord LexFacts BwtFacts RunFacts MorphBwt MorphBwt2.

Fixpoint ch (t : str) : nat :=
  match t with
  | x :: t' => match t' with y :: _ => (if x =? y then 0 else 1) + ch t' | [] => 0 end
  | [] => 0
  end.
Lemma runs_from_ch t : forall c l, length (runs_from c l t) = S (ch (c :: t)).
Proof.
  induction t as [|x t IH]; intros c l; [reflexivity|]. cbn [runs_from]. cbn [ch].
  rewrite (Nat.eqb_sym c x). destruct (Nat.eqb_spec x c) as [->|N]; [rewrite IH; reflexivity|]. cbn [length]. rewrite IH. reflexivity.
Qed.
Lemma runs_ch t : t <> [] -> length (runs t) = S (ch t).
Proof. destruct t as [|c t]; [easy|]. intros _. apply runs_from_ch. Qed.
Lemma ch_app u : forall v, u <> [] -> v <> [] -> ch (u ++ v) = ch u + ch v + (if last u 0 =? hd 0 v then 0 else 1).
Proof.
  induction u as [|x u IH]; intros v Nu Nv; [easy|]. destruct u as [|y u].
  - destruct v as [|z v]; [easy|]. cbn [app last hd]. change (ch (x :: z :: v)) with ((if x =? z then 0 else 1) + ch (z :: v)). cbn [ch]. destruct (x =? z); lia.
  - change ((x :: y :: u) ++ v) with (x :: (y :: u) ++ v). change (ch (x :: (y :: u) ++ v)) with ((if x =? y then 0 else 1) + ch ((y :: u) ++ v)).
    rewrite IH by easy. change (ch (x :: y :: u)) with ((if x =? y then 0 else 1) + ch (y :: u)). change (last (x :: y :: u) 0) with (last (y :: u) 0). lia.
Qed.
Lemma ch_repeat c m : ch (repeat c m) = 0.
Proof. induction m as [|[|m] IH]; [reflexivity|reflexivity|]. change (ch (repeat c (S (S m)))) with ((if c =? c then 0 else 1) + ch (repeat c (S m))). rewrite Nat.eqb_refl. exact IH. Qed.
Lemma ch_map (g : nat -> nat) t : (forall x y, In x t -> In y t -> g x = g y -> x = y) -> ch (map g t) = ch t.
Proof.
  induction t as [|x [|y t] IH]; intros H; [reflexivity|reflexivity|].
  change (ch (map g (x :: y :: t))) with ((if g x =? g y then 0 else 1) + ch (map g (y :: t))). rewrite IH by (intros a b Ha Hb; apply H; now right).
  change (ch (x :: y :: t)) with ((if x =? y then 0 else 1) + ch (y :: t)). f_equal.
  destruct (Nat.eqb_spec (g x) (g y)) as [E|E]; destruct (Nat.eqb_spec x y) as [E'|E']; try reflexivity.
  - exfalso. apply E'. apply H; [now left|right; now left|exact E].
  - subst. contradiction.
Qed.
Lemma hd_rev (t : str) : hd 0 (rev t) = last t 0.
Proof. destruct t as [|x t] using rev_ind; [reflexivity|]. now rewrite rev_app_distr, last_last. Qed.
Lemma last_rev (t : str) : last (rev t) 0 = hd 0 t.
Proof. destruct t as [|x t]; [reflexivity|]. cbn [rev]. now rewrite last_last. Qed.
Lemma ch_rev t : ch (rev t) = ch t.
Proof.
  induction t as [|x [|y t] IH]; [reflexivity|reflexivity|].
  change (rev (x :: y :: t)) with (rev (y :: t) ++ [x]). rewrite ch_app; [|cbn [rev]; destruct (rev t); discriminate|easy].
  rewrite IH, last_rev. cbn [hd ch]. rewrite (Nat.eqb_sym y x). destruct (x =? y); lia.
Qed.
Lemma last_map (g : nat -> nat) t : t <> [] -> last (map g t) 0 = g (last t 0).
Proof. intros N. rewrite (app_removelast_last 0 N) at 1. rewrite map_app. apply last_last. Qed.
Lemma hd_map (g : nat -> nat) t : t <> [] -> hd 0 (map g t) = g (hd 0 t).
Proof. now destruct t. Qed.
Lemma hd_app (u v : str) : u <> [] -> hd 0 (u ++ v) = hd 0 u.
Proof. now destruct u. Qed.
Lemma last_app (u v : str) : v <> [] -> last (u ++ v) 0 = last v 0.
Proof. intros N. rewrite (app_removelast_last 0 N) at 1. rewrite app_assoc. apply last_last. Qed.
Lemma repeat_ne (c m : nat) : 1 <= m -> repeat c m <> [].
Proof. now destruct m. Qed.
Lemma hd_repeat c m : 1 <= m -> hd 0 (repeat c m) = c.
Proof. destruct m; [lia|reflexivity]. Qed.
Lemma last_repeat c m : 1 <= m -> last (repeat c m) 0 = c.
Proof. destruct m; [lia|]. intros _. cbn [repeat]. rewrite repeat_cons. apply last_last. Qed.
Lemma last_In (t : str) : t <> [] -> In (last t 0) t.
Proof. intros N. rewrite (app_removelast_last 0 N) at 2. apply in_or_app. right. now left. Qed.
Lemma hd_In (t : str) : t <> [] -> In (hd 0 t) t.
Proof. destruct t; [easy|]. now left. Qed.
Lemma map_ne {A B} (g : A -> B) t : t <> [] -> map g t <> [].
Proof. now destruct t. Qed.
Lemma bwt_ne w b : w <> [] -> is_matrix_bwt w b -> b <> [].
Proof. intros N H E. apply matrix_bwt_length in H. rewrite E in H. now destruct w. Qed.
Lemma bwt_Forall (P : nat -> Prop) w b : Forall P w -> is_matrix_bwt w b -> Forall P b.
Proof. intros F H. apply matrix_bwt_perm in H. rewrite Forall_forall in *. intros x Hx. apply F. now rewrite <- H. Qed.
Lemma comp_inj x y : ab x -> ab y -> comp x = comp y -> x = y.
Proof. intros [->| ->] [->| ->]; cbn; lia. Qed.
Lemma count_pos (w : str) c : In c w -> 1 <= count_occ Nat.eq_dec w c.
Proof. intros H. apply (count_occ_In Nat.eq_dec) in H. lia. Qed.

(** ** Thue-Morse *)
Definition TM k := iter_morphism tm_h k [97].
Lemma TM_S k : TM (S k) = flat_map tm_h (TM k).
Proof. reflexivity. Qed.
Lemma TM_ab k : Forall ab (TM k).
Proof.
  induction k as [|k IH]; [repeat constructor|]. rewrite TM_S. rewrite Forall_forall in *. intros x Hx. apply in_flat_map in Hx. destruct Hx as (y & Hy & Hx).
  destruct (IH y Hy) as [->| ->]; cbn in Hx; unfold ab; lia.
Qed.
Lemma TM_len k : length (TM k) = 2 ^ k.
Proof.
  induction k as [|k IH]; [reflexivity|]. rewrite TM_S. cbn [Nat.pow]. rewrite <- IH. generalize (TM k). intros l. induction l as [|x l IHl]; [reflexivity|].
  cbn [flat_map length]. rewrite app_length, IHl. unfold tm_h. destruct (x =? 97); cbn [length]; lia.
Qed.
Lemma tm_count w c : Forall ab w -> ab c -> count_occ Nat.eq_dec (flat_map tm_h w) c = length w.
Proof.
  intros F Hc. induction F as [|x w Hx F IH]; [reflexivity|]. cbn [flat_map length]. rewrite count_occ_app, IH. destruct Hx as [->| ->]; destruct Hc as [->| ->]; reflexivity.
Qed.
Lemma TM_count k c : ab c -> count_occ Nat.eq_dec (TM (S k)) c = 2 ^ k.
Proof. intros Hc. rewrite TM_S, tm_count; [apply TM_len|apply TM_ab|exact Hc]. Qed.
Lemma two_pow_pos k : 1 <= 2 ^ k.
Proof. induction k; cbn [Nat.pow]; lia. Qed.
Lemma TM_no_cube k : no_cube (TM (S k)).
Proof.
  destruct k as [|k].
  - intros s x r Hs E. cbn in Hs. destruct Hs as [<-|[<-|[]]]; cbn in E; injection E as <- E _; discriminate.
  - rewrite TM_S. apply tm_no_cube; [apply TM_ab|]. rewrite TM_len. cbn [Nat.pow]. pose proof (two_pow_pos k). lia.
Qed.
Lemma TM_step k b : is_matrix_bwt (TM (S k)) b -> is_matrix_bwt (TM (S (S k))) (repeat 98 (2 ^ k) ++ map comp b ++ repeat 97 (2 ^ k)).
Proof.
  intros H. rewrite (TM_S (S k)). rewrite <- (TM_count k 98) at 1 by (right; reflexivity). rewrite <- (TM_count k 97) by (left; reflexivity).
  apply tm_bwt_step; [apply TM_ab| |apply TM_no_cube|exact H]. rewrite TM_len. cbn [Nat.pow]. pose proof (two_pow_pos k). lia.
Qed.
Lemma ab_rotations : is_matrix_bwt [97; 98] [98; 97].
Proof.
  exists [[97; 98]; [98; 97]]. split; [cbn; apply Permutation_refl|]. split; [|reflexivity].
  repeat first [apply SSorted_nil | apply SSorted_cons | apply Forall_nil | apply Forall_cons]; right; apply lex_head; lia.
Qed.
Theorem TM_bwt k : exists b, is_matrix_bwt (TM (S k)) b /\ hd 0 b = 98 /\ last b 0 = 97 /\ ch b = 2 * k + 1.
Proof.
  induction k as [|k (b & H & Hh & Hl & Hc)]; [exists [98; 97]; split; [exact ab_rotations|repeat split]|].
  pose proof (two_pow_pos k) as P. pose proof (bwt_ne (TM (S k)) b) as N. specialize (N ltac:(intros E; pose proof (TM_len (S k)) as L; rewrite E in L; cbn [length Nat.pow] in L; lia) H).
  exists (repeat 98 (2 ^ k) ++ map comp b ++ repeat 97 (2 ^ k)). split; [now apply TM_step|].
  assert (NM : map comp b <> []) by now apply map_ne. assert (NR : repeat 97 (2 ^ k) <> []) by now apply repeat_ne.
  split; [rewrite hd_app by (now apply repeat_ne); now apply hd_repeat|]. split; [rewrite !last_app; [now apply last_repeat|exact NR|destruct (map comp b); easy]|].
  rewrite ch_app; [|now apply repeat_ne|destruct (map comp b); easy]. rewrite ch_app by assumption. rewrite !ch_repeat.
  rewrite hd_app, hd_map, last_map, last_repeat, hd_repeat, Hh, Hl by assumption. rewrite ch_map; [rewrite Hc; cbn [comp Nat.eqb]; lia|].
  pose proof (bwt_Forall ab _ _ (TM_ab (S k)) H) as F. rewrite Forall_forall in F. intros x y Hx Hy. apply comp_inj; auto.
Qed.

(** ** period doubling *)
Definition PD k := iter_morphism pd_h k [97].
Lemma PD_S k : PD (S k) = flat_map pd_h (PD k).
Proof. reflexivity. Qed.
Lemma PD_ab k : Forall ab (PD k).
Proof.
  induction k as [|k IH]; [repeat constructor|]. rewrite PD_S. rewrite Forall_forall in *. intros x Hx. apply in_flat_map in Hx. destruct Hx as (y & Hy & Hx).
  destruct (IH y Hy) as [->| ->]; cbn in Hx; unfold ab; lia.
Qed.
Lemma PD_len k : length (PD k) = 2 ^ k.
Proof.
  induction k as [|k IH]; [reflexivity|]. rewrite PD_S. cbn [Nat.pow]. rewrite <- IH. generalize (PD k). intros l. induction l as [|x l IHl]; [reflexivity|].
  cbn [flat_map length]. rewrite app_length, IHl. unfold pd_h. destruct (x =? 97); cbn [length]; lia.
Qed.
Lemma pd_count w : Forall ab w -> count_occ Nat.eq_dec (flat_map pd_h w) 98 = count_occ Nat.eq_dec w 97 /\
  count_occ Nat.eq_dec (flat_map pd_h w) 97 = count_occ Nat.eq_dec w 97 + 2 * count_occ Nat.eq_dec w 98.
Proof.
  intros F. induction F as [|x w Hx F (I1 & I2)]; [split; reflexivity|]. cbn [flat_map]. rewrite !count_occ_app, I1, I2. destruct Hx as [->| ->]; cbn; lia.
Qed.
Lemma PD_begin k : exists r, PD (S k) = 97 :: 98 :: r.
Proof. induction k as [|k (r & E)]; [now exists []|]. rewrite PD_S, E. cbn. eauto. Qed.
Lemma PD_no_bb k : no_bb (PD (S k)).
Proof.
  destruct k as [|k].
  - intros s r Hs E. cbn in Hs. destruct Hs as [<-|[<-|[]]]; discriminate.
  - rewrite PD_S. apply pd_no_bb; [apply PD_ab|]. rewrite PD_len. cbn [Nat.pow]. pose proof (two_pow_pos k). lia.
Qed.
Definition pd_part (k : nat) (P : str) : str :=
  repeat 98 (count_occ Nat.eq_dec (PD k) 98) ++ repeat 97 (count_occ Nat.eq_dec (PD k) 98) ++ map comp (rev P).
Lemma PD_step k P : length P = count_occ Nat.eq_dec (PD (S k)) 97 -> is_matrix_bwt (PD (S k)) (P ++ repeat 97 (count_occ Nat.eq_dec (PD (S k)) 98)) ->
  length (pd_part (S k) P) = count_occ Nat.eq_dec (PD (S (S k))) 97 /\
  is_matrix_bwt (PD (S (S k))) (pd_part (S k) P ++ repeat 97 (count_occ Nat.eq_dec (PD (S (S k))) 98)).
Proof.
  intros L H. destruct (pd_count (PD (S k)) (PD_ab _)) as (C1 & C2). rewrite (PD_S (S k)), C1, C2. split.
  - unfold pd_part. rewrite !app_length, !repeat_length, map_length, rev_length, L. lia.
  - apply pd_bwt_step; [apply PD_ab| |apply PD_no_bb|exact L|exact H]. rewrite PD_len. cbn [Nat.pow]. pose proof (two_pow_pos k). lia.
Qed.
Lemma PD_one : length [98] = count_occ Nat.eq_dec (PD 1) 97 /\ is_matrix_bwt (PD 1) ([98] ++ repeat 97 (count_occ Nat.eq_dec (PD 1) 98)).
Proof. split; [reflexivity|exact ab_rotations]. Qed.
Lemma PD_b k : 1 <= count_occ Nat.eq_dec (PD (S k)) 98.
Proof. destruct (PD_begin k) as (r & ->). apply count_pos. right. now left. Qed.
Theorem PD_bwt k : exists P, length P = count_occ Nat.eq_dec (PD (S (S k))) 97 /\
  is_matrix_bwt (PD (S (S k))) (P ++ repeat 97 (count_occ Nat.eq_dec (PD (S (S k))) 98)) /\ hd 0 P = 98 /\ last P 0 = 97 /\ Forall ab P /\ ch P = 2 * k + 1.
Proof.
  induction k as [|k (P & L & H & Hh & Hl & F & Hc)].
  - destruct PD_one as (L1 & H1). destruct (PD_step 0 [98] L1 H1) as (L2 & H2). exists (pd_part 1 [98]). split; [exact L2|]. split; [exact H2|].
    split; [reflexivity|]. split; [reflexivity|]. split; [repeat constructor; unfold ab; lia|reflexivity].
  - destruct (PD_step (S k) P L H) as (L2 & H2). exists (pd_part (S (S k)) P). split; [exact L2|]. split; [exact H2|].
    pose proof (PD_b (S k)) as B. assert (NP : P <> []) by (intros ->; discriminate). assert (NM : map comp (rev P) <> []) by (apply map_ne; intros E; apply (f_equal (@rev nat)) in E; rewrite rev_involutive in E; contradiction).
    assert (NR : rev P <> []) by (intros E; apply NM; now rewrite E). unfold pd_part.
    split; [rewrite hd_app by (now apply repeat_ne); now apply hd_repeat|].
    split; [rewrite !last_app; [|exact NM|destruct (map comp (rev P)); [easy|now destruct (repeat 97 _)]]; rewrite last_map, last_rev, Hh by exact NR; reflexivity|].
    split.
    { rewrite !Forall_app. split; [apply Forall_forall; intros x Hx; apply repeat_spec in Hx; subst; now right|].
      split; apply Forall_forall; intros x Hx; [apply repeat_spec in Hx; subst; now left|]. apply in_map_iff in Hx. destruct Hx as (y & <- & _). unfold comp. destruct (y =? 97); [now right|now left]. }
    rewrite ch_app; [|now apply repeat_ne|destruct (map comp (rev P)); [easy|now destruct (repeat 97 _)]]. rewrite ch_app; [|now apply repeat_ne|exact NM].
    rewrite !ch_repeat, hd_app, hd_map, hd_rev, Hl, !last_repeat, hd_repeat by (try exact B; try (now apply repeat_ne); exact NR).
    rewrite ch_map, ch_rev, Hc; [cbn [comp Nat.eqb]; lia|]. rewrite Forall_forall in F. intros x y Hx Hy. rewrite <- in_rev in Hx, Hy. apply comp_inj; auto.
Qed.

(** ** ternary Thue-Morse *)
Definition VT k := iter_morphism vtm_h k [97].
Lemma VT_S k : VT (S k) = flat_map vtm_h (VT k).
Proof. reflexivity. Qed.
Lemma VT_abc k : Forall abc (VT k).
Proof.
  induction k as [|k IH]; [repeat constructor|]. rewrite VT_S. rewrite Forall_forall in *. intros x Hx. apply in_flat_map in Hx. destruct Hx as (y & Hy & Hx).
  destruct (IH y Hy) as [->|[->| ->]]; cbn in Hx; unfold abc; lia.
Qed.
Lemma VT_begin k : exists r, VT (S k) = 97 :: 98 :: 99 :: r.
Proof. induction k as [|k (r & E)]; [now exists []|]. rewrite VT_S, E. cbn. eauto. Qed.
Lemma VT_no_cc k : no_cc (VT (S k)).
Proof.
  destruct k as [|k].
  - intros s r Hs E. cbn in Hs. destruct Hs as [<-|[<-|[<-|[]]]]; discriminate.
  - rewrite VT_S. apply vtm_no_cc; [apply VT_abc|]. destruct (VT_begin k) as (r & ->). cbn. lia.
Qed.
Definition vt_next (k : nat) (b : str) : str := map vtm_last b ++ repeat 97 (count_occ Nat.eq_dec (VT k) 97) ++ map comp (filter not_c b).
Lemma VT_step k b : is_matrix_bwt (VT (S k)) b -> is_matrix_bwt (VT (S (S k))) (vt_next (S k) b).
Proof.
  intros H. rewrite (VT_S (S k)). apply vtm_bwt_step; [apply VT_abc| |apply VT_no_cc|exact H]. destruct (VT_begin k) as (r & ->). cbn. lia.
Qed.
Lemma VT_one : is_matrix_bwt (VT 1) [99; 97; 98].
Proof.
  exists [[97; 98; 99]; [98; 99; 97]; [99; 97; 98]]. split; [cbn; apply Permutation_refl|]. split; [|reflexivity].
  repeat first [apply SSorted_nil | apply SSorted_cons | apply Forall_nil | apply Forall_cons]; right; apply lex_head; lia.
Qed.
Theorem VT_bwt k : exists b, is_matrix_bwt (VT (S (S k))) b /\ last b 0 <> 99 /\ In 99 b /\ hd 0 (filter not_c b) = 98 /\
  ch (map vtm_last b) = k + 2 /\ ch (filter not_c b) = k + 3 /\ ch b = 2 * k + 4.
Proof.
  induction k as [|k (b & H & Hl & H9 & Hh & C1 & C2 & C3)].
  - exists (vt_next 1 [99; 97; 98]). split; [apply VT_step, VT_one|]. cbn. repeat split; try discriminate. auto.
  - exists (vt_next (S (S k)) b). split; [now apply VT_step|]. unfold vt_next.
    pose proof (bwt_Forall abc _ _ (VT_abc (S (S k))) H) as F.
    assert (Nb : b <> []) by (intros ->; contradiction).
    assert (M1 : 1 <= count_occ Nat.eq_dec (VT (S (S k))) 97) by (destruct (VT_begin (S k)) as (r & ->); apply count_pos; now left).
    set (m := count_occ Nat.eq_dec (VT (S (S k))) 97) in *. set (Y := filter not_c b) in *.
    assert (NY : Y <> []) by (intros E; rewrite E in Hh; discriminate).
    assert (YF : Forall ab Y).
    { apply Forall_forall. intros x Hx. apply filter_In in Hx. destruct Hx as (Hx & E). rewrite Forall_forall in F. destruct (F x Hx) as [->|[->| ->]]; [now left|now right|discriminate]. }
    assert (YC : ch (map comp Y) = k + 3) by (rewrite ch_map; [exact C2|]; rewrite Forall_forall in YF; intros x y Hx Hy; apply comp_inj; auto).
    assert (NMY : map comp Y <> []) by now apply map_ne. assert (NR : repeat 97 m <> []) by now apply repeat_ne.
    assert (NRY : repeat 97 m ++ map comp Y <> []) by (destruct (repeat 97 m); easy).
    assert (NV : map vtm_last b <> []) by now apply map_ne.
    assert (VL : forall x, vtm_last x = 98 \/ vtm_last x = 99) by (intros x; unfold vtm_last; destruct (x =? 99); auto).
    assert (CV : vtm_last (last b 0) = 99) by (unfold vtm_last; destruct (Nat.eqb_spec (last b 0) 99); [contradiction|reflexivity]).
    assert (CR : ch (repeat 97 m ++ map comp Y) = k + 3).
    { rewrite ch_app by assumption. rewrite ch_repeat, YC, last_repeat, hd_map, Hh by assumption. cbn [comp Nat.eqb]. lia. }
    assert (CC : forall x, comp x = 97 \/ comp x = 98) by (intros x; unfold comp; destruct (x =? 97); auto).
    split; [rewrite !last_app, last_map by assumption; destruct (CC (last Y 0)) as [->| ->]; discriminate|].
    split; [apply in_or_app; left; rewrite <- CV; apply in_map; now apply last_In|].
    (* the letters other than c *)
    assert (E1 : filter not_c (map vtm_last b) = repeat 98 (length (filter (fun x => x =? 99) b))).
    { clear. induction b as [|x b IH]; [reflexivity|]. assert (V : vtm_last x = if x =? 99 then 98 else 99) by reflexivity. cbn [map filter]. rewrite V. clear V. destruct (x =? 99); cbn; now rewrite IH. }
    assert (E2 : forall l, (forall x, In x l -> x = 97 \/ x = 98) -> filter not_c l = l).
    { intros l. induction l as [|x l IH]; intros Hx; [reflexivity|]. cbn [filter]. destruct (Hx x (or_introl eq_refl)) as [->| ->]; cbn [not_c Nat.eqb negb]; rewrite IH; auto; intros y Hy; apply Hx; now right. }
    assert (E3 : filter not_c (map vtm_last b ++ repeat 97 m ++ map comp Y) = repeat 98 (length (filter (fun x => x =? 99) b)) ++ repeat 97 m ++ map comp Y).
    { rewrite filter_app, E1. f_equal. apply E2. intros x Hx. apply in_app_or in Hx. destruct Hx as [Hx|Hx]; [apply repeat_spec in Hx; now left|]. apply in_map_iff in Hx. destruct Hx as (y & <- & _). apply CC. }
    assert (P9 : 1 <= length (filter (fun x => x =? 99) b)).
    { assert (Q : In 99 (filter (fun x => x =? 99) b)) by (apply filter_In; now split). destruct (filter (fun x => x =? 99) b); [contradiction|cbn; lia]. }
    rewrite E3. split; [rewrite hd_app by (now apply repeat_ne); now apply hd_repeat|].
    split; [|split].
    + rewrite !map_app, !map_map.
      assert (E4 : map vtm_last (repeat 97 m) ++ map (fun x => vtm_last (comp x)) Y = repeat 99 (m + length Y)).
      { rewrite repeat_app. f_equal; [clear; induction m; cbn [repeat map]; [reflexivity|]; now rewrite IHm|].
        apply map_const_repeat. intros q _. now destruct (CC q) as [->| ->]. }
      rewrite E4. rewrite ch_app; [|now apply map_ne|apply repeat_ne; lia]. rewrite ch_repeat, last_map, hd_repeat by (try assumption; lia). rewrite CV. cbn [vtm_last Nat.eqb].
      rewrite <- (map_map vtm_last vtm_last), ch_map; [rewrite C1; lia|]. intros x y Hx Hy. apply in_map_iff in Hx, Hy. destruct Hx as (x' & <- & _). destruct Hy as (y' & <- & _).
      destruct (VL x') as [->| ->]; destruct (VL y') as [->| ->]; cbn; lia.
    + rewrite ch_app; [|now apply repeat_ne|exact NRY]. rewrite ch_repeat, CR, last_repeat, hd_app, hd_repeat by assumption. cbn [Nat.eqb]. lia.
    + rewrite ch_app by assumption. rewrite C1, CR, last_map, CV, hd_app, hd_repeat by assumption. cbn [Nat.eqb]. lia.
Qed.
