(** ResultProof.v : proofs about the RESULT lines. *)
From Verif Require Import Base SpecStr SpecIo SpecMain SpecResult ModelIo ModelCore ModelTools ModelLz ModelMain ModelEntropy ModelResult MainProof2.
From Coq Require Import NArith.

Lemma words_from_app w v l : ~ In 32 v -> words_from w (v ++ l) = words_from (w ++ v) l.
Proof.
  revert w. induction v as [|c v IH]; intros w H; cbn [app words_from]; [now rewrite app_nil_r|].
  destruct (Nat.eqb_spec c 32) as [->|N]; [exfalso; apply H; now left|].
  rewrite IH by (intros X; apply H; now right). now rewrite <- app_assoc.
Qed.
Lemma words_cons v l : v <> [] -> ~ In 32 v -> words (v ++ [32] ++ l) = v :: words l.
Proof.
  intros N H. unfold words. rewrite words_from_app by exact H. cbn [app words_from Nat.eqb].
  destruct v; [congruence|reflexivity].
Qed.
Lemma words_sp l : words ([32] ++ l) = words l.
Proof. reflexivity. Qed.
Lemma words_last v : v <> [] -> ~ In 32 v -> words v = [v].
Proof. intros N H. unfold words. rewrite <- (app_nil_r v) at 1. rewrite words_from_app by exact H. cbn. destruct v; [congruence|reflexivity]. Qed.

Lemma decimal_word d n : is_decimal d n -> word_like d.
Proof.
  intros (F & N & _). split; [exact N|]. rewrite Forall_forall in F. split; intros H; apply F in H; lia.
Qed.
Lemma word_dec n : word_like (dec_usize n).
Proof. eapply decimal_word, dec_usize_ok. Qed.

(** fields as they are written: blank separated *)
Definition kv (f : str * str) : str := fst f ++ [61] ++ snd f.
Fixpoint joined (fs : list (str * str)) : str := match fs with [] => [] | f :: fs => [32] ++ kv f ++ joined fs end.
Definition plain (f : str * str) : Prop := ~ In 61 (fst f) /\ ~ In 32 (fst f) /\ ~ In 10 (fst f) /\ ~ In 32 (snd f) /\ ~ In 10 (snd f).
Lemma kv_word f : plain f -> kv f <> [] /\ ~ In 32 (kv f) /\ ~ In 10 (kv f).
Proof.
  intros (_ & H1 & H2 & H3 & H4). unfold kv. split; [destruct (fst f); discriminate|].
  split; rewrite !in_app_iff; cbn [In]; intuition lia.
Qed.
Lemma joined_words fs : Forall plain fs -> forall w, w <> [] -> ~ In 32 w ->
  words (w ++ joined fs) = w :: map kv fs /\ ~ In 10 (joined fs).
Proof.
  induction 1 as [|f fs P _ IH]; intros w Nw Hw; cbn [joined map]; [rewrite app_nil_r, words_last by auto; auto|].
  destruct (kv_word f P) as (K1 & K2 & K3). rewrite words_cons by auto.
  destruct (IH (kv f) K1 K2) as [E N]. rewrite E. split; [reflexivity|].
  rewrite !in_app_iff. cbn [In]. intuition lia.
Qed.
Lemma result_line_joined fs : Forall plain fs -> result_line (ascii "RESULT" ++ joined fs ++ newline) fs.
Proof.
  intros P. destruct (joined_words fs P (ascii "RESULT")) as [E N]; [discriminate|cbn; lia|].
  exists (ascii "RESULT" ++ joined fs). split; [now rewrite app_assoc|]. split.
  - rewrite in_app_iff. intros [H|H]; [cbn in H; lia|auto].
  - split; [exact E|]. rewrite Forall_forall in P |- *. intros f Hf. now apply P.
Qed.
(** a second blank does no harm *)
Lemma words_from_two w u l : words_from w (u ++ [32; 32] ++ l) = words_from w (u ++ [32] ++ l).
Proof.
  revert w. induction u as [|c u IH]; intros w; cbn [app words_from Nat.eqb].
  - destruct w; reflexivity.
  - destruct (c =? 32); [destruct w|]; now rewrite IH.
Qed.
Lemma result_line_two u l fs : result_line (u ++ [32] ++ l) fs -> result_line (u ++ [32; 32] ++ l) fs.
Proof.
  intros (body & E & N & W & F).
  assert (B : exists l', l = l' ++ newline /\ body = u ++ [32] ++ l').
  { destruct l as [|x0 l0].
    - exfalso. change (u ++ [32] ++ []) with (u ++ [32]) in E. apply app_inj_tail in E. destruct E as [_ E]. discriminate.
    - destruct (exists_last (l := x0 :: l0)) as (l' & x & El); [discriminate|]. rewrite El in *. exists l'.
      replace (u ++ [32] ++ l' ++ [x]) with ((u ++ [32] ++ l') ++ [x]) in E by now rewrite <- !app_assoc.
      apply app_inj_tail in E. destruct E as [<- ->]. auto. }
  destruct B as (l' & -> & ->). exists (u ++ [32; 32] ++ l').
  split; [now rewrite <- !app_assoc|]. split.
  - rewrite in_app_iff in *. cbn [app In] in *. intuition lia.
  - split; [|exact F]. rewrite <- W. unfold words. apply words_from_two.
Qed.

(** a field is read in one way only *)
Lemma kv_inj (a b : str * str) : ~ In 61 (fst a) -> ~ In 61 (fst b) -> kv a = kv b -> a = b.
Proof.
  destruct a as [k v], b as [k' v']. unfold kv. cbn [fst snd]. revert k'. induction k as [|x k IH]; intros k' Ha Hb E.
  - destruct k' as [|y k']; cbn [app] in E; [now injection E as ->|]. injection E as <- E. exfalso. apply Hb. now left.
  - destruct k' as [|y k']; cbn [app] in E.
    + injection E as -> E. exfalso. apply Ha. now left.
    + injection E as <- E. assert (X : (k, v) = (k', v')). { apply IH; [intros X; apply Ha; now right|intros X; apply Hb; now right|exact E]. }
      now injection X as -> ->.
Qed.
Lemma result_line_unique line fs fs' : result_line line fs -> result_line line fs' -> fs = fs'.
Proof.
  intros (b & E & _ & W & F) (b' & E' & _ & W' & F'). rewrite E in E'. apply app_inv_tail in E'. subst b'. rewrite W in W'.
  injection W' as W'. clear - W' F F'. revert fs' W' F'. induction F as [|f fs Hf _ IH]; intros [|f' fs'] W F'; try discriminate; [reflexivity|].
  cbn [map] in W. injection W as W1 W2. inversion F' as [|? ? Hf' F'' Eq]; subst. f_equal; [now apply kv_inj|auto].
Qed.

(** the texts read *)
Lemma reads_ok infile content p s : reads infile content p s -> file_or_stdin2byte_vector (is_file infile) content p = Ok s.
Proof.
  intros [-> H]. destruct infile as [f|]; cbn [is_file]; [apply prefix_read_ok|]. unfold file_or_stdin2byte_vector, stdin2byte_vector, prefix_read.
  specialize (H eq_refl). destruct p as [|p]; [reflexivity|]. apply Nat.leb_le in H. rewrite H. reflexivity.
Qed.
Lemma stdin_short infile content p : infile = None -> length content < p -> file_or_stdin2byte_vector (is_file infile) content p = Panic.
Proof.
  intros -> H. unfold is_file, file_or_stdin2byte_vector, stdin2byte_vector. destruct (Nat.ltb_spec 0 p); [|lia]. destruct (Nat.leb_spec p (length content)); [lia|reflexivity].
Qed.

Lemma plain_lit k v : ~ In 61 (lit k) -> ~ In 32 (lit k) -> ~ In 10 (lit k) -> word_like v -> plain (lit k, v).
Proof. intros H1 H2 H3 (_ & H4 & H5). repeat split; auto. Qed.
Ltac pl := repeat match goal with |- Forall _ _ => constructor end;
  try (apply plain_lit; [cbn; lia|cbn; lia|cbn; lia|]; try apply word_dec; try assumption).

(** Debug output of lists of pairs *)
Lemma pairs_tail_ok l : pairs_tail l (concat (map (fun q => lit ", " ++ fmt_pair q) l) ++ lit "]").
Proof.
  induction l as [|[i n] l IH]; [exact pt_nil|]. cbn [map concat]. unfold fmt_pair. cbn [fst snd].
  pose proof (pt_cons i n l _ _ _ (dec_usize_ok i) (dec_usize_ok n) IH) as H. cbn [map concat] in *. unfold fmt_pair in *. cbn [fst snd] in *.
  rewrite <- !app_assoc. exact H.
Qed.
Lemma shown_pairs_ok l : shown_pairs l (fmt_pairs l).
Proof.
  destruct l as [|[i n] l]; [exact sp_nil|].
  pose proof (sp_cons i n l _ _ _ (dec_usize_ok i) (dec_usize_ok n) (pairs_tail_ok l)) as H.
  unfold fmt_pairs, fmt_pair at 1. cbn [fst snd]. rewrite <- !app_assoc. exact H.
Qed.

(** ** reading the line of mus *)
From Verif Require Import FsProof4.
Lemma decimal_inj d i j : is_decimal d i -> is_decimal d j -> i = j.
Proof. intros (_ & _ & _ & <-) (_ & _ & _ & <-). reflexivity. Qed.
Lemma decimal_sep di dj i j x y (r s : str) : is_decimal di i -> is_decimal dj j -> ~ 48 <= x <= 57 -> ~ 48 <= y <= 57 ->
  di ++ x :: r = dj ++ y :: s -> i = j /\ r = s.
Proof.
  intros H1 H2 Hx Hy E. apply digits_sep in E; try assumption; [|apply H1|apply H2].
  destruct E as (-> & E). split; [eapply decimal_inj; eauto|exact E].
Qed.
Lemma sep_inj (c : nat) u v (r s : str) : ~ In c u -> ~ In c v -> u ++ c :: r = v ++ c :: s -> u = v /\ r = s.
Proof.
  revert v. induction u as [|x u IH]; intros [|y v] Hu Hv E; cbn [app] in E.
  - injection E as ->. auto.
  - injection E as <- _. exfalso. apply Hv. now left.
  - injection E as -> _. exfalso. apply Hu. now left.
  - injection E as <- E. apply IH in E; [|intros X; apply Hu; now right|intros X; apply Hv; now right]. destruct E as [-> ->]. auto.
Qed.
Ltac norm E := repeat (first [rewrite <- app_assoc in E|progress cbn [app] in E]).
Lemma pairs_tail_inj L w : pairs_tail L w -> forall L' w', pairs_tail L' w' -> w ++ newline = w' ++ newline -> L = L'.
Proof.
  induction 1 as [|i l L di dl w Hi Hl HL IH]; intros L' w' H' E; inversion H' as [|i' l' L1 di' dl' w1 Hi' Hl' HL']; subst; try discriminate; [reflexivity|].
  cbn in E. injection E as E. norm E.
  apply decimal_sep with (1 := Hi) (2 := Hi') in E; [|lia|lia]. destruct E as (-> & E).
  injection E as E.
  apply decimal_sep with (1 := Hl) (2 := Hl') in E; [|lia|lia]. destruct E as (-> & E).
  f_equal. eapply IH; eauto.
Qed.
Lemma shown_pairs_inj L w L' w' : shown_pairs L w -> shown_pairs L' w' -> w ++ newline = w' ++ newline -> L = L'.
Proof.
  intros H H' E. destruct H as [|i l L di dl w Hi Hl HL]; destruct H' as [|i' l' L1 di' dl' w1 Hi' Hl' HL']; try discriminate; [reflexivity|].
  cbn in E. injection E as E. norm E.
  apply decimal_sep with (1 := Hi) (2 := Hi') in E; [|lia|lia]. destruct E as (-> & E).
  injection E as E.
  apply decimal_sep with (1 := Hl) (2 := Hl') in E; [|lia|lia]. destruct E as (-> & E).
  f_equal. eapply pairs_tail_inj; eauto.
Qed.
Lemma mus_line_inj nm nm' n n' L L' line : ~ In 32 nm -> ~ In 32 nm' -> mus_line nm n L line -> mus_line nm' n' L' line ->
  nm = nm' /\ n = n' /\ L = L'.
Proof.
  intros N N' (dn & dt & t & v & Dn & Dt & V & ->) (dn' & dt' & t' & v' & Dn' & Dt' & V' & E).
  apply app_inv_head in E. cbn [ascii] in E.
  change (ascii " length=" ++ dn ++ ascii "  time_ms=" ++ dt ++ ascii " mus=" ++ v ++ newline)
    with (32 :: ascii "length=" ++ dn ++ 32 :: ascii " time_ms=" ++ dt ++ 32 :: ascii "mus=" ++ v ++ newline) in E.
  change (ascii " length=" ++ dn' ++ ascii "  time_ms=" ++ dt' ++ ascii " mus=" ++ v' ++ newline)
    with (32 :: ascii "length=" ++ dn' ++ 32 :: ascii " time_ms=" ++ dt' ++ 32 :: ascii "mus=" ++ v' ++ newline) in E.
  apply sep_inj in E; auto. destruct E as (-> & E). apply app_inv_head in E.
  apply decimal_sep with (1 := Dn) (2 := Dn') in E; [|lia|lia]. destruct E as (-> & E).
  apply app_inv_head in E. apply decimal_sep with (1 := Dt) (2 := Dt') in E; [|lia|lia]. destruct E as (-> & E). apply app_inv_head in E.
  split; [reflexivity|]. split; [reflexivity|]. eapply shown_pairs_inj; eauto.
Qed.

(** a nonempty list of pairs ends with a word that is no field *)
Lemma words_from_snoc w u l : words_from w (u ++ [32] ++ l) = words_from w u ++ words l.
Proof.
  revert w. induction u as [|c u IH]; intros w; cbn [app words_from Nat.eqb].
  - destruct w; reflexivity.
  - destruct (c =? 32); [destruct w|]; rewrite IH; reflexivity.
Qed.
Lemma pair_end d n : is_decimal d n -> forall z, z = d ++ ascii ")" ++ ascii "]" -> z <> [] /\ ~ In 32 z /\ ~ In 61 z.
Proof.
  intros (F & Hne & _) z ->. rewrite Forall_forall in F. split; [destruct d; [congruence|discriminate]|].
  split; rewrite !in_app_iff; cbn; intros [H|H]; [apply F in H; lia|lia|apply F in H; lia|lia].
Qed.
Lemma pairs_tail_end L w : pairs_tail L w -> L <> [] -> exists u z, w = u ++ [32] ++ z /\ z <> [] /\ ~ In 32 z /\ ~ In 61 z.
Proof.
  induction 1 as [|i l L di dl w Hi Hl HL IH]; intros N; [congruence|]. destruct HL as [|i' l' L di' dl' w' Hi' Hl' HL].
  - exists (ascii ", (" ++ di ++ ascii ","), (dl ++ ascii ")" ++ ascii "]"). split; [now rewrite <- !app_assoc|]. eapply pair_end; eauto.
  - destruct IH as (u & z & E & P); [discriminate|]. rewrite E. exists (ascii ", (" ++ di ++ ascii ", " ++ dl ++ ascii ")" ++ u), z.
    split; [now rewrite <- !app_assoc|exact P].
Qed.
Lemma shown_pairs_end L w : shown_pairs L w -> L <> [] -> exists u z, w = u ++ [32] ++ z /\ z <> [] /\ ~ In 32 z /\ ~ In 61 z.
Proof.
  intros H N. destruct H as [|i l L di dl w Hi Hl HL]; [congruence|]. destruct L as [|p L].
  - inversion HL; subst. exists (ascii "[(" ++ di ++ ascii ","), (dl ++ ascii ")" ++ ascii "]").
    split; [now rewrite <- !app_assoc|]. eapply pair_end; eauto.
  - destruct (pairs_tail_end _ _ HL) as (u & z & E & P); [discriminate|]. rewrite E.
    exists (ascii "[(" ++ di ++ ascii ", " ++ dl ++ ascii ")" ++ u), z. split; [now rewrite <- !app_assoc|exact P].
Qed.
Lemma mus_line_no_fields nm n L line fs : mus_line nm n L line -> L <> [] -> ~ result_line line fs.
Proof.
  intros (dn & dt & t & v & Dn & Dt & V & ->) N (body & E & _ & W & F).
  destruct (shown_pairs_end _ _ V N) as (u & z & -> & Z1 & Z2 & Z3).
  set (h := ascii "RESULT file=" ++ nm ++ ascii " length=" ++ dn ++ ascii "  time_ms=" ++ dt ++ ascii " mus=" ++ u).
  assert (B : body = h ++ [32] ++ z).
  { apply (app_inv_tail newline). rewrite <- E. unfold h. repeat (rewrite <- app_assoc). reflexivity. }
  rewrite B in W.
  unfold words in W. rewrite words_from_snoc in W. rewrite (words_last z) in W by assumption.
  destruct fs as [|f fs] using rev_ind; [|clear IHfs].
  - cbn [map] in W. assert (X : length (words_from [] h) = 0).
    { apply (f_equal (@length _)) in W. rewrite app_length in W. cbn [length] in W. lia. }
    change h with (ascii "RESULT" ++ [32] ++ (ascii "file=" ++ nm ++ ascii " length=" ++ dn ++ ascii "  time_ms=" ++ dt ++ ascii " mus=" ++ u)) in X.
    rewrite words_from_snoc, app_length in X. discriminate.
  - rewrite map_app in W. cbn [map] in W. rewrite app_comm_cons in W. apply app_inj_tail in W. destruct W as [_ ->].
    apply Z3. rewrite !in_app_iff. right. left. now left.
Qed.
