(** ProbeProof.v : what parallel.rs prints. *)
From Verif Require Import Base SpecStr SpecBwt SpecIo SpecMain SpecPar SpecProbe LexFacts RunFacts ModelIo ModelCore ModelMain ModelPar ModelProbe.
From Verif Require Import DuvalProof LyndonProof BwtFacts BwtProof BbwtProof IterProof LwgProof MainProof MainProof2 ParProof LockFacts ParProof2 ParProof3.

Lemma bvs_ab w : binary_vector_to_str w = ab w.
Proof. unfold binary_vector_to_str, ab. apply map_ext. intros [|c]; reflexivity. Qed.

Lemma bbr_lyndon w : lyndon w -> bbr w = bwr w.
Proof. intros H. unfold bbr, bwr. now rewrite (bbwt_lyndon w H). Qed.
Lemma bwr_le w : bwr w <= length w.
Proof.
  destruct (bwr_ok w) as ((b & rs & H1 & H2 & ->) & _). pose proof (runs_length_le b rs H2).
  pose proof (Permutation_length (matrix_bwt_perm w b H1)). lia.
Qed.
Lemma rot_nn (w : str) i : w <> [] -> rot i w <> [].
Proof. intros H E. apply (f_equal (@length nat)) in E. rewrite rot_length in E. destruct w; [easy|discriminate]. Qed.

Definition unb (thr : nat) (w : str) : bool :=
  forallb (fun i => bwr w <=? bbr (rot i w)) (seq 0 (length w)) && (thr <=? bwr w).
Lemma unb_ok thr w : w <> [] -> (unb thr w = true <-> unbeaten thr w).
Proof.
  intros Hw. unfold unb. rewrite Bool.andb_true_iff, forallb_forall, Nat.leb_le. split.
  - intros (H1 & H2). exists (bwr w). split; [apply bwr_ok|]. split; [exact H2|]. intros i b Hi Hb.
    rewrite (bbwt_runs_unique _ b (bbr (rot i w)) (rot_nn w i Hw) Hb) by (apply bbr_ok; now apply rot_nn).
    apply Nat.leb_le, H1. apply in_seq. lia.
  - intros (r & Hr & H1 & H2). rewrite (bwt_runs_unique w r (bwr w) Hr) in * by apply bwr_ok.
    split; [|exact H1]. intros i Hi. apply in_seq in Hi. apply Nat.leb_le. apply (H2 i); [lia|]. apply bbr_ok. now apply rot_nn.
Qed.

Lemma probe_word_ok max thr w : lyndon w -> length w <= max ->
  probe_word max thr w = Ok (if unb thr w then probe_line w w (bwr w) (bwr w) else []).
Proof.
  intros HL Hl. pose proof (lyndon_not_nil _ HL) as Hw. pose proof (lyndon_length _ HL) as L1.
  destruct (bwr_ok w) as (_ & b & Eb & Er). pose proof (bwr_le w) as Hbw.
  unfold probe_word. rewrite Eb. cbn [bind]. rewrite Er. cbn [bind].
  destruct (Nat.ltb_spec 0 (length w)); [|lia]. cbn [assert_ bind]. rewrite sub_ok by lia. cbn [bind].
  destruct (Nat.ltb_spec (length w - 1) max); [|lia]. cbn [assert_ bind].
  set (body := fun '(it, bbwt_wins, best_conjugate, best_bbwt_runs) => _).
  set (J := fun p wins cj best => (wins = 0 <-> forall i, i < p -> bwr w <= bbr (rot i w)) /\
      (wins = 0 -> cj = w /\ best = if p =? 0 then max else bwr w)).
  assert (G : okp (loop (S (length w)) body (cit_new w, 0, w, max)) (fun '(wins, cj, best) => J (length w) wins cj best)).
  { apply (okp_loop (fun '(it, wins, cj, best) => exists p, it = CIT w p /\ p <= length w /\ J p wins cj best)
      (fun '(it, _, _, _) => length w - cit_pos it)).
    - intros (((it, wins), cj), best) (p & -> & Hp & HJ). unfold body.
      destruct (Nat.eq_dec p (length w)) as [->|Np].
      + rewrite cit_next_end. cbn [bind]. now apply okp_ok.
      + rewrite cit_next_ok by lia. cbn [bind].
        destruct (bbr_ok (rot p w) (rot_nn w p Hw)) as (_ & bb & Ebb & En). rewrite Ebb. cbn [bind]. rewrite En. cbn [bind].
        destruct HJ as (HJ1 & HJ2).
        assert (KEY : forall cj' best', (bbr (rot p w) <? bwr w = false -> wins = 0 -> cj' = w /\ best' = bwr w) ->
          J (p + 1) (if bbr (rot p w) <? bwr w then wins + 1 else wins) cj' best').
        { intros cj' best' K. split.
          - destruct (Nat.ltb_spec (bbr (rot p w)) (bwr w)) as [C|C].
            + split; [lia|]. intros F. specialize (F p ltac:(lia)). lia.
            + split.
              * intros E i Hi. destruct (Nat.eq_dec i p) as [->|]; [exact C|]. apply HJ1; [exact E|lia].
              * intros F. apply HJ1. intros i Hi. apply F. lia.
          - intros E. replace (p + 1 =? 0) with false by (symmetry; apply Nat.eqb_neq; lia).
            destruct (bbr (rot p w) <? bwr w) eqn:C; [lia|]. apply K; auto. }
        destruct (Nat.ltb_spec (bbr (rot p w)) best) as [C|C]; apply okp_ok; (split; [|cbn [cit_pos]; lia]);
          exists (p + 1); (split; [reflexivity|]); (split; [lia|]); apply KEY; intros C2 E;
          apply Nat.ltb_ge in C2; destruct (HJ2 E) as (-> & Eb2); destruct (Nat.eqb_spec p 0) as [->|Np0].
        * rewrite rot_0, bbr_lyndon by auto. auto.
        * lia.
        * rewrite rot_0, bbr_lyndon in C by auto. split; [reflexivity|lia].
        * auto.
    - exists 0. split; [reflexivity|]. split; [lia|]. split; [split; [lia|auto]|auto].
    - simpl. lia. }
  destruct G as (((wins, cj), best) & Eg & HJ1 & HJ2). rewrite Eg. cbn [bind].
  destruct (Nat.eqb_spec (length w) 0) as [|_]; [lia|].
  assert (E : (wins =? 0) && (thr <=? bwr w) = unb thr w).
  { unfold unb. f_equal. apply Bool.eq_iff_eq_true. rewrite Nat.eqb_eq, forallb_forall, HJ1. split.
    - intros F i Hi. apply in_seq in Hi. apply Nat.leb_le, F. lia.
    - intros F i Hi. apply Nat.leb_le, F, in_seq. lia. }
  rewrite E. destruct (unb thr w) eqn:U; [|reflexivity].
  apply Bool.andb_true_iff in E. destruct E as (E & _). apply Nat.eqb_eq in E. destruct (HJ2 E) as (-> & ->). reflexivity.
Qed.

Definition pl (w : str) : str := ascii "text=" ++ ab w ++ ascii " conj=" ++ ab w ++ ascii " rbwt=" ++ dec_usize (bwr w) ++ ascii " rbbwt=" ++ dec_usize (bwr w).
Lemma pl_ok w : probe_line w w (bwr w) (bwr w) = pl w ++ newline.
Proof. unfold probe_line, println. rewrite bvs_ab. reflexivity. Qed.
Lemma pl_is w : is_probe_line w (pl w).
Proof. exists (bwr w), (dec_usize (bwr w)). split; [apply bwr_ok|]. split; [apply dec_usize_ok|reflexivity]. Qed.

Definition probe_body max thr := (fun '(g, out) =>
    '(it, g') <- lwg_next g ;;
    match it with
    | None => Ok (Brk out)
    | Some text => line <- probe_word max thr text ;; Ok (Cont (g', out ++ line))
    end) : lwg * str -> res (ctl (lwg * str) str).
Lemma probe_loop max thr : forall L g out fuel, (forall k, calls lwg_next k g = Ok (yields L k)) -> length L < fuel ->
  Forall (fun w => lyndon w /\ length w <= max) L ->
  loop fuel (probe_body max thr) (g, out) = Ok (out ++ lines (map pl (filter (unb thr) L))).
Proof.
  induction L as [|w L IH]; intros g out fuel H Hf F; (destruct fuel as [|fuel]; [simpl in Hf; lia|]); cbn [loop probe_body].
  - destruct (calls_nil _ _ H) as (g' & ->). cbn [bind]. unfold lines. simpl. now rewrite app_nil_r.
  - destruct (calls_cons _ _ _ _ H) as (g' & -> & H'). cbn [bind]. inversion F as [|? ? (F1 & F2) F3]; subst.
    rewrite probe_word_ok by auto. cbn [bind filter]. rewrite IH by (auto; simpl in Hf; lia).
    destruct (unb thr w).
    + rewrite pl_ok. unfold lines. cbn [map concat]. now rewrite <- !app_assoc.
    + now rewrite app_nil_r.
Qed.

Lemma probe_main_ok max thr : 1 <= max -> exists L ls K,
  (forall fuel, K < fuel -> probe_main fuel max thr = Ok (lines ls)) /\
  StronglySorted lex_lt L /\ Forall2 is_probe_line L ls /\
  forall w, In w L <-> lyndon w /\ length w <= max /\ Forall (fun c => c < 2) w /\ unbeaten thr w.
Proof.
  intros Hm. destruct (lwg_correct max 2 Hm ltac:(lia)) as (L & HS & HI & HC).
  assert (F : Forall (fun w => lyndon w /\ length w <= max) L).
  { apply Forall_forall. intros w Hw. apply HI in Hw. tauto. }
  exists (filter (unb thr) L), (map pl (filter (unb thr) L)), (length L). split; [|split; [|split]].
  - intros fuel Hf. exact (probe_loop max thr L (lwg_new max 2) [] fuel HC Hf F).
  - clear -HS. induction HS as [|w l HS IH HF]; [constructor|]. cbn [filter]. destruct (unb thr w); [|exact IH].
    constructor; [exact IH|]. rewrite Forall_forall in *. intros x Hx. apply filter_In in Hx. apply HF. tauto.
  - induction (filter (unb thr) L); constructor; auto using pl_is.
  - intros w. rewrite filter_In, HI. split.
    + intros ((A & B & C) & D). apply unb_ok in D; [tauto|]. now apply lyndon_not_nil.
    + intros (A & B & C & D). apply unb_ok in D; [tauto|]. now apply lyndon_not_nil.
Qed.

(** ** the lines printed by a worker *)
Definition ndf (c : str) : nat := match number_distinct_lyndon_factors c with Ok n => n | _ => 0 end.
Definition bbw (c : str) : str := match bbwt_naive c with Ok b => b | _ => [] end.
Definition fewb (c : str) : bool := bbr c <=? ndf c + 1.
Definition wl (c : str) : str :=
  ascii "bbwt=" ++ ab (bbw c) ++ ascii " conjugate=" ++ ab c ++ ascii " bbwt_runs=" ++ dec_usize (bbr c) ++ ascii " #factors=" ++ dec_usize (ndf c).

Lemma ndf_ok c : c <> [] -> number_distinct_lyndon_factors c = Ok (ndf c).
Proof. intros Hc. unfold ndf. destruct (number_distinct_total c) as (n & ->). reflexivity. Qed.
Lemma bbw_ok c : c <> [] -> bbwt_naive c = Ok (bbw c) /\ runs_of_slice (bbw c) = Ok (bbr c) /\ is_bijective_bwt c (bbw c) /\
  exists rs, is_runs (bbw c) rs /\ bbr c = length rs.
Proof.
  intros Hc. destruct (bbwt_naive_ok c Hc) as (b & E & H). unfold bbw, bbr. rewrite E.
  destruct (runs_of_slice_ok b) as (n & rs & En & Hr & Hn). rewrite En. repeat split; auto. now exists rs.
Qed.
Lemma wl_ok c : c <> [] -> worker_line (bbw c) c (bbr c) (ndf c) = wl c ++ newline.
Proof. intros Hc. unfold worker_line, println, wl. rewrite !bvs_ab. rewrite <- !app_assoc. reflexivity. Qed.

Lemma par_work_out_ok max w : w <> [] -> length w <= max -> exists r b,
  par_work max w = Ok (r, b) /\
  par_work_out max w = Ok (r, b, lines (map wl (filter fewb (map (fun i => rot i w) (seq 0 (length w)))))).
Proof.
  intros Hw Hl. assert (L1 : 1 <= length w) by (destruct w; [congruence|simpl; lia]).
  destruct (bwr_ok w) as (_ & b & Eb & Er). unfold par_work, par_work_out. rewrite Eb. cbn [bind]. rewrite Er. cbn [bind].
  destruct (Nat.ltb_spec 0 (length w)); [|lia]. cbn [assert_ bind]. rewrite sub_ok by lia. cbn [bind].
  destruct (Nat.ltb_spec (length w - 1) max); [|lia]. cbn [assert_ bind].
  set (body := fun '(it, best) => _). set (bodyo := fun '(it, best, out) => _).
  set (ps := fun p => lines (map wl (filter fewb (map (fun i => rot i w) (seq 0 p))))).
  assert (G : forall k p best, p + k = length w -> exists best',
     loop (S k) body (CIT w p, best) = Ok best' /\ loop (S k) bodyo (CIT w p, best, ps p) = Ok (best', ps (length w))).
  { induction k as [|k IH]; intros p best Hp.
    - cbn [loop]. unfold body at 1, bodyo at 1. replace p with (length w) by lia. rewrite cit_next_end. cbn [bind]. eauto.
    - cbn [loop]. unfold body at 1, bodyo at 1. rewrite cit_next_ok by lia. cbn [bind].
      destruct (bbw_ok (rot p w) (rot_nn w p Hw)) as (E1 & E2 & _). rewrite E1. cbn [bind]. rewrite E2. cbn [bind].
      rewrite ndf_ok by now apply rot_nn. cbn [bind].
      assert (Eps : (if bbr (rot p w) <=? ndf (rot p w) + 1 then ps p ++ worker_line (bbw (rot p w)) (rot p w) (bbr (rot p w)) (ndf (rot p w)) else ps p) = ps (p + 1)).
      { unfold ps. rewrite seq_app, map_app, filter_app, map_app. unfold lines. rewrite map_app, concat_app.
        cbn [seq map filter Nat.add]. fold (fewb (rot p w)). destruct (fewb (rot p w)).
        - rewrite wl_ok by now apply rot_nn. cbn [map concat]. now rewrite app_nil_r.
        - cbn [map concat]. now rewrite app_nil_r. }
      rewrite Eps. apply IH. lia. }
  destruct (G (length w) 0 max eq_refl) as (best & E1 & E2). unfold cit_new.
  change (ps 0) with (@nil nat) in E2. rewrite E1, E2. cbn [bind]. eauto.
Qed.

(** ** the table *)
Lemma dec_loop_mono : forall f n g m, n < f -> m < g -> n <= m -> length (dec_loop f n) <= length (dec_loop g m).
Proof.
  induction f as [|f IH]; intros n g m Hf Hg Hnm; [lia|]. destruct g as [|g]; [lia|]. cbn [dec_loop].
  destruct (Nat.ltb_spec n 10) as [C|C]; destruct (Nat.ltb_spec m 10) as [D|D]; rewrite ?app_length; cbn [length]; try lia.
  assert (n / 10 < n) by (apply Nat.div_lt; lia). assert (m / 10 < m) by (apply Nat.div_lt; lia).
  specialize (IH (n / 10) g (m / 10) ltac:(lia) ltac:(lia) (Nat.div_le_mono _ _ 10 ltac:(lia) Hnm)). lia.
Qed.
Lemma dec_usize_mono n m : n <= m -> length (dec_usize n) <= length (dec_usize m).
Proof. intros H. apply dec_loop_mono; lia. Qed.
Lemma cell_ok width n : length (dec_usize n) <= width -> is_cell width n (cell width n).
Proof.
  intros H. exists (dec_usize n), (width - length (dec_usize n)). split; [apply dec_usize_ok|]. split; [reflexivity|].
  unfold cell. rewrite !app_length, repeat_length. cbn [length]. lia.
Qed.
Lemma row_ok width ns : (forall n, In n ns -> length (dec_usize n) <= width) -> is_row width ns (concat (map (cell width) ns)).
Proof.
  intros H. exists (map (cell width) ns). split; [|reflexivity]. induction ns as [|n ns IH]; constructor.
  - apply cell_ok, H. now left.
  - apply IH. intros m Hm. apply H. now right.
Qed.
Lemma for_emit {A} (l : list A) (f : A -> str) (body : A -> str -> res str) : (forall a out, In a l -> body a out = Ok (out ++ f a)) ->
  forall out, for_in l body out = Ok (out ++ concat (map f l)).
Proof.
  induction l as [|a l IH]; intros H out; cbn [for_in map concat]; [now rewrite app_nil_r|].
  rewrite H by now left. cbn [bind]. rewrite IH by (intros; apply H; now right). now rewrite app_assoc.
Qed.

Lemma Forall2_map_self {A B} (P : A -> B -> Prop) f l : (forall a, In a l -> P a (f a)) -> Forall2 P l (map f l).
Proof. induction l as [|a l IH]; intros H; constructor; [apply H; now left|apply IH; intros; apply H; now right]. Qed.

Definition tcell (stats : list (list nat)) (r b : nat) : nat := nth b (nth r stats []) 0.
Lemma get_cell max stats r b : square max stats -> r <= max -> b <= max ->
  exists row, get stats r = Ok row /\ get row b = Ok (tcell stats r b).
Proof.
  intros (H1 & H2) Hr Hb. exists (nth r stats []). split; [apply get_ok; lia|]. apply get_ok. rewrite H2; lia.
Qed.

Lemma par_table_ok max p stats total : 1 <= max <= 100 -> square max stats -> exists width hdr rows,
  par_table max p stats total = Ok (lines ((ascii "binary string length: " ++ dec_usize p ++ ascii " ") ::
     (ascii "bwt \ bbwt : #= " ++ dec_usize total) :: hdr :: rows)) /\
  is_row width (seq 0 max) hdr /\
  Forall2 (fun r l => is_row width (r :: map (tcell stats r) (seq 1 (max - 1))) l) (seq 1 (max - 1)) rows.
Proof.
  intros Hm HS. unfold par_table.
  match goal with |- context [bind ?e _] => assert (G : okp e (fun mv => forall r b, r < max -> b < max -> tcell stats r b <= mv)) end.
  { eapply okp_imp; [eapply (okp_for_range (fun br mv => forall r b, r < br -> b < max -> tcell stats r b <= mv)); [lia|lia|]|auto].
    intros br mv Hbr HI.
    eapply okp_imp; [eapply (okp_for_range (fun bbr mv' => mv <= mv' /\ forall b, b < bbr -> tcell stats br b <= mv')); [lia|split; lia|]|].
    - intros bbr mv' Hb (H1 & H2). destruct (get_cell max stats br bbr HS ltac:(lia) ltac:(lia)) as (row & -> & E2). cbn [bind].
      rewrite E2. cbn [bind]. apply okp_ok.
      destruct (Nat.ltb_spec mv' (tcell stats br bbr)) as [C|C]; (split; [lia|]); intros b Hb';
        (destruct (Nat.eq_dec b bbr) as [->|]; [lia|specialize (H2 b ltac:(lia)); lia]).
    - intros mv' (H1 & H2) r b Hr Hb. destruct (Nat.eq_dec r br) as [->|]; [auto|]. specialize (HI r b ltac:(lia) Hb). lia. }
  destruct G as (mv & Emv & Hmv). rewrite Emv. cbn [bind]. set (width := Nat.max 2 (length (dec_usize mv))).
  assert (Hlab : forall n, n < max -> length (dec_usize n) <= width).
  { intros n Hn. assert (length (dec_usize n) <= length (dec_usize 99)) by (apply dec_usize_mono; lia).
    change (length (dec_usize 99)) with 2 in *. unfold width. lia. }
  assert (Hcell : forall r b, r < max -> b < max -> length (dec_usize (tcell stats r b)) <= width).
  { intros r b Hr Hb. pose proof (dec_usize_mono _ _ (Hmv r b Hr Hb)). unfold width. lia. }
  exists width, (concat (map (cell width) (seq 0 max))),
    (map (fun r => concat (map (cell width) (r :: map (tcell stats r) (seq 1 (max - 1))))) (seq 1 (max - 1))).
  split; [|split].
  - unfold range. rewrite Nat.sub_0_r. rewrite (for_emit _ (cell width)) by reflexivity. cbn [bind].
    rewrite (for_emit _ (fun r => concat (map (cell width) (r :: map (tcell stats r) (seq 1 (max - 1)))) ++ newline)).
    2: { intros r out Hr. apply in_seq in Hr.
         rewrite (for_emit _ (fun b => cell width (tcell stats r b))).
         - cbn [bind map concat]. rewrite map_map. unfold println, newline. cbn [app]. now rewrite <- !app_assoc.
         - intros b out' Hb. apply in_seq in Hb.
           destruct (get_cell max stats r b HS ltac:(lia) ltac:(lia)) as (row & -> & E2). cbn [bind]. rewrite E2. reflexivity. }
    f_equal. unfold lines. rewrite !map_cons, map_map. cbn [concat]. unfold println, newline.
    change (ascii "binary string length: ") with [98;105;110;97;114;121;32;115;116;114;105;110;103;32;108;101;110;103;116;104;58;32].
    change (ascii "bwt \ bbwt : #= ") with [98;119;116;32;92;32;98;98;119;116;32;58;32;35;61;32].
    change (ascii " ") with [32]. rewrite <- !app_assoc. reflexivity.
  - apply row_ok. intros n Hn. apply in_seq in Hn. apply Hlab. lia.
  - apply Forall2_map_self. intros r Hr. apply in_seq in Hr. apply row_ok. intros n [<-|Hn]; [apply Hlab; lia|].
    apply in_map_iff in Hn. destruct Hn as (b & <- & Hb). apply in_seq in Hb. apply Hcell; lia.
Qed.

(** ** every word falls into a printed cell on or below the diagonal *)
Lemma number_of_unique (P : str -> Prop) n m : number_of P n -> number_of P m -> n = m.
Proof.
  intros (L & N1 & H1 & <-) (M & N2 & H2 & <-). apply Permutation_length, NoDup_Permutation; auto.
  intros w. now rewrite H1, H2.
Qed.
Lemma number_of_filter (P : str -> Prop) (f : str -> bool) L : NoDup L -> (forall w, In w L <-> P w) ->
  number_of (fun w => P w /\ f w = true) (length (filter f L)).
Proof.
  intros N H. exists (filter f L). split; [now apply NoDup_filter|]. split; [|reflexivity].
  intros w. now rewrite filter_In, H.
Qed.
Lemma number_of_ext (P Q : str -> Prop) n : (forall w, P w <-> Q w) -> number_of P n -> number_of Q n.
Proof. intros H (L & N & H1 & E). exists L. split; [auto|]. split; [|auto]. intros w. rewrite H1. apply H. Qed.
Lemma filter_class {A} (c : A -> nat) (L : list A) lo n : (forall w, In w L -> lo <= c w < lo + n) ->
  list_sum (map (fun k => length (filter (fun w => c w =? k) L)) (seq lo n)) = length L.
Proof.
  induction L as [|w L IH]; intros H; cbn [filter length].
  - induction (seq lo n); simpl; auto.
  - rewrite <- IH by (intros; apply H; now right).
    assert (Hw : In (c w) (seq lo n)) by (apply in_seq; apply H; now left).
    assert (G : forall l, NoDup l -> In (c w) l ->
      list_sum (map (fun k => length (if c w =? k then w :: filter (fun w0 => c w0 =? k) L else filter (fun w0 => c w0 =? k) L)) l) =
      S (list_sum (map (fun k => length (filter (fun w0 => c w0 =? k) L)) l))).
    { induction l as [|k l IHl]; [easy|]. intros ND Hin. inversion ND as [|? ? Hnot ND']; subst. cbn [map list_sum].
      change (list_sum (?a :: ?b)) with (a + list_sum b).
      destruct (Nat.eqb_spec (c w) k) as [E|E].
      - cbn [length]. rewrite (map_ext_in _ (fun k => length (filter (fun w0 => c w0 =? k) L))); [lia|].
        intros k' Hk'. destruct (Nat.eqb_spec (c w) k'); [congruence|reflexivity].
      - destruct Hin as [Hin|Hin]; [congruence|]. rewrite IHl by auto. lia. }
    apply G; [apply seq_NoDup|exact Hw].
Qed.

(** ** the BWT of a binary Lyndon word of length at least 2 starts with 1, ends with 0: an even number of runs *)
Lemma one_rot_all (R : str) : Forall (fun c => c < 2) R -> lex_le (1 :: R) (R ++ [1]) -> Forall (fun c => c = 1) R.
Proof.
  induction R as [|c R IH]; intros F H; [constructor|]. inversion F as [|? ? Fc FR]; subst.
  assert (E : c = 1 /\ lex_le (1 :: R) (R ++ [1])).
  { destruct H as [H|H]; cbn [app] in H.
    - injection H as H1 H2. rewrite <- H1 in *. split; [reflexivity|now left].
    - inversion H; subst; [lia|]. split; [reflexivity|now right]. }
  destruct E as (-> & E). constructor; auto.
Qed.
Lemma lyndon_bin_ends w : lyndon w -> 2 <= length w -> Forall (fun c => c < 2) w -> hd 0 w = 0 /\ last w 0 = 1.
Proof.
  intros (Hne & HL) Hl F. assert (E := app_removelast_last 0 Hne).
  assert (Hr : removelast w <> []).
  { intros C. rewrite C in E. rewrite E in Hl. simpl in Hl. lia. }
  specialize (HL _ _ E Hr ltac:(discriminate)).
  assert (Hlast : last w 0 < 2). { rewrite Forall_forall in F. apply F. rewrite E at 2. apply in_app_iff. right. now left. }
  clear E Hr F Hl. revert HL Hlast. generalize (last w 0). intros z HL Hz. destruct w as [|c w]; [easy|]. cbn [hd].
  inversion HL; subst; [lia|]. match goal with H : lex_lt _ [] |- _ => inversion H end.
Qed.
Lemma Forall_perm {A} (P : A -> Prop) l l' : Permutation l l' -> Forall P l -> Forall P l'.
Proof. intros HP F. rewrite Forall_forall in *. intros x Hx. apply F. now apply (Permutation_in _ (Permutation_sym HP)). Qed.
Lemma bwt_ends w b : lyndon w -> 2 <= length w -> Forall (fun c => c < 2) w -> is_matrix_bwt w b -> hd 0 b = 1 /\ last b 0 = 0.
Proof.
  intros HL Hl F (M & HP & HS & ->). destruct (lyndon_bin_ends w HL Hl F) as (H0 & H1).
  assert (HM : forall x, In x M <-> exists i, i < length w /\ x = rot i w).
  { intros x. rewrite <- in_rotations. split; apply Permutation_in; [exact HP|now symmetry]. }
  assert (Hw : In w M) by (apply HM; exists 0; rewrite rot_0; split; [lia|reflexivity]).
  split.
  - destruct M as [|r M]; [easy|]. cbn [map hd]. replace r with w; [exact H1|].
    destruct Hw as [->|Hw]; [reflexivity|]. inversion HS as [|? ? _ HF]; subst. rewrite Forall_forall in HF.
    apply lex_le_antisym; [|now apply HF].
    destruct (proj1 (HM r) ltac:(now left)) as (i & Hi & ->). destruct (Nat.eq_dec i 0) as [->|]; [rewrite rot_0; apply lex_le_refl|].
    right. apply lyndon_lt_rot; [exact HL|lia].
  - destruct M as [|R M _] using rev_ind; [easy|]. rewrite map_app. cbn [map]. rewrite last_last.
    assert (HR : forall x, In x (M ++ [R]) -> lex_le x R).
    { intros x Hx. apply in_app_iff in Hx. destruct Hx as [Hx|[<-|[]]]; [|apply lex_le_refl].
      clear -HS Hx. induction M as [|y M IH]; [easy|]. simpl in HS. inversion HS as [|? ? A B]; subst.
      destruct Hx as [->|Hx]; [|now apply IH]. rewrite Forall_forall in B. apply B, in_app_iff. right. now left. }
    destruct (proj1 (HM R) ltac:(apply in_app_iff; right; now left)) as (i & Hi & ER).
    assert (LR : length R = length w) by (rewrite ER; apply rot_length).
    assert (FR : Forall (fun c => c < 2) R).
    { apply (Forall_perm _ w); [|exact F]. rewrite ER. unfold rot.
      rewrite <- (firstn_skipn i w) at 1. apply Permutation_app_comm. }
    assert (Hne : R <> []) by (intros ->; simpl in LR; lia).
    pose proof (app_removelast_last 0 Hne) as E. destruct (last R 0) as [|[|c]] eqn:Ec; [reflexivity| |exfalso].
    2: { rewrite Forall_forall in FR. assert (In (S (S c)) R) by (rewrite E; apply in_app_iff; right; now left). apply FR in H. lia. }
    exfalso. set (R' := removelast R) in *.
    assert (LR' : length R' + 1 = length w) by (rewrite <- LR, E, app_length; reflexivity).
    assert (Hin : In (1 :: R') (M ++ [R])).
    { apply HM. exists ((length R' + i) mod length w). split; [apply Nat.mod_upper_bound; lia|].
      rewrite <- rot_rot by lia. rewrite <- ER, E. unfold rot.
      rewrite skipn_app, firstn_app, Nat.sub_diag, skipn_all, firstn_all. cbn. now rewrite app_nil_r. }
    apply HR in Hin. rewrite E in Hin, FR. apply Forall_app in FR. destruct FR as (FR & _).
    pose proof (one_rot_all R' FR Hin) as A1.
    assert (A2 : Forall (fun c => c = 1) R) by (rewrite E; apply Forall_app; auto).
    assert (HP2 : In 0 R).
    { rewrite ER. unfold rot. apply in_app_iff. destruct w as [|c w]; [easy|]. cbn [hd] in H0. subst c.
      rewrite <- (firstn_skipn i (0 :: w)) in Hw at 1. assert (In 0 (0 :: w)) by now left.
      rewrite <- (firstn_skipn i (0 :: w)) in H at 1. apply in_app_iff in H. tauto. }
    rewrite Forall_forall in A2. specialize (A2 0 HP2). discriminate.
Qed.
Lemma runs_parity rs : Forall (fun r => fst r < 2) rs -> (forall i, S i < length rs -> fst (nth i rs (0, 0)) <> fst (nth (S i) rs (0, 0))) ->
  rs <> [] -> (Nat.even (length rs) = true <-> fst (hd (0, 0) rs) <> fst (last rs (0, 0))).
Proof.
  induction rs as [|(x, k) rs IH]; intros F H Hne; [easy|]. destruct rs as [|(y, l) rs]; [simpl; intuition congruence|].
  inversion F as [|? ? Fx F2]; subst. inversion F2 as [|? ? Fy _]; subst. cbn [fst] in Fx, Fy.
  pose proof (H 0 ltac:(simpl; lia)) as Hxy. cbn in Hxy.
  assert (IH' := IH F2 ltac:(intros i Hi; exact (H (S i) ltac:(simpl in *; lia))) ltac:(discriminate)).
  change (last ((x, k) :: (y, l) :: rs) (0, 0)) with (last ((y, l) :: rs) (0, 0)).
  change (length ((x, k) :: (y, l) :: rs)) with (S (length ((y, l) :: rs))). rewrite Nat.even_succ, <- Nat.negb_even.
  cbn [hd fst] in *. set (z := last ((y, l) :: rs) (0, 0)) in *.
  assert (Fz : fst z < 2).
  { rewrite Forall_forall in F2. apply F2. unfold z. clear. generalize (y, l). induction rs as [|a rs IHr]; intros q; [now left|].
    right. exact (IHr a). }
  destruct (Nat.even (length ((y, l) :: rs))); cbn [negb].
  - assert (y <> fst z) by now apply IH'. split; [discriminate|lia].
  - assert (y = fst z) by (destruct (Nat.eq_dec y (fst z)) as [|N]; [assumption|apply IH' in N; discriminate]).
    split; [lia|reflexivity].
Qed.
Lemma expand_hd rs : Forall (fun r => 1 <= snd r) rs -> hd 0 (expand rs) = fst (hd (0, 0) rs).
Proof. intros F. destruct F as [|(c, l) rs Hl F]; [reflexivity|]. simpl in Hl. unfold expand. simpl. destruct l; [lia|reflexivity]. Qed.
Lemma expand_last rs : Forall (fun r => 1 <= snd r) rs -> last (expand rs) 0 = fst (last rs (0, 0)).
Proof.
  intros F. destruct rs as [|(c, l) rs _] using rev_ind; [reflexivity|]. apply Forall_app in F. destruct F as (_ & F).
  inversion F as [|? ? Hl _]; subst. simpl in Hl. unfold expand. rewrite map_app, concat_app, last_last. simpl. rewrite app_nil_r.
  destruct l as [|l]; [lia|]. replace (S l) with (l + 1) by lia. rewrite repeat_app, app_assoc. apply last_last.
Qed.
Lemma bwr_even w : lyndon w -> 2 <= length w -> Forall (fun c => c < 2) w -> Nat.Even (bwr w).
Proof.
  intros HL Hl F. destruct (bwr_ok w) as ((b & rs & H1 & H2 & ->) & _).
  destruct (bwt_ends w b HL Hl F H1) as (B0 & B1). destruct H2 as (E & P & D).
  apply Nat.even_spec. apply runs_parity; [|exact D| |].
  - apply Forall_forall. intros (c, l) Hc. cbn [fst]. rewrite Forall_forall in P. pose proof (P _ Hc) as Hcl. cbn [snd] in Hcl.
    assert (Hb : In c b).
    { rewrite <- E. unfold expand. apply in_concat. exists (repeat c l). split.
      - apply in_map_iff. exists (c, l). auto.
      - destruct l; [lia|now left]. }
    apply (Permutation_in _ (matrix_bwt_perm w b H1)) in Hb. rewrite Forall_forall in F. now apply F.
  - intros ->. simpl in E. subst b. discriminate.
  - rewrite <- expand_hd, <- expand_last, E, B0, B1 by exact P. discriminate.
Qed.

Lemma par_square max p threads sched s stats total : 1 <= max -> 1 <= threads ->
  par_run max p sched (par_init max threads) = Some s -> par_result s = Some (stats, total) -> square max stats.
Proof.
  intros Hm Ht E ER. destruct (par_reachable max p threads Hm Ht) as (B & L & _ & _ & HR).
  destruct (HR sched s E) as (_ & m & L1 & L2 & _ & _ & HSq & _).
  unfold par_result in ER. destruct (forallb _ (p_threads s)); [|discriminate]. now injection ER as <- _.
Qed.

(** the class of a word: (runs of the BWT, least runs of a BBWT of a conjugate) *)
Lemma class_bounds max p w r b : p < max -> binary_lyndon p w -> bwt_runs_of w r -> least_bbwt_runs max w b ->
  1 <= r < max /\ 1 <= b < max /\ b <= r.
Proof.
  intros Hp (HL & El & F) Hr Hb. pose proof (lyndon_not_nil _ HL) as Hw. pose proof (lyndon_length _ HL) as L1.
  assert (Er : r = bwr w) by (eapply bwt_runs_unique; [exact Hr|apply bwr_ok]).
  pose proof (bwr_le w) as Hle. destruct Hb as (B1 & B2 & B3).
  assert (Hbr : b <= r).
  { rewrite Er, <- bbr_lyndon by auto. apply (B3 0); [lia|]. rewrite rot_0. now apply bbr_ok. }
  assert (Hpos : forall x bs rs, x <> [] -> Permutation bs x -> is_runs bs rs -> 1 <= length rs).
  { intros x bs rs Hx HP (E & _). destruct rs; [|simpl; lia]. simpl in E. subst bs. apply Permutation_nil in HP. congruence. }
  split; [|split; [|exact Hbr]].
  - destruct Hr as (bs & rs & H1 & H2 & ->). split; [|lia]. apply (Hpos w bs rs Hw); [now apply matrix_bwt_perm|auto].
  - split; [|lia]. destruct B1 as [->|(i & Hi & (bs & rs & H1 & H2 & ->))]; [lia|].
    apply (Hpos (rot i w) bs rs); [now apply rot_nn|now apply bijective_bwt_perm|auto].
Qed.

Lemma table_sum max p (cells : nat -> nat -> nat) total : 1 <= p < max ->
  number_of (binary_lyndon p) total ->
  (forall r b, r <= max -> b <= max -> number_of (fun w => binary_lyndon p w /\ bwt_runs_of w r /\ least_bbwt_runs max w b) (cells r b)) ->
  list_sum (map (fun r => list_sum (map (cells r) (seq 1 (max - 1)))) (seq 1 (max - 1))) = total.
Proof.
  intros Hp (L & ND & HL & <-) HC.
  set (cl := fun w => match par_work max w with Ok x => x | _ => (0, 0) end).
  assert (Hcl : forall w, In w L -> bwt_runs_of w (fst (cl w)) /\ least_bbwt_runs max w (snd (cl w))).
  { intros w Hw. apply HL in Hw. destruct Hw as (H1 & H2 & H3).
    destruct (par_work_ok max w (lyndon_not_nil _ H1) ltac:(lia)) as (r & b & E & A & B & _). unfold cl. rewrite E. auto. }
  assert (Hb : forall w, In w L -> 1 <= fst (cl w) < 1 + (max - 1) /\ 1 <= snd (cl w) < 1 + (max - 1)).
  { intros w Hw. destruct (Hcl w Hw) as (A & B). apply HL in Hw.
    pose proof (class_bounds max p w _ _ ltac:(lia) Hw A B). lia. }
  rewrite <- (filter_class (fun w => fst (cl w)) L 1 (max - 1)) by (intros w Hw; now apply Hb).
  f_equal. apply map_ext_in. intros r Hr. apply in_seq in Hr.
  rewrite <- (filter_class (fun w => snd (cl w)) (filter (fun w => fst (cl w) =? r) L) 1 (max - 1)).
  2: { intros w Hw. apply filter_In in Hw. now apply Hb. }
  f_equal. apply map_ext_in. intros b Hb'. apply in_seq in Hb'.
  eapply number_of_unique; [apply HC; lia|].
  exists (filter (fun w => snd (cl w) =? b) (filter (fun w => fst (cl w) =? r) L)).
  split; [now apply NoDup_filter, NoDup_filter|]. split; [|reflexivity].
  intros w. rewrite !filter_In, !Nat.eqb_eq. split.
  - intros ((Hw & <-) & <-). destruct (Hcl w Hw) as (A & B). split; [now apply HL|auto].
  - intros (Hw & A & B). pose proof (proj1 (proj1 Hw)) as Hne. apply HL in Hw. destruct (Hcl w Hw) as (A' & B').
    split; [split; [exact Hw|]|].
    + eapply bwt_runs_unique; eauto.
    + eapply least_unique; eauto.
Qed.
