(** PropsTools.v : property theorems C26-C34 (byte-stream tools, file/stdin input). *)
From Verif Require Import Base SpecStr ModelIo SpecIo ModelTools RunFacts ToolsProof ToolsProof2.

(** C26: every input without the byte 255 is encoded, one output byte per input byte, and the
    standard decoder over the symbol list 0..254 recovers it; byte 255 makes mtf panic. *)
Theorem C26_mtf_decodable : forall rd bs fuel,
  delivers rd bs -> length bs < fuel -> Forall (fun c => c < 255) bs ->
  exists code, mtf fuel rd = Ok code /\ length code = length bs /\ bytes code /\
    mtf_decode (seq 0 255) code = Some bs.
Proof. exact mtf_ok. Qed.
Print Assumptions C26_mtf_decodable.
Theorem C26_mtf_panics_on_255 : forall rd bs fuel,
  delivers rd bs -> length bs < fuel -> bytes bs -> In 255 bs -> mtf fuel rd = Panic.
Proof.
  intros rd bs fuel HD HF _ Hi. apply (mtf_panic rd bs); auto. intros H. rewrite Forall_forall in H.
  specialize (H 255 Hi). simpl in H. lia.
Qed.
Print Assumptions C26_mtf_panics_on_255.
(** the naive claim "decodable for every byte string" is refuted *)
Theorem C26_all_bytes_refuted :
  ~ (forall rd bs fuel, delivers rd bs -> length bs < fuel -> bytes bs ->
       exists code, mtf fuel rd = Ok code).
Proof.
  intros H. destruct (H (reader_of [255]) [255] 9) as (code & E).
  - apply reader_of_delivers.
  - simpl. lia.
  - constructor; [lia|constructor].
  - assert (P : mtf 9 (reader_of [255]) = Panic).
    { apply (C26_mtf_panics_on_255 _ [255]); [apply reader_of_delivers|simpl; lia| |now left].
      constructor; [lia|constructor]. }
    rewrite P in E. discriminate.
Qed.
Print Assumptions C26_all_bytes_refuted.
Example C26_case : mtf 9 (reader_of [98;97;97]) = Ok [98;98;0] /\
  mtf_decode (seq 0 255) [98;98;0] = Some [98;97;97].
Proof. split; vm_compute; reflexivity. Qed.

(** C27 *)
Theorem C27_rle : forall rd bs rs fuel, delivers rd bs -> is_runs bs rs -> length bs < fuel ->
  ((exists i, i < length rs /\ snd (nth i rs (0,0)) > (if S i =? length rs then 256 else 255)) <->
     rle fuel rd = Panic) /\
  (forall code, rle fuel rd = Ok code -> rle_decode code = Some bs /\
     code = flat_map (fun r => [fst r; snd r - 1]) rs) /\
  (rle fuel rd = Panic \/ exists code, rle fuel rd = Ok code).
Proof.
  intros rd bs rs fuel HD HR HF. pose proof (is_runs_unique _ _ _ HR (runs_ok bs)) as ->.
  destruct HR as (HE & HP & _).
  assert (DEC : (exists i, i < length (runs bs) /\ snd (nth i (runs bs) (0,0)) > (if S i =? length (runs bs) then 256 else 255))
     \/ rle_fits (runs bs)).
  { set (rs := runs bs).
    assert (G : forall n, n <= length rs -> (exists i, i < n /\ snd (nth i rs (0,0)) > (if S i =? length rs then 256 else 255)) \/
       forall i, i < n -> snd (nth i rs (0,0)) <= (if S i =? length rs then 256 else 255)).
    { induction n as [|n IH]; intros Hn; [right; intros; lia|].
      destruct (IH ltac:(lia)) as [(i & Hi & H)|H]; [left; exists i; split; [lia|auto]|].
      destruct (Nat.le_gt_cases (snd (nth n rs (0,0))) (if S n =? length rs then 256 else 255)).
      - right. intros i Hi. destruct (Nat.eq_dec i n) as [->|]; auto. apply H. lia.
      - left. exists n. split; [lia|auto]. }
    destruct (G (length rs) ltac:(lia)) as [(i & Hi & H)|H]; [left; eauto|right; exact H]. }
  assert (X : (exists i, i < length (runs bs) /\ snd (nth i (runs bs) (0,0)) > (if S i =? length (runs bs) then 256 else 255))
     -> ~ rle_fits (runs bs)).
  { intros (i & Hi & H) HFt. specialize (HFt i Hi). lia. }
  destruct DEC as [DEC|DEC].
  - rewrite (rle_panic rd bs) by auto. split; [tauto|]. split; [discriminate|auto].
  - rewrite (rle_ok rd bs) by auto. split; [|split].
    + split; [intros H; exfalso; now apply X|discriminate].
    + intros code [= <-]. split; [rewrite rle_decode_code by auto; now rewrite HE|].
      unfold rle_code. apply flat_map_ext. intros [c l]. reflexivity.
    + right. eauto.
Qed.
Print Assumptions C27_rle.
Example C27_case : rle 9 (reader_of [7;7;7;9]) = Ok [7;2;9;0] /\ rle_decode [7;2;9;0] = Some [7;7;7;9].
Proof. split; reflexivity. Qed.

(** C28: exact behaviour of rle_zero. The input is cut into blocks: zero-free bytes w, a run of
    k '0' characters (byte 48), and the byte c that ends the run; after the last block come zero-free
    bytes and k further '0's. The byte c is dropped, the final run is stored as k, the others as k-1. *)
Theorem C28_rle_zero_exact : forall (blocks : list (str * nat * nat)) (w : str) k rd fuel,
  Forall (fun '(w, k, c) => ~ In 48 w /\ 1 <= k <= 255 /\ c <> 48) blocks ->
  ~ In 48 w -> k <= 255 ->
  delivers rd (concat (map (fun '(w, k, c) => w ++ repeat 48 k ++ [c]) blocks) ++ w ++ repeat 48 k) ->
  length (concat (map (fun '(w, k, c) => w ++ repeat 48 k ++ [c]) blocks) ++ w ++ repeat 48 k) < fuel ->
  rle_zero fuel rd = Ok (concat (map (fun '(w, k, c) => w ++ [48; k - 1]) blocks) ++ w ++
                         (if k =? 0 then [] else [48; k])).
Proof.
  intros blocks w k rd fuel HB Hw Hk HD HF. apply (rle_zero_ok rd blocks w k fuel); auto.
Qed.
Print Assumptions C28_rle_zero_exact.
Theorem C28_rle_zero_total : forall (t : str),
  (exists blocks w k, t = concat (map (fun '(w, k, c) => w ++ repeat 48 k ++ [c]) blocks) ++ w ++ repeat 48 k /\
    Forall (fun '(w, k, c) => ~ In 48 w /\ 1 <= k <= 255 /\ c <> 48) blocks /\ ~ In 48 w /\ k <= 255) \/
  ((exists p q, t = p ++ repeat 48 256 ++ q) /\
   forall rd fuel, delivers rd t -> length t < fuel -> rle_zero fuel rd = Panic).
Proof.
  intros t. destruct (rz_decompose t) as [H|[H1 H2]]; [left; exact H|right].
  split; [exact H1|]. intros rd fuel HD HF. rewrite (rle_zero_for rd t) by auto. now rewrite H2.
Qed.
Print Assumptions C28_rle_zero_total.
(** the claim "different accepted inputs have different outputs" is refuted *)
Theorem C28_lossless_refuted : exists s s' code, s <> s' /\
  rle_zero 9 (reader_of s) = Ok code /\ rle_zero 9 (reader_of s') = Ok code.
Proof. exists [48;97], [48;98], [48;0]. repeat split; try reflexivity. discriminate. Qed.
Print Assumptions C28_lossless_refuted.
(** inputs without '0' are copied *)
Theorem C28_zero_free_copied : forall (w : str) rd fuel, ~ In 48 w -> delivers rd w -> length w < fuel ->
  rle_zero fuel rd = Ok w.
Proof.
  intros w rd fuel Hw HD HF. rewrite (C28_rle_zero_exact [] w 0); auto; try lia; simpl; now rewrite ?app_nil_r.
Qed.
Print Assumptions C28_zero_free_copied.
Example C28_case : rle_zero 20 (reader_of [97;48;48;98;99;48]) = Ok [97;48;1;99;48;1].
Proof. reflexivity. Qed.

(** C29. [fmt_run c n] is the text "(c,n)" with c as a UTF-8 character and n in decimal. *)
Theorem C29_rle_text : forall rd bs rs fuel, delivers rd bs -> is_runs bs rs -> length bs < fuel ->
  (Forall (fun r => snd r <= 255) rs -> rle_text fuel rd = Ok (flat_map (fun r => fmt_run (fst r) (snd r)) rs)) /\
  (~ Forall (fun r => snd r <= 255) rs -> rle_text fuel rd = Panic).
Proof.
  intros rd bs rs fuel HD HR HF. pose proof (is_runs_unique _ _ _ HR (runs_ok bs)) as ->. split.
  - intros H. rewrite (rle_text_ok rd bs) by auto. f_equal. apply flat_map_ext. now intros [c l].
  - intros H. now apply (rle_text_panic rd bs).
Qed.
Print Assumptions C29_rle_text.
(** the same, with the printed text described independently of the model *)
Lemma dec_u8_decimal n : n <= 255 -> is_decimal (dec_u8 n) n.
Proof.
  intros Hn. unfold dec_u8.
  pose proof (Nat.div_mod_eq n 10). pose proof (Nat.mod_upper_bound n 10 ltac:(lia)).
  pose proof (Nat.div_mod_eq n 100) as H100. pose proof (Nat.mod_upper_bound n 100 ltac:(lia)).
  pose proof (Nat.div_mod_eq (n / 10) 10) as H10. pose proof (Nat.mod_upper_bound (n / 10) 10 ltac:(lia)).
  rewrite Nat.div_div in H10 by lia. change (10 * 10) with 100 in H10.
  destruct (Nat.ltb_spec n 10); [|destruct (Nat.ltb_spec n 100)]; (split; [repeat (apply Forall_cons; [lia|]); apply Forall_nil|]);
    (split; [easy|]); split; try (unfold decimal_value; cbn [fold_left]; lia); cbn [hd]; intros E; try lia.
  assert (n = 0) by lia. now subst.
Qed.
Lemma utf8_char_utf8 c : c < 256 -> is_utf8 (utf8_char c) c.
Proof.
  intros Hc. unfold utf8_char. destruct (Nat.ltb_spec c 128); [left; auto|]. right. split; [lia|].
  exists (c / 64), (c mod 64). pose proof (Nat.div_mod_eq c 64). pose proof (Nat.mod_upper_bound c 64 ltac:(lia)). 
  repeat split; try lia.
Qed.
Theorem C29_rle_text_format : forall rd bs rs fuel, delivers rd bs -> bytes bs -> is_runs bs rs -> length bs < fuel ->
  Forall (fun r => snd r <= 255) rs ->
  exists pieces, rle_text fuel rd = Ok (concat pieces) /\ Forall2 is_run_text pieces rs.
Proof.
  intros rd bs rs fuel HD HB HR HF H. exists (map (fun r => fmt_run (fst r) (snd r)) rs).
  destruct (C29_rle_text rd bs rs fuel HD HR HF) as (E & _). rewrite E by exact H. split; [now rewrite flat_map_concat_map|].
  assert (HL : Forall (fun r => fst r < 256) rs).
  { destruct HR as (Er & H1 & _). subst bs. clear - HB H1. induction rs as [|[c l] rs IH]; [constructor|].
    inversion H1; subst. cbn in HB. apply Forall_app in HB. destruct HB as (B1 & B2). constructor; [|now apply IH].
    simpl in *. destruct l as [|l]; [lia|]. now inversion B1. }
  clear - H HL. induction rs as [|[c l] rs IH]; [constructor|]. inversion H; subst. inversion HL; subst. simpl in *.
  constructor; [|now apply IH]. exists (utf8_char c), (dec_u8 l). split; [now apply utf8_char_utf8|].
  split; [now apply dec_u8_decimal|reflexivity].
Qed.
Print Assumptions C29_rle_text_format.
Theorem C29_rle_text_injective : forall rd rd' bs bs' fuel fuel' code,
  delivers rd bs -> delivers rd' bs' -> length bs < fuel -> length bs' < fuel' -> bytes bs -> bytes bs' ->
  rle_text fuel rd = Ok code -> rle_text fuel' rd' = Ok code -> bs = bs'.
Proof.
  intros rd rd' bs bs' fuel fuel' code D D' F F' B B' E E'.
  pose proof (runs_ok bs) as R. pose proof (runs_ok bs') as R'.
  destruct (Forall_dec (fun r : nat * nat => snd r <= 255) ltac:(intros; apply le_dec) (runs bs)) as [T|T].
  2:{ rewrite (rle_text_panic rd bs) in E by auto. discriminate. }
  destruct (Forall_dec (fun r : nat * nat => snd r <= 255) ltac:(intros; apply le_dec) (runs bs')) as [T'|T'].
  2:{ rewrite (rle_text_panic rd' bs') in E' by auto. discriminate. }
  rewrite (rle_text_ok rd bs) in E by auto. rewrite (rle_text_ok rd' bs') in E' by auto.
  assert (runs bs = runs bs').
  { apply text_code_inj; auto; try (apply runs_letters; auto). congruence. }
  destruct R as (<- & _), R' as (<- & _). now f_equal.
Qed.
Print Assumptions C29_rle_text_injective.
Example C29_case : rle_text 9 (reader_of [97;97;200]) = Ok [40;97;44;50;41; 40;195;136;44;49;41].
Proof. reflexivity. Qed.

(** C30. The sanity checks, spelled out *)
Theorem C30_checks : forall esc from to rd p b, escape_main p esc from to b rd <> Panic ->
  length from = length to /\ ~ In esc from /\ ~ In esc to /\ (forall x, In x from -> ~ In x to).
Proof.
  intros esc from to rd p b H. apply checks_iff. destruct (escape_checks esc from to) eqn:E; auto.
  exfalso. apply H. unfold escape_main. now rewrite E.
Qed.
Print Assumptions C30_checks.
Theorem C30_escape_never_panics : forall p esc from to rd bs,
  length from = length to -> ~ In esc from -> ~ In esc to -> (forall x, In x from -> ~ In x to) ->
  delivers rd bs -> exists out, escape_main p esc from to false rd = Ok out.
Proof.
  intros p esc from to rd bs H1 H2 H3 H4 HD. eexists. apply escape_main_fwd; eauto. apply checks_iff. auto.
Qed.
Print Assumptions C30_escape_never_panics.
Theorem C30_escape_removes_from_symbols : forall p esc from to rd bs out,
  delivers rd bs -> escape_main p esc from to false rd = Ok out -> forall c, In c from -> ~ In c out.
Proof.
  intros p esc from to rd bs out HD HE. apply (escape_no_from p esc from to rd bs); auto.
  apply checks_iff. apply (C30_checks esc from to rd p false). now rewrite HE.
Qed.
Print Assumptions C30_escape_removes_from_symbols.
(** round trip: reversing with any prefix length >= number of processed bytes, in particular the same;
    the --to symbols may repeat only where the --from symbols do *)
Theorem C30_escape_roundtrip : forall p p' esc from to rd rd' bs out,
  (forall i j, i < length to -> j < length to -> nth i to 0 = nth j to 0 -> nth i from 0 = nth j from 0) ->
  delivers rd bs -> escape_main p esc from to false rd = Ok out -> delivers rd' out -> p <= p' ->
  escape_main p' esc from to true rd' = Ok (firstn p bs).
Proof.
  intros p p' esc from to rd rd' bs out HI HD HE HD' Hp.
  apply (escape_roundtrip p p' esc from to rd rd' bs out); auto.
  - apply checks_iff. apply (C30_checks esc from to rd p false). now rewrite HE.
  - rewrite firstn_length. lia.
Qed.
Print Assumptions C30_escape_roundtrip.
(** without that condition the sanity checks are not enough *)
Theorem C30_roundtrip_duplicate_to_refuted : exists esc from to bs out,
  escape_main 9 esc from to false (reader_of bs) = Ok out /\
  escape_main 9 esc from to true (reader_of out) <> Ok bs.
Proof. exists 7, [1;2], [3;3], [1], [7;3]. split; [reflexivity|vm_compute; discriminate]. Qed.
Print Assumptions C30_roundtrip_duplicate_to_refuted.
Example C30_case : escape_main 9 254 [0] [255] false (reader_of [1;0;254;255]) = Ok [1;254;255;254;254;255] /\
  escape_main 9 254 [0] [255] true (reader_of [1;254;255;254;254;255]) = Ok [1;0;254;255].
Proof. split; reflexivity. Qed.

(** C31: the default prefix length 0 processes nothing *)
Theorem C31_default_prefix_writes_nothing : forall esc from to rd b out,
  escape_main 0 esc from to b rd = Ok out -> out = [].
Proof.
  intros esc from to rd b out H. unfold escape_main in H. destruct (escape_checks esc from to); [|discriminate].
  cbn [assert_ bind] in H. destruct b.
  - destruct (build_map to from); cbn in H; try discriminate. now injection H as <-.
  - destruct (build_map from to); cbn in H; try discriminate. now injection H as <-.
Qed.
Print Assumptions C31_default_prefix_writes_nothing.
(** prefix lengths p >= 1 process exactly the first min(p, length) bytes *)
Theorem C31_prefix_processed : forall p esc from to rd bs,
  length from = length to -> ~ In esc from -> ~ In esc to -> (forall x, In x from -> ~ In x to) ->
  delivers rd bs -> escape_main p esc from to false rd = escape_main p esc from to false (reader_of (firstn p bs)).
Proof.
  intros p esc from to rd bs H1 H2 H3 H4 HD.
  assert (HC : escape_checks esc from to = true) by (apply checks_iff; auto).
  rewrite (escape_main_fwd p esc from to rd bs), (escape_main_fwd p esc from to _ (firstn p bs)); auto.
  - rewrite firstn_firstn. now rewrite Nat.min_id.
  - apply reader_of_delivers.
Qed.
Print Assumptions C31_prefix_processed.
(** with --is-reversion the prefix length counts the bytes written: every prefix length gives the beginning of what a larger
    one gives, and after escape the first bytes of its input *)
Lemma escape_rev_prefix rd esc mp : forall n pos out o, escape_rev n rd pos esc mp out = Ok o ->
  exists r, o = out ++ r /\ length r <= n /\ forall m, m <= n -> escape_rev m rd pos esc mp out = Ok (out ++ firstn m r).
Proof.
  assert (Z : forall pos out n, escape_rev n rd pos esc mp out = Ok out -> (forall m, m <= n -> escape_rev m rd pos esc mp out = Ok out) ->
    exists r, out = out ++ r /\ length r <= n /\ forall m, m <= n -> escape_rev m rd pos esc mp out = Ok (out ++ firstn m r)).
  { intros pos out n _ H. exists []. rewrite app_nil_r. split; [reflexivity|]. split; [cbn; lia|]. intros m Hm. rewrite firstn_nil, app_nil_r. now apply H. }
  induction n as [|n IH]; intros pos out o E.
  - cbn [escape_rev] in E. injection E as <-. apply Z; [reflexivity|]. intros m Hm. now replace m with 0 by lia.
  - assert (St : forall pos' x, escape_rev n rd pos' esc mp (out ++ [x]) = Ok o ->
      (forall m, escape_rev (S m) rd pos esc mp out = escape_rev m rd pos' esc mp (out ++ [x])) ->
      exists r, o = out ++ r /\ length r <= S n /\ forall m, m <= S n -> escape_rev m rd pos esc mp out = Ok (out ++ firstn m r)).
    { intros pos' x Ex Hx. destruct (IH _ _ _ Ex) as (r & -> & L & H). exists (x :: r). rewrite <- app_assoc. split; [reflexivity|].
      split; [cbn; lia|]. intros [|m] Hm; [cbn; now rewrite app_nil_r|]. rewrite Hx, H by lia. now rewrite <- app_assoc. }
    cbn [escape_rev] in E. destruct (read_char rd pos) as ([c|], pos') eqn:R1.
    + destruct (Nat.eqb_spec c esc) as [C|C].
      * destruct (read_char rd pos') as ([d|], pos2) eqn:R2; [|discriminate].
        destruct (Nat.eqb_spec d esc) as [D|D].
        { apply (St pos2 esc E). intros m. cbn [escape_rev]. rewrite R1, R2.
          destruct (Nat.eqb_spec c esc); [|contradiction]. now destruct (Nat.eqb_spec d esc). }
        { destruct (hm_get mp d) as [q|] eqn:Q; [|discriminate]. apply (St pos2 q E). intros m. cbn [escape_rev]. rewrite R1, R2, Q.
          destruct (Nat.eqb_spec c esc); [|contradiction]. now destruct (Nat.eqb_spec d esc). }
      * apply (St pos' c E). intros m. cbn [escape_rev]. rewrite R1. now destruct (Nat.eqb_spec c esc).
    + injection E as <-. apply Z; [cbn [escape_rev]; now rewrite R1|]. intros [|m] Hm; [reflexivity|]. cbn [escape_rev]. now rewrite R1.
Qed.
Theorem C31_reversion_prefix : forall p p' esc from to rd out, escape_main p esc from to true rd = Ok out -> p' <= p ->
  escape_main p' esc from to true rd = Ok (firstn p' out) /\ length out <= p.
Proof.
  intros p p' esc from to rd out E Hp. unfold escape_main in *.
  destruct (escape_checks esc from to); [|discriminate]. cbn [assert_ bind] in *.
  destruct (build_map to from) as [mp| |]; cbn [bind] in *; try discriminate.
  destruct (escape_rev_prefix rd esc mp p 0 [] out E) as (r & -> & L & H). cbn [app]. split; [now apply H|exact L].
Qed.
Print Assumptions C31_reversion_prefix.
Theorem C31_roundtrip_prefix : forall p p' esc from to rd rd' bs out,
  (forall i j, i < length to -> j < length to -> nth i to 0 = nth j to 0 -> nth i from 0 = nth j from 0) ->
  delivers rd bs -> escape_main p esc from to false rd = Ok out -> delivers rd' out ->
  escape_main p' esc from to true rd' = Ok (firstn (Nat.min p' p) bs).
Proof.
  intros p p' esc from to rd rd' bs out HI HD HE HD'.
  pose proof (C30_escape_roundtrip p (p + p') esc from to rd rd' bs out HI HD HE HD' ltac:(lia)) as E.
  destruct (C31_reversion_prefix (p + p') p' esc from to rd' _ E ltac:(lia)) as (E2 & _). rewrite E2. f_equal. apply firstn_firstn.
Qed.
Print Assumptions C31_roundtrip_prefix.
Theorem C31_whole_input_by_default_refuted :
  ~ (forall esc from to rd bs out, delivers rd bs -> escape_main 0 esc from to false rd = Ok out ->
       escape_main 0 esc from to true (reader_of out) = Ok bs).
Proof.
  intros H. specialize (H 254 [0] [255] (reader_of [1]) [1] [] (reader_of_delivers [1]) eq_refl). discriminate.
Qed.
Print Assumptions C31_whole_input_by_default_refuted.
Example C31_case : escape_main 0 254 [0] [255] false (reader_of [1;0;2]) = Ok [].
Proof. reflexivity. Qed.

(** C32 *)
Theorem C32_count_sigma : forall t D, bytes t -> NoDup D -> (forall c, In c D <-> In c t) ->
  (length D <= 255 -> count_sigma t = Ok (length D)) /\ (255 < length D -> count_sigma t = Panic).
Proof.
  intros t D HB ND HI.
  assert (E : length D = length (nodup Nat.eq_dec t)).
  { apply Permutation_length, NoDup_Permutation; auto; [apply NoDup_nodup|]. intros x. now rewrite nodup_In. }
  rewrite E. split.
  - intros H. destruct (count_sigma_for t HB H) as (n & -> & ->). reflexivity.
  - now apply count_sigma_panic.
Qed.
Print Assumptions C32_count_sigma.
Theorem C32_all_256_bytes_panic : count_sigma (seq 0 256) = Panic.
Proof.
  apply (C32_count_sigma (seq 0 256) (seq 0 256)).
  - apply Forall_forall. intros c Hc. apply in_seq in Hc. lia.
  - apply seq_NoDup.
  - tauto.
  - rewrite seq_length. lia.
Qed.
Print Assumptions C32_all_256_bytes_panic.
Example C32_case : count_sigma [97;98;97] = Ok 2.
Proof. vm_compute. reflexivity. Qed.

(** C33 *)
Theorem C33_reverse : forall content p,
  reverse_main true content p = Ok (rev (if 0 <? p then firstn p content else content)).
Proof. intros. unfold reverse_main. now rewrite file_ok. Qed.
Print Assumptions C33_reverse.
Theorem C33_reverse_twice : forall content p out,
  reverse_main true content p = Ok out ->
  reverse_main true out 0 = Ok (if 0 <? p then firstn p content else content).
Proof.
  intros content p out H. rewrite C33_reverse in H. injection H as <-. rewrite C33_reverse. simpl. now rewrite rev_involutive.
Qed.
Print Assumptions C33_reverse_twice.
Example C33_case : reverse_main true [1;2;3;4] 3 = Ok [3;2;1].
Proof. reflexivity. Qed.

(** C34 *)
Theorem C34_file_stdin_agree_iff : forall content p,
  file_or_stdin2byte_vector false content p = file_or_stdin2byte_vector true content p <-> p <= length content.
Proof.
  intros content p. split; [|apply stdin_ok].
  intros H. destruct (Nat.le_gt_cases p (length content)) as [|G]; auto.
  rewrite stdin_panic, file_ok in H by auto. discriminate.
Qed.
Print Assumptions C34_file_stdin_agree_iff.
Theorem C34_file : forall content p, file_or_stdin2byte_vector true content p =
  Ok (if 0 <? p then firstn p content else content).
Proof. exact file_ok. Qed.
Print Assumptions C34_file.
Theorem C34_stdin_short_panics : forall content p, length content < p ->
  file_or_stdin2byte_vector false content p = Panic.
Proof. exact stdin_panic. Qed.
Print Assumptions C34_stdin_short_panics.
(** a file truncated between metadata() and the read makes the read panic *)
Theorem C34_truncated_file_panics : forall content metalen p,
  length content < metalen -> (p = 0 \/ length content < p) -> file2byte_vector content metalen p = Panic.
Proof. exact file_shrunk_panic. Qed.
Print Assumptions C34_truncated_file_panics.
Example C34_case : file_or_stdin2byte_vector true [1;2] 5 = Ok [1;2] /\ file_or_stdin2byte_vector false [1;2] 5 = Panic.
Proof. split; reflexivity. Qed.
