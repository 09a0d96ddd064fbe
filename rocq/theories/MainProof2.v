(** MainProof2.v : randomstring, bwt, count_r, lyndonfactorization, lyndonwords *)
From Verif Require Import Base SpecStr SpecIo SpecBwt SpecMain LexFacts ModelIo ModelTools ModelCore ModelWord ModelMain.
From Verif Require Import PermFacts SortFacts IterProof RunFacts ToolsProof ToolsProof2 BwtFacts BwtProof DuvalProof LyndonProof LwgProof MainProof.
From Coq Require Import NArith.

(** ** randomstring *)
Definition rinv (a : nat) (rng : nat -> nat) (st : nat * str * str) : Prop :=
  let '(_, cs, out) := st in NoDup cs /\ incl out cs /\ incl cs out /\ (a <> 0 -> length cs <= a) /\
    (forall c, In c out -> exists i, c = rng i).

Lemma existsb_in c l : existsb (Nat.eqb c) l = true <-> In c l.
Proof.
  rewrite existsb_exists. split.
  - intros (x & H & E). apply Nat.eqb_eq in E. now subst.
  - intros H. exists c. split; auto. apply Nat.eqb_refl.
Qed.

Definition rloop (rng : nat -> nat) (charset : str) :=
  (fun '(newchar, used) =>
          if negb (existsb (Nat.eqb newchar) charset) then Ok (Cont (rng used, S used))
          else Ok (Brk (newchar, used))) : nat * nat -> res (ctl (nat * nat) (nat * nat)).
Lemma rloop_ok rng cs : forall fuel s r, loop fuel (rloop rng cs) s = Ok r -> (exists i, fst s = rng i) ->
  In (fst r) cs /\ exists i, fst r = rng i.
Proof.
  induction fuel as [|f IH]; intros [c u] r H Hs; [discriminate|]. cbn [loop rloop] in H.
  destruct (existsb (Nat.eqb c) cs) eqn:E; cbn [negb bind] in H.
  - injection H as <-. apply existsb_in in E. auto.
  - apply IH in H; auto. exists u. reflexivity.
Qed.
Lemma rloop_live rng cs : forall d u, In (rng (u + d)) cs ->
  exists r, forall fuel, d < fuel -> loop fuel (rloop rng cs) (rng u, S u) = Ok r.
Proof.
  induction d as [|d IH]; intros u H.
  - rewrite Nat.add_0_r in H. apply existsb_in in H. eexists. intros [|f] Hf; [lia|].
    cbn [loop rloop]. rewrite H. reflexivity.
  - destruct (existsb (Nat.eqb (rng u)) cs) eqn:E.
    + eexists. intros [|f] Hf; [lia|]. cbn [loop rloop]. rewrite E. reflexivity.
    + destruct (IH (S u)) as (r & Hr); [now replace (S u + d) with (u + S d) by lia|].
      exists r. intros [|f] Hf; [lia|]. cbn [loop rloop]. rewrite E. cbn [negb bind]. apply Hr. lia.
Qed.

Lemma random_step_inv fuel a rng st st' : rinv a rng st -> random_step fuel a rng st = Ok st' ->
  rinv a rng st' /\ length (snd st') = S (length (snd st)).
Proof.
  destruct st as ((u & cs) & out). intros (I1 & I2 & I3 & I4 & I5) H. unfold random_step in H.
  change (fun '(newchar, used) =>
          if negb (existsb (Nat.eqb newchar) cs) then Ok (Cont (rng used, S used))
          else Ok (Brk (newchar, used))) with (rloop rng cs) in H.
  assert (G : forall c u', (exists i, c = rng i) -> (In c cs \/ (a = 0 \/ length cs < a)) ->
     Ok (u', if existsb (Nat.eqb c) cs then cs else c :: cs, out ++ [c]) = Ok st' ->
     rinv a rng st' /\ length (snd st') = S (length out)).
  { intros c u' Hc Hd E. injection E as <-. split; [|simpl; rewrite app_length; simpl; lia].
    unfold rinv. destruct (existsb (Nat.eqb c) cs) eqn:E.
    - apply existsb_in in E. split; [exact I1|]. split; [|split; [|split; [exact I4|]]].
      + intros x Hx. apply in_app_iff in Hx. destruct Hx as [Hx|[<-|[]]]; auto.
      + intros x Hx. apply in_app_iff. left. now apply I3.
      + intros x Hx. apply in_app_iff in Hx. destruct Hx as [Hx|[<-|[]]]; auto.
    - assert (Hn : ~ In c cs) by (intros Hin; apply existsb_in in Hin; congruence).
      split; [now constructor|]. split; [|split; [|split]].
      + intros x Hx. apply in_app_iff in Hx. destruct Hx as [Hx|[<-|[]]]; simpl; auto.
      + intros x [<-|Hx]; apply in_app_iff; [right; simpl; auto|left; now apply I3].
      + intros Ha. simpl. destruct Hd as [Hd|[Hd|Hd]]; [contradiction|contradiction|lia].
      + intros x Hx. apply in_app_iff in Hx. destruct Hx as [Hx|[<-|[]]]; auto. }
  destruct (Nat.eqb_spec a 0) as [Ha|Ha]; cbn [negb andb bind] in H.
  - apply (G (rng u) (S u)); eauto.
  - destruct (Nat.eqb_spec (length cs) a) as [Hl|Hl]; cbn [bind] in H.
    + destruct (loop fuel (rloop rng cs) (rng u, S u)) as [(c & u')| |] eqn:E; cbn [bind] in H; try discriminate.
      apply rloop_ok in E; [|exists u; reflexivity]. destruct E as (E1 & E2). apply (G c u'); auto.
    + apply (G (rng u) (S u)); eauto. right. right. specialize (I4 Ha). lia.
Qed.

Lemma random_for_inv fuel a rng (l : list nat) : forall st st', rinv a rng st ->
  for_in l (fun _ st => random_step fuel a rng st) st = Ok st' ->
  rinv a rng st' /\ length (snd st') = length l + length (snd st).
Proof.
  induction l as [|x l IH]; intros st st' HI H; cbn [for_in] in H.
  - injection H as <-. auto.
  - destruct (random_step fuel a rng st) as [s1| |] eqn:E; cbn [bind] in H; try discriminate.
    apply random_step_inv in E; auto. destruct E as (E1 & E2). apply IH in H; auto.
    destruct H as (H1 & H2). split; auto. simpl. lia.
Qed.

Lemma rinv0 a rng : rinv a rng (0, [], []).
Proof. simpl. repeat split; try (intros ? []); try constructor; simpl; lia. Qed.

Lemma randomstring_safe fuel a p rng out : randomstring_main fuel a p rng = Ok out ->
  length out = p /\ (forall c, In c out -> exists i, c = rng i) /\
  (a <> 0 -> exists D, NoDup D /\ length D <= a /\ incl out D).
Proof.
  unfold randomstring_main. intros H.
  destruct (for_in _ _ _) as [((u & cs) & o)| |] eqn:E; cbn [bind] in H; try discriminate.
  injection H as <-. apply random_for_inv in E; [|apply rinv0].
  destruct E as ((I1 & I2 & I3 & I4 & I5) & L). simpl in L. unfold range in L. rewrite seq_length in L.
  split; [lia|]. split; [exact I5|]. intros Ha. exists cs. auto.
Qed.

Lemma random_step_live a rng st : (forall i m, exists j, m <= j /\ rng j = rng i) -> rinv a rng st ->
  exists F st', forall fuel, F <= fuel -> random_step fuel a rng st = Ok st'.
Proof.
  intros HR HI. destruct st as ((u & cs) & out). unfold random_step.
  change (fun '(newchar, used) =>
          if negb (existsb (Nat.eqb newchar) cs) then Ok (Cont (rng used, S used))
          else Ok (Brk (newchar, used))) with (rloop rng cs).
  destruct (Nat.eqb_spec a 0) as [Ha|Ha]; cbn [negb andb bind].
  - exists 0. eexists. intros. reflexivity.
  - destruct (Nat.eqb_spec (length cs) a) as [Hl|Hl]; cbn [bind].
    + destruct HI as (I1 & I2 & I3 & I4 & I5).
      destruct cs as [|c cs]; [simpl in Hl; lia|].
      destruct (I5 c (I3 c (or_introl eq_refl))) as (i & Hi). destruct (HR i u) as (j & Hj & E).
      destruct (rloop_live rng (c :: cs) (j - u) u) as ((c' & u') & Hr).
      { replace (u + (j - u)) with j by lia. rewrite E, <- Hi. now left. }
      exists (S (j - u)). eexists. intros fuel Hf. rewrite Hr by lia. cbn [bind]. reflexivity.
    + exists 0. eexists. intros. reflexivity.
Qed.

Lemma randomstring_live a p rng : (forall i m, exists j, m <= j /\ rng j = rng i) ->
  exists F out, forall fuel, F <= fuel -> randomstring_main fuel a p rng = Ok out.
Proof.
  intros HR.
  assert (G : forall (l : list nat) st, rinv a rng st -> exists F st', forall fuel, F <= fuel ->
     for_in l (fun _ st => random_step fuel a rng st) st = Ok st').
  { induction l as [|x l IH]; intros st HI.
    - exists 0, st. reflexivity.
    - destruct (random_step_live a rng st HR HI) as (F1 & s1 & H1).
      destruct (random_step_inv F1 a rng st s1 HI (H1 F1 ltac:(lia))) as (HI1 & _).
      destruct (IH s1 HI1) as (F2 & s2 & H2). exists (Nat.max F1 F2), s2. intros fuel Hf.
      cbn [for_in]. rewrite H1 by lia. cbn [bind]. apply H2. lia. }
  destruct (G (range 0 p) _ (rinv0 a rng)) as (F & ((u & cs) & o) & H).
  exists F, o. intros fuel Hf. unfold randomstring_main. rewrite H by exact Hf. reflexivity.
Qed.
(** no panic *)
Lemma randomstring_no_panic fuel a p rng : randomstring_main fuel a p rng <> Panic.
Proof.
  unfold randomstring_main.
  assert (L : forall cs fuel s, loop fuel (rloop rng cs) s <> Panic).
  { intros cs. induction fuel0 as [|f IH]; intros [c u]; [discriminate|]. cbn [loop rloop].
    destruct (existsb (Nat.eqb c) cs); cbn [negb bind]; [discriminate|apply IH]. }
  assert (G : forall (l : list nat) st, for_in l (fun _ st => random_step fuel a rng st) st <> Panic).
  { induction l as [|x l IH]; intros ((u & cs) & out); [discriminate|]. cbn [for_in].
    assert (S1 : random_step fuel a rng (u, cs, out) <> Panic).
    { unfold random_step. change (fun '(newchar, used) =>
          if negb (existsb (Nat.eqb newchar) cs) then Ok (Cont (rng used, S used))
          else Ok (Brk (newchar, used))) with (rloop rng cs).
      destruct (negb (a =? 0) && (length cs =? a)); cbn [bind]; [|discriminate].
      pose proof (L cs fuel (rng u, S u)). destruct (loop fuel (rloop rng cs) (rng u, S u)) as [(c & u')| |]; cbn [bind]; congruence. }
    destruct (random_step fuel a rng (u, cs, out)) as [s1| |]; cbn [bind]; [apply IH|congruence|discriminate]. }
  pose proof (G (range 0 p) (0, [], [])).
  destruct (for_in (range 0 p) (fun _ st => random_step fuel a rng st) (0, [], [])) as [((u & cs) & o)| |]; cbn [bind]; congruence.
Qed.

(** ** bwt *)
Lemma prefix_read_ok content p : file_or_stdin2byte_vector true content p = Ok (prefix_read content p).
Proof. rewrite file_ok. unfold prefix_read. destruct p; reflexivity. Qed.

Lemma matrix_exists t : exists b, is_matrix_bwt t b.
Proof. destruct (bwt_by_matrix_naive_ok t) as (b & _ & H). eauto. Qed.

Lemma bwt_main_text sort content p (um nd : bool) : let t := prefix_read content p ++ (if nd then [] else [0]) in
  bwt_main sort true content p um nd =
  (if um : bool then if length t <? 100 then bwt_by_matrix_naive t else bwt_by_matrix sort t
   else bwt_from_text_by_sa sort t).
Proof.
  unfold bwt_main. rewrite prefix_read_ok. cbn [bind]. destruct nd; cbn [bind]; rewrite ?app_nil_r; reflexivity.
Qed.

Lemma slice_reader_delivers t : delivers (slice_reader t) t.
Proof.
  unfold slice_reader. split.
  - intros i Hi. now rewrite (nth_error_nth' t 0 Hi).
  - left. now rewrite (proj2 (nth_error_None t (length t)) (le_n _)).
Qed.

Lemma count_r_ok sort is_file content p um nd b : bwt_main sort is_file content p um nd = Ok b ->
  count_r_main sort is_file content p um nd = Ok (length b, length (runs b)).
Proof.
  intros E. unfold count_r_main. rewrite E. cbn [bind].
  rewrite (number_of_runs_ok _ b) by (try apply slice_reader_delivers; lia). reflexivity.
Qed.

(** ** decimal numbers *)
Lemma decimal_value_snoc ds d : decimal_value (ds ++ [d]) = 10 * decimal_value ds + (d - 48).
Proof. unfold decimal_value. now rewrite fold_left_app. Qed.
Lemma dec_loop_ok : forall fuel n, n < fuel -> is_decimal (dec_loop fuel n) n /\ (0 < n -> hd 0 (dec_loop fuel n) <> 48).
Proof.
  induction fuel as [|f IH]; intros n Hf; [lia|]. cbn [dec_loop].
  destruct (Nat.ltb_spec n 10) as [C|C].
  - split; [|cbn [hd]; lia]. split; [constructor; [lia|constructor]|]. split; [easy|].
    split; [cbn [hd]; intros ->; reflexivity|]. unfold decimal_value. cbn [fold_left]. lia.
  - assert (Hd : n / 10 < f) by (assert (n / 10 < n) by (apply Nat.div_lt; lia); lia).
    assert (Hp : 0 < n / 10) by (apply Nat.div_str_pos; lia).
    destruct (IH (n / 10) Hd) as ((D1 & D2 & D3 & D4) & D5). specialize (D5 Hp).
    pose proof (Nat.mod_upper_bound n 10 ltac:(lia)).
    assert (Hh : hd 0 (dec_loop f (n / 10) ++ [48 + n mod 10]) = hd 0 (dec_loop f (n / 10)))
      by (destruct (dec_loop f (n / 10)); [easy|reflexivity]).
    split; [|now rewrite Hh]. split; [|split; [|split]].
    + apply Forall_app. split; [exact D1|]. constructor; [lia|constructor].
    + destruct (dec_loop f (n / 10)); easy.
    + rewrite Hh. intros; contradiction.
    + rewrite decimal_value_snoc, D4. pose proof (Nat.div_mod n 10 ltac:(lia)). lia.
Qed.
Lemma dec_usize_ok n : is_decimal (dec_usize n) n.
Proof. apply dec_loop_ok. lia. Qed.

(** ** lyndonfactorization *)
Lemma slice_mid (a b c : str) i j : i = length a -> j = length a + length b -> slice (a ++ b ++ c) i j = Ok b.
Proof.
  intros -> ->. unfold slice. rewrite !app_length.
  destruct (Nat.leb_spec (length a) (length a + length b)); [|lia].
  destruct (Nat.leb_spec (length a + length b) (length a + (length b + length c))); [|lia]. cbn [andb].
  rewrite skipn_app, skipn_all, Nat.sub_diag. cbn [app skipn].
  replace (length a + length b - length a) with (length b) by lia.
  now rewrite firstn_app, firstn_all, Nat.sub_diag, app_nil_r.
Qed.

Lemma lyndon_ends_zero w : lyndon (w ++ [0]) -> w = [].
Proof.
  intros HL. destruct w as [|x w]; auto. exfalso.
  destruct HL as (_ & H). specialize (H (x :: w) [0] eq_refl ltac:(easy) ltac:(easy)).
  inversion H; subst; try lia. now apply lex_lt_nil_r in H1.
Qed.

(** entries as the loop writes them *)
Fixpoint entries (i pos : nat) (fs : list str) : str :=
  match fs with
  | [] => []
  | f :: fs' => factor_header i pos (pos + length f) ++ f ++ entries (i + 1) (pos + length f) fs'
  end.
Lemma entries_ok fs : forall i pos, factor_entries i pos fs (entries i pos fs).
Proof.
  induction fs as [|f fs IH]; intros i pos; [constructor|]. cbn [entries]. unfold factor_header.
  replace (([10; 62; 70; 97; 99; 116; 111; 114; 32] ++ dec_usize i ++ [32; 58; 32] ++ dec_usize pos ++
    [32; 45; 62; 32] ++ dec_usize (pos + length f) ++ [10]) ++ f ++ entries (i + 1) (pos + length f) fs)
  with (newline ++ ascii ">Factor " ++ dec_usize i ++ ascii " : " ++ dec_usize pos ++ ascii " -> " ++
    dec_usize (pos + length f) ++ newline ++ f ++ entries (i + 1) (pos + length f) fs).
  - constructor; auto using dec_usize_ok.
  - change (ascii ">Factor ") with [62; 70; 97; 99; 116; 111; 114; 32]. change (ascii " : ") with [32; 58; 32].
    change (ascii " -> ") with [32; 45; 62; 32]. unfold newline. rewrite <- !app_assoc. reflexivity.
Qed.
Lemma get_ends fs k : Forall lyndon fs -> k < length fs ->
  exists e, get (ends_from 0 fs) k = Ok e /\ e + 1 = length (concat (firstn (S k) fs)).
Proof.
  intros HF Hk. exists (nth k (ends_from 0 fs) 0). split; [apply get_ok; now rewrite ends_from_length|].
  rewrite nth_ends_from by auto. reflexivity.
Qed.

Definition shown (z : bool) (fs : list str) : list str := if z then removelast fs else fs.

Lemma lyndon_file_loop (fs : list str) t z : Forall lyndon fs -> concat fs = t -> t <> [] ->
  z = (last t 1 =? 0) ->
  forall suf pre out, fs = pre ++ suf -> pre <> [] ->
  exists b, for_in (seq (length pre) (length suf)) (fun factor_id '(out, stopped) =>
    if stopped : bool then Ok (out, stopped) else
    brk <- (if factor_id =? length fs - 1 then
              f <- get (ends_from 0 fs) factor_id ;;
              if f + 1 =? length t then
                n1 <- sub_ (length t) 1 ;; c <- get t n1 ;; Ok (c =? 0)
              else Ok false
            else Ok false) ;;
    if brk : bool then Ok (out, true) else
    p <- get (ends_from 0 fs) (factor_id - 1) ;;
    f <- get (ends_from 0 fs) factor_id ;;
    s <- slice t (p + 1) (f + 1) ;;
    Ok (out ++ factor_header (factor_id + 1) (p + 1) (f + 1) ++ s, false)) (out, false) =
  Ok (out ++ entries (length pre + 1) (length (concat pre)) (shown z suf), b).
Proof.
  intros HF HC Hne Hz. induction suf as [|f suf IH]; intros pre out E Hpre.
  - exists false. cbn [length seq for_in]. unfold shown. destruct z; cbn [removelast entries]; now rewrite app_nil_r.
  - assert (Hp : 0 < length pre) by (destruct pre; [easy|simpl; lia]).
    assert (Ln : length fs = length pre + S (length suf)) by (rewrite E, app_length; reflexivity).
    cbn [length seq for_in]. cbn beta iota.
    destruct (get_ends fs (length pre) HF ltac:(lia)) as (e & Ee & He).
    destruct (get_ends fs (length pre - 1) HF ltac:(lia)) as (p & Ep & Hp').
    replace (S (length pre - 1)) with (length pre) in Hp' by lia.
    assert (F1 : firstn (length pre) fs = pre) by (rewrite E, firstn_app, firstn_all, Nat.sub_diag; cbn [firstn]; now rewrite app_nil_r).
    assert (F2 : firstn (S (length pre)) fs = pre ++ [f]).
    { rewrite E, firstn_app, firstn_all2 by lia. replace (S (length pre) - length pre) with 1 by lia. reflexivity. }
    rewrite F1 in Hp'. rewrite F2, concat_app, app_length in He. cbn [concat] in He. rewrite app_nil_r in He.
    rewrite Ee, Ep. cbn [bind].
    assert (HS : slice t (p + 1) (e + 1) = Ok f).
    { rewrite <- HC, E, concat_app. cbn [concat]. apply slice_mid; lia. }
    assert (Hentry : forall out, exists b, for_in (seq (S (length pre)) (length suf)) (fun factor_id '(out, stopped) =>
      if stopped : bool then Ok (out, stopped) else
      brk <- (if factor_id =? length fs - 1 then
              f <- get (ends_from 0 fs) factor_id ;;
              if f + 1 =? length t then
                n1 <- sub_ (length t) 1 ;; c <- get t n1 ;; Ok (c =? 0)
              else Ok false
            else Ok false) ;;
      if brk : bool then Ok (out, true) else
      p <- get (ends_from 0 fs) (factor_id - 1) ;;
      f <- get (ends_from 0 fs) factor_id ;;
      s <- slice t (p + 1) (f + 1) ;;
      Ok (out ++ factor_header (factor_id + 1) (p + 1) (f + 1) ++ s, false)) (out, false) =
     Ok (out ++ entries (length pre + 1 + 1) (length (concat pre) + length f) (shown z suf), b)).
    { intros out'. destruct (IH (pre ++ [f]) out') as (b & Hb); [rewrite E, <- app_assoc; reflexivity|destruct pre; easy|].
      rewrite app_length, concat_app, app_length in Hb. cbn [length concat] in Hb. rewrite app_nil_r in Hb.
      exists b. rewrite <- (Nat.add_1_r (length pre)). exact Hb. }
    assert (Hbody : (z = true -> suf <> []) -> (if length pre =? length fs - 1 then
              if e + 1 =? length t then
                n1 <- sub_ (length t) 1 ;; c <- get t n1 ;; Ok (c =? 0)
              else Ok false
            else Ok false) = Ok false).
    { intros Hs. destruct (Nat.eqb_spec (length pre) (length fs - 1)) as [C|C]; auto.
      destruct (Nat.eqb_spec (e + 1) (length t)); auto.
      assert (Hlt : 0 < length t) by lia. rewrite sub_ok by lia. cbn [bind].
      rewrite (get_ok _ _ 1) by lia. cbn [bind]. rewrite <- last_nth, <- Hz. destruct z; auto.
      exfalso. apply Hs; auto. destruct suf; auto. simpl in Ln. lia. }
    destruct (list_eq_dec (list_eq_dec Nat.eq_dec) suf []) as [->|Hsuf].
    + destruct z.
      * exists true. assert (Hlt : e + 1 = length t).
        { rewrite <- HC, E, concat_app, app_length. cbn [concat]. rewrite app_nil_r. lia. }
        cbn [length] in *. destruct (Nat.eqb_spec (length pre) (length fs - 1)); [|lia].
        destruct (Nat.eqb_spec (e + 1) (length t)); [|lia]. rewrite sub_ok by lia. cbn [bind].
        rewrite (get_ok _ _ 1) by lia. cbn [bind]. rewrite <- last_nth, <- Hz. cbn [bind seq for_in].
        unfold shown. cbn [removelast entries]. now rewrite app_nil_r.
      * rewrite Hbody by discriminate. cbn [bind]. rewrite HS. cbn [bind].
        destruct (Hentry (out ++ factor_header (length pre + 1) (p + 1) (e + 1) ++ f)) as (b & Hb). exists b. rewrite Hb.
        unfold shown. cbn [entries]. rewrite Hp', He, <- !app_assoc. reflexivity.
    + rewrite Hbody by auto. cbn [bind]. rewrite HS. cbn [bind].
      destruct (Hentry (out ++ factor_header (length pre + 1) (p + 1) (e + 1) ++ f)) as (b & Hb). exists b. rewrite Hb.
      assert (Hsh : shown z (f :: suf) = f :: shown z suf) by (unfold shown; destruct z; auto; destruct suf; easy).
      rewrite Hsh. cbn [entries]. rewrite Hp', He, <- !app_assoc. reflexivity.
Qed.

Lemma lyndon_file_ok f1 fs t : Forall lyndon (f1 :: fs) -> concat (f1 :: fs) = t ->
  lyndon_file t (ends_from 0 (f1 :: fs)) =
  Ok (first_header ++ f1 ++ entries 2 (length f1) (shown (last t 1 =? 0) fs)).
Proof.
  intros HF HC. pose proof (lyndon_length f1 ltac:(now inversion HF)) as Hl.
  assert (Hne : t <> []) by (rewrite <- HC; destruct f1; [simpl in Hl; lia|easy]).
  unfold lyndon_file.
  destruct (get_ends (f1 :: fs) 0 HF ltac:(simpl; lia)) as (e & -> & He). cbn [firstn concat] in He. rewrite app_nil_r in He.
  cbn [bind]. rewrite He.
  assert (HS : slice t 0 (length f1) = Ok f1).
  { rewrite <- HC. apply (slice_mid [] f1 (concat fs)); reflexivity. }
  rewrite HS. cbn [bind]. rewrite ends_from_length, sub_ok by (simpl; lia). cbn [bind].
  destruct (lyndon_file_loop (f1 :: fs) t _ HF HC Hne eq_refl fs [f1] (first_header ++ f1) eq_refl ltac:(easy)) as (b & Hb).
  cbn [length concat] in Hb. rewrite app_nil_r in Hb.
  unfold range. cbn [length]. cbn [Nat.sub] in *. rewrite Nat.sub_0_r in *. rewrite Hb. cbn [bind]. now rewrite <- app_assoc.
Qed.

Lemma last_lyndon_zero f1 fs t : Forall lyndon (f1 :: fs) -> concat (f1 :: fs) = t -> last t 1 = 0 ->
  exists gs, f1 :: fs = gs ++ [[0]].
Proof.
  intros HF HC Hl. destruct (exists_last (l := f1 :: fs)) as (gs & g & E); [easy|].
  exists gs. rewrite E. do 2 f_equal. rewrite E in HF. apply Forall_app in HF. destruct HF as (_ & HF). inversion HF as [|? ? HL _]; subst.
  rewrite E, concat_app in Hl. cbn [concat] in Hl. rewrite app_nil_r in Hl.
  pose proof (lyndon_length _ HL) as Hn.
  destruct (exists_last (l := g)) as (w & c & ->); [intros ->; simpl in Hn; lia|].
  rewrite app_assoc, last_last in Hl. subst c. now rewrite (lyndon_ends_zero w HL).
Qed.

Lemma lyndonfactorization_ok content p : prefix_read content p <> [] ->
  exists f1 fs sh out, lyndonfactorization_main true content p true =
     Ok (length (f1 :: fs), Some (ascii ">Factor 1" ++ newline ++ f1 ++ out)) /\
    lyndonfactorization_main true content p false = Ok (length (f1 :: fs), None) /\
    lyndon_factorization (prefix_read content p) (f1 :: fs) /\ factor_entries 2 (length f1) sh out /\
    (last (prefix_read content p) 1 <> 0 -> sh = fs) /\
    (last (prefix_read content p) 1 = 0 -> fs <> [] -> fs = sh ++ [[0]]).
Proof.
  set (t := prefix_read content p). intros Hne.
  destruct (duval_correct t) as (ends & fs & ED & HL & ->). destruct HL as (HC & HF & HI).
  destruct fs as [|f1 fs]; [simpl in HC; congruence|].
  exists f1, fs, (shown (last t 1 =? 0) fs), (entries 2 (length f1) (shown (last t 1 =? 0) fs)).
  unfold lyndonfactorization_main. rewrite prefix_read_ok. cbn [bind]. fold t. rewrite ED. cbn [bind].
  assert (EL : exists e, last_ (ends_from 0 (f1 :: fs)) = Ok e /\ e + 1 = length t).
  { destruct (get_ends (f1 :: fs) (length fs) HF ltac:(simpl; lia)) as (e & Ee & He). exists e.
    rewrite firstn_all2, HC in He by (simpl; lia). split; [|exact He].
    unfold last_. destruct (exists_last (l := ends_from 0 (f1 :: fs))) as (l' & x & E); [easy|].
    rewrite E, rev_app_distr. cbn [rev app]. f_equal.
    assert (Ll : length l' = length fs).
    { assert (X := f_equal (@length nat) E). rewrite ends_from_length, app_length in X. simpl in X. lia. }
    rewrite E, <- Ll, (get_ok _ _ 0) in Ee by (rewrite app_length; simpl; lia). rewrite nth_mid in Ee. congruence. }
  destruct EL as (e & -> & He). cbn [bind]. rewrite He, Nat.eqb_refl. cbn [assert_ bind].
  rewrite (lyndon_file_ok f1 fs t HF HC). cbn [bind]. rewrite ends_from_length.
  split; [reflexivity|]. split; [reflexivity|]. split; [split; [exact HC|split; [exact HF|exact HI]]|].
  split; [apply entries_ok|]. unfold shown. split.
  - intros Hz. destruct (Nat.eqb_spec (last t 1) 0); [contradiction|reflexivity].
  - intros Hz Hfs. rewrite Hz. cbn [Nat.eqb]. destruct (last_lyndon_zero f1 fs t HF HC Hz) as (gs & E).
    destruct gs as [|g gs]; [injection E as _ E; contradiction|]. injection E as _ E. rewrite E at 2.
    rewrite removelast_last. exact E.
Qed.

Lemma lyndonfactorization_empty is_file content p wo : file_or_stdin2byte_vector is_file content p = Ok [] ->
  lyndonfactorization_main is_file content p wo = Panic.
Proof. intros E. unfold lyndonfactorization_main. rewrite E. reflexivity. Qed.

(** ** lyndonwords *)
Lemma calls_cons {G A} (next : G -> res (option A * G)) g w L :
  (forall k, calls next k g = Ok (yields (w :: L) k)) ->
  exists g', next g = Ok (Some w, g') /\ forall k, calls next k g' = Ok (yields L k).
Proof.
  intros H. assert (H1 : forall k, calls next (S k) g = Ok (Some w :: yields L k)) by (intros k; apply (H (S k))).
  cbn [calls] in H1. destruct (next g) as [(o & g')| |]; cbn [bind] in H1.
  - exists g'.
    assert (X : forall k, o = Some w /\ calls next k g' = Ok (yields L k)).
    { intros k. specialize (H1 k). destruct (calls next k g'); cbn [bind] in H1; try discriminate. injection H1 as -> ->. auto. }
    split; [|intros k; apply X]. destruct (X 0) as (-> & _). reflexivity.
  - discriminate (H1 0).
  - discriminate (H1 0).
Qed.
Lemma calls_nil {G A} (next : G -> res (option A * G)) g :
  (forall k, calls next k g = Ok (yields [] k)) -> exists g', next g = Ok (None, g').
Proof.
  intros H. specialize (H 1). cbn [calls] in H. destruct (next g) as [(o & g')| |]; cbn [bind] in H; try discriminate.
  injection H as ->. eauto.
Qed.

Lemma add97_line w : Forall (fun x => x < 159) w ->
  for_in w (fun x s => c <- add_u8 x 97 ;; Ok (s ++ [c])) [] = Ok (letters w).
Proof.
  intros F. rewrite (for_push w (fun d => 97 + d)); [reflexivity|]. intros i r Hi. rewrite Forall_forall in F.
  specialize (F i Hi). unfold add_u8. destruct (Nat.leb_spec 256 (i + 97)); [lia|]. cbn [bind]. now rewrite Nat.add_comm.
Qed.
Lemma add97_panic w : forall acc, (exists x, In x w /\ 159 <= x) ->
  for_in w (fun x s => c <- add_u8 x 97 ;; Ok (s ++ [c])) acc = Panic.
Proof.
  induction w as [|y w IH]; intros acc (x & Hx & Hb); [destruct Hx|]. cbn [for_in].
  unfold add_u8 at 1. destruct (Nat.leb_spec 256 (y + 97)) as [C|C]; cbn [bind]; auto.
  apply IH. destruct Hx as [->|Hx]; [lia|eauto].
Qed.

Definition lwbody := (fun '(g, out) =>
    '(it, g') <- lwg_next g ;;
    match it with
    | None => Ok (Brk out)
    | Some w =>
        line <- for_in w (fun x s => c <- add_u8 x 97 ;; Ok (s ++ [c])) [] ;;
        Ok (Cont (g', out ++ line ++ [10]))
    end) : lwg * str -> res (ctl (lwg * str) str).
Lemma lw_loop : forall L g out fuel, (forall k, calls lwg_next k g = Ok (yields L k)) -> length L < fuel ->
  Forall (Forall (fun x => x < 159)) L -> loop fuel lwbody (g, out) = Ok (out ++ lines (map letters L)).
Proof.
  induction L as [|w L IH]; intros g out fuel H Hf F; (destruct fuel as [|fuel]; [simpl in Hf; lia|]); cbn [loop lwbody].
  - destruct (calls_nil _ _ H) as (g' & ->). cbn [bind]. unfold lines. simpl. now rewrite app_nil_r.
  - destruct (calls_cons _ _ _ _ H) as (g' & -> & H'). cbn [bind]. inversion F; subst.
    rewrite add97_line by auto. cbn [bind]. rewrite IH by (auto; simpl in Hf; lia).
    unfold lines, newline. cbn [map concat]. now rewrite <- !app_assoc.
Qed.
Lemma lw_loop_panic : forall L g out fuel, (forall k, calls lwg_next k g = Ok (yields L k)) -> length L < fuel ->
  (exists w x, In w L /\ In x w /\ 159 <= x) -> loop fuel lwbody (g, out) = Panic.
Proof.
  induction L as [|w L IH]; intros g out fuel H Hf (w' & x & Hw & Hx & Hb); [destruct Hw|].
  destruct fuel as [|fuel]; [simpl in Hf; lia|]; cbn [loop lwbody].
  destruct (calls_cons _ _ _ _ H) as (g' & -> & H'). cbn [bind].
  destruct (Forall_Exists_dec (fun x => x < 159) (fun x => lt_dec x 159) w) as [F|E].
  - rewrite add97_line by exact F. cbn [bind]. apply IH; auto; [simpl in Hf; lia|].
    destruct Hw as [->|Hw]; [|eauto]. rewrite Forall_forall in F. specialize (F x Hx). lia.
  - apply Exists_exists in E. destruct E as (y & Hy & Hyb). rewrite add97_panic by (exists y; split; auto; lia). reflexivity.
Qed.

Lemma letters_lt_iff u v : lex_lt (letters u) (letters v) <-> lex_lt u v.
Proof.
  split; [|apply letters_lt]. intros H. destruct (lex_lt_total u v) as [|[->|G]]; auto.
  - now apply lex_lt_irrefl in H.
  - apply letters_lt in G. now apply lex_lt_asym in G.
Qed.
Lemma letters_lyndon u : lyndon (letters u) <-> lyndon u.
Proof.
  unfold lyndon. split; intros (H1 & H2).
  - split; [intros ->; now apply H1|]. intros a b -> Ha Hb. apply letters_lt_iff.
    apply (H2 (letters a)); [apply map_app|destruct a; easy|destruct b; easy].
  - split; [destruct u; easy|]. intros a b E Ha Hb. unfold letters in E. apply map_eq_app in E.
    destruct E as (a' & b' & -> & <- & <-). apply letters_lt. apply (H2 a'); auto; intros ->; [now apply Ha|now apply Hb].
Qed.

Lemma lyndonwords_ok n s : 1 <= n -> 1 <= s <= 159 ->
  exists L, (forall fuel, length L < fuel -> lyndonwords_main fuel n s = Ok (lines L)) /\
   StronglySorted lex_lt L /\
   forall w, In w L <-> lyndon w /\ length w <= n /\ over_first_letters s w.
Proof.
  intros Hn Hs. destruct (lwg_correct n s Hn ltac:(lia)) as (L & HS & HI & HC).
  exists (map letters L). split; [|split].
  - intros fuel Hf. rewrite map_length in Hf. unfold lyndonwords_main. apply (lw_loop L _ []); auto.
    apply Forall_forall. intros w Hw. apply HI in Hw. eapply Forall_impl; [|apply Hw]. simpl. intros; lia.
  - apply (SSorted_map lex_lt); [|exact HS]. intros x y. apply letters_lt.
  - intros w. rewrite in_map_iff. split.
    + intros (u & <- & Hu). apply HI in Hu. destruct Hu as (H1 & H2 & H3). split; [now apply letters_lyndon|].
      split; [unfold letters; now rewrite map_length|]. now apply letters_range.
    + intros (H1 & H2 & H3). destruct (letters_surj s w H3) as (u & <- & Lu & Fu). exists u. split; auto.
      apply HI. split; [now apply letters_lyndon|]. split; [lia|auto].
Qed.
Lemma lyndonwords_panic n s : 1 <= n -> 160 <= s <= 256 -> exists F, forall fuel, F < fuel -> lyndonwords_main fuel n s = Panic.
Proof.
  intros Hn Hs. destruct (lwg_correct n s Hn ltac:(lia)) as (L & HS & HI & HC). exists (length L).
  intros fuel Hf. apply (lw_loop_panic L); auto. exists [159], 159.
  split; [|split; [now left|lia]]. apply HI. split; [apply lyndon_single|]. split; [simpl; lia|]. constructor; [lia|constructor].
Qed.
