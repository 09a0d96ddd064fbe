(** ScriptProof2.v : what grep and sed make of a RESULT line. *)
From Verif Require Import Base SpecStr SpecIo SpecMain SpecResult SpecArgs SpecFs ModelIo ModelCore ModelTools ModelLz ModelMain ModelEntropy ModelResult ModelArgs ModelArgs2 ModelScripts ResultProof.
From Coq Require Import NArith.

Lemma words_from_blank l : forall w r, words_from w (l ++ 32 :: r) = words_from w l ++ words r.
Proof.
  induction l as [|c l IH]; intros w r; cbn [app words_from Nat.eqb].
  - destruct w; reflexivity.
  - destruct (c =? 32); [destruct w|]; rewrite IH; reflexivity.
Qed.
Lemma words_blank l r : words (l ++ 32 :: r) = words l ++ words r.
Proof. apply words_from_blank. Qed.
(** the first word *)
Lemma words_from_first x ws : forall l w, w <> [] -> words_from w l = x :: ws ->
  exists y c, x = w ++ y /\ l = y ++ c /\ ((c = [] /\ ws = []) \/ exists c', c = 32 :: c' /\ words c' = ws).
Proof.
  induction l as [|a l IH]; intros w Nw E; cbn [words_from] in E.
  - destruct w; [congruence|]. injection E as <- <-. exists [], []. rewrite app_nil_r. auto.
  - destruct (Nat.eqb_spec a 32) as [->|N].
    + destruct w as [|b w]; [congruence|]. injection E as <- E. exists [], (32 :: l). rewrite app_nil_r. split; [reflexivity|]. split; [reflexivity|]. right. eauto.
    + destruct (IH (w ++ [a])) with (2 := E) as (y & c & -> & -> & H); [destruct w; discriminate|]. exists (a :: y), c.
      split; [now rewrite <- app_assoc|]. auto.
Qed.
Lemma words_first x ws : forall l, words l = x :: ws ->
  exists n c, l = repeat 32 n ++ x ++ c /\ ((c = [] /\ ws = []) \/ exists c', c = 32 :: c' /\ words c' = ws).
Proof.
  unfold words. induction l as [|a l IH]; intros E; cbn [words_from] in E; [discriminate|].
  destruct (Nat.eqb_spec a 32) as [->|N].
  - destruct (IH E) as (n & c & -> & H). exists (S n), c. auto.
  - apply words_from_first in E; [|discriminate]. destruct E as (y & c & -> & -> & H). exists 0, c. auto.
Qed.
Lemma repeat_front n : 32 :: repeat 32 n = repeat 32 n ++ [32].
Proof. induction n; cbn; [reflexivity|]. now rewrite <- IHn. Qed.
Lemma words_later x ws2 : forall ws1 l, ws1 <> [] -> words l = ws1 ++ x :: ws2 ->
  exists a c, l = a ++ 32 :: x ++ c /\ ((c = [] /\ ws2 = []) \/ exists c', c = 32 :: c' /\ words c' = ws2).
Proof.
  induction ws1 as [|r ws1 IH]; intros l N E; [congruence|]. cbn [app] in E. apply words_first in E.
  destruct E as (n & c & -> & [(-> & E)|(c' & -> & E)]); [destruct ws1; discriminate|].
  destruct ws1 as [|r' ws1].
  - cbn [app] in E. apply words_first in E. destruct E as (m & c & -> & H). exists (repeat 32 n ++ r ++ repeat 32 m), c. split; [|exact H].
    rewrite <- !app_assoc. f_equal. f_equal. replace (32 :: repeat 32 m ++ x ++ c) with ((32 :: repeat 32 m) ++ x ++ c) by reflexivity.
    rewrite repeat_front, <- app_assoc. reflexivity.
  - destruct (IH c' ltac:(discriminate) E) as (a & c & -> & H). exists (repeat 32 n ++ r ++ 32 :: a), c. split; [|exact H].
    rewrite <- !app_assoc. reflexivity.
Qed.
(** the word at a place behind a blank *)
Lemma word_here (r : str) : exists r' c, r = r' ++ c /\ ~ In 32 r' /\ (c = [] \/ exists c', c = 32 :: c').
Proof.
  induction r as [|a r IH]; [exists [], []; auto|]. destruct (Nat.eq_dec a 32) as [->|N]; [exists [], (32 :: r); eauto 6|].
  destruct IH as (r' & c & -> & H & K). exists (a :: r'), c. split; [reflexivity|]. split; [|exact K]. intros [->|X]; auto.
Qed.

Lemma starts_ok p : forall l, starts_with p l = true <-> exists r, l = p ++ r.
Proof.
  induction p as [|a p IH]; intros [|b l]; cbn [starts_with app].
  - split; eauto.
  - split; eauto.
  - split; [discriminate|intros (r & E); discriminate].
  - rewrite Bool.andb_true_iff, Nat.eqb_eq, IH. split; [intros (-> & r & ->); eauto|intros (r & E); injection E as -> ->; eauto].
Qed.
Section Class.
  Context (cls : nat -> bool) (C32 : cls 32 = false).
  Lemma take_class_ok l : exists r, l = take_class cls l ++ r /\ forallb cls (take_class cls l) = true /\ (r = [] \/ exists x r', r = x :: r' /\ cls x = false).
  Proof.
    induction l as [|a l (r & E & F & H)]; cbn [take_class]; [exists []; auto|]. destruct (cls a) eqn:Ea.
    - exists r. cbn [app forallb]. rewrite <- E, Ea. auto.
    - exists (a :: l). split; [reflexivity|]. split; [reflexivity|]. right. eauto.
  Qed.
  Lemma take_class_app d r : forallb cls d = true -> (r = [] \/ exists x r', r = x :: r' /\ cls x = false) -> take_class cls (d ++ r) = d.
  Proof.
    intros H K. induction d as [|a d IH]; cbn [app take_class forallb] in *.
    - destruct K as [->|(x & r' & -> & E)]; cbn; [reflexivity|now rewrite E].
    - apply andb_prop in H. destruct H as [-> H]. now rewrite IH.
  Qed.
  Definition pat (key : str) : str := 32 :: key ++ [61].
  Lemma match_here_iff blank key l d : match_here cls blank key l = Some d <->
    exists r, l = pat key ++ d ++ r /\ d <> [] /\ forallb cls d = true /\ (r = [] \/ exists x r', r = x :: r' /\ cls x = false) /\ (blank = true -> exists r', r = 32 :: r').
  Proof.
    unfold match_here. change (lit " " ++ key ++ lit "=") with (pat key). cbv zeta. split.
    - destruct (starts_with (pat key) l) eqn:E; [|discriminate]. apply starts_ok in E. destruct E as (r & ->).
      rewrite skipn_app, Nat.sub_diag, skipn_all, app_nil_l. cbn [skipn].
      destruct (take_class_ok r) as (r' & E & F & K). set (t := take_class cls r) in *.
      destruct (Nat.eqb_spec (length t) 0) as [|Nt]; [discriminate|]. rewrite E, app_assoc.
      replace (skipn _ _) with r' by (rewrite <- app_length, skipn_app, Nat.sub_diag, skipn_all; reflexivity).
      destruct (blank && _) eqn:B; [discriminate|]. intros X. injection X as <-. exists r'. rewrite <- app_assoc. split; [reflexivity|].
      split; [intros Z; rewrite Z in Nt; now apply Nt|]. split; [exact F|]. split; [exact K|]. intros ->. cbn [andb] in B. apply Bool.negb_false_iff in B.
      apply starts_ok in B. destruct B as (q & ->). exists q. reflexivity.
    - intros (r & -> & Nd & F & K & B). replace (starts_with _ _) with true by (symmetry; apply starts_ok; eauto).
      rewrite skipn_app, Nat.sub_diag, skipn_all, app_nil_l. cbn [skipn]. rewrite (take_class_app d r F K).
      destruct (Nat.eqb_spec (length d) 0) as [Z|_]; [destruct d; [congruence|discriminate]|]. rewrite app_assoc.
      replace (skipn _ _) with r by (rewrite <- app_length, skipn_app, Nat.sub_diag, skipn_all; reflexivity).
      destruct blank; [|reflexivity]. destruct (B eq_refl) as (r' & ->). reflexivity.
  Qed.
  Lemma match_last_some blank key : forall l d, match_last cls blank key l = Some d -> exists a l', l = a ++ l' /\ match_here cls blank key l' = Some d.
  Proof.
    induction l as [|c l IH]; intros d E; cbn [match_last] in E; [discriminate|]. destruct (match_last cls blank key l) as [d'|] eqn:M.
    - injection E as ->. destruct (IH d eq_refl) as (a & l' & -> & H). exists (c :: a), l'. auto.
    - exists [], (c :: l). auto.
  Qed.
  Lemma match_last_none blank key : forall a l d, l <> [] -> match_here cls blank key l = Some d -> match_last cls blank key (a ++ l) <> None.
  Proof.
    induction a as [|c a IH]; intros l d N E; cbn [app].
    - destruct l; [congruence|]. cbn [match_last]. destruct (match_last cls blank key l); [discriminate|congruence].
    - cbn [match_last]. destruct (match_last cls blank key (a ++ l)) eqn:M; [discriminate|]. exfalso. now apply (IH l d N E).
  Qed.
  (** the value of a field that occurs once *)
  Lemma sed_field blank key v f1 f2 body : ~ In 32 key -> ~ In 61 key -> v <> [] -> forallb cls v = true ->
    words body = ascii "RESULT" :: map kv (f1 ++ (key, v) :: f2) -> Forall (fun f => ~ In 61 (fst f)) (f1 ++ (key, v) :: f2) ->
    NoDup (map fst (f1 ++ (key, v) :: f2)) -> (blank = true -> f2 <> []) ->
    sed_line cls blank key body = v.
  Proof.
    intros K1 K2 Nv Fv W FE ND HB. unfold sed_line.
    assert (S : match_last cls blank key body <> None).
    { rewrite map_app in W. cbn [map] in W. destruct (words_later (kv (key, v)) (map kv f2) (ascii "RESULT" :: map kv f1) body ltac:(discriminate) W) as (a & c & -> & H).
      apply match_last_none with (d := v); [discriminate|]. apply match_here_iff. exists c. unfold kv, pat. cbn [fst snd app]. rewrite <- !app_assoc. cbn [app].
      split; [reflexivity|]. split; [exact Nv|]. split; [exact Fv|]. split.
      - destruct H as [(-> & _)|(c' & -> & _)]; [now left|right; eauto].
      - intros B. destruct H as [(-> & Z)|(c' & -> & _)]; [|eauto]. exfalso. apply (HB B). destruct f2; [reflexivity|discriminate]. }
    destruct (match_last cls blank key body) as [d|] eqn:M; [|congruence]. clear S. apply match_last_some in M.
    destruct M as (a & l' & -> & M). apply match_here_iff in M. destruct M as (r & -> & Nd & Fd & Kr & Br).
    destruct (word_here r) as (r' & c & -> & Hr' & Hc).
    assert (Wd : In (key ++ [61] ++ d ++ r') (ascii "RESULT" :: map kv (f1 ++ (key, v) :: f2))).
    { rewrite <- W. unfold pat. cbn [app]. rewrite words_blank. apply in_app_iff. right. rewrite <- !app_assoc. cbn [app].
      set (x := key ++ 61 :: d ++ r'). replace (key ++ 61 :: d ++ r' ++ c) with (x ++ c) by (unfold x; now rewrite <- !app_assoc; cbn [app]; rewrite <- app_assoc).
      assert (X1 : x <> []) by (unfold x; destruct key; discriminate).
      assert (X2 : ~ In 32 x).
      { unfold x. rewrite in_app_iff. cbn [In]. rewrite in_app_iff. intros [X|[X|[X|X]]]; auto; [discriminate|].
        rewrite forallb_forall in Fd. apply Fd in X. congruence. }
      destruct Hc as [->|(c' & ->)].
      - rewrite app_nil_r, words_last by auto. now left.
      - rewrite words_blank, words_last by auto. now left. }
    cbn [In] in Wd. destruct Wd as [Wd|Wd].
    { exfalso. assert (X : In 61 (ascii "RESULT")) by (rewrite Wd; apply in_app_iff; right; now left). cbn in X. lia. }
    apply in_map_iff in Wd. destruct Wd as ((k0, v0) & E & Hin). change (key ++ [61] ++ d ++ r') with (kv (key, d ++ r')) in E.
    apply kv_inj in E; [|rewrite Forall_forall in FE; apply (FE _ Hin)|exact K2]. injection E as -> ->.
    assert (Ev : d ++ r' = v).
    { apply in_split in Hin. destruct Hin as (g1 & g2 & G). rewrite G in ND. assert (Hin : In (key, v) (g1 ++ (key, d ++ r') :: g2)) by (rewrite <- G; apply in_app_iff; right; now left).
      rewrite map_app in ND. cbn [map fst] in ND. apply NoDup_remove_2 in ND. rewrite <- map_app in ND.
      apply in_app_iff in Hin. destruct Hin as [Hin|[Hin|Hin]]; [| |].
      - exfalso. apply ND. apply in_map_iff. exists (key, v). rewrite in_app_iff. auto.
      - now injection Hin.
      - exfalso. apply ND. apply in_map_iff. exists (key, v). rewrite in_app_iff. auto. }
    destruct r' as [|x r']; [now rewrite app_nil_r in Ev|]. exfalso. destruct Kr as [Z|(y & q & Z & Hy)]; [discriminate|].
    injection Z as <- _. rewrite <- Ev in Fv. rewrite forallb_forall in Fv. rewrite Fv in Hy; [discriminate|]. apply in_app_iff. right. now left.
  Qed.
End Class.
Lemma lines_one l : ~ In 10 l -> lines_of l = [l].
Proof.
  induction l as [|c l IH]; intros H; [reflexivity|]. cbn [lines_of]. destruct (Nat.eqb_spec c 10) as [->|_]; [exfalso; apply H; now left|].
  rewrite IH by (intros X; apply H; now right). reflexivity.
Qed.
Lemma lines_newline l : ~ In 10 l -> lines_of (l ++ [10]) = [l; []].
Proof.
  induction l as [|c l IH]; intros H; [reflexivity|]. cbn [app lines_of]. destruct (Nat.eqb_spec c 10) as [->|_]; [exfalso; apply H; now left|].
  rewrite IH by (intros X; apply H; now right). reflexivity.
Qed.
(** a line that starts with RESULT *)
Lemma grep_one body : ~ In 10 body -> (exists r, body = ascii "RESULT" ++ r) -> grep_result (body ++ newline) = body.
Proof.
  intros H (r & E). unfold grep_result. change newline with [10]. rewrite lines_newline by exact H. cbn [filter].
  replace (starts_with (lit "RESULT") body) with true by (symmetry; apply starts_ok; eauto). reflexivity.
Qed.
Lemma grep_nothing : grep_result [] = [].
Proof. reflexivity. Qed.
Lemma sed_one cls blank key l : ~ In 10 l -> ~ In 10 (sed_line cls blank key l) -> sed cls blank key l = sed_line cls blank key l.
Proof. intros H _. unfold sed. rewrite lines_one by exact H. reflexivity. Qed.
Lemma decimal_digits d n : is_decimal d n -> d <> [] /\ forallb digit d = true.
Proof.
  intros (F & N & _). split; [exact N|]. apply forallb_forall. rewrite Forall_forall in F. intros x Hx. specialize (F x Hx).
  unfold digit. apply andb_true_intro. split; apply Nat.leb_le; lia.
Qed.
