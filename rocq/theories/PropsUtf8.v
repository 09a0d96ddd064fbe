(** PropsUtf8.v : property theorem C98 (bin/is_stringattractor.rs on texts with bytes above 127). *)
From Verif Require Import Base SpecStr SortFacts SpecLz ModelIo ModelAttr SpecAttr AttrProof2 AttrProof3 ModelMain SpecIo SpecMain MainProof2 PropsAttr PropsAttr2 SpecUtf8 Utf8Proof.
From Coq Require Import Sorting.Sorted.

Lemma len0 {X Y} (A : list X) (a b : Y) : (match A with [] => a | _ => b end) = if length A =? 0 then a else b.
Proof. now destruct A. Qed.
Lemma ws0_reported s A ws ws0 : Forall (fun x => x <> 0) s -> (forall w, In w ws -> (w = [0] /\ A = []) \/ reported s A w) -> (forall w, reported s A w -> In w ws) ->
  ws = ws0 ++ (match A with [] => [[0]] | _ => [] end) -> ~ In [0] ws0 -> forall w, In w ws0 <-> reported s A w.
Proof.
  intros HF H1 H2 E N0 w. split.
  - intros Hw. destruct (H1 w) as [(-> & _)|H]; [rewrite E; apply in_or_app; now left|contradiction|exact H].
  - intros Hw. pose proof (H2 w Hw) as H. rewrite E in H. apply in_app_or in H. destruct H as [H|H]; [exact H|]. exfalso.
    destruct A; [|contradiction]. destruct H as [<-|[]]. destruct Hw as (i & _ & Ew & _).
    assert (HI : In 0 s). { rewrite <- (firstn_skipn i s). apply in_or_app. right. rewrite <- (firstn_skipn (length [0]) (skipn i s)). apply in_or_app. left. rewrite <- Ew. now left. }
    rewrite Forall_forall in HF. exact (HF 0 HI eq_refl).
Qed.
(** *** C77, continued: exactly which words are shown, each once, in which order *)
Theorem C77_words : forall sort content p A, (forall t, is_suffix_array t (sort t)) -> prefix_read content p <> [] ->
  Forall (fun x => 0 < x < 128) (prefix_read content p) -> Forall (fun a => a <= length (prefix_read content p)) A ->
  ~ string_attractor (prefix_read content p) A ->
  exists ws, is_stringattractor_main sort true content p A =
      Ok (2, concat (map not_covered (ws ++ (if length A =? 0 then [[0]] else []))) ++ ascii "not a valid attractor" ++ newline) /\
    (forall w, In w ws <-> reported (prefix_read content p) A w) /\ StronglySorted before ws.
Proof.
  intros sort content p A Hs Hne HF HA HN. unfold is_stringattractor_main. rewrite prefix_read_ok. cbn [bind].
  set (s := prefix_read content p) in *.
  assert (En : length (s ++ [0]) = S (length s)) by (rewrite app_length; simpl; lia). rewrite En.
  destruct (existsb (fun a => S (length s) <=? a) A) eqn:EX.
  { exfalso. apply existsb_exists in EX. destruct EX as (a & Ha & HX). apply Nat.leb_le in HX.
    rewrite Forall_forall in HA. specialize (HA a Ha). lia. }
  assert (HF0 : Forall (fun x => x <> 0) s) by (eapply Forall_impl; [|exact HF]; cbv beta; lia).
  assert (HF1 : Forall (fun x => x < 128) s) by (eapply Forall_impl; [|exact HF]; cbv beta; lia).
  destruct (io_run_any sort s A Hs Hne HF0 HA) as (ws & E & H1 & H2 & H3 & H4 & ws0 & Ew0 & HS0 & N0). pose proof (is_attractor_io_fst sort (s ++ [0]) A) as EF.
  assert (HV : forallb utf8_valid ws = true) by (apply forallb_forall; intros w Hw; apply (reported_ascii s A); auto). rewrite HV in E.
  rewrite E in EF |- *. cbn [bind fst] in *.
  destruct (C41_is_attractor_decides sort s A Hs Hne HF HA) as (b & Eb & Hb). rewrite Eb in EF. injection EF as EF.
  exists ws0. rewrite <- (len0 A [[0]] []), <- Ew0. split; [destruct ws as [|w ws]; subst b; [exfalso; apply HN, Hb; reflexivity|reflexivity]|].
  split; [|exact HS0]. exact (ws0_reported s A ws ws0 HF0 H1 H2 Ew0 N0).
Qed.
Print Assumptions C77_words.
(** so the list is determined by the text and the set *)
Lemma before_asym u v : before u v -> before v u -> False.
Proof.
  intros [(x & Hx & ->)|(L & N)] [(y & Hy & E)|(L' & N')].
  - rewrite <- app_assoc in E. apply (f_equal (@length nat)) in E. rewrite !app_length in E. destruct x; [easy|simpl in E; lia].
  - exact (N' x eq_refl).
  - exact (N y E).
  - exact (LexFacts.lex_lt_asym _ _ L L').
Qed.
Theorem C77_order_unique : forall ws ws', StronglySorted before ws -> StronglySorted before ws' -> (forall w, In w ws <-> In w ws') -> ws = ws'.
Proof.
  induction ws as [|w ws IH]; intros ws' S1 S2 H.
  - destruct ws' as [|v ws']; [reflexivity|]. exfalso. apply (H v). now left.
  - destruct ws' as [|v ws']; [exfalso; apply (H w); now left|]. inversion S1 as [|? ? S1' F1]; subst. inversion S2 as [|? ? S2' F2]; subst. rewrite Forall_forall in F1, F2.
    assert (E : w = v).
    { destruct (proj1 (H w) (or_introl eq_refl)) as [E|Hw]; [now symmetry|]. destruct (proj2 (H v) (or_introl eq_refl)) as [E|Hv]; [exact E|].
      exfalso. exact (before_asym w v (F1 v Hv) (F2 w Hw)). }
    subst v. f_equal. apply IH; [exact S1'|exact S2'|]. intros x. specialize (H x). cbn [In] in H. split; intros Hx.
    + destruct (proj1 H (or_intror Hx)) as [<-|E]; [|exact E]. exfalso. exact (before_asym w w (F1 w Hx) (F1 w Hx)).
    + destruct (proj2 H (or_intror Hx)) as [<-|E]; [|exact E]. exfalso. exact (before_asym w w (F2 w Hx) (F2 w Hx)).
Qed.
Print Assumptions C77_order_unique.

(** *** C98 *)
Lemma reported_exists s A : s <> [] -> ~ string_attractor s A -> forall sort, (forall t, is_suffix_array t (sort t)) ->
  Forall (fun x => x <> 0) s -> Forall (fun a => a <= length s) A -> is_attractor sort (s ++ [0]) A <> Ok true.
Proof.
  intros Hne HN sort Hs HF HA E. destruct (is_attractor_correct sort s A Hs Hne HF HA) as [(_ & H)|(_ & [H|(H & _)])]; [contradiction|congruence..].
Qed.
Theorem C98_program : forall sort content p A, (forall t, is_suffix_array t (sort t)) -> prefix_read content p <> [] ->
  Forall (fun x => x <> 0) (prefix_read content p) -> Forall (fun a => a <= length (prefix_read content p)) A ->
  (string_attractor (prefix_read content p) A ->
     is_stringattractor_main sort true content p A = Ok (0, ascii "valid attractor" ++ newline)) /\
  (~ string_attractor (prefix_read content p) A -> (forall w, reported (prefix_read content p) A w -> utf8_text w) ->
     exists ws, is_stringattractor_main sort true content p A =
       Ok (2, concat (map not_covered (ws ++ (if length A =? 0 then [[0]] else []))) ++ ascii "not a valid attractor" ++ newline) /\
       (forall w, In w ws <-> reported (prefix_read content p) A w) /\ StronglySorted before ws) /\
  (forall w, reported (prefix_read content p) A w -> ~ utf8_text w -> is_stringattractor_main sort true content p A = Panic).
Proof.
  intros sort content p A Hs Hne HF HA. unfold is_stringattractor_main. rewrite prefix_read_ok. cbn [bind].
  set (s := prefix_read content p) in *.
  assert (En : length (s ++ [0]) = S (length s)) by (rewrite app_length; simpl; lia). rewrite En.
  destruct (existsb (fun a => S (length s) <=? a) A) eqn:EX.
  { exfalso. apply existsb_exists in EX. destruct EX as (a & Ha & HX). apply Nat.leb_le in HX.
    rewrite Forall_forall in HA. specialize (HA a Ha). lia. }
  destruct (io_run_any sort s A Hs Hne HF HA) as (ws & E & H1 & H2 & H3 & H4 & ws0 & Ew0 & HS0 & N0). pose proof (is_attractor_io_fst sort (s ++ [0]) A) as EF.
  split; [|split].
  - intros Hat. destruct (is_attractor_correct sort s A Hs Hne HF HA) as [(Ea & _)|(HN & _)]; [|contradiction].
    rewrite Ea in EF. rewrite E in *. destruct (forallb utf8_valid ws); cbn [bind fst] in EF; [|discriminate]. injection EF as EF.
    cbn [bind]. destruct ws; [reflexivity|discriminate].
  - intros HN HU. pose proof (reported_exists s A Hne HN sort Hs HF HA) as NT.
    assert (HV : forallb utf8_valid ws = true).
    { apply forallb_forall. intros w Hw. destruct (H1 w Hw) as [(-> & _)|Hw']; [reflexivity|]. apply utf8_valid_iff, HU, Hw'. }
    rewrite HV in E. rewrite E in EF |- *. cbn [bind fst] in *. exists ws0. rewrite <- (len0 A [[0]] []), <- Ew0. split; [destruct ws as [|w ws]; [congruence|reflexivity]|].
    split; [|exact HS0]. exact (ws0_reported s A ws ws0 HF H1 H2 Ew0 N0).
  - intros w Hw HN. assert (HV : forallb utf8_valid ws = false).
    { destruct (forallb utf8_valid ws) eqn:EV; [|reflexivity]. exfalso. apply HN, utf8_valid_iff.
      rewrite forallb_forall in EV. apply EV. now apply H2. }
    rewrite HV in E. rewrite E. reflexivity.
Qed.
Print Assumptions C98_program.
(** a byte above 127 none of whose occurrences is in the set makes the program panic, whatever the text encodes *)
Theorem C98_byte_not_covered : forall sort content p A x, (forall t, is_suffix_array t (sort t)) ->
  Forall (fun x => x <> 0) (prefix_read content p) -> Forall (fun a => a <= length (prefix_read content p)) A ->
  In x (prefix_read content p) -> 128 <= x -> (forall a, In a A -> nth_error (prefix_read content p) a <> Some x) ->
  is_stringattractor_main sort true content p A = Panic.
Proof.
  intros sort content p A x Hs HF HA Hx Hx1 HN. set (s := prefix_read content p) in *.
  assert (Hne : s <> []) by (intros Z; rewrite Z in Hx; contradiction).
  apply (proj2 (proj2 (C98_program sort content p A Hs Hne HF HA)) [x]).
  - fold s. apply In_nth with (d := 0) in Hx. destruct Hx as (i & Hi & Ei). exists i. cbn [length]. split; [|split; [|left; reflexivity]].
    + split; [lia|]. split; [lia|]. intros j a (S1 & S2 & S3) Ha Hj. apply (HN a Ha). assert (a = j) by lia. subst a.
      specialize (S3 0 ltac:(lia)). rewrite !Nat.add_0_r, Ei in S3. rewrite <- S3. apply nth_error_nth'. lia.
    + fold s. rewrite <- Ei. clearbody s. apply (nth_ext_len _ _ 0).
      * rewrite firstn_length, skipn_length. cbn [length]. lia.
      * intros [|k] Hk; [|simpl in Hk; lia]. rewrite nth_firstn, nth_skipn by lia. rewrite Nat.add_0_r. reflexivity.
  - intros U. apply utf8_valid_iff in U. cbn [utf8_valid] in U. destruct (Nat.ltb_spec x 128); [lia|discriminate].
Qed.
Print Assumptions C98_byte_not_covered.
(** [utf8_text] is what std::str::from_utf8 accepts *)
Theorem C98_utf8 bs : utf8_valid bs = true <-> utf8_text bs.
Proof. exact (utf8_valid_iff bs). Qed.
Print Assumptions C98_utf8.
(** so the set is not always judged: on the two bytes of U+00E9 the empty set is not an attractor, and there is no answer *)
Theorem C98_answer_refuted : exists content A, utf8_text content /\ ~ string_attractor content A /\
  is_stringattractor_main naive_sort true content 0 A = Panic.
Proof.
  exists [195;169], [0]. split; [apply utf8_valid_iff; reflexivity|]. split; [|vm_compute; reflexivity].
  intros H. destruct (H 1 1 ltac:(lia) ltac:(simpl; lia)) as (j & a & (S1 & S2 & S3) & [<-|[]] & Ha). assert (j = 0) by lia. subst j.
  specialize (S3 0 ltac:(lia)). discriminate.
Qed.
Print Assumptions C98_answer_refuted.
Example C98_case : is_stringattractor_main naive_sort true [195;169;195;169] 0 [1;2] = Ok (0, ascii "valid attractor" ++ newline) /\
  is_stringattractor_main naive_sort true [195;169;97;195;169] 0 [0;1] = Ok (2, not_covered (ascii "a") ++ ascii "not a valid attractor" ++ newline) /\
  utf8_text [226;130;172] /\ ~ utf8_text [237;160;128] /\ ~ utf8_text [192;175].
Proof.
  split; [vm_compute; reflexivity|]. split; [vm_compute; reflexivity|]. split; [apply utf8_valid_iff; reflexivity|].
  split; intros U; apply utf8_valid_iff in U; discriminate.
Qed.
Example C77_words_case : reported (ascii "abaaba") [2] (ascii "ab") /\ ~ string_attractor (ascii "abaaba") [2].
Proof.
  split.
  - exists 0. split; [|split; [reflexivity|]].
    + split; [cbn; lia|]. split; [cbn; lia|]. change (length (ascii "ab")) with 2. intros j a (S1 & _ & S3) [<-|[]] Hj. change (length (ascii "abaaba")) with 6 in S1.
      assert (H : j = 1 \/ j = 2) by lia. destruct H as [-> | ->]; specialize (S3 1 ltac:(lia)) as S4; specialize (S3 0 ltac:(lia)); cbn in S3, S4; discriminate.
    + right. exists 2. change (length (ascii "ab") - 1) with 1. split; [split; [cbn; lia|]; split; [cbn; lia|]; intros [|x] Hx; [reflexivity|lia]|]. cbn. discriminate.
  - intros H. destruct (H 1 1 ltac:(lia) ltac:(cbn; lia)) as (j & a & (S1 & S2 & S3) & [<-|[]] & Ha). assert (j = 2) by lia. subst j.
    specialize (S3 0 ltac:(lia)). discriminate.
Qed.
Example C77_order_case : is_stringattractor_main naive_sort true (ascii "abaab") 0 [] =
  Ok (2, concat (map not_covered (map ascii ["aa"; "aba"; "ab"; "a"; "ba"; "b"]%string ++ [[0]])) ++ ascii "not a valid attractor" ++ newline).
Proof. reflexivity. Qed.
