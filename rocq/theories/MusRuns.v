(** MusRuns.v : minimal unique substrings against the runs of the BWT (C119) *)
From Verif Require Import Base SpecStr LexFacts ModelCore PermFacts SortFacts LcpProof ModelLz SpecLz LzProof MusProof SpecLex LexProof
  BbwtProof SpecBwt BwtFacts BwtProof SpecIo RunFacts LexRuns.

Section M.
Context (s : str) (Hz : ~ In 0 s) (Hne : s <> []).
Let t := s ++ [0].
Context (sa isa phi plcp : list nat).
Context (HSA : is_suffix_array t sa) (Ei : inverse_permutation sa = Ok isa) (HPi : is_perm (length t) isa)
  (HPp : is_perm (length t) phi)
  (Lp : length plcp = length t)
  (Hi1 : forall i, i < length t -> nth (nth i sa 0) isa 0 = i)
  (Hi2 : forall j, j < length t -> nth (nth j isa 0) sa 0 = j)
  (Hp1 : forall i, 0 < i < length t -> nth (nth i sa 0) phi 0 = nth (i - 1) sa 0)
  (Hp0 : nth (nth 0 sa 0) phi 0 = nth (length t - 1) sa 0)
  (Hplcp : forall i, i < length t -> lcpv t (nth i phi 0) i (nth i plcp 0)).
Let b := sa_letters t sa.
Let El : length t = S (length s).
Proof. unfold t. rewrite app_length. cbn [length]. lia. Qed.
Let Lb : length b = length t.
Proof. unfold b, sa_letters. rewrite map_length. apply is_perm_length, HSA. Qed.
Let salt x : x < length t -> nth x sa 0 < length t.
Proof. intros H. apply is_perm_nth; [apply HSA|exact H]. Qed.
Let isalt x : x < length t -> nth x isa 0 < length t.
Proof. intros H. now apply is_perm_nth. Qed.
Let bn x : x < length t -> nth x b 0 = if nth x sa 0 =? 0 then 0 else nth (nth x sa 0 - 1) t 0.
Proof. intros H. exact (b_nth s sa phi plcp HSA Lp Hp0 x H). Qed.
Let HF : Forall (fun x => x <> 0) s.
Proof. apply Forall_forall. intros x Hx ->. contradiction. Qed.
Let rows_le x y : x <= y -> y < length t -> lex_le (skipn (nth x sa 0) t) (skipn (nth y sa 0) t).
Proof.
  intros H Hy. destruct (Nat.eq_dec x y) as [->|N]; [now left|]. right.
  apply (isa_lt_iff t sa isa); auto; try (apply salt; lia). rewrite !Hi1 by lia. lia.
Qed.

(** the row of the suffix behind the first letter of a minimal unique substring begins or ends a run *)
Lemma mus_row i l : is_mus s i l ->
  let x := nth (S i) isa 0 in (0 < x /\ change b x = true) \/ (S x < length t /\ change b (S x) = true).
Proof.
  intros (L1 & HU & HM) x. pose proof HU as (Hil & _).
  apply (sentinel_unique s i l HF) in HU; [|lia|lia]. fold t in HU. destruct HU as (_ & HU).
  assert (Hx : x < length t) by (apply isalt; lia).
  assert (Bx : nth x b 0 = nth i t 0).
  { rewrite bn by lia. unfold x. rewrite Hi2 by lia. cbn [Nat.eqb]. f_equal. lia. }
  assert (Nz : nth i t 0 <> 0).
  { unfold t. rewrite app_nth1 by lia. rewrite Forall_forall in HF. apply HF, nth_In. lia. }
  (* another occurrence of the rest *)
  assert (J : exists j, j <= length s /\ j <> S i /\ agree t j (S i) (l - 1)).
  { destruct (Nat.eq_dec l 1) as [->|Nl].
    - exists i. split; [lia|]. split; [lia|]. split; [lia|]. split; [lia|]. intros; lia.
    - assert (NU : ~ unique_substring s (S i) (l - 1)) by (apply HM; lia).
      rewrite <- sentinel_unique in NU by (auto; lia). fold t in NU.
      destruct (filter_pos (fun j => negb (j =? S i) && if list_eq_dec Nat.eq_dec (firstn (l - 1) (skipn j t)) (firstn (l - 1) (skipn (S i) t)) then true else false)
                  (seq 0 (length t + 1 - (l - 1)))) as [(j & Hj & Ej)|Hno].
      + apply in_seq in Hj. apply andb_true_iff in Ej. destruct Ej as (E1 & E2). apply negb_true_iff, Nat.eqb_neq in E1.
        exists j. destruct (list_eq_dec _ _ _) as [E|]; [|discriminate]. split; [lia|]. split; [exact E1|].
        apply agree_firstn; try lia. split; [lia|]. split; [lia|exact E].
      + exfalso. apply NU. split; [lia|]. intros j HA. destruct (Nat.eq_dec j (S i)) as [|N]; [assumption|]. exfalso.
        destruct HA as (A1 & A2 & A3). specialize (Hno j ltac:(apply in_seq; lia)). cbv beta in Hno.
        apply Nat.eqb_neq in N. rewrite N in Hno. cbn [negb andb] in Hno.
        destruct (list_eq_dec _ _ _) as [|E]; [discriminate|]. apply E.
        apply (proj1 (agree_firstn t j (S i) (l - 1) ltac:(lia) ltac:(lia))). split; [lia|]. split; [lia|exact A3]. }
  destruct J as (j & Hj & Nj & HA).
  assert (Hy : nth j isa 0 < length t) by (apply isalt; lia).
  (* a neighbouring row that shares the rest has another letter *)
  assert (D : forall r, r < length t -> r <> x -> agree t (nth r sa 0) (S i) (l - 1) -> nth r b 0 <> nth i t 0).
  { intros r Hr Nr (A1 & A2 & A3) E. rewrite bn in E by auto. destruct (Nat.eqb_spec (nth r sa 0) 0) as [E0|E0]; [congruence|].
    assert (C : nth r sa 0 - 1 = i).
    { apply HU. split; [lia|]. split; [lia|]. intros [|q] Hq; [now rewrite !Nat.add_0_r|].
      specialize (A3 q ltac:(lia)). replace (nth r sa 0 - 1 + S q) with (nth r sa 0 + q) by lia.
      now replace (i + S q) with (S i + q) by lia. }
    apply Nr. unfold x. replace (S i) with (nth r sa 0) by lia. now rewrite Hi1. }
  assert (NE : nth j isa 0 <> x).
  { intros E. apply Nj. rewrite <- (Hi2 j) by lia. rewrite E. unfold x. apply Hi2. lia. }
  destruct (Nat.lt_ge_cases (nth j isa 0) x) as [C|C].
  - left. split; [lia|]. unfold change. destruct (Nat.eqb_spec x 0); [reflexivity|]. cbn [orb]. apply negb_true_iff, Nat.eqb_neq.
    rewrite Bx. apply not_eq_sym. apply D; [lia|lia|].
    apply (agree_sandwich t j (nth (x - 1) sa 0) (S i)); try lia; auto.
    + pose proof (salt (x - 1) ltac:(lia)). lia.
    + rewrite <- (Hi2 j) by lia. apply rows_le; lia.
    + rewrite <- (Hi2 (S i)) by lia. fold x. apply rows_le; lia.
  - right. split; [lia|]. unfold change. cbn [Nat.eqb orb]. apply negb_true_iff, Nat.eqb_neq.
    replace (S x - 1) with x by lia. rewrite Bx. apply D; [lia|lia|].
    assert (HA' : agree t (S i) j (l - 1)).
    { destruct HA as (A1 & A2 & A3). split; [lia|]. split; [lia|]. intros q Hq. symmetry. now apply A3. }
    assert (G : agree t (S i) (nth (S x) sa 0) (l - 1)).
    { apply (agree_sandwich t (S i) (nth (S x) sa 0) j); try lia; auto.
      - pose proof (salt (S x) ltac:(lia)). lia.
      - rewrite <- (Hi2 (S i)) by lia. fold x. apply rows_le; lia.
      - rewrite <- (Hi2 j) by lia. apply rows_le; lia. }
    destruct G as (A1 & A2 & A3). split; [lia|]. split; [lia|]. intros q Hq. symmetry. now apply A3.
Qed.

(** the row of the whole text *)
Let e := nth 0 isa 0.
Lemma e_pos : 0 < e.
Proof.
  assert (Hs : 0 < length s) by (destruct s; [contradiction|cbn; lia]).
  assert (L : lex_lt (skipn (length s) t) (skipn 0 t)).
  { unfold t. rewrite skipn_app, skipn_all, Nat.sub_diag. cbn [skipn app]. destruct s as [|c w]; [cbn in Hs; lia|].
    constructor. inversion HF; subst. destruct c; [contradiction|lia]. }
  apply (isa_lt_iff t sa isa) in L; auto; lia.
Qed.
Lemma mus_runs (L : list (nat * nat)) : NoDup (map fst L) -> (forall i l, In (i, l) L -> is_mus s i l) ->
  length L + 3 <= 2 * length (runs b).
Proof.
  intros ND HL. set (fr := filter (change b) (seq 0 (length b))).
  assert (Efr : length (runs b) = length fr) by apply runs_changes.
  set (R := map (fun p => nth (S (fst p)) isa 0) L).
  assert (HR : forall x, In x R -> x < length t /\ x <> e /\ ((0 < x /\ change b x = true) \/ (S x < length t /\ change b (S x) = true))).
  { intros x Hx. apply in_map_iff in Hx. destruct Hx as ((i, l) & <- & Hin). cbn [fst]. specialize (HL i l Hin).
    pose proof HL as (L1 & (L2 & _) & _). split; [apply isalt; lia|]. split; [|exact (mus_row i l HL)].
    intros E. apply (is_perm_inj (length t) isa) in E; auto; lia. }
  assert (NR : NoDup R).
  { unfold R. clear HR. assert (HB : forall i l, In (i, l) L -> S i < length t).
    { intros i l Hin. destruct (HL i l Hin) as (L1 & (L2 & _) & _). lia. }
    clear HL. induction L as [|(i, l) L' IH]; cbn [map]; [constructor|]. cbn [map fst] in ND. apply NoDup_cons_iff in ND. destruct ND as (N1 & N2).
    constructor; [|apply IH; [exact N2|intros; eapply HB; right; eauto]].
    rewrite in_map_iff. intros ((i', l') & E & Hin). cbn [fst] in E. apply N1. apply in_map_iff. exists (i', l'). split; [|exact Hin]. cbn [fst].
    apply (is_perm_inj (length t) isa _ _ HPi) in E; [lia|eapply HB; right; exact Hin|eapply HB; left; reflexivity]. }
  set (f := fun x => (0 <? x) && change b x).
  assert (F0 : In 0 fr) by (unfold fr; apply filter_In; split; [apply in_seq; lia|reflexivity]).
  assert (Fe : In e fr).
  { unfold fr. apply filter_In. split; [apply in_seq; rewrite Lb; pose proof (isalt 0 ltac:(lia)); unfold e; lia|].
    eapply (irr_0 s Hz sa isa phi plcp); eauto. }
  pose proof e_pos as Pe.
  assert (C1 : length (filter f R) + 2 <= length fr).
  { change (length (filter f R) + 2) with (length (filter f R) + length [0; e]). rewrite Nat.add_comm, <- app_length.
    apply NoDup_incl_length.
    - cbn [app]. constructor; [|constructor].
      + cbn [In]. intros [E|E]; [lia|]. apply filter_In in E. destruct E as (_ & E). discriminate.
      + intros E. apply filter_In in E. destruct E as (E & _). apply HR in E. lia.
      + now apply NoDup_filter.
    - intros x Hx. cbn [app In] in Hx. destruct Hx as [<-|[<-|Hx]]; auto. apply filter_In in Hx. destruct Hx as (Hx & E).
      apply HR in Hx. apply andb_true_iff in E. unfold fr. apply filter_In. split; [apply in_seq; lia|apply E]. }
  assert (C2 : length (filter (fun x => negb (f x)) R) + 1 <= length fr).
  { rewrite <- (map_length S). change 1 with (length [0]). rewrite Nat.add_comm, <- app_length.
    apply NoDup_incl_length.
    - cbn [app]. constructor.
      + intros E. apply in_map_iff in E. destruct E as (x & E & _). discriminate.
      + apply FinFun.Injective_map_NoDup; [intros p q Epq; lia|]. now apply NoDup_filter.
    - intros x Hx. cbn [app In] in Hx. destruct Hx as [<-|Hx]; auto. apply in_map_iff in Hx. destruct Hx as (y & <- & Hy).
      apply filter_In in Hy. destruct Hy as (Hy & E). apply HR in Hy. destruct Hy as (_ & _ & Hy).
      unfold f in E. apply negb_true_iff, andb_false_iff in E.
      destruct Hy as [(Y1 & Y2)|(Y1 & Y2)].
      + exfalso. destruct E as [E|E]; [apply Nat.ltb_ge in E; lia|congruence].
      + unfold fr. apply filter_In. split; [apply in_seq; lia|exact Y2]. }
  assert (C3 : length (filter f R) + length (filter (fun x => negb (f x)) R) = length L).
  { transitivity (length R); [|unfold R; apply map_length]. clear. induction R as [|x R IH]; cbn [filter length]; [reflexivity|].
    destruct (f x); cbn [negb length]; lia. }
  lia.
Qed.
End M.
Lemma mus_runs_sa s sa L : ~ In 0 s -> s <> [] -> is_suffix_array (s ++ [0]) sa -> NoDup (map fst L) ->
  (forall i l, In (i, l) L -> is_mus s i l) -> length L + 3 <= 2 * length (runs (sa_letters (s ++ [0]) sa)).
Proof.
  intros Hz Hne Hs ND HL. assert (Hne' : s ++ [0] <> []) by (destruct s; easy).
  destruct (lcp_structures' (s ++ [0]) sa Hne' Hs) as (isa & phi & plcp & lcp & E1 & E2 & E3 & E4 & HPi & HPp & Lp & Ll & Hi1 & Hi2 & Hp1 & Hp0 & Hplcp & _ & _).
  eapply (mus_runs s Hz Hne sa isa phi plcp); eauto.
Qed.
(** every unique substring contains a minimal one *)
Lemma unique_contains s : forall l i, 1 <= l -> 1 <= length s -> unique_substring s i l ->
  exists i' l', is_mus s i' l' /\ i <= i' /\ i' + l' <= i + l.
Proof.
  induction l as [l IH] using (well_founded_induction lt_wf). intros i Hl Hs HU.
  assert (DEC : forall i l, unique_substring s i l \/ ~ unique_substring s i l).
  { clear. intros i l. destruct (le_dec (i + l) (length s)) as [C|C]; [|right; intros (H & _); lia].
    destruct (filter_pos (fun j => negb (j =? i) && if list_eq_dec Nat.eq_dec (firstn l (skipn j s)) (firstn l (skipn i s)) then true else false)
                (seq 0 (length s + 1 - l))) as [(j & Hj & Ej)|Hno].
    - right. intros (_ & H). apply in_seq in Hj. apply andb_true_iff in Ej. destruct Ej as (E1 & E2). apply negb_true_iff, Nat.eqb_neq in E1.
      apply E1, H. destruct (list_eq_dec _ _ _) as [E|]; [|discriminate].
      apply (proj2 (agree_firstn s j i l ltac:(lia) ltac:(lia))). split; [lia|]. split; [lia|exact E].
    - left. split; [exact C|]. intros j HA. destruct (Nat.eq_dec j i) as [|N]; [assumption|]. exfalso.
      pose proof HA as (A1 & _). specialize (Hno j ltac:(apply in_seq; lia)). cbv beta in Hno.
      apply Nat.eqb_neq in N. rewrite N in Hno. cbn [negb andb] in Hno.
      destruct (list_eq_dec _ _ _) as [|E]; [discriminate|]. apply E.
      apply (proj1 (agree_firstn s j i l ltac:(lia) ltac:(lia))). exact HA. }
  pose proof HU as (HB & _).
  assert (NE : forall i, i <= length s -> ~ unique_substring s i 0) by (intros; now apply not_unique_empty).
  destruct (DEC (S i) (l - 1)) as [D|D].
  { destruct (Nat.eq_dec l 1) as [->|N]; [exfalso; apply (NE (S i)); [lia|exact D]|].
    destruct (IH (l - 1) ltac:(lia) (S i) ltac:(lia) Hs D) as (i' & l' & H1 & H2 & H3). exists i', l'. split; [exact H1|lia]. }
  destruct (DEC i (l - 1)) as [D'|D'].
  { destruct (Nat.eq_dec l 1) as [->|N]; [exfalso; apply (NE i); [lia|exact D']|].
    destruct (IH (l - 1) ltac:(lia) i ltac:(lia) Hs D') as (i' & l' & H1 & H2 & H3). exists i', l'. split; [exact H1|lia]. }
  exists i, l. split; [|lia]. split; [lia|]. split; [exact HU|]. intros i' l' H1 H2 H3 (_ & HU').
  assert (G : forall a, i <= a -> a <= i' -> i' + l' <= a + (l - 1) -> a + (l - 1) <= i + l -> unique_substring s a (l - 1)).
  { intros a A1 A2 A3 A4. split; [lia|]. intros j (J1 & J2 & J3).
    assert (j + (i' - a) = i'); [|lia]. apply HU'. split; [lia|]. split; [lia|]. intros x Hx.
    specialize (J3 (i' - a + x) ltac:(lia)). replace (j + (i' - a) + x) with (j + (i' - a + x)) by lia.
    now replace (i' + x) with (a + (i' - a + x)) by lia. }
  destruct (Nat.eq_dec i' i) as [->|N]; [apply D', G; lia|apply D, G; lia].
Qed.
Lemma contains_unique s i l i' l' : is_mus s i' l' -> i <= i' -> i' + l' <= i + l -> i + l <= length s -> unique_substring s i l.
Proof.
  intros (_ & (_ & HU) & _) H1 H2 H3. split; [lia|]. intros j (J1 & J2 & J3).
  assert (j + (i' - i) = i'); [|lia]. apply HU. split; [lia|]. split; [lia|]. intros x Hx.
  specialize (J3 (i' - i + x) ltac:(lia)). replace (j + (i' - i) + x) with (j + (i' - i + x)) by lia.
  now replace (i' + x) with (i + (i' - i + x)) by lia.
Qed.
Lemma mus_ends s i l i' l' : is_mus s i l -> is_mus s i' l' -> i < i' -> i + l < i' + l'.
Proof.
  intros (A1 & A2 & A3) (B1 & B2 & B3) H. destruct (Nat.lt_ge_cases (i + l) (i' + l')) as [|C]; [assumption|]. exfalso.
  apply (A3 i' l'); [lia|lia|lia|exact B2].
Qed.
