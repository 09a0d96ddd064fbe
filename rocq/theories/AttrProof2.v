(** AttrProof2.v : is_attractor decides string attractors. *)
From Verif Require Import Base SpecStr LexFacts ModelCore PermFacts SortFacts LcpProof ModelLz SpecLz LzProof MusProof
  ModelAttr SpecAttr AttrProof AttrOrder.

(** ** rank / select *)
Lemma select_from bits : forall m,
  match select1 bits (length (filter (fun b => b) (firstn m bits))) with
  | Some q => m <= q < length bits /\ nth q bits false = true /\ forall r, m <= r < q -> nth r bits false = false
  | None => forall r, m <= r -> nth r bits false = false
  end.
Proof.
  induction bits as [|b bits IH]; intros m.
  - destruct m; simpl; intros [|r]; auto.
  - destruct m as [|m].
    + cbn [firstn filter length]. destruct b; cbn [select1].
      * split; [simpl; lia|]. split; [reflexivity|]. intros; lia.
      * specialize (IH 0). simpl firstn in IH. simpl filter in IH. simpl length in IH.
        destruct (select1 bits 0) as [q|]; cbn [option_map].
        -- destruct IH as (H1 & H2 & H3). split; [simpl; lia|]. split; [exact H2|].
           intros [|r] Hr; [reflexivity|]. simpl. apply H3. lia.
        -- intros [|r] _; [reflexivity|]. simpl. apply IH. lia.
    + cbn [firstn]. specialize (IH m). set (k := length (filter (fun b => b) (firstn m bits))) in *.
      assert (G : match option_map S (select1 bits k) with
        | Some q => S m <= q < length (b :: bits) /\ nth q (b :: bits) false = true /\
             forall r, S m <= r < q -> nth r (b :: bits) false = false
        | None => forall r, S m <= r -> nth r (b :: bits) false = false end).
      { destruct (select1 bits k) as [q|]; cbn [option_map].
        - destruct IH as (H1 & H2 & H3). split; [simpl; lia|]. split; [exact H2|].
          intros [|r] Hr; [lia|]. simpl. apply H3. lia.
        - intros [|r] Hr; [lia|]. simpl. apply IH. lia. }
      destruct b; cbn [filter length select1]; fold k; exact G.
Qed.

(** distance from p to the next position of A, n if there is none *)
Definition is_dist (n : nat) (A : list nat) (p d : nat) : Prop :=
  (exists a, In a A /\ p <= a /\ d = a - p /\ forall a', In a' A -> p <= a' -> a <= a') \/
  (d = n /\ forall a', In a' A -> a' < p).

Lemma set_bits n A : Forall (fun a => a < n) A -> forall v, length v = n ->
  okp (for_in A (fun s v => set v s true) v) (fun bits => length bits = n /\
    forall x, nth x bits false = true <-> In x A \/ nth x v false = true).
Proof.
  induction A as [|a A IH]; intros HF v Lv; cbn [for_in].
  - apply okp_ok. split; [exact Lv|]. intros x. simpl. tauto.
  - inversion HF; subst. rewrite set_ok by auto. cbn [bind].
    eapply okp_imp; [apply IH; auto; apply upd_length|]. cbv beta. intros bits (L & H). split; [exact L|].
    intros x. rewrite H. simpl. destruct (Nat.eq_dec x a) as [->|Ne].
    + rewrite nth_upd_eq by auto. tauto.
    + rewrite nth_upd_ne by auto. intuition congruence.
Qed.

Lemma dists_ok n sa A bits : length sa = n -> (forall k, k < n -> nth k sa 0 < n) -> length bits = n ->
  (forall x, nth x bits false = true <-> In x A) ->
  okp (attractor_dists n sa bits) (fun d => length d = n /\ forall k, k < n -> is_dist n A (nth k sa 0) (nth k d 0)).
Proof.
  intros Ls Hs Lb Hb. unfold attractor_dists.
  eapply okp_imp; [apply (okp_for_range (fun i d => length d = n /\
     (forall k, k < i -> is_dist n A (nth k sa 0) (nth k d 0)) /\ forall k, i <= k -> nth k d 0 = 0)); [lia| |]|].
  - split; [apply repeat_length|]. split; [intros; lia|]. intros k _. destruct (Nat.lt_ge_cases k n).
    + now apply nth_rep.
    + apply nth_overflow. now rewrite repeat_length.
  - intros i d Hi (Ld & Hd & Hz). specialize (Hs i ltac:(lia)).
    apply okp_bind, (okp_get _ _ 0); [lia|]. apply okp_bind, (okp_get _ _ false); [lia|].
    set (p := nth i sa 0) in *.
    assert (Hset : forall x, is_dist n A p x -> okp (set d i x) (fun d => length d = n /\
      (forall k, k < S i -> is_dist n A (nth k sa 0) (nth k d 0)) /\ forall k, S i <= k -> nth k d 0 = 0)).
    { intros x Hx. apply okp_set; [lia|]. split; [now rewrite upd_length|]. split.
      - intros k Hk. destruct (Nat.eq_dec k i) as [->|].
        + rewrite nth_upd_eq by lia. exact Hx.
        + rewrite nth_upd_ne by lia. apply Hd. lia.
      - intros k Hk. rewrite nth_upd_ne by lia. apply Hz. lia. }
    destruct (nth p bits false) eqn:Ep.
    + apply okp_ok. split; [exact Ld|]. split; [|intros; apply Hz; lia].
      intros k Hk. destruct (Nat.eq_dec k i) as [->|]; [|apply Hd; lia]. rewrite Hz by lia.
      left. exists p. apply Hb in Ep. fold p. split; [auto|]. split; [lia|]. split; [lia|]. auto.
    + unfold rank1. pose proof (select_from bits (p + 1)) as HS.
      destruct (select1 bits _) as [q|].
      * destruct HS as (S1 & S2 & S3). apply okp_bind, (okp_get _ _ false); [lia|].
        apply okp_bind, okp_assert; [exact S2|]. apply okp_bind, okp_sub; [lia|]. apply Hset.
        left. exists q. split; [now apply Hb|]. split; [lia|]. split; [reflexivity|].
        intros a' Ha Hp. destruct (Nat.le_gt_cases q a') as [|C]; auto. exfalso.
        apply Hb in Ha. destruct (Nat.eq_dec a' p) as [->|]; [congruence|]. rewrite S3 in Ha by lia. discriminate.
      * apply Hset. right. split; [reflexivity|]. intros a' Ha. destruct (Nat.lt_ge_cases a' p) as [|C]; auto. exfalso.
        apply Hb in Ha. destruct (Nat.eq_dec a' p) as [->|]; [congruence|]. rewrite HS in Ha by lia. discriminate.
  - cbv beta. intros d (Ld & Hd & _). auto.
Qed.

Lemma fold_min l : forall x, let m := fold_left Nat.min l x in
  (m = x \/ In m l) /\ m <= x /\ forall y, In y l -> m <= y.
Proof.
  induction l as [|z l IH]; intros x; cbn [fold_left].
  - split; [now left|]. split; [lia|]. intros y [].
  - destruct (IH (Nat.min x z)) as (H1 & H2 & H3). split; [|split].
    + destruct H1 as [->|H1]; [|right; simpl; auto]. destruct (Nat.min_dec x z) as [->| ->]; [auto|right; simpl; auto].
    + lia.
    + intros y [<-|Hy]; [lia|auto].
Qed.
Lemma rmq_min d l r : l < r <= length d -> exists m, rmq d l r = Ok m /\
  (exists k, l <= k < r /\ nth k d 0 = m) /\ forall k, l <= k < r -> m <= nth k d 0.
Proof.
  intros H. unfold rmq. destruct (Nat.leb_spec r (length d)); [|lia].
  rewrite (skipn_cons_nth d l 0) by lia. replace (r - l) with (S (r - l - 1)) by lia. cbn [firstn].
  set (xs := firstn (r - l - 1) (skipn (S l) d)).
  destruct (fold_min xs (nth l d 0)) as (H1 & H2 & H3). eexists. split; [reflexivity|].
  assert (Lx : length xs = r - l - 1) by (unfold xs; rewrite firstn_length, skipn_length; lia).
  assert (Hx : forall j, j < r - l - 1 -> nth j xs 0 = nth (S l + j) d 0).
  { intros j Hj. unfold xs. now rewrite nth_firstn, nth_skipn by lia. }
  split.
  - destruct H1 as [->|H1]; [exists l; split; [lia|auto]|].
    destruct (In_nth _ _ 0 H1) as (j & Hj & Ej). exists (S l + j). split; [lia|]. rewrite <- Hx by lia. exact Ej.
  - intros k Hk. destruct (Nat.eq_dec k l) as [->|]; [exact H2|]. apply H3.
    replace k with (S l + (k - l - 1)) by lia. rewrite <- Hx by lia. apply nth_In. lia.
Qed.

(** ** the text with sentinel *)
Section Text.
Context (s : str) (sa isa lcp : list nat).
Let t := s ++ [0].
Let n := length t.
Context (HF : Forall (fun x => x <> 0) s) (HSA : is_suffix_array t sa) (HPi : is_perm n isa)
  (Hi1 : forall i, i < n -> nth (nth i sa 0) isa 0 = i)
  (Hi2 : forall j, j < n -> nth (nth j isa 0) sa 0 = j)
  (Ll : length lcp = n)
  (Hl : forall r, 0 < r < n -> lcpv t (nth (r - 1) sa 0) (nth r sa 0) (nth r lcp 0)).

Let En : n = S (length s).
Proof. unfold n, t. rewrite app_length. simpl. lia. Qed.
Let salt : forall i, i < n -> nth i sa 0 < n.
Proof. intros i Hi. destruct HSA as (HP & _). now apply is_perm_nth. Qed.
Let Lsa : length sa = n.
Proof. destruct HSA as (HP & _). now apply is_perm_length. Qed.

Lemma not_below_sentinel x : x < n - 1 -> ~ lex_lt (skipn x t) (skipn (n - 1) t).
Proof.
  intros Hx HL. rewrite (skipn_cons_nth t x 0) in HL by (unfold n in *; lia).
  rewrite (skipn_cons_nth t (n - 1) 0) in HL by (unfold n in *; lia).
  assert (Ez : nth (n - 1) t 0 = 0).
  { rewrite En. unfold t. rewrite app_nth2 by lia. now replace (S (length s) - 1 - length s) with 0 by lia. }
  assert (Nz : nth x t 0 <> 0).
  { unfold t. rewrite app_nth1 by lia. rewrite Forall_forall in HF. apply HF, nth_In. lia. }
  assert (Em : skipn (S (n - 1)) t = []) by (apply skipn_all2; unfold n; lia).
  rewrite Ez, Em in HL. inversion HL; subst; [lia|congruence].
Qed.
Lemma attr_sa0 : nth 0 sa 0 = n - 1.
Proof.
  destruct HSA as (HP & _). destruct (is_perm_surj _ sa (n - 1) HP) as (r & Hr & Er); [fold n; lia|]. fold n in Hr.
  destruct (Nat.eq_dec r 0) as [->|Nr]; [exact Er|]. exfalso.
  pose proof (sa_lt t sa 0 r HSA ltac:(fold n; lia)) as HL. rewrite Er in HL.
  apply (not_below_sentinel (nth 0 sa 0)); [|exact HL].
  pose proof (salt 0 ltac:(lia)). destruct (Nat.eq_dec (nth 0 sa 0) (n - 1)) as [E0|]; [|lia].
  exfalso. apply Nr. symmetry. apply (is_perm_inj (length t) sa); auto; fold n; try lia; congruence.
Qed.
Lemma sa_distinct a b : a < n -> b < n -> a <> b -> nth a sa 0 <> nth b sa 0.
Proof. intros Ha Hb Hab E0. destruct HSA as (HP & _). apply Hab. now apply (is_perm_inj (length t) sa). Qed.

Lemma attr_lcp2 k : 0 < k < n -> nth k lcp 0 <= n - 1 - nth (k - 1) sa 0 /\ nth k lcp 0 <= n - 1 - nth k sa 0.
Proof.
  intros Hk. destruct (Hl k Hk) as (HA & _).
  pose proof (salt k ltac:(lia)). pose proof (salt (k - 1) ltac:(lia)).
  assert (HS : same_substring s (nth (k - 1) sa 0) (nth k sa 0) (nth k lcp 0)).
  { apply sentinel_agree; auto; [apply sa_distinct; lia|]. split; [exact HA|]. right. lia. }
  destruct HS as (H1 & H2 & _). lia.
Qed.
Lemma attr_lcp1 k : 0 < k < n -> nth k lcp 0 < n - 1 - nth k sa 0.
Proof.
  intros Hk. destruct (attr_lcp2 k Hk) as (A1 & A2).
  destruct (Nat.eq_dec (nth k lcp 0) (n - 1 - nth k sa 0)) as [E0|]; [|lia]. exfalso.
  destruct (Hl k Hk) as (HA & _). pose proof (salt k ltac:(lia)). pose proof (salt (k - 1) ltac:(lia)).
  pose proof (agree_lex_shift t _ _ _ HA (sa_lt t sa (k - 1) k HSA ltac:(fold n; lia)) (nth k lcp 0) (le_n _)) as HL.
  replace (nth k sa 0 + nth k lcp 0) with (n - 1) in HL by lia.
  apply not_below_sentinel in HL; [exact HL|].
  pose proof (sa_distinct (k - 1) k ltac:(lia) ltac:(lia) ltac:(lia)). lia.
Qed.

Lemma sub_of_agree j i l : i + l <= length s -> j < n -> agree t j i l -> same_substring s j i l.
Proof.
  intros Hi Hj HA. destruct (Nat.eq_dec j i) as [->|Ne].
  - split; [lia|]. split; [lia|]. auto.
  - apply sentinel_agree; auto. split; [exact HA|]. right. lia.
Qed.
Lemma agree_of_sub j i l : same_substring s j i l -> agree t j i l.
Proof.
  intros (H1 & H2 & H3). unfold agree. fold n. split; [lia|]. split; [lia|]. intros x Hx. unfold t.
  rewrite !app_nth1 by lia. auto.
Qed.

Lemma inside_agree b e d : b <= e < n -> nth b sa 0 + d <= n -> (forall k, b < k < S e -> d <= nth k lcp 0) ->
  forall k, b <= k <= e -> agree t (nth b sa 0) (nth k sa 0) d.
Proof.
  intros Hbe Hd Hin k. induction k as [|k IH]; intros Hk.
  - assert (b = 0) by lia. subst b. unfold agree. fold n. auto.
  - destruct (Nat.eq_dec b (S k)) as [->|Nb]; [unfold agree; fold n; auto|].
    apply (agree_trans t _ (nth k sa 0)); [apply IH; lia|].
    destruct (Hl (S k) ltac:(lia)) as (HA & _). replace (S k - 1) with k in HA by lia.
    apply (agree_le _ _ _ _ _ HA). apply Hin. lia.
Qed.
Lemma lex_le_rk a b : a <= b < n -> lex_le (skipn (nth a sa 0) t) (skipn (nth b sa 0) t).
Proof.
  intros H. destruct (Nat.eq_dec a b) as [->|]; [apply lex_le_refl|]. right. apply (sa_lt t sa); auto. fold n. lia.
Qed.
Lemma outside_agree b e d : 0 < b <= e -> e < n -> nth b lcp 0 <= d -> (S e < n -> nth (S e) lcp 0 <= d) ->
  (forall k, b < k < S e -> d < nth k lcp 0) -> nth b sa 0 + S d <= n ->
  forall k, k < n -> agree t (nth b sa 0) (nth k sa 0) (S d) -> b <= k <= e.
Proof.
  intros Hb He H1 H2 H3 H4 k Hk HA.
  assert (Hle : forall x, x < n -> nth x sa 0 <= length t) by (intros x Hx; fold n; apply salt in Hx; lia).
  split.
  - destruct (Nat.le_gt_cases b k) as [|C]; auto. exfalso. apply agree_sym in HA.
    destruct (agree_sandwich t (nth k sa 0) (nth (b - 1) sa 0) (nth b sa 0) (S d)) as (_ & G);
      try (apply Hle; lia); try (apply lex_le_rk; lia); auto.
    pose proof (lcpv_max _ _ _ _ _ (Hl b ltac:(lia)) G). lia.
  - destruct (Nat.le_gt_cases k e) as [|C]; auto. exfalso.
    assert (G0 : agree t (nth e sa 0) (nth k sa 0) (S d)).
    { apply (agree_trans t _ (nth b sa 0)); [|exact HA]. apply agree_sym.
      apply (inside_agree b e); try lia. intros x Hx. specialize (H3 x Hx). lia. }
    destruct (agree_sandwich t (nth e sa 0) (nth (S e) sa 0) (nth k sa 0) (S d)) as (G & _);
      try (apply Hle; lia); try (apply lex_le_rk; lia); auto.
    pose proof (Hl (S e) ltac:(lia)) as HLe. replace (S e - 1) with e in HLe by lia.
    pose proof (lcpv_max _ _ _ _ _ HLe G). specialize (H2 ltac:(lia)). lia.
Qed.

(** all edges are covered iff A is an attractor *)
Context (A : list nat) (nodes : list node) (edges : list (nat * nat)) (d : list nat).
Context (Hs : s <> []) (HA : Forall (fun a => a < n) A)
  (Hed : forall p c, In (p, c) edges -> p < length nodes /\ c < length nodes /\
     ((D nodes p = 0 /\ D nodes c = 0 /\ B nodes c = 0 /\ E nodes c = n - 1) \/ edgeok sa lcp n nodes p c))
  (Hcov : forall k l, 0 < k < n -> 0 < l <= n - 1 - nth k sa 0 -> by_edges nodes edges k l)
  (Ld : length d = n) (Hd : forall k, k < n -> is_dist n A (nth k sa 0) (nth k d 0)).

Definition covered (p c : nat) : Prop :=
  exists m, rmq d (B nodes c) (E nodes c + 1) = Ok m /\ m < D nodes p + 1.

Lemma attr_edges : string_attractor s A -> forall p c, In (p, c) edges -> covered p c.
Proof.
  intros Hat p c Hin. destruct (Hed p c Hin) as (Hp & Hc & [(D0 & D1 & B0 & E0)|Hok]).
  - unfold covered. rewrite B0, E0, D0. destruct (rmq_min d 0 (n - 1 + 1) ltac:(lia)) as (m & -> & _ & Hm).
    exists m. split; [reflexivity|].
    assert (Hlen : 1 <= length s) by (destruct s; [easy|simpl; lia]).
    destruct (Hat 0 1 ltac:(lia) ltac:(lia)) as (j & a & (S1 & _) & Ha & Hja).
    assert (Hal : a < n) by lia.
    pose proof (is_perm_nth n isa a HPi Hal) as Hr. specialize (Hm (nth a isa 0) ltac:(lia)).
    specialize (Hd (nth a isa 0) Hr). rewrite Hi2 in Hd by auto.
    destruct Hd as [(a' & _ & H1 & H2 & H3)|(_ & H3)]; [|specialize (H3 a Ha); lia].
    specialize (H3 a Ha (le_n _)). lia.
  - destruct Hok as ((P1 & P2 & P3 & P4 & P5 & P6 & P7 & P8) & P9 & P9e).
    set (b := B nodes c) in *. set (e := E nodes c) in *. unfold covered. fold b e.
    destruct (rmq_min d b (e + 1) ltac:(lia)) as (m & -> & _ & Hm). exists m. split; [reflexivity|].
    destruct (Hat (nth b sa 0) (D nodes p + 1) ltac:(lia) ltac:(lia)) as (j & a & Hsub & Ha & Hja).
    assert (Hj : j < n) by (destruct Hsub; lia). pose proof (is_perm_nth n isa j HPi Hj) as Hr.
    apply agree_of_sub, agree_sym in Hsub. rewrite <- (Hi2 j Hj) in Hsub. rewrite Nat.add_1_r in Hsub.
    pose proof (outside_agree b e (D nodes p) ltac:(lia) ltac:(lia) P6 P9
      ltac:(intros k Hk; specialize (P7 k Hk); lia) ltac:(lia) _ Hr Hsub) as Hin'.
    specialize (Hm (nth j isa 0) ltac:(lia)). specialize (Hd _ Hr). rewrite Hi2 in Hd by auto.
    destruct Hd as [(a' & _ & H1 & H2 & H3)|(_ & H3)]; [|specialize (H3 a Ha); lia].
    specialize (H3 a Ha ltac:(lia)). lia.
Qed.
Lemma edges_attr : (forall p c, In (p, c) edges -> covered p c) -> string_attractor s A.
Proof.
  intros Hall i l Hl1 Hil. assert (Hi : i < n) by lia. pose proof (is_perm_nth n isa i HPi Hi) as Hr.
  assert (Hr0 : 0 < nth i isa 0).
  { destruct (Nat.eq_dec (nth i isa 0) 0) as [E0|]; [|lia]. pose proof (Hi2 i Hi) as Hi2'.
    rewrite E0, attr_sa0 in Hi2'. lia. }
  destruct (Hcov (nth i isa 0) l ltac:(lia)) as (p & c & Hin & HB & HD); [rewrite Hi2 by auto; lia|].
  destruct (Hed p c Hin) as (Hp & Hc & [(D0 & D1 & B0 & E0)|Hok]); [lia|].
  destruct Hok as ((P1 & P2 & P3 & P4 & P5 & P6 & P7 & P8) & P9 & P9e).
  destruct (Hall p c Hin) as (m & Em & Hm). set (b := B nodes c) in *. set (e := E nodes c) in *.
  destruct (rmq_min d b (e + 1) ltac:(lia)) as (m' & Em' & (k & Hk & Ek) & _). rewrite Em in Em'. injection Em' as <-.
  assert (G : forall x, b <= x <= e -> agree t (nth b sa 0) (nth x sa 0) (D nodes c)).
  { intros x Hx. apply (inside_agree b e); auto; lia. }
  assert (Hkn : k < n) by lia. specialize (Hd k Hkn). pose proof (salt k Hkn).
  destruct Hd as [(a & Ha & H1 & H2 & _)|(H2 & _)]; [|lia].
  exists (nth k sa 0), a. split; [|split; [exact Ha|lia]].
  apply sub_of_agree; auto. rewrite <- (Hi2 i Hi). apply (agree_le _ _ _ (D nodes c)); [|lia].
  apply (agree_trans t _ (nth b sa 0)); [apply agree_sym|]; apply G; lia.
Qed.

(** single edges: an occurrence of the word of an edge that contains a position of A covers the edge; the
    edge of a substring, if covered, shows an occurrence containing a position *)
Lemma edge_inside p c : In (p, c) edges -> B nodes c <> 0 -> nth (B nodes c) sa 0 + (D nodes p + 1) <= length s.
Proof.
  intros Hin HB. destruct (Hed p c Hin) as (Hp & Hc & [(D0 & D1 & B0 & E0)|Hok]); [lia|].
  destruct Hok as ((P1 & P2 & P3 & P4 & P5 & P6 & P7 & P8) & P9 & P9e). lia.
Qed.
Lemma edge_covered p c : In (p, c) edges -> B nodes c <> 0 -> forall j a,
  same_substring s j (nth (B nodes c) sa 0) (D nodes p + 1) -> In a A -> j <= a < j + (D nodes p + 1) -> covered p c.
Proof.
  intros Hin HB j a Hsub Ha Hja. destruct (Hed p c Hin) as (Hp & Hc & [(D0 & D1 & B0 & E0)|Hok]); [lia|].
  destruct Hok as ((P1 & P2 & P3 & P4 & P5 & P6 & P7 & P8) & P9 & P9e).
  set (b := B nodes c) in *. set (e := E nodes c) in *. unfold covered. fold b e.
  destruct (rmq_min d b (e + 1) ltac:(lia)) as (m & -> & _ & Hm). exists m. split; [reflexivity|].
  assert (Hj : j < n) by (destruct Hsub; lia). pose proof (is_perm_nth n isa j HPi Hj) as Hr.
  apply agree_of_sub, agree_sym in Hsub. rewrite <- (Hi2 j Hj) in Hsub. rewrite Nat.add_1_r in Hsub.
  pose proof (outside_agree b e (D nodes p) ltac:(lia) ltac:(lia) P6 P9
    ltac:(intros k Hk; specialize (P7 k Hk); lia) ltac:(lia) _ Hr Hsub) as Hin'.
  specialize (Hm (nth j isa 0) ltac:(lia)). specialize (Hd _ Hr). rewrite Hi2 in Hd by auto.
  destruct Hd as [(a' & _ & H1 & H2 & H3)|(_ & H3)]; [|specialize (H3 a Ha); lia].
  specialize (H3 a Ha ltac:(lia)). lia.
Qed.
Lemma sub_edge i l : 1 <= l -> i + l <= length s -> exists p c, In (p, c) edges /\ B nodes c <> 0 /\ D nodes p + 1 <= l /\
  same_substring s (nth (B nodes c) sa 0) i l /\
  (covered p c -> exists j a, same_substring s j i l /\ In a A /\ j <= a < j + l).
Proof.
  intros Hl1 Hil. assert (Hi : i < n) by lia. pose proof (is_perm_nth n isa i HPi Hi) as Hr.
  assert (Hr0 : 0 < nth i isa 0).
  { destruct (Nat.eq_dec (nth i isa 0) 0) as [E0|]; [|lia]. pose proof (Hi2 i Hi) as Hi2'.
    rewrite E0, attr_sa0 in Hi2'. lia. }
  destruct (Hcov (nth i isa 0) l ltac:(lia)) as (p & c & Hin & HB & HD); [rewrite Hi2 by auto; lia|].
  destruct (Hed p c Hin) as (Hp & Hc & [(D0 & D1 & B0 & E0)|Hok]); [lia|].
  destruct Hok as ((P1 & P2 & P3 & P4 & P5 & P6 & P7 & P8) & P9 & P9e).
  exists p, c. split; [exact Hin|]. split; [lia|]. split; [lia|].
  set (b := B nodes c) in *. set (e := E nodes c) in *.
  assert (G : forall x, b <= x <= e -> agree t (nth b sa 0) (nth x sa 0) (D nodes c)).
  { intros x Hx. apply (inside_agree b e); auto; lia. }
  split.
  { apply sub_of_agree; auto; [apply salt; lia|]. rewrite <- (Hi2 i Hi). apply (agree_le _ _ _ (D nodes c)); [apply G; lia|lia]. }
  intros (m & Em & Hm). fold b e in Em.
  destruct (rmq_min d b (e + 1) ltac:(lia)) as (m' & Em' & (k & Hk & Ek) & _). rewrite Em in Em'. injection Em' as <-.
  assert (Hkn : k < n) by lia. specialize (Hd k Hkn). pose proof (salt k Hkn).
  destruct Hd as [(a & Ha & H1 & H2 & _)|(H2 & _)]; [|lia].
  exists (nth k sa 0), a. split; [|split; [exact Ha|lia]].
  apply sub_of_agree; auto. rewrite <- (Hi2 i Hi). apply (agree_le _ _ _ (D nodes c)); [|lia].
  apply (agree_trans t _ (nth b sa 0)); [apply agree_sym|]; apply G; lia.
Qed.
Lemma nth_error_t x : x <= length s -> nth_error s x = if nth x t 0 =? 0 then None else Some (nth x t 0).
Proof.
  intros Hx. unfold t. destruct (Nat.eq_dec x (length s)) as [->|N].
  - rewrite app_nth2, Nat.sub_diag by lia. cbn. apply nth_error_None. lia.
  - rewrite app_nth1 by lia. rewrite Forall_forall in HF. assert (Hx' : x < length s) by lia. pose proof (HF (nth x s 0) (nth_In s 0 Hx')) as HF'.
    destruct (Nat.eqb_spec (nth x s 0) 0); [contradiction|]. apply nth_error_nth'. lia.
Qed.
Lemma next_differ a b m : a + m <= length s -> b + m <= length s -> nth (a + m) t 0 <> nth (b + m) t 0 -> nth_error s (a + m) <> nth_error s (b + m).
Proof.
  intros H1 H2 H. rewrite !nth_error_t by auto. destruct (Nat.eqb_spec (nth (a + m) t 0) 0); destruct (Nat.eqb_spec (nth (b + m) t 0) 0); congruence.
Qed.
(** ** the order of the words of the edges *)
Lemma before_total u v : u = v \/ before u v \/ before v u.
Proof.
  assert (P : forall u v : str, (exists x, v = u ++ x) \/ forall x, v <> u ++ x).
  { clear. induction u as [|a u IH]; intros v; [left; now exists v|]. destruct v as [|b v]; [right; discriminate|].
    destruct (Nat.eq_dec a b) as [->|N]; [|right; intros x E0; cbn in E0; congruence]. destruct (IH v) as [(x & ->)|H]; [left; now exists x|].
    right. intros x E0. cbn in E0. injection E0 as E0. exact (H x E0). }
  destruct (lex_lt_total u v) as [L|[L|L]]; [|now left|].
  - right. destruct (P u v) as [(x & Hx)|H]; [right; left; exists x; split; [|exact Hx]|left; right; auto].
    intros ->. rewrite app_nil_r in Hx. subst v. exact (lex_lt_irrefl _ L).
  - right. destruct (P v u) as [(x & Hx)|H]; [left; left; exists x; split; [|exact Hx]|right; right; auto].
    intros ->. rewrite app_nil_r in Hx. subst v. exact (lex_lt_irrefl _ L).
Qed.
Definition eword (e : nat * nat) : str := firstn (D nodes (fst e) + 1) (skipn (nth (B nodes (snd e)) sa 0) s).
Lemma eword_suffix p c k : In (p, c) edges -> B nodes c <> 0 -> B nodes c <= k <= E nodes c -> k < n /\ length (eword (p, c)) = D nodes p + 1 /\
  exists r, skipn (nth k sa 0) t = eword (p, c) ++ r.
Proof.
  intros Hin HB Hk. pose proof (edge_inside p c Hin HB) as HI. destruct (Hed p c Hin) as (Hp & Hc & [(D0 & D1 & B0 & E0)|Hok]); [lia|].
  destruct Hok as ((P1 & P2 & P3 & P4 & P5 & P6 & P7 & P8) & P9 & P9e). split; [lia|]. split; [unfold eword; cbn [fst snd]; rewrite firstn_length, skipn_length; lia|].
  pose proof (inside_agree (B nodes c) (E nodes c) (D nodes c) ltac:(lia) ltac:(lia) P7 k Hk) as (A1 & A2 & A3).
  exists (skipn (D nodes p + 1) (skipn (nth k sa 0) t)). rewrite <- (firstn_skipn (D nodes p + 1) (skipn (nth k sa 0) t)) at 1. f_equal. unfold eword. cbn [fst snd].
  apply (nth_ext_len _ _ 0).
  - rewrite !firstn_length, !skipn_length. assert (LT : length t = n) by reflexivity. lia.
  - intros x Hx. rewrite firstn_length in Hx. rewrite !nth_firstn, !nth_skipn by lia. rewrite <- A3 by lia. unfold t. rewrite app_nth1 by lia. reflexivity.
Qed.
Lemma eword_interval p c p' c' x : In (p, c) edges -> B nodes c <> 0 -> In (p', c') edges -> B nodes c' <> 0 -> eword (p', c') = eword (p, c) ++ x ->
  E nodes c' <= E nodes c.
Proof.
  intros Hin HB Hin' HB' Ew. destruct (Hed p' c' Hin') as (_ & _ & [(_ & _ & B0' & _)|((_ & _ & _ & Q4 & _) & _)]); [lia|].
  destruct (eword_suffix p' c' (E nodes c') Hin' HB' ltac:(lia)) as (Hk & _ & r & Er).
  destruct (Hed p c Hin) as (Hp & Hc & [(D0 & D1 & B0 & E0)|Hok]); [lia|]. destruct Hok as ((P1 & P2 & P3 & P4 & P5 & P6 & P7 & P8) & P9 & P9e).
  destruct (eword_suffix p c (B nodes c) Hin HB ltac:(lia)) as (Hk0 & L0 & r0 & Er0).
  rewrite Ew, <- app_assoc in Er.
  assert (HAg : agree t (nth (B nodes c) sa 0) (nth (E nodes c') sa 0) (S (D nodes p))).
  { assert (G : forall k q, skipn (nth k sa 0) t = eword (p, c) ++ q -> k < n -> nth k sa 0 + S (D nodes p) <= length t).
    { intros k q Eq Hkn. apply salt in Hkn. apply (f_equal (@length nat)) in Eq. rewrite skipn_length, app_length, L0 in Eq. assert (LT : length t = n) by reflexivity. lia. }
    unfold agree. split; [eapply G; eassumption|]. split; [eapply G; eassumption|]. intros z Hz. rewrite <- !nth_skipn, Er, Er0. rewrite !app_nth1 by lia. reflexivity. }
  apply (outside_agree (B nodes c) (E nodes c) (D nodes p)) in HAg; try lia; auto.
  intros k Hk'. specialize (P7 k Hk'). lia.
Qed.
Lemma edge_before p c p' c' : In (p, c) edges -> B nodes c <> 0 -> In (p', c') edges -> B nodes c' <> 0 -> ord nodes (p, c) (p', c') ->
  before (eword (p, c)) (eword (p', c')).
Proof.
  intros Hin HB Hin' HB' HO. unfold ord in HO. cbn [fst snd] in HO.
  destruct (Hed p c Hin) as (_ & _ & [(_ & _ & B0 & _)|((_ & _ & _ & Q4 & _) & _)]); [lia|].
  destruct (Hed p' c' Hin') as (_ & _ & [(_ & _ & B0' & _)|((_ & _ & _ & Q4' & _) & _)]); [lia|].
  destruct (eword_suffix p c (E nodes c) Hin HB ltac:(lia)) as (Hk & L1 & r1 & E1).
  destruct (eword_suffix p' c' (E nodes c') Hin' HB' ltac:(lia)) as (Hk' & L2 & r2 & E2).
  destruct (before_total (eword (p, c)) (eword (p', c'))) as [Q|[Q|[(x & Hx & Q)|(Q1 & Q2)]]]; [|exact Q| |]; exfalso.
  - pose proof (eword_interval p c p' c' [] Hin HB Hin' HB' ltac:(now rewrite app_nil_r)). rewrite Q in L1. lia.
  - pose proof (eword_interval p c p' c' x Hin HB Hin' HB' Q). apply (f_equal (@length nat)) in Q. rewrite app_length in Q. lia.
  - pose proof (lex_lt_app_ext _ _ r2 r1 Q1 Q2) as LL. rewrite <- E1, <- E2 in LL.
    exact (lex_le_not_lt _ _ (lex_le_rk (E nodes c) (E nodes c') ltac:(lia)) LL).
Qed.
(** the parent of an edge is a branching word *)
Lemma edge_branch p c : In (p, c) edges -> B nodes c <> 0 -> right_maximal s (nth (B nodes c) sa 0) (D nodes p).
Proof.
  intros Hin HB. destruct (Hed p c Hin) as (Hp & Hc & [(D0 & D1 & B0 & E0)|Hok]); [lia|].
  destruct Hok as ((P1 & P2 & P3 & P4 & P5 & P6 & P7 & P8) & P9 & P9e).
  set (b := B nodes c) in *. set (e := E nodes c) in *. set (m := D nodes p) in *.
  right. destruct P9e as [Q|(Q1 & Q)].
  - exists (nth (b - 1) sa 0). destruct (Hl b ltac:(lia)) as (G1 & G2). destruct (attr_lcp2 b ltac:(lia)) as (G3 & G4).
    rewrite Q in *. pose proof (salt b ltac:(lia)). pose proof (salt (b - 1) ltac:(lia)). fold n in G2.
    split; [apply sub_of_agree; auto; lia|]. apply next_differ; [lia|lia|]. apply G2; lia.
  - exists (nth (S e) sa 0). destruct (Hl (S e) ltac:(lia)) as (G1 & G2). destruct (attr_lcp2 (S e) ltac:(lia)) as (G3 & G4).
    rewrite Q in *. pose proof (salt (S e) ltac:(lia)). replace (S e - 1) with e in * by lia. pose proof (salt e ltac:(lia)). fold n in G2.
    pose proof (inside_agree b e (D nodes c) ltac:(lia) ltac:(lia) ltac:(intros k Hk; apply P7; lia) e ltac:(lia)) as IA.
    split.
    + apply sub_of_agree; [lia|auto|]. apply agree_sym. apply (agree_trans t _ (nth e sa 0)); [|exact G1].
      apply (agree_le _ _ _ (D nodes c)); [exact IA|lia].
    + apply next_differ; [lia|lia|]. destruct IA as (_ & _ & IA). rewrite (IA m) by lia. intros X. apply G2; [lia|lia|now symmetry].
Qed.
(** the edge of a word whose longest proper prefix is branching starts right above its last letter *)
Lemma sub_edge_max i l : 1 <= l -> i + l <= length s -> right_maximal s i (l - 1) -> exists p c, In (p, c) edges /\ B nodes c <> 0 /\ D nodes p + 1 = l /\
  same_substring s (nth (B nodes c) sa 0) i l /\
  (covered p c -> exists j a, same_substring s j i l /\ In a A /\ j <= a < j + l).
Proof.
  intros Hl1 Hil HR. assert (Hi : i < n) by lia. pose proof (is_perm_nth n isa i HPi Hi) as Hr.
  assert (Hr0 : 0 < nth i isa 0).
  { destruct (Nat.eq_dec (nth i isa 0) 0) as [E0|]; [|lia]. pose proof (Hi2 i Hi) as Hi2'.
    rewrite E0, attr_sa0 in Hi2'. lia. }
  destruct (Hcov (nth i isa 0) l ltac:(lia)) as (p & c & Hin & HB & HD); [rewrite Hi2 by auto; lia|].
  destruct (Hed p c Hin) as (Hp & Hc & [(D0 & D1 & B0 & E0)|Hok]); [lia|].
  destruct Hok as ((P1 & P2 & P3 & P4 & P5 & P6 & P7 & P8) & P9 & P9e).
  exists p, c. split; [exact Hin|]. split; [lia|].
  set (b := B nodes c) in *. set (e := E nodes c) in *.
  assert (G : forall x, b <= x <= e -> agree t (nth b sa 0) (nth x sa 0) (D nodes c)).
  { intros x Hx. apply (inside_agree b e); auto; lia. }
  split.
  { destruct HR as [HR|(j & HS & HN)]; [lia|]. destruct (Nat.eq_dec (D nodes p + 1) l) as [Y|N]; [exact Y|exfalso].
    assert (Hj : j < n) by (destruct HS; lia). pose proof (is_perm_nth n isa j HPi Hj) as Hrj.
    assert (Hag : agree t (nth b sa 0) (nth (nth j isa 0) sa 0) (S (D nodes p))).
    { rewrite Hi2 by auto. apply (agree_trans t _ i).
      - rewrite <- (Hi2 i Hi). apply (agree_le _ _ _ (D nodes c)); [apply G; lia|lia].
      - apply agree_sym. apply (agree_le _ _ _ (l - 1)); [now apply agree_of_sub|lia]. }
    pose proof (outside_agree b e (D nodes p) ltac:(lia) ltac:(lia) P6 P9
      ltac:(intros k Hk; specialize (P7 k Hk); lia) ltac:(lia) _ Hrj Hag) as Hin'.
    pose proof (G _ Hin') as G1. pose proof (G (nth i isa 0) ltac:(lia)) as G2. rewrite !Hi2 in * by auto.
    destruct G1 as (Z1 & Z2 & Z3). destruct G2 as (Y1 & Y2 & Y3). apply HN. destruct HS as (S1 & S2 & _).
    assert (En' : nth (j + (l - 1)) t 0 = nth (i + (l - 1)) t 0) by (rewrite <- Z3, <- Y3 by lia; reflexivity).
    rewrite !nth_error_t by lia. now rewrite En'. }
  split.
  { apply sub_of_agree; auto; [apply salt; lia|]. rewrite <- (Hi2 i Hi). apply (agree_le _ _ _ (D nodes c)); [apply G; lia|lia]. }
  intros (m & Em & Hm). fold b e in Em.
  destruct (rmq_min d b (e + 1) ltac:(lia)) as (m' & Em' & (k & Hk & Ek) & _). rewrite Em in Em'. injection Em' as <-.
  assert (Hkn : k < n) by lia. specialize (Hd k Hkn). pose proof (salt k Hkn).
  destruct Hd as [(a & Ha & H1 & H2 & _)|(H2 & _)]; [|lia].
  exists (nth k sa 0), a. split; [|split; [exact Ha|lia]].
  apply sub_of_agree; auto. rewrite <- (Hi2 i Hi). apply (agree_le _ _ _ (D nodes c)); [|lia].
  apply (agree_trans t _ (nth b sa 0)); [apply agree_sym|]; apply G; lia.
Qed.
(** the edge between the two roots is covered iff there is some position *)
Lemma root_edge p c : In (p, c) edges -> B nodes c = 0 -> A <> [] -> covered p c.
Proof.
  intros Hin HB Hne. destruct (Hed p c Hin) as (Hp & Hc & [(D0 & D1 & B0 & E0)|Hok]).
  - unfold covered. rewrite B0, E0, D0. destruct (rmq_min d 0 (n - 1 + 1) ltac:(lia)) as (m & -> & _ & Hm).
    exists m. split; [reflexivity|]. destruct A as [|a A']; [easy|]. rewrite Forall_forall in HA.
    assert (Hal : a < n) by (apply HA; now left).
    pose proof (is_perm_nth n isa a HPi Hal) as Hr. specialize (Hm (nth a isa 0) ltac:(lia)).
    specialize (Hd (nth a isa 0) Hr). rewrite Hi2 in Hd by auto.
    destruct Hd as [(a' & _ & H1 & H2 & H3)|(_ & H3)]; [|specialize (H3 a (or_introl eq_refl)); lia].
    specialize (H3 a (or_introl eq_refl) (le_n _)). lia.
  - exfalso. destruct Hok as ((P1 & P2 & P3 & P4 & _) & _). lia.
Qed.

(** the final loop *)
Let body := (fun '((p, c) : nat * nat) (ok : bool) =>
    pn <- get nodes p ;;
    cn <- get nodes c ;;
    let lcplength := nd_depth pn + 1 in
    r <- rmq d (nd_begin cn) (nd_end cn + 1) ;;
    if lcplength <=? r then
      startpos <- get sa (nd_begin cn) ;;
      let endpos := Nat.min (startpos + lcplength) n in
      assert_ (utf8_valid (firstn (endpos - startpos) (skipn startpos t))) ;;;
      Ok false
    else Ok ok).
Lemma edge_rmq p c : In (p, c) edges -> exists m, rmq d (B nodes c) (E nodes c + 1) = Ok m /\ B nodes c < n.
Proof.
  intros Hin. destruct (Hed p c Hin) as (Hp & Hc & [(D0 & D1 & B0 & E0)|Hok]).
  - rewrite B0, E0. destruct (rmq_min d 0 (n - 1 + 1) ltac:(lia)) as (m & -> & _). exists m. split; [auto|lia].
  - destruct Hok as ((P1 & P2 & P3 & P4 & P5 & P6 & P7 & P8) & P9 & P9e).
    destruct (rmq_min d (B nodes c) (E nodes c + 1) ltac:(lia)) as (m & -> & _). exists m. split; [auto|lia].
Qed.

Lemma final_loop ascii : (ascii = true -> forall i l, utf8_valid (firstn l (skipn i t)) = true) ->
  forall es, incl es edges -> forall ok0, ok0 = false \/ ok0 = true ->
  exists r, for_in es body ok0 = r /\
   ((r = Ok true /\ ok0 = true /\ forall p c, In (p, c) es -> covered p c) \/
    ((r = Ok false \/ (r = Panic /\ ascii = false)) /\ (ok0 = false \/ exists p c, In (p, c) es /\ ~ covered p c))).
Proof.
  intros Hasc es. induction es as [|[p c] es IH]; intros Hincl ok0 Hok0; cbn [for_in].
  - exists (Ok ok0). split; [reflexivity|]. destruct Hok0 as [->| ->]; [right; auto|left]. repeat split; auto. intros p c [].
  - assert (Hin : In (p, c) edges) by (apply Hincl; simpl; auto).
    assert (Hincl' : incl es edges) by (intros x Hx; apply Hincl; simpl; auto).
    destruct (edge_rmq p c Hin) as (m & Em & Hb). destruct (Hed p c Hin) as (Hp & Hc & _).
    assert (Eb : body (p, c) ok0 = if D nodes p + 1 <=? m then
       assert_ (utf8_valid (firstn (Nat.min (nth (B nodes c) sa 0 + (D nodes p + 1)) n - nth (B nodes c) sa 0)
          (skipn (nth (B nodes c) sa 0) t))) ;;; Ok false else Ok ok0).
    { unfold body. rewrite (get_ok nodes p nd0 Hp), (get_ok nodes c nd0 Hc). cbn [bind].
      fold (B nodes c) (E nodes c) (D nodes p). rewrite Em. cbn [bind].
      rewrite (get_ok sa _ 0) by lia. reflexivity. }
    rewrite Eb. destruct (Nat.leb_spec (D nodes p + 1) m) as [C|C].
    + assert (Hnc : ~ covered p c) by (intros (m' & Em' & Hm'); rewrite Em in Em'; injection Em' as <-; lia).
      destruct (utf8_valid _) eqn:Eu; cbn [assert_ bind].
      * destruct (IH Hincl' false (or_introl eq_refl)) as (r & Er & [(_ & Ef & _)|(R & _)]); [discriminate|].
        exists r. split; [exact Er|]. right. split; [exact R|]. right. exists p, c. simpl; auto.
      * exists Panic. split; [reflexivity|]. right. split; [|right; exists p, c; simpl; auto].
        right. split; [reflexivity|]. destruct ascii; auto. rewrite Hasc in Eu by auto. discriminate.
    + cbn [bind]. assert (Hc' : covered p c) by (exists m; split; auto; lia).
      destruct (IH Hincl' ok0 Hok0) as (r & Er & [(R & O & Q)|(R & Q)]).
      * exists r. split; [exact Er|]. left. repeat split; auto. intros p' c' [Eq|Hin']; [injection Eq as <- <-; auto|auto].
      * exists r. split; [exact Er|]. right. split; [exact R|]. destruct Q as [Q|(p' & c' & Q1 & Q2)]; [auto|].
        right. exists p', c'. simpl; auto.
Qed.
End Text.

Lemma utf8_ascii l : Forall (fun x => x < 128) l -> utf8_valid l = true.
Proof.
  induction 1 as [|x l Hx Hl IH]; [reflexivity|]. cbn [utf8_valid].
  destruct (Nat.ltb_spec x 128); [exact IH|lia].
Qed.
Lemma Forall_sub {X} (P : X -> Prop) l i k : Forall P l -> Forall P (firstn k (skipn i l)).
Proof.
  intros H. rewrite Forall_forall in *. intros x Hx. apply H.
  rewrite <- (firstn_skipn i l). apply in_or_app. right.
  rewrite <- (firstn_skipn k (skipn i l)). apply in_or_app. now left.
Qed.

Lemma is_attractor_run sort s A : (forall t, is_suffix_array t (sort t)) -> s <> [] ->
  Forall (fun x => x <> 0) s -> Forall (fun a => a <= length s) A ->
  exists r, is_attractor sort (s ++ [0]) A = r /\ (
  (r = Ok true /\ string_attractor s A) \/
  (~ string_attractor s A /\
   (r = Ok false \/
    (r = Panic /\ ~ Forall (fun x => x < 128) s)))).
Proof.
  intros Hsort Hne HF HA. unfold is_attractor. set (t := s ++ [0]).
  assert (En : length t = S (length s)) by (unfold t; rewrite app_length; simpl; lia).
  assert (Htne : t <> []) by (intros E0; rewrite E0 in En; discriminate).
  destruct (Nat.ltb_spec 0 (length t)); [|lia]. cbn [assert_ bind].
  unfold last_. unfold t at 1. rewrite rev_app_distr. cbn [rev app bind Nat.eqb assert_].
  assert (Hass : for_in A (fun a (_ : unit) => assert_ (a <? length t)) tt = Ok tt).
  { clear -HA En. induction HA as [|a A Ha HA IH]; cbn [for_in]; auto.
    destruct (Nat.ltb_spec a (length t)); [|lia]. exact IH. }
  rewrite Hass. cbn [bind]. specialize (Hsort t). set (sa := sort t) in *. clearbody sa.
  destruct (lcp_structures' t sa Htne Hsort) as (isa & phi & plcp & lcp & E1 & E2 & E3 & E4 & HPi & HPp & Lp & Ll & Hi1 & Hi2 & Hp1 & Hp0 & Hplcp & Hl & Hl0).
  rewrite E2. cbn [bind]. rewrite E3. cbn [bind]. rewrite E4. cbn [bind].
  pose proof Hsort as (HP & _). pose proof (is_perm_length _ _ HP) as Lsa.
  destruct (lcp_intervals_ok t sa lcp (length t)) as ((nodes & edges) & -> & Hed & _ & Hcov); auto.
  { intros k Hk. now apply is_perm_nth. }
  { exact (attr_sa0 s sa lcp HF Hsort Ll). }
  { intros k Hk. apply (attr_lcp1 s sa lcp HF Hsort Ll); auto. }
  { intros k Hk. apply (attr_lcp2 s sa lcp HF Hsort Ll); auto. }
  cbn [bind].
  assert (HA' : Forall (fun a => a < length t) A) by (eapply Forall_impl; [|exact HA]; cbv beta; lia).
  destruct (set_bits (length t) A HA' (repeat false (length t)) (repeat_length _ _)) as (bits & -> & Lb & Hb).
  cbn [bind].
  destruct (dists_ok (length t) sa A bits Lsa) as (d & -> & Ld & Hd); auto.
  { intros k Hk. now apply is_perm_nth. }
  { intros x. rewrite Hb. split; [intros [|E0]; auto|auto]. exfalso.
    destruct (Nat.lt_ge_cases x (length t)) as [Hx|Hx].
    - rewrite nth_repeat in E0. discriminate.
    - rewrite nth_overflow in E0 by now rewrite repeat_length. discriminate. }
  cbn [bind].
  pose proof (attr_edges s sa isa lcp HF Hsort HPi Hi1 Hi2 Ll Hl A nodes edges d Hne HA' Hed Hcov Ld Hd) as AE.
  pose proof (edges_attr s sa isa lcp HF Hsort HPi Hi2 Ll Hl A nodes edges d Hed Hcov Ld Hd) as EA.
  assert (Hasc : exists asc, (asc = true -> forall i l, utf8_valid (firstn l (skipn i t)) = true) /\
     (asc = false -> ~ Forall (fun x => x < 128) s)).
  { destruct (Forall_dec (fun x => x < 128) (fun x => lt_dec x 128) s) as [Y|N].
    - exists true. split; [|discriminate]. intros _ i l. apply utf8_ascii, Forall_sub, Forall_app.
      split; [exact Y|]. repeat constructor.
    - exists false. split; [discriminate|auto]. }
  destruct Hasc as (asc & Ha1 & Ha2).
  destruct (final_loop s sa lcp Hsort Ll nodes edges d Hed Ld asc Ha1 edges (incl_refl _) true (or_intror eq_refl)) as
    (r & Er & [(R & _ & Q)|(R & [Q|(p & c & Q1 & Q2)])]); [|discriminate|].
  - exists r. split; [exact Er|]. left. split; [exact R|apply EA; exact Q].
  - exists r. split; [exact Er|]. right. split; [intros Hat; apply Q2; now apply AE|].
    destruct R as [R|(R & Ra)]; [left; exact R|right; split; [exact R|exact (Ha2 Ra)]].
Qed.

Theorem is_attractor_correct sort s A : (forall t, is_suffix_array t (sort t)) -> s <> [] ->
  Forall (fun x => x <> 0) s -> Forall (fun a => a <= length s) A ->
  (is_attractor sort (s ++ [0]) A = Ok true /\ string_attractor s A) \/
  (~ string_attractor s A /\
   (is_attractor sort (s ++ [0]) A = Ok false \/
    (is_attractor sort (s ++ [0]) A = Panic /\ ~ Forall (fun x => x < 128) s))).
Proof.
  intros Hsort Hne HF HA.
  destruct (is_attractor_run sort s A Hsort Hne HF HA) as (r & -> & H). exact H.
Qed.
