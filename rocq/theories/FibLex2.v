(** FibLex2.v : the lexparse of the Fibonacci words of odd index. *)
From Verif Require Import Base SpecStr SpecBwt SpecLz SpecAttr SpecWord SpecLex LexFacts ModelCore ModelLz PermFacts SortFacts BorderProof BwtFacts BwtProof
  MusProof LexProof FibFacts FibBwt FibBwt2 FibLz FibLex FibRuns.

(** ** a factor from its witnesses *)
Lemma pred_exists t i : (exists j, j < length t /\ lex_lt (skipn j t) (skipn i t)) -> exists j, is_lex_pred t j i.
Proof.
  intros (j & Hj & Hlt).
  assert (G : forall b, b <= length t -> (exists j, j < b /\ lex_lt (skipn j t) (skipn i t)) ->
    exists j, j < b /\ lex_lt (skipn j t) (skipn i t) /\ forall k, k < b -> lex_lt (skipn k t) (skipn i t) -> lex_le (skipn k t) (skipn j t)).
  { induction b as [|b IH]; intros Hb (q & Hq & Hql); [lia|].
    destruct (slice_cmp (skipn b t) (skipn i t)) eqn:EC.
    1,3: assert (N : ~ lex_lt (skipn b t) (skipn i t)) by (intros H; apply slice_cmp_lt in H; congruence);
      destruct IH as (p & Hp & Hpl & Hpm); [lia|exists q; split; [|exact Hql]; destruct (Nat.eq_dec q b); [subst; easy|lia]|];
      exists p; split; [lia|]; split; [exact Hpl|]; intros k Hk Hkl; destruct (Nat.eq_dec k b); [subst; easy|apply Hpm; [lia|exact Hkl]].
    apply slice_cmp_lt in EC. destruct (Nat.eq_dec q b) as [->|Nq].
    - destruct (existsb (fun k => match slice_cmp (skipn k t) (skipn i t) with Lt => true | _ => false end) (seq 0 b)) eqn:EX.
      + apply existsb_exists in EX. destruct EX as (k & Hk & Ek). apply in_seq in Hk.
        destruct (slice_cmp (skipn k t) (skipn i t)) eqn:Ek'; try discriminate. apply slice_cmp_lt in Ek'.
        destruct IH as (p & Hp & Hpl & Hpm); [lia|exists k; split; [lia|exact Ek']|].
        destruct (lex_le_total (skipn b t) (skipn p t)) as [C|C].
        * exists p. split; [lia|]. split; [exact Hpl|]. intros z Hz Hzl. destruct (Nat.eq_dec z b); [now subst|]. apply Hpm; [lia|exact Hzl].
        * exists b. split; [lia|]. split; [exact EC|]. intros z Hz Hzl. destruct (Nat.eq_dec z b); [subst; apply lex_le_refl|].
          eapply lex_le_trans; [|exact C]. apply Hpm; [lia|exact Hzl].
      + exists b. split; [lia|]. split; [exact EC|]. intros z Hz Hzl. destruct (Nat.eq_dec z b); [subst; apply lex_le_refl|]. exfalso.
        assert (T : existsb (fun k => match slice_cmp (skipn k t) (skipn i t) with Lt => true | _ => false end) (seq 0 b) = true).
        { apply existsb_exists. exists z. split; [apply in_seq; lia|]. apply slice_cmp_lt in Hzl. now rewrite Hzl. }
        congruence.
    - destruct IH as (p & Hp & Hpl & Hpm); [lia|exists q; split; [lia|exact Hql]|].
      destruct (lex_le_total (skipn b t) (skipn p t)) as [C|C].
      + exists p. split; [lia|]. split; [exact Hpl|]. intros z Hz Hzl. destruct (Nat.eq_dec z b); [now subst|]. apply Hpm; [lia|exact Hzl].
      + exists b. split; [lia|]. split; [exact EC|]. intros z Hz Hzl. destruct (Nat.eq_dec z b); [subst; apply lex_le_refl|].
        eapply lex_le_trans; [|exact C]. apply Hpm; [lia|exact Hzl]. }
  destruct (G (length t) (le_n _)) as (p & A); [exists j; auto|]. exists p. exact A.
Qed.
Lemma same_firstn t j i l : same_substring t j i l <-> j + l <= length t /\ i + l <= length t /\ firstn l (skipn j t) = firstn l (skipn i t).
Proof.
  split; intros (A & B & C); (split; [exact A|]; split; [exact B|]).
  - apply nth_ext with (d := 0) (d' := 0); [rewrite !firstn_length, !skipn_length; lia|]. intros x Hx. rewrite firstn_length, skipn_length in Hx.
    rewrite !nth_firstn by lia. rewrite !nth_skipn'. apply C. lia.
  - intros x Hx. apply (f_equal (fun u => nth x u 0)) in C. rewrite !nth_firstn in C by lia. now rewrite !nth_skipn' in C.
Qed.
Lemma lexfac t i q l : 1 <= l -> q < length t -> lex_lt (skipn q t) (skipn i t) -> same_substring t q i l ->
  (forall j, j < length t -> lex_lt (skipn j t) (skipn i t) -> ~ same_substring t j i (S l)) -> exists p, is_lex_factor t i (LZ p l).
Proof.
  intros Hl Hq Hqi HS HU. destruct (pred_exists t i) as (p & Hp); [exists q; auto|]. exists p. right. cbn [lz_len lz_pos]. split; [lia|]. split; [exact Hp|].
  destruct Hp as (P1 & P2 & P3). apply same_firstn in HS. destruct HS as (S1 & S2 & S3).
  pose proof (sandwich l _ _ _ (P3 q Hq Hqi) P2 S3) as E. rewrite S3 in E.
  assert (PL : p + l <= length t).
  { apply (f_equal (@length nat)) in E. rewrite !firstn_length, !skipn_length in E. lia. }
  split; [exact E|]. rewrite !skipn_length. split; [lia|]. split; [lia|]. intros H1 H2 H3. apply (HU p P1 P2). split; [lia|]. split; [lia|].
  assert (SS : same_substring t p i l) by (apply same_firstn; repeat split; auto; lia). destruct SS as (_ & _ & SS).
  intros x Hx. destruct (Nat.eq_dec x l) as [->|]; [now rewrite !nth_skipn' in H3|apply SS; lia].
Qed.
Lemma lexlit t i : i < length t -> (forall j, j < length t -> lex_lt (skipn j t) (skipn i t) -> nth j t 0 <> nth i t 0) -> exists p, is_lex_factor t i (LZ p 0).
Proof.
  intros Hi H. exists (nth i t 0). left. cbn [lz_len lz_pos]. split; [reflexivity|]. split; [reflexivity|]. intros j (J1 & J2 & _).
  split; [reflexivity|]. split; [lia|]. split; [lia|]. intros _ _. rewrite !nth_skipn', !Nat.add_0_r. now apply H.
Qed.

(** ** two suffixes that part: the common prefix is a suffix of the palindrome *)
Section Part.
  Context (P : str) (x y s : nat).
  Let w := P ++ [x; y].
  Let n := length w.
  Context (Hxy : x < y) (Hs : 0 < s < n) (Hrot : rot s w = P ++ [y; x]) (Hg : Nat.gcd n s = 1).
  Let p := swap_p P x y s.
  Lemma part_index q : q < n -> exists j, j < n /\ q = p j.
  Proof.
    intros Hq. pose proof (swap_perm P x y s Hxy Hs Hrot Hg) as HP. destruct (is_perm_surj _ _ q HP Hq) as (j & Hj & Ej).
    exists j. split; [exact Hj|]. rewrite <- Ej. exact (swap_I_nth P x y s Hxy Hs Hg j Hj).
  Qed.
  Lemma part_rot q i d : q < n -> i < n -> d < n -> (forall z, z < d -> nth z (rot q w) 0 = nth z (rot i w) 0) ->
    nth d (rot q w) 0 < nth d (rot i w) 0 -> d + 2 <= n /\ forall z, z < d -> nth z (rot i w) 0 = nth (n - 2 - d + z) w 0.
  Proof.
    intros Hq Hi Hd HE HL.
    assert (HL' : forall j e, j + S e < n -> lex_lt (rot (p j) w) (rot (p (j + S e)) w)) by exact (swap_lt P x y s Hxy Hs Hrot Hg).
    assert (LR : forall r, length (rot r w) = n) by (intros r; apply rot_length).
    destruct (part_index q Hq) as (a & Ha & ->). destruct (part_index i Hi) as (b & Hb & ->).
    assert (QI : lex_lt (rot (p a) w) (rot (p b) w)) by (apply (lex_lt_mismatch _ _ d); rewrite ?LR; auto).
    assert (AB : a < b).
    { destruct (Nat.lt_trichotomy a b) as [C|[->|C]]; [exact C|exfalso; exact (lex_lt_irrefl _ QI)|]. exfalso. apply (lex_lt_asym _ _ QI).
      replace a with (b + S (a - b - 1)) by lia. apply HL'. lia. }
    assert (EF : firstn d (rot (p a) w) = firstn d (rot (p b) w)).
    { apply nth_ext with (d := 0) (d' := 0); [rewrite !firstn_length, !LR; lia|]. intros z Hz. rewrite firstn_length in Hz. rewrite !nth_firstn by lia. apply HE. lia. }
    assert (MID : forall j, a <= j <= b -> firstn d (rot (p j) w) = firstn d (rot (p a) w)).
    { intros j Hj. destruct (Nat.eq_dec j b) as [->|]; [now symmetry|]. apply sandwich with (z := rot (p b) w); [| |exact EF].
      - destruct (Nat.eq_dec j a) as [->|]; [apply lex_le_refl|]. right. replace j with (a + S (j - a - 1)) by lia. apply HL'. lia.
      - replace b with (j + S (b - j - 1)) by lia. apply HL'. lia. }
    assert (SW : exists j, a <= j < b /\ nth d (rot (p j) w) 0 <> nth d (rot (p (S j)) w) 0).
    { assert (G : forall e, a + e <= b -> nth d (rot (p (a + e)) w) 0 <> nth d (rot (p a) w) 0 -> exists j, a <= j < b /\ nth d (rot (p j) w) 0 <> nth d (rot (p (S j)) w) 0).
      { induction e as [|e IH]; intros He N; [rewrite Nat.add_0_r in N; easy|].
        destruct (Nat.eq_dec (nth d (rot (p (a + e)) w) 0) (nth d (rot (p a) w) 0)) as [E|E]; [|apply IH; [lia|exact E]].
        exists (a + e). split; [lia|]. rewrite E. replace (S (a + e)) with (a + S e) by lia. auto. }
      apply (G (b - a)); [lia|]. replace (a + (b - a)) with b by lia. lia. }
    destruct SW as (j & Hj & ND).
    assert (E2 : rot (p (S j)) w = rot (p j) (P ++ [y; x])) by exact (swap_rot_S P x y s Hxy Hs Hrot Hg j).
    assert (NE : p j <> n - 1) by (apply (swap_ne P x y s Hxy Hs Hg); fold w; fold n; lia).
    assert (PL : p j < n) by exact (swap_p_lt P x y s Hxy Hs Hg j).
    assert (NP : n = length P + 2) by (unfold n, w; rewrite app_length; reflexivity).
    assert (NP' : length (P ++ [y; x]) = n) by (rewrite app_length; cbn [length]; lia).
    assert (DIFF : forall z, z < n -> z <> n - 2 -> z <> n - 1 -> nth z (P ++ [y; x]) 0 = nth z w 0) by (intros z Hz N1 N2; unfold w; rewrite !app_nth1 by lia; reflexivity).
    assert (NX : nth (n - 2) w 0 <> nth (n - 2) (P ++ [y; x]) 0).
    { unfold w. rewrite !app_nth2 by lia. replace (n - 2 - length P) with 0 by lia. cbn. lia. }
    set (r := n - 2 - p j) in *.
    assert (R : nth r (rot (p j) w) 0 <> nth r (rot (p (S j)) w) 0).
    { rewrite E2. rewrite !nth_rot by (rewrite ?NP'; fold n; lia). rewrite NP'. fold n. unfold r. destruct (Nat.ltb_spec (p j + (n - 2 - p j)) n); [|lia].
      replace (p j + (n - 2 - p j)) with (n - 2) by lia. exact NX. }
    assert (RD : d <= r).
    { destruct (Nat.le_gt_cases d r) as [C|C]; [exact C|]. exfalso. apply R. pose proof (MID j ltac:(lia)) as M1. rewrite <- (MID (S j) ltac:(lia)) in M1.
      apply (f_equal (fun u => nth r u 0)) in M1. now rewrite !nth_firstn in M1 by lia. }
    assert (RE : r = d).
    { destruct (Nat.eq_dec r d) as [C|C]; [exact C|]. exfalso. apply ND. rewrite E2. rewrite !nth_rot by (rewrite ?NP'; fold n; lia). rewrite NP'. fold n.
      unfold r in *. destruct (Nat.ltb_spec (p j + d) n); [|lia]. symmetry. apply DIFF; lia. }
    unfold r in *. split; [lia|]. intros z Hz.
    pose proof (MID j ltac:(lia)) as M1. rewrite <- (MID b ltac:(lia)) in M1. apply (f_equal (fun u => nth z u 0)) in M1. rewrite !nth_firstn in M1 by lia. rewrite <- M1.
    rewrite nth_rot by (fold n; lia). fold n. destruct (Nat.ltb_spec (p j + z) n); [|lia]. f_equal. lia.
  Qed.
  (** the same for suffixes *)
  Lemma part_suf q i d : q + d < n -> i + d < n -> same_substring w q i d -> nth (q + d) w 0 < nth (i + d) w 0 ->
    d + 2 <= n /\ same_substring w (n - 2 - d) i d.
  Proof.
    intros Hq Hi (S1 & S2 & HS) HL.
    assert (NR : forall r z, r + z < n -> nth z (rot r w) 0 = nth (r + z) w 0).
    { intros r z Hz. rewrite nth_rot by (fold n; lia). fold n. destruct (Nat.ltb_spec (r + z) n); [reflexivity|lia]. }
    destruct (part_rot q i d) as (A & B); try lia.
    - intros z Hz. rewrite !NR by lia. now apply HS.
    - rewrite !NR by lia. exact HL.
    - split; [exact A|]. split; [fold n; lia|]. split; [fold n; lia|]. intros z Hz. rewrite <- B by exact Hz. now rewrite NR by lia.
  Qed.
End Part.

Lemma pre_lt (t : str) q i : i < q -> q <= length t -> same_substring t q i (length t - q) -> lex_lt (skipn q t) (skipn i t).
Proof.
  intros H1 H2 (_ & _ & H). apply lex_lt_idx. exists (length t - q). split; [rewrite skipn_length; lia|]. split; [rewrite skipn_length; lia|]. split.
  - intros x Hx. rewrite !nth_skipn'. now apply H.
  - left. now rewrite skipn_length.
Qed.
(** the prefix of length f (M+3) - 1 of F (M+4) occurs only at its beginning *)
Lemma prefix_unique M e L : f (M + 3) - 1 <= L -> same_substring (F (M + 4)) e 0 L -> e = 0.
Proof.
  intros HL HS. pose proof (singular_unique M) as U. replace (S (S (S (S M)))) with (M + 4) in U by lia. replace (S (S M)) with (M + 2) in U by lia. replace (S M) with (M + 1) in U by lia.
  pose proof (f_SS (M + 1)) as E3. replace (S (S (M + 1))) with (M + 3) in E3 by lia. replace (S (M + 1)) with (M + 2) in E3 by lia.
  pose proof (f_pos (M + 2)). pose proof (f_pos (M + 1)).
  assert (LB : L <= f (M + 4)) by (destruct HS as (_ & A & _); unfold f; lia).
  assert (U' : unique_substring (F (M + 4)) 0 L).
  { apply (unique_mono _ 0 L (f (M + 2) - 1) (f (M + 1))); [lia|lia|unfold f in *; lia|exact U]. }
  now apply U'.
Qed.
Definition lexlens (t : str) (i : nat) (ls : list nat) : Prop := exists fs, is_lexparse t i fs /\ map lz_len fs = ls.
Lemma lexlens_cons t i l ls : i < length t -> (exists p, is_lex_factor t i (LZ p l)) -> lexlens t (i + Nat.max 1 l) ls -> lexlens t i (l :: ls).
Proof. intros Hi (p & Hp) (fs & H & E). exists (LZ p l :: fs). split; [cbn [is_lexparse lz_len]; auto|cbn [map lz_len]; now f_equal]. Qed.

Section OddLex.
  Context (m : nat).
  Let w := F (2 * m + 5).
  Let n := f (2 * m + 5).
  Let lw : length w = n := eq_refl.
  Lemma ol_swap : exists P, w = P ++ [97; 98] /\ F (2 * m + 3) ++ F (2 * m + 4) = P ++ [98; 97] /\ rot (f (2 * m + 4)) w = P ++ [98; 97].
  Proof.
    destruct (near_commute_parity (m + 1)) as (_ & P & E1 & E2). replace (S (S (2 * (m + 1)))) with (2 * m + 4) in * by lia. replace (S (2 * (m + 1))) with (2 * m + 3) in * by lia.
    exists P. unfold w. replace (2 * m + 5) with (S (S (2 * m + 3))) by lia. rewrite F_SS. replace (S (2 * m + 3)) with (2 * m + 4) by lia. split; [exact E1|]. split; [exact E2|].
    unfold f. rewrite rot_app. exact E2.
  Qed.
  Lemma ol_n : n = f (2 * m + 4) + f (2 * m + 3).
  Proof. unfold n. replace (2 * m + 5) with (S (S (2 * m + 3))) by lia. rewrite f_SS. f_equal. f_equal. lia. Qed.
  Lemma ol_end : exists Q, w = Q ++ [98; 97; 97; 98] /\ length Q + 4 = n.
  Proof.
    destruct (F_odd_end (m + 1)) as (Q & E). replace (2 * (m + 1) + 3) with (2 * m + 5) in E by lia. exists Q. split; [exact E|]. rewrite <- lw. unfold w. rewrite E, app_length. reflexivity.
  Qed.
  Lemma ol_part q i d : q + d < n -> i + d < n -> same_substring w q i d -> nth (q + d) w 0 < nth (i + d) w 0 -> d + 2 <= n /\ same_substring w (n - 2 - d) i d.
  Proof.
    intros Hq Hi HS HL. destruct ol_swap as (P & EP & _ & ER). pose proof (f_pos (2 * m + 3)) as F3. pose proof (f_pos (2 * m + 4)) as F4. pose proof ol_n as EN.
    assert (LP : length (P ++ [97; 98]) = n) by (now rewrite <- EP).
    assert (HG : Nat.gcd n (f (2 * m + 4)) = 1) by (unfold n; replace (2 * m + 5) with (S (2 * m + 4)) by lia; apply f_coprime).
    assert (H2 : 0 < f (2 * m + 4) < n) by lia.
    pose proof (part_suf P 97 98 (f (2 * m + 4)) ltac:(lia)) as T. rewrite LP in T. rewrite <- EP in T. exact (T H2 ER HG q i d Hq Hi HS HL).
  Qed.
  Lemma ol_letter z : z < n -> nth z w 0 = 97 \/ nth z w 0 = 98.
  Proof. apply F_letter. Qed.
  Lemma ol_last : nth (n - 2) w 0 = 97 /\ nth (n - 1) w 0 = 98.
  Proof.
    destruct ol_end as (Q & EQ & LQ). rewrite EQ. rewrite !app_nth2 by lia. replace (n - 2 - length Q) with 2 by lia. replace (n - 1 - length Q) with 3 by lia. split; reflexivity.
  Qed.
  (** the suffixes smaller than suffix i that share L letters with it *)
  Lemma ol_cases i j L : i < n -> j < n -> 1 <= L -> lex_lt (skipn j w) (skipn i w) -> same_substring w j i L ->
    (i < j /\ L <= n - j /\ same_substring w j i (n - j)) \/
    (exists d, L <= d /\ i + d + 2 < n /\ same_substring w (n - 2 - d) i d) \/
    (exists d, L <= d /\ i + d < n /\ forall z, z < d -> nth (i + z) w 0 = 97).
  Proof.
    intros Hi Hj HL Hlt (S1 & S2 & S3). destruct (lex_lt_cases _ _ Hlt) as [(u & Nu & Eu)|(d & D1 & D2 & D3 & D4)].
    - left. assert (LE : n - i = n - j + length u) by (apply (f_equal (@length nat)) in Eu; rewrite app_length, !skipn_length, lw in Eu; lia).
      assert (0 < length u) by (destruct u; [easy|cbn; lia]). split; [lia|]. rewrite lw in *. split; [lia|]. split; [lia|]. split; [lia|].
      intros z Hz. rewrite <- !nth_skipn'. rewrite Eu. rewrite app_nth1; [reflexivity|rewrite skipn_length; lia].
    - right. rewrite skipn_length, lw in D1, D2. rewrite !nth_skipn' in D4. rewrite lw in *.
      assert (DL : L <= d). { destruct (Nat.le_gt_cases L d) as [C|C]; [exact C|]. specialize (S3 d C). lia. }
      destruct (ol_part j i d) as (B1 & B2 & B3 & B4); [lia|lia| |exact D4|].
      { split; [lia|]. split; [lia|]. intros z Hz. rewrite <- !nth_skipn'. now apply D3. }
      destruct ol_last as (La & Lb). destruct (Nat.lt_trichotomy (i + d + 2) n) as [C|[C|C]].
      + left. exists d. split; [lia|]. split; [lia|]. split; [lia|]. split; [lia|]. exact B4.
      + exfalso. replace (i + d) with (n - 2) in D4 by lia. rewrite La in D4. destruct (ol_letter (j + d)); lia.
      + right. exists d. split; [lia|]. split; [lia|]. assert (Ed : i + d = n - 1) by lia.
        assert (G : forall e, e < d -> nth (i + (d - 1 - e)) w 0 = 97).
        { induction e as [|e IH]; intros He; [replace (i + (d - 1 - 0)) with (n - 2) by lia; exact La|]. rewrite <- IH by lia.
          specialize (B4 (d - 1 - e) ltac:(lia)). rewrite <- B4. f_equal. lia. }
        intros z Hz. specialize (G (d - 1 - z) ltac:(lia)). now replace (d - 1 - (d - 1 - z)) with z in G by lia.
  Qed.
  Lemma ol_f4 : f (2 * m + 4) = f (2 * m + 3) + f (2 * m + 2).
  Proof. replace (2 * m + 4) with (S (S (2 * m + 2))) by lia. rewrite f_SS. f_equal. f_equal. lia. Qed.
  Lemma ol_f3 : f (2 * m + 3) = f (2 * m + 2) + f (2 * m + 1).
  Proof. replace (2 * m + 3) with (S (S (2 * m + 1))) by lia. rewrite f_SS. f_equal. f_equal. lia. Qed.
  Lemma ol_f2 : 3 <= f (2 * m + 2).
  Proof. replace (2 * m + 2) with (S (S (2 * m))) by lia. rewrite f_SS. pose proof (f_S (2 * m)). pose proof (f_pos (2 * m)). lia. Qed.
  Lemma ol_f1 : 2 <= f (2 * m + 1).
  Proof. replace (2 * m + 1) with (S (2 * m)) by lia. apply f_S. Qed.
  Lemma ol_mid : nth (f (2 * m + 4) - 2) w 0 = 98 /\ nth (f (2 * m + 4) - 1) w 0 = 97.
  Proof.
    destruct (near_commute_parity (m + 1)) as ((P & E1 & _) & _). rewrite <- F_SS in E1. replace (S (S (2 * (m + 1)))) with (2 * m + 4) in E1 by lia.
    assert (EL : f (2 * m + 4) = length P + 2) by (unfold f; rewrite E1, app_length; reflexivity).
    unfold w. replace (2 * m + 5) with (S (2 * m + 4)) by lia. rewrite !F_prefix by lia. rewrite E1, !app_nth2 by lia.
    replace (f (2 * m + 4) - 2 - length P) with 0 by lia. replace (f (2 * m + 4) - 1 - length P) with 1 by lia. split; reflexivity.
  Qed.
  (** position 0 *)
  Lemma ol_first : exists p, is_lex_factor w 0 (LZ p (f (2 * m + 4) - 2)).
  Proof.
    pose proof ol_n as N. pose proof ol_f4 as F4. pose proof ol_f3 as F3. pose proof ol_f2 as F2. pose proof ol_f1 as F1.
    assert (HS : same_substring w (f (2 * m + 3)) 0 (f (2 * m + 4) - 2)).
    { pose proof (same_shift (2 * m + 3) 0 (f (2 * m + 4) - 2)) as T. replace (S (S (2 * m + 3))) with (2 * m + 5) in T by lia. apply T. fold n. lia. }
    apply (lexfac w 0 (f (2 * m + 3))); [lia|rewrite lw; lia| |exact HS|].
    - cbn [skipn]. apply (lex_lt_mismatch _ _ (f (2 * m + 4) - 2)); rewrite ?skipn_length, ?lw; [lia|lia| |].
      + intros x Hx. rewrite nth_skipn'. now apply HS.
      + rewrite nth_skipn'. destruct ol_last as (La & _). destruct ol_mid as (Lb & _). rewrite Lb. replace (f (2 * m + 3) + (f (2 * m + 4) - 2)) with (n - 2) by lia. rewrite La. lia.
    - intros j Hj Hlt H. pose proof (prefix_unique (2 * m + 1) j (S (f (2 * m + 4) - 2))) as T. replace (2 * m + 1 + 4) with (2 * m + 5) in T by lia. replace (2 * m + 1 + 3) with (2 * m + 4) in T by lia.
      specialize (T ltac:(lia) H). subst j. exact (lex_lt_irrefl _ Hlt).
  Qed.
  Lemma ol_tail z : nth (f (2 * m + 4) + z) w 0 = nth z (F (2 * m + 3)) 0.
  Proof. unfold w. replace (2 * m + 5) with (S (S (2 * m + 3))) by lia. replace (2 * m + 4) with (S (2 * m + 3)) by lia. apply F_tail. Qed.
  (** position f (k-1) - 2 *)
  Lemma ol_second : 1 <= m -> exists p, is_lex_factor w (f (2 * m + 4) - 2) (LZ p (f (2 * m + 1) + 2)).
  Proof.
    intros Hm. pose proof (prefix_unique (2 * m - 2)) as PU2. pose proof (prefix_unique (2 * m - 1)) as PU1. replace (2 * m - 2 + 4) with (2 * m + 2) in PU2 by lia. replace (2 * m - 2 + 3) with (2 * m + 1) in PU2 by lia. replace (2 * m - 1 + 4) with (2 * m + 3) in PU1 by lia. replace (2 * m - 1 + 3) with (2 * m + 2) in PU1 by lia. pose proof ol_n as N. pose proof ol_f4 as F4. pose proof ol_f3 as F3. pose proof ol_f2 as F2. pose proof ol_f1 as F1. destruct ol_mid as (Mb & Ma).
    assert (F12 : f (2 * m + 1) <= f (2 * m + 2)) by (replace (2 * m + 2) with (S (2 * m + 1)) by lia; apply f_mono).
    set (i := f (2 * m + 4) - 2) in *. replace (f (2 * m + 4) - 1) with (i + 1) in Ma by (unfold i; lia). assert (Ii : i + 2 = f (2 * m + 4)) by (unfold i; lia). clearbody i.
    assert (E2 : forall z, z < f (2 * m + 2) -> nth z (F (2 * m + 3)) 0 = nth z (F (2 * m + 2)) 0) by (intros z Hz; replace (2 * m + 3) with (S (2 * m + 2)) by lia; now apply F_prefix).
    assert (E1 : forall z, z < f (2 * m + 1) -> nth z (F (2 * m + 2)) 0 = nth z (F (2 * m + 1)) 0) by (intros z Hz; replace (2 * m + 2) with (S (2 * m + 1)) by lia; now apply F_prefix).
    assert (ET : forall z, nth (f (2 * m + 2) + z) (F (2 * m + 3)) 0 = nth z (F (2 * m + 1)) 0).
    { intros z. replace (2 * m + 3) with (S (S (2 * m + 1))) by lia. replace (2 * m + 2) with (S (2 * m + 1)) by lia. apply F_tail. }
    destruct (near_commute_parity m) as ((P & EP & _) & _). rewrite <- F_SS in EP. replace (S (S (2 * m))) with (2 * m + 2) in EP by lia.
    assert (LP : f (2 * m + 2) = length P + 2) by (unfold f; rewrite EP, app_length; reflexivity).
    assert (B2 : nth (f (2 * m + 2) - 2) (F (2 * m + 2)) 0 = 98 /\ nth (f (2 * m + 2) - 1) (F (2 * m + 2)) 0 = 97).
    { rewrite EP, !app_nth2 by lia. replace (f (2 * m + 2) - 2 - length P) with 0 by lia. replace (f (2 * m + 2) - 1 - length P) with 1 by lia. split; reflexivity. }
    assert (B1 : nth (f (2 * m + 1) - 2) (F (2 * m + 1)) 0 = 97).
    { destruct (near_commute_parity (m - 1)) as (_ & P' & EP' & _). rewrite <- F_SS in EP'. replace (S (S (S (2 * (m - 1))))) with (2 * m + 1) in EP' by lia.
      assert (LP' : f (2 * m + 1) = length P' + 2) by (unfold f; rewrite EP', app_length; reflexivity).
      rewrite EP', app_nth2 by lia. replace (f (2 * m + 1) - 2 - length P') with 0 by lia. reflexivity. }
    set (q := n - f (2 * m + 1) - 2). assert (Iq : q + f (2 * m + 1) + 2 = n) by (unfold q; lia). clearbody q.
    assert (HS : same_substring w q i (f (2 * m + 1) + 2)).
    { split; [rewrite lw; lia|]. split; [rewrite lw; lia|]. intros z Hz. destruct (Nat.le_gt_cases 2 z) as [C|C].
      - replace (q + z) with (f (2 * m + 4) + (f (2 * m + 2) + (z - 2))) by (lia). replace (i + z) with (f (2 * m + 4) + (z - 2)) by (lia).
        rewrite !ol_tail, ET, E2, E1 by lia. reflexivity.
      - replace (q + z) with (f (2 * m + 4) + (f (2 * m + 2) - 2 + z)) by (lia). rewrite ol_tail, E2 by lia.
        assert (z = 0 \/ z = 1) as [-> | ->] by lia; [rewrite !Nat.add_0_r, Mb; apply B2|rewrite Ma]. replace (f (2 * m + 2) - 2 + 1) with (f (2 * m + 2) - 1) by lia. apply B2. }
    apply (lexfac w i q); [lia|rewrite lw; lia| |exact HS|].
    - apply pre_lt; [lia|rewrite lw; lia|]. rewrite lw. replace (n - q) with (f (2 * m + 1) + 2) by (lia). exact HS.
    - intros j Hj Hlt H. rewrite lw in Hj. destruct (ol_cases i j (S (f (2 * m + 1) + 2)) ltac:(lia) Hj ltac:(lia) Hlt H) as [(A1 & A2 & A3)|[(d & D1 & D2 & D3)|(d & D1 & D2 & D3)]].
      + destruct A3 as (_ & _ & A3). assert (NJ : j <> i + 1) by (intros ->; specialize (A3 0 ltac:(lia)); rewrite !Nat.add_0_r in A3; lia).
        set (c := n - j - 2) in *. assert (Ic : c + j + 2 = n) by (unfold c; lia). clearbody c. assert (JJ : j + 2 = f (2 * m + 4) + (f (2 * m + 3) - c)) by (lia).
        assert (HB : same_substring (F (2 * m + 3)) 0 (f (2 * m + 3) - c) c).
        { split; [fold (f (2 * m + 3)); lia|]. split; [fold (f (2 * m + 3)); lia|]. intros z Hz. rewrite <- !ol_tail. specialize (A3 (2 + z) ltac:(lia)).
          replace (f (2 * m + 4) + (f (2 * m + 3) - c + z)) with (j + (2 + z)) by lia. rewrite A3. f_equal. lia. }
        pose proof (border_odd (m + 1) (f (2 * m + 3) - c)) as BO. replace (2 * (m + 1) + 1) with (2 * m + 3) in BO by lia.
        destruct BO as (u & Hu & Eu); [lia| |].
        { replace (f (2 * m + 3) - (f (2 * m + 3) - c)) with c by (lia). exact HB. }
        assert (EC : c = f (2 * u + 1)).
        { destruct (F_pre (2 * u + 1) (2 * m + 3) ltac:(lia)) as (Q & EQ). apply (f_equal (@length nat)) in EQ. rewrite app_length in EQ. fold (f (2 * u + 1)) (f (2 * m + 3)) in EQ. lia. }
        destruct (F_pre (2 * u + 1) (2 * m + 1) ltac:(lia)) as (Q & EQ). apply (f_equal (@length nat)) in EQ. rewrite app_length in EQ. fold (f (2 * u + 1)) (f (2 * m + 1)) in EQ. lia.
      + destruct D3 as (_ & _ & D3). assert (ND : n - 2 - d <> i + 1) by (intros E; specialize (D3 0 ltac:(lia)); rewrite !Nat.add_0_r, E in D3; lia).
        set (c := d - 2) in *. assert (Ic : c + 2 = d) by (unfold c; lia). clearbody c. set (e := f (2 * m + 3) - 2 - c). assert (Ie : e + 2 + c = f (2 * m + 3)) by (unfold e; lia). clearbody e. assert (EE : n - 2 - d + 2 = f (2 * m + 4) + e) by (lia).
        assert (HB : same_substring (F (2 * m + 3)) e 0 c).
        { split; [fold (f (2 * m + 3)); lia|]. split; [fold (f (2 * m + 3)); lia|]. intros z Hz. rewrite <- !ol_tail. specialize (D3 (2 + z) ltac:(lia)).
          replace (f (2 * m + 4) + (e + z)) with (n - 2 - d + (2 + z)) by lia. rewrite D3. f_equal. lia. }
        assert (C1 : c < f (2 * m + 2) - 1).
        { destruct (Nat.le_gt_cases (f (2 * m + 2) - 1) c) as [C|C]; [exfalso|exact C]. pose proof (PU1 e c) as T. specialize (T C HB). lia. }
        destruct (Nat.eq_dec c (f (2 * m + 2) - 2)) as [C2|C2].
        * specialize (D3 0 ltac:(lia)). rewrite !Nat.add_0_r, Mb in D3. replace (n - 2 - d) with (f (2 * m + 4) + (f (2 * m + 1) - 2)) in D3 by (lia).
          rewrite ol_tail, E2, E1, B1 in D3 by lia. lia.
        * pose proof (same_shift (2 * m + 1) (e - f (2 * m + 1)) c) as T. replace (S (S (2 * m + 1))) with (2 * m + 3) in T by lia.
          replace (e - f (2 * m + 1) + f (2 * m + 1)) with e in T by (lia). specialize (T ltac:(lia)).
          pose proof (same_trans _ _ _ _ _ (same_sym _ _ _ _ T) HB) as (T1 & T2 & T3).
          assert (HB2 : same_substring (F (2 * m + 2)) (e - f (2 * m + 1)) 0 c).
          { split; [fold (f (2 * m + 2)); lia|]. split; [fold (f (2 * m + 2)); lia|]. intros z Hz. rewrite <- !E2 by (lia). now apply T3. }
          pose proof (PU2 (e - f (2 * m + 1)) c) as T'.
          specialize (T' ltac:(lia) HB2). lia.
      + specialize (D3 0 ltac:(lia)). rewrite Nat.add_0_r in D3. lia.
  Qed.
  (** positions n - f j, j even *)
  Lemma ol_even t : t + 1 <= m -> exists p, is_lex_factor w (n - f (2 * t + 4)) (LZ p (f (2 * t + 3))).
  Proof.
    intros Ht. destruct (F_odd_suffix (t + 2) (m - t)) as (R & ER). replace (2 * (t + 2 + (m - t)) + 1) with (2 * m + 5) in ER by lia. fold w in ER.
    replace (2 * (t + 2) + 1) with (S (S (2 * t + 3))) in ER by lia. rewrite F_SS in ER. replace (S (2 * t + 3)) with (S (S (2 * t + 2))) in ER by lia. rewrite F_SS in ER.
    replace (S (2 * t + 2)) with (2 * t + 3) in ER by lia. rewrite <- app_assoc in ER.
    destruct (near_commute_parity (t + 1)) as ((P & E1 & E2) & _). replace (S (2 * (t + 1))) with (2 * t + 3) in * by lia. replace (2 * (t + 1)) with (2 * t + 2) in * by lia.
    assert (EF : F (2 * t + 4) = P ++ [98; 97]) by (rewrite <- E1; replace (2 * t + 4) with (S (S (2 * t + 2))) by lia; rewrite F_SS; now replace (S (2 * t + 2)) with (2 * t + 3) by lia).
    assert (L4 : f (2 * t + 4) = length P + 2) by (unfold f; rewrite EF, app_length; reflexivity).
    assert (F4 : f (2 * t + 4) = f (2 * t + 3) + f (2 * t + 2)) by (replace (2 * t + 4) with (S (S (2 * t + 2))) by lia; rewrite f_SS; now replace (S (2 * t + 2)) with (2 * t + 3) by lia).
    assert (F2 : 3 <= f (2 * t + 2)) by (replace (2 * t + 2) with (S (S (2 * t))) by lia; rewrite f_SS; pose proof (f_S (2 * t)); pose proof (f_pos (2 * t)); lia).
    assert (F3 : 4 <= f (2 * t + 3)) by (replace (2 * t + 3) with (S (S (2 * t + 1))) by lia; rewrite f_SS; replace (S (2 * t + 1)) with (2 * t + 2) by lia; pose proof (f_pos (2 * t + 1)); lia).
    rewrite E2 in ER. set (u := length R + f (2 * t + 3)).
    assert (EN : n = u + f (2 * t + 4)).
    { rewrite <- lw, ER, !app_length. cbn [length]. unfold u. rewrite L4. unfold f at 1. lia. }
    replace (n - f (2 * t + 4)) with u by lia.
    assert (NW : forall z, z < f (2 * t + 4) - 2 -> nth (u + z) w 0 = nth z (F (2 * t + 4)) 0).
    { intros z Hz. rewrite ER. unfold u, f. rewrite app_assoc, app_nth2; rewrite app_length; [|lia]. replace (length R + length (F (2 * t + 3)) + z - (length R + length (F (2 * t + 3)))) with z by lia.
      rewrite EF. rewrite !app_nth1 by lia. reflexivity. }
    pose proof (suf_odd m (t + 1) ltac:(lia)) as SO. cbv zeta in SO. replace (2 * (t + 1) + 1) with (2 * t + 3) in SO by lia. fold n in SO. fold w in SO. set (q := n - f (2 * t + 3)) in *.
    assert (HS : same_substring w q u (f (2 * t + 3))).
    { split; [rewrite lw; unfold q; lia|]. split; [rewrite lw; lia|]. intros z Hz. rewrite NW by lia. replace (2 * t + 4) with (S (2 * t + 3)) by lia. rewrite F_prefix by lia. pose proof (f_equal (fun v => nth z v 0) SO) as SZ. cbv beta in SZ. rewrite nth_skipn' in SZ. replace (2 * (t + 1) + 1) with (2 * t + 3) in SZ by lia. exact SZ. }
    apply (lexfac w u q); [lia|rewrite lw; unfold q; lia| |exact HS|].
    - apply pre_lt; [unfold q; lia|rewrite lw; unfold q; lia|]. rewrite lw. replace (n - q) with (f (2 * t + 3)) by (unfold q; lia). exact HS.
    - intros j Hj Hlt H. rewrite lw in Hj. destruct (ol_cases u j (S (f (2 * t + 3))) ltac:(lia) Hj ltac:(lia) Hlt H) as [(A1 & A2 & A3)|[(d & D1 & D2 & D3)|(d & D1 & D2 & D3)]].
      + destruct A3 as (_ & _ & A3). pose proof (prefix_unique (2 * t) (j - u) (f (2 * t + 3) - 1) ltac:(lia)) as T. apply (Nat.sub_gt _ _ A1). apply T.
        split; [fold (f (2 * t + 4)); lia|]. split; [fold (f (2 * t + 4)); lia|]. intros z Hz. rewrite <- !NW by lia. specialize (A3 z ltac:(lia)). replace (u + (j - u + z)) with (j + z) by lia. exact A3.
      + destruct D3 as (_ & _ & D3). pose proof (prefix_unique (2 * t) (n - 2 - d - u) d ltac:(lia)) as T. assert (n - 2 - d - u <> 0) as NZ by lia. apply NZ, T.
        split; [fold (f (2 * t + 4)); lia|]. split; [fold (f (2 * t + 4)); lia|]. intros z Hz. rewrite <- !NW by lia. specialize (D3 z ltac:(lia)). replace (u + (n - 2 - d - u + z)) with (n - 2 - d + z) by lia. exact D3.
      + specialize (D3 1 ltac:(lia)). rewrite NW in D3 by lia. destruct (F_begin (2 * t + 2)) as (B & EB). replace (S (S (2 * t + 2))) with (2 * t + 4) in EB by lia. rewrite EB in D3. discriminate.
  Qed.
  (** the last three letters *)
  Lemma ol_suf d : d <= 4 -> skipn (n - d) w = skipn (4 - d) [98; 97; 97; 98].
  Proof.
    intros Hd. destruct ol_end as (Q & EQ & LQ). rewrite EQ, skipn_app, skipn_all2 by lia. cbn [app]. f_equal. lia.
  Qed.
  Lemma ol_n13 : 13 <= n.
  Proof. exact (n_ge m). Qed.
  Lemma ol_third : exists p, is_lex_factor w (n - 3) (LZ p 0).
  Proof.
    pose proof ol_n13. apply lexlit; [rewrite lw; lia|]. intros j Hj Hlt _. rewrite lw in Hj. rewrite ol_suf in Hlt by lia. cbn [skipn Nat.sub] in Hlt.
    destruct ol_end as (Q & EQ & LQ).
    assert (LAST : last (skipn j w) 0 = 98).
    { rewrite last_nth, skipn_length, lw, nth_skipn'. destruct ol_last as (_ & Lb). replace (j + (n - j - 1)) with (n - 1) by lia. exact Lb. }
    pose proof (F_no_aaa (2 * m + 4) (firstn j w)) as NA. replace (S (2 * m + 4)) with (2 * m + 5) in NA by lia. fold w in NA.
    assert (NB : forall v, skipn j w <> 97 :: 97 :: 97 :: v) by (intros v Ev; apply (NA v); rewrite <- Ev; symmetry; apply firstn_skipn).
    pose proof (F_letters (2 * m + 5)) as FL. fold w in FL. rewrite <- (firstn_skipn j w) in FL. apply Forall_app in FL. destruct FL as (_ & FL).
    assert (LV : 1 <= length (skipn j w)) by (rewrite skipn_length, lw; lia).
    set (v := skipn j w) in *. clearbody v. clear - Hlt LAST NB FL LV.
    destruct v as [|a v]; [cbn in LV; lia|]. inversion FL as [|? ? Fa FL1]; subst. inversion Hlt as [|? ? ? ? C|? ? ? H2]; subst; [lia|].
    destruct v as [|b v]; [discriminate|]. inversion FL1 as [|? ? Fb FL2]; subst. inversion H2 as [|? ? ? ? C|? ? ? H3]; subst; [lia|].
    destruct v as [|c v]; [discriminate|]. inversion FL2 as [|? ? Fc FL3]; subst. inversion H3 as [|? ? ? ? C|? ? ? H4]; subst; [|exact (lex_lt_nil_r _ H4)].
    assert (c = 97) by lia. subst c. exact (NB v eq_refl).
  Qed.
  Lemma skipn_two (t : str) j : j + 2 <= length t -> skipn j t = nth j t 0 :: nth (j + 1) t 0 :: skipn (j + 2) t.
  Proof.
    intros H. assert (E : forall i (u : str), i < length u -> skipn i u = nth i u 0 :: skipn (S i) u).
    { induction i as [|i IH]; intros u Hu; destruct u as [|c u]; cbn [length] in Hu; [lia|reflexivity|lia|]. cbn [skipn nth]. rewrite IH by lia. reflexivity. }
    rewrite (E j), (E (S j)) by lia. replace (j + 1) with (S j) by lia. replace (j + 2) with (S (S j)) by lia. reflexivity.
  Qed.
  Lemma ol_fourth : exists p, is_lex_factor w (n - 2) (LZ p 1).
  Proof.
    pose proof ol_n13. apply (lexfac w (n - 2) (n - 3)); [lia|rewrite lw; lia| | |].
    - rewrite !ol_suf by lia. cbn [skipn Nat.sub]. apply lex_tail, lex_head. lia.
    - split; [rewrite lw; lia|]. split; [rewrite lw; lia|]. intros z Hz. assert (z = 0) by lia. subst z. rewrite <- !nth_skipn'. rewrite !ol_suf by lia. reflexivity.
    - intros j Hj Hlt (S1 & S2 & S3). rewrite lw in *. pose proof (S3 0 ltac:(lia)) as A. pose proof (S3 1 ltac:(lia)) as B. rewrite !Nat.add_0_r in A.
      destruct ol_last as (La & Lb). rewrite La in A. replace (n - 2 + 1) with (n - 1) in B by lia. rewrite Lb in B.
      rewrite ol_suf in Hlt by lia. cbn [skipn Nat.sub] in Hlt. rewrite (skipn_two w j) in Hlt by (rewrite lw; lia). rewrite A, B in Hlt.
      inversion Hlt as [| |? ? ? H2]; subst; [lia|]. inversion H2 as [| |? ? ? H3]; subst; [lia|]. exact (lex_lt_nil_r _ H3).
  Qed.
  Lemma ol_fifth : exists p, is_lex_factor w (n - 1) (LZ p 0).
  Proof.
    pose proof ol_n13. apply lexlit; [rewrite lw; lia|]. intros j Hj Hlt E. rewrite lw in Hj. destruct ol_last as (La & Lb). rewrite Lb in E.
    rewrite ol_suf in Hlt by lia. cbn [skipn Nat.sub] in Hlt. destruct (skipn j w) as [|a v] eqn:EV; [apply (f_equal (@length nat)) in EV; rewrite skipn_length, lw in EV; cbn [length] in EV; lia|].
    assert (a = 98). { rewrite <- E, <- (Nat.add_0_r j), <- nth_skipn', EV. reflexivity. } subst a.
    inversion Hlt as [| |? ? ? H3]; subst; [lia|]. exact (lex_lt_nil_r _ H3).
  Qed.
  Lemma ol_rest t : t <= m -> lexlens w (n - f (2 * t + 2)) (map (fun u => f (2 * u + 1)) (rev (seq 1 t)) ++ [0; 1; 0]).
  Proof.
    pose proof ol_n13 as N13. induction t as [|t IH]; intros Ht.
    - cbn [seq rev map app]. change (f (2 * 0 + 2)) with 3. apply lexlens_cons; [rewrite lw; lia|exact ol_third|]. replace (n - 3 + Nat.max 1 0) with (n - 2) by lia.
      apply lexlens_cons; [rewrite lw; lia|exact ol_fourth|]. replace (n - 2 + Nat.max 1 1) with (n - 1) by lia.
      apply lexlens_cons; [rewrite lw; lia|exact ol_fifth|]. exists []. split; [|reflexivity]. cbn [is_lexparse]. rewrite lw. lia.
    - rewrite seq_S, rev_app_distr. cbn [rev app map]. replace (2 * S t + 2) with (2 * t + 4) by lia. replace (2 * (1 + t) + 1) with (2 * t + 3) by lia.
      pose proof (f_pos (2 * t + 4)). pose proof (f_pos (2 * t + 3)).
      assert (F4 : f (2 * t + 4) = f (2 * t + 3) + f (2 * t + 2)) by (replace (2 * t + 4) with (S (S (2 * t + 2))) by lia; rewrite f_SS; now replace (S (2 * t + 2)) with (2 * t + 3) by lia).
      apply lexlens_cons; [rewrite lw; lia|apply ol_even; lia|].
      assert (FL : f (2 * t + 4) <= n).
      { destruct (F_pre (2 * t + 4) (2 * m + 5) ltac:(lia)) as (Q & EQ). apply (f_equal (@length nat)) in EQ. rewrite app_length in EQ. fold (f (2 * t + 4)) (f (2 * m + 5)) in EQ. fold n in EQ. lia. }
      replace (n - f (2 * t + 4) + Nat.max 1 (f (2 * t + 3))) with (n - f (2 * t + 2)) by lia. apply IH. lia.
  Qed.
  Lemma ol_lens : 1 <= m -> lexlens w 0 (f (2 * m + 4) - 2 :: f (2 * m + 1) + 2 :: map (fun u => f (2 * u + 1)) (rev (seq 1 m)) ++ [0; 1; 0]).
  Proof.
    intros Hm. pose proof ol_n as N. pose proof ol_f4 as F4. pose proof ol_f3 as F3. pose proof ol_f2 as F2. pose proof ol_f1 as F1. pose proof ol_n13.
    apply lexlens_cons; [rewrite lw; lia|exact ol_first|]. replace (0 + Nat.max 1 (f (2 * m + 4) - 2)) with (f (2 * m + 4) - 2) by lia.
    apply lexlens_cons; [rewrite lw; lia|now apply ol_second|]. replace (f (2 * m + 4) - 2 + Nat.max 1 (f (2 * m + 1) + 2)) with (n - f (2 * m + 2)) by lia. apply ol_rest. lia.
  Qed.
End OddLex.
