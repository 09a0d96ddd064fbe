(** PowFam.v : the powers in the words of src/word.rs (C127) *)
From Verif Require Import Base SpecStr SpecIo SpecWord LexFacts BorderProof UnifyProof ModelWord WordProof WordProof2 WordProof3 WordProof4 FibFacts LynMorph LynFam LynFam5 RunFam LetFam PerFam LzTrib.
From Coq Require Import NArith.

(** a factor of length L at s with period p *)
Definition rept (w : str) (s p L : nat) : Prop := s + L <= length w /\ forall i, s <= i -> i + p < s + L -> nth i w 0 = nth (i + p) w 0.
Lemma rept_shorter w s p L L' : rept w s p L -> L' <= L -> rept w s p L'.
Proof. intros (A & B) H. split; [lia|]. intros i Hi Hj. apply B; lia. Qed.
Lemma power_rept x u m y : u <> [] -> rept (x ++ power u m ++ y) (length x) (length u) (m * length u).
Proof.
  intros N. split; [rewrite !app_length, power_length; lia|]. intros i Hi Hj.
  destruct m as [|m]; [lia|]. destruct (power_period u (S m) N ltac:(lia)) as (_ & P). rewrite power_length in P.
  rewrite !(app_nth2 x) by lia. rewrite !app_nth1 by (rewrite power_length; lia). rewrite P by lia. f_equal. lia.
Qed.

(** words composed of blocks a, ax that begin with a *)
Section Blocks.
  Context (h : nat -> str) (A : nat -> Prop) (t : nat -> str).
  Context (Hh : forall c, A c -> h c = 97 :: t c).
  Context (Ht : forall c, A c -> t c = [] \/ exists x, t c = [x] /\ x <> 97).
  Context (Hi : forall c d, A c -> A d -> t c = t d -> c = d).
  Context (A97 : A 97) (T97 : t 97 <> []).
  Let pos (v : str) (j : nat) : nat := length (flat_map h (firstn j v)).
  Section One.
    Context (v : str) (F : Forall A v).
    Let W := flat_map h v.
    Lemma in_A j : j < length v -> A (nth j v 0).
    Proof using F. intros H. rewrite Forall_forall in F. apply F, nth_In, H. Qed.
    Lemma pos_S j : j < length v -> pos v (S j) = pos v j + S (length (t (nth j v 0))).
    Proof using Hh F.
      intros Hj. unfold pos. rewrite (firstn_S_nth v j 0) by exact Hj. rewrite flat_map_app, app_length. cbn [flat_map]. rewrite app_nil_r, Hh by now apply in_A. reflexivity.
    Qed.
    Lemma pos_end : pos v (length v) = length W.
    Proof using. unfold pos, W. now rewrite firstn_all. Qed.
    Lemma pos_lt i j : i < j -> j <= length v -> pos v i < pos v j.
    Proof using Hh F. induction 1 as [|j H IH]; intros L; [rewrite pos_S by lia; lia|]. specialize (IH ltac:(lia)). rewrite pos_S by lia. lia. Qed.
    Lemma pos_le_end j : j <= length v -> pos v j <= length W.
    Proof using Hh F. intros H. rewrite <- pos_end. destruct (Nat.eq_dec j (length v)) as [->|N]; [lia|]. pose proof (pos_lt j (length v) ltac:(lia) ltac:(lia)). lia. Qed.
    Lemma split_at j : j < length v -> W = flat_map h (firstn j v) ++ (97 :: t (nth j v 0)) ++ flat_map h (skipn (S j) v).
    Proof using Hh F.
      intros H. unfold W. rewrite <- (firstn_skipn j v) at 1. rewrite flat_map_app. f_equal. rewrite <- (Hh (nth j v 0)) by now apply in_A.
      assert (E : skipn j v = nth j v 0 :: skipn (S j) v).
      { apply (nth_ext_len _ _ 0); [cbn [length]; rewrite !skipn_length; lia|]. intros i Hi'. destruct i as [|i]; cbn [nth]; rewrite !nth_skipn; [now rewrite Nat.add_0_r|now rewrite Nat.add_succ_r]. }
      rewrite E. reflexivity.
    Qed.
    Lemma pos_a j : j < length v -> nth (pos v j) W 0 = 97.
    Proof using Hh F. intros H. rewrite (split_at j H). unfold pos. rewrite app_nth2 by lia. rewrite Nat.sub_diag. reflexivity. Qed.
    Lemma pos_x j x : j < length v -> t (nth j v 0) = [x] -> nth (pos v j + 1) W 0 = x /\ pos v (S j) = pos v j + 2.
    Proof using Hh F.
      intros H E. split; [|rewrite pos_S, E by exact H; cbn [length]; lia]. rewrite (split_at j H), E. unfold pos. rewrite app_nth2 by lia.
      replace (length (flat_map h (firstn j v)) + 1 - length (flat_map h (firstn j v))) with 1 by lia. reflexivity.
    Qed.
    Lemma pos_nil j : j < length v -> t (nth j v 0) = [] -> pos v (S j) = pos v j + 1.
    Proof using Hh F. intros H E. rewrite pos_S, E by exact H. cbn [length]. lia. Qed.
    Lemma pos_find i : i < length W -> exists j, j < length v /\ (i = pos v j \/ (i = pos v j + 1 /\ exists x, t (nth j v 0) = [x] /\ nth i W 0 = x /\ x <> 97)).
    Proof using Hh Ht F.
      intros H. assert (G : forall n, n <= length v -> i < pos v n -> exists j, j < n /\ pos v j <= i < pos v (S j)).
      { induction n as [|n IH]; intros Hn Hl; [unfold pos in Hl; cbn in Hl; lia|]. destruct (Nat.lt_ge_cases i (pos v n)) as [C|C].
        - destruct (IH ltac:(lia) C) as (j & Hj & B). exists j. split; [lia|exact B].
        - exists n. lia. }
      destruct (G (length v) (le_n _)) as (j & Hj & B1 & B2); [rewrite pos_end; exact H|]. exists j. split; [exact Hj|].
      destruct (Ht (nth j v 0) (in_A j Hj)) as [E|(x & E & X)].
      - rewrite (pos_nil j Hj E) in B2. left. lia.
      - destruct (pos_x j x Hj E) as (N & P). destruct (Nat.eq_dec i (pos v j)) as [->|D]; [left; reflexivity|right]. assert (i = pos v j + 1) as -> by lia.
        split; [reflexivity|]. exists x. auto.
    Qed.
    Lemma pos_at i : i < length W -> nth i W 0 = 97 -> exists j, j < length v /\ i = pos v j.
    Proof using Hh Ht F.
      intros H E. destruct (pos_find i H) as (j & Hj & [D|(_ & x & _ & N & X)]); [exists j; auto|congruence].
    Qed.
    (** a letter other than a lies between two letters a *)
    Lemma before_x i : i < length W -> nth i W 0 <> 97 -> 1 <= i /\ nth (i - 1) W 0 = 97.
    Proof using Hh Ht F.
      intros H E. destruct (pos_find i H) as (j & Hj & [D|(-> & x & _ & N & X)]); [subst i; exfalso; apply E; now apply pos_a|].
      split; [lia|]. replace (pos v j + 1 - 1) with (pos v j) by lia. now apply pos_a.
    Qed.
    Lemma after_x i : i + 1 < length W -> nth i W 0 <> 97 -> nth (i + 1) W 0 = 97.
    Proof using Hh Ht F.
      intros H E. destruct (pos_find (i + 1) H) as (j & Hj & [D|(D & x & _ & N & X)]); [rewrite D; now apply pos_a|].
      exfalso. apply E. replace i with (pos v j) by lia. now apply pos_a.
    Qed.
    Lemma same_type j j' : j < length v -> j' < length v -> pos v j + 1 < length W -> pos v j' + 1 < length W -> nth (pos v j + 1) W 0 = nth (pos v j' + 1) W 0 -> nth j v 0 = nth j' v 0.
    Proof using Hh Ht Hi F.
      intros H H' L L' E.
      assert (Z : forall q, q < length v -> pos v q + 1 < length W -> t (nth q v 0) = [] -> nth (pos v q + 1) W 0 = 97).
      { intros q Hq Lq Eq. pose proof (pos_nil q Hq Eq) as P. rewrite <- P in Lq |- *. apply pos_a. destruct (Nat.eq_dec (S q) (length v)) as [Q|Q]; [rewrite Q, pos_end in Lq; lia|lia]. }
      apply Hi; [now apply in_A|now apply in_A|]. destruct (Ht _ (in_A j H)) as [Ej|(x & Ej & X)]; destruct (Ht _ (in_A j' H')) as [Ej'|(x' & Ej' & X')].
      - congruence.
      - rewrite (Z j H L Ej) in E. destruct (pos_x j' x' H' Ej') as (N & _). congruence.
      - rewrite (Z j' H' L' Ej') in E. destruct (pos_x j x H Ej) as (N & _). congruence.
      - destruct (pos_x j x H Ej) as (N & _). destruct (pos_x j' x' H' Ej') as (N' & _). congruence.
    Qed.
    Definition no_aaa (u : str) : Prop := forall i, i + 2 < length u -> nth i u 0 = 97 -> nth (i + 1) u 0 = 97 -> nth (i + 2) u 0 = 97 -> False.
    Lemma descend s p L : no_aaa W -> 1 <= p -> 4 * p - 1 <= L -> rept W s p L -> exists s' c, 1 <= c /\ rept v s' c (4 * c - 1).
    Proof using Hh Ht Hi F.
      intros NA Hp HL R0.
      assert (NS : exists s0 L0, 4 * p - 1 <= L0 /\ rept W s0 p L0 /\ nth s0 W 0 = 97).
      { pose proof R0 as (B & R). destruct (Nat.eq_dec (nth s W 0) 97) as [E|E]; [exists s, L; auto|].
        destruct (before_x s ltac:(lia) E) as (S1 & E1). exists (s - 1), (S L). split; [lia|]. split; [|exact E1]. split; [lia|]. intros i Hi1 Hj.
        destruct (Nat.eq_dec i (s - 1)) as [->|D]; [|apply R; lia]. rewrite E1. symmetry.
        destruct (Nat.le_gt_cases L p) as [C|C]; [lia|]. destruct (before_x (s + p) ltac:(lia)) as (_ & Q); [rewrite <- R by lia; exact E|]. rewrite <- Q. f_equal. lia. }
      clear R0 HL. destruct NS as (s0 & L0 & HL & R0 & E0). pose proof R0 as (B & R). destruct (pos_at s0 ltac:(lia) E0) as (j0 & Hj0 & Ej0).
      destruct (Nat.eq_dec p 1) as [->|P1].
      { exfalso. assert (X1 : nth (s0 + 1) W 0 = 97) by (rewrite <- R by lia; exact E0). apply (NA s0 ltac:(lia) E0 X1). replace (s0 + 2) with (s0 + 1 + 1) by lia. rewrite <- R by lia. exact X1. }
      destruct (pos_at (s0 + p) ltac:(lia)) as (j1 & Hj1 & Ej1); [rewrite <- R by lia; exact E0|].
      assert (C1 : j0 < j1). { destruct (Nat.lt_ge_cases j0 j1) as [C|C]; [exact C|exfalso]. destruct (Nat.eq_dec j0 j1) as [Q|Q]; [subst j1; lia|]. pose proof (pos_lt j1 j0 ltac:(lia) ltac:(lia)). lia. }
      set (c := j1 - j0). assert (Hc : 1 <= c) by (unfold c; lia).
      assert (CH : forall n, j0 + n < length v -> pos v (j0 + n) + p < s0 + L0 -> j0 + n + c < length v /\ pos v (j0 + n) + p = pos v (j0 + n + c)).
      { induction n as [|n IH]; intros Hn Hl.
        - rewrite Nat.add_0_r in *. replace (j0 + c) with j1 by (unfold c; lia). split; [exact Hj1|lia].
        - pose proof (pos_lt (j0 + n) (j0 + S n) ltac:(lia) ltac:(lia)) as M. destruct (IH ltac:(lia) ltac:(lia)) as (Lc & Ec).
          assert (Q : s0 <= pos v (j0 + n)) by (destruct n as [|n]; [rewrite Nat.add_0_r; lia|pose proof (pos_lt j0 (j0 + S n) ltac:(lia) ltac:(lia)); lia]).
          assert (T : nth (j0 + n) v 0 = nth (j0 + n + c) v 0).
          { apply same_type; [lia|lia|lia|lia|]. rewrite <- Ec. rewrite R by lia. f_equal. lia. }
          replace (j0 + S n) with (S (j0 + n)) in * by lia. rewrite pos_S in * by lia. cbn [Nat.add]. rewrite pos_S by lia. rewrite <- T, <- Ec.
          assert (EL : pos v (S (j0 + n + c)) = pos v (S (j0 + n)) + p) by (rewrite !pos_S by lia; rewrite <- T; lia).
          split; [|lia]. destruct (Nat.eq_dec (S (j0 + n + c)) (length v)) as [D|D]; [|lia]. exfalso. rewrite D, pos_end in EL. rewrite pos_S in EL by lia. lia. }
      assert (M1 : j0 + 2 * c < length v /\ pos v (j0 + 2 * c) = s0 + 2 * p).
      { destruct (CH c) as (X & Y); [unfold c; lia|replace (j0 + c) with j1 by (unfold c; lia); lia|]. replace (j0 + 2 * c) with (j0 + c + c) by lia. split; [exact X|]. rewrite <- Y. replace (j0 + c) with j1 by (unfold c; lia). lia. }
      assert (M2 : j0 + 3 * c < length v /\ pos v (j0 + 3 * c) = s0 + 3 * p).
      { destruct M1 as (X1 & Y1). destruct (CH (2 * c)) as (X & Y); [exact X1|lia|]. replace (j0 + 3 * c) with (j0 + 2 * c + c) by lia. split; [exact X|]. rewrite <- Y. lia. }
      destruct M2 as (X2 & Y2). clear M1.
      pose proof (pos_lt (j0 + (3 * c - 2)) (j0 + (3 * c - 1)) ltac:(lia) ltac:(lia)) as U1. pose proof (pos_lt (j0 + (3 * c - 1)) (j0 + 3 * c) ltac:(lia) ltac:(lia)) as U2.
      assert (U : pos v (j0 + (3 * c - 2)) + 3 <= s0 + 3 * p).
      { destruct (Nat.le_gt_cases (pos v (j0 + (3 * c - 2)) + 3) (s0 + 3 * p)) as [C|C]; [exact C|exfalso].
        apply (NA (pos v (j0 + (3 * c - 2)))); [lia|apply pos_a; lia| |].
        - replace (pos v (j0 + (3 * c - 2)) + 1) with (pos v (j0 + (3 * c - 1))) by lia. apply pos_a. lia.
        - replace (pos v (j0 + (3 * c - 2)) + 2) with (pos v (j0 + 3 * c)) by lia. apply pos_a. lia. }
      assert (MON : forall n, n <= 3 * c - 2 -> s0 <= pos v (j0 + n) <= pos v (j0 + (3 * c - 2))).
      { intros n Hn. split.
        - destruct n as [|n]; [rewrite Nat.add_0_r; lia|]. pose proof (pos_lt j0 (j0 + S n) ltac:(lia) ltac:(lia)). lia.
        - destruct (Nat.eq_dec n (3 * c - 2)) as [->|D]; [lia|]. pose proof (pos_lt (j0 + n) (j0 + (3 * c - 2)) ltac:(lia) ltac:(lia)). lia. }
      exists j0, c. split; [exact Hc|]. split.
      - destruct (CH (3 * c - 2)) as (X & _); lia.
      - intros i I1 I2. specialize (MON (i - j0) ltac:(lia)). replace (j0 + (i - j0)) with i in MON by lia. destruct (CH (i - j0)) as (X & Y); [lia|replace (j0 + (i - j0)) with i by lia; lia|].
        replace (j0 + (i - j0)) with i in * by lia. apply same_type; [lia|lia|lia|lia|]. rewrite <- Y. rewrite R by lia. f_equal. lia.
    Qed.
  End One.
  Context (w : nat -> str) (W0 : w 0 = [97]) (WS : forall k, w (S k) = flat_map h (w k)) (WA : forall k, Forall A (w k)).
  Lemma family_no_aaa k : no_aaa (w k).
  Proof using Hh Ht Hi A97 T97 W0 WS WA.
    destruct k as [|k]; [intros i Hi'; rewrite W0 in Hi'; cbn [length] in Hi'; lia|]. rewrite WS. intros i L E0 E1 E2. pose proof (WA k) as F.
    destruct (pos_at (w k) F i ltac:(lia) E0) as (j & Hj & ->).
    assert (N : forall q, q < length (w k) -> nth (pos (w k) q + 1) (flat_map h (w k)) 0 = 97 -> t (nth q (w k) 0) = []).
    { intros q Hq E. destruct (Ht _ (in_A (w k) F q Hq)) as [Q|(x & Q & X)]; [exact Q|]. destruct (pos_x (w k) F q x Hq Q) as (P & _). congruence. }
    pose proof (N j Hj E1) as N1. pose proof (pos_nil (w k) F j Hj N1) as P1.
    assert (Hj1 : S j < length (w k)) by (destruct (Nat.eq_dec (S j) (length (w k))) as [D|D]; [rewrite D, pos_end in P1; lia|lia]).
    assert (N2 : t (nth (S j) (w k) 0) = []) by (apply N; [exact Hj1|]; rewrite P1; replace (pos (w k) j + 1 + 1) with (pos (w k) j + 2) by lia; exact E2).
    assert (D : nth j (w k) 0 = nth (S j) (w k) 0) by (apply Hi; [now apply in_A|now apply in_A|congruence]).
    assert (X : nth j (w k) 0 <> 97) by (intros Q; rewrite Q in N1; contradiction).
    destruct k as [|k]; [rewrite W0 in Hj1; cbn [length] in Hj1; lia|]. rewrite WS in *. apply X. rewrite D. replace (S j) with (j + 1) by lia. apply (after_x (w k) (WA k)); [lia|exact X].
  Qed.
  Theorem family_powers k : forall p s, 1 <= p -> ~ rept (w k) s p (4 * p - 1).
  Proof using Hh Ht Hi A97 T97 W0 WS WA.
    induction k as [|k IH]; intros p s Hp R; [destruct R as (B & _); rewrite W0 in B; cbn [length] in B; lia|].
    pose proof (family_no_aaa (S k)) as NA. rewrite WS in R, NA. destruct (descend (w k) (WA k) s p (4 * p - 1) NA Hp (le_n _) R) as (s' & c & Hc & R'). exact (IH c s' Hc R').
  Qed.
End Blocks.
Lemma fib_powers k p s : 1 <= p -> ~ rept (fib_word k) s p (4 * p - 1).
Proof.
  apply (family_powers fphi ab (fun c => if c =? 97 then [98] else [])).
  - intros c [-> | ->]; reflexivity.
  - intros c [-> | ->]; [right; exists 98; split; [reflexivity|discriminate]|left; reflexivity].
  - intros c d [-> | ->] [-> | ->]; cbn; congruence.
  - now left.
  - discriminate.
  - reflexivity.
  - intros j. now rewrite fphi_fib.
  - apply F_letters.
Qed.
Lemma trib_powers k p s : 1 <= p -> ~ rept (trib_word k) s p (4 * p - 1).
Proof.
  apply (family_powers tribonacci_morphism abc (fun c => if c =? 97 then [98] else if c =? 98 then [99] else [])).
  - intros c [-> |[-> | ->]]; reflexivity.
  - intros c [-> |[-> | ->]]; [right; exists 98; split; [reflexivity|discriminate]|right; exists 99; split; [reflexivity|discriminate]|left; reflexivity].
  - intros c d [-> |[-> | ->]] [-> |[-> | ->]]; cbn; congruence.
  - now left.
  - discriminate.
  - reflexivity.
  - intros j. now rewrite trib_word_morph.
  - clear. enough (G : forall k, Forall abc (trib_word k) /\ Forall abc (trib_word (S k)) /\ Forall abc (trib_word (S (S k)))) by (intros k; apply G).
    induction k as [|k (A & B & C)]; [split; [|split]; repeat (apply Forall_cons; [unfold abc; tauto|]); constructor|].
    split; [exact B|]. split; [exact C|]. rewrite trib_word_SSS. repeat (apply Forall_app; split); assumption.
Qed.
Lemma rept_factor w x y s p L : rept w s p L -> rept (x ++ w ++ y) (length x + s) p L.
Proof.
  intros (B & R). split; [rewrite !app_length; lia|]. intros i I1 I2. rewrite !(app_nth2 x) by lia. rewrite !app_nth1 by lia. rewrite R by lia. f_equal. lia.
Qed.
Lemma lw_factor k : exists K x y, fib_word K = x ++ lw k ++ y.
Proof.
  destruct (lcat_prefix (S k)) as (K & c & (y & H)). exists K, (lcat k), ([c] ++ y). change (fib_word K) with (F K). rewrite H. unfold lcat. rewrite seq_S, map_app, concat_app. cbn [map concat Nat.add]. rewrite app_nil_r, <- !app_assoc. reflexivity.
Qed.
Lemma lw_powers k p s : 1 <= p -> ~ rept (lw k) s p (4 * p - 1).
Proof.
  intros Hp R. destruct (lw_factor k) as (K & x & y & E). apply (fib_powers K p (length x + s) Hp). rewrite E. now apply rept_factor.
Qed.
(** period doubling *)
Local Notation pd k := (iter_morphism period_doubling_morphism k [97]).
Lemma pd_odd k j : j < 2 ^ k -> nth (2 * j + 1) (pd (S k)) 0 = nth 1 (period_doubling_morphism (nth j (pd k) 0)) 0.
Proof. intros H. rewrite iter_S. apply (u2_nth _ _ _ 1 pdh_u2); rewrite ?(u2_iter_length _ _ _ pdh_u2); lia. Qed.
Lemma pd_mod4 k j : j < 2 ^ k -> nth (4 * j + 1) (pd (S (S k))) 0 = 98.
Proof.
  intros H. replace (4 * j + 1) with (2 * (2 * j) + 1) by lia. rewrite pd_odd by (cbn [Nat.pow]; lia). rewrite pd_even by exact H. reflexivity.
Qed.
Lemma pd_powers k : forall p s, 1 <= p -> ~ rept (pd k) s p (4 * p).
Proof.
  induction k as [|k IH]; intros p s Hp (B & R); pose proof B as B'; rewrite (u2_iter_length _ _ _ pdh_u2) in B; [cbn [Nat.pow] in B; lia|].
  destruct k as [|k]; [cbn in B; lia|]. destruct (even_odd_split p) as [(q & ->)|(q & ->)].
  - apply (IH q (s / 2) ltac:(lia)). pose proof (Nat.div_mod_eq s 2) as D. pose proof (Nat.mod_upper_bound s 2 ltac:(lia)) as M.
    split; [rewrite (u2_iter_length _ _ _ pdh_u2); cbn [Nat.pow] in *; lia|]. intros i I1 I2. cbn [Nat.pow] in B.
    pose proof (R (2 * i + 1) ltac:(lia) ltac:(lia)) as E. replace (2 * i + 1 + 2 * q) with (2 * (i + q) + 1) in E by lia.
    rewrite !pd_odd in E by (cbn [Nat.pow]; lia). pose proof (pd_ab (S k)) as F. rewrite Forall_forall in F.
    pose proof (u2_iter_length _ (S k) 97 pdh_u2) as L. cbn [Nat.pow] in L.
    destruct (F (nth i (pd (S k)) 0)) as [Y|Y]; [apply nth_In; lia| |]; destruct (F (nth (i + q) (pd (S k)) 0)) as [Z|Z]; try (apply nth_In; lia); rewrite Y, Z in *; cbn in E; congruence.
  - cbn [Nat.pow] in B.
    assert (X : exists j, s <= 4 * j + 1 /\ 4 * j + 1 <= s + 3).
    { pose proof (Nat.div_mod_eq (s + 2) 4) as D. pose proof (Nat.mod_upper_bound (s + 2) 4 ltac:(lia)) as M. exists ((s + 2) / 4). lia. }
    destruct X as (j & J1 & J2). destruct (Nat.eq_dec (4 * j + 1) (s + 3)) as [Q|Q].
    + destruct (Nat.eq_dec q 0) as [->|Q0].
      * pose proof (R (s + 2) ltac:(lia) ltac:(lia)) as E. replace (s + 2 + (2 * 0 + 1)) with (4 * j + 1) in E by lia. rewrite pd_mod4 in E by lia. replace (s + 2) with (2 * (2 * j)) in E by lia. rewrite pd_even in E by (cbn [Nat.pow]; lia). discriminate E.
      * pose proof (R (4 * j + 1) ltac:(lia) ltac:(lia)) as E. rewrite pd_mod4 in E by lia. replace (4 * j + 1 + (2 * q + 1)) with (2 * (2 * j + q + 1)) in E by lia. rewrite pd_even in E by (cbn [Nat.pow]; lia). discriminate E.
    + pose proof (R (4 * j + 1) ltac:(lia) ltac:(lia)) as E. rewrite pd_mod4 in E by lia. replace (4 * j + 1 + (2 * q + 1)) with (2 * (2 * j + q + 1)) in E by lia. rewrite pd_even in E by (cbn [Nat.pow]; lia). discriminate E.
Qed.
(** quaternary paperfolding *)
Local Notation qf k := (iter_morphism pfh k [100]).
Lemma q_even4 k j : j < 2 ^ k -> nth (4 * j) (qf (S (S k))) 0 = 100 /\ nth (4 * j + 2) (qf (S (S k))) 0 = 99.
Proof.
  intros H. destruct (q_parity k j H) as (P0 & P1). pose proof (u2_iter_length _ (S k) 100 pfh_u2) as L. rewrite (iter_S pfh (S k)). set (w := qf (S k)) in *. cbn [Nat.pow] in L.
  assert (A0 : nth (4 * j) (flat_map pfh w) 0 = nth 0 (pfh (nth (2 * j) w 0)) 0) by (rewrite <- (u2_nth _ _ _ 0 pfh_u2) by lia; f_equal; lia).
  assert (A1 : nth (4 * j + 2) (flat_map pfh w) 0 = nth 0 (pfh (nth (2 * j + 1) w 0)) 0) by (rewrite <- (u2_nth _ _ _ 0 pfh_u2) by lia; f_equal; lia).
  rewrite A0, A1. split; [destruct P0 as [-> | ->]; reflexivity|destruct P1 as [-> | ->]; reflexivity].
Qed.
Lemma q_odd k j : j < 2 ^ k -> nth (2 * j + 1) (qf (S k)) 0 = nth 1 (pfh (nth j (qf k) 0)) 0.
Proof. intros H. rewrite iter_S. apply (u2_nth _ _ _ 1 pfh_u2); rewrite ?(u2_iter_length _ _ _ pfh_u2); lia. Qed.
Lemma parity_letters k i : i < 2 ^ S k -> if Nat.even i then nth i (qf (S k)) 0 = 100 \/ nth i (qf (S k)) 0 = 99 else nth i (qf (S k)) 0 = 98 \/ nth i (qf (S k)) 0 = 97.
Proof.
  intros H. cbn [Nat.pow] in H. destruct (even_odd_split i) as [(j & ->)|(j & ->)].
  - replace (Nat.even (2 * j)) with true by (symmetry; apply Nat.even_spec; now exists j). apply (q_parity k j). lia.
  - replace (Nat.even (2 * j + 1)) with false by (rewrite Nat.add_1_r, Nat.even_succ, <- Nat.negb_even; replace (Nat.even (2 * j)) with true by (symmetry; apply Nat.even_spec; now exists j); reflexivity). apply (q_parity k j). lia.
Qed.
Lemma quat_powers k : forall p s, 1 <= p -> ~ rept (qf k) s p (2 * p).
Proof.
  induction k as [|k IH]; intros p s Hp (B & R); rewrite (u2_iter_length _ _ _ pfh_u2) in B; [cbn [Nat.pow] in B; lia|].
  destruct k as [|k]; [destruct p as [|[|p]]; [lia| |cbn in B; lia]; assert (s = 0) as -> by (cbn in B; lia); specialize (R 0 ltac:(lia) ltac:(lia)); discriminate R|].
  destruct (even_odd_split p) as [(q & ->)|(q & ->)].
  - destruct (even_odd_split q) as [(r & ->)|(r & ->)].
    + apply (IH (2 * r) (s / 2) ltac:(lia)). pose proof (Nat.div_mod_eq s 2) as D. pose proof (Nat.mod_upper_bound s 2 ltac:(lia)) as M.
      split; [rewrite (u2_iter_length _ _ _ pfh_u2); cbn [Nat.pow] in *; lia|]. intros i I1 I2. cbn [Nat.pow] in B.
      pose proof (R (2 * i + 1) ltac:(lia) ltac:(lia)) as E. replace (2 * i + 1 + 2 * (2 * r)) with (2 * (i + 2 * r) + 1) in E by lia.
      rewrite !q_odd in E by (cbn [Nat.pow]; lia). pose proof (parity_letters k i ltac:(cbn [Nat.pow]; lia)) as P. pose proof (parity_letters k (i + 2 * r) ltac:(cbn [Nat.pow]; lia)) as P'.
      rewrite Nat.even_add_mul_2 in P'. destruct (Nat.even i), P as [P|P], P' as [P'|P']; rewrite P, P' in *; cbn in E; congruence.
    + cbn [Nat.pow] in B. assert (X : exists j, s <= 2 * j <= s + 1) by (destruct (even_odd_split s) as [(j & ->)|(j & ->)]; [exists j; lia|exists (j + 1); lia]). destruct X as (j & J).
      pose proof (R (2 * j) ltac:(lia) ltac:(lia)) as E. destruct (even_odd_split j) as [(m & ->)|(m & ->)].
      * destruct (q_even4 k m ltac:(lia)) as (E0 & _). destruct (q_even4 k (m + r) ltac:(lia)) as (_ & E1). replace (2 * (2 * m)) with (4 * m) in E by lia. replace (4 * m + 2 * (2 * r + 1)) with (4 * (m + r) + 2) in E by lia. congruence.
      * destruct (q_even4 k m ltac:(lia)) as (_ & E0). destruct (q_even4 k (m + r + 1) ltac:(lia)) as (E1 & _). replace (2 * (2 * m + 1)) with (4 * m + 2) in E by lia. replace (4 * m + 2 + 2 * (2 * r + 1)) with (4 * (m + r + 1)) in E by lia. congruence.
  - cbn [Nat.pow] in B. pose proof (R s ltac:(lia) ltac:(lia)) as E. pose proof (parity_letters (S k) s ltac:(cbn [Nat.pow]; lia)) as P. pose proof (parity_letters (S k) (s + (2 * q + 1)) ltac:(cbn [Nat.pow]; lia)) as P'.
    replace (s + (2 * q + 1)) with (s + 1 + 2 * q) in P' by lia. rewrite Nat.even_add_mul_2, Nat.add_1_r, Nat.even_succ, <- Nat.negb_even in P'. replace (S s + 2 * q) with (s + (2 * q + 1)) in P' by lia. rewrite <- E in P'.
    destruct (Nat.even s), P as [P|P], P' as [P'|P']; cbn [negb] in *; congruence.
Qed.
(** paperfolding: squares only of period 1, 3 and 5 *)
Local Notation pf k := (flat_map pfe (qf k)).
Lemma pf_length k : length (pf k) = 2 * 2 ^ k.
Proof. now rewrite (u2_length _ _ pfe_u2), (u2_iter_length _ _ _ pfh_u2). Qed.
Lemma pf_odd k j : j < 2 * 2 ^ k -> nth (2 * j + 1) (pf (S k)) 0 = nth j (pf k) 0.
Proof.
  intros H. pose proof (u2_iter_length _ k 100 pfh_u2) as L. pose proof (u2_iter_length _ (S k) 100 pfh_u2) as L1. cbn [Nat.pow] in L1.
  rewrite (u2_nth _ _ _ 1 pfe_u2) by lia. rewrite iter_S. pose proof (pf_iter_quat k) as F. rewrite Forall_forall in F. set (w := qf k) in *.
  destruct (even_odd_split j) as [(i & ->)|(i & ->)].
  - assert (A : nth (2 * i) (flat_map pfh w) 0 = nth 0 (pfh (nth i w 0)) 0) by (rewrite <- (u2_nth _ _ _ 0 pfh_u2) by lia; f_equal; lia).
    assert (B : nth (2 * i) (flat_map pfe w) 0 = nth 0 (pfe (nth i w 0)) 0) by (rewrite <- (u2_nth _ _ _ 0 pfe_u2) by lia; f_equal; lia).
    rewrite A, B. destruct (F (nth i w 0)) as [-> |[-> |[-> | ->]]]; [apply nth_In; lia|reflexivity|reflexivity|reflexivity|reflexivity].
  - rewrite (u2_nth _ _ _ 1 pfh_u2), (u2_nth _ _ _ 1 pfe_u2) by lia. destruct (F (nth i w 0)) as [-> |[-> |[-> | ->]]]; [apply nth_In; lia|reflexivity|reflexivity|reflexivity|reflexivity].
Qed.
(** letters at even positions, two apart *)
Lemma pf_alt k i d : i + 2 * d < 2 * 2 ^ S k -> Nat.even i = true -> (nth i (pf (S k)) 0 = nth (i + 2 * d) (pf (S k)) 0 <-> Nat.even d = true).
Proof.
  intros H E. cbn [Nat.pow] in H. apply Nat.even_spec in E. destruct E as (j & ->).
  assert (V : forall m, m < 2 * 2 ^ k -> nth (2 * m) (pf (S k)) 0 = if Nat.even m then 49 else 48).
  { intros m Hm. destruct (even_odd_split m) as [(r & ->)|(r & ->)]; destruct (pf_even4 k r ltac:(lia)) as (P0 & P1).
    - replace (Nat.even (2 * r)) with true by (symmetry; apply Nat.even_spec; now exists r). replace (2 * (2 * r)) with (4 * r) by lia. exact P0.
    - rewrite Nat.add_1_r, Nat.even_succ, <- Nat.negb_even. replace (Nat.even (2 * r)) with true by (symmetry; apply Nat.even_spec; now exists r). cbn [negb]. replace (2 * S (2 * r)) with (4 * r + 2) by lia. exact P1. }
  replace (2 * j + 2 * d) with (2 * (j + d)) by lia. rewrite !V by lia. rewrite Nat.even_add. destruct (Nat.even j), (Nat.even d); cbn; split; congruence.
Qed.
Lemma pf_even_period k : forall q s, 1 <= q -> ~ rept (pf k) s (2 * q) (4 * q).
Proof.
  induction k as [|k IH]; intros q s Hq (B & R); rewrite pf_length in B; [cbn [Nat.pow] in B; lia|].
  destruct (even_odd_split q) as [(r & ->)|(r & ->)].
  - apply (IH r (s / 2) ltac:(lia)). pose proof (Nat.div_mod_eq s 2) as D. pose proof (Nat.mod_upper_bound s 2 ltac:(lia)) as M. cbn [Nat.pow] in B.
    split; [rewrite pf_length; lia|]. intros i I1 I2. pose proof (R (2 * i + 1) ltac:(lia) ltac:(lia)) as E. replace (2 * i + 1 + 2 * (2 * r)) with (2 * (i + 2 * r) + 1) in E by lia.
    rewrite !pf_odd in E by lia. exact E.
  - assert (X : exists j, s <= 2 * j <= s + 1) by (destruct (even_odd_split s) as [(j & ->)|(j & ->)]; [exists j; lia|exists (j + 1); lia]). destruct X as (j & J).
    pose proof (R (2 * j) ltac:(lia) ltac:(lia)) as E. apply pf_alt in E; [|lia|apply Nat.even_spec; now exists j].
    rewrite Nat.add_1_r, Nat.even_succ, <- Nat.negb_even in E. replace (Nat.even (2 * r)) with true in E by (symmetry; apply Nat.even_spec; now exists r). discriminate E.
Qed.
Lemma pf_odd_period k q s : 3 <= q -> ~ rept (pf k) s (2 * q + 1) (4 * q + 2).
Proof.
  intros Hq (B & R). rewrite pf_length in B. destruct k as [|[|k]]; [cbn in B; lia|cbn in B; lia|].
  assert (X : exists e o, Nat.even e = true /\ Nat.even o = false /\ e + 6 < 2 * 2 ^ S (S k) /\ o + 6 < 2 * 2 ^ S (S k) /\ forall d, d <= 3 -> nth (e + 2 * d) (pf (S (S k))) 0 = nth (o + 2 * d) (pf (S (S k))) 0).
  { destruct (Nat.even s) eqn:Es.
    - exists s, (s + (2 * q + 1)). split; [exact Es|]. split; [replace (s + (2 * q + 1)) with (S s + 2 * q) by lia; rewrite Nat.even_add_mul_2, Nat.even_succ, <- Nat.negb_even, Es; reflexivity|].
      split; [lia|]. split; [lia|]. intros d Hd. rewrite R by lia. f_equal. lia.
    - exists (s + (2 * q + 1)), s. split; [replace (s + (2 * q + 1)) with (S s + 2 * q) by lia; rewrite Nat.even_add_mul_2, Nat.even_succ, <- Nat.negb_even, Es; reflexivity|]. split; [exact Es|].
      split; [lia|]. split; [lia|]. intros d Hd. rewrite (R (s + 2 * d)) by lia. f_equal. lia. }
  destruct X as (e & o & He & Ho & Be & Bo & V). destruct (even_odd_split o) as [(j & ->)|(j & ->)].
  { rewrite (proj2 (Nat.even_spec (2 * j)) ltac:(now exists j)) in Ho. discriminate Ho. }
  assert (V' : forall d, d <= 3 -> nth (e + 2 * d) (pf (S (S k))) 0 = nth (j + d) (pf (S k)) 0).
  { intros d Hd. rewrite (V d Hd). replace (2 * j + 1 + 2 * d) with (2 * (j + d) + 1) by lia. apply pf_odd. cbn [Nat.pow] in *. lia. }
  assert (Q : exists i, i <= 1 /\ Nat.even (j + i) = true).
  { destruct (Nat.even j) eqn:Ej; [exists 0; rewrite Nat.add_0_r; auto|exists 1; rewrite Nat.add_1_r, Nat.even_succ, <- Nat.negb_even, Ej; auto]. }
  destruct Q as (i & Hi & Ei).
  assert (E2 : nth (e + 2 * i) (pf (S (S k))) 0 = nth (e + 2 * i + 2 * 2) (pf (S (S k))) 0) by (apply pf_alt; [lia|rewrite Nat.even_add_mul_2; exact He|reflexivity]).
  rewrite (V' i) in E2 by lia. replace (e + 2 * i + 2 * 2) with (e + 2 * (i + 2)) in E2 by lia. rewrite (V' (i + 2)) in E2 by lia.
  replace (j + (i + 2)) with (j + i + 2 * 1) in E2 by lia. apply pf_alt in E2; [discriminate E2|cbn [Nat.pow] in *; lia|exact Ei].
Qed.
Lemma pf_squares k p s : 1 <= p -> rept (pf k) s p (2 * p) -> p = 1 \/ p = 3 \/ p = 5.
Proof.
  intros Hp R. destruct (even_odd_split p) as [(q & ->)|(q & ->)].
  - exfalso. apply (pf_even_period k q s ltac:(lia)). now replace (4 * q) with (2 * (2 * q)) by lia.
  - destruct (Nat.le_gt_cases 3 q) as [C|C]; [|lia]. exfalso. apply (pf_odd_period k q s C). now replace (4 * q + 2) with (2 * (2 * q + 1)) by lia.
Qed.
Lemma pf_long k p s : 1 <= p -> ~ rept (pf k) s p (2 * p + 2).
Proof.
  intros Hp R. assert (N : Nat.even p = false).
  { destruct (Nat.even p) eqn:Ep; [|reflexivity]. exfalso. apply Nat.even_spec in Ep. destruct Ep as (q & ->). apply (pf_even_period k q s ltac:(lia)). apply (rept_shorter _ _ _ _ _ R). lia. }
  destruct R as (B & R). rewrite pf_length in B. destruct k as [|k]; [cbn in B; lia|].
  assert (X : exists i, s <= i <= s + 1 /\ Nat.even i = true).
  { destruct (Nat.even s) eqn:Es; [exists s; split; [lia|exact Es]|exists (S s); split; [lia|rewrite Nat.even_succ, <- Nat.negb_even, Es; reflexivity]]. }
  destruct X as (i & I & Ei). assert (E : nth i (pf (S k)) 0 = nth (i + 2 * p) (pf (S k)) 0).
  { rewrite R by lia. rewrite R by lia. f_equal. lia. }
  apply pf_alt in E; [congruence|lia|exact Ei].
Qed.
(** powers *)
Definition has_power (w : str) (m : nat) : Prop := exists x u y, u <> [] /\ w = x ++ power u m ++ y.
Lemma has_power_rept w m : has_power w m -> exists s p, 1 <= p /\ rept w s p (m * p).
Proof.
  intros (x & u & y & N & ->). exists (length x), (length u). split; [destruct u; [congruence|cbn [length]; lia]|now apply power_rept].
Qed.
Lemma has_power_le w m m' : m <= m' -> has_power w m' -> has_power w m.
Proof.
  intros H (x & u & y & N & ->). exists x, u, (power u (m' - m) ++ y). split; [exact N|]. f_equal. rewrite app_assoc. f_equal.
  replace m' with (m + (m' - m)) at 1 by lia. induction m as [|m IH]; [reflexivity|]. clear IH.
  assert (G : forall a b, power u (a + b) = power u a ++ power u b) by (induction a as [|a IH]; intros b; [reflexivity|]; cbn [Nat.add power]; now rewrite IH, app_assoc). apply G.
Qed.
Lemma flat_power (h : nat -> str) u m : flat_map h (power u m) = power (flat_map h u) m.
Proof. induction m as [|m IH]; [reflexivity|]. cbn [power]. now rewrite flat_map_app, IH. Qed.
Lemma has_power_flat (h : nat -> str) w m : (forall c, h c <> []) -> has_power w m -> has_power (flat_map h w) m.
Proof.
  intros N (x & u & y & Nu & ->). exists (flat_map h x), (flat_map h u), (flat_map h y). split.
  - destruct u as [|c u]; [congruence|]. cbn [flat_map]. intros E. apply app_eq_nil in E. now apply (N c).
  - now rewrite !flat_map_app, flat_power.
Qed.
Definition reptb (w : str) (s p L : nat) : bool := forallb (fun i => nth i w 0 =? nth (i + p) w 0) (seq s (L - p)).
Definition powerb (w : str) (m : nat) : bool := existsb (fun p => existsb (fun s => reptb w s p (m * p)) (seq 0 (S (length w - m * p)))) (seq 1 (length w / m)).
Lemma no_power w m : 1 <= m -> powerb w m = false -> ~ has_power w m.
Proof.
  intros Hm H P. apply has_power_rept in P. destruct P as (s & p & Hp & B & R). apply Bool.not_true_iff_false in H. apply H. unfold powerb.
  apply existsb_exists. exists p. split; [apply in_seq; split; [exact Hp|]; enough (p <= length w / m) by lia; apply Nat.div_le_lower_bound; lia|].
  apply existsb_exists. exists s. split; [apply in_seq; lia|]. unfold reptb. apply forallb_forall. intros i Hi. apply in_seq in Hi. apply Nat.eqb_eq, R; lia.
Qed.
