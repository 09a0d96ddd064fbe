(** PropsLwg.v : property theorems C106, the time of the generator of Lyndon words over a whole run. *)
From Verif Require Import Base SpecStr SpecCost ModelCore ModelLz ModelAttr ModelCost.
From Verif Require Import LexFacts LwgProof LwgCount LwgCost.

(** the words over sigma letters (0, ..., sigma-1) of length at most n that are Lyndon words, each once *)
Definition all_lyndon (n sigma : nat) (L : list str) : Prop :=
  NoDup L /\ forall w, In w L <-> lyndon w /\ length w <= n /\ Forall (fun c => c < sigma) w.
(** the sum of the lengths of the words *)
Definition letters (L : list str) : nat := list_sum (map (@length nat) L).

(** the exact number of steps of a whole run, up to and including the call that returns None *)
Theorem C106_exact_total : forall n sigma, 1 <= n -> 1 <= sigma <= 256 -> exists L c, all_lyndon n sigma L /\
  total lwg_next_c (length L + 1) (lwg_new n sigma) = Ok (map Some L ++ [None], c) /\
  c + letters L = 2 * (n + 1) * length L + 1.
Proof.
  intros n sigma Hn Hs. destruct (lwg_total n sigma Hn Hs) as (L & c & HN & _ & HI & HT & HC). exists L, c.
  split; [split; [exact HN|exact HI]|]. rewrite Nat.add_1_r. split; [exact HT|exact HC].
Qed.
Print Assumptions C106_exact_total.
(** with at least two letters, the steps other than copying out the words are at most 8 per word (and one more) *)
Theorem C106_constant_average : forall n sigma L c, 1 <= n -> 2 <= sigma <= 256 -> all_lyndon n sigma L ->
  (exists out, total lwg_next_c (length L + 1) (lwg_new n sigma) = Ok (out, c)) -> c <= letters L + 8 * length L + 1.
Proof.
  intros n sigma L c Hn Hs HL (out & HO). destruct (lwg_total n sigma Hn ltac:(lia)) as (L' & c' & HN & _ & HI & HT & HC).
  assert (E' : enum n sigma L') by (split; [exact HN|exact HI]).
  assert (P := enum_same n sigma L L' HL E'). assert (EL := Permutation.Permutation_length P).
  rewrite Nat.add_1_r, EL, HT in HO. injection HO as _ ->.
  assert (S1 := slack_bound sigma Hs n L' Hn E').
  assert (S2 := slack_length n L' (fun w Hw => proj1 (proj2 (proj1 (HI w) Hw)))).
  assert (E1 : letters L = letters L').
  { unfold letters. apply Permutation.Permutation_map with (f := @length nat) in P. clear - P.
    induction P; unfold list_sum in *; cbn [fold_right] in *; lia. }
  rewrite E1, EL. unfold letters. clear - S1 S2 HC. set (q := list_sum (map (@length nat) L')) in *.
  change (map (@length nat) L') with (map (@length nat) L') in *. lia.
Qed.
Print Assumptions C106_constant_average.
(** so almost all words have almost full length, and copying them out is what takes the time: the average over all words
    of the steps of a call, copying included, is at least n - 3 *)
Theorem C106_copy_average : forall n sigma L c, 1 <= n -> 2 <= sigma <= 256 -> all_lyndon n sigma L ->
  (exists out, total lwg_next_c (length L + 1) (lwg_new n sigma) = Ok (out, c)) ->
  (n - 3) * length L <= letters L <= n * length L /\ (n - 3) * length L <= c <= (n + 8) * length L + 1.
Proof.
  intros n sigma L c Hn Hs HL HO. pose proof (C106_constant_average n sigma L c Hn Hs HL HO) as U. destruct HO as (out & HO).
  destruct (lwg_total n sigma Hn ltac:(lia)) as (L' & c' & HN & _ & HI & HT & HC).
  assert (E' : enum n sigma L') by (split; [exact HN|exact HI]).
  assert (P := enum_same n sigma L L' HL E'). assert (EL := Permutation.Permutation_length P).
  rewrite Nat.add_1_r, EL, HT in HO. injection HO as _ ->.
  assert (S1 := slack_bound sigma Hs n L Hn HL).
  assert (S2 := slack_length n L (fun w Hw => proj1 (proj2 (proj1 (proj2 HL w) Hw)))).
  assert (S3 := slack_length n L' (fun w Hw => proj1 (proj2 (proj1 (HI w) Hw)))).
  fold (letters L) in S2. fold (letters L') in S3, HC.
  assert (M : (n - 3) * length L + slack n L <= n * length L + 0 \/ n <= 3) by nia.
  clear - S1 S2 S3 HC U M EL. rewrite <- EL in *. nia.
Qed.
Print Assumptions C106_copy_average.
(** the documented claim as it stands, no constant times the number of words bounds the steps *)
Theorem C106_plain_claim_refuted : forall K, exists n L c out, 1 <= n /\ all_lyndon n 2 L /\
  total lwg_next_c (length L + 1) (lwg_new n 2) = Ok (out, c) /\ K * length L < c.
Proof.
  intros K. destruct (C106_exact_total (K + 4) 2) as (L & c & HL & HT & _); [lia|lia|].
  destruct (C106_copy_average (K + 4) 2 L c ltac:(lia) ltac:(lia) HL (ex_intro _ _ HT)) as (_ & HC & _).
  exists (K + 4), L, c, (map Some L ++ [None]). split; [lia|]. split; [exact HL|]. split; [exact HT|].
  assert (1 <= length L).
  { destruct HL as (_ & HL). assert (I0 : In [0] L) by (apply HL; split; [apply lyndon_single|split; [cbn [length]; lia|repeat constructor; lia]]).
    destruct L; [easy|cbn [length]; lia]. }
  nia.
Qed.
Print Assumptions C106_plain_claim_refuted.
(** over one letter there is one word, and getting past it takes 2 n + 2 steps *)
Theorem C106_one_letter : forall n, 1 <= n -> total lwg_next_c 2 (lwg_new n 1) = Ok ([Some [0]; None], 2 * n + 2).
Proof.
  intros n Hn. destruct (C106_exact_total n 1 Hn ltac:(lia)) as (L & c & (HN & HI) & HT & HC).
  assert (E : L = [[0]]).
  { assert (A : forall w, In w L -> w = [0]).
    { intros w Hw. apply HI in Hw. destruct Hw as (HL & _ & HO).
      assert (Z : forall i, i < length w -> nth i w 0 = 0) by (intros i Hi; pose proof (over_nth 1 w i HO Hi); lia).
      pose proof (lyndon_length w HL) as Hp. destruct (Nat.eq_dec (length w) 1) as [L1|L1].
      - destruct w as [|x [|y w]]; try discriminate. specialize (Z 0 Hp). cbn [nth] in Z. now subst x.
      - apply lyndon_idx in HL. destruct HL as [_ HL]. destruct (HL 1 ltac:(lia)) as (y & Hy & _ & Ly). rewrite !Z in Ly by lia. lia. }
    assert (I0 : In [0] L) by (apply HI; split; [apply lyndon_single|split; [cbn [length]; lia|repeat constructor]]).
    destruct L as [|w [|v L]]; [easy| |].
    - now rewrite (A w (or_introl eq_refl)).
    - exfalso. rewrite (A w (or_introl eq_refl)), (A v (or_intror (or_introl eq_refl))) in HN. inversion HN as [|? ? Hx _]. apply Hx. now left. }
  subst L. cbn [length plus map app] in HT. rewrite HT. unfold letters, list_sum in HC. cbn [map fold_right length] in HC. do 2 f_equal. lia.
Qed.
Print Assumptions C106_one_letter.

Example C106_case :
  total lwg_next_c 9 (lwg_new 4 2) = Ok ([Some [0]; Some [0;0;0;1]; Some [0;0;1]; Some [0;0;1;1]; Some [0;1]; Some [0;1;1]; Some [0;1;1;1]; Some [1]; None], 59)
  /\ letters [[0]; [0;0;0;1]; [0;0;1]; [0;0;1;1]; [0;1]; [0;1;1]; [0;1;1;1]; [1]] = 22 /\ 59 + 22 = 2 * (4 + 1) * 8 + 1.
Proof. vm_compute. repeat split. Qed.
