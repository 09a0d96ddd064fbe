(** PropsTextRuns.v : property theorems C120: what count_runs prints bounds what the other tools print.
    [sort] stands for cdivsufsort; [naive_sort] is an instance. *)
From Verif Require Import Base SpecStr LexFacts ModelIo SpecIo ModelCore PermFacts SortFacts LcpProof ModelLz SpecLz LzProof MusProof RunFacts LexRuns
  ModelMain MainProof2 SpecMain SpecBwt BwtFacts BwtProof PropsLyndon PropsLz PropsRel PropsMusRuns TextRuns TextRuns2 LynFam5.
From Coq Require Import NArith.

(** count_runs reads the text from any reader *)
Lemma rho_of rd s fuel : delivers rd s -> length s < fuel -> number_of_runs fuel rd = Ok (length (runs s)).
Proof. apply number_of_runs_ok. Qed.
(** at most two LZ77 factors per run of equal letters *)
Theorem C120_count_z : forall sort s rd fuel, (forall t, is_suffix_array t (sort t)) -> s <> [] -> bytes s ->
  (N.of_nat (length s) < 2^32)%N -> delivers rd s -> length s < fuel ->
  exists fs rho, count_z_main sort s = Ok fs /\ number_of_runs fuel rd = Ok rho /\ length fs <= 2 * rho.
Proof.
  intros sort s rd fuel Hs Hne Hb Hn HD Hf. destruct (z_spec sort s Hs Hne Hb Hn) as (fs & E & _ & M & _).
  clear Hn. exists fs, (length (runs s)). split; [exact E|]. split; [now apply rho_of|].
  destruct (z_runs s) as (k & K & P). specialize (M k P). lia.
Qed.
Print Assumptions C120_count_z.
(** at most two lexparse factors per run *)
Theorem C120_count_lexparse : forall sort s rd fuel, (forall t, is_suffix_array t (sort t)) -> s <> [] ->
  delivers rd s -> length s < fuel ->
  exists fs rho, count_lexparse_main sort s = Ok fs /\ number_of_runs fuel rd = Ok rho /\ length fs <= 2 * rho.
Proof.
  intros sort s rd fuel Hs Hne HD Hf. destruct (v_runs sort s Hs Hne) as (fs & E & L).
  exists fs, (length (runs s)). split; [exact E|]. split; [now apply rho_of|exact L].
Qed.
Print Assumptions C120_count_lexparse.
Lemma runs_snoc s : s <> [] -> ~ In 0 s -> length (runs (s ++ [0])) = S (length (runs s)).
Proof.
  intros Hne Hz. induction s as [|a s IH]; [contradiction|]. destruct s as [|b s].
  - cbn [app]. rewrite runs_cons. destruct (Nat.eqb_spec 0 a) as [E|_]; [exfalso; apply Hz; now left|reflexivity].
  - cbn [app]. cbn [app] in IH. rewrite !runs_cons, IH; [lia|discriminate|]. intros H. apply Hz. now right.
Qed.
(** the BWT has at most 2 rho + 1 runs, the end marker included *)
Theorem C120_count_r : forall sort s rd fuel, (forall t, is_suffix_array t (sort t)) -> s <> [] -> Forall (fun x => x <> 0) s ->
  delivers rd s -> length s < fuel ->
  exists r rho, count_r_main sort true s 0 false false = Ok (S (length s), r) /\ number_of_runs fuel rd = Ok rho /\ r <= 2 * rho + 1.
Proof.
  intros sort s rd fuel Hs Hne HF HD Hf.
  assert (Hz : ~ In 0 s) by (intros H; rewrite Forall_forall in HF; exact (HF 0 H eq_refl)).
  exists (length (runs (sa_letters (s ++ [0]) (sort (s ++ [0]))))), (length (runs s)).
  split; [now apply r_of_text|]. split; [now apply rho_of|].
  assert (Hne' : s ++ [0] <> []) by (destruct s; easy). specialize (Hs (s ++ [0])).
  destruct (lcp_structures' (s ++ [0]) (sort (s ++ [0])) Hne' Hs) as (isa & phi & plcp & lcp & E1 & E2 & E3 & E4 & HPi & HPp & Lp & Ll & Hi1 & Hi2 & Hp1 & Hp0 & Hplcp & _ & _).
  assert (G : length (runs (sa_letters (s ++ [0]) (sort (s ++ [0])))) + 1 <= 2 * length (runs (s ++ [0]))).
  { eapply (bwt_runs s Hz Hne (sort (s ++ [0])) isa phi plcp); eauto. }
  rewrite runs_snoc in G by auto. lia.
Qed.
Print Assumptions C120_count_r.
(** so mus reports at most 4 rho - 1 pairs *)
Theorem C120_mus : forall sort s rd fuel, (forall t, is_suffix_array t (sort t)) -> s <> [] -> Forall (fun x => x <> 0) s ->
  delivers rd s -> length s < fuel ->
  exists L rho, mus_main sort (s ++ [0]) = Ok L /\ number_of_runs fuel rd = Ok rho /\ length L + 1 <= 4 * rho.
Proof.
  intros sort s rd fuel Hs Hne HF HD Hf. destruct (C119_how_many sort s Hs Hne HF) as (L & r & E & Er & _ & B).
  destruct (C120_count_r sort s rd fuel Hs Hne HF HD Hf) as (r' & rho & Er' & Erho & B').
  rewrite Er in Er'. injection Er' as <-. exists L, rho. split; [exact E|]. split; [exact Erho|]. lia.
Qed.
Print Assumptions C120_mus.
(** the Lyndon factors duval finds: at most one kind per run *)
Theorem C120_lyndon : forall s rd fuel, delivers rd s -> length s < fuel ->
  exists fs rho, duval s = Ok (ends_from 0 fs) /\ lyndon_factorization s fs /\ number_of_runs fuel rd = Ok rho /\
    length (nodup (list_eq_dec Nat.eq_dec) fs) <= rho.
Proof.
  intros s rd fuel HD Hf. destruct (C01_duval_is_lyndon_factorization s) as (ends & fs & E & HL & ->).
  exists fs, (length (runs s)). split; [exact E|]. split; [exact HL|]. split; [now apply rho_of|].
  destruct HL as (Ec & H1 & H2). rewrite <- Ec. now apply lyndon_distinct.
Qed.
Print Assumptions C120_lyndon.
(** repetitions counted, the number of Lyndon factors is not bounded by the runs *)
Theorem C120_lyndon_repeated : forall n rd fuel, 0 < n -> delivers rd (repeat 97 n) -> n < fuel ->
  exists ends, duval (repeat 97 n) = Ok ends /\ length ends = n /\ number_of_runs fuel rd = Ok 1.
Proof.
  intros n rd fuel Hn HD Hf. destruct (C01_duval_is_lyndon_factorization (repeat 97 n)) as (ends & fs & E & HL & ->).
  exists (ends_from 0 fs). split; [exact E|]. rewrite (C02_duval_unique _ _ _ E (rep_factors n)). split.
  - assert (G : forall m k, length (ends_from k (repeat [97] m)) = m) by (induction m as [|m IH]; intros k; cbn [repeat ends_from length]; [reflexivity|now rewrite IH]). apply G.
  - rewrite (rho_of rd (repeat 97 n) fuel HD) by now rewrite repeat_length. f_equal.
    clear -Hn. destruct n as [|n]; [lia|]. clear Hn. induction n as [|n IH]; [reflexivity|].
    cbn [repeat] in *. rewrite runs_cons, IH. reflexivity.
Qed.
Print Assumptions C120_lyndon_repeated.
(** the bounds for z and for the different Lyndon factors are met; more Lyndon factors than runs *)
Example C120_case :
  let s := [98;98;97;97;97] in
  number_of_runs 9 (reader_of s) = Ok 2 /\ count_z_main naive_sort s = Ok [LZ 98 0; LZ 1 1; LZ 97 0; LZ 1 2] /\
  duval s = Ok [0;1;2;3;4].
Proof. vm_compute. repeat split. Qed.
(** the bounds for v and r are met *)
Example C120_case_r :
  let s := [97;97;98;98] in
  number_of_runs 9 (reader_of s) = Ok 2 /\ (exists f, count_lexparse_main naive_sort s = Ok f /\ length f = 4) /\
  count_r_main naive_sort true s 0 false false = Ok (5, 5).
Proof. vm_compute. repeat split. eexists. split; reflexivity. Qed.
