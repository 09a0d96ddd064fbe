(** SpecStatus.v : specification vocabulary for the status messages of unfinished/parallel.rs, max_lyndon_word (no model
    functions). *)
From Verif Require Import Base SpecStr SpecBwt SpecIo SpecMain SpecPar SpecProbe.

(** the numbers of one message; the functions are indexed by the length of the words *)
Record status := Status { st_total : nat; st_words : nat -> nat; st_bwt_wins : nat -> nat; st_bbwt_wins : nat -> nat; st_ties : nat -> nat;
                          st_text : nat -> str; st_bwt_runs : nat -> nat; st_bbwt_runs : nat -> nat }.

(** ** how it is written *)
(** the two lines with the label [k]: they show the numbers for the length k+1 *)
Definition status_lines (c : status) (k : nat) (two : list str) : Prop :=
  exists dk dn d1 d2 d3 dr db, is_decimal dk k /\ is_decimal dn (st_words c (k + 1)) /\
    is_decimal d1 (st_bwt_wins c (k + 1)) /\ is_decimal d2 (st_bbwt_wins c (k + 1)) /\ is_decimal d3 (st_ties c (k + 1)) /\
    is_decimal dr (st_bwt_runs c (k + 1)) /\ is_decimal db (st_bbwt_runs c (k + 1)) /\
    two = [ascii "length=" ++ dk ++ ascii " lyndon_words=" ++ dn ++ ascii " bwt_wins=" ++ d1 ++ ascii " bbwt_wins=" ++ d2 ++ ascii " ties=" ++ d3;
           ascii "length=" ++ dk ++ ascii " text=" ++ ab (st_text c (k + 1)) ++ ascii " bwt_runs=" ++ dr ++ ascii " bbwt_runs=" ++ db].
(** a message with the labels first .. max-1 *)
Definition status_message (first max : nat) (c : status) (text : str) : Prop :=
  exists dt ls, is_decimal dt (st_total c) /\ Forall2 (status_lines c) (seq first (max - first)) ls /\
    text = lines ((ascii "total_count=" ++ dt) :: concat ls).

(** ** what it says *)
(** all binary Lyndon words of length at most max, in lexicographic order *)
Definition all_words (max : nat) (L : list str) : Prop :=
  StronglySorted lex_lt L /\ forall w, In w L <-> lyndon w /\ length w <= max /\ Forall (fun c => c < 2) w.
(** exactly n members of F have length p *)
Definition of_length (F : list str) (p n : nat) : Prop := n = length (filter (fun w => length w =? p) F).
(** exactly n pairs (member w of F of length p, conjugate index i) have P (runs of the BWT of w) (runs of the bijective
    BWT of the conjugate of w starting at i) *)
Definition conjugates_in (F : list str) (p : nat) (P : nat -> nat -> Prop) (n : nat) : Prop :=
  exists Q : list (str * nat), NoDup Q /\ length Q = n /\ forall w i, In (w, i) Q <->
    In w F /\ length w = p /\ i < p /\ exists r b, bwt_runs_of w r /\ bbwt_runs_of (rot i w) b /\ P r b.
(** shown is n, but for what at most k of the workers still have to add, m at most each *)
Definition up_to (k m shown n : nat) : Prop := shown <= n <= shown + k * m.
(** the numbers of a message while F, the lexicographically first words, has been handed out to the workers, of whom
    at most [busy] have not finished their word *)
Definition status_true (max busy : nat) (F : list str) (c : status) : Prop :=
  up_to busy 1 (st_total c) (length F) /\
  list_sum (map (st_words c) (seq 1 max)) = st_total c /\
  forall p, 1 <= p <= max ->
    (exists n, of_length F p n /\ up_to busy 1 (st_words c p) n) /\
    (exists n, conjugates_in F p (fun r b => r < b) n /\ up_to busy p (st_bwt_wins c p) n) /\
    (exists n, conjugates_in F p (fun r b => b < r) n /\ up_to busy p (st_bbwt_wins c p) n) /\
    (exists n, conjugates_in F p (fun r b => r = b) n /\ up_to busy p (st_ties c p) n) /\
    p * st_words c p <= st_bwt_wins c p + st_bbwt_wins c p + st_ties c p /\
    ((st_text c p = [] /\ st_bwt_runs c p = 0 /\ st_bbwt_runs c p = 0) \/
     exists w i, binary_lyndon p w /\ i < p /\ st_text c p = rot i w /\ bwt_runs_of w (st_bwt_runs c p) /\
       bbwt_runs_of (rot i w) (st_bbwt_runs c p) /\ st_bbwt_runs c p < st_bwt_runs c p).
