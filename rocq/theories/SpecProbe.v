(** SpecProbe.v : specification vocabulary for what unfinished/parallel.rs prints (no model functions). *)
From Verif Require Import Base SpecStr SpecBwt SpecIo SpecMain SpecPar.

(** a binary word written with the letters a and b *)
Definition ab (w : str) : str := map (fun c => match c with O => 97 | _ => 98 end) w.

(** "text=<w> conj=<w> rbwt=<r> rbbwt=<r>" with r the number of runs of the BWT of w *)
Definition is_probe_line (w l : str) : Prop :=
  exists r d, bwt_runs_of w r /\ is_decimal d r /\
    l = ascii "text=" ++ ab w ++ ascii " conj=" ++ ab w ++ ascii " rbwt=" ++ d ++ ascii " rbbwt=" ++ d.
(** the BWT of w has at least [threshold] runs, and no conjugate of w has a bijective BWT with fewer runs *)
Definition unbeaten (threshold : nat) (w : str) : Prop :=
  exists r, bwt_runs_of w r /\ threshold <= r /\ forall i b, i < length w -> bbwt_runs_of (rot i w) b -> r <= b.

(** what [number_distinct_lyndon_factors] reports (C65): the number d of distinct Lyndon factors of w, or one less when the
    first two factors differ exactly in their last letter *)
Definition reported_factors (w : str) (d : nat) : Prop :=
  exists fs, lyndon_factorization w fs /\
    (~ first_two_differ_in_last_letter fs -> distinct_members fs d) /\
    (first_two_differ_in_last_letter fs -> distinct_members fs (d + 1)).
(** "bbwt=<b> conjugate=<c> bbwt_runs=<r> #factors=<d>" with b the bijective BWT of the conjugate c *)
Definition is_worker_line (c l : str) : Prop :=
  exists b rs d dr dd, is_bijective_bwt c b /\ is_runs b rs /\ reported_factors c d /\
    is_decimal dr (length rs) /\ is_decimal dd d /\
    l = ascii "bbwt=" ++ ab b ++ ascii " conjugate=" ++ ab c ++ ascii " bbwt_runs=" ++ dr ++ ascii " #factors=" ++ dd.
(** the bijective BWT of c has at most one run more than the reported number of factors *)
Definition few_runs (c : str) : Prop := exists b d, bbwt_runs_of c b /\ reported_factors c d /\ b <= d + 1.

(** a table cell: the number right-aligned in [width] columns, and a bar *)
Definition is_cell (width n : nat) (s : str) : Prop :=
  exists d k, is_decimal d n /\ s = repeat 32 k ++ d ++ ascii "|" /\ length s = width + 1.
Definition is_row (width : nat) (ns : list nat) (l : str) : Prop :=
  exists cells, Forall2 (is_cell width) ns cells /\ l = concat cells.
