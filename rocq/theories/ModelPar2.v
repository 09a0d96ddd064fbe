(** ModelPar2.v : [max_lyndon_word] of /repo/src/unfinished/parallel.rs:244-375, as a transition system.
    The locks iterator, num_lyndon_words and total_counter are modelled one by one. The three win-counter
    mutexes and the best_* read-write locks are taken in one fixed order by everybody and released before the
    thread waits for anything else (or, in the printing block, are taken last): their critical sections are
    single steps here. MAX_LENGTH (40), the number of threads (4) and the printing interval (10000) are
    parameters. Printing itself has no effect on the state.
    [m_step] has unbounded counters; [p_step] at the end of the file is the program: its win counters and
    num_lyndon_words are i32 (the literals [0;MAX_LENGTH] are only incremented and printed), so an increment
    beyond 2147483647 panics (dev profile) and poisons the mutexes that are held. total_counter is a usize; its
    overflow (2^64 words) is not modelled. *)
From Verif Require Import Base ModelIo ModelCore ModelMain ModelPar.
From Coq Require Import NArith.

(** parallel.rs:15-18 [second_criteria] *)
Definition second_criteria (newtext oldtext : str) : bool :=
  length (filter (fun c => c =? 48) newtext) <? length (filter (fun c => c =? 48) oldtext).

(** best_bbwt_bwtrun[l], best_bbwt_bbwtrun[l], best_bbwt_text[l] (parallel.rs:254-261) *)
Record best := Best { b_bwt : nat; b_bbwt : nat; b_text : str }.
(** what a worker thread is about to do, with the lines of parallel.rs *)
Inductive mpc :=
| MFetch                                       (* iterator_arc.lock() *)
| MFetching                                    (* iterator.next() and release *)
| MStart (text : str)                          (* 294-299 *)
| MConj (text : str) (bwt_runs : nat) (it : cit)   (* the next conjugate: 303-312 *)
| MCheck (text : str) (bwt_runs : nat) (it : cit) (cj : str) (bbwt_runs : nat)  (* 314-327 *)
| MWrite (text : str) (bwt_runs : nat) (it : cit) (cj : str) (bbwt_runs : nat)  (* 328-339 *)
| MWantNum (lindex : nat)                      (* 343 *)
| MNum (lindex : nat)                          (* 344, holding num_lyndon_words *)
| MWantTotal                                   (* 346, holding num_lyndon_words *)
| MTotal                                       (* 347-348, holding both; then releases both *)
| MWantTotal2                                  (* 349 *)
| MTotal2                                      (* 350, holding total_counter *)
| MPrintWantNum                                (* 351, holding total_counter *)
| MPrint                                       (* 352-365, holding both; then releases both *)
| MFinished
| MPanicked.
(** the shared state, parallel.rs:250-271, and the threads *)
Record mst := Mst { m_iter : lwg; m_iter_lock : lockst;
                    m_bwt_win : list nat; m_bbwt_win : list nat; m_tie_win : list nat;
                    m_best : list best;
                    m_num : list nat; m_num_lock : lockst;
                    m_total : nat; m_total_lock : lockst;
                    m_threads : list mpc }.

(** [v[i] += 1]; for the overflow see [p_step] (parallel.rs:311, 344) *)
Definition incr (v : list nat) (i : nat) : res (list nat) := x <- get v i ;; set v i (x + 1).

(** parallel.rs:294-299: the runs of the BWT and the two assertions *)
Definition m_start (max_length : nat) (text : str) : res nat :=
  bwt <- bwt_by_matrix_naive text ;;
  bwt_runs <- runs_of_slice bwt ;;
  assert_ (0 <? length text) ;;;
  lindex <- sub_ (length text) 1 ;;
  assert_ (lindex <? max_length) ;;;
  Ok bwt_runs.
(** parallel.rs:303-312 for the next conjugate: None after the last one, otherwise the conjugate, the runs of
    its BBWT, and the counters after the update *)
Definition m_conj (text : str) (bwt_runs : nat) (it : cit) (w1 w2 w3 : list nat)
  : res (option (str * nat * (list nat * list nat * list nat)) * cit) :=
  '(o, it') <- cit_next it ;;
  match o with
  | None => Ok (None, it')
  | Some cj =>
    bbwt <- bbwt_naive cj ;;
    bbwt_runs <- runs_of_slice bbwt ;;
    lindex <- sub_ (length text) 1 ;;
    ws <- (if bwt_runs <? bbwt_runs then v <- incr w1 lindex ;; Ok (v, w2, w3)
           else if bbwt_runs <? bwt_runs then v <- incr w2 lindex ;; Ok (w1, v, w3)
           else v <- incr w3 lindex ;; Ok (w1, w2, v)) ;;
    Ok (Some (cj, bbwt_runs, ws), it')
  end.
(** parallel.rs:317-326: needs_change *)
Definition m_check (text : str) (bwt_runs : nat) (cj : str) (bbwt_runs : nat) (bs : list best) : res bool :=
  lindex <- sub_ (length text) 1 ;;
  b <- get bs lindex ;;
  d <- sub_ bwt_runs bbwt_runs ;;
  e <- sub_ (b_bwt b) (b_bbwt b) ;;
  Ok ((e <? d) || ((d =? e) && second_criteria cj (b_text b))).
(** parallel.rs:335-338 *)
Definition m_write (text : str) (bwt_runs : nat) (cj : str) (bbwt_runs : nat) (bs : list best) : res (list best) :=
  lindex <- sub_ (length text) 1 ;; set bs lindex (Best bwt_runs bbwt_runs cj).

(** one step of thread [i] in parallel.rs:283-369; None: the thread cannot move *)
Definition m_step (max_length interval : nat) (i : nat) (s : mst) : option mst :=
  let '(Mst it itl w1 w2 w3 bs num numl tot totl ths) := s in
  let go t := Some (Mst it itl w1 w2 w3 bs num numl tot totl (upd ths i t)) in
  match nth_error ths i with
  | Some MFetch =>
    match itl with
    | Free => Some (Mst it (Held i) w1 w2 w3 bs num numl tot totl (upd ths i MFetching))
    | Held _ => None
    | Poisoned => go MPanicked
    end
  | Some MFetching =>
    match lwg_next it with
    | Ok (Some text, it') => Some (Mst it' Free w1 w2 w3 bs num numl tot totl (upd ths i (MStart text)))
    | Ok (None, it') => Some (Mst it' Free w1 w2 w3 bs num numl tot totl (upd ths i MFinished))
    | _ => Some (Mst it Poisoned w1 w2 w3 bs num numl tot totl (upd ths i MPanicked))
    end
  | Some (MStart text) =>
    match m_start max_length text with
    | Ok bwt_runs => go (MConj text bwt_runs (cit_new text))
    | _ => go MPanicked
    end
  | Some (MConj text bwt_runs cit) =>
    match m_conj text bwt_runs cit w1 w2 w3 with
    | Ok (None, _) => go (MWantNum (length text - 1))
    | Ok (Some (cj, bbwt_runs, (v1, v2, v3)), cit') =>
      Some (Mst it itl v1 v2 v3 bs num numl tot totl (upd ths i
        (if bbwt_runs <? bwt_runs then MCheck text bwt_runs cit' cj bbwt_runs else MConj text bwt_runs cit')))
    | _ => go MPanicked
    end
  | Some (MCheck text bwt_runs cit cj bbwt_runs) =>
    match m_check text bwt_runs cj bbwt_runs bs with
    | Ok needs_change => go (if needs_change then MWrite text bwt_runs cit cj bbwt_runs else MConj text bwt_runs cit)
    | _ => go MPanicked
    end
  | Some (MWrite text bwt_runs cit cj bbwt_runs) =>
    match m_write text bwt_runs cj bbwt_runs bs with
    | Ok bs' => Some (Mst it itl w1 w2 w3 bs' num numl tot totl (upd ths i (MConj text bwt_runs cit)))
    | _ => go MPanicked
    end
  | Some (MWantNum lindex) =>
    match numl with
    | Free => Some (Mst it itl w1 w2 w3 bs num (Held i) tot totl (upd ths i (MNum lindex)))
    | Held _ => None
    | Poisoned => go MPanicked
    end
  | Some (MNum lindex) =>
    match incr num lindex with
    | Ok num' => Some (Mst it itl w1 w2 w3 bs num' numl tot totl (upd ths i MWantTotal))
    | _ => Some (Mst it itl w1 w2 w3 bs num Poisoned tot totl (upd ths i MPanicked))
    end
  | Some MWantTotal =>
    match totl with
    | Free => Some (Mst it itl w1 w2 w3 bs num numl tot (Held i) (upd ths i MTotal))
    | Held _ => None
    | Poisoned => Some (Mst it itl w1 w2 w3 bs num Poisoned tot totl (upd ths i MPanicked))
    end
  | Some MTotal => Some (Mst it itl w1 w2 w3 bs num Free (tot + 1) Free (upd ths i MWantTotal2))
  | Some MWantTotal2 =>
    match totl with
    | Free => Some (Mst it itl w1 w2 w3 bs num numl tot (Held i) (upd ths i MTotal2))
    | Held _ => None
    | Poisoned => go MPanicked
    end
  | Some MTotal2 =>
    if tot mod interval =? 0 then go MPrintWantNum
    else Some (Mst it itl w1 w2 w3 bs num numl tot Free (upd ths i MFetch))
  | Some MPrintWantNum =>
    match numl with
    | Free => Some (Mst it itl w1 w2 w3 bs num (Held i) tot totl (upd ths i MPrint))
    | Held _ => None
    | Poisoned => Some (Mst it itl w1 w2 w3 bs num numl tot Poisoned (upd ths i MPanicked))
    end
  | Some MPrint => Some (Mst it itl w1 w2 w3 bs num Free tot Free (upd ths i MFetch))
  | Some MFinished | Some MPanicked | None => None
  end.
(** parallel.rs:250-282: the state after spawning [threads] workers *)
Definition m_init (max_length threads : nat) : mst :=
  Mst (lwg_new max_length 2) Free (repeat 0 max_length) (repeat 0 max_length) (repeat 0 max_length)
      (repeat (Best 0 0 []) max_length) (repeat 0 max_length) Free 0 Free (repeat MFetch threads).
(** an execution of parallel.rs:273-374: the threads named in the schedule move one after the other *)
Fixpoint m_run (max_length interval : nat) (sched : list nat) (s : mst) : option mst :=
  match sched with
  | [] => Some s
  | i :: rest => match m_step max_length interval i s with
                 | Some s' => m_run max_length interval rest s'
                 | None => None
                 end
  end.
(** all handles joined (parallel.rs:372-374) *)
Definition m_done (s : mst) : bool := forallb (fun t => match t with MFinished => true | _ => false end) (m_threads s).

(** ** the program: the counters of parallel.rs:250-253 are i32 *)
Definition i32_max : N := 2147483647%N.
(** the i32 counters, parallel.rs:250-253 *)
Definition counters (s : mst) : list nat := m_bwt_win s ++ m_bbwt_win s ++ m_tie_win s ++ m_num s.
(** no counter of parallel.rs:250-253 exceeds i32::MAX *)
Definition i32s (s : mst) : bool := forallb (fun x => N.leb (N.of_nat x) i32_max) (counters s).
(** p_poison: the three win-counter mutexes are poisoned (they are always held together where a panic can occur) (parallel.rs:250-253, 306-312) *)
Record pst := Pst { p_st : mst; p_poison : bool }.
(** thread i panics while it holds none of the three modelled locks / num_lyndon_words / that and total_counter (a panic at parallel.rs:311 unwinds the thread) *)
Definition panic_none (i : nat) (s : mst) : mst :=
  let '(Mst it itl w1 w2 w3 bs num numl tot totl ths) := s in
  Mst it itl w1 w2 w3 bs num numl tot totl (upd ths i MPanicked).
(** a panic at parallel.rs:344 poisons num_lyndon_words *)
Definition panic_num (i : nat) (s : mst) : mst :=
  let '(Mst it itl w1 w2 w3 bs num numl tot totl ths) := s in
  Mst it itl w1 w2 w3 bs num Poisoned tot totl (upd ths i MPanicked).
(** a panic at parallel.rs:352-354 poisons num_lyndon_words and total_counter *)
Definition panic_both (i : nat) (s : mst) : mst :=
  let '(Mst it itl w1 w2 w3 bs num numl tot totl ths) := s in
  Mst it itl w1 w2 w3 bs num Poisoned tot Poisoned (upd ths i MPanicked).
(** one step of thread [i] in parallel.rs:283-369. MConj (303-312): if there is another conjugate the win mutexes
    are locked (which panics if they are poisoned) and a counter is incremented; MNum (344): num_lyndon_words is
    incremented; MPrint (351-365): the win mutexes are locked *)
Definition p_step (max_length interval : nat) (i : nat) (p : pst) : option pst :=
  let '(Pst s poison) := p in
  match m_step max_length interval i s with
  | None => None
  | Some s' =>
    match nth_error (m_threads s) i with
    | Some (MConj _ _ _) =>
      match nth_error (m_threads s') i with
      | Some (MConj _ _ _) | Some (MCheck _ _ _ _ _) =>
        if poison then Some (Pst (panic_none i s) true)
        else if i32s s' then Some (Pst s' false)
        else Some (Pst (panic_none i s) true)
      | _ => Some (Pst s' poison)
      end
    | Some (MNum _) => if i32s s' then Some (Pst s' poison) else Some (Pst (panic_num i s) poison)
    | Some MPrint => if poison then Some (Pst (panic_both i s) true) else Some (Pst s' poison)
    | _ => Some (Pst s' poison)
    end
  end.
(** parallel.rs:250-282 *)
Definition p_init (max_length threads : nat) : pst := Pst (m_init max_length threads) false.
(** an execution of the program, parallel.rs:273-374 *)
Fixpoint p_run (max_length interval : nat) (sched : list nat) (p : pst) : option pst :=
  match sched with
  | [] => Some p
  | i :: rest => match p_step max_length interval i p with
                 | Some p' => p_run max_length interval rest p'
                 | None => None
                 end
  end.
(** parallel.rs:372-374: all handles joined *)
Definition p_done (p : pst) : bool := m_done (p_st p).
