(** ModelPar.v : /repo/src/unfinished/parallel.rs (the file is not listed in Cargo.toml; its functions are
    modelled as they stand). Threads are modelled as a transition system: one step of one thread at a time,
    in any order; [Mutex]/[RwLock] block, and are poisoned when a thread panics while holding them. *)
From Verif Require Import Base ModelIo ModelCore ModelMain.

(** parallel.rs:70-75 and 81-86, the comparison loop with [break]: does text[a+i] differ from text[b+i] for some
    i < n? (the counter is then incremented) *)
Definition differ_within (text : str) (a b n : nat) : res bool :=
  r <- for_ret (range 0 n) (fun i =>
    x <- get text (a + i) ;; y <- get text (b + i) ;;
    if negb (x =? y) then Ok (Some true) else Ok None) ;;
  Ok (match r with Some _ => true | None => false end).
(** parallel.rs:61-90 [number_distinct_lyndon_factors] *)
Definition number_distinct_lyndon_factors (text : str) : res nat :=
  if length text =? 0 then Ok 0 else
  conjugates <- duval text ;;
  if length conjugates =? 1 then Ok 1 else
  c1 <- get conjugates 1 ;; c0 <- get conjugates 0 ;;
  d <- sub_ c1 c0 ;;
  b <- (if negb (d =? 1 + c0) then Ok true else differ_within text 0 (c0 + 1) c0) ;;
  let counter := if b then 2 else 1 in
  n1 <- sub_ (length conjugates) 1 ;;
  for_in (range 1 n1) (fun it counter =>
    x <- get conjugates it ;; y <- get conjugates (it - 1) ;; z <- get conjugates (it + 1) ;;
    d <- sub_ x y ;; e <- sub_ z x ;;
    b <- (if negb (d =? e) then Ok true else differ_within text (y + 1) (x + 1) d) ;;
    Ok (if b then counter + 1 else counter)) counter.

(** core.rs [number_of_runs] on the bytes of a slice (as in [&mut bwt.as_slice()]) (parallel.rs:134, 142) *)
Definition runs_of_slice (b : str) : res nat := number_of_runs (S (length b)) (slice_reader b).

(** parallel.rs:131-151: the local computation of a worker for a word of the pattern length: the runs of
    its BWT and the least number of runs of the BBWT of a conjugate (at most [max_length]). The lines a
    worker prints on the way are not modelled. *)
Definition par_work (max_length : nat) (text : str) : res (nat * nat) :=
  bwt <- bwt_by_matrix_naive text ;;
  bwt_runs <- runs_of_slice bwt ;;
  assert_ (0 <? length text) ;;;
  lindex <- sub_ (length text) 1 ;;
  assert_ (lindex <? max_length) ;;;
  best <- loop (S (length text)) (fun '(it, best) =>
    '(o, it) <- cit_next it ;;
    match o with
    | None => Ok (Brk best)
    | Some conjugate =>
      bbwt <- bbwt_naive conjugate ;;
      bbwt_runs <- runs_of_slice bbwt ;;
      num_conjugates <- number_distinct_lyndon_factors conjugate ;;
      Ok (Cont (it, if bbwt_runs <? best then bbwt_runs else best))
    end) (cit_new text, max_length) ;;
  Ok (bwt_runs, best).

(** a lock protecting some data (parallel.rs:114-116) *)
Inductive lockst := Free | Held (owner : nat) | Poisoned.
(** what a worker thread of [main] is about to do (parallel.rs:122-166) *)
Inductive pc :=
| Fetch                        (* iterator_arc.lock().unwrap() *)
| Fetching                     (* holding it: iterator.next() and release *)
| Work (text : str)            (* parallel.rs:130-151 *)
| WantStats (r b : nat)        (* stats_arc.lock().unwrap() *)
| InStats (r b : nat)          (* holding it: stats[r][b] += 1 and release *)
| WantTotal                    (* total_counter_arc.write().unwrap() *)
| InTotal                      (* holding it: += 1 and release *)
| Finished                     (* after break *)
| Panicked.
(** the shared state, parallel.rs:114-117, and the threads *)
Record par := Par { p_iter : lwg; p_iter_lock : lockst;
                    p_stats : list (list nat); p_stats_lock : lockst;
                    p_total : nat; p_total_lock : lockst;
                    p_threads : list pc }.

(** parallel.rs:155 [stats[bwt_runs][best_bbwt_runs] += 1]; the i32 entries are unbounded here (main only
    counts words of length below 24, so they stay below 2^24) *)
Definition bump (stats : list (list nat)) (r b : nat) : res (list (list nat)) :=
  row <- get stats r ;; x <- get row b ;; row' <- set row b (x + 1) ;; set stats r row'.

(** one step of thread [i] in parallel.rs:122-165; None: the thread cannot move (blocked, finished, panicked) *)
Definition par_step (max_length pattern_length : nat) (i : nat) (s : par) : option par :=
  let '(Par it itl st stl tot totl ths) := s in
  match nth_error ths i with
  | Some Fetch =>
    match itl with
    | Free => Some (Par it (Held i) st stl tot totl (upd ths i Fetching))
    | Held _ => None
    | Poisoned => Some (Par it itl st stl tot totl (upd ths i Panicked))
    end
  | Some Fetching =>
    match lwg_next it with
    | Ok (Some text, it') => Some (Par it' Free st stl tot totl (upd ths i (Work text)))
    | Ok (None, it') => Some (Par it' Free st stl tot totl (upd ths i Finished))
    | _ => Some (Par it Poisoned st stl tot totl (upd ths i Panicked))
    end
  | Some (Work text) =>
    Some (Par it itl st stl tot totl (upd ths i (
      if length text =? pattern_length then
        match par_work max_length text with Ok (r, b) => WantStats r b | _ => Panicked end
      else Fetch)))
  | Some (WantStats r b) =>
    match stl with
    | Free => Some (Par it itl st (Held i) tot totl (upd ths i (InStats r b)))
    | Held _ => None
    | Poisoned => Some (Par it itl st stl tot totl (upd ths i Panicked))
    end
  | Some (InStats r b) =>
    match bump st r b with
    | Ok st' => Some (Par it itl st' Free tot totl (upd ths i WantTotal))
    | _ => Some (Par it itl st Poisoned tot totl (upd ths i Panicked))
    end
  | Some WantTotal =>
    match totl with
    | Free => Some (Par it itl st stl tot (Held i) (upd ths i InTotal))
    | Held _ => None
    | Poisoned => Some (Par it itl st stl tot totl (upd ths i Panicked))
    end
  | Some InTotal => Some (Par it itl st stl (tot + 1) Free (upd ths i Fetch))
  | Some Finished | Some Panicked | None => None
  end.
(** parallel.rs:114-168: the state after spawning [threads] workers *)
Definition par_init (max_length threads : nat) : par :=
  Par (lwg_new max_length 2) Free (repeat (repeat 0 (max_length + 1)) (max_length + 1)) Free 0 Free (repeat Fetch threads).
(** an execution: the threads named in the schedule move one after the other (parallel.rs:118-171) *)
Fixpoint par_run (max_length pattern_length : nat) (sched : list nat) (s : par) : option par :=
  match sched with
  | [] => Some s
  | i :: rest => match par_step max_length pattern_length i s with
                 | Some s' => par_run max_length pattern_length rest s'
                 | None => None
                 end
  end.
(** parallel.rs:169-179: all handles joined: what [main] then reads as statistics and total counter *)
Definition par_result (s : par) : option (list (list nat) * nat) :=
  if forallb (fun t => match t with Finished => true | _ => false end) (p_threads s)
  then Some (p_stats s, p_total s) else None.
