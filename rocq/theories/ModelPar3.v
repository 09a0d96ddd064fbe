(** ModelPar3.v : what [max_lyndon_word] of /repo/src/unfinished/parallel.rs prints (lines 350-367). The states and steps
    are those of ModelPar2.v; a block is printed by a worker that holds total_counter, num_lyndon_words, the win counters
    and the best_* locks, so blocks of different workers do not interleave. Write errors on standard output are not
    modelled. The constants 20 (first) and 40 (max_length) are parameters. *)
From Verif Require Import Base ModelIo ModelCore ModelMain ModelPar ModelPar2 ModelProbe ModelResult.
Import String.StringSyntax.

(** parallel.rs:361, "length={} lyndon_words={} bwt_wins={} bbwt_wins={} ties={}" *)
Definition count_line (length num w1 w2 w3 : nat) : str :=
  println (lit "length=" ++ dec_usize length ++ lit " lyndon_words=" ++ dec_usize num ++ lit " bwt_wins=" ++ dec_usize w1
    ++ lit " bbwt_wins=" ++ dec_usize w2 ++ lit " ties=" ++ dec_usize w3).
(** parallel.rs:363, "length={} text={} bwt_runs={} bbwt_runs={}" *)
Definition best_line (length : nat) (b : best) : str :=
  println (lit "length=" ++ dec_usize length ++ lit " text=" ++ binary_vector_to_str (b_text b)
    ++ lit " bwt_runs=" ++ dec_usize (b_bwt b) ++ lit " bbwt_runs=" ++ dec_usize (b_bbwt b)).
(** parallel.rs:358-364; the counters are i32, never negative *)
Definition status_block (first max_length : nat) (s : mst) : res str :=
  for_in (range first max_length) (fun length out =>
    b <- get (m_best s) length ;;
    n <- get (m_num s) length ;;
    w1 <- get (m_bwt_win s) length ;; w2 <- get (m_bbwt_win s) length ;; w3 <- get (m_tie_win s) length ;;
    Ok (out ++ count_line length n w1 w2 w3 ++ best_line length b))
   (println (lit "total_count=" ++ dec_usize (m_total s))).
(** a step of the program ([p_step] of ModelPar2.v) with the block printed by it, if any (350-365: printing comes after
    the win mutexes have been locked, which panics if they are poisoned) (parallel.rs:350-365) *)
Definition out_step (max_length interval first : nat) (i : nat) (p : pst) : option (pst * list (res str)) :=
  match p_step max_length interval i p with
  | None => None
  | Some p' =>
    Some (p', match nth_error (m_threads (p_st p)) i with
              | Some MPrint => if p_poison p then [] else [status_block first max_length (p_st p)]
              | _ => []
              end)
  end.
(** an execution with the blocks printed, in order (parallel.rs:349-365) *)
Fixpoint out_run (max_length interval first : nat) (sched : list nat) (p : pst) : option (pst * list (res str)) :=
  match sched with
  | [] => Some (p, [])
  | i :: rest => match out_step max_length interval first i p with
                 | Some (p', b) => match out_run max_length interval first rest p' with
                                   | Some (p'', bs) => Some (p'', b ++ bs)
                                   | None => None
                                   end
                 | None => None
                 end
  end.
