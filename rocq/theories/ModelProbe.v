(** ModelProbe.v : the rest of /repo/src/unfinished/parallel.rs: [binary_vector_to_str], what the workers of [main]
    print, the table printed by [main], and [probe_main]. (The file is not listed in Cargo.toml; its functions are
    modelled as they stand. Write errors on standard output are not modelled.) *)
From Verif Require Import Base ModelIo ModelCore ModelMain ModelPar.

(** parallel.rs:20-26 [binary_vector_to_str] *)
Definition binary_vector_to_str (text : str) : str := map (fun c => if c =? 0 then 97 else 98) text.

(** parallel.rs:145, the line printed for a conjugate:
    "bbwt={} conjugate={} bbwt_runs={} #factors={}" *)
Definition worker_line (bbwt conjugate : str) (bbwt_runs num_conjugates : nat) : str :=
  println ([98;98;119;116;61] ++ binary_vector_to_str bbwt ++ [32;99;111;110;106;117;103;97;116;101;61]
    ++ binary_vector_to_str conjugate ++ [32;98;98;119;116;95;114;117;110;115;61] ++ dec_usize bbwt_runs
    ++ [32;35;102;97;99;116;111;114;115;61] ++ dec_usize num_conjugates).
(** parallel.rs:131-151: as [par_work] of ModelPar.v, with the lines printed on the way. (Lines of different
    workers may interleave on the terminal; here they are those of one call.) *)
Definition par_work_out (max_length : nat) (text : str) : res (nat * nat * str) :=
  bwt <- bwt_by_matrix_naive text ;;
  bwt_runs <- runs_of_slice bwt ;;
  assert_ (0 <? length text) ;;;
  lindex <- sub_ (length text) 1 ;;
  assert_ (lindex <? max_length) ;;;
  '(best, out) <- loop (S (length text)) (fun '(it, best, out) =>
    '(o, it) <- cit_next it ;;
    match o with
    | None => Ok (Brk (best, out))
    | Some conjugate =>
      bbwt <- bbwt_naive conjugate ;;
      bbwt_runs <- runs_of_slice bbwt ;;
      num_conjugates <- number_distinct_lyndon_factors conjugate ;;
      let out := if bbwt_runs <=? num_conjugates + 1
                 then out ++ worker_line bbwt conjugate bbwt_runs num_conjugates else out in
      Ok (Cont (it, if bbwt_runs <? best then bbwt_runs else best, out))
    end) (cit_new text, max_length, []) ;;
  Ok (bwt_runs, best, out).

(** [print!("{number:>width$}|")]: right-aligned, never truncated (parallel.rs:194, 198, 200) *)
Definition cell (width n : nat) : str := let d := dec_usize n in repeat 32 (width - length d) ++ d ++ [124].
(** parallel.rs:178-204: what [main] prints after joining the workers *)
Definition par_table (max_length pattern_length : nat) (stats : list (list nat)) (total : nat) : res str :=
  max_val <- for_in (range 0 max_length) (fun br max_val =>
    for_in (range 0 max_length) (fun bbr max_val =>
      row <- get stats br ;; x <- get row bbr ;;
      Ok (if max_val <? x then x else max_val)) max_val) 0 ;;
  let width := Nat.max 2 (length (dec_usize max_val)) in
  let out := println ([98;105;110;97;114;121;32;115;116;114;105;110;103;32;108;101;110;103;116;104;58;32]
                      ++ dec_usize pattern_length ++ [32])
          ++ println ([98;119;116;32;92;32;98;98;119;116;32;58;32;35;61;32] ++ dec_usize total) in
  out <- for_in (range 0 max_length) (fun br out => Ok (out ++ cell width br)) out ;;
  let out := out ++ println [] in
  for_in (range 1 max_length) (fun br out =>
    let out := out ++ cell width br in
    out <- for_in (range 1 max_length) (fun bbr out =>
      row <- get stats br ;; x <- get row bbr ;; Ok (out ++ cell width x)) out ;;
    Ok (out ++ println [])) out.

(** parallel.rs:238, "text={} conj={} rbwt={} rbbwt={}" *)
Definition probe_line (text conj : str) (rbwt rbbwt : nat) : str :=
  println ([116;101;120;116;61] ++ binary_vector_to_str text ++ [32;99;111;110;106;61] ++ binary_vector_to_str conj
    ++ [32;114;98;119;116;61] ++ dec_usize rbwt ++ [32;114;98;98;119;116;61] ++ dec_usize rbbwt).
(** parallel.rs:214-240: the body of the loop over the Lyndon words: the bytes printed. The counter [bbwt_wins]
    is an i32 and at most the number of conjugates. *)
Definition probe_word (max_length threshold : nat) (text : str) : res str :=
  bwt <- bwt_by_matrix_naive text ;;
  bwt_runs <- runs_of_slice bwt ;;
  assert_ (0 <? length text) ;;;
  lindex <- sub_ (length text) 1 ;;
  assert_ (lindex <? max_length) ;;;
  '(bbwt_wins, best_conjugate, best_bbwt_runs) <-
   loop (S (length text)) (fun '(it, bbwt_wins, best_conjugate, best_bbwt_runs) =>
    '(o, it) <- cit_next it ;;
    match o with
    | None => Ok (Brk (bbwt_wins, best_conjugate, best_bbwt_runs))
    | Some conjugate =>
      bbwt <- bbwt_naive conjugate ;;
      bbwt_runs <- runs_of_slice bbwt ;;
      let bbwt_wins := if bbwt_runs <? bwt_runs then bbwt_wins + 1 else bbwt_wins in
      if bbwt_runs <? best_bbwt_runs then Ok (Cont (it, bbwt_wins, conjugate, bbwt_runs))
      else Ok (Cont (it, bbwt_wins, best_conjugate, best_bbwt_runs))
    end) (cit_new text, 0, text, max_length) ;;
  Ok (if (bbwt_wins =? 0) && (threshold <=? bwt_runs) then probe_line text best_conjugate bwt_runs best_bbwt_runs else []).
(** parallel.rs:210-242 [probe_main] (there max_length = 16 and threshold = 10): the bytes printed; [fuel] bounds
    the number of generated words *)
Definition probe_main (fuel max_length threshold : nat) : res str :=
  loop fuel (fun '(g, out) =>
    '(it, g') <- lwg_next g ;;
    match it with
    | None => Ok (Brk out)
    | Some text => line <- probe_word max_length threshold text ;; Ok (Cont (g', out ++ line))
    end) (lwg_new max_length 2, []).
