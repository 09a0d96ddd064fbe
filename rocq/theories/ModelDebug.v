(** ModelDebug.v : the parts of the code that exist only in builds with debug assertions (debug_assert*, #[cfg(debug_assertions)]).
    The models of ModelCore.v, ModelLz.v and ModelAttr.v contain these checks; here are the functions as a release build runs them,
    without the checks, and lyndonfactorization with the check that ModelMain.v leaves out. *)
From Verif Require Import Base ModelCore ModelLz ModelAttr ModelIo ModelTools ModelMain.
From Coq Require Import NArith.

(** core.rs:257-275 [compute_plcp] without the debug_assert_eq of line 258 *)
Definition compute_plcp_release (text : str) (phi : list nat) : res (list nat) :=
  '(plcp, _) <- for_in (range 0 (length text)) (fun pb '(plcp, len) =>
      pa <- get phi pb ;;
      len' <- plcp_extend text pa pb len ;;
      plcp' <- set plcp pb len' ;;
      Ok (plcp', len' - 1)) (repeat 0 (length text), 0) ;;
  Ok plcp.
(** core.rs:277-287 [compute_lcp] without the debug_assert_eq of line 281 *)
Definition compute_lcp_release (plcp sa : list nat) : res (list nat) :=
  for_in (range 0 (length plcp)) (fun i lcp =>
    s <- get sa i ;; v <- get plcp s ;; set lcp i v) (repeat 0 (length plcp)).

(** count_z.rs:57-71 and 72-86 without the debug assertions of lines 61-69 and 76-84 *)
Definition lz_prev_lcp_release (lcp : list nat) (psv : list N) (sp : nat) : res nat :=
  v <- get psv sp ;;
  if (v =? INVALID_VALUE)%N then Ok 0 else rmq lcp (N.to_nat v + 1) (sp + 1).
(** bin/count_z.rs:72-86 without the debug assertions *)
Definition lz_next_lcp_release (lcp : list nat) (nsv : list N) (sp : nat) : res nat :=
  v <- get nsv sp ;;
  if (v =? INVALID_VALUE)%N then Ok 0 else rmq lcp (sp + 1) (N.to_nat v + 1).
(** u32 subtraction in a release build (count_z.rs:110) *)
Definition sub_u32_release (a b : nat) : nat :=
  N.to_nat ((N.of_nat a + 4294967296 - N.of_nat b) mod 4294967296)%N.
(** count_z.rs:41-115 [compute_lz77] without the debug_assert_lt of line 107; the subtraction of line 110 wraps *)
Definition compute_lz77_release (text : str) (sa isa lcp : list nat) (nsv psv : list N) : res (list lzfactor) :=
  loop (S (length text)) (fun '(i, factors) =>
    if i <? length text then
      sp <- get isa i ;;
      prev_lcp <- lz_prev_lcp_release lcp psv sp ;;
      next_lcp <- lz_next_lcp_release lcp nsv sp ;;
      if (prev_lcp =? 0) && (next_lcp =? 0) then
        c <- get text i ;; Ok (Cont (i + 1, factors ++ [LZ c 0]))
      else
        let max_lcp := if prev_lcp <? next_lcp then next_lcp else prev_lcp in
        max_pos <- (if prev_lcp <? next_lcp then v <- get nsv sp ;; get sa (N.to_nat v)
                    else v <- get psv sp ;; get sa (N.to_nat v)) ;;
        Ok (Cont (i + max_lcp, factors ++ [LZ (sub_u32_release i max_pos) max_lcp]))
    else Ok (Brk factors)) (0, []).
(** count_z.rs:164-209 [main] without the debug_assert_eq of line 211 *)
Definition count_z_main_release (sort : str -> list nat) (text : str) : res (list lzfactor) :=
  let sa := sort text in
  isa <- inverse_permutation sa ;;
  psv <- compute_psv sa ;;
  nsv <- compute_nsv sa ;;
  phi <- compute_phi sa ;;
  plcp <- compute_plcp_release text phi ;;
  lcp <- compute_lcp_release plcp sa ;;
  compute_lz77_release text sa isa lcp nsv psv.
(** count_lexparse.rs:63-101 [main] *)
Definition count_lexparse_main_release (sort : str -> list nat) (text : str) : res (list lzfactor) :=
  let sa := sort text in
  phi <- compute_phi sa ;;
  plcp <- compute_plcp_release text phi ;;
  compute_lexparse text plcp phi.
(** mus.rs:56-97 [main]; the assertion of get_mus is a plain assert *)
Definition mus_main_release (sort : str -> list nat) (text : str) : res (list (nat * nat)) :=
  let sa := sort text in
  isa <- inverse_permutation sa ;;
  phi <- compute_phi sa ;;
  plcp <- compute_plcp_release text phi ;;
  lcp <- compute_lcp_release plcp sa ;;
  get_mus sa isa lcp.

(** is_stringattractor.rs:33-138 [lcp_intervals] without the block of lines 124-135 *)
Definition lcp_intervals_release (text : str) (sa lcp : list nat) : res (list node * list (nat * nat)) :=
  let n := length text in
  e <- sub_ n 1 ;;
  s0 <- get sa 0 ;;
  d0 <- sub_ n s0 ;; d0 <- sub_ d0 1 ;;
  ' (nodes, path, edges) <- for_in (range 1 n) (interval_step text sa lcp)
      ([Node 0 0 e; Node d0 0 0], [1; 0], []) ;;
  pop_rest text sa nodes path edges.
(** is_stringattractor.rs:162-245 [is_attractor] with the bytes printed, calling the functions above *)
Definition is_attractor_io_release (sort : str -> list nat) (text : str) (attractor : list nat) : res (bool * str) :=
  assert_ (0 <? length text) ;;;
  l <- last_ text ;;
  assert_ (l =? 0) ;;;
  let n := length text in
  for_in attractor (fun a (_ : unit) => assert_ (a <? n)) tt ;;;
  let sa := sort text in
  phi <- compute_phi sa ;;
  plcp <- compute_plcp_release text phi ;;
  lcp <- compute_lcp_release plcp sa ;;
  ' (nodes, edges) <- lcp_intervals_release text sa lcp ;;
  bits <- for_in attractor (fun s v => set v s true) (repeat false n) ;;
  arr_d <- attractor_dists n sa bits ;;
  for_in edges (fun '(p, c) '(ok, out) =>
    pn <- get nodes p ;;
    cn <- get nodes c ;;
    let lcplength := nd_depth pn + 1 in
    r <- rmq arr_d (nd_begin cn) (nd_end cn + 1) ;;
    if lcplength <=? r then
      startpos <- get sa (nd_begin cn) ;;
      let endpos := Nat.min (startpos + lcplength) n in
      let w := firstn (endpos - startpos) (skipn startpos text) in
      assert_ (utf8_valid w) ;;;
      Ok (false, out ++ not_covered_line w)
    else Ok (ok, out)) (true, []).
(** is_stringattractor.rs:247-279 [main] *)
Definition is_stringattractor_main_release (sort : str -> list nat) (is_file : bool) (content : str) (prefixlength : nat)
    (attractor : list nat) : res (nat * str) :=
  text <- (t <- file_or_stdin2byte_vector is_file content prefixlength ;; Ok (t ++ [0])) ;;
  let n := length text in
  if existsb (fun a => n <=? a) attractor then Ok (1, []) else
  ' (b, out) <- is_attractor_io_release sort text attractor ;;
  if negb b then Ok (2, out ++ [110;111;116;32;97;32;118;97;108;105;100;32;97;116;116;114;97;99;116;111;114;10])
  else Ok (0, out ++ [118;97;108;105;100;32;97;116;116;114;97;99;116;111;114;10]).

(** lyndonfactorization.rs:31-115 [main] with debug assertions and the log level Debug: the block of lines 102-114 *)
Definition lyndonfactorization_main_debug (sort : str -> list nat) (is_file : bool) (content : str) (prefixlength : nat)
    (with_output : bool) : res (nat * option str) :=
  text <- file_or_stdin2byte_vector is_file content prefixlength ;;
  factors <- duval text ;;
  l <- last_ factors ;;
  assert_ (l + 1 =? length text) ;;;
  out <- (if with_output then out <- lyndon_file text factors ;; Ok (Some out) else Ok None) ;;
  isa <- inverse_permutation (sort text) ;;
  fs <- isa_lyndon_factorization isa ;;
  assert_ (if list_eq_dec Nat.eq_dec factors fs then true else false) ;;;
  Ok (length factors, out).
