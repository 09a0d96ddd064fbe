(** ModelCost.v : the linear-time functions of /repo with a counter of loop iterations. Each definition is the one of
    ModelCore.v, ModelLz.v or ModelAttr.v of the same name (without _c), where every iteration of a loop, the last
    one (which finds the condition of a while loop false) included, counts 1. One iteration does a bounded number of operations on machine words; pushing onto a vector is amortised
    constant time. Suffix sorting and the range minimum queries of the segment tree are not counted, nor are the
    debug assertions of count_z.rs, which scan the range of each query. *)
From Verif Require Import Base ModelCore ModelLz ModelAttr.
From Coq Require Import NArith.

(** a computation with its number of iterations (instrumentation for the loops of core.rs and count_z.rs modelled below) *)
Notation cres A := (res (A * nat)).
(** a step that counts nothing (instrumentation for the loops of core.rs and count_z.rs modelled below) *)
Definition free {A} (r : res A) : cres A := a <- r ;; Ok (a, 0).
(** sequencing adds the counts (instrumentation for the loops of core.rs and count_z.rs modelled below) *)
Definition cbind {A B} (e : cres A) (f : A -> cres B) : cres B :=
  ' (a, n) <- e ;; ' (b, m) <- f a ;; Ok (b, n + m).
Notation "x <~ e ;; f" := (cbind e (fun x => f)) (at level 61, e at next level, right associativity).
Notation "' p <~ e ;; f" := (cbind e (fun p => f)) (at level 61, p pattern, e at next level, right associativity).
(** a loop, one count per iteration (the loops of core.rs cited below) *)
Fixpoint loop_c {S B} (fuel : nat) (body : S -> cres (ctl S B)) (s : S) : cres B :=
  match fuel with
  | O => OutOfFuel
  | S f => ' (c, n) <- body s ;;
           match c with
           | Cont s' => ' (b, m) <- loop_c f body s' ;; Ok (b, 1 + n + m)
           | Brk b => Ok (b, 1 + n)
           end
  end.
(** a for loop, one count per iteration (instrumentation for the loops of core.rs and count_z.rs modelled below) *)
Fixpoint for_c {S I} (l : list I) (body : I -> S -> cres S) (s : S) : cres S :=
  match l with
  | [] => Ok (s, 0)
  | i :: l' => ' (s', n) <- body i s ;; ' (s'', m) <- for_c l' body s' ;; Ok (s'', 1 + n + m)
  end.
(** a for loop with an early return, one count per iteration (instrumentation for the loops of core.rs and count_z.rs modelled below) *)
Fixpoint for_ret_c {I A} (l : list I) (body : I -> cres (option A)) : cres (option A) :=
  match l with
  | [] => Ok (None, 0)
  | i :: l' => ' (r, n) <- body i ;;
               match r with
               | Some a => Ok (Some a, 1 + n)
               | None => ' (r', m) <- for_ret_c l' body ;; Ok (r', 1 + n + m)
               end
  end.

(** core.rs:334-344 *)
Definition duval_scan_c (text : str) (k : nat) : cres (nat * nat) :=
  let n := length text in
  loop_c (S n) (fun '(i, j) => free (
    if j =? n then Ok (Brk (i, j))
    else ti <- get text i ;; tj <- get text j ;;
      if ti <=? tj then
        let i1 := if ti <? tj then k else i in
        ti1 <- get text i1 ;;
        let i2 := if ti1 =? tj then i1 + 1 else i1 in
        Ok (Cont (i2, j + 1))
      else Ok (Brk (i, j)))) (k, k + 1).
(** core.rs:345-352 *)
Definition duval_emit_c (n i j : nat) (k : nat) (ends : list nat) : cres (nat * list nat) :=
  loop_c (S n) (fun '(k, ends) => free (
    assert_ (i <? j) ;;;
    let k' := k + (j - i) in
    e <- sub_ k' 1 ;;
    let ends' := ends ++ [e] in
    if i <=? k' then Ok (Brk (k', ends')) else Ok (Cont (k', ends')))) (k, ends).
(** core.rs:329-355 [duval] *)
Definition duval_c (text : str) : cres (list nat) :=
  let n := length text in
  loop_c (S n) (fun '(k, ends) =>
    if k <? n then
      ' (i, j) <~ duval_scan_c text k ;;
      ' (k', ends') <~ duval_emit_c n i j k ends ;;
      free (Ok (Cont (k', ends')))
    else free (Ok (Brk ends))) (0, []).
(** core.rs:358-373 [isa_lyndon_factorization] *)
Definition isa_lyndon_factorization_c (isa : list nat) : cres (list nat) :=
  c0 <~ free (get isa 0) ;;
  let n := length isa in
  ' (_, ends) <~ for_c (range 1 n) (fun k '(cur, ends) => free (
      v <- get isa k ;;
      if v <? cur then e <- sub_ k 1 ;; Ok (v, ends ++ [e]) else Ok (cur, ends))) (c0, []) ;;
  free (e <- sub_ n 1 ;; Ok (ends ++ [e])).
(** core.rs:79-96 [lyndon_conjugate]; doubling the text counts 2n *)
Definition lyndon_conjugate_c (text : str) : cres nat :=
  let n := length text in
  doubletext <~ Ok (text ++ text, 2 * n) ;;
  fs <~ duval_c doubletext ;;
  let factors := fs ++ [2 * n] in
  f0 <~ free (get factors 0) ;;
  if f0 + 1 =? n then free (Ok 0) else
  m <~ free (sub_ (length factors) 1) ;;
  r <~ for_ret_c (range 0 m) (fun x => free (
      fx1 <- get factors (x + 1) ;;
      if n <=? fx1 + 1 then fx <- get factors x ;; Ok (Some (fx + 1)) else Ok None)) ;;
  free (match r with Some v => Ok v | None => Panic end).
(** core.rs:223-225 *)
Definition border_descend_c (text : str) (border : list nat) (i : nat) (len0 : nat) : cres nat :=
  loop_c (S len0) (fun len => free (
    if 0 <? len then
      l1 <- sub_ len 1 ;;
      a <- get text l1 ;; b <- get text i ;;
      if a =? b then Ok (Brk len) else l' <- get border l1 ;; Ok (Cont l')
    else Ok (Brk len))) len0.
(** core.rs:217-232 [border_array] *)
Definition border_array_c (text : str) : cres (list nat) :=
  let n := length text in
  border <~ for_c (range 0 n) (fun i border =>
      len0 <~ free (get border i) ;;
      len <~ border_descend_c text border i len0 ;;
      free (Ok (border ++ [len + 1]))) [0] ;;
  for_c (range 1 (length border)) (fun i border => free (
      e <- get border i ;; e' <- sub_ e 1 ;; set border i e')) border.
(** core.rs:100-107 [is_primitive] *)
Definition is_primitive_c (text : str) : cres bool :=
  border <~ border_array_c text ;;
  free (period <- smallest_period border ;;
        if period =? length text then Ok true else
        p <- smallest_period border ;;
        m <- mod_ (length text) p ;;
        Ok (negb (m =? 0))).
(** core.rs:239-247 [compute_phi]; allocating a vector of n entries counts n *)
Definition compute_phi_c (sa : list nat) : cres (list nat) :=
  let n := length sa in
  u <~ free (assert_ (0 <? n)) ;;
  phi0 <~ Ok (repeat 0 n, n) ;;
  phi <~ for_c (range 1 n) (fun i phi => free (
      a <- get sa i ;; i1 <- sub_ i 1 ;; b <- get sa i1 ;; set phi a b)) phi0 ;;
  free (s0 <- get sa 0 ;; l1 <- sub_ n 1 ;; sl <- get sa l1 ;; set phi s0 sl).
(** core.rs:249-255 [inverse_permutation] *)
Definition inverse_permutation_c (arr : list nat) : cres (list nat) :=
  inv0 <~ Ok (repeat 0 (length arr), length arr) ;;
  for_c (range 0 (length arr)) (fun i inv => free (a <- get arr i ;; set inv a i)) inv0.
(** core.rs:265-270 *)
Definition plcp_extend_c (text : str) (pa pb len0 : nat) : cres nat :=
  let n := length text in
  loop_c (S n) (fun len => free (
    if (pa + len <? n) && (pb + len <? n) then
      a <- get text (pa + len) ;; b <- get text (pb + len) ;;
      if a =? b then Ok (Cont (len + 1)) else Ok (Brk len)
    else Ok (Brk len))) len0.
(** core.rs:257-275 [compute_plcp] *)
Definition compute_plcp_c (text : str) (phi : list nat) : cres (list nat) :=
  u <~ free (assert_ (length text =? length phi)) ;;
  plcp0 <~ Ok (repeat 0 (length text), length text) ;;
  ' (plcp, _) <~ for_c (range 0 (length text)) (fun pb '(plcp, len) =>
      pa <~ free (get phi pb) ;;
      len' <~ plcp_extend_c text pa pb len ;;
      plcp' <~ free (set plcp pb len') ;;
      free (Ok (plcp', len' - 1))) (plcp0, 0) ;;
  free (Ok plcp).
(** core.rs:277-287 [compute_lcp] *)
Definition compute_lcp_c (plcp sa : list nat) : cres (list nat) :=
  u <~ free (assert_ (length plcp =? length sa)) ;;
  lcp0 <~ Ok (repeat 0 (length plcp), length plcp) ;;
  for_c (range 0 (length plcp)) (fun i lcp => free (
    s <- get sa i ;; v <- get plcp s ;; set lcp i v)) lcp0.
(** core.rs:297-303 *)
Definition psv_chain_c (arr : list nat) (psv : list N) (i : nat) (p0 : N) : cres N :=
  loop_c (S (length arr)) (fun p => free (
    if (p =? INVALID_VALUE)%N then Ok (Brk INVALID_VALUE) else
    ap <- get arr (N.to_nat p) ;; ai <- get arr i ;;
    if ap <? ai then Ok (Brk (as_u32 p)) else
    p' <- get psv (N.to_nat p) ;; Ok (Cont p'))) p0.
(** core.rs:291-306 [compute_psv] *)
Definition compute_psv_c (arr : list nat) : cres (list N) :=
  psv <~ Ok (repeat 0%N (length arr), length arr) ;;
  psv0 <~ free (set psv 0 INVALID_VALUE) ;;
  for_c (range 1 (length arr)) (fun i psv =>
    i1 <~ free (sub_ i 1) ;;
    psv1 <~ free (set psv i INVALID_VALUE) ;;
    v <~ psv_chain_c arr psv1 i (N.of_nat i1) ;;
    free (set psv1 i v)) psv0.
(** core.rs:308-323 [compute_nsv] *)
Definition compute_nsv_c (arr : list nat) : cres (list N) :=
  l1 <~ free (sub_ (length arr) 1) ;;
  nsv <~ Ok (repeat 0%N (length arr), length arr) ;;
  nsv0 <~ free (set nsv l1 INVALID_VALUE) ;;
  for_c (rev (range 0 l1)) (fun i nsv =>
    nsv1 <~ free (set nsv i INVALID_VALUE) ;;
    v <~ psv_chain_c arr nsv1 i (N.of_nat (i + 1)) ;;
    free (set nsv1 i v)) nsv0.
(** core.rs:465-468 *)
Definition lwg_fill_c (n cur : nat) (stack : str) : cres str :=
  loop_c (S n) (fun stack => free (
    if length stack <? n then
      p <- sub_ (length stack) cur ;; x <- get stack p ;; Ok (Cont (stack ++ [x]))
    else Ok (Brk stack))) stack.
(** core.rs:471-473 *)
Definition lwg_trim_c (sigma : nat) (stack : str) : cres str :=
  loop_c (S (length stack)) (fun stack => free (
    match rev stack with
    | [] => Ok (Brk stack)
    | x :: r => z <- sub_ sigma 1 ;;
                if x =? z then Ok (Cont (rev r)) else Ok (Brk stack)
    end)) stack.
(** core.rs:452-480 [next]; cloning the word returned counts its length *)
Definition lwg_next_c (g : lwg) : cres (option str * lwg) :=
  if lwg_length g =? 0 then free (Ok (None, g)) else
  match lwg_stack g with
  | [] => Ok ((Some [0], LWG (lwg_length g) (lwg_sigma g) [0]), 1)
  | _ =>
    st1 <~ lwg_fill_c (lwg_length g) (length (lwg_stack g)) (lwg_stack g) ;;
    st2 <~ lwg_trim_c (lwg_sigma g) st1 ;;
    match rev st2 with
    | [] => free (Ok (None, LWG 0 (lwg_sigma g) []))
    | x :: r => if 255 <=? x then Panic else
                let st3 := rev r ++ [x + 1] in
                Ok ((Some st3, LWG (lwg_length g) (lwg_sigma g) st3), length st3)
    end
  end.
(** count_lexparse.rs:21-42 [compute_lexparse] *)
Definition compute_lexparse_c (text : str) (plcp phi : list nat) : cres (list lzfactor) :=
  loop_c (S (length text)) (fun '(i, factors) => free (
    if i <? length text then
      l <- get plcp i ;;
      if l =? 0 then c <- get text i ;; Ok (Cont (i + 1, factors ++ [LZ c 0]))
      else p <- get phi i ;; Ok (Cont (i + l, factors ++ [LZ p l]))
    else Ok (Brk factors))) (0, []).
(** count_lexparse.rs:63-101 [main] *)
Definition count_lexparse_main_c (sort : str -> list nat) (text : str) : cres (list lzfactor) :=
  let sa := sort text in
  phi <~ compute_phi_c sa ;;
  plcp <~ compute_plcp_c text phi ;;
  compute_lexparse_c text plcp phi.
(** count_z.rs:41-115 [compute_lz77] *)
Definition compute_lz77_c (text : str) (sa isa lcp : list nat) (nsv psv : list N) : cres (list lzfactor) :=
  loop_c (S (length text)) (fun '(i, factors) => free (
    if i <? length text then
      sp <- get isa i ;;
      prev_lcp <- lz_prev_lcp lcp psv sp ;;
      next_lcp <- lz_next_lcp lcp nsv sp ;;
      if (prev_lcp =? 0) && (next_lcp =? 0) then
        c <- get text i ;; Ok (Cont (i + 1, factors ++ [LZ c 0]))
      else
        let max_lcp := if prev_lcp <? next_lcp then next_lcp else prev_lcp in
        max_pos <- (if prev_lcp <? next_lcp then v <- get nsv sp ;; get sa (N.to_nat v)
                    else v <- get psv sp ;; get sa (N.to_nat v)) ;;
        assert_ (max_pos <? i) ;;;
        d <- sub_ i max_pos ;;
        Ok (Cont (i + max_lcp, factors ++ [LZ d max_lcp]))
    else Ok (Brk factors))) (0, []).
(** count_z.rs:23-37 [decode_lz77] *)
Definition decode_lz77_c (factors : list lzfactor) : cres str :=
  for_c factors (fun f text =>
    if lz_len f =? 0 then free (Ok (text ++ [lz_pos f mod 256]))
    else ref_pos <~ free (sub_ (length text) (lz_pos f)) ;;
         for_c (range 0 (lz_len f)) (fun p text => free (
            x <- get text (ref_pos + p) ;; Ok (text ++ [x]))) text) [].
(** count_z.rs:164-211 [main]; the final comparison with the text counts n *)
Definition count_z_main_c (sort : str -> list nat) (text : str) : cres (list lzfactor) :=
  let sa := sort text in
  isa <~ inverse_permutation_c sa ;;
  psv <~ compute_psv_c sa ;;
  nsv <~ compute_nsv_c sa ;;
  phi <~ compute_phi_c sa ;;
  plcp <~ compute_plcp_c text phi ;;
  lcp <~ compute_lcp_c plcp sa ;;
  factors <~ compute_lz77_c text sa isa lcp nsv psv ;;
  dec <~ decode_lz77_c factors ;;
  same <~ Ok ((if list_eq_dec Nat.eq_dec text dec then true else false), length text) ;;
  free (assert_ same ;;; Ok factors).
(** mus.rs:25-54 [get_mus] *)
Definition get_mus_c (sa isa lcp : list nat) : cres (list (nat * nat)) :=
  n <~ free (sub_ (length sa) 1) ;;
  for_c (range 0 n) (fun i mus => free (
    elli <- mus_getlength sa isa lcp i ;;
    assert_ (elli + i <? length sa) ;;;
    if n <=? elli + i then Ok mus else
    nextell <- mus_getlength sa isa lcp (i + 1) ;;
    if elli <=? nextell then Ok (mus ++ [(i, elli + 1)]) else Ok mus)) [].
(** mus.rs:56-97 [main] *)
Definition mus_main_c (sort : str -> list nat) (text : str) : cres (list (nat * nat)) :=
  let sa := sort text in
  isa <~ inverse_permutation_c sa ;;
  phi <~ compute_phi_c sa ;;
  plcp <~ compute_plcp_c text phi ;;
  lcp <~ compute_lcp_c plcp sa ;;
  get_mus_c sa isa lcp.
(** is_stringattractor.rs:58-73 *)
Definition pop_loop_c (text : str) (sa lcp : list nat) (i : nat) (nodes : list node) (path : list nat)
    (edges : list (nat * nat)) : cres (list node * list nat * list (nat * nat) * option nat) :=
  loop_c (S (length path)) (fun '(nodes, path, edges, child) => free (
    match path with
    | [] => Panic
    | x :: path' =>
        l <- get lcp i ;;
        nd <- get nodes x ;;
        if l <? nd_depth nd then
          nodes' <- set_end nodes x (i - 1) ;;
          edges' <- match child with
                    | Some c => edge_label text sa nodes' c (nd_depth nd) ;;; Ok (edges ++ [(x, c)])
                    | None => Ok edges
                    end ;;
          Ok (Cont (nodes', path', edges', Some x))
        else Ok (Brk (nodes, path, edges, child))
    end)) (nodes, path, edges, None).
(** is_stringattractor.rs:56-106 *)
Definition interval_step_c (text : str) (sa lcp : list nat) (i : nat)
    (st : list node * list nat * list (nat * nat)) : cres (list node * list nat * list (nat * nat)) :=
  let '(nodes, path, edges) := st in
  let n := length text in
  ' (nodes, path, edges, child) <~ pop_loop_c text sa lcp i nodes path edges ;;
  free (
  l <- get lcp i ;;
  top <- get path 0 ;;
  tnd <- get nodes top ;;
  ' (nodes, path) <-
    (if nd_depth tnd <? l then
       match child with
       | None => Panic
       | Some c =>
           cnd <- get nodes c ;;
           s <- get sa (nd_begin cnd) ;;
           assert_ (l + s <? n) ;;;
           Ok (nodes ++ [Node l (nd_begin cnd) n], length nodes :: path)
       end
     else Ok (nodes, path)) ;;
  edges <-
    match child with
    | Some c =>
        top <- get path 0 ;;
        tnd <- get nodes top ;;
        edge_label text sa nodes c (nd_depth tnd) ;;; Ok (edges ++ [(top, c)])
    | None => Ok edges
    end ;;
  s <- get sa i ;;
  d <- sub_ n s ;; d <- sub_ d 1 ;;
  assert_ (s + d <? n) ;;;
  Ok (nodes ++ [Node d i i], length nodes :: path, edges)).
(** is_stringattractor.rs:107-121 *)
Definition pop_rest_c (text : str) (sa : list nat) (nodes : list node) (path : list nat)
    (edges : list (nat * nat)) : cres (list node * list (nat * nat)) :=
  ' (nodes, edges, _) <~ for_c path (fun x '(nodes, edges, child) => free (
     nodes <- set_end nodes x (length text - 1) ;;
     nd <- get nodes x ;;
     edges <- match child with
              | Some c => edge_label text sa nodes c (nd_depth nd) ;;; Ok (edges ++ [(x, c)])
              | None => Ok edges
              end ;;
     Ok (nodes, edges, Some x))) (nodes, edges, None) ;;
  free (Ok (nodes, edges)).
(** is_stringattractor.rs:33-138 [lcp_intervals] *)
Definition lcp_intervals_c (text : str) (sa lcp : list nat) : cres (list node * list (nat * nat)) :=
  let n := length text in
  e <~ free (sub_ n 1) ;;
  s0 <~ free (get sa 0) ;;
  d0 <~ free (sub_ n s0) ;; d0 <~ free (sub_ d0 1) ;;
  ' (nodes, path, edges) <~ for_c (range 1 n) (interval_step_c text sa lcp)
      ([Node 0 0 e; Node d0 0 0], [1; 0], []) ;;
  ' (nodes, edges) <~ pop_rest_c text sa nodes path edges ;;
  u <~ for_c nodes (fun nd (_ : unit) => free (
     assert_ (nd_begin nd <? n) ;;; assert_ (nd_end nd <? n) ;;;
     s <- get sa (nd_begin nd) ;; assert_ (s + nd_depth nd <? n))) tt ;;
  free (Ok (nodes, edges)).
