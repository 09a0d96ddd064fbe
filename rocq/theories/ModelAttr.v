(** ModelAttr.v : bin/is_stringattractor.rs.
    Reference-counted cells Rc<RefCell<LCPInterval>> are indices into the list [nodes] (which is the Rust
    vector lcpintervals); the vector [path] is kept with its last element first. u32/i32/u64 values are nat
    (texts shorter than 2^31). Edge labels are computed (the index can panic) and not stored. *)
From Verif Require Import Base ModelCore ModelLz ModelIo.

(** is_stringattractor.rs:14-21 [struct LCPInterval] *)
Record node := Node { nd_depth : nat; nd_begin : nat; nd_end : nat }.
(** assignment to the field [end] of a node (is_stringattractor.rs:61, 110) *)
Definition set_end (nodes : list node) (x e : nat) : res (list node) :=
  nd <- get nodes x ;; set nodes x (Node (nd_depth nd) (nd_begin nd) e).
(** is_stringattractor.rs:64-65, 90-91, 112-113: text[sa[child.begin] + depth], the label of an edge *)
Definition edge_label (text : str) (sa : list nat) (nodes : list node) (child depth : nat) : res nat :=
  c <- get nodes child ;; s <- get sa (nd_begin c) ;; get text (s + depth).

(** is_stringattractor.rs:58-73, the while loop popping nodes; state: nodes, path, edges, child_ptr *)
Definition pop_loop (text : str) (sa lcp : list nat) (i : nat) (nodes : list node) (path : list nat)
    (edges : list (nat * nat)) : res (list node * list nat * list (nat * nat) * option nat) :=
  loop (S (length path)) (fun '(nodes, path, edges, child) =>
    match path with
    | [] => Panic
    | x :: path' =>
        l <- get lcp i ;;
        nd <- get nodes x ;;
        if l <? nd_depth nd then
          nodes' <- set_end nodes x (i - 1) ;;
          edges' <- match child with
                    | Some c => edge_label text sa nodes' c (nd_depth nd) ;;; Ok (edges ++ [(x, c)])
                    | None => Ok edges
                    end ;;
          Ok (Cont (nodes', path', edges', Some x))
        else Ok (Brk (nodes, path, edges, child))
    end) (nodes, path, edges, None).

(** is_stringattractor.rs:56-106, one iteration of the for loop *)
Definition interval_step (text : str) (sa lcp : list nat) (i : nat)
    (st : list node * list nat * list (nat * nat)) : res (list node * list nat * list (nat * nat)) :=
  let '(nodes, path, edges) := st in
  let n := length text in
  ' (nodes, path, edges, child) <- pop_loop text sa lcp i nodes path edges ;;
  l <- get lcp i ;;
  top <- get path 0 ;;
  tnd <- get nodes top ;;
  ' (nodes, path) <-
    (if nd_depth tnd <? l then
       match child with
       | None => Panic
       | Some c =>
           cnd <- get nodes c ;;
           s <- get sa (nd_begin cnd) ;;
           assert_ (l + s <? n) ;;;
           Ok (nodes ++ [Node l (nd_begin cnd) n], length nodes :: path)
       end
     else Ok (nodes, path)) ;;
  edges <-
    match child with
    | Some c =>
        top <- get path 0 ;;
        tnd <- get nodes top ;;
        edge_label text sa nodes c (nd_depth tnd) ;;; Ok (edges ++ [(top, c)])
    | None => Ok edges
    end ;;
  s <- get sa i ;;
  d <- sub_ n s ;; d <- sub_ d 1 ;;
  assert_ (s + d <? n) ;;;
  Ok (nodes ++ [Node d i i], length nodes :: path, edges).

(** is_stringattractor.rs:107-121, the nodes left on the path *)
Definition pop_rest (text : str) (sa : list nat) (nodes : list node) (path : list nat)
    (edges : list (nat * nat)) : res (list node * list (nat * nat)) :=
  ' (nodes, edges, _) <- for_in path (fun x '(nodes, edges, child) =>
     nodes <- set_end nodes x (length text - 1) ;;
     nd <- get nodes x ;;
     edges <- match child with
              | Some c => edge_label text sa nodes c (nd_depth nd) ;;; Ok (edges ++ [(x, c)])
              | None => Ok edges
              end ;;
     Ok (nodes, edges, Some x)) (nodes, edges, None) ;;
  Ok (nodes, edges).

(** is_stringattractor.rs:33-138 [lcp_intervals], with the debug assertions; edges as
    (index of parent, index of child) *)
Definition lcp_intervals (text : str) (sa lcp : list nat) : res (list node * list (nat * nat)) :=
  let n := length text in
  e <- sub_ n 1 ;;
  s0 <- get sa 0 ;;
  d0 <- sub_ n s0 ;; d0 <- sub_ d0 1 ;;
  ' (nodes, path, edges) <- for_in (range 1 n) (interval_step text sa lcp)
      ([Node 0 0 e; Node d0 0 0], [1; 0], []) ;;
  ' (nodes, edges) <- pop_rest text sa nodes path edges ;;
  for_in nodes (fun nd (_ : unit) =>
     assert_ (nd_begin nd <? n) ;;; assert_ (nd_end nd <? n) ;;;
     s <- get sa (nd_begin nd) ;; assert_ (s + nd_depth nd <? n)) tt ;;;
  Ok (nodes, edges).

(** succinct::BitVector/Rank9/BinSearchSelect: rank1(i) counts set bits at positions <= i; select1(k) is the
    position of the k-th set bit counted from 0 (crate not modelled, its documented result is) (used at is_stringattractor.rs:198-220) *)
Definition rank1 (bits : list bool) (i : nat) : nat := length (filter (fun b => b) (firstn (i + 1) bits)).
(** is_stringattractor.rs:199, 213: BinSearchSelect::select1 *)
Fixpoint select1 (bits : list bool) (k : nat) : option nat :=
  match bits with
  | [] => None
  | b :: bits' => match b, k with
                  | true, O => Some 0
                  | true, S k' => option_map S (select1 bits' k')
                  | false, _ => option_map S (select1 bits' k)
                  end
  end.

(** std::str::from_utf8(..).is_ok() (Unicode Table 3-7) (used at is_stringattractor.rs:240, enumerate_lexparse.rs:105-110) *)
Definition is_cont (lo hi b : nat) : bool := (lo <=? b) && (b <=? hi).
(** is_stringattractor.rs:240: str::from_utf8 *)
Fixpoint utf8_valid (bs : list nat) : bool :=
  match bs with
  | [] => true
  | b :: r =>
      if b <? 128 then utf8_valid r else
      match r with
      | c1 :: r1 =>
          if is_cont 194 223 b then is_cont 128 191 c1 && utf8_valid r1 else
          match r1 with
          | c2 :: r2 =>
              if b =? 224 then is_cont 160 191 c1 && is_cont 128 191 c2 && utf8_valid r2 else
              if b =? 237 then is_cont 128 159 c1 && is_cont 128 191 c2 && utf8_valid r2 else
              if is_cont 225 239 b then is_cont 128 191 c1 && is_cont 128 191 c2 && utf8_valid r2 else
              match r2 with
              | c3 :: r3 =>
                  (if b =? 240 then is_cont 144 191 c1 else
                   if b =? 244 then is_cont 128 143 c1 else
                   is_cont 241 243 b && is_cont 128 191 c1)
                  && is_cont 128 191 c2 && is_cont 128 191 c3 && utf8_valid r3
              | [] => false
              end
          | [] => false
          end
      | [] => false
      end
  end.

(** is_stringattractor.rs:208-221, the distances to the next attractor position *)
Definition attractor_dists (n : nat) (sa : list nat) (bits : list bool) : res (list nat) :=
  for_in (range 0 n) (fun i arr_d =>
    p <- get sa i ;;
    b <- get bits p ;;
    if (b : bool) then Ok arr_d else
    match select1 bits (rank1 bits p) with
    | Some pos => b' <- get bits pos ;; assert_ b' ;;; d <- sub_ pos p ;; set arr_d i d
    | None => set arr_d i n
    end) (repeat 0 n).

(** is_stringattractor.rs:162-245 [is_attractor]; [sort] stands for cdivsufsort *)
Definition is_attractor (sort : str -> list nat) (text : str) (attractor : list nat) : res bool :=
  assert_ (0 <? length text) ;;;
  l <- last_ text ;;
  assert_ (l =? 0) ;;;
  let n := length text in
  for_in attractor (fun a (_ : unit) => assert_ (a <? n)) tt ;;;
  let sa := sort text in
  phi <- compute_phi sa ;;
  plcp <- compute_plcp text phi ;;
  lcp <- compute_lcp plcp sa ;;
  ' (nodes, edges) <- lcp_intervals text sa lcp ;;
  bits <- for_in attractor (fun s v => set v s true) (repeat false n) ;;
  arr_d <- attractor_dists n sa bits ;;
  for_in edges (fun '(p, c) ok =>
    pn <- get nodes p ;;
    cn <- get nodes c ;;
    let lcplength := nd_depth pn + 1 in
    r <- rmq arr_d (nd_begin cn) (nd_end cn + 1) ;;
    if lcplength <=? r then
      startpos <- get sa (nd_begin cn) ;;
      let endpos := Nat.min (startpos + lcplength) n in
      assert_ (utf8_valid (firstn (endpos - startpos) (skipn startpos text))) ;;;
      Ok false
    else Ok ok) true.

(** is_stringattractor.rs:238-241: println!("substring '{}' not covered!", ..) *)
Definition not_covered_line (w : str) : str :=
  [115;117;98;115;116;114;105;110;103;32;39] ++ w ++ [39;32;110;111;116;32;99;111;118;101;114;101;100;33;10].
(** is_stringattractor.rs:162-245 [is_attractor] again, with the bytes it prints (the answer alone is
    [is_attractor] above) *)
Definition is_attractor_io (sort : str -> list nat) (text : str) (attractor : list nat) : res (bool * str) :=
  assert_ (0 <? length text) ;;;
  l <- last_ text ;;
  assert_ (l =? 0) ;;;
  let n := length text in
  for_in attractor (fun a (_ : unit) => assert_ (a <? n)) tt ;;;
  let sa := sort text in
  phi <- compute_phi sa ;;
  plcp <- compute_plcp text phi ;;
  lcp <- compute_lcp plcp sa ;;
  ' (nodes, edges) <- lcp_intervals text sa lcp ;;
  bits <- for_in attractor (fun s v => set v s true) (repeat false n) ;;
  arr_d <- attractor_dists n sa bits ;;
  for_in edges (fun '(p, c) '(ok, out) =>
    pn <- get nodes p ;;
    cn <- get nodes c ;;
    let lcplength := nd_depth pn + 1 in
    r <- rmq arr_d (nd_begin cn) (nd_end cn + 1) ;;
    if lcplength <=? r then
      startpos <- get sa (nd_begin cn) ;;
      let endpos := Nat.min (startpos + lcplength) n in
      let w := firstn (endpos - startpos) (skipn startpos text) in
      assert_ (utf8_valid w) ;;;
      Ok (false, out ++ not_covered_line w)
    else Ok (ok, out)) (true, []).
(** is_stringattractor.rs:247-279 [main]: the exit status and the bytes written to stdout *)
Definition is_stringattractor_main (sort : str -> list nat) (is_file : bool) (content : str) (prefixlength : nat)
    (attractor : list nat) : res (nat * str) :=
  text <- (t <- file_or_stdin2byte_vector is_file content prefixlength ;; Ok (t ++ [0])) ;;
  let n := length text in
  if existsb (fun a => n <=? a) attractor then Ok (1, []) else
  ' (b, out) <- is_attractor_io sort text attractor ;;
  if negb b then Ok (2, out ++ [110;111;116;32;97;32;118;97;108;105;100;32;97;116;116;114;97;99;116;111;114;10])
  else Ok (0, out ++ [118;97;108;105;100;32;97;116;116;114;97;99;116;111;114;10]).
