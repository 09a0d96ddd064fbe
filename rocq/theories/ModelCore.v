(** ModelCore.v : the functions of /repo/src/core.rs, one definition per function.
    Characters of generic type [C: Ord] are [nat]; [usize] lengths/indices are unbounded
    [nat] unless noted; a panic is [Panic] (overflow checks as in cargo's dev profile). *)
From Verif Require Import Base LexFacts.
From Coq Require Import NArith.

(** [&[u8]] and [Vec<u8>], the texts of core.rs:7-600 *)
Notation str := (list nat).

(** core.rs:329-355 [duval]. Inner scanning loop, lines 334-344; returns (i,j). *)
Definition duval_scan (text : str) (k : nat) : res (nat * nat) :=
  let n := length text in
  loop (S n) (fun '(i, j) =>
    if j =? n then Ok (Brk (i, j))
    else ti <- get text i ;; tj <- get text j ;;
      if ti <=? tj then
        let i1 := if ti <? tj then k else i in
        ti1 <- get text i1 ;;
        let i2 := if ti1 =? tj then i1 + 1 else i1 in
        Ok (Cont (i2, j + 1))
      else Ok (Brk (i, j))) (k, k + 1).
(** core.rs:345-352, the loop emitting ending positions; returns (k, ending_positions). *)
Definition duval_emit (n i j : nat) (k : nat) (ends : list nat) : res (nat * list nat) :=
  loop (S n) (fun '(k, ends) =>
    assert_ (i <? j) ;;;
    let k' := k + (j - i) in
    e <- sub_ k' 1 ;;
    let ends' := ends ++ [e] in
    if i <=? k' then Ok (Brk (k', ends')) else Ok (Cont (k', ends'))) (k, ends).
(** core.rs:329-355 [duval], the outer loop. *)
Definition duval (text : str) : res (list nat) :=
  let n := length text in
  loop (S n) (fun '(k, ends) =>
    if k <? n then
      '(i, j) <- duval_scan text k ;;
      '(k', ends') <- duval_emit n i j k ends ;;
      Ok (Cont (k', ends'))
    else Ok (Brk ends)) (0, []).

(** core.rs:358-373 [isa_lyndon_factorization] (i32 entries as nat). *)
Definition isa_lyndon_factorization (isa : list nat) : res (list nat) :=
  c0 <- get isa 0 ;;
  let n := length isa in
  '(_, ends) <- for_in (range 1 n) (fun k '(cur, ends) =>
      v <- get isa k ;;
      if v <? cur then e <- sub_ k 1 ;; Ok (v, ends ++ [e]) else Ok (cur, ends)) (c0, []) ;;
  e <- sub_ n 1 ;;
  Ok (ends ++ [e]).

(** core.rs:79-96 [lyndon_conjugate]. *)
Definition lyndon_conjugate (text : str) : res nat :=
  let n := length text in
  let doubletext := text ++ text in
  fs <- duval doubletext ;;
  let factors := fs ++ [2 * n] in
  f0 <- get factors 0 ;;
  if f0 + 1 =? n then Ok 0 else
  m <- sub_ (length factors) 1 ;;
  r <- for_ret (range 0 m) (fun x =>
      fx1 <- get factors (x + 1) ;;
      if n <=? fx1 + 1 then fx <- get factors x ;; Ok (Some (fx + 1)) else Ok None) ;;
  match r with Some v => Ok v | None => Panic (* unreachable!() *) end.

(** core.rs:217-232 [border_array]; lines 223-225, the inner while loop. *)
Definition border_descend (text : str) (border : list nat) (i : nat) (len0 : nat) : res nat :=
  loop (S len0) (fun len =>
    if 0 <? len then
      l1 <- sub_ len 1 ;;
      a <- get text l1 ;; b <- get text i ;;
      if a =? b then Ok (Brk len) else l' <- get border l1 ;; Ok (Cont l')
    else Ok (Brk len)) len0.
(** core.rs:217-232 [border_array]. *)
Definition border_array (text : str) : res (list nat) :=
  let n := length text in
  border <- for_in (range 0 n) (fun i border =>
      len0 <- get border i ;;
      len <- border_descend text border i len0 ;;
      Ok (border ++ [len + 1])) [0] ;;
  for_in (range 1 (length border)) (fun i border =>
      e <- get border i ;; e' <- sub_ e 1 ;; set border i e') border.

(** core.rs:110-113 [smallest_period]. *)
Definition smallest_period (border : list nat) : res nat :=
  n <- sub_ (length border) 1 ;; b <- get border n ;; sub_ n b.

(** core.rs:100-107 [is_primitive]. *)
Definition is_primitive (text : str) : res bool :=
  border <- border_array text ;;
  period <- smallest_period border ;;
  if period =? length text then Ok true else
  p <- smallest_period border ;;
  m <- mod_ (length text) p ;;
  Ok (negb (m =? 0)).

(** core.rs:183-195 [suffixarray_naive]. *)
Definition suffixarray_naive (text : str) : res (list nat) :=
  let n := length text in
  sort_by (fun a b =>
     assert_ (a <=? n) ;;; assert_ (b <=? n) ;;;
     Ok (slice_cmp (skipn a text) (skipn b text))) (seq 0 n).

(** core.rs:200-207 [bwt_from_sa]. *)
Definition bwt_from_sa (text : str) (sa : list nat) : res str :=
  let n := length text in
  t0 <- get text 0 ;;
  for_in (range 0 n) (fun i bwt =>
    s <- get sa i ;; d <- sub_ (n + s) 1 ;; p <- mod_ d n ;; c <- get text p ;; set bwt i c)
    (repeat t0 n).

(** core.rs:10-30 [bwt_from_text_by_sa]. [divsufsort] stands for cdivsufsort::sort_in_place.
    Line 11, [assert_gt!(!text.len(), 0)], is a bitwise NOT: it is true for every length a Vec
    can have, so it is omitted; the empty text panics at line 15 ([text.len() - 1]). *)
Definition bwt_from_text_by_sa (divsufsort : str -> list nat) (text : str) : res str :=
  let n := length text in
  m <- sub_ n 1 ;;
  assert_ (negb (existsb (fun x => x =? 0) (firstn m text))) ;;;
  let sa := divsufsort text in
  t0 <- get text 0 ;;
  for_in (range 0 n) (fun i bwt =>
    s <- get sa i ;; d <- sub_ (n + s) 1 ;; p <- mod_ d n ;; c <- get text p ;; set bwt i c)
    (repeat t0 n).

(** core.rs:39-48, the comparator of [bwt_by_matrix_naive]. *)
Definition rot_cmp (text : str) (a b : nat) : res comparison :=
  let n := length text in
  r <- for_ret (range 0 n) (fun i =>
    pa <- mod_ (a + i) n ;; pb <- mod_ (b + i) n ;;
    ca <- get text pa ;; cb <- get text pb ;;
    match ca ?= cb with Eq => Ok None | c => Ok (Some c) end) ;;
  Ok (match r with Some c => c | None => Eq end).
(** core.rs:34-54 [bwt_by_matrix_naive]. *)
Definition bwt_by_matrix_naive (text : str) : res str :=
  let n := length text in
  indices <- sort_by (rot_cmp text) (seq 0 n) ;;
  for_in (range 0 n) (fun i bwt =>
    x <- get indices i ;; d <- sub_ (x + n) 1 ;; p <- mod_ d n ;; c <- get text p ;;
    Ok (bwt ++ [c])) [].

(** [Vec::remove] (core.rs:74) *)
Definition vec_remove (l : str) (p : nat) : res str :=
  if p <? length l then Ok (firstn p l ++ skipn (S p) l) else Panic.
(** [iter().position(|&x| x == c)] (core.rs:74) *)
Fixpoint position (c : nat) (l : str) : option nat :=
  match l with
  | [] => None
  | x :: l' => if x =? c then Some 0 else option_map S (position c l')
  end.
(** core.rs:60-76 [bwt_by_matrix]. *)
Definition bwt_by_matrix (divsufsort : str -> list nat) (text : str) : res str :=
  let n := length text in
  assert_ (0 <? n) ;;;
  s <- lyndon_conjugate text ;;
  assert_ (s <=? n) ;;;
  let newtext := skipn s text ++ firstn s text ++ [0] in
  bwt <- bwt_from_text_by_sa divsufsort newtext ;;
  match position 0 bwt with
  | Some p => vec_remove bwt p
  | None => Panic
  end.

(** core.rs:122-126 [struct Conjugate]. *)
Record conjugate := Conj { cj_index : nat; cj_start : nat; cj_end : nat }.
(** core.rs:149-167, the comparator of [bbwt_naive]. *)
Definition conj_cmp (text : str) (a b : conjugate) : res comparison :=
  alen <- sub_ (1 + cj_end a) (cj_start a) ;;
  blen <- sub_ (1 + cj_end b) (cj_start b) ;;
  r <- for_ret (range 0 (alen * blen)) (fun len =>
    ia <- mod_ (cj_index a + len) alen ;; ib <- mod_ (cj_index b + len) blen ;;
    ca <- get text (cj_start a + ia) ;; cb <- get text (cj_start b + ib) ;;
    if ca =? cb then Ok None else if ca <? cb then Ok (Some Lt) else Ok (Some Gt)) ;;
  Ok (match r with Some c => c | None => Eq end).
(** core.rs:116-178 [bbwt_naive]. *)
Definition bbwt_naive (text : str) : res str :=
  let n := length text in
  factors <- duval text ;;
  f0 <- get factors 0 ;;
  let conj0 := map (fun j => Conj j 0 f0) (range 0 (f0 + 1)) in
  m <- sub_ (length factors) 1 ;;
  conjs <- for_in (range 0 m) (fun f conjs =>
     a <- get factors f ;; b <- get factors (f + 1) ;;
     for_in (range (a + 1) (b + 1)) (fun j conjs =>
        j1 <- sub_ j a ;; ix <- sub_ j1 1 ;;
        Ok (conjs ++ [Conj ix (a + 1) b])) conjs) conj0 ;;
  assert_ (length conjs =? n) ;;;
  sorted <- sort_by (conj_cmp text) conjs ;;
  t0 <- get text 0 ;;
  for_in (range 0 n) (fun i bbwt =>
    c <- get sorted i ;;
    position <- (if cj_index c =? 0 then Ok (cj_end c)
                 else sub_ (cj_start c + cj_index c) 1) ;;
    x <- get text position ;;
    set bbwt i x) (repeat t0 n).

(** core.rs:239-247 [compute_phi]. *)
Definition compute_phi (sa : list nat) : res (list nat) :=
  let n := length sa in
  assert_ (0 <? n) ;;;
  phi <- for_in (range 1 n) (fun i phi =>
      a <- get sa i ;; i1 <- sub_ i 1 ;; b <- get sa i1 ;; set phi a b) (repeat 0 n) ;;
  s0 <- get sa 0 ;; l1 <- sub_ n 1 ;; sl <- get sa l1 ;;
  set phi s0 sl.

(** core.rs:249-255 [inverse_permutation]. *)
Definition inverse_permutation (arr : list nat) : res (list nat) :=
  for_in (range 0 (length arr)) (fun i inv => a <- get arr i ;; set inv a i)
    (repeat 0 (length arr)).

(** core.rs:257-275 [compute_plcp]; lines 265-270, the matching loop. *)
Definition plcp_extend (text : str) (pa pb len0 : nat) : res nat :=
  let n := length text in
  loop (S n) (fun len =>
    if (pa + len <? n) && (pb + len <? n) then
      a <- get text (pa + len) ;; b <- get text (pb + len) ;;
      if a =? b then Ok (Cont (len + 1)) else Ok (Brk len)
    else Ok (Brk len)) len0.
(** core.rs:257-275 [compute_plcp]. *)
Definition compute_plcp (text : str) (phi : list nat) : res (list nat) :=
  assert_ (length text =? length phi) ;;;
  '(plcp, _) <- for_in (range 0 (length text)) (fun pb '(plcp, len) =>
      pa <- get phi pb ;;
      len' <- plcp_extend text pa pb len ;;
      plcp' <- set plcp pb len' ;;
      Ok (plcp', len' - 1)) (repeat 0 (length text), 0) ;;
  Ok plcp.

(** core.rs:277-287 [compute_lcp]. *)
Definition compute_lcp (plcp sa : list nat) : res (list nat) :=
  assert_ (length plcp =? length sa) ;;;
  for_in (range 0 (length plcp)) (fun i lcp =>
    s <- get sa i ;; v <- get plcp s ;; set lcp i v) (repeat 0 (length plcp)).

(** core.rs:289 [INVALID_VALUE]: u32::MAX. *)
Definition INVALID_VALUE : N := 4294967295%N.
(** [x as u32] for an unsigned x (core.rs:271, 299, 316) *)
Definition as_u32 (x : N) : N := (x mod 4294967296)%N.
(** core.rs:297-303, the while loop of [compute_psv]. *)
Definition psv_chain (arr : list nat) (psv : list N) (i : nat) (p0 : N) : res N :=
  x <- loop (S (length arr)) (fun p =>
    if (p =? INVALID_VALUE)%N then Ok (Brk INVALID_VALUE) else
    ap <- get arr (N.to_nat p) ;; ai <- get arr i ;;
    if ap <? ai then Ok (Brk (as_u32 p)) else
    p' <- get psv (N.to_nat p) ;; Ok (Cont p')) p0 ;;
  Ok x.
(** core.rs:291-306 [compute_psv]. *)
Definition compute_psv (arr : list nat) : res (list N) :=
  psv0 <- set (repeat 0%N (length arr)) 0 INVALID_VALUE ;;
  for_in (range 1 (length arr)) (fun i psv =>
    i1 <- sub_ i 1 ;;
    psv1 <- set psv i INVALID_VALUE ;;
    v <- psv_chain arr psv1 i (N.of_nat i1) ;;
    set psv1 i v) psv0.
(** core.rs:308-323 [compute_nsv]. *)
Definition compute_nsv (arr : list nat) : res (list N) :=
  l1 <- sub_ (length arr) 1 ;;
  nsv0 <- set (repeat 0%N (length arr)) l1 INVALID_VALUE ;;
  for_in (rev (range 0 l1)) (fun i nsv =>
    nsv1 <- set nsv i INVALID_VALUE ;;
    v <- psv_chain arr nsv1 i (N.of_nat (i + 1)) ;;
    set nsv1 i v) nsv0.

(** core.rs:235-237 [bit_size] on a 64-bit usize: 64 - leading_zeros. [leading_zeros] of a
    64-bit word x is 64 minus the position after the highest set bit. *)
Definition leading_zeros64 (x : N) : N := (64 - N.size x)%N.
(** core.rs:235-237 [bit_size] *)
Definition bit_size (i : N) : N := (64 - leading_zeros64 i)%N.

(** core.rs:375-424 [RandomStringGenerator]: (m_range.start, m_range.end, m_log_alphabet_size). *)
Record rsg := RSG { rsg_start : N; rsg_end : N; rsg_log : N }.
(** core.rs:393-423 [next]. The branch at lines 397-404 draws from gen_range(1..2), which only
    contains 1. *)
Definition rsg_next (g : rsg) : res (option str * rsg) :=
  if (18446744073709551616 <=? rsg_start g * 2)%N then Panic else
  if (rsg_end g <=? rsg_start g * 2)%N then Ok (None, g) else
  if (rsg_end g <=? rsg_start g)%N then Ok (Some (repeat 1 128), g) else
  let start := (rsg_start g + 1)%N in
  let msb := bit_size start in
  if (64 <? rsg_log g)%N then Panic else          (* 64u8 - log *)
  if (rsg_log g =? 0)%N then Panic else           (* shift by 64 *)
  let mask := N.shiftr 18446744073709551615 (64 - rsg_log g) in
  text <- for_in (range 1 (N.to_nat (msb / rsg_log g))) (fun i text =>
     let sh := (rsg_log g * N.of_nat i)%N in
     if (256 <=? sh)%N then Panic else if (64 <=? sh)%N then Panic else
     let v := (N.land (N.shiftr start sh) mask + 1)%N in
     if (18446744073709551616 <=? v)%N then Panic else
     Ok (text ++ [N.to_nat (v mod 256)])) [] ;;
  Ok (Some (text ++ [0]), RSG start (rsg_end g) (rsg_log g)).

(** core.rs:426-441 [LyndonWordGenerator] and [new]. *)
Record lwg := LWG { lwg_length : nat; lwg_sigma : nat; lwg_stack : str }.
(** core.rs:431-441 [LyndonWordGenerator::new] *)
Definition lwg_new (len sigma : nat) : lwg := LWG len sigma [].
(** core.rs:465-468, repeat the word to fill exactly n symbols *)
Definition lwg_fill (n cur : nat) (stack : str) : res str :=
  loop (S n) (fun stack =>
    if length stack <? n then
      p <- sub_ (length stack) cur ;; x <- get stack p ;; Ok (Cont (stack ++ [x]))
    else Ok (Brk stack)) stack.
(** core.rs:471-473, delete trailing z's *)
Definition lwg_trim (sigma : nat) (stack : str) : res str :=
  loop (S (length stack)) (fun stack =>
    match rev stack with
    | [] => Ok (Brk stack)
    | x :: r => z <- sub_ sigma 1 ;;
                if x =? z then Ok (Cont (rev r)) else Ok (Brk stack)
    end) stack.
(** core.rs:452-480 [next]; u8 overflow of the increment panics. *)
Definition lwg_next (g : lwg) : res (option str * lwg) :=
  if lwg_length g =? 0 then Ok (None, g) else
  match lwg_stack g with
  | [] => Ok (Some [0], LWG (lwg_length g) (lwg_sigma g) [0])
  | _ => 
    st1 <- lwg_fill (lwg_length g) (length (lwg_stack g)) (lwg_stack g) ;;
    st2 <- lwg_trim (lwg_sigma g) st1 ;;
    match rev st2 with
    | [] => Ok (None, LWG 0 (lwg_sigma g) [])
    | x :: r => if 255 <=? x then Panic else
                let st3 := rev r ++ [x + 1] in
                Ok (Some st3, LWG (lwg_length g) (lwg_sigma g) st3)
    end
  end.

(** core.rs:484-514 [BinaryStringGenerator]: m_length (u8), m_rank (u64). *)
Record bsg := BSG { bsg_length : nat; bsg_rank : N }.
(** core.rs:491-496 [BinaryStringGenerator::new] *)
Definition bsg_new (len : nat) : bsg := BSG len 0%N.
(** core.rs:502-513 [BinaryStringGenerator::next]; 1 << i panics for i >= 64 *)
Definition bsg_next (g : bsg) : res (option str * bsg) :=
  if (bsg_rank g =? 18446744073709551615)%N then Ok (None, g) else
  text <- for_in (range 0 (bsg_length g)) (fun i text =>
    if 64 <=? i then Panic else
    let bit := N.land (bsg_rank g) (N.shiftl 1 (N.of_nat i)) in
    Ok (text ++ [if (bit =? 0)%N then 48 else 49])) [] ;;
  Ok (Some text, BSG (bsg_length g) (bsg_rank g + 1)%N).

(** core.rs:518-552 [ConjugateIterator]. *)
Record cit := CIT { cit_text : str; cit_pos : nat }.
(** core.rs:525-530 [ConjugateIterator::new] *)
Definition cit_new (t : str) : cit := CIT t 0.
(** core.rs:536-551 [ConjugateIterator::next] *)
Definition cit_next (g : cit) : res (option str * cit) :=
  let t := cit_text g in
  if cit_pos g =? length t then Ok (None, g) else
  r1 <- for_in (range (cit_pos g) (length t)) (fun i r => x <- get t i ;; Ok (r ++ [x])) [] ;;
  r2 <- for_in (range 0 (cit_pos g)) (fun i r => x <- get t i ;; Ok (r ++ [x])) r1 ;;
  Ok (Some r2, CIT t (cit_pos g + 1)).
