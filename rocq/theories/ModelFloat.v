(** ModelFloat.v : bin/entropy.rs and bin/entropy_kmer.rs once more, with the arithmetic of f64 as a parameter, so that
    the same text can be read over the reals ([reals]: this is ModelEntropy.v, see FloatProof.v) and in IEEE 754 binary64
    arithmetic ([ieee], Flocq's formalisation: rounding to nearest, ties to even, infinities, NaN, signed zeros). *)
From Verif Require Import Base ModelIo ModelCore ModelEntropy.
From Coq Require Import NArith ZArith Reals.
From Flocq Require Import Core BinarySingleNaN.
Close Scope R_scope.

(** the operations on f64 that entropy.rs:16-31, 51-80 and entropy_kmer.rs:68-76 use *)
Record arith : Type := {
  a_num : Type;
  a_zero : a_num;
  a_add : a_num -> a_num -> a_num;
  a_sub : a_num -> a_num -> a_num;
  a_mul : a_num -> a_num -> a_num;
  a_div : a_num -> a_num -> a_num;
  a_log2 : a_num -> a_num;
  a_of : nat -> a_num   (* usize as f64 *)
}.

(** IEEE binary64. f64::log2 is the parameter [l2]: Rust does not specify its precision (entropy.rs:17-140, entropy_kmer.rs:26-126) *)
Definition b64 : Type := binary_float 53 1024.
#[export] Instance prec53 : Prec_gt_0 53 := eq_refl.
#[export] Instance emax1024 : Prec_lt_emax 53 1024 := eq_refl.
(** [x as f64] for a usize (entropy.rs:27, 30, 60, 80; entropy_kmer.rs:70, 74, 76) *)
Definition b64_of_usize (n : nat) : b64 := binary_normalize 53 1024 prec53 emax1024 mode_NE (Z.of_nat n) 0 false.
(** the arithmetic of f64 in entropy.rs and entropy_kmer.rs *)
Definition ieee (l2 : b64 -> b64) : arith := {|
  a_num := b64;
  a_zero := B754_zero false;
  a_add := Bplus mode_NE;
  a_sub := Bminus mode_NE;
  a_mul := Bmult mode_NE;
  a_div := Bdiv mode_NE;
  a_log2 := l2;
  a_of := b64_of_usize |}.

(** exact real numbers; None is NaN (from 0/0; x/0 for other x does not occur) (entropy.rs:17-140, entropy_kmer.rs:26-126) *)
Definition reals : arith := {|
  a_num := option R;
  a_zero := Some 0%R;
  a_add := f_add;
  a_sub x y := match x, y with Some a, Some b => Some (a - b)%R | _, _ => None end;
  a_mul := f_mul;
  a_div x y := match x, y with Some a, Some b => if Req_EM_T b 0 then None else Some (a / b)%R | _, _ => None end;
  a_log2 x := match x with Some a => Some (log2 a) | None => None end;
  a_of n := Some (INR n) |}.

Section PROGRAM.
Context (A : arith).

(** entropy.rs:16-31 [zero_order_entropy]; [v] lists the bytes of the iterator *)
Definition zero_order_entropy_a (v : str) : res (a_num A) :=
  '(char_counters, total_count) <- for_in v (fun c '(cc, total) =>
      x <- get cc c ;; cc' <- set cc c (x + 1) ;; Ok (cc', total + 1)) (repeat 0 256, 0) ;;
  sum <- for_in char_counters (fun count sum =>
      if 0 <? count
      then Ok (a_add A sum (a_mul A (a_of A count) (a_log2 A (a_div A (a_of A total_count) (a_of A count)))))
      else Ok sum) (a_zero A) ;;
  Ok (a_div A sum (a_of A total_count)).

(** entropy.rs:51-61, the closure compute_context *)
Definition compute_context_a (text : str) (sa : list nat) (k start len : nat) : res (a_num A) :=
  v <- for_in (firstn len (skipn start sa)) (fun savalue v =>
      let pos := savalue + k in
      if pos <? length text then c <- get text pos ;; Ok (v ++ [c]) else Ok v) [] ;;
  h <- zero_order_entropy_a v ;;
  Ok (a_mul A (a_of A len) h).

(** entropy.rs:65-75, one iteration of the loop *)
Definition context_step_a (text : str) (sa lcp : list nat) (k lcpindex : nat) (st : a_num A * nat) : res (a_num A * nat) :=
  let '(sum, contextcount) := st in
  lcpvalue <- get lcp lcpindex ;;
  if (0 <? contextcount) && (lcpvalue <? k) then
    assert_ (0 <? lcpindex) ;;;
    a <- sub_ lcpindex contextcount ;; a <- sub_ a 1 ;;
    x <- compute_context_a text sa k a (contextcount + 1) ;;
    Ok (a_add A sum x, 0)
  else if k <=? lcpvalue then Ok (sum, contextcount + 1) else Ok (sum, contextcount).

(** entropy.rs:37-81 [kth_order_entropy]; [sort] stands for cdivsufsort *)
Definition kth_order_entropy_a (sort : str -> list nat) (text : str) (k : nat) : res (a_num A) :=
  assert_ (0 <? k) ;;;
  n1 <- sub_ (length text) 1 ;;
  assert_ (negb (existsb (fun x => x =? 0) (firstn n1 text))) ;;;
  let sa := sort text in
  phi <- compute_phi sa ;;
  plcp <- compute_plcp text phi ;;
  lcp <- compute_lcp plcp sa ;;
  '(sum, contextcount) <- for_in (range 0 (length lcp)) (context_step_a text sa lcp k) (a_zero A, 0) ;;
  l1 <- sub_ (length lcp) 1 ;;
  lastlcp <- get lcp l1 ;;
  sum <- (if (k <=? lastlcp) && (0 <? contextcount) then
            a <- sub_ (length lcp) contextcount ;; a <- sub_ a 1 ;;
            x <- compute_context_a text sa k a (contextcount + 1) ;;
            Ok (a_add A sum x)
          else Ok sum) ;;
  Ok (a_div A sum (a_of A (length text))).

(** entropy.rs:160-198 [main]: the value printed *)
Definition entropy_main_a (sort : str -> list nat) (is_file : bool) (content : str) (prefixlength order : nat) : res (a_num A) :=
  t <- file_or_stdin2byte_vector is_file content prefixlength ;;
  let text := t ++ [0] in
  if order =? 0 then zero_order_entropy_a text else kth_order_entropy_a sort text order.

(** entropy_kmer.rs:68-75: iteration over a map in the order [it] gives *)
Definition log_sum_a (it : list (N * nat)) : a_num A :=
  fold_left (fun s kc => a_add A s (a_mul A (a_of A (snd kc)) (a_log2 A (a_of A (snd kc))))) it (a_zero A).
(** entropy_kmer.rs:24-77 [entropy_via_kmer_counting] on an iterator over the bytes of [text];
    [iter1], [iter2] give the (unspecified) iteration orders of the two hash maps. *)
Definition entropy_via_kmer_counting_a (iter1 iter2 : list (N * nat) -> list (N * nat)) (text : str) (order : nat)
  : res (a_num A * nat) :=
  '(ringbuf, rest) <- for_in (range 0 order) (fun _ '(ringbuf, rest) =>
      match rest with
      | [] => Panic                             (* next().unwrap() *)
      | b :: rest' => Ok (push_byte ringbuf b, rest')
      end) (0%N, text) ;;
  '(ringbuf, kmers, kplusmers, count) <- for_in rest (fun byte '(ringbuf, kmers, kplusmers, count) =>
      kmers <- increment 8 order ringbuf kmers ;;
      let ringbuf := push_byte ringbuf byte in
      kplusmers <- increment 7 order ringbuf kplusmers ;;
      Ok (ringbuf, kmers, kplusmers, count + 1)) (ringbuf, [], [], order) ;;
  kmers <- increment 8 order ringbuf kmers ;;
  Ok (a_div A (a_sub A (log_sum_a (iter1 kmers)) (log_sum_a (iter2 kplusmers))) (a_of A count), count).
(** entropy_kmer.rs:143-178 [main] *)
Definition entropy_kmer_main_a (iter1 iter2 : list (N * nat) -> list (N * nat)) (is_file : bool) (content : str)
    (prefixlength order : nat) : res (a_num A * nat) :=
  assert_ (0 <? order) ;;; assert_ (order <=? 7) ;;;
  t <- file_or_stdin2byte_vector is_file content prefixlength ;;
  entropy_via_kmer_counting_a iter1 iter2 (t ++ [0]) order.
End PROGRAM.
