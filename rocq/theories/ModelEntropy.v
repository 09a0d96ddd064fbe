(** ModelEntropy.v : bin/entropy.rs and bin/entropy_kmer.rs. f64 numbers are modelled by exact real numbers
    ([None] is NaN, which only 0/0 can produce here); rounding is not modelled. *)
From Verif Require Import Base ModelIo ModelCore.
From Coq Require Import NArith Reals.

(** f64 values (entropy.rs:17-140, entropy_kmer.rs:26-126) *)
Definition f64 := option R.
(** f64::log2 (entropy.rs:27, 107, 131; entropy_kmer.rs:70, 74) *)
Definition log2 (x : R) : R := (ln x / ln 2)%R.
(** + on f64 (entropy.rs:27, entropy_kmer.rs:70) *)
Definition f_add (x y : f64) : f64 := match x, y with Some a, Some b => Some (a + b)%R | _, _ => None end.
(** * on f64 (entropy.rs:27, entropy_kmer.rs:70) *)
Definition f_mul (x y : f64) : f64 := match x, y with Some a, Some b => Some (a * b)%R | _, _ => None end.
(** x / n for a number n of type usize; 0/0 is NaN. (x/0 for x <> 0 is infinite; it does not occur: the sums
    divided below are 0 when the count is 0.) (entropy.rs:27-131, entropy_kmer.rs:70-126) *)
Definition f_div (x : f64) (n : nat) : f64 :=
  match x with Some a => if n =? 0 then None else Some (a / INR n)%R | None => None end.

(** entropy.rs:16-31 [zero_order_entropy]; [v] lists the bytes of the iterator *)
Definition zero_order_entropy (v : str) : res f64 :=
  '(char_counters, total_count) <- for_in v (fun c '(cc, total) =>
      x <- get cc c ;; cc' <- set cc c (x + 1) ;; Ok (cc', total + 1)) (repeat 0 256, 0) ;;
  sum <- for_in char_counters (fun count sum =>
      if 0 <? count then Ok (sum + INR count * log2 (INR total_count / INR count))%R else Ok sum) 0%R ;;
  Ok (f_div (Some sum) total_count).

(** entropy.rs:51-61, the closure compute_context *)
Definition compute_context (text : str) (sa : list nat) (k start len : nat) : res f64 :=
  v <- for_in (firstn len (skipn start sa)) (fun savalue v =>
      let pos := savalue + k in
      if pos <? length text then c <- get text pos ;; Ok (v ++ [c]) else Ok v) [] ;;
  h <- zero_order_entropy v ;;
  Ok (f_mul (Some (INR len)) h).

(** entropy.rs:65-75, one iteration of the loop *)
Definition context_step (text : str) (sa lcp : list nat) (k lcpindex : nat) (st : f64 * nat) : res (f64 * nat) :=
  let '(sum, contextcount) := st in
  lcpvalue <- get lcp lcpindex ;;
  if (0 <? contextcount) && (lcpvalue <? k) then
    assert_ (0 <? lcpindex) ;;;
    a <- sub_ lcpindex contextcount ;; a <- sub_ a 1 ;;
    x <- compute_context text sa k a (contextcount + 1) ;;
    Ok (f_add sum x, 0)
  else if k <=? lcpvalue then Ok (sum, contextcount + 1) else Ok (sum, contextcount).

(** entropy.rs:37-81 [kth_order_entropy]; [sort] stands for cdivsufsort *)
Definition kth_order_entropy (sort : str -> list nat) (text : str) (k : nat) : res f64 :=
  assert_ (0 <? k) ;;;
  n1 <- sub_ (length text) 1 ;;
  assert_ (negb (existsb (fun x => x =? 0) (firstn n1 text))) ;;;
  let sa := sort text in
  phi <- compute_phi sa ;;
  plcp <- compute_plcp text phi ;;
  lcp <- compute_lcp plcp sa ;;
  '(sum, contextcount) <- for_in (range 0 (length lcp)) (context_step text sa lcp k) (Some 0%R, 0) ;;
  l1 <- sub_ (length lcp) 1 ;;
  lastlcp <- get lcp l1 ;;
  sum <- (if (k <=? lastlcp) && (0 <? contextcount) then
            a <- sub_ (length lcp) contextcount ;; a <- sub_ a 1 ;;
            x <- compute_context text sa k a (contextcount + 1) ;;
            Ok (f_add sum x)
          else Ok sum) ;;
  Ok (f_div sum (length text)).

(** entropy.rs:160-198 [main]: the value printed *)
Definition entropy_main (sort : str -> list nat) (is_file : bool) (content : str) (prefixlength order : nat) : res f64 :=
  t <- file_or_stdin2byte_vector is_file content prefixlength ;;
  let text := t ++ [0] in
  if order =? 0 then zero_order_entropy text else kth_order_entropy sort text order.

(** HashMap<u64, u64> with the operation "increment the counter of key" (entropy_kmer.rs:39-46, 55-62):
    association list *)
Fixpoint bump (key : N) (m : list (N * nat)) : list (N * nat) :=
  match m with
  | [] => [(key, 1)]
  | (x, c) :: m' => if N.eqb x key then (x, c + 1) :: m' else (x, c) :: bump key m'
  end.
(** u64 shifts by 8 and insertion of a byte: ringbuf <<= 8; ringbuf |= byte (entropy_kmer.rs:32, 51) *)
Definition push_byte (ringbuf : N) (byte : nat) : N :=
  N.lor (N.shiftl ringbuf 8 mod 18446744073709551616) (N.of_nat byte).
(** u64::MAX >> (8 * (w - order)); the shift amount must stay below 64 (entropy_kmer.rs:38, 54) *)
Definition kmer_mask (w order : nat) : res N :=
  d <- sub_ w order ;;
  if 64 <=? 8 * d then Panic else Ok (N.shiftr 18446744073709551615 (N.of_nat (8 * d))).
(** bin/entropy_kmer.rs:37-47 [increment_kmer]: get_mut or insert *)
Definition increment (w order : nat) (ringbuf : N) (m : list (N * nat)) : res (list (N * nat)) :=
  mask <- kmer_mask w order ;; Ok (bump (N.land ringbuf mask) m).
(** entropy_kmer.rs:68-75: iteration over a map in the order [it] gives *)
Definition log_sum (it : list (N * nat)) : R :=
  fold_left (fun s kc => (s + INR (snd kc) * log2 (INR (snd kc)))%R) it 0%R.
(** entropy_kmer.rs:24-77 [entropy_via_kmer_counting] on an iterator over the bytes of [text];
    [iter1], [iter2] give the (unspecified) iteration orders of the two hash maps. *)
Definition entropy_via_kmer_counting (iter1 iter2 : list (N * nat) -> list (N * nat)) (text : str) (order : nat)
  : res (f64 * nat) :=
  '(ringbuf, rest) <- for_in (range 0 order) (fun _ '(ringbuf, rest) =>
      match rest with
      | [] => Panic                             (* next().unwrap() *)
      | b :: rest' => Ok (push_byte ringbuf b, rest')
      end) (0%N, text) ;;
  '(ringbuf, kmers, kplusmers, count) <- for_in rest (fun byte '(ringbuf, kmers, kplusmers, count) =>
      kmers <- increment 8 order ringbuf kmers ;;
      let ringbuf := push_byte ringbuf byte in
      kplusmers <- increment 7 order ringbuf kplusmers ;;
      Ok (ringbuf, kmers, kplusmers, count + 1)) (ringbuf, [], [], order) ;;
  kmers <- increment 8 order ringbuf kmers ;;
  Ok (f_div (Some (log_sum (iter1 kmers) - log_sum (iter2 kplusmers))%R) count, count).

(** entropy_kmer.rs:143-178 [main] *)
Definition entropy_kmer_main (iter1 iter2 : list (N * nat) -> list (N * nat)) (is_file : bool) (content : str)
    (prefixlength order : nat) : res (f64 * nat) :=
  assert_ (0 <? order) ;;; assert_ (order <=? 7) ;;;
  t <- file_or_stdin2byte_vector is_file content prefixlength ;;
  entropy_via_kmer_counting iter1 iter2 (t ++ [0]) order.
