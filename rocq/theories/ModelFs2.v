(** ModelFs2.v : the programs of /repo/src/bin that generate words, with the order of their effects (see ModelFs.v; same
    simplifications). The standard output of Rust is buffered by lines: it has no effect of its own on a line that is ended by a
    newline, whose write errors are reported; text without a newline is left in the buffer. *)
From Verif Require Import Base ModelIo ModelTools ModelCore ModelWord ModelMain ModelEnum SpecFs ModelFs.

(** loop { .. } (enumerate.rs:16-38) *)
Fixpoint loop_io {S B} (fuel : nat) (body : S -> io (ctl S B)) (s : S) : io B :=
  match fuel with
  | O => NoFuel
  | Datatypes.S fuel => c <~ body s ; match c with Cont s' => loop_io fuel body s' | Brk b => Ret b end
  end.
(** for x in l { .. } (e.g. randomstring.rs:51) *)
Fixpoint for_io {X S} (l : list X) (body : X -> S -> io S) (s : S) : io S :=
  match l with
  | [] => Ret s
  | x :: l => s' <~ body x s ; for_io l body s'
  end.

(** bin/lyndonwords.rs:28-32, one round: two writes per word *)
Definition lyndonwords_body (g : lwg) : io (ctl lwg unit) :=
  ig <~ lift (lwg_next g) ; let '(it, g') := ig in
  match it with
  | None => Ret (Brk tt)
  | Some w =>
      line <~ lift (for_in w (fun x s => c <- add_u8 x 97 ;; Ok (s ++ [c])) []) ;
      _ <~ write_ line ;
      _ <~ write_ [10] ;
      Ret (Cont g')
  end.
(** bin/lyndonwords.rs:24-33 [main]: the writer is opened first *)
Definition lyndonwords_io (fuel length_ sigma : nat) (o : option name) : io unit :=
  CreateOut o (loop_io fuel lyndonwords_body (lwg_new length_ sigma)).

(** bin/randomstring.rs:51-60, one round: random_step appends the letter to an empty string here *)
Definition randomstring_body (fuel alphabet_size : nat) (rng : nat -> nat) (st : nat * str) : io (nat * str) :=
  r <~ lift (random_step fuel alphabet_size rng (fst st, snd st, [])) ; let '(used, charset, newchar) := r in
  _ <~ write_ newchar ;
  Ret (used, charset).
(** bin/randomstring.rs:29-61 [main]: the writer is opened first. Without -o the letters go to the line buffer of the standard
    output, which is emptied when it is full and when the program ends; here in the end. *)
Definition randomstring_io (fuel alphabet_size prefixlength : nat) (rng : nat -> nat) (o : option name) : io unit :=
  CreateOut o (match o with
    | Some _ => _ <~ for_io (range 0 prefixlength) (fun _ st => randomstring_body fuel alphabet_size rng st) (0, []) ; Ret tt
    | None => text <~ lift (randomstring_main fuel alphabet_size prefixlength rng) ; write_buf text
    end).

(** bin/enumerate.rs:10-39 [enumerate_for_length] *)
Definition enumerate_body (alpha_size len : nat) (indices : list nat) : io (ctl (list nat) unit) :=
  s <~ lift (enum_line indices) ;
  _ <~ write_ (println s) ;
  r <~ lift (enum_incr alpha_size len indices) ; let '(pos1, indices') := r in
  Ret (if pos1 =? 0 then Brk tt else Cont indices').
(** bin/enumerate.rs:10-39 [enumerate_for_length] *)
Definition enumerate_for_length_io (fuel alpha_size len : nat) : io unit :=
  if len =? 0 then Ret tt else loop_io fuel (enumerate_body alpha_size len) (repeat 0 len).
(** bin/enumerate.rs:41-88 [main]: the result is the exit status *)
Definition enumerate_io (fuel alpha_size min_len : nat) (max_len_opt : option nat) : io nat :=
  CreateOut None (
  let max_len := match max_len_opt with Some m => m | None => min_len end in
  if (alpha_size =? 0) || (26 <? alpha_size) then Ret 1 else
  if min_len =? 0 then Ret 1 else
  if max_len <? min_len then Ret 1 else
  _ <~ for_io (range min_len (max_len + 1)) (fun len _ => enumerate_for_length_io fuel alpha_size len) tt ; Ret 0).

(** bin/generator_kmer.rs:4-23 [main] with its constants as arguments; the generator runs one text ahead of the printing *)
Definition generator_kmer_io (length_ alphabet_size : nat) : io unit :=
  CreateOut None (
  total <~ lift (pow_usize alphabet_size length_) ;
  for_io (range 0 total) (fun num _ =>
    t <~ lift (kmer_text length_ alphabet_size num) ;
    _ <~ lift (assert_ (forallb (fun c => c <? 128) t)) ;
    write_ (println t)) tt).
(** bin/enumerate_lexparse.rs:50-114 [main] with its constants as arguments; enum_step appends the line, if there is one, to an
    empty string here *)
Definition enumerate_lexparse_io (sort : str -> list nat) (length_ alphabet_size : nat) : io unit :=
  CreateOut None (
  total <~ lift (pow_usize alphabet_size length_) ;
  _ <~ for_io (range 0 total) (fun num largest_difference =>
    t <~ lift (kmer_text length_ alphabet_size num) ;
    r <~ lift (enum_step sort alphabet_size t (largest_difference, [])) ; let '(largest_difference', line) := r in
    _ <~ write_ line ; Ret largest_difference') 0 ;
  Ret tt).
