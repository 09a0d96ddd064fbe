(** ModelIo.v : /repo/src/io.rs and the stream-based [number_of_runs] of core.rs. *)
From Verif Require Import Base.

(** [&[u8]] and [Vec<u8>] (io.rs:5-95) *)
Notation str := (list nat).

(** What one call of [Read::read] on a one-byte buffer can return: Ok(1) with the byte stored,
    Ok(0), or Err. Ok(u) with u > 1 is excluded by the contract of [Read]. (used at io.rs:79-95) *)
Inductive event := Byte (c : nat) | Eof | IoErr.
(** A reader is the (infinite) sequence of results of its successive [read] calls; the mutable
    reader is modelled by the number of calls made so far. (io.rs:79-95) *)
Definition reader := nat -> event.

(** io.rs:79-95 [read_char]: None is [Err(_)]. *)
Definition read_char (rd : reader) (pos : nat) : option nat * nat :=
  (match rd pos with Byte c => Some c | _ => None end, S pos).

(** io.rs:3-27 [file2byte_vector]: the file holds [content]; [metalen] is what fs::metadata
    reports (equal to the length unless the file changes concurrently). A missing file panics
    ([expect]) and is not modelled further. *)
Definition file2byte_vector (content : str) (metalen prefix_length : nat) : res str :=
  let buffer_length := if 0 <? prefix_length then Nat.min prefix_length metalen else metalen in
  if buffer_length <=? length content then Ok (firstn buffer_length content)
  else Panic. (* read_exact(..).unwrap() *)

(** io.rs:29-44 [stdin2byte_vector]. *)
Definition stdin2byte_vector (content : str) (prefix_length : nat) : res str :=
  if 0 <? prefix_length then
    if prefix_length <=? length content then Ok (firstn prefix_length content) else Panic
  else Ok content.

(** io.rs:46-51 [file_or_stdin2byte_vector]: the file name is [Some] or [None]; content is what
    the chosen source holds. *)
Definition file_or_stdin2byte_vector (is_file : bool) (content : str) (prefix_length : nat) : res str :=
  if is_file then file2byte_vector content (length content) prefix_length
  else stdin2byte_vector content prefix_length.

(** The idiom [loop { match io::read_char(&mut reader) { Err(_) => break, Ok(c) => {..} } }] used by
    core.rs:561-571, mtf.rs:9-21, rle.rs:15-28, 41-55, 74-93: run [step] on every byte until the first
    Err. [fuel] bounds the number of iterations. *)
Definition while_read {S} (fuel : nat) (rd : reader) (step : nat -> S -> res S) (s : S) (pos : nat) : res S :=
  loop fuel (fun '(s, pos) =>
    match read_char rd pos with
    | (None, _) => Ok (Brk s)
    | (Some c, pos') => s' <- step c s ;; Ok (Cont (s', pos'))
    end) (s, pos).

(** core.rs:555-575 [number_of_runs]; fuel bounds the number of iterations of [loop]. *)
Definition number_of_runs (fuel : nat) (rd : reader) : res nat :=
  match read_char rd 0 with
  | (None, _) => Ok 0
  | (Some first_char, pos) =>
    '(run_counter, _) <- while_read fuel rd (fun next_char '(run_counter, prev_char) =>
        if negb (next_char =? prev_char) then Ok (run_counter + 1, next_char)
        else Ok (run_counter, prev_char)) (1, first_char) pos ;;
    Ok run_counter
  end.
