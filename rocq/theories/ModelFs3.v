(** ModelFs3.v : rle in a release build (ModelRelease.v) as a program on files. *)
From Verif Require Import Base ModelIo ModelTools ModelRelease SpecFs ModelFs.

(** bin/rle.rs:35-60 [rle] *)
Definition rle_body_release (next_char : nat) (st : nat * nat) : io (nat * nat) :=
  let '(run_counter, prev_char) := st in
  if negb (next_char =? prev_char) then
    _ <~ lift (assert_ (run_counter <? 255)) ;
    _ <~ write_ [prev_char; run_counter] ;
    Ret (0, next_char)
  else Ret (inc_u8_release run_counter, prev_char).
(** bin/rle.rs:35-60 [rle] on a stream *)
Definition rle_stream_release (fuel : nat) : io unit :=
  ReadIn (fun e => match e with
  | Byte first_char =>
      st <~ while_read_io fuel rle_body_release (0, first_char) ; let '(run_counter, prev_char) := st in
      write_ [prev_char; run_counter]
  | _ => Ret tt
  end).
(** bin/rle.rs:64-100 [rle_zero] *)
Definition rle_zero_body_release (next_char : nat) (run_counter : nat) : io nat :=
  if negb (next_char =? CHR_ZERO) then
    if run_counter =? 0 then _ <~ write_ [next_char] ; Ret run_counter
    else _ <~ lift (assert_ (run_counter - 1 <? 255)) ; _ <~ write_ [CHR_ZERO; run_counter - 1] ; Ret 0
  else Ret (inc_u8_release run_counter).
(** bin/rle.rs:64-100 [rle_zero] on a stream *)
Definition rle_zero_stream_release (fuel : nat) : io unit :=
  ReadIn (fun e => match e with
  | Byte first_char =>
      run_counter <~ (if first_char =? CHR_ZERO then Ret 1 else _ <~ write_ [first_char] ; Ret 0) ;
      run_counter <~ while_read_io fuel rle_zero_body_release run_counter ;
      (if 0 <? run_counter then write_ [CHR_ZERO; run_counter] else Ret tt)
  | _ => Ret tt
  end).
(** bin/rle.rs:9-33 [rle_text] *)
Definition rle_text_body_release (next_char : nat) (st : nat * nat) : io (nat * nat) :=
  let '(run_counter, prev_char) := st in
  if negb (next_char =? prev_char) then
    _ <~ write_ (fmt_run prev_char (inc_u8_release run_counter)) ; Ret (0, next_char)
  else Ret (inc_u8_release run_counter, prev_char).
(** bin/rle.rs:9-33 [rle_text] on a stream *)
Definition rle_text_stream_release (fuel : nat) : io unit :=
  ReadIn (fun e => match e with
  | Byte first_char =>
      st <~ while_read_io fuel rle_text_body_release (0, first_char) ; let '(run_counter, prev_char) := st in
      write_ (fmt_run prev_char (inc_u8_release run_counter))
  | _ => Ret tt
  end).
(** bin/rle.rs:125-137 [main]: the writer is opened first; --human goes before --onlyzero *)
Definition rle_io_release (fuel : nat) (human onlyzero : bool) (i o : option name) : io unit :=
  CreateOut o (OpenIn i
    (if human then rle_text_stream_release fuel else if onlyzero then rle_zero_stream_release fuel else rle_stream_release fuel)).
