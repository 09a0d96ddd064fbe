(** ModelFs.v : the programs of /repo/src/bin that read or write files, with the order of their effects. i and o are
    the options --infilename and --outfilename. Lines about arguments, logging and the RESULT line on the standard
    output are left out. The computations are those of the other Model files; overflow checks are on.
    A write! call with several pieces makes several write_all calls; here it is one WriteOut, which may also
    fail after any of its bytes. flush() has no effect on files. *)
From Verif Require Import Base ModelIo ModelTools ModelCore ModelMain ModelLz SpecFs.

Notation "x <~ e ; f" := (seq_io e (fun x => f)) (at level 60, right associativity).
(** write_all(b).unwrap() (e.g. mtf.rs:18) *)
Definition write_ (b : str) : io unit := WriteOut b (Ret tt).
(** bytes in a BufWriter, or in the buffer of the standard output, when main returns without flush() (io.rs:67-76) *)
Definition write_buf (b : str) : io unit := WriteBuf b (Ret tt).

(** the idiom loop { match io::read_char(..) { Err(_) => break, Ok(c) => .. } } (mtf.rs:9-21, rle.rs:15-28, 41-55, 74-93) *)
Fixpoint while_read_io {S} (fuel : nat) (body : nat -> S -> io S) (s : S) : io S :=
  match fuel with
  | O => NoFuel
  | Datatypes.S fuel => ReadIn (fun e => match e with
                                         | Byte c => s' <~ body c s ; while_read_io fuel body s'
                                         | _ => Ret s
                                         end)
  end.

(** bin/mtf.rs:7-23 [mtf] *)
Definition mtf_body (cur_char : nat) (v : str) : io str :=
  pos <~ lift (position_ cur_char v) ;
  v <~ lift (for_in (range 0 pos) (fun j v => a <- sub_ pos j ;; b <- sub_ a 1 ;; x <- get v b ;; set v a x) v) ;
  v <~ lift (set v 0 cur_char) ;
  _ <~ write_ [pos mod 256] ;
  Ret v.
(** bin/mtf.rs:7-23 [mtf] on a stream *)
Definition mtf_stream (fuel : nat) : io unit := _ <~ while_read_io fuel mtf_body (seq 0 255) ; Ret tt.
(** bin/mtf.rs:67-72 [main]: the writer is opened first *)
Definition mtf_io (fuel : nat) (i o : option name) : io unit := CreateOut o (OpenIn i (mtf_stream fuel)).

(** bin/rle.rs:35-60 [rle] *)
Definition rle_body (next_char : nat) (st : nat * nat) : io (nat * nat) :=
  let '(run_counter, prev_char) := st in
  if negb (next_char =? prev_char) then
    _ <~ lift (assert_ (run_counter <? 255)) ;
    _ <~ write_ [prev_char; run_counter] ;
    Ret (0, next_char)
  else rc <~ lift (inc_u8 run_counter) ; Ret (rc, prev_char).
(** bin/rle.rs:35-60 [rle] on a stream *)
Definition rle_stream (fuel : nat) : io unit :=
  ReadIn (fun e => match e with
  | Byte first_char =>
      st <~ while_read_io fuel rle_body (0, first_char) ; let '(run_counter, prev_char) := st in
      write_ [prev_char; run_counter]
  | _ => Ret tt
  end).
(** bin/rle.rs:64-100 [rle_zero] *)
Definition rle_zero_body (next_char : nat) (run_counter : nat) : io nat :=
  if negb (next_char =? CHR_ZERO) then
    if run_counter =? 0 then _ <~ write_ [next_char] ; Ret run_counter
    else r1 <~ lift (sub_ run_counter 1) ; _ <~ lift (assert_ (r1 <? 255)) ;
         _ <~ write_ [CHR_ZERO; run_counter - 1] ; Ret 0
  else lift (inc_u8 run_counter).
(** bin/rle.rs:64-100 [rle_zero] on a stream *)
Definition rle_zero_stream (fuel : nat) : io unit :=
  ReadIn (fun e => match e with
  | Byte first_char =>
      run_counter <~ (if first_char =? CHR_ZERO then Ret 1 else _ <~ write_ [first_char] ; Ret 0) ;
      run_counter <~ while_read_io fuel rle_zero_body run_counter ;
      (if 0 <? run_counter then write_ [CHR_ZERO; run_counter] else Ret tt)
  | _ => Ret tt
  end).
(** bin/rle.rs:9-33 [rle_text] *)
Definition rle_text_body (next_char : nat) (st : nat * nat) : io (nat * nat) :=
  let '(run_counter, prev_char) := st in
  if negb (next_char =? prev_char) then
    r1 <~ lift (inc_u8 run_counter) ; _ <~ write_ (fmt_run prev_char r1) ; Ret (0, next_char)
  else rc <~ lift (inc_u8 run_counter) ; Ret (rc, prev_char).
(** bin/rle.rs:9-33 [rle_text] on a stream *)
Definition rle_text_stream (fuel : nat) : io unit :=
  ReadIn (fun e => match e with
  | Byte first_char =>
      st <~ while_read_io fuel rle_text_body (0, first_char) ; let '(run_counter, prev_char) := st in
      r1 <~ lift (inc_u8 run_counter) ;
      write_ (fmt_run prev_char r1)
  | _ => Ret tt
  end).
(** bin/rle.rs:125-137 [main]: the writer is opened first; --human goes before --onlyzero *)
Definition rle_io (fuel : nat) (human onlyzero : bool) (i o : option name) : io unit :=
  CreateOut o (OpenIn i
    (if human then rle_text_stream fuel else if onlyzero then rle_zero_stream fuel else rle_stream fuel)).

(** bin/escape.rs:132-151, forward direction *)
Fixpoint escape_fwd_io (n : nat) (esc : nat) (m : list (nat * nat)) : io unit :=
  match n with
  | O => Ret tt
  | S n => ReadIn (fun e => match e with
    | Byte cur_char =>
        if cur_char =? esc then _ <~ write_ [esc; esc] ; escape_fwd_io n esc m
        else _ <~ write_ (match hm_get m cur_char with Some r => [esc; r] | None => [cur_char] end) ; escape_fwd_io n esc m
    | _ => Ret tt
    end)
  end.
(** bin/escape.rs:105-123, reverse direction *)
Fixpoint escape_rev_io (n : nat) (esc : nat) (m : list (nat * nat)) : io unit :=
  match n with
  | O => Ret tt
  | S n => ReadIn (fun e => match e with
    | Byte cur_char =>
        if cur_char =? esc then ReadIn (fun e => match e with
          | Byte next_char =>
              if next_char =? esc then _ <~ write_ [esc] ; escape_rev_io n esc m
              else match hm_get m next_char with
                   | Some r => _ <~ write_ [r] ; escape_rev_io n esc m
                   | None => Abort
                   end
          | _ => Abort
          end)
        else _ <~ write_ [cur_char] ; escape_rev_io n esc m
    | _ => Ret tt
    end)
  end.
(** bin/escape.rs:50-154 [main]: both files are opened before the sanity checks *)
Definition escape_io (prefixlength : nat) (esc : nat) (from to : str) (is_reversion : bool) (i o : option name) : io unit :=
  OpenIn i (CreateOut o (
    _ <~ lift (assert_ (escape_checks esc from to)) ;
    if is_reversion then m <~ lift (build_map to from) ; escape_rev_io prefixlength esc m
    else m <~ lift (build_map from to) ; escape_fwd_io prefixlength esc m)).

(** whether an input option names a file (io.rs:46-51) *)
Definition is_some (i : option name) : bool := match i with Some _ => true | None => false end.
(** bin/reverse.rs:30-46 [main]: the writer is opened first *)
Definition reverse_io (prefixlength : nat) (i o : option name) : io unit :=
  CreateOut o (Slurp i (fun content =>
    text <~ lift (reverse_main (is_some i) content prefixlength) ; write_ text)).
(** bin/bwt.rs:38-74 [main]: the writer is opened last *)
Definition bwt_io (sort : str -> list nat) (prefixlength : nat) (use_matrix no_dollar : bool) (i o : option name) : io unit :=
  Slurp i (fun content =>
    bwt <~ lift (bwt_main sort (is_some i) content prefixlength use_matrix no_dollar) ;
    CreateOut o (write_ bwt)).
(** bin/word.rs:39-57 [main]: the writer is opened first; no flush() *)
Definition word_io (w : word_name) (k : nat) (o : option name) : io unit :=
  CreateOut o (text <~ lift (word_main w k) ; match o with None => write_buf text | Some _ => write_ text end).
(** bin/lyndonfactorization.rs:31-100 [main]; the output file is created after the checks (without -o nothing is
    written). lyndon_file computes all that goes through the BufWriter; slices that panic would leave a shorter file,
    but C60 shows that there are none. *)
Definition lyndonfactorization_io (prefixlength : nat) (i : option name) (o : option name) : io unit :=
  Slurp i (fun content =>
    text <~ lift (file_or_stdin2byte_vector (is_some i) content prefixlength) ;
    factors <~ lift (duval text) ;
    l <~ lift (last_ factors) ;
    _ <~ lift (assert_ (l + 1 =? length text)) ;
    match o with
    | None => Ret tt
    | Some f => CreateOut (Some f) (out <~ lift (lyndon_file text factors) ; write_buf out)
    end).
(** format!("({},{})", fact.pos, fact.len) (count_z.rs:224, count_lexparse.rs:115) *)
Definition fmt_factor (f : lzfactor) : str := [40] ++ dec_usize (lz_pos f) ++ [44] ++ dec_usize (lz_len f) ++ [41].
(** for fact in factors { writer.write_all(..).unwrap(); } (count_z.rs:222-226, count_lexparse.rs:113-117) *)
Fixpoint write_factors (factors : list lzfactor) : io unit :=
  match factors with
  | [] => Ret tt
  | f :: factors => _ <~ write_ (fmt_factor f) ; write_factors factors
  end.
(** bin/count_z.rs:164-228 [main] *)
Definition count_z_io (sort : str -> list nat) (prefixlength : nat) (i o : option name) : io unit :=
  Slurp i (fun content =>
    text <~ lift (file_or_stdin2byte_vector (is_some i) content prefixlength) ;
    factors <~ lift (count_z_main sort text) ;
    match o with
    | None => Ret tt
    | Some f => CreateOut (Some f) (write_factors factors)
    end).
(** bin/count_lexparse.rs:63-119 [main] *)
Definition count_lexparse_io (sort : str -> list nat) (prefixlength : nat) (i o : option name) : io unit :=
  Slurp i (fun content =>
    text <~ lift (file_or_stdin2byte_vector (is_some i) content prefixlength) ;
    factors <~ lift (count_lexparse_main sort text) ;
    match o with
    | None => Ret tt
    | Some f => CreateOut (Some f) (write_factors factors)
    end).
