(** SpecFs.v : files, standard streams and what a program can do with them, step by step. A program that is killed,
    or whose reads and writes fail, stops in one of the configurations reachable here.
    Simplifications: no other process uses the files; a file is its contents (no names that denote the same file, no
    permissions, but opening and creating may fail); bytes handed to the operating system are not lost. *)
From Verif Require Import Base ModelIo SpecIo SpecWord ModelLz.

(** file names are opaque *)
Notation name := nat.
(** where input comes from and how far it has been read; where output goes *)
Inductive source := SStdin | SFile (f : name) (off : nat).
Inductive sink := KStdout | KFile (f : name).
Record world := W { files : name -> option str; stdin : str; stdout : str; src : source; dst : sink }.

(** programs: what to do next, depending on what has been read *)
Inductive io (A : Type) : Type :=
| Ret (a : A)                                (* normal end *)
| Abort                                      (* panic *)
| NoFuel                                     (* artefact of the model *)
| OpenIn (o : option name) (k : io A)        (* io::stream_or_stdin *)
| CreateOut (o : option name) (k : io A)     (* io::stream_or_stdout, File::create *)
| Slurp (o : option name) (k : str -> io A)  (* read a file or stdin to the end *)
| ReadIn (k : event -> io A)                 (* read one byte of the opened input *)
| WriteOut (b : str) (k : io A)              (* write_all(b).unwrap() *)
| WriteBuf (b : str) (k : io A).             (* bytes left in a buffer that is flushed when it is dropped: errors are ignored *)
Arguments Ret {A}. Arguments Abort {A}. Arguments NoFuel {A}. Arguments OpenIn {A}. Arguments CreateOut {A}.
Arguments Slurp {A}. Arguments ReadIn {A}. Arguments WriteOut {A}. Arguments WriteBuf {A}.
Fixpoint seq_io {A B} (p : io A) (f : A -> io B) : io B :=
  match p with
  | Ret a => f a
  | Abort => Abort
  | NoFuel => NoFuel
  | OpenIn o k => OpenIn o (seq_io k f)
  | CreateOut o k => CreateOut o (seq_io k f)
  | Slurp o k => Slurp o (fun t => seq_io (k t) f)
  | ReadIn k => ReadIn (fun e => seq_io (k e) f)
  | WriteOut b k => WriteOut b (seq_io k f)
  | WriteBuf b k => WriteBuf b (seq_io k f)
  end.
(** computations without effects *)
Definition lift {A} (r : res A) : io A := match r with Ok a => Ret a | Panic => Abort | OutOfFuel => NoFuel end.

Definition put (m : name -> option str) (f : name) (t : str) : name -> option str := fun g => if g =? f then Some t else m g.
(** what the standard input or a file holds *)
Definition contents (w : world) (o : option name) : option str := match o with None => Some (stdin w) | Some f => files w f end.
(** what has been written to the standard output, or what a file holds *)
Definition written (w : world) (o : option name) : option str := match o with None => Some (stdout w) | Some f => files w f end.
Definition open_in (w : world) (o : option name) : world :=
  W (files w) (stdin w) (stdout w) (match o with None => SStdin | Some f => SFile f 0 end) (dst w).
(** creating a file empties it *)
Definition create_out (w : world) (o : option name) : world :=
  match o with
  | None => W (files w) (stdin w) (stdout w) (src w) KStdout
  | Some f => W (put (files w) f []) (stdin w) (stdout w) (src w) (KFile f)
  end.
(** one byte is written *)
Definition emit (w : world) (c : nat) : world :=
  match dst w with
  | KStdout => W (files w) (stdin w) (stdout w ++ [c]) (src w) (dst w)
  | KFile f => W (put (files w) f (match files w f with Some t => t | None => [] end ++ [c])) (stdin w) (stdout w) (src w) (dst w)
  end.
(** the next read: its result and the world afterwards *)
Definition next_read (w : world) : event * world :=
  match src w with
  | SStdin => match stdin w with
              | [] => (Eof, w)
              | c :: t => (Byte c, W (files w) t (stdout w) (src w) (dst w))
              end
  | SFile f off => match files w f with
                   | None => (Eof, w)
                   | Some t => match nth_error t off with
                               | None => (Eof, w)
                               | Some c => (Byte c, W (files w) (stdin w) (stdout w) (SFile f (S off)) (dst w))
                               end
                   end
  end.

(** one step; every access may fail *)
Inductive step {A} : world * io A -> world * io A -> Prop :=
| step_open w o k : contents w o <> None -> step (w, OpenIn o k) (open_in w o, k)
| step_open_fails w o k : step (w, OpenIn o k) (w, Abort)
| step_create w o k : step (w, CreateOut o k) (create_out w o, k)
| step_create_fails w o k : step (w, CreateOut o k) (w, Abort)
| step_slurp w o k t : contents w o = Some t -> step (w, Slurp o k) (w, k t)
| step_slurp_fails w o k : step (w, Slurp o k) (w, Abort)
| step_read w k : step (w, ReadIn k) (snd (next_read w), k (fst (next_read w)))
| step_read_fails w k : step (w, ReadIn k) (w, k IoErr)
| step_byte w c b k : step (w, WriteOut (c :: b) k) (emit w c, WriteOut b k)
| step_written w k : step (w, WriteOut [] k) (w, k)
| step_write_fails w b k : step (w, WriteOut b k) (w, Abort)
| step_buf_byte w c b k : step (w, WriteBuf (c :: b) k) (emit w c, WriteBuf b k)
| step_buf_written w k : step (w, WriteBuf [] k) (w, k)
| step_buf_fails w b k : step (w, WriteBuf b k) (w, Abort)
| step_buf_lost w b k : step (w, WriteBuf b k) (w, k).
Inductive steps {A} : world * io A -> world * io A -> Prop :=
| steps_refl x : steps x x
| steps_step x y z : steps x y -> step y z -> steps x z.

(** the run without failing accesses (a missing file still panics) *)
Fixpoint run {A} (p : io A) (w : world) : world * res A :=
  match p with
  | Ret a => (w, Ok a)
  | Abort => (w, Panic)
  | NoFuel => (w, OutOfFuel)
  | OpenIn o k => match contents w o with None => (w, Panic) | Some _ => run k (open_in w o) end
  | CreateOut o k => run k (create_out w o)
  | Slurp o k => match contents w o with None => (w, Panic) | Some t => run (k t) w end
  | ReadIn k => run (k (fst (next_read w))) (snd (next_read w))
  | WriteOut b k => run k (fold_left emit b w)
  | WriteBuf b k => run k (fold_left emit b w)
  end.

(** the part of the world that a program may change: the file o, or the standard output *)
Definition untouched (o : option name) (w0 w : world) : Prop :=
  (forall g, Some g <> o -> files w g = files w0 g) /\ (o <> None -> stdout w = stdout w0).
(** out is the beginning of the output for a beginning q of the text *)
Definition partial_output (F : str -> res str) (text out : str) : Prop :=
  exists q code, prefix q text /\ F q = Ok code /\ prefix out code.


(** "(pos,len)" in decimal, and a file of such factors *)
Definition is_factor_text (w : str) (f : lzfactor) : Prop :=
  exists ds es, is_decimal ds (lz_pos f) /\ is_decimal es (lz_len f) /\ w = [40] ++ ds ++ [44] ++ es ++ [41].
Definition is_factor_file (w : str) (fs : list lzfactor) : Prop :=
  exists pieces, w = concat pieces /\ Forall2 is_factor_text pieces fs.
