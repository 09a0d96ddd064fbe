(** ModelScripts.v : the shell scripts of the repository. Simplifications: the lines that print commands (set -x) and the
    output of cargo on stderr are left out; the folder exists (gen_artificial.sh:7-10), the input file is readable
    (compute_stats.sh:7-9) and its name holds no backslash, no blank and no line break, which echo and the unquoted
    command substitution of zsh would change. The programs are those of a build with assertions (cargo run). *)
From Verif Require Import Base SpecArgs SpecFs ModelIo ModelCore ModelTools ModelLz ModelMain ModelEntropy ModelResult ModelFs ModelArgs ModelArgs2.
From Coq Require Import NArith.
From Coq Require String Ascii.
Import String.StringSyntax.
Delimit Scope string_scope with string.

(** ** gen_artificial.sh *)
(** a program whose standard output is connected to a file (gen_artificial.sh:16) *)
Fixpoint keep_out {A} (p : io A) : io A :=
  match p with
  | Ret a => Ret a | Abort => Abort | NoFuel => NoFuel
  | OpenIn o k => OpenIn o (keep_out k)
  | CreateOut None k => keep_out k
  | CreateOut (Some f) k => CreateOut (Some f) (keep_out k)
  | Slurp o k => Slurp o (fun t => keep_out (k t))
  | ReadIn k => ReadIn (fun e => keep_out (k e))
  | WriteOut b k => WriteOut b (keep_out k)
  | WriteBuf b k => WriteBuf b (keep_out k)
  end.
(** program > f: the shell creates f first; a program that refuses its arguments ends with status 2, which set -e (line
    13) makes the end of the script, as does a panic; --help and --version end with status 0 (gen_artificial.sh:16) *)
Definition redirect (f : name) (r : command_result (io unit)) : io unit :=
  CreateOut (Some f) (match r with Ran p => keep_out p | Usage => Abort | Shown => Ret tt end).
(** gen_artificial.sh:14 seq -f "%02.f" 0 20 *)
Definition two_digits (k : nat) : str := [48 + k / 10; 48 + k mod 10].
(** gen_artificial.sh:15 *)
Definition script_names : list str := [lit "tribonacci"; lit "vtm"; lit "fibonacci"; lit "kolakoski"; lit "thue-morse"; lit "period-doubling";
  lit "paper-folding"; lit "quaternary-paper-folding"; lit "binary-de-brujin"; lit "power2"].
(** gen_artificial.sh:16 *)
Definition script_path (folder nm : str) (k : nat) : str := folder ++ lit "/" ++ nm ++ lit "." ++ two_digits k.
(** gen_artificial.sh:16 *)
Definition script_call (file_of : str -> name) (folder : str) (kn : nat * str) : io unit :=
  redirect (file_of (script_path folder (snd kn) (fst kn))) (word_program file_of [lit "-n"; snd kn; lit "-k"; two_digits (fst kn)]).
(** gen_artificial.sh:14-18, the calls in order *)
Definition script_calls : list (nat * str) := flat_map (fun k => map (fun nm => (k, nm)) script_names) (seq 0 21).
(** gen_artificial.sh:14-18, one call after the other *)
Fixpoint calls_io (file_of : str -> name) (folder : str) (l : list (nat * str)) : io unit :=
  match l with [] => Ret tt | c :: l => _ <~ script_call file_of folder c ; calls_io file_of folder l end.
(** gen_artificial.sh:7-18 *)
Definition gen_artificial (file_of : str -> name) (folder : str) : io unit := calls_io file_of folder script_calls.

(** ** compute_stats.sh *)
(** what a program prints: nothing on stdout when it refuses its arguments or panics (what --help prints does not start
    with RESULT) (compute_stats.sh:11, 21, 23, 27) *)
Definition stdout_of (r : command_result (res str)) : str := match r with Ran (Ok s) => s | _ => [] end.
(** the lines of an output (grep and sed work line by line) (compute_stats.sh:11, 21, 23, 27) *)
Fixpoint lines_of (l : str) : list str :=
  match l with
  | [] => [[]]
  | c :: l' => if c =? 10 then [] :: lines_of l' else match lines_of l' with [] => [[c]] | x :: xs => (c :: x) :: xs end
  end.
(** lines back to a text; the command substitution drops the last line break (compute_stats.sh:11, 21, 23, 27) *)
Fixpoint join_lines (ls : list str) : str := match ls with [] => [] | [x] => x | x :: ls => x ++ [10] ++ join_lines ls end.
(** grep '^RESULT' (compute_stats.sh:11, 21, 23, 27) *)
Fixpoint starts_with (p l : str) : bool :=
  match p, l with [], _ => true | a :: p, b :: l => (a =? b) && starts_with p l | _ :: _, [] => false end.
(** $(.. | grep '^RESULT') (compute_stats.sh:11, 21, 23, 27) *)
Definition grep_result (out : str) : str := join_lines (filter (starts_with (lit "RESULT")) (lines_of out)).
(** sed 's@.* KEY=\([CLASS]\+\) .*@\1@' on one line; [blank]: with the blank behind the group. The first .* is as long as
    possible, so the rightmost place counts; the group is as long as possible; a line without a match is left alone (compute_stats.sh:17, 19, 21, 23, 27) *)
Fixpoint take_class (cls : nat -> bool) (l : str) : str := match l with c :: l' => if cls c then c :: take_class cls l' else [] | [] => [] end.
(** compute_stats.sh:17, 19, 21, 23, 27: the pattern at one place *)
Definition match_here (cls : nat -> bool) (blank : bool) (key l : str) : option str :=
  let k := lit " " ++ key ++ lit "=" in
  if starts_with k l then
    let d := take_class cls (skipn (length k) l) in
    if length d =? 0 then None
    else if blank && negb (starts_with (lit " ") (skipn (length k + length d) l)) then None
    else Some d
  else None.
(** compute_stats.sh:17-27: the rightmost place *)
Fixpoint match_last (cls : nat -> bool) (blank : bool) (key l : str) : option str :=
  match l with
  | [] => None
  | _ :: l' => match match_last cls blank key l' with Some d => Some d | None => match_here cls blank key l end
  end.
(** compute_stats.sh:17-27: s@..@\1@ on one line *)
Definition sed_line (cls : nat -> bool) (blank : bool) (key l : str) : str := match match_last cls blank key l with Some d => d | None => l end.
(** compute_stats.sh:17, 19, 21, 23, 27 *)
Definition sed (cls : nat -> bool) (blank : bool) (key l : str) : str := join_lines (map (sed_line cls blank key) (lines_of l)).
(** [0-9] (compute_stats.sh:17-23) *)
Definition digit (c : nat) : bool := (48 <=? c) && (c <=? 57).
(** [0-9\.]: a backslash stands for itself within brackets (compute_stats.sh:27) *)
Definition digit_dot (c : nat) : bool := digit c || (c =? 46) || (c =? 92).
(** basename; names do not end with '/' (compute_stats.sh:15) *)
Fixpoint basename (l : str) : str := match l with [] => [] | c :: l' => if existsb (Nat.eqb 47) l then basename l' else l end.
(** compute_stats.sh:13 *)
Definition stats_header : str := lit "dataset & $n$ & $\sigma$ & $z$ & $r$ & $H_0$ & $H_1$ & $H_2$ & $H_3$ & $H_4$ \\".
(** compute_stats.sh:11-31, with the option for the input file and the first options of count_r as arguments;
    [time] gives the times measured by the calls *)
Definition stats_with (in_opt : str) (r_opts : list str) (fmt : f64 -> str) (sort : str -> list nat) (time : nat -> nat)
    (input : option str -> str) (f : str) : str :=
  let result_line := grep_result (stdout_of (count_sigma_report (time 0) input [in_opt; f])) in
  let bwtruns := sed digit true (lit "bwt_runs") (grep_result (stdout_of (count_r_report sort (time 1) input (r_opts ++ [in_opt; f])))) in
  let lz77factors := sed digit false (lit "factors") (grep_result (stdout_of (count_z_report sort (time 2) input [in_opt; f]))) in
  println stats_header ++ basename f ++ lit " & " ++ sed digit true (lit "length") result_line ++ lit " & " ++ sed digit true (lit "sigma") result_line ++
  lit " & " ++ bwtruns ++ lit " " ++ lit " & " ++ lz77factors ++ lit " " ++
  concat (map (fun k =>
    lit " & " ++ sed digit_dot true (lit "entropy")
      (grep_result (stdout_of (entropy_report fmt sort (time (3 + k)) input [lit "--order"; dec_usize k; in_opt; f]))) ++ lit " ") (seq 0 5)) ++
  println (lit "\\").
(** the script as it is: lines 11, 21, 23, 27 (compute_stats.sh:11-31) *)
Definition compute_stats := stats_with (lit "--input") [lit "-d"].
