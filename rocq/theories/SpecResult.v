(** SpecResult.v : the RESULT lines of the analytic tools (README.md: "The output format of the analytic tools is
    compatible with sqlplot"): one line, the word RESULT, then words key=value. No model functions. *)
From Verif Require Import Base SpecStr SpecIo SpecMain.

(** the maximal pieces of a text without blanks *)
Fixpoint words_from (w : str) (l : str) : list str :=
  match l with
  | [] => if w then [] else [w]
  | c :: l' => if c =? 32 then (if w then words_from [] l' else w :: words_from [] l') else words_from (w ++ [c]) l'
  end.
Definition words (l : str) : list str := words_from [] l.

(** the line consists of RESULT and the given fields (a key contains no '=', a value may) *)
Definition result_line (line : str) (fields : list (str * str)) : Prop :=
  exists body, line = body ++ newline /\ ~ In 10 body /\
    words body = ascii "RESULT" :: map (fun kv => fst kv ++ ascii "=" ++ snd kv) fields /\
    Forall (fun kv => ~ In 61 (fst kv)) fields.

(** a value that is one word: not empty, no blank, no line break *)
Definition word_like (v : str) : Prop := v <> [] /\ ~ In 32 v /\ ~ In 10 v.

(** the name shown for the input: that of the file, or "none" when the input is read from stdin *)
Definition shown_name (infile : option str) : str := match infile with Some f => f | None => ascii "none" end.

(** s is what a program reads under --prefixlength p from a file, or from stdin, holding [content] (stdin has to hold at
    least p bytes) *)
Definition reads (infile : option str) (content : str) (p : nat) (s : str) : Prop :=
  s = prefix_read content p /\ (infile = None -> p <= length content).

(** true or false *)
Definition shown_bool (x : bool) : str := if x then ascii "true" else ascii "false".

(** a list of pairs of numbers as [(1, 2), (3, 4)] *)
Inductive pairs_tail : list (nat * nat) -> str -> Prop :=
| pt_nil : pairs_tail [] (ascii "]")
| pt_cons i l L di dl w : is_decimal di i -> is_decimal dl l -> pairs_tail L w ->
    pairs_tail ((i, l) :: L) (ascii ", (" ++ di ++ ascii ", " ++ dl ++ ascii ")" ++ w).
Inductive shown_pairs : list (nat * nat) -> str -> Prop :=
| sp_nil : shown_pairs [] (ascii "[]")
| sp_cons i l L di dl w : is_decimal di i -> is_decimal dl l -> pairs_tail L w ->
    shown_pairs ((i, l) :: L) (ascii "[(" ++ di ++ ascii ", " ++ dl ++ ascii ")" ++ w).
(** the line printed by mus for a text of n letters *)
Definition mus_line (name : str) (n : nat) (L : list (nat * nat)) (line : str) : Prop :=
  exists dn dt t v, is_decimal dn n /\ is_decimal dt t /\ shown_pairs L v /\
    line = ascii "RESULT file=" ++ name ++ ascii " length=" ++ dn ++ ascii "  time_ms=" ++ dt ++ ascii " mus=" ++ v ++ newline.
