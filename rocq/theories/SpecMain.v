(** SpecMain.v : specification vocabulary for the programs of ModelMain.v (no model functions). *)
From Verif Require Import Base SpecStr SpecIo.
From Coq Require String Ascii.
Export String.StringSyntax.

(** the bytes of an ASCII string *)
Definition ascii (s : String.string) : str := map Ascii.nat_of_ascii (String.list_ascii_of_string s).
Delimit Scope string_scope with string.
Arguments ascii s%string.
Definition newline : str := [10].

(** the words, one per line *)
Definition lines (ws : list str) : str := concat (map (fun w => w ++ newline) ws).

(** shorter words first, words of equal length in lexicographic order *)
Definition shortlex (u v : str) : Prop := length u < length v \/ length u = length v /\ lex_lt u v.

(** w is written with the first s letters a, b, c, ... *)
Definition over_first_letters (s : nat) (w : str) : Prop := Forall (fun c => 97 <= c < 97 + s) w.

(** what a program reads from the file with the given content under --prefixlength p *)
Definition prefix_read (content : str) (p : nat) : str := if p =? 0 then content else firstn p content.

(** [factor_entries i pos fs out]: [out] consists, for each factor f of fs with number i, i+1, ... and starting
    position pos (0-based), of a line break, the line ">Factor <i> : <pos> -> <pos+|f|>" and f *)
Inductive factor_entries : nat -> nat -> list str -> str -> Prop :=
| fe_nil i pos : factor_entries i pos [] []
| fe_cons i pos f fs di da db out :
    is_decimal di i -> is_decimal da pos -> is_decimal db (pos + length f) ->
    factor_entries (i + 1) (pos + length f) fs out ->
    factor_entries i pos (f :: fs)
      (newline ++ ascii ">Factor " ++ di ++ ascii " : " ++ da ++ ascii " -> " ++ db ++ newline ++ f ++ out).
