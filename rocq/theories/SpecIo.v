(** SpecIo.v : specification vocabulary for byte streams and runs (no model functions). *)
From Verif Require Import Base.
From Verif Require Import ModelIo.

(** the reader delivers exactly the bytes bs before its first end-of-file or error *)
Definition delivers (rd : reader) (bs : str) : Prop :=
  (forall i, i < length bs -> rd i = Byte (nth i bs 0)) /\
  (rd (length bs) = Eof \/ rd (length bs) = IoErr).

(** expand (letter, length) pairs *)
Definition expand (rs : list (nat * nat)) : str := concat (map (fun '(c, l) => repeat c l) rs).
(** rs is the list of maximal runs of t *)
Definition is_runs (t : str) (rs : list (nat * nat)) : Prop :=
  expand rs = t /\ Forall (fun r => 1 <= snd r) rs /\
  forall i, S i < length rs -> fst (nth i rs (0, 0)) <> fst (nth (S i) rs (0, 0)).

(** the standard move-to-front decoder over the initial symbol list [al] *)
Definition remove_nth (p : nat) (l : str) : str := firstn p l ++ skipn (S p) l.
Fixpoint mtf_decode (al : str) (code : str) : option str :=
  match code with
  | [] => Some []
  | p :: code' =>
    match nth_error al p with
    | None => None
    | Some c => option_map (cons c) (mtf_decode (c :: remove_nth p al) code')
    end
  end.

(** decoder for (letter, length-1) byte pairs *)
Fixpoint rle_decode (code : str) : option str :=
  match code with
  | [] => Some []
  | [_] => None
  | c :: l :: code' => option_map (app (repeat c (S l))) (rle_decode code')
  end.

Definition bytes (t : str) : Prop := Forall (fun c => c < 256) t.

(** [ds] is the usual decimal notation (ASCII digits, no leading zero) of [n] *)
Definition decimal_value (ds : str) : nat := fold_left (fun a d => 10 * a + (d - 48)) ds 0.
Definition is_decimal (ds : str) (n : nat) : Prop :=
  Forall (fun d => 48 <= d <= 57) ds /\ ds <> [] /\ (hd 0 ds = 48 -> ds = [48]) /\ decimal_value ds = n.
(** [us] is the UTF-8 encoding of the code point c < 256: one byte below 128, else 110xxxxx 10xxxxxx *)
Definition is_utf8 (us : str) (c : nat) : Prop :=
  c < 128 /\ us = [c] \/ 128 <= c < 2048 /\ exists hi lo, hi < 32 /\ lo < 64 /\ us = [192 + hi; 128 + lo] /\ c = 64 * hi + lo.
(** "(c,n)" *)
Definition is_run_text (w : str) (r : nat * nat) : Prop :=
  exists us ds, is_utf8 us (fst r) /\ is_decimal ds (snd r) /\ w = [40] ++ us ++ [44] ++ ds ++ [41].
