(** SpecUtf8.v : UTF-8 (RFC 3629). *)
From Coq Require Import NArith.
From Verif Require Import Base SpecStr.
Local Open Scope N_scope.

(** the Unicode scalar values: code points below 0x110000 that are not surrogates *)
Definition scalar (c : N) : Prop := c < 1114112 /\ ~ (55296 <= c /\ c <= 57343).
(** the bytes of one scalar value *)
Definition utf8_encode (c : N) : list N :=
  if c <? 128 then [c]
  else if c <? 2048 then [192 + c / 64; 128 + c mod 64]
  else if c <? 65536 then [224 + c / 4096; 128 + (c / 64) mod 64; 128 + c mod 64]
  else [240 + c / 262144; 128 + (c / 4096) mod 64; 128 + (c / 64) mod 64; 128 + c mod 64].
(** the byte string is the encoding of a sequence of scalar values *)
Definition utf8_text (bs : str) : Prop :=
  exists cs, Forall scalar cs /\ map N.of_nat bs = concat (map utf8_encode cs).
