(** ModelRelease2.v : the string generators of core.rs and the program lyndonwords in a release build (overflow checks and debug
    assertions off: + - * wrap, shift amounts are taken modulo the width). The record types are those of ModelCore.v. *)
From Verif Require Import Base ModelCore ModelIo ModelTools ModelWord ModelMain.
From Coq Require Import NArith.

(** core.rs:502-514 [BinaryStringGenerator::next]: 1 << i on u64 *)
Definition bsg_next_release (g : bsg) : res (option str * bsg) :=
  if (bsg_rank g =? 18446744073709551615)%N then Ok (None, g) else
  text <- for_in (range 0 (bsg_length g)) (fun i text =>
    let bit := N.land (bsg_rank g) (N.shiftl 1 (N.of_nat (i mod 64))) in
    Ok (text ++ [if (bit =? 0)%N then 48 else 49])) [] ;;
  Ok (Some text, BSG (bsg_length g) (bsg_rank g + 1)%N).

(** core.rs:471-473; m_alphabet_size - 1 wraps to usize::MAX, which no letter equals: None *)
Definition lwg_trim_release (sigma : nat) (stack : str) : res str :=
  loop (S (length stack)) (fun stack =>
    match rev stack with
    | [] => Ok (Brk stack)
    | x :: r => match sigma with
                | 0 => Ok (Brk stack)
                | S z => if x =? z then Ok (Cont (rev r)) else Ok (Brk stack)
                end
    end) stack.
(** core.rs:452-480 [LyndonWordGenerator::next]; the increment of a u8 wraps *)
Definition lwg_next_release (g : lwg) : res (option str * lwg) :=
  if lwg_length g =? 0 then Ok (None, g) else
  match lwg_stack g with
  | [] => Ok (Some [0], LWG (lwg_length g) (lwg_sigma g) [0])
  | _ =>
    st1 <- lwg_fill (lwg_length g) (length (lwg_stack g)) (lwg_stack g) ;;
    st2 <- lwg_trim_release (lwg_sigma g) st1 ;;
    match rev st2 with
    | [] => Ok (None, LWG 0 (lwg_sigma g) [])
    | x :: r => let st3 := rev r ++ [(x + 1) mod 256] in
                Ok (Some st3, LWG (lwg_length g) (lwg_sigma g) st3)
    end
  end.

(** core.rs:393-423 [RandomStringGenerator::next] *)
Definition rsg_next_release (g : rsg) : res (option str * rsg) :=
  if (rsg_end g <=? rsg_start g * 2 mod 18446744073709551616)%N then Ok (None, g) else
  if (rsg_end g <=? rsg_start g)%N then Ok (Some (repeat 1 128), g) else
  let start := ((rsg_start g + 1) mod 18446744073709551616)%N in
  let msb := bit_size start in
  let mask := N.shiftr 18446744073709551615 ((320 - rsg_log g) mod 256 mod 64) in   (* 64u8 - log, then >> *)
  if (rsg_log g =? 0)%N then Panic else                                          (* division by zero *)
  text <- for_in (range 1 (N.to_nat (msb / rsg_log g))) (fun i text =>
     let sh := (rsg_log g * (N.of_nat i mod 256) mod 256 mod 64)%N in
     let v := ((N.land (N.shiftr start sh) mask + 1) mod 18446744073709551616)%N in
     Ok (text ++ [N.to_nat (v mod 256)])) [] ;;
  Ok (Some (text ++ [0]), RSG start (rsg_end g) (rsg_log g)).

(** lyndonwords.rs:24-33 [main]; x + b'a' wraps *)
Definition lyndonwords_main_release (fuel length_ sigma : nat) : res str :=
  loop fuel (fun '(g, out) =>
    '(it, g') <- lwg_next_release g ;;
    match it with
    | None => Ok (Brk out)
    | Some w => Ok (Cont (g', out ++ map (fun x => (x + 97) mod 256) w ++ [10]))
    end) (lwg_new length_ sigma, []).
