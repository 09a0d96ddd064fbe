(** SpecArgs.v : specification vocabulary for command lines (no model functions): what options a program has, how uses of
    options are written on a command line, and what the values mean. Arguments are lists of ASCII codes. *)
From Verif Require Import Base SpecStr SpecIo SpecMain.
From Coq Require Import NArith.

(** ** options *)
(** what is done with an option: a switch, one value, a list of values, --help, --version *)
Inductive action := Switch | Single | Listed | Help | Version.
(** the type of the value *)
Inductive vtype := AnyString | Usize | U8 | U64 | OneOf (names : list str).
Inductive value := VStr (s : str) | VNum (n : N) | VName (i : nat).
(** an option; without names it is a positional argument; [arg_many]: takes as many values as follow *)
Record arg := Arg { arg_id : str; arg_short : option nat; arg_long : option str; arg_action : action; arg_many : bool;
                    arg_type : vtype; arg_required : bool }.
Definition takes_value (a : arg) : bool := match arg_action a with Single | Listed => true | _ => false end.

(** ** values *)
Definition decimal_N (ds : str) : N := fold_left (fun a d => 10 * a + N.of_nat (d - 48))%N ds 0%N.
(** a sequence of decimal digits, leading zeros allowed *)
Definition digits_of (ds : str) (n : N) : Prop := ds <> [] /\ Forall (fun d => 48 <= d <= 57) ds /\ decimal_N ds = n.
Inductive reads_as : vtype -> str -> value -> Prop :=
| ra_string s : reads_as AnyString s (VStr s)
| ra_usize ds n : digits_of ds n -> (n < 2 ^ 64)%N -> reads_as Usize ds (VNum n)
| ra_usize_plus ds n : digits_of ds n -> (n < 2 ^ 64)%N -> reads_as Usize (43 :: ds) (VNum n)
| ra_u64 ds n : digits_of ds n -> (n < 2 ^ 64)%N -> reads_as U64 ds (VNum n)
| ra_u64_plus ds n : digits_of ds n -> (n < 2 ^ 64)%N -> reads_as U64 (43 :: ds) (VNum n)
| ra_u8 ds n : digits_of ds n -> (n < 2 ^ 8)%N -> reads_as U8 ds (VNum n)
| ra_u8_plus ds n : digits_of ds n -> (n < 2 ^ 8)%N -> reads_as U8 (43 :: ds) (VNum n)
| ra_u8_minus ds : digits_of ds 0 -> reads_as U8 (45 :: ds) (VNum 0)
| ra_name names s i : nth_error names i = Some s -> NoDup names -> reads_as (OneOf names) s (VName i).

(** ** how uses of options are written *)
(** a use of an option with the values given there *)
Definition use := (arg * list str)%type.
(** an argument starting with a hyphen and longer than it *)
Definition hyphened (t : str) : Prop := exists c r, t = 45 :: c :: r.
(** values written as arguments of their own *)
Definition separate (a : arg) (vs : list str) : Prop :=
  vs <> [] /\ Forall (fun v => ~ hyphened v) vs /\ (arg_many a = false -> length vs = 1).
(** a sequence of one-letter switches *)
Inductive letters (opts : list arg) : list arg -> str -> Prop :=
| le_nil : letters opts [] []
| le_cons a s fs cs : In a opts -> takes_value a = false -> arg_short a = Some s -> letters opts fs cs -> letters opts (a :: fs) (s :: cs).
Definition plain_uses (fs : list arg) : list use := map (fun a => (a, [])) fs.
Inductive piece (opts : list arg) : list use -> list str -> Prop :=
| pc_switch a l : In a opts -> takes_value a = false -> arg_long a = Some l -> piece opts [(a, [])] [45 :: 45 :: l]
| pc_long a l vs : In a opts -> takes_value a = true -> arg_long a = Some l -> separate a vs -> piece opts [(a, vs)] ((45 :: 45 :: l) :: vs)
| pc_long_eq a l v : In a opts -> takes_value a = true -> arg_long a = Some l -> piece opts [(a, [v])] [45 :: 45 :: l ++ 61 :: v]
| pc_letters fs cs : letters opts fs cs -> fs <> [] -> piece opts (plain_uses fs) [45 :: cs]
| pc_short fs cs a s vs : letters opts fs cs -> In a opts -> takes_value a = true -> arg_short a = Some s -> separate a vs ->
    piece opts (plain_uses fs ++ [(a, vs)]) ((45 :: cs ++ [s]) :: vs)
| pc_short_att fs cs a s v : letters opts fs cs -> In a opts -> takes_value a = true -> arg_short a = Some s ->
    v <> [] -> hd 0 v <> 61 -> piece opts (plain_uses fs ++ [(a, [v])]) [45 :: cs ++ s :: v]
| pc_short_eq fs cs a s v : letters opts fs cs -> In a opts -> takes_value a = true -> arg_short a = Some s ->
    piece opts (plain_uses fs ++ [(a, [v])]) [45 :: cs ++ s :: 61 :: v].
(** the uses, written one after the other *)
Inductive spelled (opts : list arg) : list use -> list str -> Prop :=
| sp_nil : spelled opts [] []
| sp_cons us ts us' ts' : piece opts us ts -> spelled opts us' ts' -> spelled opts (us ++ us') (ts ++ ts').
(** a command line: the uses, possibly followed by the argument "--" *)
Definition command_line (opts : list arg) (us : list use) (line : list str) : Prop :=
  exists ts, spelled opts us ts /\ (line = ts \/ line = ts ++ [[45; 45]]).

(** ** which uses are allowed, and what they mean *)
Definition uses_of (us : list use) (a : arg) : list (list str) := map snd (filter (fun u => if list_eq_dec Nat.eq_dec (arg_id (fst u)) (arg_id a) then true else false) us).
Definition used (us : list use) (a : arg) : Prop := uses_of us a <> [].
(** vals are the values given to a, in order *)
Definition values_of (us : list use) (a : arg) (vals : list value) : Prop := Forall2 (reads_as (arg_type a)) (concat (uses_of us a)) vals.
Definition readable (u : use) : Prop := Forall (fun v => exists x, reads_as (arg_type (fst u)) v x) (snd u).
Definition once (us : list use) (a : arg) : Prop := arg_action a = Listed \/ length (uses_of us a) <= 1.
Definition no_help (us : list use) : Prop := Forall (fun u => arg_action (fst u) <> Help /\ arg_action (fst u) <> Version) us.
Definition complete (opts : list arg) (us : list use) : Prop := forall a, In a opts -> arg_required a = true -> used us a.
Definition allowed (opts : list arg) (us : list use) : Prop :=
  Forall readable us /\ (forall a, In a opts -> once us a) /\ no_help us /\ complete opts us.

(** ** sane option tables *)
Definition names_ok (opts : list arg) : Prop :=
  NoDup (map arg_id opts) /\
  (forall a b s, In a opts -> In b opts -> arg_short a = Some s -> arg_short b = Some s -> a = b) /\
  (forall a b l, In a opts -> In b opts -> arg_long a = Some l -> arg_long b = Some l -> a = b) /\
  (forall a s, In a opts -> arg_short a = Some s -> s <> 45 /\ s <> 61) /\
  (forall a l, In a opts -> arg_long a = Some l -> l <> [] /\ ~ In 61 l) /\
  (forall a, In a opts -> arg_short a <> None \/ arg_long a <> None) /\
  (forall a names, In a opts -> arg_type a = OneOf names -> NoDup names).

(** ** the settings a command line makes *)
(** the string given to a, or nothing *)
Definition sets_string (us : list use) (a : arg) (o : option str) : Prop :=
  match o with None => uses_of us a = [] | Some s => uses_of us a = [[s]] end.
(** the number given to a, or the default *)
Definition sets_number (us : list use) (a : arg) (default n : nat) : Prop :=
  (uses_of us a = [] /\ n = default) \/ exists s k, uses_of us a = [[s]] /\ reads_as (arg_type a) s (VNum k) /\ n = N.to_nat k.
(** a switch that is used is on *)
Definition sets_switch (us : list use) (a : arg) (b : bool) : Prop := b = true <-> uses_of us a <> [].
(** all the numbers given to a, in order *)
Definition sets_numbers (us : list use) (a : arg) (l : list nat) : Prop :=
  exists ks, values_of us a (map VNum ks) /\ l = map N.to_nat ks.
(** the i-th of the names was given *)
Definition sets_name (us : list use) (a : arg) (i : nat) : Prop :=
  exists s, uses_of us a = [[s]] /\ reads_as (arg_type a) s (VName i).
(** how a run of a program ends: refused with a usage message (status 2), help or version shown (status 0), or the program
    itself is run *)
Inductive command_result (A : Type) := Usage | Shown | Ran (a : A).
Arguments Usage {A}. Arguments Shown {A}. Arguments Ran {A} a.
