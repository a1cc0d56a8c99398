(** * What a number string denotes, independent of the parser

    The documented grammar of /repo/src/util.c:188-201:
      Hex:     "[ ]*[+-]?0[Xx][0-9a-fA-F]+[ ]*"
      Octal:   "[ ]*[+-]?0[0-7]*[ ]*"
      Decimal: "[ ]*[+-]?[1-9][0-9]*[ ]*"
    where [ ] is any C white space. *)

From Coq Require Import List NArith.
Import ListNotations.
Local Open Scope N_scope.

(** space, tab, newline, vertical tab, form feed, carriage return *)
Definition white (c : N) : Prop := In c [32; 9; 10; 11; 12; 13].

(** Character [c] is the digit of value [d]. *)
Inductive is_digit : N -> N -> Prop :=
| dg_num : forall d, d <= 9 -> is_digit (48 + d) d
| dg_lower : forall d, 10 <= d <= 35 -> is_digit (97 + (d - 10)) d
| dg_upper : forall d, 10 <= d <= 35 -> is_digit (65 + (d - 10)) d.

Inductive numeral (base : N) : list N -> list N -> Prop :=
| nu_nil : numeral base [] []
| nu_cons : forall c d cs ds, is_digit c d -> d < base -> numeral base cs ds ->
    numeral base (c :: cs) (d :: ds).

(** Value of a digit string, most significant first. *)
Fixpoint horner (base : N) (acc : N) (ds : list N) : N :=
  match ds with
  | [] => acc
  | d :: ds' => horner base (acc * base + d) ds'
  end.

Inductive sign_of : list N -> bool -> Prop :=
| sg_none : sign_of [] false
| sg_plus : sign_of [43] false
| sg_minus : sign_of [45] true.

(** [body cs base ds]: [cs] is a base prefix and the digits [ds]. *)
Inductive body : list N -> N -> list N -> Prop :=
| bd_hex : forall x cs ds, x = 120 \/ x = 88 -> numeral 16 cs ds -> ds <> [] ->
    body (48 :: x :: cs) 16 ds
| bd_oct : forall cs ds, numeral 8 cs ds -> body (48 :: cs) 8 (0 :: ds)
| bd_dec : forall cs d ds, numeral 10 cs (d :: ds) -> d <> 0 -> body cs 10 (d :: ds).

(** [s] denotes plus or minus [v]. *)
Definition denotes (s : list N) (neg : bool) (v : N) : Prop :=
  exists sp1 sg cs base ds sp2,
    s = sp1 ++ sg ++ cs ++ sp2 /\ Forall white sp1 /\ Forall white sp2 /\
    sign_of sg neg /\ body cs base ds /\ v = horner base 0 ds.
