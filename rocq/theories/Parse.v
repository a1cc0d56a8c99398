(** * String to integer conversion

    /repo/src/util.c:60-298.  Definitions only.

    A C string is the list of its bytes before the terminating NUL; the pair
    (c, s) of the code is the list that starts at the current character, so
    c == '\0' is the empty list. *)

From Coq Require Import List ZArith NArith Bool.
Import ListNotations.
Local Open Scope N_scope.

(** <ctype.h> in the C locale *)
Definition isspace (c : N) : bool := (c =? 32) || ((9 <=? c) && (c <=? 13)).
Definition isascii (c : N) : bool := c <? 128.
Definition isdigit (c : N) : bool := (48 <=? c) && (c <=? 57).
Definition isupper (c : N) : bool := (65 <=? c) && (c <=? 90).
Definition islower (c : N) : bool := (97 <=? c) && (c <=? 122).
Definition isalpha (c : N) : bool := isupper c || islower c.

Definition u64 (x : N) : N := x mod 2 ^ 64.

(** util.c:70-72 and 147-149: skip white space *)
Fixpoint skip_spaces (l : list N) : list N :=
  match l with
  | c :: r => if isspace c then skip_spaces r else l
  | [] => []
  end.

(** util.c:122-137: the digit a character stands for; [None] is
    invalid_characters. *)
Definition digit_of (base c : N) : option N :=
  if negb (isascii c) then None
  else
    let d := if isdigit c then Some (c - 48)
             else if isalpha c then Some (if isupper c then c - 55 else c - 87)
             else None in
    match d with
    | None => None
    | Some d => if base <=? d then None else Some d
    end.

(** util.c:118-145: the digit loop.  [None] is a jump to a failure label;
    otherwise (value, converted_any, rest). *)
Fixpoint digits_loop (base cutoff cutlim : N) (l : list N) (value : N) (conv : bool)
  : option (N * bool * list N) :=
  match l with
  | [] => Some (value, conv, [])
  | c :: r =>
      if isspace c then Some (value, conv, l)
      else match digit_of base c with
           | None => None
           | Some d =>
               if (cutoff <? value) || ((value =? cutoff) && (cutlim <? d)) then None
               else digits_loop base cutoff cutlim r (u64 (u64 (value * base) + d)) true
           end
  end.

(** util.c:60-177, try_string_to_uint64_limit.  [None] is FALSE. *)
Definition try_string_to_uint64_limit (nptr : list N) (negative_limit positive_limit : N)
  : option N :=
  let l := skip_spaces nptr in
  (* util.c:74-84 *)
  let signed :=
    match l with
    | c :: r => if c =? 45 then (if negative_limit =? 0 then None else Some (true, r))
                else if c =? 43 then Some (false, r)
                else Some (false, l)
    | [] => Some (false, l)
    end in
  match signed with
  | None => None
  | Some (negative, l1) =>
      (* util.c:86-99 *)
      let '(base, l2) :=
        match l1 with
        | c :: x :: r => if (c =? 48) && ((x =? 120) || (x =? 88)) then (16, r)
                         else if c =? 48 then (8, l1) else (10, l1)
        | c :: [] => if c =? 48 then (8, l1) else (10, l1)
        | [] => (10, l1)
        end in
      let limit := if (negative : bool) then negative_limit else positive_limit in
      let cutoff := limit / base in
      let cutlim := limit mod base in
      match digits_loop base cutoff cutlim l2 0 false with
      | None => None
      | Some (value, converted_any, rest) =>
          (* util.c:146-165 *)
          match skip_spaces rest with
          | _ :: _ => None
          | [] => if (converted_any : bool)
                  then Some (if negative then u64 (2 ^ 64 - value) else value)
                  else None
          end
      end
  end.

(** util.c:203-210 *)
Definition try_string_to_uint64 (s : list N) : option N :=
  try_string_to_uint64_limit s 0 (2 ^ 64 - 1).

(** Conversion of a uint64 to int64. *)
Definition to_int64 (x : N) : Z :=
  if x <? 2 ^ 63 then Z.of_N x else (Z.of_N x - 2 ^ 64)%Z.

(** util.c:212-226 *)
Definition try_string_to_int64 (s : list N) : option Z :=
  option_map to_int64 (try_string_to_uint64_limit s (2 ^ 63 - 1 + 1) (2 ^ 63 - 1)).

(** util.c:228-262: uint32, uint16 and uint8 with maximum [mx] *)
Definition try_string_to_uint_narrow (mx : N) (s : list N) : option N :=
  match try_string_to_uint64 s with
  | None => None
  | Some tmp => if mx <? tmp then None else Some tmp
  end.
Definition try_string_to_uint32 := try_string_to_uint_narrow (2 ^ 32 - 1).
Definition try_string_to_uint16 := try_string_to_uint_narrow (2 ^ 16 - 1).
Definition try_string_to_uint8 := try_string_to_uint_narrow (2 ^ 8 - 1).

(** util.c:264-298: int32, int16 and int8 with range [mn, mx] *)
Definition try_string_to_int_narrow (mn mx : Z) (s : list N) : option Z :=
  match try_string_to_int64 s with
  | None => None
  | Some tmp => if (mx <? tmp)%Z || (tmp <? mn)%Z then None else Some tmp
  end.
Definition try_string_to_int32 := try_string_to_int_narrow (- 2 ^ 31) (2 ^ 31 - 1).
Definition try_string_to_int16 := try_string_to_int_narrow (- 2 ^ 15) (2 ^ 15 - 1).
Definition try_string_to_int8 := try_string_to_int_narrow (- 2 ^ 7) (2 ^ 7 - 1).
