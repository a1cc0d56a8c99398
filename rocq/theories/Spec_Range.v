(** * Ranges of a sorted list of tuples, independently of the model

    A bound is a key, minus infinity or plus infinity. *)

From Coq Require Import List ZArith NArith Bool.
From Verif Require Import Base.
Import ListNotations.
Local Open Scope Z_scope.

(** Is [a] below (at most) the bound [k]? *)
Definition key_lt (ord : bytes -> bytes -> Z) (a : bytes) (k : key) : bool :=
  match k with KNegInf => false | KUser b => ord a b <? 0 | KPosInf => true end.
Definition key_le (ord : bytes -> bytes -> Z) (a : bytes) (k : key) : bool :=
  match k with KNegInf => false | KUser b => ord a b <=? 0 | KPosInf => true end.

(** The order on bounds. *)
Definition bound_le (ord : bytes -> bytes -> Z) (k1 k2 : key) : Prop :=
  match k1, k2 with
  | KNegInf, _ | _, KPosInf => True
  | KUser a, KUser b => ord a b <= 0
  | _, _ => False
  end.
Definition bound_lt (ord : bytes -> bytes -> Z) (k1 k2 : key) : Prop := ~ bound_le ord k2 k1.

(** The tuples of [l] with [mn] <= key < [mx]. *)
Definition in_range {A} (ord : bytes -> bytes -> Z) (mn mx : key) (e : bytes * A) : bool :=
  negb (key_lt ord (fst e) mn) && key_lt ord (fst e) mx.
Definition range {A} (ord : bytes -> bytes -> Z) (mn mx : key) (l : list (bytes * A)) : list (bytes * A) :=
  filter (in_range ord mn mx) l.
