(** * What merging sorted sources means, independently of the model

    Sources are lists of (key, message), oldest source first. *)

From Coq Require Import List ZArith NArith Bool Sorted.
From Verif Require Import Base Spec.
Import ListNotations.
Local Open Scope Z_scope.

Definition bytes_eq_dec : forall a b : bytes, {a = b} + {a <> b} := list_eq_dec N.eq_dec.

(** Strictly ascending keys. *)
Definition ascending {A : Type} (ord : bytes -> bytes -> Z) (l : list (bytes * A)) : Prop :=
  StronglySorted (fun a b => ord (fst a) (fst b) < 0) l.

(** The messages for [k] in the sources, oldest first. *)
Fixpoint source_messages (k : bytes) (l : list (bytes * message)) : list message :=
  match l with
  | [] => []
  | (k', m) :: r => if bytes_eq_dec k k' then m :: source_messages k r else source_messages k r
  end.
Definition key_messages (k : bytes) (ls : list (list (bytes * message))) : list message :=
  concat (map (source_messages k) ls).

(** The dictionary that the sources describe: the keys whose messages, replayed
    oldest first on an absent key, leave a value. *)
Definition merged_view (cfg : data_config) (ord : bytes -> bytes -> Z)
           (ls : list (list (bytes * message))) (L : list (bytes * bytes)) : Prop :=
  ascending ord L /\
  forall k v, In (k, v) L <-> replay cfg k (key_messages k ls) None = Some v.

(** One message per key that any source has, with the effect of them all. *)
Definition merged_messages (cfg : data_config) (ord : bytes -> bytes -> Z)
           (ls : list (list (bytes * message))) (L : list (bytes * message)) : Prop :=
  ascending ord L /\
  (forall k, In k (map fst L) <-> key_messages k ls <> []) /\
  forall k d v, In (k, d) L -> apply_msg cfg k d v = replay cfg k (key_messages k ls) v.

(** A cursor over [n] elements: positions -1 (before the first) to [n] (after
    the last).  [None]: a step past an end. *)
Inductive move := Next | Prev.
Fixpoint cursor (n : Z) (ms : list move) (i : Z) : option Z :=
  match ms with
  | [] => Some i
  | Next :: r => if i <? n then cursor n r (i + 1) else None
  | Prev :: r => if 0 <=? i then cursor n r (i - 1) else None
  end.
