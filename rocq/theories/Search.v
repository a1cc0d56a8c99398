(** * Searches inside nodes

    /repo/src/btree.c:464-533 and /repo/src/trunk.c:1579-1676.
    Definitions only. *)

From Coq Require Import List ZArith NArith Arith Bool.
From Verif Require Import Base.
Import ListNotations.

(** The i-th key of a node.  Out-of-range reads are [None]. *)
Definition key_at (ks : list key) (i : nat) : option key := nth_error ks i.

(** btree.c:464-490 (btree_find_pivot) and 508-533 (btree_find_tuple); the two
    functions differ only in how the i-th key is fetched.  Result: (index,
    found); the loop has [fuel]; [None] is running out of fuel or reading a
    slot that does not exist.  int64 overflow of lo + hi is impossible
    (num_entries is a uint16). *)
Fixpoint btree_find_loop (cfg : data_config) (ks : list key) (target : key)
         (fuel : nat) (lo hi : nat) : option (Z * bool) :=
  match fuel with
  | O => None
  | S fuel' =>
      if lo <? hi then
        let mid := (lo + hi) / 2 in
        match key_at ks mid with
        | None => None
        | Some km =>
            let cmp := data_key_compare cfg km target in
            if (cmp =? 0)%Z then Some (Z.of_nat mid, true)
            else if (cmp <? 0)%Z then btree_find_loop cfg ks target fuel' (mid + 1) hi
            else btree_find_loop cfg ks target fuel' lo mid
        end
      else Some ((Z.of_nat lo - 1)%Z, false)
  end.

Definition btree_find (cfg : data_config) (ks : list key) (target : key) : option (Z * bool) :=
  btree_find_loop cfg ks target (S (length ks)) 0 (length ks).

(** trunk.c: comparison modes (iterator.h / data_internal.h enum comparison) *)
Inductive comparison_mode := LessThan | LessThanOrEqual | GreaterThan | GreaterThanOrEqual.

(** trunk.c:1579-1585, lowerbound: 32 - clz(size - 1) is the bit length of
    size - 1. *)
Definition lowerbound (size : nat) : nat :=
  if size <=? 1 then 0 else N.size_nat (N.of_nat (size - 1)).

(** trunk.c:1590-1608, trunk_update_lowerbound: new value of lo. *)
Definition update_lowerbound (lo mid : nat) (cmp : Z) (comp : comparison_mode) : nat :=
  match comp with
  | LessThan | GreaterThanOrEqual => if (cmp <? 0)%Z then mid else lo
  | LessThanOrEqual | GreaterThan => if (cmp <=? 0)%Z then mid else lo
  end.

(** trunk.c:1655-1660, the loop: [i] remaining iterations. *)
Fixpoint find_pivot_loop (cfg : data_config) (ks : list key) (target : key)
         (comp : comparison_mode) (i lo size : nat) : option nat :=
  match i with
  | O => Some lo
  | S i' =>
      let size' := size / 2 in
      let mid := lo + size' in
      match key_at ks mid with
      | None => None
      | Some km =>
          find_pivot_loop cfg ks target comp i'
            (update_lowerbound lo mid (data_key_compare cfg km target) comp) size'
      end
  end.

(** trunk.c:1616-1676, trunk_find_pivot.  [ks] are the pivot keys of the
    children (trunk_num_children of them; the upper bound pivot is not part of
    the search).  debug_asserts are omitted.  [None]: a read outside the
    pivots. *)
Definition trunk_find_pivot (cfg : data_config) (ks : list key) (target : key)
           (comp : comparison_mode) : option nat :=
  let size := length ks in
  if size =? 0 then Some 0
  else if size =? 1 then
    match key_at ks 0 with
    | None => None
    | Some k0 =>
        let cmp := data_key_compare cfg k0 target in
        Some match comp with
             | LessThan | LessThanOrEqual => 0
             | GreaterThan => if (0 <? cmp)%Z then 0 else 1
             | GreaterThanOrEqual => if (0 <=? cmp)%Z then 0 else 1
             end
    end
  else
    let sz := 2 ^ (lowerbound size - 1) in
    let mid := size - sz in
    match key_at ks mid with
    | None => None
    | Some km =>
        let lo := update_lowerbound 0 mid (data_key_compare cfg km target) comp in
        match find_pivot_loop cfg ks target comp (lowerbound sz) lo sz with
        | None => None
        | Some lo' =>
            Some match comp with
                 | LessThan | LessThanOrEqual => lo'
                 | GreaterThan | GreaterThanOrEqual => lo' + 1
                 end
        end
    end.
