(** * Circular index arithmetic of trunk nodes

    /repo/src/trunk.c:1353-1423.  Definitions only.

    The branch, bundle, subbundle and filter variants are the same code with
    different capacities (hard_max_branches_per_node, TRUNK_MAX_BUNDLES = 12,
    TRUNK_MAX_SUBBUNDLES = 24, TRUNK_MAX_SUBBUNDLE_FILTERS = 24); the capacity
    is the parameter [N].  The uint16 results do not truncate because the
    capacity is below 2^16; the subtraction does not go below zero because
    stored numbers are below the capacity (trunk.c asserts/constructs them with
    these functions only). *)

From Coq Require Import Arith Bool List.
Import ListNotations.

(** trunk.c:1353-1357, 1378-1382, 1401-1405, 1413-1417 *)
Definition ring_add (cap no offset : nat) : nat := (no + offset) mod cap.

(** trunk.c:1359-1364, 1384-1388, 1407-1411, 1419-1426 *)
Definition ring_sub (cap no offset : nat) : nat := (no + cap - offset) mod cap.

(** trunk.c:1366-1374, 1390-1398 *)
Definition ring_in_range (cap no first last : nat) : bool :=
  ring_sub cap no first <? ring_sub cap last first.

(** A circular array with its first and one-past-last numbers; the live slots
    are visited with [ring_add 1], as every loop over branches and bundles in
    trunk.c does (e.g. trunk.c:2053-2070). *)
Record ring (A : Type) := Ring { r_slots : nat -> A; r_start : nat; r_end : nat }.
Arguments Ring {A}. Arguments r_slots {A}. Arguments r_start {A}. Arguments r_end {A}.

Definition ring_set {A} (f : nat -> A) (i : nat) (v : A) : nat -> A :=
  fun j => if Nat.eqb j i then v else f j.

(** e.g. trunk.c:2769-2781 (trunk_get_new_branch), 2206-2222
    (trunk_get_new_bundle): use slot [end], then advance it. *)
Definition ring_push {A} (cap : nat) (r : ring A) (v : A) : ring A :=
  Ring (ring_set (r_slots r) (r_end r) v) (r_start r) (ring_add cap (r_end r) 1).

(** e.g. trunk.c:2276-2298 (trunk_leaf_get_new_subbundle_at_head): move
    [start] back by one and use that slot. *)
Definition ring_push_front {A} (cap : nat) (r : ring A) (v : A) : ring A :=
  let s := ring_sub cap (r_start r) 1 in
  Ring (ring_set (r_slots r) s v) s (r_end r).

(** e.g. trunk.c:2626-2647 (trunk_clear_bundle): drop the oldest. *)
Definition ring_pop {A} (cap : nat) (r : ring A) : ring A :=
  Ring (r_slots r) (ring_add cap (r_start r) 1) (r_end r).

(** Number of live slots, e.g. trunk.c:1008-1020 (trunk_logical_branch_count). *)
Definition ring_count {A} (cap : nat) (r : ring A) : nat :=
  ring_sub cap (r_end r) (r_start r).

(** Contents, oldest first. *)
Definition ring_contents {A} (cap : nat) (r : ring A) : list A :=
  map (fun i => r_slots r (ring_add cap (r_start r) i)) (seq 0 (ring_count cap r)).
