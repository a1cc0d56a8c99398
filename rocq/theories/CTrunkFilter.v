(** The claim of the root as the bit it is, and the one place that gives it back twice:
    /repo/src/trunk.c, trunk_bundle_build_filters (4243-4420), whose call of
    trunk_copy_path_by_key_and_height (4306) has given the claim back already
    (1316, 1270) when trunk_root_full_unclaim (4313) is called because the leaf has split;
    /repo/src/platform_linux/platform.c, platform_batch_rwlock_unclaim (385-390), which
    clears the bit, whoever set it.

    The rest is [CTrunk].  Putting the filters of a bundle in is a compaction of no
    branches: the path is copied (4306), the node is changed (an empty branch stands for the
    filter), the old path is drained for the old filters (4360, 4216-4235), and so on for
    the nodes up to the end key. *)
From Coq Require Import List Arith Bool.
Import ListNotations.
From Verif Require Import CTrunk.
Local Open Scope nat_scope.

(** [cl]: write_lock[TRUNK_ROOT_LOCK_IDX].claim. *)
Record xstate := X { base : state; cl : bool }.

Definition returns (l : label) : bool := match l with Returned _ => true | _ => false end.
Definition building (o : req) : bool := match seg o with [] => true | _ => false end.
(** 4310-4325: the filters are discarded. *)
Definition discards (t : pc) (l : label) : bool :=
  match t with P3 o _ _ => returns l && building o | _ => false end.
(** 1270: the root has been switched. *)
Definition switches (t : pc) (l : label) : bool :=
  match t with P2 _ _ _ => true | I2 _ _ _ => returns l | _ => false end.

(** A step, and whether it has cleared a claim that somebody had. *)
Definition xstep (x : xstate) (i : nat) (c : cmd) : option (xstate * label * bool) :=
  let s := base x in
  match nth_error (ths s) i with
  | None => None
  | Some t =>
      match t, c with
      (* trunk_root_full_claim, 1207-1211 *)
      | P0 o, Go (AGo _) => if cl x then None else Some (X (set_ths s (put (ths s) i (P1 o))) true, Tau, false)
      | I0 d, Go (AGo _) => if cl x then None else Some (X (set_ths s (put (ths s) i (I1 d))) true, Tau, false)
      | _, _ => match step s i c with
                | Some (s', l) =>
                    Some (X s' (if switches t l || discards t l then false else cl x), l, discards t l && cl x)
                | None => None
                end
      end
  end.

Definition xinit (n : nat) : xstate := X (init n) false.
