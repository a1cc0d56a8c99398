(** * What a range iterator should show, independently of the model *)

From Coq Require Import List NArith ZArith Bool.
From Verif Require Import Base Spec_Merge TrunkNode TrunkTree.
Import ListNotations.

(** [L] lists the keys of the dictionary [d] that satisfy [P], with their values,
    in ascending order. *)
Definition lists (cfg : data_config) (d : bytes -> option bytes) (P : bytes -> Prop) (L : list (bytes * bytes)) : Prop :=
  ascending (key_compare cfg) L /\ forall k v, In (k, v) L <-> d k = Some v /\ P k.

(** The keys from [start] on; no start key: all keys *)
Definition from_start (cfg : data_config) (start : option bytes) (k : bytes) : Prop :=
  match start with None => True | Some s => (0 <= key_compare cfg k s)%Z end.

(** The number of branches on the path of a key, for the limit of a range
    iterator (trunk.h:44) *)
Fixpoint on_path (M : nat) (cfg : data_config) (ht : nat) (t : tree) (k : key) : nat :=
  let n := t_node t in
  match ht with
  | O => csub M (n_ebr n) (n_sbr n)
  | S h =>
      match route cfg n k with
      | None => 0
      | Some i => match get_pivot n i, nth_error (t_kids t) i with
                  | Some p, Some c => csub M (n_ebr n) (pv_sbr p) + on_path M cfg h c k
                  | _, _ => 0
                  end
      end
  end.
Definition fits (M : nat) (cfg : data_config) (st : state) : Prop :=
  forall k, k <> KPosInf -> length (st_mts st) + on_path M cfg (height_of st) (st_tree st) k <= 256.
