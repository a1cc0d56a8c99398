(** * Where a trunk leaf is split

    /repo/src/trunk.c:5721-5908, the first half of trunk_split_leaf: how many
    leaves a leaf becomes and at which keys.  (The second half, which cuts the leaf,
    is SplitLeaf in TrunkTree.v.)

    Simplifications.
    - The estimate of the number of distinct keys (5632-5677) is a parameter: any
      64-bit number.
    - The rough iterators (5812-5831) go over the keys of the index pages right
      above the leaves of each branch, between the bounds of the trunk leaf; here
      they are lists of keys with the counts that are stored with them, which
      [counts] reads from the stored bytes (5862).  Their messages have the class
      MESSAGE_TYPE_PIVOT_DATA (btree.c:2535), which no other iterator shows; here it
      is MInsert, and a raw merge does not look at it.  A failed allocation for a local copy
      of a key (5807-5810) or of the merge is left out.
    - leaf0_num_tuples and leaf0_kv_bytes, which only feed the counts of the leaf,
      are left out.

    [None] is a failed assertion, a division by zero or a write outside an array.
    Definitions only; no proofs. *)

From Coq Require Import List NArith ZArith Arith Bool.
From Verif Require Import Base Merge TrunkNode.
Import ListNotations.
Local Open Scope N_scope.

Definition w64 (x : N) : N := x mod 2 ^ 64.
Definition w32 (x : N) : N := x mod 2 ^ 32.

(** trunk.c:5749-5773.  [est]: the estimate; [tuples], [bytes]: the counts of the
    leaf; [leaf_bytes], [max_tuples]: cfg.target_leaf_kv_bytes and
    cfg.max_tuples_per_node.  The number of leaves wanted and the bytes for each. *)
Definition split_plan (est tuples bytes leaf_bytes max_tuples : N) : option (N * N) :=
  let est := if w64 (tuples * 19) / 20 <? est then tuples else est in    (* 5753-5755 *)
  if (tuples =? 0) || (leaf_bytes =? 0) then None                        (* 5759, 5761 *)
  else
    let unique := w64 (est * bytes) / tuples in
    let n := unique / leaf_bytes in
    let n := if n <=? 1                                                  (* 5762-5772 *)
             then if w64 (75 * max_tuples) / 100 <? est then 2 else 1
             else n in
    Some (n, bytes / n).

Section Loop.
(** key_bytes and message_bytes of a pivot, two uint32 (btree.h:115-119) *)
Variable counts : bytes -> N * N.

(** trunk.c:5866: the sum is taken in 32 bits *)
Definition weight (m : message) : N := w32 (fst (counts (m_data m)) + snd (counts (m_data m))).

(** trunk.c:5853-5870: the rest of the rough merge when a leaf has enough *)
Fixpoint take_leaf (last : bool) (want got : N) (l : list (bytes * message)) : list (bytes * message) :=
  match l with
  | [] => []
  | (k, m) :: r => if (got <? want) || last then take_leaf last want (w64 (got + weight m)) r else l
  end.

(** trunk.c:5850-5886: [i] is num_leaves; the number of leaves and the keys between
    them, scratch->pivot[i + 1], ... *)
Fixpoint split_keys (fuel i : nat) (n want : N) (l : list (bytes * message)) : option (nat * list bytes) :=
  match fuel with
  | O => None
  | S f =>
      match l with
      | [] => Some (i, [])
      | _ =>
          match take_leaf (N.of_nat i =? n - 1) want 0 l with
          | [] => Some (S i, [])
          | ((k, _) :: _) as r =>
              if (MAX_PIVOTS <=? S i)%nat then None              (* 5883-5884 *)
              else match split_keys f (S i) n want r with
                   | Some (j, ks) => Some (j, k :: ks)
                   | None => None
                   end
          end
      end
  end.

(** trunk.c:5833-5840, 5845, 5859, 5867: what the rough merge goes through *)
Definition pivots_of (l : list (bytes * bytes)) : src := Src (map (fun e => (fst e, Msg MInsert (snd e))) l) 0%Z.
Definition rough (cfg : data_config) (srcs : list (list (bytes * bytes))) : option (list (bytes * message)) :=
  match merge_create cfg Raw (map pivots_of srcs) with
  | Some (Some m) =>
      match drain m_can_next (merge_next cfg) (length (concat srcs)) m with
      | Some (l, _) =>
          fold_right (fun e r => match e, r with (Some k, Some d), Some r => Some ((k, d) :: r) | _, _ => None end) (Some []) l
      | None => None
      end
  | _ => None
  end.

(** trunk.c:5749-5908: the number of leaves and the keys at which the leaf is cut.
    [keys], [max_keys]: trunk_num_pivot_keys of the parent and cfg.max_pivot_keys.
    The scratch arrays have
    TRUNK_RANGE_ITOR_MAX_BRANCHES = 256 entries (5800, trunk.h:44). *)
Definition split_points (cfg : data_config) (est tuples kv_bytes leaf_bytes max_tuples : N)
    (srcs : list (list (bytes * bytes))) (keys max_keys : nat) : option (nat * list bytes) :=
  match split_plan est tuples kv_bytes leaf_bytes max_tuples with
  | None => None
  | Some (n, want) =>
      let r := if n =? 1 then Some (1%nat, [])
               else if (256 <? length srcs)%nat then None
               else match rough cfg srcs with
                    | Some l => split_keys (S MAX_PIVOTS) 0 n want l
                    | None => None
                    end in
      match r with
      | Some (j, ks) => if (MAX_PIVOTS <=? j)%nat || (max_keys <? j + keys)%nat then None else Some (j, ks)
      | None => None
      end
  end.

End Loop.
