(** * Range iterators

    /repo/src/trunk.c:6148-6555 and 7600-7636, /repo/src/splinterdb.c:656-774:
    an iterator over the whole database.  It collects the memtables and the
    branches on the path to one leaf, merges them within the bounds of the leaf
    (Merge.v), and starts again at the next or previous leaf when the merge is
    exhausted.

    Simplifications.
    - A branch is the sorted list of its tuples, and the B-tree iterator over it a
      position in the part of the list between the bounds (BtreeIter.v has the
      iterator itself, and C04 and C05 what it shows).  An iterator with nothing
      between its bounds is at position 0; the one of the code may also be before
      the end (btree.c:2840-2858).
    - The sources of an iterator do not change while it uses them: in the code
      that holds for everything but the memtable which takes the inserts (6317).
      The database itself may change between two calls: each call is given the
      state in which it runs.
    - Reference counts (6210-6212, 6256, 6276, 6538-6549), prefetching and failures
      of memory allocation are left out, and with the latter the only statuses
      other than STATUS_OK; num_tuples decides on prefetching only.
    - local_min and local_max are used at 6349-6383 after the page they point into
      has been released (6295); here they are values.

    [None] is a failed assertion or a write outside an array.
    Definitions only; no proofs. *)

From Coq Require Import List NArith ZArith Arith Bool.
From Verif Require Import Base Search Merge TrunkNode TrunkTree TrunkLegal.
Import ListNotations.

Definition MAX_ITOR_BRANCHES : nat := 256.   (* trunk.h:44 *)

Section Range.
Variables (M : nat) (cfg : data_config).

(** trunk.c:6236-6258: the branches of a pivot, newest first *)
Definition pivot_branches (n : node) (p : pivot) : list branch :=
  map (fun off => n_br n (csub M (n_ebr n) (off + 1))) (seq 0 (csub M (n_ebr n) (pv_sbr p))).
(** trunk.c:6267-6279: all branches of a leaf *)
Definition leaf_branches (n : node) : list branch :=
  map (fun off => n_br n (csub M (n_ebr n) (off + 1))) (seq 0 (csub M (n_ebr n) (n_sbr n))).

(** trunk.c:6224-6279: down to a leaf.  The array holds MAX_ITOR_BRANCHES; the
    assertions are at 6197 and 6240, there is none for the leaf. *)
Fixpoint collect (ht : nat) (t : tree) (k : key) (comp : comparison_mode) (found : list branch)
  : option (list branch * node) :=
  let n := t_node t in
  match ht with
  | O =>
      let l := found ++ leaf_branches n in
      if length l <=? MAX_ITOR_BRANCHES then Some (l, n) else None
  | S h =>
      match trunk_find_pivot cfg (map pv_key (children_pivots n)) k comp with
      | None => None
      | Some i =>
          match get_pivot n i, nth_error (t_kids t) i with
          | Some p, Some c =>
              let l := found ++ pivot_branches n p in
              if length l <=? MAX_ITOR_BRANCHES then collect h c k comp l else None
          | _, _ => None
          end
      end
  end.

(** btree.c:2949-3003 with BtreeIter.v: an iterator over the tuples of [b] in
    [mn, mx), started at [start] *)
Definition clamped (mn mx start : key) : key :=
  let mx' := if (0 <? data_key_compare cfg mn mx)%Z then mn else mx in
  let s1 := if (data_key_compare cfg start mn <? 0)%Z then mn else start in
  if (0 <? data_key_compare cfg s1 mx')%Z then mx' else s1.
Definition below (k : key) (l : branch) : nat :=
  length (filter (fun e => (data_key_compare cfg (KUser (fst e)) k <? 0)%Z) l).
Definition upto_key (k : key) (l : branch) : nat :=
  length (filter (fun e => (data_key_compare cfg (KUser (fst e)) k <=? 0)%Z) l).
Definition src_of (rule : comparison_mode) (mn mx start : key) (b : branch) : src :=
  let items := branch_range cfg mn mx b in
  let s := clamped mn mx start in
  Src items
    match items with
    | [] => 0%Z
    | _ => match rule with
           | LessThan => Z.of_nat (below s items) - 1
           | LessThanOrEqual => Z.of_nat (upto_key s items) - 1
           | GreaterThanOrEqual => Z.of_nat (below s items)
           | GreaterThan => Z.of_nat (upto_key s items)
           end%Z
    end.

(** trunk.h:230-252, trunk_range_iterator *)
Record rit := RIt {
  r_min : key; r_max : key;         (* min_key, max_key *)
  r_lmin : key; r_lmax : key;       (* local_min_key, local_max_key *)
  r_merge : mi;
  r_can_prev : bool; r_can_next : bool
}.

(** trunk.c:6147-6387, trunk_range_iterator_init.  The recursion has fuel. *)
Fixpoint range_init_from (fuel : nat) (st : state) (mn mx start : key) (rule : comparison_mode) : option rit :=
  match fuel with
  | O => None
  | S f =>
      let s1 := if (0 <? data_key_compare cfg mn start)%Z then mn else start in
      let s := if (data_key_compare cfg mx s1 <=? 0)%Z then mx else s1 in
      match collect (height_of st) (st_tree st) s
              (match rule with LessThan => LessThan | _ => LessThanOrEqual end) (st_mts st) with
      | None => None
      | Some (brs, n) =>
          let lmin := if (0 <? data_key_compare cfg (min_key n) mn)%Z then min_key n else mn in
          let lmax := if (data_key_compare cfg (max_key n) mx <? 0)%Z then max_key n else mx in
          match merge_create cfg Full (map (src_of rule lmin lmax s) (rev brs)) with
          | Some (Some m) =>
              if merge_can_curr m then Some (RIt mn mx lmin lmax m true true)
              else match rule with
                   | GreaterThan | GreaterThanOrEqual =>
                       if (data_key_compare cfg lmax mx <? 0)%Z
                       then range_init_from f st mn mx lmax rule
                       else Some (RIt mn mx lmin lmax m (m_can_prev m) false)
                   | LessThan | LessThanOrEqual =>
                       if (0 <? data_key_compare cfg lmin mn)%Z
                       then range_init_from f st mn mx lmin rule
                       else Some (RIt mn mx lmin lmax m false (m_can_next m))
                   end
          | _ => None
          end
      end
  end.
Definition range_init (st : state) (mn mx start : key) (rule : comparison_mode) : option rit :=
  range_init_from (S (length (leaf_ranges (height_of st) (st_tree st)))) st mn mx start rule.

(** trunk.c:6397-6454, trunk_range_iterator_next *)
Definition range_next (st : state) (r : rit) : option rit :=
  if negb (r_can_next r) then None
  else match merge_next cfg (r_merge r) with
       | None => None
       | Some m =>
           if negb (m_can_next m) && (data_key_compare cfg (r_lmax r) (r_max r) <? 0)%Z
           then range_init st (r_min r) (r_max r) (r_lmax r) GreaterThanOrEqual
           else Some (RIt (r_min r) (r_max r) (r_lmin r) (r_lmax r) m true (m_can_next m))
       end.
(** trunk.c:6456-6512, trunk_range_iterator_prev *)
Definition range_prev (st : state) (r : rit) : option rit :=
  if negb (r_can_prev r) then None
  else match merge_prev cfg (r_merge r) with
       | None => None
       | Some m =>
           if negb (m_can_prev m) && (0 <? data_key_compare cfg (r_lmin r) (r_min r))%Z
           then range_init st (r_min r) (r_max r) (r_lmin r) LessThan
           else Some (RIt (r_min r) (r_max r) (r_lmin r) (r_lmax r) m (m_can_prev m) true)
       end.
(** trunk.c:6389-6395 *)
Definition range_curr (r : rit) : option bytes * option message := merge_curr (r_merge r).

(** ** The public iterator

    splinterdb.c:662-699 (a null slice starts at the beginning), 711-719,
    721-753, 761-774 *)
Definition iter_init (st : state) (start : option bytes) : option rit :=
  range_init st KNegInf KPosInf (match start with None => KNegInf | Some k => KUser k end) GreaterThanOrEqual.
Definition iter_valid (r : rit) : bool := r_can_next r && r_can_prev r.
Definition iter_next : state -> rit -> option rit := range_next.
Definition iter_prev : state -> rit -> option rit := range_prev.
Definition iter_get (r : rit) : option bytes * option bytes :=
  let '(k, m) := range_curr r in (k, option_map m_data m).

(** A sequence of calls, each with the state in which it is made *)
Fixpoint iter_nexts (sts : list state) (r : rit) : option rit :=
  match sts with
  | [] => Some r
  | st :: l => match iter_next st r with Some r' => iter_nexts l r' | None => None end
  end.

(** trunk.c:7600-7636, trunk_range: the tuples given to [func] *)
Fixpoint range_loop (n : nat) (sts : nat -> state) (i : nat) (r : rit) : option (list (option bytes * option message)) :=
  match n with
  | O => Some []
  | S n' =>
      if negb (r_can_next r) then Some []
      else match range_next (sts i) r with
           | None => None
           | Some r' => match range_loop n' sts (S i) r' with
                        | None => None
                        | Some l => Some (range_curr r :: l)
                        end
           end
  end.
Definition trunk_range (sts : nat -> state) (start : key) (n : nat) : option (list (option bytes * option message)) :=
  match range_init (sts 0) start KPosInf start GreaterThanOrEqual with
  | None => None
  | Some r => range_loop n sts 1 r
  end.

End Range.
