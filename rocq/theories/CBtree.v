(** The memtable's B-tree used by many threads at once: /repo/src/btree.c,
    btree_insert (1744-2053), btree_grow_root (1700-1734), btree_split_child_leaf
    (1331-1436), btree_defragment_or_split_child_leaf (1448-1497),
    btree_split_child_index (1515-1590), btree_defragment_or_split_child_index
    (1604-1641), btree_lookup_node (2072-2116), btree_lookup_with_ref (2120-2137).

    One step is one access to the lock of a page, or the work done on pages between
    two such accesses.

    Simplifications:
    - the page locks are those of C22: which thread has a reference to, claims, or
      locks a page is read off the threads; cache_lock is two steps, announcing
      (from then on nobody gets the page) and waiting for the readers;
    - how full a page is is not modelled ([Page], [Btree]): whether it is full, needs to
      be split or only defragmented, and where it is cut, is chosen by the schedule, the
      cut such that both halves have entries (C10).  So the assertions that an entry fits
      (1408, 1430, 1482, 2002) are not here (C08, C29);
    - the message of a tuple is the list of the messages merged into it;
    - keys are numbers: only their order matters;
    - unlock, unclaim and unget in a row are one step; so are a claim and the
      work on the claimed page, and the two places where the first pivot of a full
      index is lowered (1823, 1911 before the split; 1837, 1942 after it);
    - failures of memory allocation are left out. *)
From Coq Require Import List Arith Bool.
Import ListNotations.
Local Open Scope nat_scope.

(** ** Pages. *)
Inductive node :=
| Leaf (es : list (nat * list nat)) (pv nx : option nat)
| Index (h : nat) (ps : list (nat * nat)).

(** btree_find_tuple (C11) and the message there; [[]]: no tuple. *)
Fixpoint getk (k : nat) (es : list (nat * list nat)) : list nat :=
  match es with
  | [] => []
  | (k', v) :: r => if k' =? k then v else getk k r
  end.

(** btree_try_perform_leaf_incorporate_spec, 643-681: a new entry, or the old one
    replaced. *)
Fixpoint setk (k : nat) (v : list nat) (es : list (nat * list nat)) : list (nat * list nat) :=
  match es with
  | [] => [(k, v)]
  | (k', v') :: r =>
      if k <? k' then (k, v) :: es
      else if k =? k' then (k, v) :: r
      else (k', v') :: setk k v r
  end.

(** btree_find_pivot, 464-490 (C11): the last pivot that is not greater. *)
Fixpoint rank (k : nat) (ps : list (nat * nat)) : nat :=
  match ps with
  | (pk, _) :: r => if pk <=? k then S (rank k r) else 0
  | [] => 0
  end.
Definition find (k : nat) (ps : list (nat * nat)) : option nat :=
  match rank k ps with 0 => None | S i => Some i end.

Definition zero (j : option nat) : nat := match j with Some i => i | None => 0 end.

(** btree_set_index_entry for entry 0, 1823, 1911. *)
Definition lower (k : nat) (ps : list (nat * nat)) : list (nat * nat) :=
  match ps with [] => [] | (_, c) :: r => (k, c) :: r end.
Definition lowered (j : option nat) (k : nat) (ps : list (nat * nat)) :=
  match j with None => lower k ps | Some _ => ps end.

(** btree_insert_index_entry, 1402, 1549. *)
Definition insert_at {A} (i : nat) (x : A) (l : list A) : list A := firstn i l ++ x :: skipn i l.

(** btree_build_leaf_splitting_plan (C10): [q] entries stay; [gl]: the insertion
    goes left. *)
Definition keys (es : list (nat * list nat)) : list nat := map fst es.
Definition plan_ok (k q : nat) (gl : bool) (es : list (nat * list nat)) : bool :=
  match skipn q es, gl with
  | (r, _) :: _, true => k <? r
  | [], true => false
  | _, false => (0 <? q) && forallb (fun x => fst x <? k) (firstn q es)
  end && (q <=? length es).
(** btree_splitting_pivot, 865-878. *)
Definition pivot (k q : nat) (gl : bool) (es : list (nat * list nat)) : nat :=
  match skipn q es, gl with
  | (r, _) :: _, true => r
  | (r, _) :: _, false => Nat.min k r
  | [], _ => k
  end.

(** ** Threads. *)

(** Where an insertion is; pages: parent, index of the child in it, child, right child,
    child's next.  [sp]: the specification made at 1780, 1980 or 2029, which holds
    the old message. *)
Inductive ipc :=
| I0                                          (* 1776 *)
| I1                                          (* 1779 *)
| I2 (sp : list nat)                          (* 1791, cache_lock *)
| I2w (sp : list nat)
| I3 (sp : list nat)                          (* 1792 *)
| I4                                          (* 1802 *)
| I4d (u : bool)                              (* 1796 *)
| I5                                          (* 1809 *)
| I6 (j : option nat)                         (* 1817 *)
| I6w (j : option nat)
| I7 (j : option nat)                         (* 1818 *)
| I7r (idx : nat)                             (* 1845 *)
| I8 (p idx : nat)                            (* 1876, 1970 *)
| I9 (p idx c : nat)                          (* 1887, 1980 *)
(* the child is an index that must change *)
| A1 (p idx c : nat) (j : option nat)         (* 1895 *)
| A2 (p idx c : nat) (j : option nat)         (* 1902 *)
| A3 (p idx c : nat) (j : option nat)
| A4 (p idx c : nat) (j : option nat)         (* 1903 *)
| A5 (p idx c : nat) (j : option nat)
| A6 (p idx c : nat) (j : option nat)         (* 1905 *)
| A7 (p c idx : nat)                          (* 1933, 1624 *)
| A8 (p c rc q j : nat)                       (* 1556 *)
| A9 (c rc q j : nat)                         (* 1567 *)
| A10 (c rc q j : nat)                        (* 1572 *)
| A11 (c rc q j : nat)                        (* 1577 *)
| A12 (c rc q j : nat)                        (* 1582 *)
| A13 (p idx : nat)                           (* 1950 *)
(* the child is a leaf with room *)
| L1 (c : nat) (sp : list nat)                (* 1994 *)
| L2 (c : nat) (sp : list nat)                (* 1999, 1478 *)
| L2w (c : nat) (sp : list nat)
| L3 (c : nat) (sp : list nat)                (* 2000, 1480 *)
| L4 (c : nat) (u : bool)                     (* 2003, 1483 *)
(* the child is a leaf that must be split or defragmented *)
| B1 (p idx c : nat) (sp : list nat) (reb : bool)  (* 2017 *)
| B1g (p idx c : nat)                         (* 2021 *)
| B2 (p idx c : nat) (sp : list nat)          (* 2038 *)
| B3 (p idx c rc q : nat) (gl : bool) (sp : list nat) (* 1366 *)
| B4 (p idx c rc q : nat) (gl : bool) (sp : list nat)
| B5 (p idx c rc q : nat) (gl : bool) (sp : list nat)           (* 1370-1372 *)
| B6 (p idx c rc q : nat) (gl : bool) (sp : list nat) (n : nat) (* 1375 *)
| B7 (p idx c rc q : nat) (gl : bool) (sp : list nat) (n : nat) (* 1390 *)
| B8 (p idx c rc q : nat) (gl : bool) (sp : list nat) (n : nat)
| B9 (p idx c rc q : nat) (gl : bool) (sp : list nat) (n : option nat)  (* 1394 *)
| B10 (p idx c rc q : nat) (gl : bool) (sp : list nat) (n : option nat)
| B11 (p idx c rc q : nat) (gl : bool) (sp : list nat) (n : option nat) (* 1402 *)
| B12 (p c rc q : nat) (gl : bool) (sp : list nat) (n : option nat)     (* 1410 *)
| B13 (c rc q : nat) (gl : bool) (sp : list nat) (n : option nat)       (* 1415 *)
| B14 (c rc q : nat) (gl : bool) (sp : list nat) (n : option nat)       (* 1416 *)
| B15 (c rc q : nat) (gl : bool) (sp : list nat)                        (* 1420 *)
| B16 (c rc q : nat) (gl : bool) (sp : list nat)                        (* 1422 *)
| B17 (c rc q : nat) (gl : bool) (sp : list nat).                       (* 1425 *)
(* 1432 is [L4] *)

(** Where a lookup is. *)
Inductive fpc :=
| F0                                          (* 2091 *)
| F1 (a : nat)                                (* 2094, 2130 *)
| F2 (a idx : nat)                            (* 2108 *)
| F3 (a c : nat)                              (* 2110 *)
| F4 (a : nat) (v : list nat).                (* 2135, 2157 *)

Inductive thr :=
| Idle
| Ins (k m : nat) (p : ipc)
| Fnd (k : nat) (p : fpc).

(** The pages a thread has references to ... *)
Definition ireads (p : ipc) : list nat :=
  match p with
  | I0 => []
  | I1 | I2 _ | I2w _ | I3 _ | I4 | I4d _ | I5 | I6 _ | I6w _ | I7 _ | I7r _ => [0]
  | I8 p _ => [p]
  | I9 p _ c | A1 p _ c _ | A2 p _ c _ | A3 p _ c _ | A4 p _ c _ | A5 p _ c _ | A6 p _ c _ => [p; c]
  | A7 p c _ => [p; c]
  | A8 p c rc _ _ => [p; c; rc]
  | A9 c rc _ _ | A10 c rc _ _ => [c; rc]
  | A11 c rc q j => if j <? q then [c] else [c; rc]
  | A12 c rc q j => if j <? q then [c] else [c; rc]
  | A13 p _ => [p]
  | L1 c _ | L2 c _ | L2w c _ | L3 c _ | L4 c _ => [c]
  | B1 p _ c _ _ | B2 p _ c _ => [p; c]
  | B1g p _ _ => [p]
  | B3 p _ c rc _ _ _ | B4 p _ c rc _ _ _ | B5 p _ c rc _ _ _ => [p; c; rc]
  | B6 p _ c rc _ _ _ n | B7 p _ c rc _ _ _ n | B8 p _ c rc _ _ _ n => [p; c; rc; n]
  | B9 p _ c rc _ _ _ n | B10 p _ c rc _ _ _ n | B11 p _ c rc _ _ _ n | B12 p c rc _ _ _ n =>
      match n with Some n => [p; c; rc; n] | None => [p; c; rc] end
  | B13 c rc _ _ _ n | B14 c rc _ _ _ n => match n with Some n => [c; rc; n] | None => [c; rc] end
  | B15 c rc _ _ _ | B16 c rc _ _ _ => [c; rc]
  | B17 c _ _ _ _ => [c]
  end.

(** ... claims ... *)
Definition iclaims (p : ipc) : list nat :=
  match p with
  | I0 | I1 | I5 | I8 _ _ | I9 _ _ _ | L1 _ _ => []
  | I2 _ | I2w _ | I3 _ | I4 | I4d _ | I6 _ | I6w _ | I7 _ | I7r _ => [0]
  | A1 p _ _ _ => [p]
  | B1 p _ _ _ _ | B1g p _ _ => [p]
  | B6 p _ c rc _ _ _ _ => [p; c; rc]
  | p => ireads p
  end.

(** ... and has locked or announced to lock. *)
Definition ilocks (p : ipc) : list nat :=
  match p with
  | I2w _ | I3 _ | I4 | I4d _ | I6w _ | I7 _ | I7r _ => [0]
  | A3 p _ _ _ | A4 p _ _ _ => [p]
  | A5 p _ c _ | A6 p _ c _ => [p; c]
  | A7 _ _ _ | A8 _ _ _ _ _ | A9 _ _ _ _ | A10 _ _ _ _ | A11 _ _ _ _ | A12 _ _ _ _ | A13 _ _ => ireads p
  | L2w c _ | L3 c _ | L4 c _ => [c]
  | B3 _ _ _ rc _ _ _ => [rc]
  | B4 p _ _ rc _ _ _ | B5 p _ _ rc _ _ _ | B6 p _ _ rc _ _ _ _ | B7 p _ _ rc _ _ _ _ => [p; rc]
  | B8 p _ _ rc _ _ _ n => [p; rc; n]
  | B9 p _ _ rc _ _ _ n => match n with Some n => [p; rc; n] | None => [p; rc] end
  | B10 _ _ _ _ _ _ _ _ | B11 _ _ _ _ _ _ _ _ | B12 _ _ _ _ _ _ _ | B13 _ _ _ _ _ _ | B14 _ _ _ _ _ _
  | B15 _ _ _ _ _ | B16 _ _ _ _ _ | B17 _ _ _ _ _ => ireads p
  | _ => []
  end.

Definition reads (t : thr) : list nat :=
  match t with
  | Idle => []
  | Ins _ _ p => ireads p
  | Fnd _ F0 => []
  | Fnd _ (F1 a) | Fnd _ (F2 a _) | Fnd _ (F4 a _) => [a]
  | Fnd _ (F3 a c) => [a; c]
  end.
Definition claims (t : thr) : list nat := match t with Ins _ _ p => iclaims p | _ => [] end.
Definition locks (t : thr) : list nat := match t with Ins _ _ p => ilocks p | _ => [] end.

Record state := St { pg : nat -> node; nxt : nat; ths : list thr }.

Definition mem (a : nat) (l : list nat) : bool := existsb (Nat.eqb a) l.
(** No thread but [i] has [a] in what [f] gives. *)
Fixpoint nobody (f : thr -> list nat) (a i : nat) (l : list thr) : bool :=
  match l with
  | [] => true
  | t :: r => match i with
              | 0 => forallb (fun t => negb (mem a (f t))) r
              | S i => negb (mem a (f t)) && nobody f a i r
              end
  end.

(** cache_get waits while the page is locked; cache_try_claim; cache_lock waits for
    the readers. *)
Definition can_get (s : state) (i a : nat) : bool := nobody locks a i (ths s).
Definition can_claim (s : state) (i a : nat) : bool := nobody claims a i (ths s).
Definition unread (s : state) (i a : nat) : bool := nobody reads a i (ths s).

Definition upd {A} (f : nat -> A) (a : nat) (x : A) : nat -> A := fun b => if b =? a then x else f b.
Fixpoint put {A} (l : list A) (i : nat) (x : A) : list A :=
  match l, i with
  | [], _ => []
  | _ :: r, 0 => x :: r
  | y :: r, S i => y :: put r i x
  end.

(** What a caller sees: its calls and what they return: an insertion whether the key
    was new (2005), a lookup the message. *)
Inductive call := CIns (k m : nat) | CFnd (k : nat).
Inductive result := RIns (u : bool) | RFnd (v : list nat).
Inductive label := Tau | Called (c : call) | Returned (r : result).

(** The choices of the schedule: a bit (full, gives up) and a cut. *)
Record act := Act { yes : bool; cut : nat; left : bool }.

Definition entries (n : node) : list (nat * list nat) := match n with Leaf es _ _ => es | Index _ _ => [] end.
Definition nextp (n : node) : option nat := match n with Leaf _ _ nx => nx | Index _ _ => None end.
Definition prevp (n : node) : option nat := match n with Leaf _ pv _ => pv | Index _ _ => None end.
Definition pivots (n : node) : list (nat * nat) := match n with Leaf _ _ _ => [] | Index _ ps => ps end.
Definition height (n : node) : nat := match n with Leaf _ _ _ => 0 | Index h _ => h end.
Definition isnil {A} (l : list A) : bool := match l with [] => true | _ => false end.

(** btree_grow_root: the contents go to a new page [c]. *)
Definition grown (n : node) (c : nat) : option node :=
  match n with
  | Leaf ((k, _) :: _) _ _ => Some (Index 1 [(k, c)])
  | Index h ((k, _) :: _) => Some (Index (S h) [(k, c)])
  | _ => None
  end.

(** The halves of a split, 1420 (880-916) and 1425-1431
    (918-934); 1567 and 1577. *)
Definition right_leaf (k m q : nat) (gl : bool) (sp : list nat) (c : nat) (n : node) : node :=
  let r := skipn q (entries n) in
  Leaf (if gl then r else setk k (sp ++ [m]) r) (Some c) (nextp n).
Definition left_leaf (k m q : nat) (gl : bool) (sp : list nat) (rc : nat) (n : node) : node :=
  let l := firstn q (entries n) in
  Leaf (if gl then setk k (sp ++ [m]) l else l) (prevp n) (Some rc).
Definition right_index (q : nat) (n : node) : node := Index (height n) (skipn q (pivots n)).
Definition left_index (q : nat) (n : node) : node := Index (height n) (firstn q (pivots n)).
Definition with_prev (rc : nat) (n : node) : node :=
  match n with Leaf es _ nx => Leaf es (Some rc) nx | _ => n end.

(** What a step does: pages written, allocated or not, where the thread is then. *)
Inductive outcome := Next (f : nat -> node) (fresh : bool) (t : thr) (l : label).

Definition istep (s : state) (i k m : nat) (p : ipc) (x : act) : option outcome :=
  let g := pg s in
  let go q := Some (Next g false (Ins k m q) Tau) in
  let w a n q := Some (Next (upd g a n) false (Ins k m q) Tau) in
  let rc := nxt s in
  match p with
  | I0 => if can_get s i 0 then go I1 else None
  | I1 =>
      match g 0 with
      | Leaf es _ _ => if can_claim s i 0 then go (I2 (getk k es)) else go I0
      | Index _ _ => go I5
      end
  | I2 sp => go (I2w sp)
  | I2w sp => if unread s i 0 then go (I3 sp) else None
  | I3 sp =>
      match g 0 with
      | Leaf es pv nx =>
          if yes x then
            match grown (g 0) rc with
            | Some n => Some (Next (upd (upd g rc (g 0)) 0 n) true (Ins k m I4) Tau)
            | None => None
            end
          else w 0 (Leaf (setk k (sp ++ [m]) es) pv nx) (I4d (isnil sp))
      | _ => None
      end
  | I4 => go I5
  | I4d u => Some (Next g false Idle (Returned (RIns u)))
  | I5 =>
      match g 0 with
      | Index _ ps =>
          let j := find k ps in
          if match j with None => true | _ => yes x end then
            if can_claim s i 0 then go (I6 j) else go I0
          else go (I8 0 (zero j))
      | _ => None
      end
  | I6 j => go (I6w j)
  | I6w j => if unread s i 0 then go (I7 j) else None
  | I7 j =>
      match g 0 with
      | Index h ps =>
          if yes x then                                 (* 1830: full *)
            match grown (Index h (lowered j k ps)) rc with
            | Some n => Some (Next (upd (upd g rc (Index h (lowered j k ps))) 0 n) true (Ins k m (I7r 0)) Tau)
            | None => None
            end
          else w 0 (Index h (lowered j k ps)) (I7r (zero j))
      | _ => None
      end
  | I7r idx => go (I8 0 idx)
  | I8 p idx =>
      match nth_error (pivots (g p)) idx with
      | Some (_, c) => if can_get s i c then go (I9 p idx c) else None
      | None => None
      end
  | I9 p idx c =>
      if 1 <? height (g p) then
        let j := find k (pivots (g c)) in
        if match j with None => true | _ => yes x end then
          if can_claim s i p then go (A1 p idx c j) else go I0
        else go (I8 c (zero j))
      else
        let sp := getk k (entries (g c)) in
        if yes x then                                   (* 1992: does not fit *)
          if can_claim s i p then go (B1 p idx c sp false) else go I0
        else go (L1 c sp)
  | A1 p idx c j => if can_claim s i c then go (A2 p idx c j) else go I0
  | A2 p idx c j => go (A3 p idx c j)
  | A3 p idx c j => if unread s i p then go (A4 p idx c j) else None
  | A4 p idx c j => go (A5 p idx c j)
  | A5 p idx c j => if unread s i c then go (A6 p idx c j) else None
  | A6 p idx c j =>
      let h := height (g c) in
      let ps := lowered j k (pivots (g c)) in
      if yes x then                                     (* 1919, 1623: split *)
        match nth_error ps (cut x) with
        | Some (pk, _) =>
            if 0 <? cut x then
              Some (Next (upd (upd g c (Index h ps)) p
                            (Index (height (g p)) (insert_at (S idx) (pk, rc) (pivots (g p)))))
                         true (Ins k m (A8 p c rc (cut x) (zero j))) Tau)
            else None
        | None => None
        end
      else w c (Index h ps) (A7 p c (zero j))
  | A7 p c idx => go (A13 c idx)
  | A8 p c rc q j => go (A9 c rc q j)
  | A9 c rc q j => w rc (right_index q (g c)) (A10 c rc q j)
  | A10 c rc q j => go (A11 c rc q j)
  | A11 c rc q j => w c (left_index q (g c)) (A12 c rc q j)
  | A12 c rc q j => if j <? q then go (A13 c j) else go (A13 rc (j - q))
  | A13 p idx => go (I8 p idx)
  | L1 c sp => if can_claim s i c then go (L2 c sp) else go I0
  | L2 c sp => go (L2w c sp)
  | L2w c sp => if unread s i c then go (L3 c sp) else None
  | L3 c sp =>
      match g c with
      | Leaf es pv nx => w c (Leaf (setk k (sp ++ [m]) es) pv nx) (L4 c (isnil sp))
      | _ => None
      end
  | L4 c u => Some (Next g false Idle (Returned (RIns u)))
  | B1 p idx c sp reb =>
      if can_claim s i c then
        go (B2 p idx c (if reb then getk k (entries (g c)) else sp))
      else go (B1g p idx c)
  | B1g p idx c => if can_get s i c then go (B1 p idx c [] true) else None
  | B2 p idx c sp =>
      if yes x then                                     (* 1475: split *)
        if plan_ok k (cut x) (left x) (entries (g c))
        then Some (Next g true (Ins k m (B3 p idx c rc (cut x) (left x) sp)) Tau)
        else None
      else go (L2 c sp)
  | B3 p idx c rc q gl sp => go (B4 p idx c rc q gl sp)
  | B4 p idx c rc q gl sp => if unread s i p then go (B5 p idx c rc q gl sp) else None
  | B5 p idx c rc q gl sp =>
      match nextp (g c) with
      | None => go (B9 p idx c rc q gl sp None)
      | Some n => if can_get s i n then go (B6 p idx c rc q gl sp n) else None
      end
  | B6 p idx c rc q gl sp n =>
      if can_claim s i n then go (B7 p idx c rc q gl sp n)
      else if yes x then go I0 else go (B5 p idx c rc q gl sp)
  | B7 p idx c rc q gl sp n => go (B8 p idx c rc q gl sp n)
  | B8 p idx c rc q gl sp n => if unread s i n then go (B9 p idx c rc q gl sp (Some n)) else None
  | B9 p idx c rc q gl sp n => go (B10 p idx c rc q gl sp n)
  | B10 p idx c rc q gl sp n => if unread s i c then go (B11 p idx c rc q gl sp n) else None
  | B11 p idx c rc q gl sp n =>
      w p (Index (height (g p)) (insert_at (S idx) (pivot k q gl (entries (g c)), rc) (pivots (g p))))
        (B12 p c rc q gl sp n)
  | B12 p c rc q gl sp n => go (B13 c rc q gl sp n)
  | B13 c rc q gl sp n =>
      match n with
      | Some a => w a (with_prev rc (g a)) (B14 c rc q gl sp n)
      | None => go (B14 c rc q gl sp n)
      end
  | B14 c rc q gl sp n => go (B15 c rc q gl sp)
  | B15 c rc q gl sp => w rc (right_leaf k m q gl sp c (g c)) (B16 c rc q gl sp)
  | B16 c rc q gl sp => go (B17 c rc q gl sp)
  | B17 c rc q gl sp => w c (left_leaf k m q gl sp rc (g c)) (L4 c (isnil sp))
  end.

Definition fstep (s : state) (i k : nat) (p : fpc) : option outcome :=
  let g := pg s in
  let go q := Some (Next g false (Fnd k q) Tau) in
  match p with
  | F0 => if can_get s i 0 then go (F1 0) else None
  | F1 a =>
      match g a with
      | Index _ ps => go (F2 a (zero (find k ps)))
      | Leaf es _ _ => go (F4 a (getk k es))
      end
  | F2 a idx =>
      match nth_error (pivots (g a)) idx with
      | Some (_, c) => if can_get s i c then go (F3 a c) else None
      | None => None
      end
  | F3 a c => go (F1 c)
  | F4 a v => Some (Next g false Idle (Returned (RFnd v)))
  end.

Inductive cmd := Do (c : call) | Go (x : act).

(** One step of thread [i]. *)
Definition step (s : state) (i : nat) (c : cmd) : option (state * label) :=
  match nth_error (ths s) i with
  | None => None
  | Some t =>
      match match t, c with
            | Idle, Do (CIns k m) => Some (Next (pg s) false (Ins k m I0) (Called (CIns k m)))
            | Idle, Do (CFnd k) => Some (Next (pg s) false (Fnd k F0) (Called (CFnd k)))
            | Ins k m p, Go x => istep s i k m p x
            | Fnd k p, Go _ => fstep s i k p
            | _, _ => None
            end with
      | Some (Next f fresh t' l) =>
          Some (St f (if fresh then S (nxt s) else nxt s) (put (ths s) i t'), l)
      | None => None
      end
  end.

(** btree_create, 1189-1235: an empty leaf. *)
Definition init (n : nat) : state := St (fun _ => Leaf [] None None) 1 (repeat Idle n).
