(** What callers of the tree rely on (C50), said without pages or locks: a table from
    keys to lists of messages on which each call acts at one instant between its start
    and its return. *)
From Coq Require Import List Arith Bool.
Import ListNotations.
From Verif Require Import CBtree.
Local Open Scope nat_scope.

Definition table := nat -> list nat.

(** What a call does to the table and what it returns. *)
Definition apply (c : call) (m : table) : table * result :=
  match c with
  | CIns k v => (fun k' => if k' =? k then m k ++ [v] else m k',
                 RIns match m k with [] => true | _ => false end)
  | CFnd k => (m, RFnd (m k))
  end.

Inductive sthr := SIdle | SCalled (c : call) | SDone (r : result).

Definition now (f : nat -> sthr) (i : nat) (x : sthr) : nat -> sthr :=
  fun j => if j =? i then x else f j.

(** The atomic machine: every call has one instant of effect. *)
Inductive astep : table * (nat -> sthr) -> nat -> label -> table * (nat -> sthr) -> Prop :=
| a_call : forall m f i c, f i = SIdle -> astep (m, f) i (Called c) (m, now f i (SCalled c))
| a_effect : forall m f i c, f i = SCalled c ->
    astep (m, f) i Tau (fst (apply c m), now f i (SDone (snd (apply c m))))
| a_return : forall m f i r, f i = SDone r -> astep (m, f) i (Returned r) (m, now f i SIdle).

(** What callers see of a run: calls and returns, in order. *)
Definition event := (nat * label)%type.
Definition seen (i : nat) (l : label) : list event := match l with Tau => [] | _ => [(i, l)] end.

Inductive aruns : table * (nat -> sthr) -> list event -> table * (nat -> sthr) -> Prop :=
| a_stop : forall x, aruns x [] x
| a_more : forall x tr y i l z, aruns x tr y -> astep y i l z -> aruns x (tr ++ seen i l) z.

Definition empty : table := fun _ => [].
Definition all_idle : nat -> sthr := fun _ => SIdle.

(** The calls and returns [tr] could have been made by calls that act at one instant. *)
Definition linearizable (tr : list event) : Prop :=
  exists y, aruns (empty, all_idle) tr y.

(** Runs of the model. *)
Inductive runs : state -> list event -> state -> Prop :=
| r_stop : forall s, runs s [] s
| r_more : forall s tr s' i c s'' l,
    runs s tr s' -> step s' i c = Some (s'', l) -> runs s (tr ++ seen i l) s''.

(** ** Scans at rest. *)

(** btree_iterator_init (2951), btree_iterator_next_leaf (2618) and
    btree_iterator_prev_leaf (2682), no insertion running: down to the leaf for a key, then
    from leaf to leaf. *)
Fixpoint leaf_of (n : nat) (g : nat -> node) (k a : nat) {struct n} : option nat :=
  match n, g a with
  | _, Leaf _ _ _ => Some a
  | S n, Index _ ps => match nth_error ps (zero (find k ps)) with
                       | Some (_, c) => leaf_of n g k c
                       | None => None
                       end
  | 0, _ => None
  end.
Fixpoint walk (n : nat) (g : nat -> node) (a : nat) {struct n} : option (list (nat * list nat)) :=
  match n, g a with
  | _, Leaf es _ None => Some es
  | S n, Leaf es _ (Some b) => match walk n g b with Some r => Some (es ++ r) | None => None end
  | _, _ => None
  end.
Fixpoint walk_back (n : nat) (g : nat -> node) (a : nat) {struct n} : option (list (nat * list nat)) :=
  match n, g a with
  | _, Leaf es None _ => Some es
  | S n, Leaf es (Some b) _ => match walk_back n g b with Some r => Some (r ++ es) | None => None end
  | _, _ => None
  end.
(** The entries not below [k], and those below [k]. *)
Definition scan (n : nat) (g : nat -> node) (k : nat) : option (list (nat * list nat)) :=
  match leaf_of n g k 0 with
  | Some a => match walk n g a with Some es => Some (filter (fun e => k <=? fst e) es) | None => None end
  | None => None
  end.
Definition scan_back (n : nat) (g : nat -> node) (k : nat) : option (list (nat * list nat)) :=
  match leaf_of n g k 0 with
  | Some a => match walk_back n g a with Some es => Some (filter (fun e => fst e <? k) es) | None => None end
  | None => None
  end.

(** Going on with the calls in progress: no new ones. *)
Inductive goes : state -> list event -> state -> Prop :=
| g_stop : forall s, goes s [] s
| g_more : forall s i x s' l tr s'', step s i (Go x) = Some (s', l) -> goes s' tr s'' ->
    goes s (seen i l ++ tr) s''.
