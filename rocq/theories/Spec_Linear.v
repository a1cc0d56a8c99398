(** * Linearizability of writes and lookups, independently of the model

    A history is the list of calls and returns in real time.  A call is named by
    its position. *)

From Coq Require Import List Arith NArith Bool.
From Verif Require Import Base Spec Spec_Merge.
Import ListNotations.

Inductive event :=
| Write_call (k : bytes) (m : message)
| Lookup_call (k : bytes)
| Write_return (call : nat)
| Lookup_return (call : nat) (v : option bytes).

(** The writes of the calls in [order] *)
Fixpoint writes_of (evs : list event) (order : list nat) : list (bytes * message) :=
  match order with
  | [] => []
  | i :: r => match nth_error evs i with Some (Write_call k m) => (k, m) :: writes_of evs r | _ => writes_of evs r end
  end.

Definition precedes (i j : nat) (l : list nat) : Prop := exists a b c, l = a ++ i :: b ++ j :: c.

(** [order]: the writes that have taken effect, in their order; [pt i]: the number
    of writes before lookup [i].  Together the conditions say that there is a
    total order of the operations that real time allows and in which every lookup
    returns the value that replaying the earlier writes gives. *)
Record linearization (cfg : data_config) (evs : list event) (order : list nat) (pt : nat -> nat) : Prop := {
  lin_nodup : NoDup order;
  lin_write : forall i, In i order -> exists k m, nth_error evs i = Some (Write_call k m);
  lin_returned : forall r i, nth_error evs r = Some (Write_return i) -> i < r /\ In i order;
  lin_ww : forall r i j, nth_error evs r = Some (Write_return i) -> r < j -> In j order -> precedes i j order;
  lin_value : forall r i v, nth_error evs r = Some (Lookup_return i v) ->
    i < r /\ exists k, nth_error evs i = Some (Lookup_call k) /\
      v = replay cfg k (source_messages k (writes_of evs (firstn (pt i) order))) None;
  lin_wl : forall r i r' j v, nth_error evs r = Some (Write_return i) -> r < j ->
    nth_error evs r' = Some (Lookup_return j v) -> In i (firstn (pt j) order);
  lin_lw : forall r i v j, nth_error evs r = Some (Lookup_return i v) -> In j (firstn (pt i) order) -> j < r;
  lin_ll : forall r i v r' j v', nth_error evs r = Some (Lookup_return i v) -> r < j ->
    nth_error evs r' = Some (Lookup_return j v') -> pt i <= pt j;
  lin_pt : forall r i v, nth_error evs r = Some (Lookup_return i v) -> pt i <= length order;
  lin_once : forall r r' i, (nth_error evs r = Some (Write_return i) \/ exists v, nth_error evs r = Some (Lookup_return i v)) ->
    (nth_error evs r' = Some (Write_return i) \/ exists v, nth_error evs r' = Some (Lookup_return i v)) -> r = r'
}.
Definition linearizable (cfg : data_config) (evs : list event) : Prop := exists order pt, linearization cfg evs order pt.
