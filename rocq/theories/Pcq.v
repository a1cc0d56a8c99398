(** * Producer-consumer queue

    /repo/src/pcq.h:13-125.  Definitions only.

    A transition system with one step per shared-memory access: any number of
    producers and one consumer.  Producers between the fetch-and-add and the
    store are the list [pq_pending] of (ticket, element).  [pq_all] and
    [pq_out] are ghost history: elements in ticket order, and elements handed
    to the consumer.  num_elems is the parameter [n]; head and tail are uint32
    (pcq.h:13-20). *)

From Coq Require Import List NArith.
Import ListNotations.
Local Open Scope N_scope.

Section Pcq.
  Context {A : Type}.

  (** Consumer's position inside pcq_dequeue. *)
  Inductive cons_pc := CIdle | CChecked | CTook.

  Record pcq := Pcq {
    pq_elems : N -> option A;
    pq_head : N;
    pq_tail : N;
    pq_pending : list (N * A);
    pq_cons : cons_pc;
    pq_all : list A;
    pq_out : list A
  }.

  (** pcq.h:26-38, pcq_alloc: zeroed *)
  Definition pcq_init : pcq := Pcq (fun _ => None) 0 0 [] CIdle [] [].

  Definition slot_set (f : N -> option A) (i : N) (v : option A) : N -> option A :=
    fun j => if j =? i then v else f j.

  Definition u32_succ (x : N) : N := (x + 1) mod 2 ^ 32.

  (** One step.  [n] is num_elems. *)
  Inductive pcq_step (n : N) : pcq -> pcq -> Prop :=
  | (** pcq.h:79, fetch_and_add of the tail.  The premise is the callers'
        obligation stated at pcq.h:80-84 ("None of our callers enqueue more
        than num_elems"): fewer than [n] elements are outstanding. *)
    ps_reserve : forall q e,
      N.of_nat (length (pq_all q))
        < N.of_nat (length (pq_out q)) - (match pq_cons q with CTook => 1 | _ => 0 end) + n ->
      pcq_step n q
        (Pcq (pq_elems q) (pq_head q) (u32_succ (pq_tail q))
             (pq_pending q ++ [(pq_tail q, e)]) (pq_cons q) (pq_all q ++ [e]) (pq_out q))
  | (** pcq.h:86-92, store into the reserved slot; any pending producer *)
    ps_store : forall q l1 l2 t e,
      pq_pending q = l1 ++ (t, e) :: l2 ->
      pcq_step n q
        (Pcq (slot_set (pq_elems q) (t mod n) (Some e)) (pq_head q) (pq_tail q)
             (l1 ++ l2) (pq_cons q) (pq_all q) (pq_out q))
  | (** pcq.h:104-106, not empty *)
    ps_check : forall q,
      pq_cons q = CIdle -> pq_head q <> pq_tail q ->
      pcq_step n q
        (Pcq (pq_elems q) (pq_head q) (pq_tail q) (pq_pending q) CChecked (pq_all q) (pq_out q))
  | (** pcq.h:104-106, empty: STATUS_NOT_FOUND *)
    ps_empty : forall q,
      pq_cons q = CIdle -> pq_head q = pq_tail q -> pcq_step n q q
  | (** pcq.h:115-117, slot still NULL: STATUS_NOT_FOUND *)
    ps_null : forall q,
      pq_cons q = CChecked -> pq_elems q (pq_head q mod n) = None ->
      pcq_step n q
        (Pcq (pq_elems q) (pq_head q) (pq_tail q) (pq_pending q) CIdle (pq_all q) (pq_out q))
  | (** pcq.h:118-120, take the element and clear the slot *)
    ps_take : forall q e,
      pq_cons q = CChecked -> pq_elems q (pq_head q mod n) = Some e ->
      pcq_step n q
        (Pcq (slot_set (pq_elems q) (pq_head q mod n) None) (pq_head q) (pq_tail q)
             (pq_pending q) CTook (pq_all q) (pq_out q ++ [e]))
  | (** pcq.h:122, advance the head *)
    ps_advance : forall q,
      pq_cons q = CTook ->
      pcq_step n q
        (Pcq (pq_elems q) (u32_succ (pq_head q)) (pq_tail q) (pq_pending q) CIdle
             (pq_all q) (pq_out q)).

  Inductive pcq_reach (n : N) : pcq -> Prop :=
  | pr_init : pcq_reach n pcq_init
  | pr_step : forall q q', pcq_reach n q -> pcq_step n q q' -> pcq_reach n q'.
End Pcq.
Arguments pcq : clear implicits.
