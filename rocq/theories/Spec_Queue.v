(** * What a queue of tasks should do

    A double-ended queue given by its history: tasks go in at the back, or at
    the front, and come out at the front. *)

From Coq Require Import List Arith.
From Verif Require Import Task.
Import ListNotations.

Fixpoint replay (h : list op) (q : list nat) : option (list nat) :=
  match h with
  | [] => Some q
  | PushBack x :: h' => replay h' (q ++ [x])
  | PushFront x :: h' => replay h' (x :: q)
  | Pop x :: h' =>
      match q with
      | y :: q' => if Nat.eqb x y then replay h' q' else None
      | [] => None
      end
  end.

(** The history is one of a queue that starts empty. *)
Definition queue_history (h : list op) : Prop := exists q, replay h [] = Some q.

Fixpoint pushed (h : list op) : list nat :=
  match h with
  | [] => []
  | PushBack x :: h' | PushFront x :: h' => x :: pushed h'
  | Pop _ :: h' => pushed h'
  end.

Fixpoint popped (h : list op) : list nat :=
  match h with
  | [] => []
  | Pop x :: h' => x :: popped h'
  | _ :: h' => popped h'
  end.

Definition only_back (h : list op) : Prop := forall x, ~ In (PushFront x) h.
