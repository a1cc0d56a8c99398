(** What users of the trunk rely on (C54, C55), said without nodes, locks or branches: a
    table from keys to lists of messages, the newest first, on which each call acts at
    one instant between its start and its return; compactions change nothing. *)
From Coq Require Import List Arith Bool.
Import ListNotations.
From Verif Require Import CTrunk.
Local Open Scope nat_scope.

Definition table := nat -> list nat.

(** The messages of a memtable for a key. *)
Definition msgs (c : list (nat * list nat)) (k : nat) : list nat :=
  concat (map snd (filter (fun e => fst e =? k) c)).

Definition apply (c : call) (m : table) : table * result :=
  match c with
  | CGet k => (m, RGet (m k))
  | CInc c => (fun k => msgs c k ++ m k, RDone)
  | CMerge _ _ _ _ => (m, RDone)
  end.

(** [SAny]: a lookup that read given up space, of whose answer nothing is said. *)
Inductive sthr := SIdle | SCalled (c : call) | SDone (r : result) | SAny.

Definition now (f : nat -> sthr) (i : nat) (x : sthr) : nat -> sthr :=
  fun j => if j =? i then x else f j.

(** The atomic machine: every call has one instant of effect. *)
Inductive astep : table * (nat -> sthr) -> nat -> label -> table * (nat -> sthr) -> Prop :=
| a_call : forall m f i c, f i = SIdle -> astep (m, f) i (Called c) (m, now f i (SCalled c))
| a_effect : forall m f i c, f i = SCalled c ->
    astep (m, f) i Tau (fst (apply c m), now f i (SDone (snd (apply c m))))
| a_return : forall m f i r, f i = SDone r -> astep (m, f) i (Returned r) (m, now f i SIdle).

(** What is seen of a run: calls and returns, in order, and reads of given up space. *)
Definition event := (nat * label)%type.
Definition seen (i : nat) (l : label) : list event := match l with Tau => [] | _ => [(i, l)] end.

Inductive aruns : table * (nat -> sthr) -> list event -> table * (nat -> sthr) -> Prop :=
| a_stop : forall x, aruns x [] x
| a_more : forall x tr y i l z, aruns x tr y -> astep y i l z -> aruns x (tr ++ seen i l) z.

Definition empty : table := fun _ => [].
Definition all_idle : nat -> sthr := fun _ => SIdle.

(** The calls and returns [tr] could have been made by calls that act at one instant. *)
Definition linearizable (tr : list event) : Prop :=
  exists y, aruns (empty, all_idle) tr y.

(** The same, for runs in which lookups read given up space: nothing is said of what those
    return, and everything of what the other calls return. *)
Inductive bstep : table * (nat -> sthr) -> nat -> label -> table * (nat -> sthr) -> Prop :=
| b_one : forall x i l y, astep x i l y -> bstep x i l y
| b_stale : forall m f i v, f i = SDone (RGet v) -> bstep (m, f) i (Stale) (m, now f i SAny)
| b_again : forall m f i, f i = SAny -> bstep (m, f) i (Stale) (m, f)
| b_any : forall m f i v, f i = SAny -> bstep (m, f) i (Returned (RGet v)) (m, now f i SIdle).
Inductive bruns : table * (nat -> sthr) -> list event -> table * (nat -> sthr) -> Prop :=
| b_stop : forall x, bruns x [] x
| b_more : forall x tr y i l z, bruns x tr y -> bstep y i l z -> bruns x (tr ++ seen i l) z.
Definition linearizable_but_stale (tr : list event) : Prop :=
  exists y, bruns (empty, all_idle) tr y.

(** Runs of the model. *)
Inductive runs : state -> list event -> state -> Prop :=
| r_stop : forall s, runs s [] s
| r_more : forall s tr s' i c s'' l,
    runs s tr s' -> step s' i c = Some (s'', l) -> runs s (tr ++ seen i l) s''.

(** No lookup has read space that was given up. *)
Definition no_stale (tr : list event) : Prop := forall i, ~ In (i, Stale) tr.
