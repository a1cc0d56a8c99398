(** * What creating, opening and closing should do to resources and to the device

    Written against the events of a call only. *)

From Coq Require Import List NArith Arith Bool.
From Verif Require Import Life.
Import ListNotations.

(** ** Resources *)

Lemma resource_eq_dec : forall a b : resource, {a = b} + {a <> b}.
Proof. decide equality; apply Nat.eq_dec. Defined.

Definition same (a b : resource) : bool := if resource_eq_dec a b then true else false.

(** A part is built on the parts of lower level *)
Definition level (r : resource) : nat :=
  match r with
  | RHeap => 0
  | RKvs => 1
  | RFd | RReqs => 2
  | RTask | RReg | RCond _ | RThread _ _ => 3
  | RAlLock | RMeta | RRefs => 4
  | RLookup | REntry | RData | RCount | RPin | RBusy => 5
  | RSpl | RSrq | RTrunk => 6
  end.

Definition holds (r : resource) (held : list resource) : bool := existsb (same r) held.
Definition without (r : resource) (held : list resource) : list resource := filter (fun x => negb (same r x)) held.

(** Nothing is acquired twice; what is released or used is held; when something is
    released nothing built on it is held; the device is written through the open
    file.  [None]: the rule was broken. *)
Definition rule (s : option (list resource)) (e : event) : option (list resource) :=
  match s with
  | None => None
  | Some held =>
      match e with
      | Acq r => if holds r held then None else Some (r :: held)
      | Rel r => if holds r held && forallb (fun x => level x <=? level r) held then Some (without r held) else None
      | Use r => if holds r held then Some held else None
      | Wr _ => if holds RFd held then Some held else None
      end
  end.

(** What is held after the events, if they kept the rule *)
Definition held_after (es : list event) : option (list resource) := fold_left rule es (Some []).

(** ** The device *)

(** Who wrote the super block last, and what ([None]: half of it), in a history
    (the last label first) *)
Fixpoint last_write (ws : list write) : option super :=
  match ws with
  | [] => None
  | w :: r => match last_write r with
              | Some s => Some s
              | None => match w with WSuper _ s => Some s | _ => None end
              end
  end.

Definition is_super (w : write) : bool := match w with WSuper _ _ => true | _ => false end.

Fixpoint last_super (h : list label) : option (op * option super) :=
  match h with
  | [] => None
  | l :: r =>
      if match l_half l with Some w => is_super w | None => false end then Some (l_op l, None)
      else match last_write (l_writes l) with
           | Some s => Some (l_op l, Some s)
           | None => last_super r
           end
  end.

(** The same database *)
Definition same_image (a b : image) : Prop :=
  (forall e, i_refs a e = i_refs b e) /\ (forall p, i_pages a p = i_pages b p) /\
  i_root a = i_root b /\ i_next a = i_next b /\ i_tail a = i_tail b.
