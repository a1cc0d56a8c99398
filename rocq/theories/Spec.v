(** * Specification vocabulary, independent of the model

    Total orders, user-level merge laws, and the dictionary a database is
    compared with. *)

From Coq Require Import List ZArith NArith Bool.
From Verif Require Import Base.
Import ListNotations.

(** A comparison function that is a total order: its sign is antisymmetric and
    transitive and it is 0 exactly on equal byte strings. *)
Record total_order {A : Type} (cmp : A -> A -> Z) : Prop := {
  to_eq : forall a b, cmp a b = 0%Z <-> a = b;
  to_antisym : forall a b, (cmp a b < 0 <-> cmp b a > 0)%Z;
  to_trans : forall a b c, (cmp a b < 0 -> cmp b c < 0 -> cmp a c < 0)%Z
}.

(** ** What a user means by insert, delete and update *)

(** The user-level effect of the merge callbacks.
    [up_some k v d]: the value after applying update [d] to value [v]
    ([None]: the key disappears); [up_none k d]: applying [d] to an absent key. *)
Definition value_of (m : message) : option bytes :=
  match m_class m with
  | MInsert => Some (m_data m)
  | _ => None
  end.

Definition up_some (cfg : data_config) (k v d : bytes) : option bytes :=
  match merge_fns cfg with
  | Some (f, _) => value_of (f k (Msg MInsert v) (Msg MUpdate d))
  | None => None
  end.

Definition up_none (cfg : data_config) (k d : bytes) : option bytes :=
  match merge_fns cfg with
  | Some (_, g) => value_of (g k (Msg MUpdate d))
  | None => None
  end.

(** The effect of one message on the value of its key. *)
Definition apply_msg (cfg : data_config) (k : bytes) (m : message)
           (v : option bytes) : option bytes :=
  match m_class m with
  | MInsert => Some (m_data m)
  | MDelete => None
  | MUpdate => match v with
               | Some v0 => up_some cfg k v0 (m_data m)
               | None => up_none cfg k (m_data m)
               end
  end.

(** Replay messages for one key, oldest first. *)
Definition replay (cfg : data_config) (k : bytes) (ms : list message)
           (v : option bytes) : option bytes :=
  fold_left (fun v m => apply_msg cfg k m v) ms v.

(** Laws for user merge callbacks.  Merging an update into an insert, or
    finalising it, must give an insert or a delete; merging two updates must
    mean "apply the first, then the second". *)
Record lawful_merge (cfg : data_config) : Prop := {
  lm_ins : forall f g k v d, merge_fns cfg = Some (f, g) ->
      is_definitive (f k (Msg MInsert v) (Msg MUpdate d)) = true;
  lm_final : forall f g k d, merge_fns cfg = Some (f, g) ->
      is_definitive (g k (Msg MUpdate d)) = true;
  lm_compose : forall f g k a b v, merge_fns cfg = Some (f, g) ->
      apply_msg cfg k (f k (Msg MUpdate a) (Msg MUpdate b)) v =
      apply_msg cfg k (Msg MUpdate b) (apply_msg cfg k (Msg MUpdate a) v)
}.

(** Updates may be used only if the callbacks are present
    (splinterdb.h; data.h:168-169). *)
Definition msg_allowed (cfg : data_config) (m : message) : Prop :=
  m_class m = MUpdate -> merge_fns cfg <> None.

(** On the keys in [D], the comparator of [cfg] has the sign of [ord]. *)
Definition agrees (cfg : data_config) (ord : bytes -> bytes -> Z) (D : bytes -> Prop) : Prop :=
  forall a b, D a -> D b -> Z.sgn (key_compare cfg a b) = Z.sgn (ord a b).
