(** * What the references of a branch must satisfy

    An extent [e] of a branch holds keys between [fst e] and [snd e].  A call on a
    range of keys concerns the extents that the range meets (C25_visits).  The
    number of references of an extent begins at one when the branch is built; an
    extent without references is given back.  It is an error to refer to an extent
    that was given back, or to drop a reference that nobody has. *)

From Coq Require Import List NArith ZArith Arith Bool.
From Verif Require Import Base Refs.
Import ListNotations.

Definition before (d : data_config) (a b : key) : bool := Z.leb (data_key_compare d a b) 0.
Definition meets (d : data_config) (r e : key * key) : bool := before d (fst e) (snd r) && before d (fst r) (snd e).

Inductive refcount := Absent | Has (n : nat) | Bad.

Definition on_event (d : data_config) (b : bid) (e : key * key) (c : refcount) (v : ev) : refcount :=
  match v with
  | EvNew b' _ _ => if b' =? b then match c with Absent => Has 1 | _ => Bad end else c
  | EvInc b' r =>
      if b' =? b then
        match c with
        | Has n => if meets d r e then match n with O => Bad | S _ => Has (S n) end else Has n
        | _ => Bad
        end
      else c
  | EvDec b' r =>
      if b' =? b then
        match c with
        | Has n => if meets d r e then match n with O => Bad | S m => Has m end else Has n
        | _ => Bad
        end
      else c
  end.
Definition references (d : data_config) (b : bid) (e : key * key) (l : list ev) : refcount :=
  fold_left (on_event d b e) l Absent.

(** [e] can be an extent of branch [b]: it begins at or below the keys from which
    the branch was built and does not end below them. *)
Definition extent_of (d : data_config) (l : list ev) (b : bid) (e : key * key) : Prop :=
  exists lo hi, In (EvNew b lo hi) l /\
    before d (fst e) (snd e) = true /\ before d (fst e) hi = true /\ before d lo (snd e) = true.

(** Some node refers to [b] for the keys from [fst r] to [snd r]: [b] is in a bundle
    that is live for a pivot with that range. *)
Definition refers (s : rst) (b : bid) (r : key * key) : Prop :=
  exists lvl n i p sl q,
    In lvl (t_lev s) /\ In n lvl /\ nth_error (r_pivs n) i = Some p /\
    fst r = p_key p /\
    snd r = match nth_error (r_pivs n) (S i) with Some p' => p_key p' | None => r_hi n end /\
    nth_error (r_slots n) q = Some sl /\ p_dead p <= q /\ In b (s_brs sl).

(** A compaction reads [b] for these keys. *)
Definition reads (s : rst) (b : bid) (r : key * key) : Prop :=
  exists j, In j (t_jobs s) /\ j_ph j = Reading /\ In (b, r) (j_src j).

(** A compaction has built [b] and is not done with putting it into the tree. *)
Definition places (s : rst) (b : bid) : Prop :=
  exists j pos reps lost, In j (t_jobs s) /\ j_ph j = Placing (Some b) pos reps lost.
