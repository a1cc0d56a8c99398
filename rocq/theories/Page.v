(** * Btree pages as slotted pages

    /repo/src/btree_private.h:36-54, 139-190 and /repo/src/btree.c:222-414,
    693-734, 1013-1053.  Definitions only.

    A page is its next_entry field and, for each slot of the offset table, the
    offset and the decoded entry.  [PageBytes.v] models the same operations on
    the bytes of a page and [PageBytesProofs.v] proves that they agree.
    Offsets are uint16 in the code; page sizes below 2^16 (the code uses 4096)
    make every offset fit, which the byte-level proof checks. *)

From Coq Require Import List NArith Arith Bool.
From Verif Require Import Base.
Import ListNotations.
Local Open Scope N_scope.

(** btree_private.h:36-45: sizeof(btree_hdr), packed *)
Definition sizeof_btree_hdr : N := 37.

(** diff_ptr(hdr, &hdr->offsets[n]); a table_entry takes 2 bytes *)
Definition off_end (n : nat) : N := sizeof_btree_hdr + 2 * N.of_nat n.

Record page (E : Type) := Page { pg_next : N; pg_ents : list (N * E) }.
Arguments Page {E}. Arguments pg_next {E}. Arguments pg_ents {E}.

(** Result of an operation that may find no room: [PAbort] is a failed
    platform_assert (or a wild memory access), [PFalse] the return value
    FALSE, [PTrue] success. *)
Inductive pres (A : Type) := PAbort | PFalse | PTrue (a : A).
Arguments PAbort {A}. Arguments PFalse {A}. Arguments PTrue {A}.

Definition set_nth {A} (k : nat) (x : A) (l : list A) : list A :=
  firstn k l ++ x :: skipn (S k) l.
Definition insert_nth {A} (k : nat) (x : A) (l : list A) : list A :=
  firstn k l ++ x :: skipn k l.

Section Page.
  Context {E : Type}.
  Variable sz : E -> N.        (* bytes taken by an entry *)

  Definition pg_num (p : page E) : nat := length (pg_ents p).
  Definition pg_cont (p : page E) : list E := map snd (pg_ents p).

  (** btree_private.h:173-185 (btree_init_hdr, btree_reset_node_entries) *)
  Definition pg_empty (P : N) : page E := Page P [].

  (** The common end of btree.c:260-274 and 368-392: put the entry below
      next_entry and point slot [k] at it. *)
  Definition pg_place (p : page E) (k : nat) (e : E) : pres (page E) :=
    let new_num := if Nat.ltb k (pg_num p) then pg_num p else S k in
    if pg_next p <? off_end new_num + sz e then PFalse
    else let o := pg_next p - sz e in
         PTrue (Page o (set_nth k (o, e) (pg_ents p))).

  (** btree.c:348-393, btree_set_leaf_entry *)
  Definition set_leaf_entry (p : page E) (k : nat) (e : E) : pres (page E) :=
    match nth_error (pg_ents p) k with
    | Some (o, old) =>
        if sz e <=? sz old then PTrue (Page (pg_next p) (set_nth k (o, e) (pg_ents p)))
        else pg_place p k e
    | None => if Nat.leb k (pg_num p) then pg_place p k e else PAbort
    end.

  (** btree.c:317-346, btree_can_set_leaf_entry *)
  Definition can_set_leaf_entry (p : page E) (k : nat) (e : E) : bool :=
    if Nat.ltb (pg_num p) k then false
    else
      let fits := negb (pg_next p <? off_end (if Nat.ltb k (pg_num p) then pg_num p else S k) + sz e) in
      match nth_error (pg_ents p) k with
      | Some (_, old) => if sz e <=? sz old then true else fits
      | None => fits
      end.

  (** The memmove of btree.c:288-293 and 406-412: the slot just appended moves
      to position [k].  [None]: k past the end (a memmove of a wrapped size). *)
  Definition pg_rotate (p : page E) (k : nat) : option (page E) :=
    match pg_num p with
    | O => None
    | S n =>
        match nth_error (pg_ents p) n with
        | Some last => if Nat.leb k n
                       then Some (Page (pg_next p) (insert_nth k last (firstn n (pg_ents p))))
                       else None
        | None => None
        end
    end.

  (** btree.c:395-414, btree_insert_leaf_entry *)
  Definition insert_leaf_entry (p : page E) (k : nat) (e : E) : pres (page E) :=
    match set_leaf_entry p (pg_num p) e with
    | PTrue p' => match pg_rotate p' k with Some p2 => PTrue p2 | None => PAbort end
    | r => r
    end.

  (** btree.c:222-275, btree_set_index_entry.  In the first special case only
      next_entry moves (234-246); the entry is then placed as usual. *)
  Definition set_index_entry (p : page E) (k : nat) (e : E) : pres (page E) :=
    if Nat.ltb (pg_num p) k then PAbort
    else match nth_error (pg_ents p) k with
         | Some (o, old) =>
             if (pg_next p =? o) && (off_end (pg_num p) + sz e <=? pg_next p + sz old)
             then pg_place (Page (pg_next p + sz old) (pg_ents p)) k e
             else if sz e <=? sz old
                  then PTrue (Page (pg_next p) (set_nth k (o, e) (pg_ents p)))
                  else pg_place p k e
         | None => pg_place p k e
         end.

  (** btree.c:277-295, btree_insert_index_entry *)
  Definition insert_index_entry (p : page E) (k : nat) (e : E) : pres (page E) :=
    match set_index_entry p (pg_num p) e with
    | PTrue p' => match pg_rotate p' k with Some p2 => PTrue p2 | None => PAbort end
    | r => r
    end.

  (** Copying entries into a page one by one, btree.c:702-717 and 895-908.
      The result of each set is ignored but the index advances (in release
      builds); a set past the end aborts. *)
  Fixpoint fill_leaf (p : page E) (dst : nat) (es : list E) : option (page E) :=
    match es with
    | [] => Some p
    | e :: es' =>
        match set_leaf_entry p dst e with
        | PAbort => None
        | PFalse => fill_leaf p (S dst) es'
        | PTrue p' => fill_leaf p' (S dst) es'
        end
    end.

  (** btree.c:993-1003 and 1021-1030: here a failed set aborts. *)
  Fixpoint fill_index (p : page E) (dst : nat) (es : list E) : option (page E) :=
    match es with
    | [] => Some p
    | e :: es' =>
        match set_index_entry p dst e with
        | PTrue p' => fill_index p' (S dst) es'
        | _ => None
        end
    end.

  (** btree.c:720-734 and 1033-1048: keep the first [n] slots.  The loop reads
      slots 0 .. n-1; [None] if they do not exist. *)
  Definition pg_truncate (P : N) (p : page E) (n : nat) : option (page E) :=
    if Nat.leb n (pg_num p) then
      let es := firstn n (pg_ents p) in
      Some (Page (fold_left (fun a oe => if fst oe <? a then fst oe else a) es P) es)
    else None.

  (** btree.c:1013-1031, btree_defragment_index *)
  Definition defragment_index (P : N) (p : page E) : option (page E) :=
    fill_index (pg_empty P) 0 (pg_cont p).

  (** btree.c:92 and 1033-1053, btree_truncate_index *)
  Definition truncate_index (P : N) (p : page E) (n : nat) : option (page E) :=
    match pg_truncate P p n with
    | None => None
    | Some p' => if pg_next p' <? P / 4 then defragment_index P p' else Some p'
    end.
End Page.

(** ** What the pages of a page-sized byte array must satisfy

    Entries lie between the offset table and the end of the page and do not
    overlap. *)
Definition disjoint {E} (sz : E -> N) (a b : N * E) : Prop :=
  fst a + sz (snd a) <= fst b \/ fst b + sz (snd b) <= fst a.

Record page_ok {E} (sz : E -> N) (P : N) (p : page E) : Prop := {
  po_table : off_end (pg_num p) <= pg_next p;
  po_next : pg_next p <= P;
  po_in : forall o e, In (o, e) (pg_ents p) -> pg_next p <= o /\ o + sz e <= P;
  po_disj : forall i j a b, i <> j -> nth_error (pg_ents p) i = Some a ->
              nth_error (pg_ents p) j = Some b -> disjoint sz a b
}.
