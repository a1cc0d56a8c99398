(** * Btree pages as bytes

    The operations of [Page.v] on the bytes of a page: header fields, offset
    table and entries are read from and written to a byte array, uint16 fields
    are little-endian and truncate, and any access outside the page is [None].
    /repo/src/btree_private.h:36-54, 139-190, 264-330 and
    /repo/src/btree.c:222-414, 693-734, 1013-1048.  Definitions only. *)

From Coq Require Import List NArith Arith Bool.
From Verif Require Import Base Codec Page.
Import ListNotations.
Local Open Scope N_scope.

(** Memory of one page *)
Definition slice (bs : bytes) (o n : N) : option bytes :=
  if o + n <=? blen bs then Some (firstn (N.to_nat n) (skipn (N.to_nat o) bs)) else None.
Definition poke (bs : bytes) (o : N) (d : bytes) : option bytes :=
  if o + blen d <=? blen bs
  then Some (firstn (N.to_nat o) bs ++ d ++ skipn (N.to_nat (o + blen d)) bs)
  else None.
Definition rd16 (bs : bytes) (o : N) : option N :=
  match slice bs o 2 with
  | Some [lo; hi] => Some (lo + 256 * hi)
  | _ => None
  end.
Definition rd8 (bs : bytes) (o : N) : option N :=
  match slice bs o 1 with Some [b] => Some b | _ => None end.
Definition wr16 (bs : bytes) (o x : N) : option bytes := poke bs o (enc_u16 x).

Definition obind {A B} (x : option A) (f : A -> option B) : option B :=
  match x with Some a => f a | None => None end.
Notation "'do' x <- a ; b" := (obind a (fun x => b)) (at level 200, x name, a at level 100, b at level 200).

(** Byte positions in the packed header: four uint64, height, next_entry,
    num_entries, offsets (btree_private.h:36-45). *)
Definition at_next : N := 33.
Definition at_num : N := 35.

(** A way of storing entries.  [c_enc old e] are the bytes of [e] written over
    memory whose third byte was [old] (copy_tuple_to_ondisk_tuple leaves that
    byte, key_flags, unwritten). *)
Record codec (E : Type) := Codec {
  c_sz : E -> N;
  c_enc : N -> E -> bytes;
  c_dec : bytes -> option E
}.
Arguments c_sz {E}. Arguments c_enc {E}. Arguments c_dec {E}.

Section Bytes.
  Context {E : Type}.
  Variable c : codec E.
  Notation sz := (c_sz c).

  (** hdr->offsets[k] *)
  Definition b_off (bs : bytes) (k : nat) : option N := rd16 bs (off_end k).
  (** Decode the entry at an offset. *)
  Definition b_at (bs : bytes) (o : N) : option E :=
    if o <=? blen bs then c_dec c (skipn (N.to_nat o) bs) else None.
  Definition b_entry (bs : bytes) (k : nat) : option E := do o <- b_off bs k; b_at bs o.
  (** Write an entry at an offset, keeping the byte the encoder keeps. *)
  Definition b_fill (bs : bytes) (o : N) (e : E) : option bytes :=
    do old <- rd8 bs (o + 2); poke bs o (c_enc c old e).

  (** All entries of the page. *)
  Fixpoint b_entries_from (bs : bytes) (k n : nat) : option (list E) :=
    match n with
    | O => Some []
    | S n' => do e <- b_entry bs k; do es <- b_entries_from bs (S k) n'; Some (e :: es)
    end.
  Definition b_entries (bs : bytes) : option (list E) :=
    do n <- rd16 bs at_num; b_entries_from bs 0 (N.to_nat n).

  (** btree_private.h:181-190, btree_init_hdr on a page of zeroes; the rest of
      the page keeps its contents *)
  Definition b_init (P : N) (junk : bytes) : option bytes :=
    do b1 <- poke junk 0 (repeat 0 37); wr16 b1 at_next P.
  (** btree.c:134-139, btree_reset_node_entries *)
  Definition b_reset (P : N) (bs : bytes) : option bytes :=
    do b1 <- wr16 bs at_num 0; wr16 b1 at_next P.

  (** btree.c:368-392 and 260-274; outer [None]: access outside the page *)
  Definition b_place (bs : bytes) (next : N) (num k : nat) (e : E) : option (pres bytes) :=
    let new_num := if Nat.ltb k num then num else S k in
    if next <? off_end new_num + sz e then Some PFalse
    else
      let o := next - sz e in
      do b1 <- b_fill bs o e;
      do b2 <- wr16 b1 (off_end k) o;
      do b3 <- wr16 b2 at_num (N.of_nat new_num);
      do b4 <- wr16 b3 at_next o;
      Some (PTrue b4).

  (** btree.c:348-393 *)
  Definition b_set_leaf (bs : bytes) (k : nat) (e : E) : option (pres bytes) :=
    do numN <- rd16 bs at_num;
    let num := N.to_nat numN in
    do next <- rd16 bs at_next;
    if Nat.ltb k num then
      do o <- b_off bs k;
      do old <- b_at bs o;
      if sz e <=? sz old then do b1 <- b_fill bs o e; Some (PTrue b1)
      else b_place bs next num k e
    else if Nat.leb k num then b_place bs next num k e
    else Some PAbort.

  (** btree.c:222-275.  In the special case next_entry is written back first
      (245) and read again (260). *)
  Definition b_set_index (bs : bytes) (k : nat) (e : E) : option (pres bytes) :=
    do numN <- rd16 bs at_num;
    let num := N.to_nat numN in
    do next <- rd16 bs at_next;
    if Nat.ltb num k then Some PAbort
    else if Nat.ltb k num then
      do o <- b_off bs k;
      do old <- b_at bs o;
      if (next =? o) && (off_end num + sz e <=? next + sz old) then
        do b1 <- wr16 bs at_next (next + sz old);
        do next' <- rd16 b1 at_next;
        b_place b1 next' num k e
      else if sz e <=? sz old then do b1 <- b_fill bs o e; Some (PTrue b1)
      else b_place bs next num k e
    else b_place bs next num k e.

  (** The memmove of btree.c:288-293 and 406-412 *)
  Definition b_rotate (bs : bytes) (k : nat) : option bytes :=
    do numN <- rd16 bs at_num;
    let num := N.to_nat numN in
    if Nat.ltb k num then
      do o <- b_off bs (num - 1);
      do moved <- slice bs (off_end k) (2 * N.of_nat (num - k - 1));
      do b1 <- poke bs (off_end (S k)) moved;
      wr16 b1 (off_end k) o
    else None.

  Definition b_insert_with (set : bytes -> nat -> E -> option (pres bytes))
             (bs : bytes) (k : nat) (e : E) : option (pres bytes) :=
    do numN <- rd16 bs at_num;
    do r <- set bs (N.to_nat numN) e;
    match r with
    | PTrue b1 => do b2 <- b_rotate b1 k; Some (PTrue b2)
    | x => Some x
    end.
  (** btree.c:395-414 and 277-295 *)
  Definition b_insert_leaf := b_insert_with b_set_leaf.
  Definition b_insert_index := b_insert_with b_set_index.

  (** btree.c:720-734 and 1033-1048: the loop over slots 0 .. n-1 *)
  Fixpoint b_min_off (bs : bytes) (k n : nat) (acc : N) : option N :=
    match n with
    | O => Some acc
    | S n' => do o <- b_off bs k; b_min_off bs (S k) n' (if o <? acc then o else acc)
    end.
  Definition b_truncate (P : N) (bs : bytes) (n : nat) : option bytes :=
    do m <- b_min_off bs 0 n P;
    do b1 <- wr16 bs at_num (N.of_nat n);
    wr16 b1 at_next m.

  (** btree.c:693-718 (without a spec) and 1013-1031: copy the page, reset it,
      set the entries again one by one *)
  Fixpoint b_fill_leaf (bs : bytes) (dst : nat) (es : list E) : option bytes :=
    match es with
    | [] => Some bs
    | e :: es' =>
        do r <- b_set_leaf bs dst e;
        match r with
        | PAbort => None
        | PFalse => b_fill_leaf bs (S dst) es'
        | PTrue b1 => b_fill_leaf b1 (S dst) es'
        end
    end.
  Definition b_defragment_leaf (P : N) (bs : bytes) : option bytes :=
    do es <- b_entries bs; do b1 <- b_reset P bs; b_fill_leaf b1 0 es.
  Fixpoint b_fill_index (bs : bytes) (dst : nat) (es : list E) : option bytes :=
    match es with
    | [] => Some bs
    | e :: es' =>
        do r <- b_set_index bs dst e;
        match r with PTrue b1 => b_fill_index b1 (S dst) es' | _ => None end
    end.
  Definition b_defragment_index (P : N) (bs : bytes) : option bytes :=
    do es <- b_entries bs; do b1 <- b_reset P bs; b_fill_index b1 0 es.
End Bytes.

(** ** The two codecs of the code *)

(** leaf entries: ondisk_tuple (btree_private.h:52-57, data_internal.h:386-456) *)
Notation lent := (bytes * message)%type.
Definition leaf_codec : codec lent := {|
  c_sz := fun e => sizeof_ondisk_tuple (fst e) (snd e);
  c_enc := fun old e => copy_tuple_to_ondisk_tuple old (fst e) (snd e);
  c_dec := ondisk_tuple_decode
|}.

(** index entries: pivot_data then ondisk_key (btree_private.h:47-50,
    btree.h:110-128): child address, three counters, key.  sizeof(index_entry)
    is 8 + 12 + 3. *)
Fixpoint enc_le (n : nat) (x : N) : bytes :=
  match n with O => [] | S n' => (x mod 256) :: enc_le n' (x / 256) end.
Fixpoint dec_le (n : nat) (b : bytes) : option (N * bytes) :=
  match n with
  | O => Some (0, b)
  | S n' => match b with
            | [] => None
            | x :: b' => match dec_le n' b' with
                         | Some (y, r) => Some (x + 256 * y, r)
                         | None => None
                         end
            end
  end.

Record pstats := PStats { ps_kvs : N; ps_kbytes : N; ps_mbytes : N }.
Record idx_entry := IdxEntry { ix_key : key; ix_child : N; ix_stats : pstats }.
Definition index_codec : codec idx_entry := {|
  c_sz := fun e => 23 + key_length (ix_key e);
  c_enc := fun _ e =>
    enc_le 8 (ix_child e) ++ enc_le 4 (ps_kvs (ix_stats e)) ++ enc_le 4 (ps_kbytes (ix_stats e))
      ++ enc_le 4 (ps_mbytes (ix_stats e)) ++ copy_key_to_ondisk_key (ix_key e);
  c_dec := fun b =>
    match dec_le 8 b with None => None | Some (ch, b1) =>
    match dec_le 4 b1 with None => None | Some (x, b2) =>
    match dec_le 4 b2 with None => None | Some (y, b3) =>
    match dec_le 4 b3 with None => None | Some (z, b4) =>
    match ondisk_key_to_key b4 with None => None | Some k =>
      Some (IdxEntry k ch (PStats x y z))
    end end end end end
|}.
