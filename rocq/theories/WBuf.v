(** * Writable buffers, merge accumulators and lookup results

    /repo/src/util.h:115-270, /repo/src/util.c:10-52,
    /repo/src/data_internal.h:456-533, /repo/src/data_internal.c,
    /repo/src/splinterdb.c:560-619.  Definitions only.

    Memory is a heap of numbered blocks of bytes; a pointer is a block number
    ([None] is NULL).  A write past the end of a block, a write through NULL, a
    free of a block that is not allocated and a failed platform_assert are all
    [None].  Allocation takes an oracle [ok : bool] that says whether the
    memory allocator succeeds. *)

From Coq Require Import List NArith Bool.
From Verif Require Import Base.
Import ListNotations.
Local Open Scope N_scope.

Record heap := Heap { h_blocks : nat -> option bytes; h_next : nat }.

Definition h_set (h : heap) (b : nat) (v : option bytes) : heap :=
  Heap (fun j => if Nat.eqb j b then v else h_blocks h j) (h_next h).

(** malloc of [n] bytes with contents [c] *)
Definition h_alloc (h : heap) (c : bytes) : heap * nat :=
  (Heap (fun j => if Nat.eqb j (h_next h) then Some c else h_blocks h j) (S (h_next h)), h_next h).

Definition h_free (h : heap) (b : nat) : option heap :=
  match h_blocks h b with None => None | Some _ => Some (h_set h b None) end.

(** Overwrite [l] from offset [off] with [src]; [None] if it does not fit. *)
Definition splice (l : bytes) (off : N) (src : bytes) : option bytes :=
  if off + blen src <=? blen l
  then Some (firstn (N.to_nat off) l ++ src ++ skipn (N.to_nat (off + blen src)) l)
  else None.

(** memcpy(ptr + off, src, |src|); copying zero bytes touches nothing. *)
Definition h_write (h : heap) (p : option nat) (off : N) (src : bytes) : option heap :=
  match src with
  | [] => Some h
  | _ => match p with
         | None => None
         | Some b => match h_blocks h b with
                     | None => None
                     | Some l => match splice l off src with
                                 | None => None
                                 | Some l' => Some (h_set h b (Some l'))
                                 end
                     end
         end
  end.

(** First [n] bytes behind a pointer. *)
Definition h_read (h : heap) (p : option nat) (n : N) : option bytes :=
  if n =? 0 then Some []
  else match p with
       | None => None
       | Some b => match h_blocks h b with
                   | None => None
                   | Some l => if n <=? blen l then Some (firstn (N.to_nat n) l) else None
                   end
       end.

(** util.h:124-130.  [wb_length = None] is WRITABLE_BUFFER_NULL_LENGTH. *)
Record wbuf := WBuf {
  wb_buffer : option nat;
  wb_capacity : N;
  wb_length : option N;
  wb_can_free : bool
}.

(** util.h:164-176 *)
Definition wb_init_with_buffer (p : option nat) (cap : N) (len : option N) : wbuf :=
  WBuf p cap len false.

(** util.c:10-40, writable_buffer_ensure_space.  Result: (heap, buffer,
    success).  [junk] gives the uninitialised bytes of a new block (its length
    is adjusted); 2 * capacity does not overflow (capacities are below 2^63). *)
Definition fit (n : N) (c : bytes) : bytes :=
  firstn (N.to_nat n) (c ++ repeat 0 (N.to_nat n)).

Definition wb_ensure_space (h : heap) (wb : wbuf) (minspace : N) (ok : bool) (junk : bytes)
  : option (heap * wbuf * bool) :=
  if minspace <=? wb_capacity wb then Some (h, wb, true)
  else
    let minspace := if minspace <? 2 * wb_capacity wb then 2 * wb_capacity wb else minspace in
    if negb ok then Some (h, wb, false)
    else
      if wb_can_free wb then
        (* platform_realloc: new block with the old contents, old one freed *)
        match wb_buffer wb with
        | None =>
            let '(h1, b) := h_alloc h (fit minspace junk) in
            Some (h1, WBuf (Some b) minspace (wb_length wb) true, true)
        | Some ob =>
            match h_blocks h ob with
            | None => None
            | Some old =>
                let '(h1, b) := h_alloc h (fit minspace (old ++ junk)) in
                match h_free h1 ob with
                | None => None
                | Some h2 => Some (h2, WBuf (Some b) minspace (wb_length wb) true, true)
                end
            end
        end
      else
        (* TYPED_MANUAL_MALLOC and memcpy of the current contents *)
        let '(h1, b) := h_alloc h (fit minspace junk) in
        match wb_length wb with
        | None => Some (h1, WBuf (Some b) minspace (wb_length wb) true, true)
        | Some len =>
            match h_read h (wb_buffer wb) len with
            | None => None
            | Some cur =>
                match h_write h1 (Some b) 0 cur with
                | None => None
                | Some h2 => Some (h2, WBuf (Some b) minspace (wb_length wb) true, true)
                end
            end
        end.

(** util.c:42-52, writable_buffer_resize *)
Definition wb_resize (h : heap) (wb : wbuf) (n : N) (ok : bool) (junk : bytes)
  : option (heap * wbuf * bool) :=
  if n =? 2 ^ 64 - 1 then None
  else match wb_ensure_space h wb n ok junk with
       | None => None
       | Some (h1, wb1, false) => Some (h1, wb1, false)
       | Some (h1, wb1, true) =>
           Some (h1, WBuf (wb_buffer wb1) (wb_capacity wb1) (Some n) (wb_can_free wb1), true)
       end.

(** util.h:206-210 *)
Definition wb_set_to_null (wb : wbuf) : wbuf :=
  WBuf (wb_buffer wb) (wb_capacity wb) None (wb_can_free wb).

(** util.h:212-220: capacity and length keep their values *)
Definition wb_deinit (h : heap) (wb : wbuf) : option (heap * wbuf) :=
  let h1 := if wb_can_free wb then
              match wb_buffer wb with None => Some h | Some b => h_free h b end
            else Some h in
  match h1 with
  | None => None
  | Some h1 => Some (h1, WBuf None (wb_capacity wb) (wb_length wb) false)
  end.

(** util.h:231-240 *)
Definition wb_copy_slice (h : heap) (wb : wbuf) (src : bytes) (ok : bool) (junk : bytes)
  : option (heap * wbuf * bool) :=
  match wb_resize h wb (blen src) ok junk with
  | None => None
  | Some (h1, wb1, false) => Some (h1, wb1, false)
  | Some (h1, wb1, true) =>
      match h_write h1 (wb_buffer wb1) 0 src with
      | None => None
      | Some h2 => Some (h2, wb1, true)
      end
  end.

(** util.h:250-258; the slice's contents, [None] for NULL_SLICE *)
Definition wb_to_slice (h : heap) (wb : wbuf) : option bytes :=
  match wb_length wb with
  | None => None
  | Some n => h_read h (wb_buffer wb) n
  end.

(** data_internal.h:464-467; type [None] is MESSAGE_TYPE_INVALID *)
Record macc := Macc { ma_type : option mclass; ma_data : wbuf }.

(** What the engine and the user's callbacks may do to an accumulator. *)
Inductive acc_op :=
| ASetNull                                   (* data_internal.h:526-531 *)
| ACopy (m : message) (ok : bool) (junk : bytes)   (* data_internal.c:27-38 *)
| AResize (n : N) (ok : bool) (junk : bytes) (* data_internal.c:40-45 *)
| AWrite (off : N) (src : bytes)             (* stores through merge_accumulator_data *)
| ASetClass (c : mclass).                    (* data_internal.c:47-51 *)

(** The boolean is the operation's own success flag. *)
Definition acc_step (h : heap) (a : macc) (o : acc_op) : option (heap * macc * bool) :=
  match o with
  | ASetNull => Some (h, Macc None (wb_set_to_null (ma_data a)), true)
  | ACopy m ok junk =>
      match wb_copy_slice h (ma_data a) (m_data m) ok junk with
      | None => None
      | Some (h1, wb1, false) => Some (h1, Macc (ma_type a) wb1, false)
      | Some (h1, wb1, true) => Some (h1, Macc (Some (m_class m)) wb1, true)
      end
  | AResize n ok junk =>
      match wb_resize h (ma_data a) n ok junk with
      | None => None
      | Some (h1, wb1, r) => Some (h1, Macc (ma_type a) wb1, r)
      end
  | AWrite off src =>
      match h_write h (wb_buffer (ma_data a)) off src with
      | None => None
      | Some h1 => Some (h1, a, true)
      end
  | ASetClass c => Some (h, Macc (Some c) (ma_data a), true)
  end.

(** splinterdb.c:577-592, splinterdb_lookup_result_init *)
Definition lookup_result_init (buf : option nat) (len : N) : macc :=
  Macc None (wb_init_with_buffer buf len None).

(** splinterdb.c:594-599 *)
Definition lookup_result_deinit (h : heap) (a : macc) : option (heap * macc) :=
  match wb_deinit h (ma_data a) with
  | None => None
  | Some (h1, wb1) => Some (h1, Macc None wb1)
  end.

(** splinterdb.c:601-606, trunk.h:345-349 *)
Definition lookup_found (a : macc) : bool :=
  match wb_length (ma_data a) with None => false | Some _ => true end.

(** splinterdb.c:608-619; [inl tt] is EINVAL *)
Definition lookup_result_value (h : heap) (a : macc) : unit + option bytes :=
  if lookup_found a then inr (wb_to_slice h (ma_data a)) else inl tt.
