(** * The packed array of small integers

    /repo/src/PackedArray.c.  The file is a template: for every width
    [b] = 1..32 it unrolls the same text into [__PackedArray_pack_b] and
    [__PackedArray_unpack_b] (lines 204-299), each of which jumps into a list of
    32 cases (lines 145-157 and 173-190), one for each item number modulo 32.
    Case [i] is [pack_cell b i] / [unpack_cell b i] here, and running through
    consecutive cases is [pack_cells] / [unpack_cells].

    The array is a memory of 32-bit words indexed by word number.  Out-of-range
    accesses are not modelled; instead the theorems say which bits change.
    Definitions only; no proofs. *)

From Coq Require Import List NArith Bool.
Import ListNotations.
Local Open Scope N_scope.

Definition words := N -> N.

Definition wset (a : words) (w v : N) : words := fun i => if i =? w then v else a i.

Definition two32 : N := 2 ^ 32.

(** [x << s] and [~x] on uint32 *)
Definition shl32 (x s : N) : N := (N.shiftl x s) mod two32.
Definition not32 (x : N) : N := N.lxor x (two32 - 1).

(** (uint32)((1ULL << n) - 1) and (uint32)(1ULL << n) - 1, for n <= 32 *)
Definition mask32 (n : N) : N := 2 ^ n - 1.

(** PACKEDARRAY_IMPL_START_BIT and PACKEDARRAY_IMPL_BITS_AVAILABLE of case [i],
    PackedArray.c:130-133 *)
Definition start_bit (b i : N) : N := (i * b) mod 32.
Definition bits_avail (b i : N) : N := 32 - start_bit b i.

(** The state of the packing loop: the word number [out] points at, the word
    under construction, and the memory. *)
Record pst := PSt { p_out : N; p_packed : N; p_mem : words }.

(** PackedArray.c:145-157, case [i] of the packing switch *)
Definition pack_cell (b i : N) (s : pst) (v : N) : pst :=
  let start := start_bit b i in
  let avail := bits_avail b i in
  let p := N.lor (p_packed s) (shl32 v start) in
  if b <=? avail then
    if b =? avail then PSt (p_out s + 1) 0 (wset (p_mem s) (p_out s) p)
    else PSt (p_out s) p (p_mem s)
  else PSt (p_out s + 1) (N.shiftr v avail) (wset (p_mem s) (p_out s) p).

(** Consecutive cases; after case 31 the do loop starts again at case 0. *)
Fixpoint pack_cells (b i : N) (s : pst) (vs : list N) : pst :=
  match vs with
  | [] => s
  | v :: r => pack_cells b ((i + 1) mod 32) (pack_cell b i s v) r
  end.

(** PackedArray.c:238-252, from "end = in + count".  The cases test for the end
    only after packing an item, so that no item at all runs through the end of
    the input and fails the assertion of line 247: [None]. *)
Definition pack_tail (b i startBit : N) (s : pst) (vs : list N) : option words :=
  match vs with
  | [] => None
  | _ =>
      let s' := pack_cells b i s vs in
      let count := N.of_nat (length vs) in
      if (count * b + startBit) mod 32 =? 0 then Some (p_mem s')
      else
        let m := mask32 ((count * b + startBit - 1) mod 32 + 1) in
        Some (wset (p_mem s') (p_out s')
                (N.lor (p_packed s') (N.land (p_mem s' (p_out s')) (not32 m))))
  end.

(** PackedArray.c:204-253, __PackedArray_pack_b, and the dispatch of 385-425:
    other widths do nothing.  Simplification: [count + offset] does not reach
    2^32. *)
Definition pa_pack (b : N) (a : words) (off : N) (vs : list N) : option words :=
  if (1 <=? b) && (b <=? 32) then
    let w := off * b / 32 in
    let startBit := (off * b) mod 32 in
    let s := PSt w (N.land (a w) (mask32 startBit)) a in
    let i := off mod 32 in
    let count := N.of_nat (length vs) in
    if 32 - i <=? count then
      let n := (count + i) / 32 in
      let first := N.to_nat (32 * n - i) in
      let s' := pack_cells b i s (firstn first vs) in
      if count - (32 * n - i) =? 0 then Some (p_mem s')
      else pack_tail b 0 0 s' (skipn first vs)
    else pack_tail b i startBit s vs
  else Some a.

(** The state of the unpacking loop: the word number [in] points at and the word
    last loaded. *)
Record ust := USt { u_in : N; u_packed : N }.

(** PackedArray.c:173-190, case [i] of the unpacking switch, up to the break
    (the item and the state there) and from it (the load of line 178). *)
Definition unpack_item (b i : N) (a : words) (s : ust) : N * ust :=
  let start := start_bit b i in
  let avail := bits_avail b i in
  if b <=? avail then (N.land (N.shiftr (u_packed s) start) (mask32 b), s)
  else
    let next := a (u_in s + 1) in
    (N.land (N.lor (N.shiftr (u_packed s) start) (shl32 next avail)) (mask32 b), USt (u_in s + 1) next).

Definition unpack_load (b i : N) (a : words) (s : ust) : ust :=
  if (i <? 31) && (b =? bits_avail b i) then USt (u_in s + 1) (a (u_in s + 1)) else s.

(** Consecutive cases without the break, PackedArray.c:269-278; the do loop loads
    a word before case 0 unless the switch jumps past it. *)
Fixpoint unpack_cells (b i : N) (a : words) (s : ust) (n : nat) : list N * ust :=
  match n with
  | O => ([], s)
  | S n' =>
      let (v, s1) := unpack_item b i a s in
      let s2 := unpack_load b i a s1 in
      match n' with
      | O => ([v], s2)
      | S _ =>
          let s3 := if i =? 31 then USt (u_in s2 + 1) (a (u_in s2 + 1)) else s2 in
          let (vs, s4) := unpack_cells b ((i + 1) mod 32) a s3 n' in
          (v :: vs, s4)
      end
  end.

(** Consecutive cases with the break, PackedArray.c:288-297 *)
Fixpoint unpack_tail_cells (b i : N) (a : words) (s : ust) (n : nat) : list N :=
  match n with
  | O => []
  | S n' =>
      let (v, s1) := unpack_item b i a s in
      match n' with
      | O => [v]
      | S _ => v :: unpack_tail_cells b (i + 1) a (unpack_load b i a s1) n'
      end
  end.

Definition unpack_tail (b i : N) (a : words) (s : ust) (n : nat) : option (list N) :=
  match n with O => None | _ => Some (unpack_tail_cells b i a s n) end.

(** PackedArray.c:255-298, __PackedArray_unpack_b, and the dispatch of 427-467.
    A width the dispatch does not know leaves the output as it is: [None]. *)
Definition pa_unpack (b : N) (a : words) (off : N) (count : nat) : option (list N) :=
  if (1 <=? b) && (b <=? 32) then
    let w := off * b / 32 in
    let s := USt w (a w) in
    let i := off mod 32 in
    let cnt := N.of_nat count in
    if 32 - i <=? cnt then
      let n := (cnt + i) / 32 in
      let first := N.to_nat (32 * n - i) in
      let (vs, s') := unpack_cells b i a s first in
      if cnt - (32 * n - i) =? 0 then Some vs
      else
        match unpack_tail b 0 a (USt (u_in s' + 1) (a (u_in s' + 1))) (count - first) with
        | None => None
        | Some r => Some (vs ++ r)
        end
    else unpack_tail b i a s count
  else None.

(** PackedArray.c:469-502, PackedArray_set; the assertion of line 484 is [None]. *)
Definition pa_set (b : N) (a : words) (off v : N) : option words :=
  let w := off * b / 32 in
  let startBit := (off * b) mod 32 in
  let avail := 32 - startBit in
  let mask := mask32 b in
  if N.land (not32 mask) v =? 0 then
    if b <=? avail then
      Some (wset a w (N.lor (N.land (a w) (not32 (shl32 mask startBit))) (shl32 v startBit)))
    else
      let low := shl32 v startBit in
      let high := N.shiftr v avail in
      let a1 := wset a w (N.lor (N.land (a w) (not32 (shl32 mask startBit))) low) in
      Some (wset a1 (w + 1) (N.lor (N.land (a1 (w + 1)) (not32 (N.shiftr mask (32 - startBit)))) high))
  else None.

(** PackedArray.c:504-535, PackedArray_get *)
Definition pa_get (b : N) (a : words) (off : N) : N :=
  let w := off * b / 32 in
  let startBit := (off * b) mod 32 in
  let avail := 32 - startBit in
  let mask := mask32 b in
  if b <=? avail then N.land (N.shiftr (a w) startBit) mask
  else
    let low := N.shiftr (a w) startBit in
    let high := shl32 (a (w + 1)) (32 - startBit) in
    N.lxor low (N.land (N.lxor low high) (shl32 (N.shiftr mask avail) avail)).

(** Bit [n] of the memory *)
Definition bit_of (a : words) (n : N) : bool := N.testbit (a (n / 32)) (n mod 32).
