(** * Hex encoding into a bounded buffer

    /repo/src/util.c:300-353.  Definitions only. *)

From Coq Require Import List NArith Bool.
Import ListNotations.
Local Open Scope N_scope.

(** util.c:300-315: '0'..'9' then 'a'..'f'; index below 16 *)
Definition table (i : N) : N := if i <? 10 then 48 + i else 87 + i.

(** Store into the buffer; [None] is a write outside it. *)
Fixpoint store (l : list N) (i : nat) (v : N) : option (list N) :=
  match l, i with
  | [], _ => None
  | _ :: r, O => Some (v :: r)
  | x :: r, S i' => option_map (cons x) (store r i' v)
  end.

Definition bind {A B} (o : option A) (f : A -> option B) : option B :=
  match o with Some a => f a | None => None end.

(** util.c:340-350: the loop at position [dp].  The int counters do not
    overflow for data below 2^30 bytes. *)
Fixpoint hex_loop (dst : list N) (max_len dp : nat) (data : list N) : option (list N) :=
  match data with
  | [] => Some dst
  | x :: data' =>
      if Nat.leb (max_len - 1) dp then Some dst
      else bind (store dst dp (table (N.shiftr (N.land x 0xF0) 4))) (fun d1 =>
           bind (store d1 (dp + 1) (table (N.land x 0x0F))) (fun d2 =>
           hex_loop d2 max_len (dp + 2) data'))
  end.

(** util.c:317-353, debug_hex_encode; dst_len is the length of [dst]. *)
Definition debug_hex_encode (dst data : list N) : option (list N) :=
  let dst_len := length dst in
  if Nat.eqb dst_len 0 then Some dst
  else
    let full := (2 + 2 * length data + 1)%nat in
    let max_len := if Nat.ltb dst_len full then dst_len else full in
    let body :=
      if Nat.eqb max_len 1 then Some dst
      else bind (store dst 0 48) (fun d0 =>
           bind (store d0 1 120) (fun d1 =>
           hex_loop d1 max_len 2 data)) in
    bind body (fun d => store d (max_len - 1) 0).
