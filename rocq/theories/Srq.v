(** * Space reclamation queue

    /repo/src/srq.h.  Definitions only.

    The arrays heap[] and index[] are functions from positions; [srq_num] is
    num_entries.  SRQ_MAX_ENTRIES (srq.h:16, 8192) is the parameter [cap].
    SRQ_INDEX_AVAILABLE (-1) is [None].  The mutex makes each operation atomic,
    so operations are functions on the state. *)

From Coq Require Import List Arith NArith Bool.
Import ListNotations.

(** srq.h:20-25 *)
Record srq_data := SrqData {
  sd_addr : N; sd_generation : N; sd_priority : N; sd_idx : nat
}.

(** srq.h:27-33 *)
Record srq := Srq {
  srq_heap : nat -> srq_data;
  srq_index : nat -> option nat;
  srq_num : nat;
  srq_hand : nat
}.

Definition fupd {A} (f : nat -> A) (i : nat) (v : A) : nat -> A :=
  fun j => if Nat.eqb j i then v else f j.

(** srq.h:35-45, srq_init *)
Definition srq_init : srq :=
  Srq (fun _ => SrqData 0 0 0 0) (fun _ => None) 0 0.

(** srq.h:53-72; for pos = 0, C's (0 - 1) / 2 is 0 as well *)
Definition srq_parent (pos : nat) : nat := (pos - 1) / 2.
Definition srq_lchild (pos : nat) : nat := 2 * pos + 1.
Definition srq_rchild (pos : nat) : nat := 2 * pos + 2.

(** srq.h:77-83 *)
Definition srq_has_priority (q : srq) (l r : nat) : bool :=
  (sd_priority (srq_heap q r) <? sd_priority (srq_heap q l))%N.

(** srq.h:88-94 *)
Definition srq_update_index (q : srq) (pos : nat) : srq :=
  Srq (srq_heap q) (fupd (srq_index q) (sd_idx (srq_heap q pos)) (Some pos))
      (srq_num q) (srq_hand q).

Definition set_heap (q : srq) (pos : nat) (d : srq_data) : srq :=
  Srq (fupd (srq_heap q) pos d) (srq_index q) (srq_num q) (srq_hand q).

Definition set_index (q : srq) (h : nat) (v : option nat) : srq :=
  Srq (srq_heap q) (fupd (srq_index q) h v) (srq_num q) (srq_hand q).

Definition set_num (q : srq) (n : nat) : srq :=
  Srq (srq_heap q) (srq_index q) n (srq_hand q).

Definition set_hand (q : srq) (n : nat) : srq :=
  Srq (srq_heap q) (srq_index q) (srq_num q) n.

(** srq.h:96-106 *)
Definition srq_swap (q : srq) (l r : nat) : srq :=
  let temp := srq_heap q l in
  let q1 := set_heap q l (srq_heap q r) in
  let q2 := set_heap q1 r temp in
  srq_update_index (srq_update_index q2 l) r.

(** srq.h:108-122 *)
Definition srq_move_tail_to_pos (q : srq) (pos : nat) : srq :=
  let tail_pos := srq_num q - 1 in
  let q1 := set_num q (srq_num q - 1) in
  if Nat.eqb (srq_num q1) 0 then q1
  else srq_update_index (set_heap q1 pos (srq_heap q1 tail_pos)) pos.

(** srq.h:124-134.  The loop is a recursion with [fuel]; running out of fuel
    is [None]. *)
Fixpoint srq_rebalance_up (fuel : nat) (q : srq) (pos : nat) : option srq :=
  match fuel with
  | O => None
  | S fuel' =>
      if negb (Nat.eqb pos 0) && srq_has_priority q pos (srq_parent pos)
      then srq_rebalance_up fuel' (srq_swap q (srq_parent pos) pos) (srq_parent pos)
      else Some q
  end.

(** srq.h:136-158 *)
Fixpoint srq_rebalance_down (fuel : nat) (q : srq) (pos : nat) : option srq :=
  match fuel with
  | O => None
  | S fuel' =>
      if ((srq_lchild pos <? srq_num q) && srq_has_priority q (srq_lchild pos) pos)
         || ((srq_rchild pos <? srq_num q) && srq_has_priority q (srq_rchild pos) pos)
      then
        if (srq_num q <=? srq_rchild pos)
           || srq_has_priority q (srq_lchild pos) (srq_rchild pos)
        then srq_rebalance_down fuel' (srq_swap q pos (srq_lchild pos)) (srq_lchild pos)
        else srq_rebalance_down fuel' (srq_swap q pos (srq_rchild pos)) (srq_rchild pos)
      else Some q
  end.

(** srq.h:160-167.  [fuel] steps of the hand; [None] is a loop that does not
    end within them. *)
Fixpoint srq_get_new_index (cap fuel : nat) (q : srq) : option (srq * nat) :=
  match fuel with
  | O => None
  | S fuel' =>
      match srq_index q (srq_hand q) with
      | None => Some (q, srq_hand q)
      | Some _ => srq_get_new_index cap fuel' (set_hand q ((srq_hand q + 1) mod cap))
      end
  end.

(** srq.h:175-190.  [None] is the failed platform_assert (queue full) or a
    loop that does not end. *)
Definition srq_insert (cap : nat) (q : srq) (addr gen prio : N) : option (srq * nat) :=
  if Nat.eqb (srq_num q) cap then None
  else match srq_get_new_index cap cap q with
       | None => None
       | Some (q1, new_idx) =>
           let new_pos := srq_num q1 in
           let q2 := set_num q1 (srq_num q1 + 1) in
           let q3 := set_heap q2 new_pos (SrqData addr gen prio new_idx) in
           let q4 := set_index q3 new_idx (Some new_pos) in
           match srq_rebalance_up (S new_pos) q4 new_pos with
           | Some q5 => Some (q5, new_idx)
           | None => None
           end
       end.

(** srq.h:201-218.  The returned option is [None] for not_found_data. *)
Definition srq_extract_max (q : srq) : option (srq * option srq_data) :=
  if Nat.eqb (srq_num q) 0 then Some (q, None)
  else
    let max := srq_heap q 0 in
    let q1 := set_index q (sd_idx max) None in
    let q2 := srq_move_tail_to_pos q1 0 in
    match srq_rebalance_down (S (srq_num q2)) q2 0 with
    | Some q3 => Some (q3, Some max)
    | None => None
    end.

(** srq.h:220-237.  [None]: failed platform_assert or unfinished loop. *)
Definition srq_delete (q : srq) (idx : nat) : option (srq * srq_data) :=
  match srq_index q idx with
  | None => None
  | Some pos =>
      let deleted_data := srq_heap q pos in
      let q1 := srq_move_tail_to_pos q pos in
      let balanced :=
        if Nat.eqb pos (srq_num q1) then Some q1
        else match srq_rebalance_up (S pos) q1 pos with
             | Some q2 => srq_rebalance_down (S (srq_num q2)) q2 pos
             | None => None
             end in
      match balanced with
      | Some q3 => Some (set_index q3 idx None, deleted_data)
      | None => None
      end
  end.

(** srq.h:239-250.  new_priority is a uint32, so callers' uint64 priorities
    are truncated. *)
Definition srq_update (q : srq) (idx : nat) (new_priority : N) : option srq :=
  match srq_index q idx with
  | None => None
  | Some pos =>
      let d := srq_heap q pos in
      let q1 := set_heap q pos
                  (SrqData (sd_addr d) (sd_generation d) (new_priority mod 2 ^ 32)%N (sd_idx d)) in
      match srq_rebalance_up (S pos) q1 pos with
      | Some q2 => srq_rebalance_down (S (srq_num q2)) q2 pos
      | None => None
      end
  end.
