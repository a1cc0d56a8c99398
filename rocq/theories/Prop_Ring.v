(** * C46: circular array indices never collide *)

From Coq Require Import List Arith Lia.
From Verif Require Import Ring RingProofs.
Import ListNotations.

(** Positions are unwrapped numbers; a position lives in slot [x mod cap]. *)

(** Distinct live positions use distinct slots. *)
Theorem C46_slots_distinct : forall cap s x y, 0 < cap ->
  s <= x < s + cap -> s <= y < s + cap -> x mod cap = y mod cap -> x = y.
Proof. apply ring_slot_inj. Qed.

(** Distances and successors computed on slots agree with positions. *)
Theorem C46_arithmetic_agrees : forall cap x y, 0 < cap -> y <= x < y + cap ->
  ring_sub cap (x mod cap) (y mod cap) = x - y /\
  ring_add cap (y mod cap) (x - y) = x mod cap.
Proof.
  intros. split; [now apply ring_sub_abs|].
  rewrite ring_add_abs by auto. f_equal. lia.
Qed.

(** The membership test agrees with the unwrapped interval. *)
Theorem C46_membership_agrees : forall cap x s e, 0 < cap ->
  s <= e < s + cap -> s <= x < s + cap ->
  (ring_in_range cap (x mod cap) (s mod cap) (e mod cap) = true <-> s <= x < e).
Proof.
  intros. rewrite ring_in_range_abs by auto. rewrite Nat.ltb_lt. lia.
Qed.

(** A history of appends, prepends and removals of the oldest entry on a
    circular array holds the same list as a plain list, while it stays below
    the capacity. *)
Inductive rop (A : Type) := RPush (a : A) | RPushFront (a : A) | RPop.
Arguments RPush {A}. Arguments RPushFront {A}. Arguments RPop {A}.

Definition ring_op {A} cap (r : ring A) (o : rop A) : ring A :=
  match o with
  | RPush a => ring_push cap r a
  | RPushFront a => ring_push_front cap r a
  | RPop => ring_pop cap r
  end.

(** Plain-list semantics; [None] when the caller exceeds the capacity or
    removes from an empty array. *)
Definition list_op {A} (cap : nat) (l : list A) (o : rop A) : option (list A) :=
  match o with
  | RPush a => if S (length l) <? cap then Some (l ++ [a]) else None
  | RPushFront a => if S (length l) <? cap then Some (a :: l) else None
  | RPop => match l with [] => None | _ :: l' => Some l' end
  end.

Fixpoint list_ops {A} cap (l : list A) (os : list (rop A)) : option (list A) :=
  match os with
  | [] => Some l
  | o :: os' => match list_op cap l o with Some l' => list_ops cap l' os' | None => None end
  end.

Lemma ring_contents_length : forall A cap (r : ring A),
  length (ring_contents cap r) = ring_count cap r.
Proof. intros. unfold ring_contents. now rewrite map_length, seq_length. Qed.

Theorem C46_circular_array_is_a_list : forall A cap (r : ring A) os l,
  r_start r < cap -> r_end r < cap ->
  list_ops cap (ring_contents cap r) os = Some l ->
  ring_contents cap (fold_left (ring_op cap) os r) = l.
Proof.
  intros A cap r os. revert r. induction os as [|o os IH]; intros r l Hs He H; simpl in *.
  - now inversion H.
  - destruct (list_op cap (ring_contents cap r) o) as [l'|] eqn:E; [|discriminate].
    assert (W: ring_wf cap r) by (split; auto).
    assert (X: ring_wf cap (ring_op cap r o) /\ ring_contents cap (ring_op cap r o) = l').
    { destruct o; simpl in *; try rewrite ring_contents_length in E.
      - destruct (Nat.ltb_spec (S (ring_count cap r)) cap); inversion E; subst.
        destruct (ring_push_spec A cap r a W ltac:(lia)) as [? [? ?]]. auto.
      - destruct (Nat.ltb_spec (S (ring_count cap r)) cap); inversion E; subst.
        destruct (ring_push_front_spec A cap r a W ltac:(lia)) as [? [? ?]]. auto.
      - destruct (ring_contents cap r) eqn:EC; inversion E; subst.
        assert (0 < ring_count cap r) by (rewrite <- ring_contents_length, EC; simpl; lia).
        destruct (ring_pop_spec A cap r W H0) as [? [? C]]. rewrite EC in C. inversion C; auto. }
    destruct X as [[W1 W2] X]. apply IH; auto. now rewrite X.
Qed.

(** Sharpness: filling the array to its capacity makes it look empty, which is
    why the live count must stay strictly below the capacity. *)
Theorem C46_full_ring_looks_empty : forall A cap (r : ring A) v, 0 < cap ->
  r_start r < cap -> r_end r < cap -> ring_count cap r + 1 = cap ->
  ring_contents cap (ring_push cap r v) = [].
Proof.
  intros A cap r v Hc Hs He H. unfold ring_contents, ring_count in *. simpl.
  rewrite ring_sub_small in H by auto.
  assert (E: ring_add cap (r_end r) 1 = r_start r).
  { rewrite ring_add_small by lia.
    destruct (Nat.leb_spec (r_start r) (r_end r)); destruct (Nat.ltb_spec (r_end r + 1) cap); lia. }
  rewrite E. rewrite ring_sub_small by auto. rewrite Nat.leb_refl, Nat.sub_diag. reflexivity.
Qed.

(** Non-vacuity: capacity 4, starting at slot 3, wrapping. *)
Example C46_example :
  let r := Ring (fun _ => 0) 3 3 in
  ring_contents 4 (fold_left (ring_op 4) [RPush 10; RPush 11; RPushFront 9; RPop; RPush 12] r)
    = [10; 11; 12] /\
  list_ops 4 (ring_contents 4 r) [RPush 10; RPush 11; RPushFront 9; RPop; RPush 12]
    = Some [10; 11; 12].
Proof. split; vm_compute; reflexivity. Qed.

Print Assumptions C46_slots_distinct.
Print Assumptions C46_arithmetic_agrees.
Print Assumptions C46_membership_agrees.
Print Assumptions C46_circular_array_is_a_list.
Print Assumptions C46_full_ring_looks_empty.
