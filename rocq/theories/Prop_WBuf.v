(** * C30: lookup results obey their buffer contract *)

From Coq Require Import List NArith Arith Bool Lia.
From Verif Require Import Base WBuf WBufProofs.
Import ListNotations.
Local Open Scope N_scope.

(** Run a list of operations; [None] is undefined behaviour or an abort. *)
Fixpoint acc_run (h : heap) (a : macc) (os : list acc_op) : option (heap * macc) :=
  match os with
  | [] => Some (h, a)
  | o :: os' => match acc_step h a o with
                | None => None
                | Some (h1, a1, _) => acc_run h1 a1 os'
                end
  end.

(** The value a reader of the accumulator sees. *)
Definition contents (h : heap) (a : macc) : option bytes := wb_to_slice h (ma_data a).

(** The engine's and the callbacks' side of the contract: representable sizes,
    and direct stores only below the current length. *)
Definition respects (old : option bytes) (o : acc_op) : Prop :=
  match o with
  | ACopy m _ _ => blen (m_data m) < 2 ^ 64 - 1
  | AResize n _ _ => n < 2 ^ 64 - 1
  | AWrite off src => match old with Some b => off + blen src <= blen b | None => False end
  | _ => True
  end.

Fixpoint respects_all (h : heap) (a : macc) (os : list acc_op) : Prop :=
  match os with
  | [] => True
  | o :: os' => respects (contents h a) o /\
      match acc_step h a o with
      | None => True
      | Some (h1, a1, _) => respects_all h1 a1 os'
      end
  end.

(** The caller's memory: [ub] points to a block of at least [L] bytes. *)
Definition caller_ok (h0 : heap) (ub : option nat) (L : N) : Prop :=
  (forall j, (h_next h0 <= j)%nat -> h_blocks h0 j = None) /\
  match ub with
  | None => L = 0
  | Some u => exists l, h_blocks h0 u = Some l /\ L <= blen l
  end.

Lemma run_inv : forall h0 ub L os h a, caller_ok h0 ub L ->
  inv h0 ub L h (ma_data a) -> respects_all h a os ->
  exists h' a', acc_run h a os = Some (h', a') /\ inv h0 ub L h' (ma_data a').
Proof.
  intros h0 ub L os. induction os as [|o os IH]; intros h a C I R; cbn [acc_run].
  - eauto.
  - destruct C as [C1 C2]. destruct R as [R1 R2].
    destruct (acc_step_spec h0 ub L C1 C2 h a o I R1) as [h1 [a1 [r [E [I1 _]]]]].
    rewrite E in *. apply IH; auto. split; auto.
Qed.

(** Memory safety over any number of lookups on one result object, with any
    allocation failures: no undefined behaviour; the caller's buffer stays
    allocated and is never written past its length; no other block is
    touched; and deinit frees every block the object ever allocated. *)
Theorem C30_buffers_safe : forall h0 ub L os,
  caller_ok h0 ub L -> respects_all h0 (lookup_result_init ub L) os ->
  exists h a, acc_run h0 (lookup_result_init ub L) os = Some (h, a) /\
    (forall u, ub = Some u -> exists l l0, h_blocks h u = Some l /\ h_blocks h0 u = Some l0 /\
        blen l = blen l0 /\ skipn (N.to_nat L) l = skipn (N.to_nat L) l0) /\
    (forall j, (j < h_next h0)%nat -> Some j <> ub -> h_blocks h j = h_blocks h0 j) /\
    exists h' a', lookup_result_deinit h a = Some (h', a') /\
      (forall j, Some j <> ub -> h_blocks h' j = h_blocks h0 j) /\
      (forall u, ub = Some u -> h_blocks h' u = h_blocks h u).
Proof.
  intros h0 ub L os C R.
  destruct (run_inv h0 ub L os h0 (lookup_result_init ub L) C) as [h [a [E I]]]; auto.
  { destruct C. apply inv_init; auto. }
  exists h, a. split; auto. split; [|split].
  - apply I.
  - apply I.
  - destruct C. eapply deinit_spec; eauto.
Qed.

(** The value read back: after any history, a successful copy of a message
    leaves exactly its bytes; setting to null makes the key "not found"; a
    copy whose allocation succeeds does succeed; a failed one changes nothing. *)
Theorem C30_value_exact : forall h0 ub L os m ok junk h a,
  caller_ok h0 ub L -> respects_all h0 (lookup_result_init ub L) os ->
  acc_run h0 (lookup_result_init ub L) os = Some (h, a) ->
  blen (m_data m) < 2 ^ 64 - 1 ->
  (exists h1 a1 r, acc_step h a (ACopy m ok junk) = Some (h1, a1, r) /\
     (ok = true -> r = true) /\
     (r = true -> ma_type a1 = Some (m_class m) /\ lookup_found a1 = true /\
                  lookup_result_value h1 a1 = inr (Some (m_data m))) /\
     (r = false -> h1 = h /\ a1 = a)) /\
  (exists h1 a1, acc_step h a ASetNull = Some (h1, a1, true) /\
     lookup_found a1 = false /\ lookup_result_value h1 a1 = inl tt).
Proof.
  intros h0 ub L os m ok junk h a C R E B.
  destruct (run_inv h0 ub L os h0 (lookup_result_init ub L) C) as [h' [a' [E' I]]]; auto.
  { destruct C. apply inv_init; auto. }
  rewrite E in E'. inversion E'; subst h' a'. destruct C as [C1 C2]. split.
  - destruct (acc_step_spec h0 ub L C1 C2 h a (ACopy m ok junk) I B) as [h1 [a1 [r [S [I1 [A [F G]]]]]]].
    exists h1, a1, r. split; auto. split; auto. split; auto.
    intros ->. specialize (F eq_refl). simpl in F.
    assert (FD: lookup_found a1 = true).
    { unfold lookup_found. unfold content, wb_to_slice in F. destruct (wb_length (ma_data a1)); auto.
      discriminate. }
    split; [|split]; auto.
    + cbn [acc_step] in S. destruct (wb_copy_slice h (ma_data a) (m_data m) ok junk) as [[[? ?] [|]]|];
        inversion S; subst; reflexivity.
    + unfold lookup_result_value. rewrite FD. f_equal. exact F.
  - exists h, (Macc None (wb_set_to_null (ma_data a))). repeat split.
Qed.

(** Every single operation has the effect of the same operation on a plain
    byte string. *)
Theorem C30_operations_exact : forall h0 ub L os o h a,
  caller_ok h0 ub L -> respects_all h0 (lookup_result_init ub L) os ->
  acc_run h0 (lookup_result_init ub L) os = Some (h, a) -> respects (contents h a) o ->
  exists h1 a1 r, acc_step h a o = Some (h1, a1, r) /\
    (r = true ->
     match o with
     | ASetNull => contents h1 a1 = None
     | ACopy m _ _ => contents h1 a1 = Some (m_data m)
     | AResize n _ _ => exists b, contents h1 a1 = Some b /\ blen b = n /\
         forall b0 k, contents h a = Some b0 -> k <= n -> k <= blen b0 ->
           firstn (N.to_nat k) b = firstn (N.to_nat k) b0
     | AWrite off src => exists b, contents h a = Some b /\
         contents h1 a1 = Some (firstn (N.to_nat off) b ++ src ++ skipn (N.to_nat (off + blen src)) b)
     | ASetClass _ => contents h1 a1 = contents h a
     end) /\
    (r = false -> h1 = h /\ a1 = a).
Proof.
  intros h0 ub L os o h a C R E RO.
  destruct (run_inv h0 ub L os h0 (lookup_result_init ub L) C) as [h' [a' [E' I]]]; auto.
  { destruct C. apply inv_init; auto. }
  rewrite E in E'. inversion E'; subst h' a'. destruct C as [C1 C2].
  destruct (acc_step_spec h0 ub L C1 C2 h a o I RO) as [h1 [a1 [r [S [I1 [A [F G]]]]]]].
  exists h1, a1, r. split; auto. split; auto. intros Hr. specialize (F Hr).
  destruct o; auto. simpl in F, RO. change (content h a) with (contents h a) in F.
  destruct (contents h a) as [b|] eqn:EB; [|contradiction].
  exists b. split; auto. change (content h1 a1) with (contents h1 a1) in F. rewrite F.
  unfold splice. destruct (N.leb_spec (off + blen src) (blen b)); [auto|lia].
Qed.

(** The contract ends with deinit: deinit clears the pointer but not the
    capacity, so a further lookup without init stores through NULL. *)
Theorem C30_use_after_deinit_refuted :
  exists h0 ub L h a, caller_ok h0 ub L /\
    lookup_result_deinit h0 (lookup_result_init ub L) = Some (h, a) /\
    acc_step h a (ACopy (Msg MInsert [7]) true []) = None.
Proof.
  exists (Heap (fun j => if Nat.eqb j 0 then Some [1;2;3] else None) 1), (Some 0%nat), 3.
  eexists. eexists. split; [|split; [reflexivity|reflexivity]].
  split.
  - intros j H. simpl in *. destruct (Nat.eqb_spec j 0); [lia|auto].
  - exists [1;2;3]. split; [reflexivity|vm_compute; congruence].
Qed.

(** Non-vacuity: a three-byte caller buffer, a short value, a failed
    allocation for a long one, then the long one. *)
Example C30_example :
  let h0 := Heap (fun j => if Nat.eqb j 0 then Some [1;2;3] else None) 1 in
  let os := [ASetNull; ACopy (Msg MInsert [7;8]) true []; ASetNull;
             ACopy (Msg MInsert [4;5;6;7]) false []; ACopy (Msg MInsert [4;5;6;7]) true [];
             AWrite 1 [9]] in
  caller_ok h0 (Some 0%nat) 3 /\ respects_all h0 (lookup_result_init (Some 0%nat) 3) os /\
  option_map (fun p => contents (fst p) (snd p)) (acc_run h0 (lookup_result_init (Some 0%nat) 3) os)
    = Some (Some [4;9;6;7]).
Proof.
  cbv zeta. split; [split|].
  - intros j H. simpl in *. destruct (Nat.eqb_spec j 0); [lia|auto].
  - exists [1;2;3]. split; [reflexivity|vm_compute; congruence].
  - split; [|vm_compute; reflexivity].
    vm_compute. repeat split; try congruence.
Qed.

Print Assumptions C30_buffers_safe.
Print Assumptions C30_value_exact.
Print Assumptions C30_operations_exact.
Print Assumptions C30_use_after_deinit_refuted.
