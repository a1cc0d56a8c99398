(** * Proofs about the batch reader/writer lock *)

From Coq Require Import List NArith Arith Bool Lia.
From Verif Require Import Count Rwlock.
Import ListNotations.

(** Positions at which a thread's own read counter is one. *)
Definition counted (p : rw_pc) : bool :=
  match p with
  | PGetCheck | PGetDec | PShared | PUnget | PClaimTas | PClaimDec | PUnclaimRel => true
  | _ => false
  end.

(** Positions past the admission check of get. *)
Definition reading (p : rw_pc) : bool :=
  match p with
  | PShared | PUnget | PClaimTas | PClaimDec | PUnclaimRel => true
  | _ => false
  end.

Definition claiming (p : rw_pc) : bool :=
  match p with
  | PClaimDec | PClaimed | PLockTas | PLockWait _ | PExcl | PUnlock | PUnclaimInc | PUnclaimRel => true
  | _ => false
  end.

Definition locking (p : rw_pc) : bool :=
  match p with PLockWait _ | PExcl | PUnlock => true | _ => false end.

Record rw_inv (mt : nat) (s : rw) : Prop := {
  ri_cnt : forall t, rw_cnt s t = if counted (rw_pcs s t) then 1%N else 0%N;
  ri_claim1 : forall t, claiming (rw_pcs s t) = true -> rw_claim s = true;
  ri_claim2 : forall t u, claiming (rw_pcs s t) = true -> claiming (rw_pcs s u) = true -> t = u;
  ri_lock1 : forall t, locking (rw_pcs s t) = true -> rw_lock s = true;
  ri_lock2 : rw_lock s = true -> exists t, locking (rw_pcs s t) = true;
  ri_wait : forall t i u, rw_pcs s t = PLockWait i -> u < i -> u < mt -> reading (rw_pcs s u) = false;
  ri_excl : forall t u, (rw_pcs s t = PExcl \/ rw_pcs s t = PUnlock) -> u < mt -> reading (rw_pcs s u) = false
}.

Lemma rw_init_inv : forall mt, rw_inv mt rw_init.
Proof. intros mt. constructor; cbn; try discriminate; try reflexivity; intros; try discriminate. Qed.

Lemma locking_claiming : forall p, locking p = true -> claiming p = true.
Proof. destruct p; cbn; congruence. Qed.

Ltac ucase u t := destruct (Nat.eq_dec u t) as [->|];
  [rewrite ?upd_same in * | rewrite ?upd_other in * by assumption].

Lemma rw_step_inv : forall mt s t r s',
  t < mt -> rw_inv mt s -> rw_step mt s t r = Next s' -> rw_inv mt s'.
Proof.
  intros mt s t r s' Ht I H. destruct I as [I1 I2 I3 I4 I5 I6 I7].
  pose proof (I1 t) as Ct. unfold rw_step in H.
  assert (Hlk : forall u, locking (rw_pcs s u) = true -> rw_lock s = true) by auto.
  destruct (rw_pcs s t) eqn:Ep; cbn [counted] in Ct;
  try (destruct r);
  repeat match type of H with
  | (if ?b then _ else _) = _ => destruct b eqn:?; try discriminate H
  end;
  try (injection H as H; subst s'; unfold rw_set; cbn [rw_lock rw_claim rw_cnt rw_pcs] in * );
  try discriminate H;
  try (constructor; assumption).
  all: constructor; cbn [rw_lock rw_claim rw_cnt rw_pcs].
  (* counters *)
  all: try match goal with
  | |- forall t0, _ = (if counted _ then _ else _) =>
      intro u; ucase u t; [ rewrite ?Ct; try reflexivity | apply I1 ];
      first [ destruct (rw_lock s); cbn; now rewrite Ct | cbn; now rewrite Ct
            | cbn; rewrite I1, Ep; reflexivity | idtac ]
  end.
  (* claim bit *)
  all: try match goal with
  | |- forall t0, claiming _ = true -> true = true => reflexivity
  | |- forall t0, claiming _ = true -> rw_claim _ = true =>
      intros u Hu; ucase u t; [ try destruct (rw_lock s); cbn in Hu; try discriminate Hu;
        apply (I2 t); rewrite Ep; reflexivity | eauto ]
  end.
  (* unique claim *)
  all: try match goal with
  | |- forall t0 u, claiming _ = true -> claiming _ = true -> t0 = u =>
      intros u v Hu Hv; ucase u t; ucase v t; try reflexivity;
      try (apply I3; assumption);
      try (destruct (rw_lock s); cbn in Hu, Hv; discriminate);
      try (cbn in Hu; discriminate); try (cbn in Hv; discriminate);
      try (symmetry; apply I3; [assumption | now rewrite Ep]);
      try (apply I3; [assumption | now rewrite Ep]);
      try (apply I3; [now rewrite Ep | assumption]);
      try (exfalso; match goal with
           | X : claiming (rw_pcs _ ?w) = true |- _ => pose proof (I2 w X); congruence end)
  end.
  (* lock bit *)
  all: try match goal with
  | |- forall t0, locking _ = true -> true = true => reflexivity
  | |- forall t0, locking _ = true -> rw_lock _ = true =>
      intros u Hu; ucase u t; [ try destruct (rw_lock s) eqn:?; cbn in Hu; try discriminate Hu; try reflexivity;
        try (rewrite <- (Hlk t); [congruence | now rewrite Ep]) | eauto ]
  end.
  all: try match goal with
  | |- rw_lock _ = true -> exists t0, _ =>
      intro HL; destruct (I5 HL) as [u Hu]; 
      destruct (Nat.eq_dec u t) as [->|];
      [ rewrite Ep in Hu; cbn in Hu; try discriminate Hu; exists t; rewrite upd_same; reflexivity
      | exists u; rewrite upd_other by assumption; assumption ]
  | |- true = true -> exists t0, _ => intros _; exists t; rewrite upd_same; reflexivity
  end.
  (* waiting scan *)
  all: try match goal with
  | |- forall t0 i u, _ = PLockWait i -> _ =>
      intros w j v Hw Hv Hm; ucase w t; ucase v t;
      try (destruct (rw_lock s) eqn:?; cbn in *; congruence);
      try discriminate; try reflexivity;
      try (injection Hw as <-);
      try (cbn in Hw; discriminate);
      try lia;
      try (eapply I6; eassumption)
  end.
  all: try match goal with
  | |- forall t0 u, _ \/ _ -> _ =>
      intros w v Hw Hm; ucase w t; ucase v t;
      try (destruct Hw as [Hw|Hw]; try discriminate Hw);
      try (destruct (rw_lock s) eqn:?; cbn in *; congruence);
      try reflexivity; try (eapply I7; eauto; fail)
  end.
  all: try (destruct (rw_lock s) eqn:?; reflexivity).
  (* a waiting or exclusive thread w rules out t becoming a reader *)
  all: try match goal with
  | |- reading (if rw_lock _ then _ else _) = false =>
      rewrite (I4 w); [reflexivity | rewrite Hw; reflexivity]
  | |- reading _ = false =>
      exfalso; assert (Hwt : w <> t) by assumption;
      first
      [ assert (X : reading (rw_pcs s t) = false) by (first [eapply I6; eassumption | eapply I7; [left; eassumption | assumption] | eapply I7; [right; eassumption | assumption]]);
        rewrite Ep in X; discriminate X
      | apply Hwt; apply I3; [rewrite Hw; reflexivity | rewrite Ep; reflexivity] ]
  end.
  all: try (intros u Hu; exfalso; ucase u t; [cbn in Hu; discriminate Hu|];
    match goal with N : _ <> _ |- _ => apply N end; apply I3;
    [ try exact Hu; apply locking_claiming; exact Hu | rewrite Ep; reflexivity ]).
  all: try discriminate.
  all: try (intros u Hu; assumption).
  all: match goal with
  | Hv : ?v < S ?i |- reading (rw_pcs _ ?v) = false =>
      destruct (Nat.eq_dec v i) as [->|];
      [ match goal with E : N.eqb _ _ = true |- _ =>
          apply N.eqb_eq in E; rewrite I1 in E; destruct (rw_pcs s i); cbn in *; congruence end
      | eapply (I6 t i v); [exact Ep | lia | assumption] ]
  | _ => eapply (I6 t); [exact Ep | | assumption];
         match goal with E : Nat.ltb _ _ = false |- _ => apply Nat.ltb_ge in E; lia end
  end.
Qed.

Lemma rw_step_no_abort : forall mt s t r, rw_inv mt s -> rw_step mt s t r <> Abort.
Proof.
  intros mt s t r I. unfold rw_step. destruct I as [I1 I2 I3 I4 I5 I6 I7].
  pose proof (I1 t) as Ct.
  destruct (rw_pcs s t) eqn:Ep; cbn [counted] in Ct; try rewrite Ct;
    try discriminate; try (destruct r; discriminate).
  - destruct (rw_claim s); discriminate.
  - destruct r; try discriminate. rewrite (I2 t); [discriminate | now rewrite Ep].
  - destruct (rw_lock s) eqn:El; [|discriminate].
    destruct (I5 eq_refl) as [u Hu]. exfalso.
    assert (t = u). { apply I3; [now rewrite Ep | now apply locking_claiming]. }
    subst u. rewrite Ep in Hu. discriminate.
  - repeat match goal with |- context [if ?b then _ else _] => destruct b end; discriminate.
Qed.

Definition sched_ok (mt : nat) (sched : list (nat * rw_req)) : Prop :=
  Forall (fun p => fst p < mt) sched.

Lemma rw_run_inv : forall mt sched s, sched_ok mt sched -> rw_inv mt s ->
  exists s', rw_run mt s sched = Next s' /\ rw_inv mt s'.
Proof.
  intros mt sched. induction sched as [|[t r] rest IH]; intros s Hs I; cbn.
  - eauto.
  - inversion Hs; subst. destruct (rw_step mt s t r) as [|s1] eqn:E.
    + exfalso. now apply (rw_step_no_abort mt s t r I).
    + apply IH; [assumption|]. eapply rw_step_inv; eauto.
Qed.
