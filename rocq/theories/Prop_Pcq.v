(** * C36: the completion queue is FIFO and lossless *)

From Coq Require Import List NArith Lia.
From Verif Require Import Pcq PcqProofs.
Import ListNotations.
Local Open Scope N_scope.

(** Capacities for which the 32-bit counters may wrap: divisors of 2^32. *)
Definition good_capacity (n : N) : Prop := 0 < n /\ n < 2 ^ 32 /\ exists c, 2 ^ 32 = c * n.

(** The consumer receives exactly a prefix of the elements in ticket order. *)
Theorem C36_delivered_in_ticket_order : forall A n (q : pcq A),
  good_capacity n -> pcq_reach n q -> exists rest, pq_all q = pq_out q ++ rest.
Proof. intros A n q [H1 [H2 H3]] R. eapply reach_prefix; eauto. Qed.

(** A producer's store never lands on an element that was not consumed. *)
Theorem C36_store_never_overwrites : forall A n (q : pcq A) l1 t e l2,
  good_capacity n -> pcq_reach n q ->
  pq_pending q = l1 ++ (t, e) :: l2 -> pq_elems q (t mod n) = None.
Proof. intros A n q l1 t e l2 [H1 [H2 H3]] R E. eapply store_slot_free; eauto. Qed.

(** Nothing is stuck: once every producer finished its store, a dequeue
    returns the oldest undelivered element; when everything was delivered the
    queue says it is empty. *)
Theorem C36_dequeue_returns_oldest : forall A n (q : pcq A) e rest,
  good_capacity n -> pcq_reach n q -> pq_pending q = [] -> pq_cons q = CIdle ->
  pq_all q = pq_out q ++ e :: rest ->
  exists q1 q2, pcq_step n q q1 /\ pcq_step n q1 q2 /\ pq_out q2 = pq_out q ++ [e].
Proof.
  intros A n q e rest [H1 [H2 H3]] R EP EC EA.
  destruct (dequeue_progress n H1 H2 H3 q e rest R EP EC EA) as [P1 P2].
  eexists. eexists. split; [apply ps_check; auto|]. split.
  - apply ps_take with (e := e); simpl; auto.
  - reflexivity.
Qed.

(** Without the divisibility assumption the property fails: on a queue of
    three slots, the tickets 2^32 - 1 and 0 that follow each other at the
    counter's wrap-around share slot 0, and the second store destroys the first
    element although only two of three slots are in use. *)
Lemma idle_reachable : forall k : N,
  exists q : pcq N, pcq_reach 3 q /\ (forall s, pq_elems q s = None) /\
    pq_head q = k mod 2 ^ 32 /\ pq_tail q = k mod 2 ^ 32 /\ pq_pending q = [] /\
    pq_cons q = CIdle /\ length (pq_all q) = length (pq_out q).
Proof.
  induction k using N.peano_ind.
  - exists pcq_init. repeat split; auto. constructor.
  - destruct IHk as [q [R [E [H [T [P [C L]]]]]]].
    eapply pr_step in R; [|apply ps_reserve with (e := 0); rewrite C, L; lia].
    rewrite P in R. cbn [app] in R.
    eapply pr_step in R; [|apply ps_store with (l1 := []) (l2 := []); reflexivity].
    cbn [pq_elems pq_head pq_tail pq_pending pq_cons pq_all pq_out app] in R.
    assert (NE: pq_head q <> u32_succ (pq_tail q)).
    { rewrite H, T. unfold u32_succ. intros X.
      pose proof (N.mod_lt k (2 ^ 32) ltac:(lia)).
      destruct (N.eq_dec (k mod 2 ^ 32) (2 ^ 32 - 1)) as [Y|Y].
      - rewrite Y in X. vm_compute in X. discriminate.
      - rewrite (N.mod_small (k mod 2 ^ 32 + 1)) in X by lia. lia. }
    eapply pr_step in R; [|apply ps_check; [exact C|exact NE]].
    cbn [pq_elems pq_head pq_tail pq_pending pq_cons pq_all pq_out] in R.
    eapply pr_step in R; [|apply ps_take with (e := 0); [reflexivity|]].
    2:{ cbn [pq_elems pq_head]. unfold slot_set. rewrite H, T, N.eqb_refl. reflexivity. }
    eapply pr_step in R; [|apply ps_advance; reflexivity].
    eexists. split; [exact R|].
    cbn [pq_elems pq_head pq_tail pq_pending pq_cons pq_all pq_out].
    split; [|split; [|split; [|split; [|split]]]]; auto.
    + intros s. unfold slot_set. destruct (s =? pq_head q mod 3) eqn:X; auto.
      rewrite T, <- H, X. apply E.
    + unfold u32_succ. rewrite H, N.add_mod_idemp_l by lia. now rewrite N.add_1_r.
    + unfold u32_succ. rewrite T, N.add_mod_idemp_l by lia. now rewrite N.add_1_r.
    + rewrite !app_length, L. reflexivity.
Qed.

Theorem C36_wraparound_refuted :
  exists n (q : pcq N) t e l2, 0 < n /\ n < 2 ^ 32 /\ pcq_reach n q /\
    pq_pending q = (t, e) :: l2 /\ pq_elems q (t mod n) = Some 1 /\
    (exists before, pq_all q = before ++ [1; e] /\ length before = length (pq_out q)).
Proof.
  destruct (idle_reachable (2 ^ 32 - 1)) as [q [R [E [H [T [P [C L]]]]]]].
  eapply pr_step in R; [|apply ps_reserve with (e := 1); rewrite C, L; lia].
  eapply pr_step in R; [|apply ps_reserve with (e := 2);
    cbn [pq_all pq_out pq_cons]; rewrite C, app_length, L; simpl; lia].
  rewrite P, T in R. cbn [app pq_elems pq_head pq_tail pq_pending pq_cons pq_all pq_out] in R.
  eapply pr_step in R; [|apply ps_store with (l1 := []); reflexivity].
  cbn [app pq_elems pq_head pq_tail pq_pending pq_cons pq_all pq_out] in R.
  exists 3. eexists. eexists. eexists. eexists.
  split; [reflexivity|]. split; [reflexivity|]. split; [exact R|].
  split; [reflexivity|]. split.
  - cbn [pq_elems]. unfold slot_set.
    replace (_ =? _) with true by (vm_compute; reflexivity). reflexivity.
  - exists (pq_all q). cbn [pq_all pq_out]. rewrite <- app_assoc. auto.
Qed.

(** Non-vacuity: two producers whose stores complete in the opposite order of
    their tickets, on a queue of two slots. *)
Example C36_example :
  good_capacity 2 /\
  exists q : pcq N, pcq_reach 2 q /\ pq_all q = [7; 8] /\ pq_out q = [7] /\ pq_pending q = [].
Proof.
  split.
  { split; [reflexivity|]. split; [reflexivity|]. exists (2 ^ 31). reflexivity. }
  pose proof (pr_init (A := N) 2) as R.
  eapply pr_step in R; [|apply ps_reserve with (e := 7); vm_compute; reflexivity].
  eapply pr_step in R; [|apply ps_reserve with (e := 8); vm_compute; reflexivity].
  simpl in R.
  eapply pr_step in R; [|apply ps_store with (l1 := [(0, 7)]) (l2 := []) (t := 1) (e := 8); reflexivity].
  eapply pr_step in R; [|apply ps_store with (l1 := []) (l2 := []) (t := 0) (e := 7); reflexivity].
  eapply pr_step in R; [|apply ps_check; [reflexivity|vm_compute; discriminate]].
  eapply pr_step in R; [|apply ps_take with (e := 7); reflexivity].
  eexists. split; [exact R|]. repeat split.
Qed.

Print Assumptions C36_delivered_in_ticket_order.
Print Assumptions C36_store_never_overwrites.
Print Assumptions C36_dequeue_returns_oldest.
Print Assumptions C36_wraparound_refuted.
