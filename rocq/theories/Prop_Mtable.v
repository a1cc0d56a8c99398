(** * Properties of memtable rotation and incorporation: C19, C20, C26, C01 *)

From Coq Require Import List Arith NArith Bool Lia.
From Verif Require Import Base Spec Spec_Merge Spec_Linear Witness Mtable MtableInv MtableProofs MtableKeep MtableSlot MtableHist MtableLive MtableLin.
Import ListNotations.
Local Open Scope N_scope.

(** ** Schedules for the examples *)
Local Open Scope nat_scope.
(** a whole insert; an insert that finds its memtable full and rotates first *)
Definition ins (t : nat) (w : write) : list (nat * choice) := (t, Begin_insert w) :: repeat (t, Go false) 6.
Definition rot (t : nat) (w : write) : list (nat * choice) := (t, Begin_insert w) :: repeat (t, Go true) 10 ++ repeat (t, Go false) 6.
Definition steps (t n : nat) : list (nat * choice) := repeat (t, Go false) n.
Definition wi (k v : N) : write := ([k], Msg MInsert [v]).
Definition wd (k : N) : write := ([k], Msg MDelete []).
Definition wu (k v : N) : write := ([k], Msg MUpdate [v]).

(** ** C19: incorporation is atomic for readers *)

(** For any number of threads that insert, look up, iterate, compact and
    incorporate, under every schedule, the calls and returns are linearizable:
    there is an order of the writes, which real time allows, such that every
    lookup returns the value that replaying a prefix of them gives, a prefix that
    has all writes returned before the lookup was called and that only grows. *)
Theorem C19_linearizable : forall cfg N o, 2 <= N -> seen_run cfg N o -> linearizable cfg (o_evs o).
Proof. intros cfg N o HN H. eapply seen_linearizable; eauto. Qed.
Print Assumptions C19_linearizable.

(** Three threads: 0 inserts and rotates, 1 flushes, 2 looks up while 1 has built
    the new root and waits for the lookup lock; afterwards 2 looks up again and
    iterates.  Key 1 gets an insert, which is flushed, and an update. *)
Definition flush_run : list (nat * choice) :=
  ins 0 (wi 1 10) ++ ins 0 (wi 2 20) ++ rot 0 (wu 1 11) ++
  (1, Take_task 0) :: steps 1 5 ++                 (* compacted, assigned, new root built *)
  (2, Begin_lookup [1%N]) :: steps 2 3 ++          (* under the lookup lock *)
  ins 0 (wd 2) ++                                  (* a write at the same time *)
  steps 2 8 ++                                     (* the lookup returns *)
  steps 1 5 ++                                     (* switched to the new root; locked *)
  steps 1 6 ++
  (2, Begin_lookup [2%N]) :: steps 2 8 ++
  (2, Begin_lookup [1%N]) :: steps 2 8.
Example C19_example :
  option_map (fun o => (o_evs o, g_ret (o_st o), g_gen (o_st o), g_root (o_st o)))
    (observe_all append_cfg 4 (Obs init [] (fun _ => 0)) flush_run)
  = Some ([Write_call [1%N] (Msg MInsert [10%N]); Write_return 0; Write_call [2%N] (Msg MInsert [20%N]); Write_return 2;
           Write_call [1%N] (Msg MUpdate [11%N]); Write_return 4; Lookup_call [1%N]; Write_call [2%N] (Msg MDelete []); Write_return 7;
           Lookup_return 6 (Some [10%N; 11%N]); Lookup_call [2%N]; Lookup_return 10 None; Lookup_call [1%N];
           Lookup_return 12 (Some [10%N; 11%N])], 1, 1, [wi 1 10; wi 2 20]).
Proof. vm_compute. reflexivity. Qed.

(** ** C20: generations *)

(** No assertion of the modelled code ever fails (except when the database is
    closed, below). *)
Theorem C20_no_abort : forall cfg N st t c, 2 <= N -> reach cfg N st -> step cfg N st t c <> Abort.
Proof. intros cfg N st t c HN R. apply no_abort; auto. apply inv_reach; auto. Qed.
Print Assumptions C20_no_abort.

(** Threads never wait for each other for ever: if any thread is in an operation,
    one such thread can go on. *)
Theorem C20_progress : forall cfg N st t, 2 <= N -> reach cfg N st -> g_pc st t <> Idle ->
  exists u c st', g_pc st u <> Idle /\ step cfg N st u c = Next st'.
Proof. intros cfg N st t HN. apply progress; auto. Qed.
Print Assumptions C20_progress.

(** Generations are retired one at a time, each when it is fully incorporated,
    and never the current one. *)
Theorem C20_in_order : forall cfg N st t c st', 2 <= N -> reach cfg N st -> step cfg N st t c = Next st' ->
  g_ret st' = g_ret st \/
  (g_ret st' = S (g_ret st) /\ g_ret st < g_gen st /\ s_gen (at_gen N st (g_ret st)) = g_ret st /\
   s_st (at_gen N st (g_ret st)) = Incorporated).
Proof. intros cfg N st t c st' HN. apply retired_in_order; auto. Qed.
Print Assumptions C20_in_order.

(** What is in the tree is always a prefix of the writes: the oldest ones. *)
Theorem C20_tree_is_prefix : forall cfg N st, 2 <= N -> reach cfg N st -> exists tail, g_hist st = g_root st ++ tail.
Proof. intros cfg N st HN. apply root_prefix; auto. Qed.
Print Assumptions C20_tree_is_prefix.

(** The content of a memtable changes only by an insert while it is the current
    one, or when it is emptied after its incorporation, and then no iterator
    holds it. *)
Theorem C20_content_kept : forall cfg N st t c st' i, 2 <= N -> reach cfg N st -> step cfg N st t c = Next st' ->
  s_tree (at_gen N st' i) <> s_tree (at_gen N st i) ->
  (s_gen (at_gen N st i) = g_gen st /\ s_st (at_gen N st i) = Ready /\
     exists w, s_tree (at_gen N st' i) = s_tree (at_gen N st i) ++ [w] /\ g_hist st' = g_hist st ++ [w]) \/
  (s_tree (at_gen N st' i) = [] /\ s_gen (at_gen N st i) < g_ret st /\ s_st (at_gen N st i) = Incorporated /\
     forall u, ~ In (s_gen (at_gen N st i)) (helds (g_pc st u))).
Proof. intros cfg N st t c st' i HN. apply content_kept; auto. Qed.
Print Assumptions C20_content_kept.

(** A slot gets its next generation only after the previous one was retired. *)
Theorem C20_slot_reuse : forall cfg N st t c st' i, 2 <= N -> reach cfg N st -> step cfg N st t c = Next st' ->
  s_gen (at_gen N st' i) <> s_gen (at_gen N st i) ->
  s_gen (at_gen N st' i) = s_gen (at_gen N st i) + N /\ s_gen (at_gen N st i) < g_ret st /\
  forall u, ~ In (s_gen (at_gen N st i)) (helds (g_pc st u)).
Proof. intros cfg N st t c st' i HN. apply slot_reuse; auto. Qed.
Print Assumptions C20_slot_reuse.

(** No incorporation is forgotten, in whatever order the compactions finish: once
    no flush is queued or under way, all generations but the current one are in
    the tree, and all writes are in the tree or in the current memtable. *)
Theorem C20_nothing_left : forall cfg N st, 2 <= N -> reach cfg N st ->
  g_tasks st = [] -> (forall t, flushing (g_pc st t) = false) ->
  g_ret st = g_gen st /\ g_inc st = g_gen st /\ g_hist st = g_root st ++ s_tree (at_gen N st (g_gen st)).
Proof. intros cfg N st HN R. apply settled with (cfg := cfg); auto. apply inv_reach; auto. Qed.
Print Assumptions C20_nothing_left.

Lemma exec_reach : forall cfg N l st st', reach cfg N st -> exec cfg N st l = Some st' -> reach cfg N st'.
Proof.
  intros cfg N l. induction l as [|[t c] l IH]; intros st st' R E; cbn in E; [congruence|].
  destruct (step cfg N st t c) as [st1| |] eqn:S; try discriminate E. apply (IH st1); auto. econstructor; eauto.
Qed.

(** Two flushes that finish in the wrong order: 2 compacts generation 1 before 1
    compacts generation 0, leaves it, and 1 incorporates both. *)
Definition reordered : list (nat * choice) :=
  ins 0 (wi 1 10) ++ rot 0 (wi 2 20) ++ rot 0 (wi 3 30) ++
  (2, Take_task 1) :: steps 2 4 ++
  (1, Take_task 0) :: steps 1 4 ++
  steps 1 12 ++ steps 1 12.
Example C20_example : exists st, exec append_cfg 4 init reordered = Some st /\ reach append_cfg 4 st /\
  g_tasks st = [] /\ (forall t, flushing (g_pc st t) = false) /\ g_gen st = 2 /\ g_ret st = 2 /\ g_root st = [wi 1 10; wi 2 20] /\
  s_gen (at_gen 4 st 0) = 4 /\ s_gen (at_gen 4 st 1) = 5.
Proof.
  destruct (exec append_cfg 4 init reordered) as [st|] eqn:E; [|vm_compute in E; discriminate E].
  exists st. split; [reflexivity|]. split; [eapply exec_reach; [constructor|exact E]|].
  vm_compute in E. injection E as <-. cbn. do 6 (try split); auto.
  intros t. do 3 (destruct t as [|t]; [reflexivity|]). reflexivity.
Qed.

(** An open iterator keeps its memtable from being reused: with one on generation
    0, everything retired and three rotations later, the next slot is not ready. *)
Definition blocked : list (nat * choice) :=
  ins 0 (wi 1 10) ++
  (3, Begin_iterator) :: steps 3 5 ++
  rot 0 (wi 2 20) ++ (1, Take_task 0) :: steps 1 13 ++
  rot 0 (wi 3 30) ++ (1, Take_task 0) :: steps 1 16 ++
  rot 0 (wi 4 40) ++ (1, Take_task 0) :: steps 1 16.
Example C20_iterator_blocks : exists st, exec append_cfg 4 init blocked = Some st /\
  g_gen st = 3 /\ g_ret st = 3 /\ g_tasks st = [] /\ g_pc st 0 = Idle /\ g_pc st 1 = Idle /\ g_pc st 3 = RHold [0] /\
  s_st (at_gen 4 st 4) = Incorporated.
Proof. eexists. split; [vm_compute; reflexivity|]. vm_compute. do 6 (try split); reflexivity. Qed.

(** ** C26: closing with a backlog *)

(** Closing a database flushes the current memtable.  memtable_force_finalize does
    not look whether the next slot is free: with as many memtables waiting to be
    flushed as inserts allow, its assertion fails and the process stops, though
    every call has returned and no thread does anything. *)
Theorem C26_close_with_backlog_refuted :
  exists st, reach append_cfg 4 st /\ (forall t, g_pc st t = Idle) /\ g_empty st = false /\ force_finalize 4 st = None.
Proof.
  destruct (exec append_cfg 4 init (ins 0 (wi 1 10) ++ rot 0 (wi 2 20) ++ rot 0 (wi 3 30) ++ rot 0 (wi 4 40))) as [st|] eqn:E;
    [|vm_compute in E; discriminate E].
  exists st. split; [eapply exec_reach; [constructor|exact E]|].
  vm_compute in E. injection E as <-. split; [|split; vm_compute; reflexivity]. intros [|t]; reflexivity.
Qed.
Print Assumptions C26_close_with_backlog_refuted.

(** It succeeds when one fewer memtable waits. *)
Theorem C26_close_finalizes : forall cfg N st, 2 <= N -> reach cfg N st -> (forall t, g_pc st t = Idle) ->
  S (g_gen st) < g_ret st + N ->
  exists st', force_finalize N st = Some st' /\ g_gen st' = S (g_gen st) /\
    s_st (at_gen N st' (g_gen st)) = Finalized /\ g_hist st' = g_hist st.
Proof.
  intros cfg N st HN R P L. pose proof (inv_reach cfg N HN st R) as I. pose proof (v_rg _ _ _ I) as RG.
  pose proof (live_gen cfg N HN st I (g_gen st) ltac:(lia)) as G.
  pose proof (st_at cfg N HN st I (g_gen st)) as S0. unfold st_ok in S0.
  assert (s_st (at_gen N st (g_gen st)) = Ready) as Rd.
  { destruct (s_st (at_gen N st (g_gen st))); auto; exfalso; rewrite G in S0;
      repeat match goal with H : _ /\ _ |- _ => destruct H | H : exists _, _ |- _ => destruct H | H : _ \/ _ |- _ => destruct H end;
      try lia; try congruence.
    destruct (H3 eq_refl) as [t [w [_ Q]]]. rewrite P in Q. discriminate Q. }
  unfold force_finalize. rewrite Rd. cbn [mstate_eqb andb].
  replace (S (S (g_gen st)) - g_ret st <=? N) with true by (symmetry; apply Nat.leb_le; lia).
  eexists. split; [reflexivity|]. repeat split. unfold at_gen, put_slot. cbn. rewrite upd_eq. reflexivity.
Qed.
Print Assumptions C26_close_finalizes.
