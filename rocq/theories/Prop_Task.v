(** * C35: background tasks

    Any number of threads enqueue tasks (at the back, or at the front when they
    are urgent), run them, ask whether all is done, and shut a group down; the
    workers of a group sleep while nothing waits.  Running tasks may enqueue
    further tasks.  Tasks are named by the number of the [task_enqueue] call
    that made them. *)

From Coq Require Import List Arith Bool Lia.
From Verif Require Import Count Task Spec_Queue TaskProofs.
Import ListNotations.

(** No task is started or finished twice; only enqueued tasks are started, only
    started ones finish; and a task goes into one queue once. *)
Theorem C35_at_most_once : forall G workers st, (forall g, NoDup (workers g)) -> reach G workers st ->
  NoDup (s_started st) /\ NoDup (s_done st) /\
  (forall x, In x (s_done st) -> In x (s_started st)) /\
  (forall x, In x (s_started st) -> exists g, In x (popped (q_hist (s_grp st g)))) /\
  (forall g, NoDup (pushed (q_hist (s_grp st g)))) /\
  (forall x g g', In x (pushed (q_hist (s_grp st g))) -> In x (pushed (q_hist (s_grp st g'))) -> g = g') /\
  (forall x g, In x (pushed (q_hist (s_grp st g))) -> x < s_calls st).
Proof.
  intros G workers st ND R. destruct (inv_reach G workers ND st R) as [_ _ _ _ (SS & I4) _].
  repeat split.
  - apply (s_stn SS st I4).
  - apply (s_dnn SS st I4).
  - intros x H. apply (s_dn SS st I4) in H. apply (s_st SS st I4). destruct (SS x); try discriminate; reflexivity.
  - intros x H. apply (s_st SS st I4) in H. destruct (SS x) eqn:E; try discriminate; exists g; apply (s_po SS st I4); rewrite E; reflexivity.
  - apply (s_pun SS st I4).
  - intros x g g' H H'. apply (s_pu SS st I4) in H, H'. congruence.
  - intros x g H. apply (s_pu SS st I4) in H. destruct (le_lt_dec (s_calls st) x) as [L|L]; [|exact L].
    apply (s_none SS st I4) in L. rewrite L in H. discriminate.
Qed.
Print Assumptions C35_at_most_once.

(** Each queue hands its tasks out in order: its history is that of a
    double-ended queue, and if no task was urgent the tasks handed out are the
    first ones enqueued. *)
Theorem C35_in_order : forall G workers st g, (forall g, NoDup (workers g)) -> reach G workers st ->
  queue_history (q_hist (s_grp st g)) /\
  (only_back (q_hist (s_grp st g)) ->
     exists rest, pushed (q_hist (s_grp st g)) = popped (q_hist (s_grp st g)) ++ rest).
Proof.
  intros G workers st g ND R. destruct (inv_reach G workers ND st R) as [_ (A & L & I1) _ _ _ _].
  pose proof (l_h A L st I1 g) as H. split; [eexists; exact H|].
  intros OB. exists (map (arg (s_heap st)) (L g)). rewrite <- (replay_fifo _ _ _ OB H). reflexivity.
Qed.
Print Assumptions C35_in_order.

(** When the test for quiescence is about to answer yes, every task of every
    group that was ever enqueued has finished, and no thread is running one. *)
Theorem C35_quiescent : forall G workers st t c st', (forall g, NoDup (workers g)) -> reach G workers st ->
  step G workers st t c = Ok st' -> s_pc st' t = XUnl 0 true ->
  (forall g x, g < G -> In x (pushed (q_hist (s_grp st g))) -> In x (s_done st)) /\
  (forall u j, s_pc st u = Run j -> G <= j_grp j).
Proof.
  intros G workers st t c st' ND R ST X. destruct (inv_reach G workers ND st R) as [I0 (A & L & I1) (RR & I2) I3 (SS & I4) _].
  assert (P : exists i, G <= i /\ s_pc st t = XChk i).
  { unfold step in ST. destruct (s_pc st t) eqn:E; destruct c; try discriminate ST;
      unfold call_enqueue, worker_turn in ST; cbn beta iota in ST;
      repeat match type of ST with
        | context [if ?b then _ else _] => destruct b eqn:?
        | context [match ?o with _ => _ end] => destruct o eqn:?
        end; try discriminate ST; injection ST as <-; cbn in X; rewrite ?upd_same in X; try discriminate X.
    - match goal with Z : signal _ _ _ _ = Some _ |- _ => apply signal_spec in Z; destruct Z as [(_ & -> & _)|(_ & -> & _)] end;
        unfold upd in X; repeat match type of X with context [?a =? ?b] => destruct (a =? b) end; try discriminate X;
        try (destruct k; discriminate X); try congruence.
    - match goal with Z : (i <? G) = false |- _ => apply Nat.ltb_ge in Z; exists i; auto end.
    - congruence. }
  destruct P as (i & GI & P).
  assert (Z : forall g, g < G -> q_exec (s_grp st g) = 0 /\ q_wait (s_grp st g) = 0).
  { intros g L0. apply (k_chk G st I3 t i g P). lia. }
  assert (NC : forall g u, g < G -> cgrp (s_pc st u) <> Some g).
  { intros g u L0 H. apply (r_in RR st I2) in H. pose proof (r_e RR st I2 g) as E. destruct (Z g L0) as [Z1 _].
    destruct (RR g); [contradiction|]. cbn in E. lia. }
  split.
  - intros g x L0 H. apply (s_pu SS st I4) in H. apply (s_dn SS st I4). destruct (SS x) eqn:E; try discriminate; injection H as ->.
    + exfalso. apply (s_q SS st I4 x g _ (l_h A L st I1 g)) in E. destruct (Z g L0) as [_ Z2].
      rewrite (l_w A L st I1 g) in Z2. destruct (L g); [contradiction | discriminate].
    + exfalso. apply (s_tk SS st I4) in E. apply (NC g t0 L0). destruct (s_pc st t0); try discriminate.
      injection E as -> _. reflexivity.
    + exfalso. apply (s_run SS st I4) in E. apply (NC g t0 L0). destruct (s_pc st t0); try discriminate.
      * destruct k; [|discriminate]. injection E as <- _. reflexivity.
      * injection E as <- _. reflexivity.
    + reflexivity.
  - intros u j H. destruct (le_lt_dec G (j_grp j)) as [L0|L0]; [exact L0|]. exfalso.
    apply (NC (j_grp j) u L0). rewrite H. reflexivity.
Qed.
Print Assumptions C35_quiescent.

(** No assertion fails, no counter wraps and no freed task is touched, except
    that shutting down a group with waiting tasks is refused. *)
Theorem C35_no_abort : forall G workers st t c, (forall g, NoDup (workers g)) -> reach G workers st ->
  (forall g, s_pc st t = StopL g -> q_wait (s_grp st g) = 0) -> step G workers st t c <> Abort.
Proof. intros G workers st t c ND R H. apply no_abort; [apply inv_reach; assumption | exact H]. Qed.
Print Assumptions C35_no_abort.

(** No wake-up is lost: while a worker of the group sleeps, the tasks that wait
    are at most as many as the workers on their way to fetch one. *)
Theorem C35_no_lost_wakeup : forall G workers st g w, (forall g, NoDup (workers g)) -> reach G workers st ->
  g < G -> In w (workers g) -> s_pc st w = WSleep g ->
  q_wait (s_grp st g) <= length (filter (fun t => match s_pc st t with WLoop g' _ => g' =? g | _ => false end) (workers g)).
Proof.
  intros G workers st g w ND R L0 W H. destruct (inv_reach G workers ND st R) as [I0 _ _ _ _ I5].
  apply (w_aw G workers st I5 g L0). apply (z_in st I0) in H. intros X. rewrite X in H. contradiction.
Qed.
Print Assumptions C35_no_lost_wakeup.

(** The mutexes cannot deadlock: while a thread is inside an operation, some
    thread that is inside one can take a step. *)
Theorem C35_no_deadlock : forall G workers st t, (forall g, NoDup (workers g)) -> reach G workers st ->
  inside (s_pc st t) = true -> (forall g, s_pc st t = StopL g -> q_wait (s_grp st g) = 0) ->
  exists u c st', inside (s_pc st u) = true /\ step G workers st u c = Ok st'.
Proof.
  intros G workers st t ND R H1 H2. destruct (progress G workers st t) as (u & X & c & st' & Y); [apply inv_reach; assumption|..]; eauto.
Qed.
Print Assumptions C35_no_deadlock.

(** One thread alone, without background threads, can run all that waits in a
    group. *)
Theorem C35_drain : forall G workers st t g, (forall g, NoDup (workers g)) -> reach G workers st ->
  g < G -> s_pc st t = Out -> q_lock (s_grp st g) = None ->
  exists sched st', (forall e, In e sched -> fst e = t) /\ run G workers sched st = Ok st' /\
    s_pc st' t = Out /\ q_wait (s_grp st' g) = 0 /\
    (forall q x, replay (q_hist (s_grp st g)) [] = Some q -> In x q -> In x (s_done st')).
Proof.
  intros G workers st t g ND R L0 P Q.
  destruct (serve_all G workers ND (q_wait (s_grp st g)) t g st R L0 P Q eq_refl) as (st' & X1 & X2 & X3 & _ & X5).
  exists (serve (q_wait (s_grp st g)) t g), st'. repeat split; try assumption.
  clear. induction (q_wait (s_grp st g)) as [|n IH]; cbn; [contradiction|].
  intros e [<-|[<-|[<-|[<-|[<-|[<-|H]]]]]]; try reflexivity. apply IH. exact H.
Qed.
Print Assumptions C35_drain.

(** ** A run

    Two groups; group 1 has the worker 10.  Thread 0 enqueues tasks 0 and 1 at
    the back and 2 at the front of group 1.  The worker runs task 2, which
    enqueues task 3 in group 0. *)
Definition ws (g : nat) : list nat := if g =? 1 then [10] else [].
Definition st0 : state :=
  St (fun _ => None) (fun _ => Gr None None 0 0 None [] false [])
     (fun t => if t =? 10 then WLoop 1 false else Out) 0 [] [].
Definition go (t n : nat) : list (nat * choice) := repeat (t, CGo 10) n.
Definition enq (t g : nat) (hd : bool) (a : nat) : list (nat * choice) := [(t, CEnq g hd a); (t, CGo 10)].
Definition get (o : outcome) : state := match o with Ok st => st | _ => st0 end.

Lemma ws_nodup : forall g, NoDup (ws g).
Proof. intros g. unfold ws. destruct (g =? 1); repeat constructor; cbn; tauto. Qed.
Lemma st0_init : init 2 ws st0.
Proof.
  unfold init. cbn. repeat split; auto.
  - intros g t L H. unfold ws in H. destruct (Nat.eqb_spec g 1) as [->|]; [|contradiction].
    destruct H as [<-|[]]. reflexivity.
  - intros t H. destruct (Nat.eqb_spec t 10) as [->|]; [|reflexivity]. exfalso. apply (H 1); [lia|]. left. reflexivity.
Qed.

(** The worker sleeps, is woken, and takes the urgent task first; the test for
    quiescence says no while it runs, and yes when all is done. *)
Definition sched1 : list (nat * choice) :=
  go 10 1 ++ enq 0 1 false 100 ++ enq 0 1 false 101 ++ enq 0 1 true 102 ++
  go 10 2 ++ enq 10 0 false 103.
Definition sched2 : list (nat * choice) :=
  (* worker: finish task 2, run 0 and 1; thread 0 runs task 3 *)
  [(10, CFinish)] ++ go 10 3 ++ [(10, CFinish)] ++ go 10 3 ++ [(10, CFinish)] ++ go 10 2 ++
  [(0, CPerf 0)] ++ go 0 2 ++ [(0, CFinish)] ++ go 0 2 ++ [(5, CQuiesce)] ++ go 5 6.

Example C35_example :
  let st1 := get (run 2 ws sched1 st0) in
  let st2 := get (run 2 ws sched2 st1) in
  s_pc st1 10 = Run (Jb 1 102 2 true) /\ s_started st1 = [2] /\ s_done st1 = [] /\
  q_wait (s_grp st1 1) = 2 /\ q_wait (s_grp st1 0) = 1 /\
  s_pc (get (run 2 ws ([(5, CQuiesce)] ++ go 5 4) st1)) 5 = XUnl 0 false /\
  popped (q_hist (s_grp st2 1)) = [2; 0; 1] /\ s_done st2 = [2; 0; 1; 3] /\
  s_pc st2 10 = WSleep 1 /\ s_pc st2 5 = XUnl 0 true /\ s_heap st2 100 = None.
Proof. vm_compute. repeat split. Qed.

(** [task_wait_for_completion] does not wait for tasks that are running: it
    returns here while task 0 runs. *)
Theorem C35_wait_for_completion_refuted :
  ~ (forall G workers st t c st', (forall g, NoDup (workers g)) -> reach G workers st ->
       s_pc st t = VWait G -> step G workers st t c = Ok st' -> s_pc st' t = Out ->
       forall u j, s_pc st u <> Run j).
Proof.
  intros H.
  pose (s := get (run 2 ws (go 10 1 ++ enq 0 1 false 100 ++ go 10 2 ++ [(5, CWait)] ++ go 5 2) st0)).
  apply (H 2 ws s 5 (CGo 0) (set_pc s 5 Out) ws_nodup) with (u := 10) (j := Jb 1 100 0 true).
  - eapply run_reach; [apply reach_init; exact st0_init|].
    assert (E : run 2 ws (go 10 1 ++ enq 0 1 false 100 ++ go 10 2 ++ [(5, CWait)] ++ go 5 2) st0 = Ok s)
      by (vm_compute; reflexivity). exact E.
  - vm_compute. reflexivity.
  - vm_compute. reflexivity.
  - vm_compute. reflexivity.
  - vm_compute. reflexivity.
Qed.
Print Assumptions C35_wait_for_completion_refuted.

(** Shutting a group down only looks at the waiting tasks: a task that is still
    running then may enqueue another one, which no worker will run. *)
Example C35_stop_with_running_task :
  let st := get (run 2 ws (go 10 1 ++ enq 0 1 false 100 ++ go 10 2 ++ [(0, CStop 1)] ++ go 0 1 ++
                           enq 10 1 false 101 ++ [(10, CFinish)] ++ go 10 2 ++ go 0 2) st0) in
  s_pc st 10 = WDead 1 /\ s_pc st 0 = Out /\ q_wait (s_grp st 1) = 1 /\ s_done st = [0] /\
  pushed (q_hist (s_grp st 1)) = [0; 1].
Proof. vm_compute. repeat split. Qed.
