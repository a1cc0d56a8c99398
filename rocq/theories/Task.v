(** * Background task groups

    The queue of background tasks of each type and the threads that serve it:
    src/task.c 454-836.

    - every group has a mutex with a condition variable, a doubly linked list
      of tasks, a count of waiting tasks and a count of executing tasks
      (src/task.h 36-64);
    - any number of threads call into the task system from outside; a running
      task may itself enqueue tasks;
    - a section that runs under the group's mutex is one step.  The mutex is
      still a field of the state, because [task_system_is_quiescent] holds the
      mutexes of all groups over several steps;
    - tasks live in a heap of nodes: an access to a freed node and a failing
      [platform_assert] are [Abort].  Allocation takes any free address; that
      it fails, and statistics, are left out;
    - the counters are [nat]: 2^64 tasks would have to be in memory before the
      uint64 counters wrap. *)

From Coq Require Import List Arith Bool.
From Verif Require Import Count.
Import ListNotations.

(** A [task] (src/task.h 17-25): what to run ([n_arg], here the number of the
    call of [task_enqueue] that made it) and the two links. *)
Record node := Nd { n_arg : nat; n_next : option nat; n_prev : option nat }.

(** What happens to one queue; a record kept for the statements only. *)
Inductive op := PushBack (x : nat) | PushFront (x : nat) | Pop (x : nat).

(** [task_group] (src/task.h 36-64).  [q_sleep]: threads blocked in
    [platform_condvar_wait]. *)
Record group := Gr {
  q_head : option nat; q_tail : option nat;
  q_wait : nat; q_exec : nat;
  q_lock : option nat; q_sleep : list nat; q_stop : bool;
  q_hist : list op }.

(** A task being run: its group, address, number, and whether a background
    thread runs it. *)
Record job := Jb { j_grp : nat; j_addr : nat; j_id : nat; j_bg : bool }.

(** Where a thread is.
    - [EnqL]: in [task_enqueue] before the mutex is taken (line 666), with the
      task it is running, if any;
    - [PerfL]: in [task_group_perform_one] before line 723;
    - [Start]/[Run]: before and in the call of the task's function (516);
    - [RanFg]/[FreeFg]: before lines 748 and 749; [FreeBg]: before line 556;
    - [WLoop g fin]: a worker before the mutex is taken, at line 542 or inside
      the wait of line 561 ([fin = false]), or at line 557 ([fin = true]);
    - [XLock]/[XChk]/[XUnl]: the three loops of [task_system_is_quiescent];
    - [StopL]/[Join]: [task_group_stop_and_wait_for_threads];
    - [VWait]: [task_wait_for_completion]. *)
Inductive pc :=
| Out
| EnqL (g : nat) (hd : bool) (a : nat) (k : option job)
| PerfL (g : nat)
| Start (g a : nat) (bg : bool)
| Run (j : job)
| RanFg (g a : nat) | FreeFg (a : nat) | FreeBg (g a : nat)
| WLoop (g : nat) (fin : bool) | WSleep (g : nat) | WDead (g : nat)
| XLock (i : nat) | XChk (i : nat) | XUnl (i : nat) (r : bool)
| StopL (g : nat) | Join (g : nat) (l : list nat)
| VWait (g : nat).

(** [s_calls]: number of calls of [task_enqueue] so far; [s_started] and
    [s_done]: numbers of the tasks whose function was called, and returned. *)
Record state := St {
  s_heap : nat -> option node;
  s_grp : nat -> group;
  s_pc : nat -> pc;
  s_calls : nat;
  s_started : list nat;
  s_done : list nat }.

(** What a thread decides: the caller's choice of operation, the allocator's
    choice of address, the thread woken by a signal. *)
Inductive choice :=
| CEnq (g : nat) (hd : bool) (a : nat)
| CPerf (g : nat) | CQuiesce | CStop (g : nat) | CWait
| CFinish
| CGo (w : nat).

Inductive outcome := Ok (st : state) | Blocked | Abort.

Definition set_pc (st : state) (t : nat) (p : pc) : state :=
  St (s_heap st) (s_grp st) (upd (s_pc st) t p) (s_calls st) (s_started st) (s_done st).
Definition set_grp (st : state) (g : nat) (x : group) : state :=
  St (s_heap st) (upd (s_grp st) g x) (s_pc st) (s_calls st) (s_started st) (s_done st).
Definition set_heap (st : state) (a : nat) (x : option node) : state :=
  St (upd (s_heap st) a x) (s_grp st) (s_pc st) (s_calls st) (s_started st) (s_done st).

(** [task_group_get_next_task] (src/task.c 467-495): [None] when an assertion
    fails or a freed task is read; [Some (None, _)] when no task waits. *)
Definition get_next (heap : nat -> option node) (q : group) : option (option nat * group) :=
  if q_wait q =? 0 then Some (None, q)
  else match q_head q, q_tail q with
  | Some h, Some tl =>
      match heap h with
      | None => None
      | Some nd =>
          let w := q_wait q - 1 in
          let hist := q_hist q ++ [Pop (n_arg nd)] in
          match n_next nd with
          | Some h' => Some (Some h, Gr (Some h') (q_tail q) w (q_exec q) (q_lock q) (q_sleep q) (q_stop q) hist)
          | None =>
              if (tl =? h) && (q_wait q =? 1)
              then Some (Some h, Gr None None w (q_exec q) (q_lock q) (q_sleep q) (q_stop q) hist)
              else None
          end
      end
  | _, _ => None
  end.

(** The part of [task_enqueue] under the mutex, up to the counter
    (src/task.c 672-687), for the new task [x] at address [a]. *)
Definition link (heap : nat -> option node) (q : group) (hd : bool) (a : nat)
  : option ((nat -> option node) * group) :=
  match heap a with
  | None => None
  | Some new =>
    let hist := q_hist q ++ [(if hd then PushFront else PushBack) (n_arg new)] in
    let done h t := Gr h t (q_wait q + 1) (q_exec q) (q_lock q) (q_sleep q) (q_stop q) hist in
    match q_tail q with
    | Some tl =>
        if hd then
          match q_head q with
          | None => None
          | Some h =>
              match heap h with
              | None => None
              | Some hn =>
                  let heap1 := upd heap h (Some (Nd (n_arg hn) (n_next hn) (Some a))) in
                  let heap2 := upd heap1 a (Some (Nd (n_arg new) (Some h) (n_prev new))) in
                  Some (heap2, done (Some a) (Some tl))
              end
          end
        else
          match heap tl with
          | None => None
          | Some tn =>
              let heap1 := upd heap tl (Some (Nd (n_arg tn) (Some a) (n_prev tn))) in
              let heap2 := upd heap1 a (Some (Nd (n_arg new) (n_next new) (Some tl))) in
              Some (heap2, done (q_head q) (Some a))
          end
    | None =>
        match q_head q with
        | Some _ => None
        | None => Some (heap, done (Some a) (Some a))
        end
    end
  end.

Definition add_exec (q : group) : group :=
  Gr (q_head q) (q_tail q) (q_wait q) (q_exec q + 1) (q_lock q) (q_sleep q) (q_stop q) (q_hist q).
(** [__sync_fetch_and_sub] on the count of executing tasks; [None] if it would
    wrap. *)
Definition sub_exec (q : group) : option group :=
  if q_exec q =? 0 then None
  else Some (Gr (q_head q) (q_tail q) (q_wait q) (q_exec q - 1) (q_lock q) (q_sleep q) (q_stop q) (q_hist q)).
Definition set_lock (q : group) (l : option nat) : group :=
  Gr (q_head q) (q_tail q) (q_wait q) (q_exec q) l (q_sleep q) (q_stop q) (q_hist q).
Definition set_sleep (q : group) (l : list nat) : group :=
  Gr (q_head q) (q_tail q) (q_wait q) (q_exec q) (q_lock q) l (q_stop q) (q_hist q).
Definition set_stop (q : group) : group :=
  Gr (q_head q) (q_tail q) (q_wait q) (q_exec q) (q_lock q) [] true (q_hist q).

Definition del (w : nat) (l : list nat) : list nat := filter (fun u => negb (u =? w)) l.
Definition mem (w : nat) (l : list nat) : bool := existsb (Nat.eqb w) l.

(** [platform_condvar_signal]: one sleeper, the scheduler's choice, is woken if
    there is any; [None]: [w] is not a possible choice. *)
Definition signal (pcs : nat -> pc) (g : nat) (q : group) (w : nat) : option ((nat -> pc) * group) :=
  match q_sleep q with
  | [] => Some (pcs, q)
  | _ => if mem w (q_sleep q)
         then Some (upd pcs w (WLoop g false), set_sleep q (del w (q_sleep q)))
         else None
  end.

(** [platform_condvar_broadcast]. *)
Definition wake_all (pcs : nat -> pc) (g : nat) (l : list nat) : nat -> pc :=
  fun u => if mem u l then WLoop g false else pcs u.

Definition free_lock (st : state) (g : nat) : bool :=
  match q_lock (s_grp st g) with None => true | Some _ => false end.

Section Machine.
(** Number of groups ([NUM_TASK_TYPES], minus the invalid type) and the
    background threads of each. *)
Variable G : nat.
Variable workers : nat -> list nat.

(** [task_enqueue], the allocation (src/task.c 654-660). *)
Definition call_enqueue (st : state) (t g : nat) (hd : bool) (a : nat) (k : option job) : outcome :=
  if g <? G then
    match s_heap st a with
    | Some _ => Blocked
    | None =>
        Ok (St (upd (s_heap st) a (Some (Nd (s_calls st) None None))) (s_grp st)
               (upd (s_pc st) t (EnqL g hd a k)) (S (s_calls st)) (s_started st) (s_done st))
    end
  else Blocked.

(** The body of the worker's loop once the mutex is held (src/task.c 545-566);
    after a task it starts with line 559. *)
Definition worker_turn (st : state) (t g : nat) (q : group) : outcome :=
  if q_stop q then Ok (set_pc (set_grp st g q) t (WDead g))
  else match get_next (s_heap st) q with
  | None => Abort
  | Some (Some a, q') => Ok (set_pc (set_grp st g (add_exec q')) t (Start g a true))
  | Some (None, q') => Ok (set_pc (set_grp st g (set_sleep q' (t :: q_sleep q'))) t (WSleep g))
  end.

Definition resume (k : option job) : pc := match k with None => Out | Some j => Run j end.

Definition step (st : state) (t : nat) (c : choice) : outcome :=
  match s_pc st t, c with
  | Out, CEnq g hd a => call_enqueue st t g hd a None
  | Out, CPerf g => if g <? G then Ok (set_pc st t (PerfL g)) else Blocked
  | Out, CQuiesce => Ok (set_pc st t (XLock 0))
  | Out, CStop g => if g <? G then Ok (set_pc st t (StopL g)) else Blocked
  | Out, CWait => Ok (set_pc st t (VWait 0))
  (* a running task enqueues another one, or returns *)
  | Run j, CEnq g hd a => call_enqueue st t g hd a (Some j)
  | Run j, CFinish =>
      Ok (St (s_heap st) (s_grp st)
             (upd (s_pc st) t (if j_bg j then FreeBg (j_grp j) (j_addr j) else RanFg (j_grp j) (j_addr j)))
             (s_calls st) (s_started st) (s_done st ++ [j_id j]))
  (* task_enqueue 666-700 *)
  | EnqL g hd a k, CGo w =>
      if free_lock st g then
        match link (s_heap st) (s_grp st g) hd a with
        | None => Abort
        | Some (heap, q) =>
            match signal (upd (s_pc st) t (resume k)) g q w with
            | None => Blocked
            | Some (pcs, q') =>
                Ok (St heap (upd (s_grp st) g q') pcs (s_calls st) (s_started st) (s_done st))
            end
        end
      else Blocked
  (* task_group_perform_one 723-742; the test of 716-721 is a guess that may
     send the caller away, which is the choice not to come here *)
  | PerfL g, CGo _ =>
      if free_lock st g then
        match get_next (s_heap st) (s_grp st g) with
        | None => Abort
        | Some (Some a, q) => Ok (set_pc (set_grp st g (add_exec q)) t (Start g a false))
        | Some (None, _) => Ok (set_pc st t Out)
        end
      else Blocked
  (* task_group_run_task 516 *)
  | Start g a bg, CGo _ =>
      match s_heap st a with
      | None => Abort
      | Some nd =>
          Ok (St (s_heap st) (s_grp st) (upd (s_pc st) t (Run (Jb g a (n_arg nd) bg)))
                 (s_calls st) (s_started st ++ [n_arg nd]) (s_done st))
      end
  (* task_group_perform_one 748 *)
  | RanFg g a, CGo _ =>
      match sub_exec (s_grp st g) with
      | None => Abort
      | Some q => Ok (set_pc (set_grp st g q) t (FreeFg a))
      end
  (* task_group_perform_one 749 *)
  | FreeFg a, CGo _ =>
      match s_heap st a with
      | None => Abort
      | Some _ => Ok (set_pc (set_heap st a None) t Out)
      end
  (* task_worker_thread 556 *)
  | FreeBg g a, CGo _ =>
      match s_heap st a with
      | None => Abort
      | Some _ => Ok (set_pc (set_heap st a None) t (WLoop g true))
      end
  (* task_worker_thread 542-566 *)
  | WLoop g fin, CGo _ =>
      if free_lock st g then
        if fin then
          match sub_exec (s_grp st g) with
          | None => Abort
          | Some q => worker_turn st t g q
          end
        else worker_turn st t g (s_grp st g)
      else Blocked
  (* a condition variable may wake a thread for no reason *)
  | WSleep g, CGo _ =>
      Ok (set_pc (set_grp st g (set_sleep (s_grp st g) (del t (q_sleep (s_grp st g))))) t (WLoop g false))
  (* task_system_is_quiescent 793-798 *)
  | XLock i, CGo _ =>
      if i <? G then
        if free_lock st i
        then Ok (set_pc (set_grp st i (set_lock (s_grp st i) (Some t))) t (XLock (S i)))
        else Blocked
      else Ok (set_pc st t (XChk 0))
  (* task_system_is_quiescent 800-809 *)
  | XChk i, CGo _ =>
      if i <? G then
        if (q_exec (s_grp st i) =? 0) && (q_wait (s_grp st i) =? 0)
        then Ok (set_pc st t (XChk (S i)))
        else Ok (set_pc st t (XUnl 0 false))
      else Ok (set_pc st t (XUnl 0 true))
  (* task_system_is_quiescent 811-817 *)
  | XUnl i r, CGo _ =>
      if i <? G then Ok (set_pc (set_grp st i (set_lock (s_grp st i) None)) t (XUnl (S i) r))
      else Ok (set_pc st t Out)
  (* task_group_stop_and_wait_for_threads 575-588 *)
  | StopL g, CGo _ =>
      if free_lock st g then
        let q := s_grp st g in
        match q_head q, q_tail q, q_wait q with
        | None, None, 0 =>
            Ok (St (s_heap st) (upd (s_grp st) g (set_stop q))
                   (upd (wake_all (s_pc st) g (q_sleep q)) t (Join g (workers g)))
                   (s_calls st) (s_started st) (s_done st))
        | _, _, _ => Abort
        end
      else Blocked
  (* task_group_stop_and_wait_for_threads 591-594 *)
  | Join g [], CGo _ => Ok (set_pc st t Out)
  | Join g (w :: l), CGo _ =>
      match s_pc st w with
      | WDead _ => Ok (set_pc st t (Join g l))
      | _ => Blocked
      end
  (* task_wait_for_completion 986-998 *)
  | VWait g, CGo _ =>
      if g <? G then
        if q_wait (s_grp st g) =? 0 then Ok (set_pc st t (VWait (S g))) else Ok st
      else Ok (set_pc st t Out)
  | _, _ => Blocked
  end.

(** After [task_system_create] (src/task.c 888-943): the workers of each group
    are at the head of their loop. *)
Definition init (st : state) : Prop :=
  (forall a, s_heap st a = None) /\
  (forall g, s_grp st g = Gr None None 0 0 None [] false []) /\
  (forall g t, g < G -> In t (workers g) -> s_pc st t = WLoop g false) /\
  (forall t, (forall g, g < G -> ~ In t (workers g)) -> s_pc st t = Out) /\
  s_calls st = 0 /\ s_started st = [] /\ s_done st = [].

Inductive reach : state -> Prop :=
| reach_init : forall st, init st -> reach st
| reach_step : forall st t c st', reach st -> step st t c = Ok st' -> reach st'.

(** A run by a list of (thread, choice); steps that are blocked are skipped. *)
Fixpoint run (sched : list (nat * choice)) (st : state) : outcome :=
  match sched with
  | [] => Ok st
  | (t, c) :: rest =>
      match step st t c with
      | Ok st' => run rest st'
      | Blocked => run rest st
      | Abort => Abort
      end
  end.

End Machine.
