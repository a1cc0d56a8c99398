(** * Memtables: rotation, compaction, incorporation, lookups

    /repo/src/memtable.h, /repo/src/memtable.c and the memtable part of
    /repo/src/trunk.c (3274-3332, 3387-3424, 3430-3537, 3546-3586, 3668-3772,
    3781-3798, 3837-3887, 6148-6222, 6940-6972).  Definitions only.

    Any number of threads; one step is one access to shared memory or one
    acquisition or release of a lock.  [N] is TRUNK_NUM_MEMTABLES (4).
    - The two locks of the batch reader/writer lock are taken and released in one
      step: C21 proves that they exclude.  A claim that fails (memtable.c:61) is a
      choice of the schedule.
    - The incorporation mutex protects generation_to_incorporate; a section under
      it is one step (it contains one access to anything else).
    - A memtable's tree is the list of its writes, oldest first; one insert into
      it is one step (C08).  A branch packed from it is the same list (C13).  The
      root of the trunk stands for all writes that have been incorporated; other
      changes of the trunk do not change its content (C16-C18).
    - Whether a memtable is full is a choice of the schedule, but an empty one is
      not (the assertion at trunk.c:3493 needs that; it depends on the
      configuration).
    - Tasks are taken from the queue in any order (C35).
    - generation_retired starts as (uint64)-1 and is kept plus one, so [g_ret] is
      the number of retired generations.
    Fields marked ghost are not in the code. *)

From Coq Require Import List Arith NArith Bool.
From Verif Require Import Base Spec Spec_Merge Spec_Linear.
Import ListNotations.

Definition write := (bytes * message)%type.

(** memtable.h:19-29 *)
Inductive mstate := Ready | Finalized | Compacting | Compacted | Assigned | Incorporating | Incorporated.
Definition mstate_eqb (a b : mstate) : bool :=
  match a, b with
  | Ready, Ready | Finalized, Finalized | Compacting, Compacting | Compacted, Compacted
  | Assigned, Assigned | Incorporating, Incorporating | Incorporated, Incorporated => true
  | _, _ => false
  end.

(** Ghost: who is responsible for the next step of a finalized memtable *)
Inductive token := Nobody | InQueue | Own (t : nat).

(** memtable.h:31-37 *)
Record slot := Slot {
  s_st : mstate; s_gen : nat;
  s_tree : list write; s_refs : nat;
  s_cmt : list write;                  (* trunk: compacted_memtable[].branch *)
  s_tok : token;                       (* ghost *)
  s_base : bool;                       (* ghost: the context's own reference is there *)
  s_holders : list nat;                (* ghost: the threads with a reference *)
  s_rec : option nat                   (* ghost: the thread that recycles it *)
}.
Definition set_st v s := Slot v (s_gen s) (s_tree s) (s_refs s) (s_cmt s) (s_tok s) (s_base s) (s_holders s) (s_rec s).
Definition set_gen v s := Slot (s_st s) v (s_tree s) (s_refs s) (s_cmt s) (s_tok s) (s_base s) (s_holders s) (s_rec s).
Definition set_tree v s := Slot (s_st s) (s_gen s) v (s_refs s) (s_cmt s) (s_tok s) (s_base s) (s_holders s) (s_rec s).
Definition set_refs v s := Slot (s_st s) (s_gen s) (s_tree s) v (s_cmt s) (s_tok s) (s_base s) (s_holders s) (s_rec s).
Definition set_cmt v s := Slot (s_st s) (s_gen s) (s_tree s) (s_refs s) v (s_tok s) (s_base s) (s_holders s) (s_rec s).
Definition set_tok v s := Slot (s_st s) (s_gen s) (s_tree s) (s_refs s) (s_cmt s) v (s_base s) (s_holders s) (s_rec s).
Definition set_base v s := Slot (s_st s) (s_gen s) (s_tree s) (s_refs s) (s_cmt s) (s_tok s) v (s_holders s) (s_rec s).
Definition set_holders v s := Slot (s_st s) (s_gen s) (s_tree s) (s_refs s) (s_cmt s) (s_tok s) (s_base s) v (s_rec s).
Definition set_rec v s := Slot (s_st s) (s_gen s) (s_tree s) (s_refs s) (s_cmt s) (s_tok s) (s_base s) (s_holders s) v.

Inductive lock := Readers (l : list nat) | Writer (t : nat).
Definition drop (t : nat) (l : list nat) : list nat := filter (fun x => negb (x =? t)) l.
Definition lock_get (t : nat) (k : lock) : option lock :=
  match k with Readers l => Some (Readers (t :: l)) | Writer _ => None end.
Definition lock_unget (t : nat) (k : lock) : lock :=
  match k with Readers l => Readers (drop t l) | Writer _ => k end.
(** claim and lock by a reader: waits until it is the only one *)
Definition lock_excl (t : nat) (k : lock) : option lock :=
  match k with Readers [x] => if x =? t then Some (Writer t) else None | _ => None end.

(** What a thread goes on with after recycling a memtable *)
Inductive after := AFlush (g : nat) | AIter (held : list nat).

(** Where a thread is.  [g]: a generation; [w]: the write of an insert; [nr]: the
    new root being built; [k]: the key of a lookup; [n0] (ghost): the number of
    writes when the lookup began; [j]: one more than the next generation to look
    at; [seen]: the writes found so far. *)
Inductive pc :=
| Idle
| I0 (w : write) | I1 (w : write) | I2 (w : write) (g : nat) | I3 (w : write) (g : nat) | I4 (w : write) (g : nat)
| I5 (w : write) (g : nat) | I6 (w : write) (g : nat) | I7 (w : write) (g : nat) | I8 (w : write) (g : nat)
| I9 (w : write) (g : nat) | I10 (w : write) (g : nat) | I11
| F0 (g : nat) | F1 (g : nat) | F2 (g : nat) | F3 (g : nat)
| F5 (g : nat) | F6 (g : nat) (nr : list write) | F7 (g : nat) (nr : list write) | F8 (g : nat) (nr : list write)
| F9 (g : nat) (nr : list write) | F10 (g : nat) (nr : list write) | F11 (g : nat) | F12 (g : nat) | F13 (g : nat)
| Q1 (g : nat) (a : after) | Q2 (g : nat) (a : after) | Q3 (g : nat) (a : after)
| L1 (k : bytes) (n0 : nat) | L2 (k : bytes) (n0 gs : nat) | L3 (k : bytes) (n0 j : nat) (seen : list write)
| L4 (k : bytes) (n0 j : nat) (seen : list write) | L5 (k : bytes) (n0 j : nat) (seen : list write) (compacted : bool)
| L6 (k : bytes) (n0 : nat) (seen : list write) | LDone (k : bytes) (n0 : nat) (v : option bytes)
| R1 | R2 (gs : nat) | R3 (j : nat) (held : list nat) | R4 (j : nat) (held : list nat) | RHold (held : list nat).

Record state := St {
  g_gen : nat; g_inc : nat; g_ret : nat;         (* memtable.h:122-132 *)
  g_empty : bool;                                (* is_empty *)
  g_ilock : lock; g_llock : lock;                (* insert and lookup lock *)
  g_slots : nat -> slot;                         (* mt[] *)
  g_root : list write;
  g_tasks : list nat;                            (* queued trunk_memtable_flush_internal *)
  g_incorp : option nat;                         (* ghost: the incorporating thread *)
  g_hist : list write;                           (* ghost: all inserts, in the order they took effect *)
  g_pc : nat -> pc
}.
Definition upd {A} (f : nat -> A) (i : nat) (x : A) : nat -> A := fun j => if j =? i then x else f j.
Definition set_g_gen v st := St v (g_inc st) (g_ret st) (g_empty st) (g_ilock st) (g_llock st) (g_slots st) (g_root st) (g_tasks st) (g_incorp st) (g_hist st) (g_pc st).
Definition set_g_inc v st := St (g_gen st) v (g_ret st) (g_empty st) (g_ilock st) (g_llock st) (g_slots st) (g_root st) (g_tasks st) (g_incorp st) (g_hist st) (g_pc st).
Definition set_g_ret v st := St (g_gen st) (g_inc st) v (g_empty st) (g_ilock st) (g_llock st) (g_slots st) (g_root st) (g_tasks st) (g_incorp st) (g_hist st) (g_pc st).
Definition set_g_empty v st := St (g_gen st) (g_inc st) (g_ret st) v (g_ilock st) (g_llock st) (g_slots st) (g_root st) (g_tasks st) (g_incorp st) (g_hist st) (g_pc st).
Definition set_g_ilock v st := St (g_gen st) (g_inc st) (g_ret st) (g_empty st) v (g_llock st) (g_slots st) (g_root st) (g_tasks st) (g_incorp st) (g_hist st) (g_pc st).
Definition set_g_llock v st := St (g_gen st) (g_inc st) (g_ret st) (g_empty st) (g_ilock st) v (g_slots st) (g_root st) (g_tasks st) (g_incorp st) (g_hist st) (g_pc st).
Definition set_g_slots v st := St (g_gen st) (g_inc st) (g_ret st) (g_empty st) (g_ilock st) (g_llock st) v (g_root st) (g_tasks st) (g_incorp st) (g_hist st) (g_pc st).
Definition set_g_root v st := St (g_gen st) (g_inc st) (g_ret st) (g_empty st) (g_ilock st) (g_llock st) (g_slots st) v (g_tasks st) (g_incorp st) (g_hist st) (g_pc st).
Definition set_g_tasks v st := St (g_gen st) (g_inc st) (g_ret st) (g_empty st) (g_ilock st) (g_llock st) (g_slots st) (g_root st) v (g_incorp st) (g_hist st) (g_pc st).
Definition set_g_incorp v st := St (g_gen st) (g_inc st) (g_ret st) (g_empty st) (g_ilock st) (g_llock st) (g_slots st) (g_root st) (g_tasks st) v (g_hist st) (g_pc st).
Definition set_g_hist v st := St (g_gen st) (g_inc st) (g_ret st) (g_empty st) (g_ilock st) (g_llock st) (g_slots st) (g_root st) (g_tasks st) (g_incorp st) v (g_pc st).
Definition go (t : nat) (p : pc) st := St (g_gen st) (g_inc st) (g_ret st) (g_empty st) (g_ilock st) (g_llock st) (g_slots st) (g_root st) (g_tasks st) (g_incorp st) (g_hist st) (upd (g_pc st) t p).

(** A step succeeds, has to wait, or fails an assertion. *)
Inductive outcome := Next (st : state) | Wait | Abort.
(** Choices: what an idle thread begins; whether the memtable is full; whether the
    claim succeeds; whether the lookup stops as soon as it may. *)
Inductive choice := Begin_insert (w : write) | Begin_lookup (k : bytes) | Begin_iterator | Take_task (i : nat) | Go (b : bool).

Section Memtable.
Variable cfg : data_config.
Variable N : nat.

Definition at_gen (st : state) (g : nat) : slot := g_slots st (g mod N).
Definition put_slot (st : state) (g : nat) (s : slot) : state := set_g_slots (upd (g_slots st) (g mod N) s) st.
(** trunk.c:3289-3302, trunk_get_memtable: the assertion *)
Definition get_ok (st : state) (g : nat) : bool := s_gen (at_gen st g) =? g.

(** memtable.h:263-275 *)
Definition ok_to_lookup (s : mstate) : bool := match s with Incorporating | Incorporated => false | _ => true end.
Definition ok_to_lookup_compacted (s : mstate) : bool := match s with Compacted | Assigned => true | _ => false end.

(** memtable.h:93-100; trunk_get_memtable first, trunk.c:3437, 3730 *)
Definition transition (st : state) (g : nat) (old new : mstate) (k : slot -> slot) (nx : state -> state) : outcome :=
  if get_ok st g && mstate_eqb (s_st (at_gen st g)) old
  then Next (nx (put_slot st g (k (set_st new (at_gen st g)))))
  else Abort.

(** A lookup may stop once it has seen an insert or a delete of its key. *)
Definition may_stop (k : bytes) (seen : list write) : bool := existsb is_definitive (source_messages k seen).
Definition answer (k : bytes) (seen : list write) : option bytes := replay cfg k (source_messages k seen) None.

Definition resume (t : nat) (a : after) (st : state) : state :=
  match a with AFlush g => go t (F13 g) st | AIter held => go t (RHold held) st end.
(** memtable.c:252-253: drop a reference; the last one recycles *)
Definition dec_ref (st : state) (t g : nat) (k : slot -> slot) (a : after) : outcome :=
  if get_ok st g then
    let s := at_gen st g in
    let s' := k (set_refs (s_refs s - 1) s) in
    match s_refs s with
    | 0 => Abort
    | 1 => if mstate_eqb (s_st s) Incorporated                        (* 254 *)
           then Next (go t (Q1 g a) (put_slot st g (set_rec (Some t) s')))
           else Abort
    | _ => Next (resume t a (put_slot st g s'))
    end
  else Abort.

Definition step (st : state) (t : nat) (c : choice) : outcome :=
  match g_pc st t with
  | Idle =>
      match c with
      | Begin_insert w => Next (go t (I0 w) st)
      | Begin_lookup k =>
          (* trunk.c:6952 *)
          match lock_get t (g_llock st) with
          | Some l => Next (go t (L1 k (length (g_hist st))) (set_g_llock l st))
          | None => Wait
          end
      | Begin_iterator =>
          (* trunk.c:6184 *)
          match lock_get t (g_llock st) with Some l => Next (go t R1 (set_g_llock l st)) | None => Wait end
      | Take_task i =>
          match nth_error (g_tasks st) i with
          | Some g => Next (go t (F0 g) (put_slot (set_g_tasks (firstn i (g_tasks st) ++ skipn (S i) (g_tasks st)) st) g
                                           (set_tok (Own t) (at_gen st g))))
          | None => Wait
          end
      | Go _ => Wait
      end
  (** memtable.c:117-185, memtable_maybe_rotate_and_begin_insert *)
  | I0 w => match lock_get t (g_ilock st) with Some l => Next (go t (I1 w) (set_g_ilock l st)) | None => Wait end
  | I1 w => Next (go t (I2 w (g_gen st)) st)
  | I2 w g =>
      if mstate_eqb (s_st (at_gen st g)) Ready then Next (go t (I3 w g) st)
      else Next (go t (I0 w) (set_g_ilock (lock_unget t (g_ilock st)) st))
  | I3 w g =>
      match c with
      | Go true => match s_tree (at_gen st g) with [] => Wait | _ => Next (go t (I4 w g) st) end
      | Go false => Next (go t (I9 w g) st)
      | _ => Wait
      end
  | I4 w g =>
      if mstate_eqb (s_st (at_gen st (S g))) Ready then Next (go t (I5 w g) st)
      else Next (go t (I0 w) (set_g_ilock (lock_unget t (g_ilock st)) st))     (* STATUS_BUSY, and again *)
  | I5 w g =>
      match c with
      | Go true => match lock_excl t (g_ilock st) with Some l => Next (go t (I6 w g) (set_g_ilock l st)) | None => Wait end
      | Go false => Next (go t (I0 w) (set_g_ilock (lock_unget t (g_ilock st)) st))
      | _ => Wait
      end
  | I6 w g =>
      if mstate_eqb (s_st (at_gen st g)) Ready
      then Next (go t (I7 w g) (put_slot st g (set_tok (Own t) (set_st Finalized (at_gen st g)))))
      else Abort
  | I7 w g =>
      (* 152-169: the counter and its assertions; 171 *)
      let st' := set_g_empty true (set_g_gen (S (g_gen st)) st) in
      if (S (g_gen st') - g_ret st' <=? N) && (S g =? g_gen st') then Next (go t (I8 w g) st') else Abort
  | I8 w g => Next (go t (I10 w g) (set_g_ilock (Readers []) st))
  (** memtable.c:174, trunk.c:3816-3828: the flush is queued *)
  | I10 w g =>
      if get_ok st g && negb (mstate_eqb (s_st (at_gen st g)) Ready)
      then Next (go t (I0 w) (put_slot (set_g_tasks (g_tasks st ++ [g]) st) g (set_tok InQueue (at_gen st g))))
      else Abort
  (** trunk.c:3404-3424, memtable.c:205-241; is_empty is cleared by every insert
      here, by the inserts of a new key in the code *)
  | I9 w g =>
      if get_ok st g
      then Next (go t I11 (set_g_hist (g_hist st ++ [w]) (put_slot st g (set_tree (s_tree (at_gen st g) ++ [w]) (at_gen st g)))))
      else Abort
  | I11 => Next (go t Idle (set_g_ilock (lock_unget t (g_ilock st)) (set_g_empty false st)))
  (** trunk.c:3430-3537 *)
  | F0 g => transition st g Finalized Compacting (fun s => s) (go t (F1 g))
  | F1 g =>
      let s := at_gen st g in
      match s_tree s with
      | [] => Abort                                                              (* 3493 *)
      | _ => Next (go t (F2 g) (put_slot st g (set_cmt (s_tree s) s)))
      end
  | F2 g => transition st g Compacting Compacted (fun s => s) (go t (F3 g))
  (** trunk.c:3546-3565, trunk_try_start_incorporate *)
  | F3 g =>
      let s := at_gen st g in
      if negb (get_ok st g) || negb (g =? g_inc st)
      then Next (go t Idle (if get_ok st g && mstate_eqb (s_st s) Compacted then put_slot st g (set_tok Nobody s) else st))
      else if mstate_eqb (s_st s) Compacted
      then Next (go t (F5 g) (set_g_incorp (Some t) (put_slot st g (set_tok Nobody (set_st Assigned s)))))
      else Next (go t Idle st)
  (** trunk.c:3668-3772 *)
  | F5 g => if get_ok st g && negb (mstate_eqb (s_st (at_gen st g)) Ready)
            then Next (go t (F6 g (g_root st ++ s_cmt (at_gen st g))) st) else Abort
  | F6 g nr => match g_llock st with Readers [] => Next (go t (F7 g nr) (set_g_llock (Writer t) st)) | _ => Wait end
  | F7 g nr => transition st g Assigned Incorporating (fun s => s) (go t (F8 g nr))
  | F8 g nr => transition st g Incorporating Incorporated (fun s => s) (go t (F9 g nr))
  | F9 g nr => if g_ret st =? g then Next (go t (F10 g nr) (set_g_ret (S (g_ret st)) st)) else Abort
  | F10 g nr => Next (go t (F11 g) (set_g_root nr st))
  | F11 g => Next (go t (F12 g) (set_g_llock (Readers []) st))
  | F12 g => dec_ref st t g (set_base false) (AFlush g)
  (** memtable.c:255-260 *)
  | Q1 g a => Next (go t (Q2 g a) (put_slot st g (set_base true (set_refs 1 (set_tree [] (at_gen st g))))))
  | Q2 g a => Next (go t (Q3 g a) (put_slot st g (set_gen (s_gen (at_gen st g) + N) (at_gen st g))))
  | Q3 g a =>
      if mstate_eqb (s_st (at_gen st g)) Incorporated
      then Next (resume t a (put_slot st g (set_rec None (set_st Ready (at_gen st g))))) else Abort
  (** trunk.c:3567-3586, trunk_try_continue_incorporate for the next generation *)
  | F13 g =>
      let g' := S g in
      let s := at_gen st g' in
      if negb (get_ok st g') then Next (go t Idle (set_g_incorp None st))
      else if g_inc st + 1 =? g' then
        let st' := set_g_inc (g_inc st + 1) st in
        if mstate_eqb (s_st s) Compacted
        then Next (go t (F5 g') (put_slot st' g' (set_tok Nobody (set_st Assigned s))))
        else Next (go t Idle (set_g_incorp None st'))
      else Abort
  (** trunk.c:6940-6972 *)
  | L1 k n0 => Next (go t (L2 k n0 (g_gen st)) st)
  | L2 k n0 gs => if S gs - g_ret st <=? N then Next (go t (L3 k n0 (S gs) []) st) else Abort
  | L3 k n0 j seen =>
      if j =? g_ret st then
        (* 6968-6972: no memtables left; the root *)
        Next (go t (L6 k n0 (g_root st ++ seen)) st)
      else if match c with Go b => b | _ => false end && may_stop k seen then
        Next (go t (LDone k n0 (answer k seen)) (set_g_llock (lock_unget t (g_llock st)) st))
      else if get_ok st (j - 1) && ok_to_lookup (s_st (at_gen st (j - 1))) then Next (go t (L4 k n0 j seen) st)
      else Abort
  (** trunk.c:3837-3855 *)
  | L4 k n0 j seen => Next (go t (L5 k n0 j seen (ok_to_lookup_compacted (s_st (at_gen st (j - 1))))) st)
  | L5 k n0 j seen compacted =>
      let s := at_gen st (j - 1) in
      if compacted && negb (get_ok st (j - 1) && negb (mstate_eqb (s_st s) Ready)) then Abort
      else Next (go t (L3 k n0 (j - 1) ((if compacted then s_cmt s else s_tree s) ++ seen)) st)
  | L6 k n0 seen => Next (go t (LDone k n0 (answer k seen)) (set_g_llock (lock_unget t (g_llock st)) st))
  | LDone _ _ _ => Next (go t Idle st)
  (** trunk.c:6184-6222: a range iterator takes a reference to every memtable that
      is not compacted, holds them as long as it likes, and drops them one by one *)
  | R1 => Next (go t (R2 (g_gen st)) st)
  | R2 gs => Next (go t (R3 (S gs) []) st)
  | R3 j held =>
      if j =? g_ret st then Next (go t (RHold held) (set_g_llock (lock_unget t (g_llock st)) st))
      else if get_ok st (j - 1) && ok_to_lookup (s_st (at_gen st (j - 1))) then
        if ok_to_lookup_compacted (s_st (at_gen st (j - 1))) then Next (go t (R3 (j - 1) held) st) else Next (go t (R4 j held) st)
      else Abort
  | R4 j held =>
      if get_ok st (j - 1) then
        let s := at_gen st (j - 1) in
        Next (go t (R3 (j - 1) ((j - 1) :: held)) (put_slot st (j - 1) (set_holders (t :: s_holders s) (set_refs (S (s_refs s)) s))))
      else Abort
  | RHold [] => Next (go t Idle st)
  | RHold (g :: held) => dec_ref st t g (fun s => set_holders (drop t (s_holders s)) s) (AIter held)
  end.

(** memtable.c:283-335 *)
Definition fresh (g : nat) : slot := Slot Ready g [] 1 [] Nobody true [] None.
Definition init : state := St 0 0 0 true (Readers []) (Readers []) fresh [] [] None [] (fun _ => Idle).

(** Runs: any thread may take its next step at any time. *)
Inductive reach : state -> Prop :=
| reach_init : reach init
| reach_step : forall st t c st', reach st -> step st t c = Next st' -> reach st'.

(** memtable.c:265-281, memtable_force_finalize, called when the database is
    closed; the caller is the only one to insert.  The result is the state and
    the generation to flush. *)
Definition force_finalize (st : state) : option state :=
  let g := g_gen st in
  if mstate_eqb (s_st (at_gen st g)) Ready && (S (S g) - g_ret st <=? N)
  then Some (set_g_empty true (set_g_gen (S g) (put_slot st g (set_st Finalized (at_gen st g)))))
  else None.

Fixpoint exec (st : state) (l : list (nat * choice)) : option state :=
  match l with
  | [] => Some st
  | (t, c) :: r => match step st t c with Next st' => exec st' r | _ => None end
  end.

(** The calls and returns that callers see (trunk.c:6731-6779, 6940-7031).
    [o_open t] is the last call of thread [t]. *)
Record obs := Obs { o_st : state; o_evs : list event; o_open : nat -> nat }.
Definition shown (o : obs) (t : nat) (c : choice) : list event :=
  match g_pc (o_st o) t, c with
  | Idle, Begin_insert (k, m) => [Write_call k m]
  | Idle, Begin_lookup k => [Lookup_call k]
  | I11, _ => [Write_return (o_open o t)]
  | LDone _ _ v, _ => [Lookup_return (o_open o t) v]
  | _, _ => []
  end.
Definition observe (o : obs) (t : nat) (c : choice) : option obs :=
  match step (o_st o) t c with
  | Next st' => Some (Obs st' (o_evs o ++ shown o t c)
                        (match g_pc (o_st o) t with Idle => upd (o_open o) t (length (o_evs o)) | _ => o_open o end))
  | _ => None
  end.
Inductive seen_run : obs -> Prop :=
| seen_init : seen_run (Obs init [] (fun _ => 0))
| seen_step : forall o t c o', seen_run o -> observe o t c = Some o' -> seen_run o'.
Fixpoint observe_all (o : obs) (l : list (nat * choice)) : option obs :=
  match l with
  | [] => Some o
  | (t, c) :: r => match observe o t c with Some o' => observe_all o' r | None => None end
  end.
End Memtable.
