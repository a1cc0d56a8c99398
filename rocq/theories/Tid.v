(** * Thread ids: allocation, registration, deregistration

    /repo/src/task.c:24-135, 208-310, 360-448.  Definitions only.

    Any number of operating-system threads (numbered by [nat]); one step is
    one access to shared memory, except that the steps between a thread's own
    id and scratch slot, which no other thread touches, are taken together.
    [W] is the number of 64-bit words of the bitmask, (MAX_THREADS + 63) / 64;
    MAX_THREADS is 64 (platform.h:73), so MAX_THREADS = 64 * W with W = 1.
    The re-registration of a forked process that inherited thread id 0
    (task.c:369-374) is not modelled: only an unregistered thread registers.
    Memory allocation and thread creation succeed or fail by an oracle. *)

From Coq Require Import List NArith Arith Bool.
From Verif Require Import Count.
Import ListNotations.

(** __builtin_ffsl(w) - 1 for a 64-bit word; [None] for zero *)
Fixpoint ffs_from (w : N) (i fuel : nat) : option nat :=
  match fuel with
  | O => None
  | S f => if N.testbit w (N.of_nat i) then Some i else ffs_from w (S i) f
  end.
Definition ffsl (w : N) : option nat := ffs_from w 0 64.

(** Why an id is being allocated; [sz] says whether scratch space was asked
    for (0 < scratch_size). *)
Inductive purpose := ForSelf (sz : bool) | ForChild (sz : bool) (child : nat).

Inductive t_pc :=
| TIdle
| TAcq (p : purpose)                         (* :62-64 *)
| TScan (p : purpose) (i : nat)              (* :68-72 *)
| TCas (p : purpose) (i : nat) (old : N) (pos : nat)  (* :83-88 *)
| TRelFail (p : purpose)                     (* :75 *)
| TRel (p : purpose) (tid : nat)             (* :90 *)
| TMax (p : purpose) (tid : nat)             (* :98, :100 *)
| TMaxCas (p : purpose) (tid tmp : nat)      (* :99 *)
| TGot (p : purpose) (tid : nat)             (* returned the id to its caller *)
| TStart (tid : nat)                         (* :227-238, new thread *)
| TDAcq (tid : nat)                          (* :114-116 *)
| TDCheck (tid : nat)                        (* :118-124 *)
| TDRead (tid : nat)                         (* :127, :132 *)
| TDCas (tid : nat) (tmp : N)                (* :129-131 *)
| TDRel.                                     (* :136 *)

Record ts := Ts {
  ts_lock : bool;                (* tid_bitmask_lock *)
  ts_bits : nat -> N;            (* tid_bitmask; bit 1 means free *)
  ts_max : nat;
  ts_scratch : nat -> bool;      (* thread_scratch[tid] is non-NULL *)
  ts_own : nat -> option nat;    (* the thread-local tid; None is INVALID_TID *)
  ts_pcs : nat -> t_pc;
  ts_live : nat -> bool          (* the OS thread exists *)
}.

Inductive t_res := TAbort | TNext (s : ts).

(** Requests and oracles. *)
Inductive t_req :=
| RRegister (sz : bool)
| RDeregister
| RCreate (sz : bool) (child : nat)
| RGo (mem1 mem2 thr : bool).

Definition goto (s : ts) (p : nat) (c : t_pc) : ts :=
  Ts (ts_lock s) (ts_bits s) (ts_max s) (ts_scratch s) (ts_own s) (upd (ts_pcs s) p c) (ts_live s).

(** task.c:24-37 and 899-908: all ids free *)
Definition ts_init (main : nat) : ts :=
  Ts false (fun _ => (2 ^ 64 - 1)%N) 0 (fun _ => false) (fun _ => None) (fun _ => TIdle)
     (fun p => Nat.eqb p main).

Definition t_step (W : nat) (s : ts) (p : nat) (r : t_req) : t_res :=
  match ts_pcs s p with
  | TIdle =>
      match r with
      | RRegister sz => (* :369-382: assert not registered *)
          match ts_own s p with
          | None => TNext (goto s p (TAcq (ForSelf sz)))
          | Some _ => TAbort
          end
      | RCreate sz child => (* :267 *)
          TNext (goto s p (TAcq (ForChild sz child)))
      | RDeregister => (* :428-447 *)
          match ts_own s p with
          | None => TAbort
          | Some tid =>
              TNext (Ts (ts_lock s) (ts_bits s) (ts_max s) (upd (ts_scratch s) tid false)
                        (upd (ts_own s) p None) (upd (ts_pcs s) p (TDAcq tid)) (ts_live s))
          end
      | RGo _ _ _ => TNext s
      end
  | TAcq q =>
      if ts_lock s then TNext s
      else TNext (Ts true (ts_bits s) (ts_max s) (ts_scratch s) (ts_own s)
                     (upd (ts_pcs s) p (TScan q 0)) (ts_live s))
  | TScan q i =>
      if Nat.ltb i W
      then match ffsl (ts_bits s i) with
           | Some pos => TNext (goto s p (TCas q i (ts_bits s i) pos))
           | None => TNext (goto s p (TScan q (S i)))
           end
      else TNext (goto s p (TRelFail q))
  | TRelFail q =>
      TNext (Ts false (ts_bits s) (ts_max s) (ts_scratch s) (ts_own s) (upd (ts_pcs s) p TIdle) (ts_live s))
  | TCas q i old pos => (* :85-88, platform_assert(r) *)
      if N.eqb (ts_bits s i) old
      then TNext (Ts (ts_lock s) (upd (ts_bits s) i (N.clearbit old (N.of_nat pos))) (ts_max s)
                     (ts_scratch s) (ts_own s) (upd (ts_pcs s) p (TRel q (pos + i * 64))) (ts_live s))
      else TAbort
  | TRel q tid =>
      TNext (Ts false (ts_bits s) (ts_max s) (ts_scratch s) (ts_own s)
                (upd (ts_pcs s) p (TMax q tid)) (ts_live s))
  | TMax q tid =>
      TNext (goto s p (if Nat.ltb (ts_max s) tid then TMaxCas q tid (ts_max s) else TGot q tid))
  | TMaxCas q tid tmp =>
      if Nat.eqb (ts_max s) tmp
      then TNext (Ts (ts_lock s) (ts_bits s) tid (ts_scratch s) (ts_own s)
                     (upd (ts_pcs s) p (TGot q tid)) (ts_live s))
      else TNext (goto s p (TMax q tid))
  | TGot (ForSelf sz) tid =>
      match r with
      | RGo mem1 _ _ =>
          if ts_scratch s tid then TAbort               (* :388-390 *)
          else if negb (Nat.ltb tid (64 * W)) then TAbort   (* :407 *)
          else if sz && negb mem1 then TNext (goto s p (TDAcq tid))  (* :394-402 *)
          else TNext (Ts (ts_lock s) (ts_bits s) (ts_max s) (upd (ts_scratch s) tid sz)
                         (upd (ts_own s) p (Some tid)) (upd (ts_pcs s) p TIdle) (ts_live s))
      | _ => TNext s
      end
  | TGot (ForChild sz child) tid =>
      match r with
      | RGo mem1 mem2 thr =>
          if sz && negb mem1 then TNext (goto s p (TDAcq tid))   (* :278-281 *)
          else if negb mem2 || negb thr || ts_live s child then
            (* :286-289, :300-309: scratch freed and (platform_free) cleared;
               the new thread is one that does not exist yet *)
            TNext (Ts (ts_lock s) (ts_bits s) (ts_max s) (upd (ts_scratch s) tid false)
                      (ts_own s) (upd (ts_pcs s) p (TDAcq tid)) (ts_live s))
          else (* :291-304; without scratch space the slot keeps its value *)
            TNext (Ts (ts_lock s) (ts_bits s) (ts_max s)
                      (upd (ts_scratch s) tid (sz || ts_scratch s tid))
                      (ts_own s) (upd (upd (ts_pcs s) p TIdle) child (TStart tid))
                      (upd (ts_live s) child true))
      | _ => TNext s
      end
  | TStart tid => (* :233-238 *)
      if negb (Nat.ltb tid (64 * W)) then TAbort
      else TNext (Ts (ts_lock s) (ts_bits s) (ts_max s) (ts_scratch s)
                     (upd (ts_own s) p (Some tid)) (upd (ts_pcs s) p TIdle) (ts_live s))
  | TDAcq tid =>
      if ts_lock s then TNext s
      else TNext (Ts true (ts_bits s) (ts_max s) (ts_scratch s) (ts_own s)
                     (upd (ts_pcs s) p (TDCheck tid)) (ts_live s))
  | TDCheck tid =>
      if N.testbit (ts_bits s (tid / 64)) (N.of_nat (tid mod 64)) then TAbort
      else TNext (goto s p (TDRead tid))
  | TDRead tid => TNext (goto s p (TDCas tid (ts_bits s (tid / 64))))
  | TDCas tid tmp =>
      if N.eqb (ts_bits s (tid / 64)) tmp
      then TNext (Ts (ts_lock s) (upd (ts_bits s) (tid / 64) (N.setbit tmp (N.of_nat (tid mod 64))))
                     (ts_max s) (ts_scratch s) (ts_own s) (upd (ts_pcs s) p TDRel) (ts_live s))
      else TNext (goto s p (TDRead tid))
  | TDRel =>
      TNext (Ts false (ts_bits s) (ts_max s) (ts_scratch s) (ts_own s) (upd (ts_pcs s) p TIdle) (ts_live s))
  end.

(** The callers' protocol: only live threads act; a thread registers when it
    has no id and deregisters when it has one. *)
Definition t_legal (s : ts) (p : nat) (r : t_req) : Prop :=
  ts_live s p = true /\
  (ts_pcs s p = TIdle ->
   match r with
   | RRegister _ => ts_own s p = None
   | RDeregister => ts_own s p <> None
   | RCreate _ child => child <> p
   | RGo _ _ _ => True
   end).

Inductive t_reach (W main : nat) : ts -> Prop :=
| tr_init : t_reach W main (ts_init main)
| tr_step : forall s p r s', t_reach W main s -> t_legal s p r -> t_step W s p r = TNext s' ->
    t_reach W main s'.
