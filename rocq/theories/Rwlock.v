(** * Distributed batch reader/writer lock

    /repo/src/platform_linux/platform.c:278-429 and the state machine at
    /repo/src/platform_linux/platform_types.h:101-110.  Definitions only.

    One lock of the batch (one [lock_idx]); the locks of a batch share no
    bytes.  [mt] is MAX_THREADS.  Each thread is named by its thread id, which
    is unique (C34) and below [mt].  One step is one access to shared memory;
    any thread may step at any time, so every interleaving (sequential
    consistency) is an execution.  The back-off sleeps are not modelled: they
    touch no shared state.  read_counter is a uint8 per thread. *)

From Coq Require Import List NArith Arith Bool.
From Verif Require Import Count.
Import ListNotations.

(** Where a thread is. *)
Inductive rw_pc :=
| PIdle                    (* holds nothing *)
| PGetSpin                 (* platform.c:406: about to read the lock bit *)
| PGetInc                  (* platform.c:410-411 *)
| PGetCheck                (* platform.c:413 *)
| PGetDec                  (* platform.c:416 *)
| PShared                  (* get returned *)
| PUnget                   (* platform.c:426-427 *)
| PClaimTas                (* platform.c:363 *)
| PClaimDec                (* platform.c:366-367, claim taken *)
| PClaimed                 (* try_claim returned TRUE *)
| PLockTas                 (* platform.c:317-318 *)
| PLockWait (i : nat)      (* platform.c:323-329, waiting on reader i *)
| PExcl                    (* lock returned *)
| PUnlock                  (* platform.c:335 *)
| PUnclaimInc              (* platform.c:388 *)
| PUnclaimRel.             (* platform.c:389 *)

Record rw := Rw {
  rw_lock : bool;
  rw_claim : bool;
  rw_cnt : nat -> N;        (* read_counter[tid][lock_idx] *)
  rw_pcs : nat -> rw_pc
}.

(** platform.c:296-300: all zero *)
Definition rw_init : rw := Rw false false (fun _ => 0%N) (fun _ => PIdle).

(** uint8 arithmetic *)
Definition u8_inc (x : N) : N := ((x + 1) mod 256)%N.
Definition u8_dec (x : N) : N := ((x + 255) mod 256)%N.

(** What a client asks for next; used only where the state machine of
    platform_types.h:101-110 offers a choice. *)
Inductive rw_req := RUp | RDown.

(** Outcome of a step: [Abort] is a failed platform_assert or debug_assert,
    [Stay] a thread that may not start a new call. *)
Inductive rw_res := Abort | Next (s : rw).

Definition rw_set (s : rw) (t : nat) (p : rw_pc) : rw :=
  Rw (rw_lock s) (rw_claim s) (rw_cnt s) (upd (rw_pcs s) t p).

Definition rw_step (mt : nat) (s : rw) (t : nat) (r : rw_req) : rw_res :=
  match rw_pcs s t with
  | PIdle => Next (rw_set s t PGetSpin)                 (* call get *)
  | PGetSpin => Next (rw_set s t (if rw_lock s then PGetSpin else PGetInc))
  | PGetInc =>
      if N.eqb (rw_cnt s t) 0
      then Next (Rw (rw_lock s) (rw_claim s) (upd (rw_cnt s) t (u8_inc (rw_cnt s t)))
                    (upd (rw_pcs s) t PGetCheck))
      else Abort
  | PGetCheck => Next (rw_set s t (if rw_lock s then PGetDec else PShared))
  | PGetDec =>
      if N.eqb (rw_cnt s t) 1
      then Next (Rw (rw_lock s) (rw_claim s) (upd (rw_cnt s) t (u8_dec (rw_cnt s t)))
                    (upd (rw_pcs s) t PGetSpin))
      else Abort
  | PShared =>
      match r with
      | RDown => Next (rw_set s t PUnget)
      | RUp => (* platform.c:362 *)
          if N.eqb (rw_cnt s t) 0 then Abort else Next (rw_set s t PClaimTas)
      end
  | PUnget =>
      if N.eqb (rw_cnt s t) 1
      then Next (Rw (rw_lock s) (rw_claim s) (upd (rw_cnt s) t (u8_dec (rw_cnt s t)))
                    (upd (rw_pcs s) t PIdle))
      else Abort
  | PClaimTas =>
      if rw_claim s
      then (* FALSE: the caller keeps the shared lock and must release it;
              claim_loop (platform.c:372-382) does exactly that and retries *)
           Next (rw_set s t PUnget)
      else Next (Rw (rw_lock s) true (rw_cnt s) (upd (rw_pcs s) t PClaimDec))
  | PClaimDec =>
      if N.ltb 0 (rw_cnt s t)
      then Next (Rw (rw_lock s) (rw_claim s) (upd (rw_cnt s) t (u8_dec (rw_cnt s t)))
                    (upd (rw_pcs s) t PClaimed))
      else Abort
  | PClaimed =>
      match r with
      | RDown => Next (rw_set s t PUnclaimInc)
      | RUp => (* platform.c:316, platform_assert(claim) *)
          if rw_claim s then Next (rw_set s t PLockTas) else Abort
      end
  | PLockTas =>
      if rw_lock s then Abort
      else Next (Rw true (rw_claim s) (rw_cnt s) (upd (rw_pcs s) t (PLockWait 0)))
  | PLockWait i =>
      if Nat.ltb i mt
      then if N.eqb (rw_cnt s i) 0 then Next (rw_set s t (PLockWait (S i)))
           else Next s
      else Next (rw_set s t PExcl)
  | PExcl => Next (rw_set s t PUnlock)
  | PUnlock => Next (Rw false (rw_claim s) (rw_cnt s) (upd (rw_pcs s) t PClaimed))
  | PUnclaimInc =>
      Next (Rw (rw_lock s) (rw_claim s) (upd (rw_cnt s) t (u8_inc (rw_cnt s t)))
               (upd (rw_pcs s) t PUnclaimRel))
  | PUnclaimRel => Next (Rw (rw_lock s) false (rw_cnt s) (upd (rw_pcs s) t PShared))
  end.

(** Run a schedule: a list of (thread, request) pairs. *)
Fixpoint rw_run (mt : nat) (s : rw) (sched : list (nat * rw_req)) : rw_res :=
  match sched with
  | [] => Next s
  | (t, r) :: rest =>
      match rw_step mt s t r with
      | Abort => Abort
      | Next s' => rw_run mt s' rest
      end
  end.
