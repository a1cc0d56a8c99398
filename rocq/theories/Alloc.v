(** * Reference-counting extent allocator

    /repo/src/rc_allocator.c:320-388, 402-480, 491-560, 689-740.  Definitions only.

    Any number of threads; one step is one access to shared memory.  Extents
    are numbered 0 .. n-1 ([n] is cfg->extent_capacity); an address is an
    extent number times the extent size.  ref_count entries are uint8, the
    hand is a uint64.  The per-type statistics counters are not modelled.
    [al_hist] is ghost: the reference events in the order in which they took
    effect. *)

From Coq Require Import List NArith ZArith Arith Bool.
From Verif Require Import Count.
Import ListNotations.

Inductive al_event :=
| EAlloc (t e : nat)
| EInc (e : nat) (result : N)
| EDec (e : nat) (result : N).

Inductive al_pc :=
| AIdle
| AFetch (first : nat)                  (* :704, fetch_and_add of the hand *)
| ARead (first h : nat)                 (* :705 *)
| ACas (first h : nat)                  (* :706-707 *)
| ACount (h : nat)                      (* :723 *)
| AMax (h : nat) (c : Z)                (* :724, :728: read max_allocated *)
| AMaxCas (h : nat) (c m : Z)           (* :726-727 *)
| ARet (r : option nat)                 (* :737 or :721: returned to the caller *)
| ADecCount (r : N).                    (* :541 *)

Record al := Al {
  al_refs : nat -> N;
  al_hand : N;
  al_curr : Z;
  al_max : Z;
  al_pcs : nat -> al_pc;
  al_hist : list al_event
}.

Inductive al_req := QAlloc | QInc (e : nat) | QDec (e : nat).

(** [AAbort]: a failed platform_assert; [ANext]: a step. *)
Inductive al_res := AAbort | ANext (s : al).

Definition al_goto (s : al) (t : nat) (p : al_pc) : al :=
  Al (al_refs s) (al_hand s) (al_curr s) (al_max s) (upd (al_pcs s) t p) (al_hist s).

Definition hand_extent (n : nat) (hand : N) : nat := N.to_nat (hand mod N.of_nat n).

(** rc_allocator.c:709-710 and :713-722: the loop condition, evaluated on
    locals after an unsuccessful probe *)
Definition al_after_probe (n first h : nat) : al_pc :=
  if Nat.eqb ((h + 1) mod n) first then ARet None else AFetch first.

Definition al_step (n : nat) (s : al) (t : nat) (q : al_req) : al_res :=
  match al_pcs s t with
  | AIdle | ARet _ =>
      match q with
      | QAlloc => (* :699, read of the hand *)
          ANext (al_goto s t (AFetch (hand_extent n (al_hand s))))
      | QInc e => (* :501-517; the add is atomic *)
          let r := ((al_refs s e + 1) mod 256)%N in
          if N.eqb r 1 || N.eqb r 0 then AAbort
          else ANext (Al (upd (al_refs s) e r) (al_hand s) (al_curr s) (al_max s)
                         (upd (al_pcs s) t AIdle) (al_hist s ++ [EInc e r]))
      | QDec e => (* :520-543; the subtraction is atomic *)
          let r := ((al_refs s e + 255) mod 256)%N in
          if N.eqb r 255 then AAbort
          else ANext (Al (upd (al_refs s) e r) (al_hand s) (al_curr s) (al_max s)
                         (upd (al_pcs s) t (if N.eqb r 0 then ADecCount r else AIdle))
                         (al_hist s ++ [EDec e r]))
      end
  | AFetch first =>
      ANext (Al (al_refs s) ((al_hand s + 1) mod 2 ^ 64)%N (al_curr s) (al_max s)
                (upd (al_pcs s) t (ARead first (hand_extent n (al_hand s)))) (al_hist s))
  | ARead first h =>
      ANext (al_goto s t (if N.eqb (al_refs s h) 0 then ACas first h else al_after_probe n first h))
  | ACas first h =>
      if N.eqb (al_refs s h) 0
      then ANext (Al (upd (al_refs s) h 2%N) (al_hand s) (al_curr s) (al_max s)
                     (upd (al_pcs s) t (ACount h)) (al_hist s ++ [EAlloc t h]))
      else ANext (al_goto s t (al_after_probe n first h))
  | ACount h =>
      ANext (Al (al_refs s) (al_hand s) (al_curr s + 1)%Z (al_max s)
                (upd (al_pcs s) t (AMax h (al_curr s + 1)%Z)) (al_hist s))
  | AMax h c =>
      ANext (al_goto s t (if (al_max s <? c)%Z then AMaxCas h c (al_max s) else ARet (Some h)))
  | AMaxCas h c m =>
      ANext (Al (al_refs s) (al_hand s) (al_curr s)
                (if (al_max s =? m)%Z then c else al_max s)
                (upd (al_pcs s) t (AMax h c)) (al_hist s))
  | ADecCount r =>
      ANext (Al (al_refs s) (al_hand s) (al_curr s - 1)%Z (al_max s)
                (upd (al_pcs s) t AIdle) (al_hist s))
  end.

Fixpoint al_run (n : nat) (s : al) (sched : list (nat * al_req)) : al_res :=
  match sched with
  | [] => ANext s
  | (t, q) :: rest =>
      match al_step n s t q with
      | AAbort => AAbort
      | ANext s' => al_run n s' rest
      end
  end.

(** rc_allocator.c:320-366 before the first allocation, and :465-473 after a
    mount: the counts come from disk, curr_allocated is recomputed, the hand
    starts at 0. *)
Definition al_mount (n : nat) (disk : nat -> N) : al :=
  Al disk 0 (Z.of_nat (cnt (fun i => negb (N.eqb (disk i) 0)) n)) 0 (fun _ => AIdle) [].
Definition al_fresh : al := Al (fun _ => 0%N) 0 0 0 (fun _ => AIdle) [].

(** rc_allocator.c:368-384, the allocations made by rc_allocator_init: the
    super block extent, then [k] extents for the reference counts; extent
    i must be the i-th allocated.  [None] is a failed assertion.  [fuel]
    bounds the steps of one allocation. *)
Fixpoint al_solo (n : nat) (s : al) (t : nat) (fuel : nat) : option (option nat * al) :=
  match fuel with
  | O => None
  | S f =>
      match al_step n s t QAlloc with
      | AAbort => None
      | ANext s' =>
          match al_pcs s' t with
          | ARet r => Some (r, al_goto s' t AIdle)
          | _ => al_solo n s' t f
          end
      end
  end.

Fixpoint al_init_loop (n : nat) (s : al) (i k : nat) : option al :=
  match k with
  | O => Some s
  | S k' =>
      match al_solo n s 0 (3 * n + 10) with
      | Some (Some e, s') => if Nat.eqb e i then al_init_loop n s' (S i) k' else None
      | _ => None
      end
  end.
Definition al_init (n rc_extents : nat) : option al := al_init_loop n al_fresh 0 (1 + rc_extents).
