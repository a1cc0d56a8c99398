(** Model of the page cache's locks: /repo/src/clockcache.c.

    What is modelled, access by access to shared memory, for any number of
    threads and entries: the status flags (556-593), the striped reference
    counts (809-843), try_get_read, try_get_claim, get_write, try_get_write
    (960-1184), setting writeback and its callback (1222-1298), try_evict
    (1425-1524), the batch lock of move_hand (1563-1595), get_free_page
    (1605-1676), evict_all (1717-1732), alloc (1948-1967), try_page_discard
    (1976-2057), get (2095-2285), get_async and its callback (2294-2490),
    unget, try_claim, unclaim, lock, unlock, mark_dirty, pin (2513-2667),
    page_sync (2691-2739) and prefetch (2848-2998).

    Simplifications:
    - memory is sequentially consistent; one step is one access to a shared
      variable (a status word, a counter, disk_addr, a lookup slot, batch_busy);
    - the list of agents stands for the activities of the threads: a thread
      that has three pages is three agents with the same thread number.  Agents
      of one thread interleave freely, except that a thread does at most one
      eviction or search for a free entry at a time;
    - page contents, the statistics, waiting (a wait is a step that changes
      nothing) and the I/O requests are left out; an I/O that cannot start
      shows up only as the choice in [NReq];
    - page_capacity is not bounded: entries are numbered by [nat]. *)
From Coq Require Import List Arith Bool Lia.
Import ListNotations.
Local Open Scope nat_scope.

(** The status word: clockcache.c 556-562. *)
Record flags := Fl {
  fr : bool;  (* CC_FREE *)
  ac : bool;  (* CC_ACCESSED *)
  cl : bool;  (* CC_CLEAN *)
  wb : bool;  (* CC_WRITEBACK *)
  ld : bool;  (* CC_LOADING *)
  wl : bool;  (* CC_WRITELOCKED *)
  cm : bool   (* CC_CLAIMED *)
}.

(** clockcache.c 566-593. *)
Definition st_free      := Fl true  false false false false false false.
Definition st_evictable := Fl false false true  false false false false.
Definition st_locked_evictable := Fl false false true false false true true.
Definition st_alloc     := Fl false false false false false true  true.
Definition st_clean1    := Fl false false false false false false false.
Definition st_clean2    := Fl false true  false false false false false.
Definition st_wb1       := Fl false false false true  false false false.
Definition st_wb2       := Fl false true  false true  false false false.
Definition st_loading   := Fl false true  true  false true  false false.

Definition flags_eqb (a b : flags) : bool :=
  eqb (fr a) (fr b) && eqb (ac a) (ac b) && eqb (cl a) (cl b) &&
  eqb (wb a) (wb b) && eqb (ld a) (ld b) && eqb (wl a) (wl b) &&
  eqb (cm a) (cm b).

(** clockcache_set_flag / clockcache_clear_flag, 623-637. *)
Definition set_ac b s := Fl (fr s) b (cl s) (wb s) (ld s) (wl s) (cm s).
Definition set_cl b s := Fl (fr s) (ac s) b (wb s) (ld s) (wl s) (cm s).
Definition set_wb b s := Fl (fr s) (ac s) (cl s) b (ld s) (wl s) (cm s).
Definition set_ld b s := Fl (fr s) (ac s) (cl s) (wb s) b (wl s) (cm s).
Definition set_wl b s := Fl (fr s) (ac s) (cl s) (wb s) (ld s) b (cm s).
Definition set_cm b s := Fl (fr s) (ac s) (cl s) (wb s) (ld s) (wl s) b.

(** One entry: status, the counters of refcount for it, its pincount, and
    page.disk_addr (None for CC_UNMAPPED_ADDR); clockcache.h 111-127. *)
Record entry := En {
  st  : flags;
  rc  : nat -> nat;
  pin : nat;
  da  : option nat
}.

(** CC_RC_WIDTH, clockcache.h 23; the counters are uint8, clockcache.h 126. *)
Definition width := 4.
Definition rcmod := 256.
Definition slot (t : nat) : nat := t mod width.

Definition upd {A} (f : nat -> A) (k : nat) (v : A) : nat -> A :=
  fun x => if x =? k then v else f x.

Definition w_st (s : flags) (en : entry) := En s (rc en) (pin en) (da en).
Definition w_da (d : option nat) (en : entry) := En (st en) (rc en) (pin en) d.
Definition w_pin (n : nat) (en : entry) := En (st en) (rc en) n (da en).

(** clockcache_inc_ref, 809-819, and clockcache_dec_ref, 821-843. *)
Definition inc_ref (t : nat) (en : entry) :=
  En (st en) (upd (rc en) (slot t) ((rc en (slot t) + 1) mod rcmod)) (pin en) (da en).
Definition dec_ref (t : nat) (en : entry) :=
  En (st en) (upd (rc en) (slot t) ((rc en (slot t) + (rcmod - 1)) mod rcmod))
     (pin en) (da en).

(** Who called try_get_read. *)
Inductive kind :=
| KGet (a : nat) | KAsync (a : nat) | KDisc (a : nat) | KPre (a : nat) | KEvict.

(** Who called get_free_page. *)
Inductive fkind := FGet (a : nat) | FAsync (a : nat) | FAlloc (a : nat) | FPre (a : nat).

(** What an agent does when it is done with an entry. *)
Inductive next := NIdle | NLook (k : kind) | NMiss (f : fkind).

(** Where an agent is while it works on one entry. *)
Inductive lpc :=
(* try_get_read 960-996 *)
| RTest (k : kind)            (* 966 *)
| RInc (k : kind)             (* 972 *)
| RFree (k : kind)            (* 975 *)
| RWl (k : kind) (f : bool)   (* 976; f: the free flag that was read *)
| RAcc (k : kind)             (* 979 test *)
| RAccSet (k : kind)          (* 980 *)
| RDec (n : next)             (* 987, and every other dec_ref before leaving *)
(* get_internal and get_async on a hit *)
| GAddr (k : kind) (a : nat)  (* 2149, 2174, 2396 *)
| GLoad (a : nat)             (* 2187 *)
| GLoadA (a : nat)            (* 2401 *)
(* a page in the hands of a caller *)
| Held (a : nat)
| UAcc (a : nat)              (* unget 2522 *)
| UAccSet (a : nat)           (* 2523 *)
| Claimed (a : nat)
| CWb (a : nat)               (* get_write 1101 *)
| CScan (n : nat) (a : nat)   (* 1106-1117 *)
| Locked (a : nat)
(* try_evict 1425-1524 *)
| E0                          (* 1432 *)
| E1 (s : flags)              (* 1434 test *)
| E1c (s : flags)             (* 1435 *)
| E2 (s : flags)              (* 1445-1446 *)
| E3                          (* 1447 *)
| EClaim                      (* 1468 *)
| ELoad                       (* 1476 *)
| EWset                       (* 1149 *)
| EWb                         (* 1155 *)
| EScan (n : nat)             (* 1161-1176 *)
| EStat                       (* 1488 *)
| EPin                        (* 1490 *)
| EMap                        (* 1496 *)
| EMapW (a : nat)             (* 1499 *)
| EDa (a : nat)               (* 1500 *)
| EStore                      (* 1507 *)
| EUnwl                       (* 1181, 1515 *)
| EUncl                       (* 1518 *)
(* try_page_discard 1976-2057 *)
| DLoad (a : nat)             (* 2012 *)
| DAddr (a : nat)             (* 2018 *)
| DClaim (a : nat)            (* 2025 *)
| DWset (a : nat)             (* 1084 *)
| DWb (a : nat)               (* 1101 *)
| DScan (n : nat) (a : nat)   (* 1106-1117 *)
| DMap (a : nat)              (* 2043 *)
| DDa (a : nat)               (* 2045 *)
| DStore                      (* 2048 *)
| DPin                        (* 2051 *)
(* get_free_page 1605-1676 *)
| FCas (f : fkind)            (* 1635-1637 *)
| FInc (f : fkind)            (* 1640 *)
| FSet (f : fkind)            (* 1642 *)
(* get_internal and get_async on a miss *)
| LLook (f : fkind) (a : nat) (* 2217, 2440 *)
| LDec (a : nat)              (* 2220 *)
| LFree (a : nat)             (* 2221 *)
| LAddr (f : fkind) (a : nat) (* 2231, 2458 *)
| LRead (a : nat)             (* 2236-2253 *)
| NReq (a : nat)              (* 2464 *)
| LIo (a : nat)               (* 2482, read_async_callback 2322 *)
| NMap (a : nat)              (* 2466 *)
| NDa (a : nat)               (* 2467 *)
| XFree                       (* 2447, 2468 *)
(* alloc 1948-1967 *)
| AAddr (a : nat)             (* 1956 *)
| AMap (a : nat)              (* 1959 *)
(* prefetch 2944-2981 *)
| PAddr (a : nat)             (* 2950 *)
| PLook (a : nat)             (* 2953 *)
| PIo (a : nat)               (* 2987-2994, prefetch_callback 2873 *)
| PDa (a : nat)               (* 2976 *)
| PFree (a : nat)             (* 2977 *)
(* writeback: try_set_writeback 1222-1247, write_callback 1263-1298 *)
| W0 (urgent : bool)          (* 1234 *)
| W0b                         (* 1240 *)
| W1                          (* 1293 *)
| W2                          (* 1295 *)
(* page_sync 2691-2739 *)
| S0                          (* 2704: the first CAS *)
| S0b                         (* the second CAS *)
| S1                          (* 2705 *)
| Boom.                       (* the assertion of 2705 failed *)

(** The choices of a caller, and of the I/O layer. *)
Inductive act := A0 | A1 | A2.

(** The result of a step on an entry. *)
Inductive res := Stay (p : lpc) | Leave (n : next).

(** What try_get_read's caller does on success. *)
Definition after_read (k : kind) : lpc :=
  match k with
  | KGet a => GAddr k a
  | KAsync a => GAddr k a
  | KDisc a => DLoad a
  | KPre a => RDec NIdle        (* 2922-2923: drop it, go to the next page *)
  | KEvict => EClaim
  end.

(** ... and when the entry is write locked ([f = false]) or free. *)
Definition on_fail (k : kind) (free : bool) : next :=
  match k with
  | KEvict => NIdle
  | KPre a => if free then NMiss (FPre a) else NIdle    (* 2925, 2944 *)
  | KAsync a => NIdle                                   (* 2384-2395 *)
  | _ => NLook k                                        (* 2147, 2172, 2008 *)
  end.

(** On a mismatch of disk_addr: 2149-2153, 2396-2400. *)
Definition on_miss (k : kind) : next :=
  match k with KAsync _ => NIdle | _ => NLook k end.

(** One access to the entry by an agent of thread [t].  [c] is the choice;
    [won] tells whether the lookup slot was unmapped (2217, 2440, 2953). *)
Definition lstep (t : nat) (en : entry) (p : lpc) (c : act) (won : bool)
  : entry * res :=
  let s := st en in
  match p with
  | RTest k =>
      if wl s then
        (en, match c with A0 => Leave (on_fail k false) | _ => Stay (RTest k) end)
      else (en, Stay (RInc k))
  | RInc k => (inc_ref t en, Stay (RFree k))
  | RFree k => (en, Stay (RWl k (fr s)))
  | RWl k f =>
      if f || wl s then (en, Stay (RDec (on_fail k f)))
      else match k with
           | KEvict => (en, Stay EClaim)                 (* set_access FALSE *)
           | _ => (en, Stay (RAcc k))
           end
  | RAcc k =>
      if ac s then (en, Stay (after_read k)) else (en, Stay (RAccSet k))
  | RAccSet k => (w_st (set_ac true s) en, Stay (after_read k))
  | RDec n => (dec_ref t en, Leave n)
  | GAddr k a =>
      if match da en with Some b => b =? a | None => false end then
        (en, Stay (match k with KAsync _ => GLoadA a | _ => GLoad a end))
      else (en, Stay (RDec (on_miss k)))
  | GLoad a => (en, Stay (if ld s then GLoad a else Held a))
  | GLoadA a => (en, Stay (if ld s then RDec NIdle else Held a))
  | Held a =>
      match c with
      | A0 => (en, Stay (UAcc a))
      | _ =>                                             (* try_claim 1052 *)
          (w_st (set_cm true s) en, Stay (if cm s then Held a else Claimed a))
      end
  | UAcc a => (en, Stay (if ac s then RDec NIdle else UAccSet a))
  | UAccSet a => (w_st (set_ac true s) en, Stay (RDec NIdle))
  | Claimed a =>
      match c with
      | A0 => (w_st (set_cm false s) en, Stay (Held a))  (* unclaim 2577 *)
      | _ => (w_st (set_wl true s) en, Stay (CWb a))     (* lock 1084 *)
      end
  | CWb a => (en, Stay (if wb s then CWb a else CScan 0 a))
  | CScan n a =>
      if n <? width then
        if rc en n <=? (if n =? slot t then 1 else 0)
        then (en, Stay (CScan (S n) a)) else (en, Stay (CScan n a))
      else (en, Stay (Locked a))
  | Locked a =>
      match c with
      | A0 => (w_st (set_wl false s) en, Stay (Claimed a))  (* unlock 2618 *)
      | A1 => (w_st (set_cl false s) en, Stay (Locked a))   (* mark_dirty 2640 *)
      | A2 => (w_pin ((pin en + 1) mod rcmod) en, Stay (Locked a)) (* pin 2660 *)
      end
  | E0 => (en, Stay (E1 s))
  | E1 x => (en, Stay (if ac s then E1c x else E2 x))
  | E1c x => (w_st (set_ac false s) en, Stay (E2 x))
  | E2 x =>
      if flags_eqb x st_evictable && (rc en (slot t) =? 0)
      then (en, Stay E3) else (en, Leave NIdle)
  | E3 => if pin en =? 0 then (en, Stay (RTest KEvict)) else (en, Leave NIdle)
  | EClaim =>
      (w_st (set_cm true s) en, Stay (if cm s then RDec NIdle else ELoad))
  | ELoad => (en, Stay (if ld s then EUncl else EWset))
  | EWset => (w_st (set_wl true s) en, Stay EWb)
  | EWb => (en, Stay (if wb s then EUnwl else EScan 0))
  | EScan n =>
      if n <? width then
        if rc en n <=? (if n =? slot t then 1 else 0)
        then (en, Stay (EScan (S n))) else (en, Stay EUnwl)
      else (en, Stay EStat)
  | EStat => (en, Stay (if flags_eqb s st_locked_evictable then EPin else EUnwl))
  | EPin => (en, Stay (if pin en =? 0 then EMap else EUnwl))
  | EMap => (en, Stay (match da en with Some a => EMapW a | None => EStore end))
  | EMapW a => (en, Stay (EDa a))
  | EDa a => (w_da None en, Stay EStore)
  | EStore => (w_st st_free en, Stay (RDec NIdle))
  | EUnwl => (w_st (set_wl false s) en, Stay EUncl)
  | EUncl => (w_st (set_cm false s) en, Stay (RDec NIdle))
  | DLoad a => (en, Stay (if ld s then DLoad a else DAddr a))
  | DAddr a =>
      if match da en with Some b => b =? a | None => false end
      then (en, Stay (DClaim a)) else (en, Stay (RDec (NLook (KDisc a))))
  | DClaim a =>
      (w_st (set_cm true s) en,
       Stay (if cm s then RDec (NLook (KDisc a)) else DWset a))
  | DWset a => (w_st (set_wl true s) en, Stay (DWb a))
  | DWb a => (en, Stay (if wb s then DWb a else DScan 0 a))
  | DScan n a =>
      if n <? width then
        if rc en n <=? (if n =? slot t then 1 else 0)
        then (en, Stay (DScan (S n) a)) else (en, Stay (DScan n a))
      else (en, Stay (DMap a))
  | DMap a => (en, Stay (DDa a))
  | DDa a => (w_da None en, Stay DStore)
  | DStore => (w_st st_free en, Stay DPin)
  | DPin => (w_pin 0 en, Stay (RDec NIdle))
  | FCas f =>
      if flags_eqb s st_free then
        (w_st st_alloc en, Stay (match f with FPre _ => FSet f | _ => FInc f end))
      else (en, Leave (NMiss f))
  | FInc f => (inc_ref t en, Stay (FSet f))
  | FSet f =>
      match f with
      | FAlloc a => (w_st st_alloc en, Stay (AAddr a))
      | FGet a | FAsync a => (w_st st_loading en, Stay (LLook f a))
      | FPre a => (w_st st_loading en, Stay (PAddr a))
      end
  | LLook f a =>
      if won then (en, Stay (LAddr f a))
      else (en, Stay (match f with FAsync _ => XFree | _ => LDec a end))
  | LDec a => (dec_ref t en, Stay (LFree a))
  | LFree a => (w_st st_free en, Leave (NLook (KGet a)))
  | LAddr f a =>
      (w_da (Some a) en, Stay (match f with FAsync _ => NReq a | _ => LRead a end))
  | LRead a => (w_st (set_ld false s) en, Stay (Held a))
  | NReq a => (en, Stay (match c with A0 => LIo a | _ => NMap a end))
  | LIo a => (w_st (set_ld false s) en, Stay (Held a))
  | NMap a => (en, Stay (NDa a))
  | NDa a => (w_da None en, Stay XFree)
  | XFree => (w_st st_free en, Stay (RDec NIdle))
  | AAddr a => (w_da (Some a) en, Stay (AMap a))
  | AMap a => (en, Stay (Locked a))
  | PAddr a => (w_da (Some a) en, Stay (PLook a))
  | PLook a => (en, Stay (if won then PIo a else PDa a))
  | PIo a => (w_st (set_ld false s) en, Leave NIdle)
  | PDa a => (w_da None en, Stay (PFree a))
  | PFree a => (w_st st_free en, Leave (NLook (KPre a)))
  | W0 u =>
      if flags_eqb s st_clean1 then (w_st st_wb1 en, Stay W1)
      else if u then (en, Stay W0b) else (en, Leave NIdle)
  | W0b =>
      if flags_eqb s st_clean2 then (w_st st_wb2 en, Stay W1) else (en, Leave NIdle)
  | W1 => (w_st (set_cl true s) en, Stay W2)
  | W2 => (w_st (set_wb false s) en, Leave NIdle)
  | S0 => if flags_eqb s st_clean1 then (w_st st_wb1 en, Stay W1) else (en, Stay S0b)
  | S0b => if flags_eqb s st_clean2 then (w_st st_wb2 en, Stay W1) else (en, Stay S1)
  | S1 => if cl s then (en, Leave NIdle) else (en, Stay Boom)
  | Boom => (en, Stay Boom)
  end.

(** Where an agent is. *)
Inductive apc :=
| Idle
| Look (k : kind)            (* about to read the lookup slot *)
| Miss (f : fkind)           (* looking for a free entry *)
| On (e : nat) (p : lpc).

Record state := St {
  ents : nat -> entry;
  lkp  : nat -> option nat;     (* cc->lookup; None for CC_UNMAPPED_ENTRY *)
  busy : nat -> option nat;     (* batch_busy and whose free_hand it is *)
  ags  : list (nat * apc)       (* thread number, place *)
}.

(** CC_ENTRIES_PER_BATCH, clockcache.c 35. *)
Definition batch (e : nat) : nat := e / 64.

(** The agent is between taking a batch for eviction or a free entry and the
    end of that call (get, alloc, prefetch: the same call). *)
Definition tok (p : lpc) : bool :=
  match p with
  | E0 | E1 _ | E1c _ | E2 _ | E3 | EClaim | ELoad | EWset | EWb | EScan _
  | EStat | EPin | EMap | EMapW _ | EDa _ | EStore | EUnwl | EUncl => true
  | RTest KEvict | RInc KEvict | RFree KEvict | RWl KEvict _
  | RAcc KEvict | RAccSet KEvict => true
  | FCas _ | FInc _ | FSet _ | LLook _ _ | LDec _ | LFree _ | LAddr _ _
  | NReq _ | NMap _ | NDa _ | XFree | AAddr _ | AMap _
  | PAddr _ | PLook _ | PDa _ | PFree _ => true
  | _ => false
  end.

Definition atok (a : apc) : bool :=
  match a with On _ p => tok p | _ => false end.

(** No other agent of thread [t] is in such a call. *)
Fixpoint others_free (t : nat) (i : nat) (l : list (nat * apc)) {struct l} : bool :=
  match l with
  | [] => true
  | (t', a) :: r =>
      (match i with 0 => true | S _ => negb ((t' =? t) && atok a) end)
      && match i with
         | 0 => forallb (fun x => negb ((fst x =? t) && atok (snd x))) r
         | S i' => others_free t i' r
         end
  end.

(** What an idle agent may start, and the choices of the others. *)
Inductive cmd :=
| Go (c : act)
| SGet (a : nat) | SAsync (a : nat) | SDisc (a : nat) | SPre (a : nat)
| SAlloc (a : nat)
| SEvict (e : nat)              (* try_evict from evict_batch in move_hand 1593 *)
| SEvictAll (e : nat)           (* try_evict from evict_all 1729 *)
| SWb (e : nat) (u : bool)      (* batch_start_writeback, extent_sync *)
| SSync (e : nat)               (* page_sync *)
| SAcq (b : nat)                (* move_hand 1591 *)
| SRel (b : nat)                (* move_hand 1576 *)
| SPick (e : nat).              (* get_free_page looks at entry e, 1633 *)

Definition after (n : next) : apc :=
  match n with NIdle => Idle | NLook k => Look k | NMiss f => Miss f end.

Definition target (k : kind) : option nat :=
  match k with KGet a | KAsync a | KDisc a | KPre a => Some a | KEvict => None end.

(** The lookup slots an access writes. *)
Definition leff (e : nat) (p : lpc) (won : bool) (lk : nat -> option nat)
  : nat -> option nat :=
  match p with
  | EMapW a | DMap a | NMap a => upd lk a None
  | LLook _ a | PLook a => if won then upd lk a (Some e) else lk
  | AMap a => upd lk a (Some e)
  | _ => lk
  end.

Definition wins (p : lpc) (lk : nat -> option nat) : bool :=
  match p with
  | LLook _ a | PLook a => match lk a with None => true | Some _ => false end
  | _ => false
  end.

Fixpoint put {A} (l : list A) (i : nat) (x : A) : list A :=
  match l, i with
  | [], _ => []
  | _ :: r, 0 => x :: r
  | y :: r, S i' => y :: put r i' x
  end.

Definition move (s : state) (i t : nat) (a : apc) : state :=
  St (ents s) (lkp s) (busy s) (put (ags s) i (t, a)).

(** One step of agent [i]. *)
Definition step (s : state) (i : nat) (c : cmd) : option state :=
  match nth_error (ags s) i with
  | None => None
  | Some (t, Idle) =>
      match c with
      | SGet a => Some (move s i t (Look (KGet a)))
      | SAsync a => Some (move s i t (Look (KAsync a)))
      | SDisc a => Some (move s i t (Look (KDisc a)))
      | SPre a => Some (move s i t (Look (KPre a)))
      | SAlloc a => Some (move s i t (Miss (FAlloc a)))
      | SEvict e =>
          match busy s (batch e) with
          | Some t' => if (t' =? t) && others_free t i (ags s)
                       then Some (move s i t (On e E0)) else None
          | None => None
          end
      | SEvictAll e =>
          if others_free t i (ags s) then Some (move s i t (On e E0)) else None
      | SWb e u => Some (move s i t (On e (W0 u)))
      | SSync e => Some (move s i t (On e S0))
      | SAcq b =>
          match busy s b with
          | None => Some (St (ents s) (lkp s) (upd (busy s) b (Some t)) (ags s))
          | Some _ => None
          end
      | SRel b =>
          match busy s b with
          | Some t' =>
              if (t' =? t) && others_free t i (ags s)
              then Some (St (ents s) (lkp s) (upd (busy s) b None) (ags s)) else None
          | None => None
          end
      | _ => None
      end
  | Some (t, Look k) =>
      match target k with
      | None => None
      | Some a =>
          match lkp s a with
          | Some e => Some (move s i t (On e (RTest k)))
          | None =>
              match k with
              | KGet a => Some (move s i t (Miss (FGet a)))
              | KAsync a => Some (move s i t (Miss (FAsync a)))
              | KPre a => Some (move s i t (Miss (FPre a)))
              | _ => Some (move s i t Idle)
              end
          end
      end
  | Some (t, Miss f) =>
      match c with
      | SPick e =>
          match busy s (batch e) with
          | Some t' => if (t' =? t) && others_free t i (ags s)
                       then Some (move s i t (On e (FCas f))) else None
          | None => None
          end
      | _ => None
      end
  | Some (t, On e p) =>
      match c with
      | Go x =>
          let won := wins p (lkp s) in
          let '(en', r) := lstep t (ents s e) p x won in
          let a' := match r with Stay p' => On e p' | Leave n => after n end in
          Some (St (upd (ents s) e en') (leff e p won (lkp s)) (busy s)
                   (put (ags s) i (t, a')))
      | _ => None
      end
  end.

(** clockcache_init 1845-1863: every entry free, no address mapped. *)
Definition en0 := En st_free (fun _ => 0) 0 None.
Definition init (ts : list nat) : state :=
  St (fun _ => en0) (fun _ => None) (fun _ => None) (map (fun t => (t, Idle)) ts).
