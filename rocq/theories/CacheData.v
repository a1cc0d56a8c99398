(** What is in the pages: the buffers of the cache and the device, on top of the
    model of the cache's locks ([Cache]): /repo/src/clockcache.c.

    What is modelled: which address batch_start_writeback (1315-1412) and
    page_sync (2692-2739) write an entry's buffer to, and which buffer they
    write; the transfers of these writes and of the reads of cache_get (2236),
    cache_get_async (2482) and prefetch (2929, 2989); the writes of a caller into
    a page it has locked; clockcache_flush (1687-1708).

    Simplifications:
    - an I/O moves its page one word at a time, in any order and interleaved
      with everything else; it ends when every word has been moved;
    - the pages of one writeback request are agents of their own, each with its
      own completion: clockcache_write_callback (1279-1297) works page by page;
    - extent_sync (2785-2832) is left out: nothing calls it. *)
From Coq Require Import List Arith Bool.
From Verif Require Import Cache.
Import ListNotations.
Local Open Scope nat_scope.

(** What an agent remembers: how far it is with finding out what to write where
    (0: the address is not read yet, 1: it is, 2: the buffer is chosen too), that
    address, the words its I/O has moved; and, as caller, whether it has written
    to the page and called cache_mark_dirty since it got the write lock. *)
Record ext := Ext {
  x_ph     : nat;
  x_addr   : option nat;
  x_done   : nat -> bool;
  x_wrote  : bool;
  x_marked : bool
}.

Definition nothing : nat -> bool := fun _ => false.

Record dstate := DSt {
  base : state;
  mem  : nat -> nat -> nat;     (* entry, word: page.data *)
  disk : nat -> nat -> nat;     (* address, word *)
  exts : nat -> ext
}.

Inductive dcmd :=
| Base (c : cmd)                (* a step of [Cache] *)
| Near (a : nat) (u : bool)     (* 1356, 1369: a page next to the one being written *)
| Prep                          (* 1350 and 1391: the address, the buffer *)
| Xfer (o : nat)                (* the device moves word o *)
| Put (o v : nat).              (* the caller writes word o *)

(** Every word of the page has been moved. *)
Definition moved (psz : nat) (x : ext) : bool := forallb (x_done x) (seq 0 psz).

(** A step of [Cache] ends the I/O of the agent: 1263 (callbacks of writes), 2236,
    2322, 2873. *)
Definition io_over (psz : nat) (x : ext) (pl : apc) : bool :=
  match pl with
  | On _ W1 => (x_ph x =? 2) && moved psz x
  | On _ (LRead _) | On _ (LIo _) | On _ (PIo _) => moved psz x
  | _ => true
  end.

(** What the agent remembers after a step of [Cache]. *)
Definition next_ext (s : state) (pl : apc) (c : cmd) (x : ext) : ext :=
  match pl, c with
  | Idle, SWb _ _ => Ext 0 None nothing false false           (* 1345-1346 *)
  | Idle, SSync e => Ext 2 (da (ents s e)) nothing false false (* 2700 *)
  | On _ (CScan _ _), _ => Ext (x_ph x) (x_addr x) nothing false false
  | On _ (AMap _), _ => Ext (x_ph x) (x_addr x) nothing false true
  | On _ (Locked _), Go A1 =>
      Ext (x_ph x) (x_addr x) nothing (x_wrote x) true        (* 2640 *)
  | _, _ => Ext (x_ph x) (x_addr x) nothing (x_wrote x) (x_marked x)
  end.

Definition set1 (m : nat -> nat -> nat) (k o v : nat) : nat -> nat -> nat :=
  fun k' o' => if (k' =? k) && (o' =? o) then v else m k' o'.
Definition did (o : nat) (x : ext) : ext :=
  Ext (x_ph x) (x_addr x) (upd (x_done x) o true) (x_wrote x) (x_marked x).

(** One step of agent [i]; pages have [psz] words. *)
Definition dstep (psz : nat) (d : dstate) (i : nat) (c : dcmd) : option dstate :=
  let s := base d in
  let x := exts d i in
  match nth_error (ags s) i with
  | None => None
  | Some (t, pl) =>
      match c with
      | Base c =>
          if io_over psz x pl then
            match step s i c with
            | Some s' => Some (DSt s' (mem d) (disk d) (upd (exts d) i (next_ext s pl c x)))
            | None => None
            end
          else None
      | Near a u =>
          match pl, lkp s a with
          | Idle, Some e =>
              Some (DSt (move s i t (On e (W0 u))) (mem d) (disk d)
                        (upd (exts d) i (Ext 1 (Some a) nothing false false)))
          | _, _ => None
          end
      | Prep =>
          match pl with
          | On e W1 =>
              match x_ph x with
              | 0 => Some (DSt s (mem d) (disk d)
                               (upd (exts d) i (Ext 1 (da (ents s e)) nothing (x_wrote x) (x_marked x))))
              | 1 =>
                  match x_addr x with
                  | Some a =>
                      match lkp s a with
                      | Some e' =>
                          Some (DSt (move s i t (On e' W1)) (mem d) (disk d)
                                    (upd (exts d) i (Ext 2 (Some a) nothing (x_wrote x) (x_marked x))))
                      | None => None       (* 722: entry[CC_UNMAPPED_ENTRY] *)
                      end
                  | None => None
                  end
              | _ => None
              end
          | _ => None
          end
      | Xfer o =>
          if o <? psz then
            match pl with
            | On e W1 =>
                match x_ph x, x_addr x with
                | 2, Some a => Some (DSt s (mem d) (set1 (disk d) a o (mem d e o))
                                         (upd (exts d) i (did o x)))
                | _, _ => None
                end
            | On e (LRead a) | On e (LIo a) | On e (PIo a) =>
                Some (DSt s (set1 (mem d) e o (disk d a o)) (disk d)
                          (upd (exts d) i (did o x)))
            | _ => None
            end
          else None
      | Put o v =>
          if o <? psz then
            match pl with
            | On e (Locked _) =>
                Some (DSt s (set1 (mem d) e o v) (disk d)
                          (upd (exts d) i (Ext (x_ph x) (x_addr x) (x_done x) true (x_marked x))))
            | _ => None
            end
          else None
      end
  end.

(** A new cache over a device that has something on it; the buffers hold
    anything. *)
Definition ext0 := Ext 0 None nothing false false.
Definition dinit (ts : list nat) (m0 d0 : nat -> nat -> nat) : dstate :=
  DSt (init ts) m0 d0 (fun _ => ext0).

(** clockcache_flush, 1687-1708, by an agent that is idle, when no other works:
    every entry of the cache is tried, with access (1702), and its I/O waited
    for (1706). *)
Definition flush_one (psz e : nat) (d : dstate) : list dcmd :=
  let s := st (ents (base d) e) in
  let io := [Prep; Prep] ++ map Xfer (seq 0 psz) ++ [Base (Go A0); Base (Go A0)] in
  if flags_eqb s st_clean1 then [Base (SWb e true); Base (Go A0)] ++ io
  else if flags_eqb s st_clean2
       then [Base (SWb e true); Base (Go A0); Base (Go A0)] ++ io
  else [Base (SWb e true); Base (Go A0); Base (Go A0)].

Fixpoint dsteps (psz : nat) (d : dstate) (i : nat) (l : list dcmd) : option dstate :=
  match l with
  | [] => Some d
  | c :: r => match dstep psz d i c with Some d' => dsteps psz d' i r | None => None end
  end.

Fixpoint flush (psz : nat) (i : nat) (es : list nat) (d : dstate) : option dstate :=
  match es with
  | [] => Some d
  | e :: r =>
      match dsteps psz d i (flush_one psz e d) with
      | Some d' => flush psz i r d'
      | None => None
      end
  end.
