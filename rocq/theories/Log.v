(** * The sharded log

    /repo/src/shard_log.c: shard_log_alloc (83-88), shard_log_init (90-125), log entries
    (147-197), get_new_page_for_thread (199-214), shard_log_write (216-279),
    shard_log_valid (302-309), shard_log_compare (318-324), shard_log_iterator_init
    (336-425), the iterator's operations (434-462); the page header, shard_log.h:64-69.
    Pages are byte arrays; an access outside a page is [None].

    Each thread writes to a page of its own, under that page's lock, and pages are
    handed out by mini_alloc one after the other; so an execution by many
    threads is a sequence of writes.  Simplifications: the extents that the mini
    allocator takes are a parameter [ext] ([Mini.v] models the allocator), a page is
    read through the cache as it was last written, the checksum is a function [csum].
    Definitions only. *)

From Coq Require Import List NArith ZArith Arith Bool Permutation Sorted.
From Verif Require Import Base Codec PageBytes.
Import ListNotations.
Local Open Scope N_scope.

(** sizeof(shard_log_hdr) and sizeof(log_entry), both packed *)
Definition hdr_size : N := 34.
Definition entry_hdr : N := 14.
Definition at_magic : N := 16.
Definition at_next_extent : N := 24.
Definition at_entries : N := 32.
Definition INVALID_GENERATION : N := 2 ^ 64 - 1.

Record entry := Entry { e_gen : N; e_key : bytes; e_msg : message }.

Section Log.
Context (psz : N) (ppe : nat) (csum : bytes -> bytes) (magic : N) (ext : nat -> N).

Definition rd64 (bs : bytes) (o : N) : option N :=
  do b <- slice bs o 8; do r <- dec_le 8 b; Some (fst r).
Definition wr64 (bs : bytes) (o x : N) : option bytes := poke bs o (enc_le 8 x).

(** What the thread keeps: page address and offset; [None]: SHARD_UNMAPPED *)
Record log := Log {
  g_pages : nat;                       (* pages handed out *)
  g_mem : N -> bytes;                  (* pages by address *)
  g_thr : nat -> option (N * N)
}.

Definition set_mem (m : N -> bytes) (a : N) (b : bytes) : N -> bytes := fun x => if x =? a then b else m x.
Definition set_thr (f : nat -> option (N * N)) (t : nat) (v : N * N) : nat -> option (N * N) :=
  fun x => if Nat.eqb x t then Some v else f x.

(** 90-125; page contents are what was there before *)
Definition log_init (mem : N -> bytes) : log := Log 0 mem (fun _ => None).

(** The [i]-th page that mini_alloc hands out, and the extent it names as the next *)
Definition page_addr (i : nat) : N := ext (i / ppe) + N.of_nat (i mod ppe) * psz.
Definition next_extent (i : nat) : N := ext (S (i / ppe)).

(** 199-214 *)
Definition new_page (l : log) (t : nat) : option log :=
  let a := page_addr (g_pages l) in
  do b1 <- wr64 (g_mem l a) at_magic magic;
  do b2 <- wr64 b1 at_next_extent (next_extent (g_pages l));
  do b3 <- wr16 b2 at_entries 0;
  Some (Log (S (g_pages l)) (set_mem (g_mem l) a b3) (set_thr (g_thr l) t (a, hdr_size))).

(** 166-172 *)
Definition required (e : entry) : N := entry_hdr + (blen (e_key e) + blen (m_data (e_msg e))).

(** shard_log_checksum, 70-75 *)
Definition page_csum (bs : bytes) : option bytes :=
  do b <- slice bs 16 (psz - 16); Some (csum b).

(** 248-252: the page is full *)
Definition finish_page (bs : bytes) (off : N) : option bytes :=
  let free := psz - off in
  do b1 <- (if entry_hdr <=? free then wr64 bs off INVALID_GENERATION else Some bs);
  do c <- page_csum b1;
  poke b1 0 c.

(** 266-269: the entry and the number of entries; the flags of the key keep what
    was there *)
Definition put_entry (bs : bytes) (off : N) (e : entry) : option bytes :=
  do kf <- rd8 bs (off + 10);
  do b1 <- poke bs off (enc_le 8 (e_gen e) ++ copy_tuple_to_ondisk_tuple kf (e_key e) (e_msg e));
  do n <- rd16 b1 at_entries;
  wr16 b1 at_entries (n + 1).

(** 216-279 *)
Definition log_write (l : log) (t : nat) (e : entry) : option log :=
  do l1 <- (match g_thr l t with None => new_page l t | Some _ => Some l end);
  match g_thr l1 t with
  | None => None
  | Some (a, off) =>
      let free := psz - off in
      do l2 <- (if free <? required e then
                  do b <- finish_page (g_mem l1 a) off;
                  new_page (Log (g_pages l1) (set_mem (g_mem l1) a b) (g_thr l1)) t
                else Some l1);
      match g_thr l2 t with
      | None => None
      | Some (a2, off2) =>
          do b <- put_entry (g_mem l2 a2) off2 e;
          Some (Log (g_pages l2) (set_mem (g_mem l2) a2 b) (set_thr (g_thr l2) t (a2, off2 + required e)))
      end
  end.

Fixpoint log_writes (l : log) (ws : list (nat * entry)) : option log :=
  match ws with
  | [] => Some l
  | (t, e) :: r => do l1 <- log_write l t e; log_writes l1 r
  end.

(** *** Reading *)

(** 302-309 *)
Definition page_valid (bs : bytes) : option bool :=
  do m <- rd64 bs at_magic;
  do c <- slice bs 0 16;
  do k <- page_csum bs;
  Some ((m =? magic) && (if list_eq_dec N.eq_dec c k then true else false)).

(** 186-191; past the end of the page the difference is negative, a large size_t *)
Definition terminal (bs : bytes) (off : N) : option bool :=
  if (off <=? psz) && (psz - off <? entry_hdr) then Some true
  else do g <- rd64 bs off; Some (g =? INVALID_GENERATION).

(** 154-178 *)
Definition read_entry (bs : bytes) (off : N) : option (entry * N) :=
  do g <- rd64 bs off;
  do kl <- rd16 bs (off + 8);
  do ml <- rd16 bs (off + 11);
  do d <- slice bs (off + 8) (6 + kl + ml);
  do km <- ondisk_tuple_decode d;
  Some (Entry g (fst km) (snd km), entry_hdr + (kl + ml)).

(** 397-405 *)
Fixpoint read_page (fuel : nat) (bs : bytes) (off : N) : option (list entry) :=
  match fuel with
  | O => None
  | S f =>
      do t <- terminal bs off;
      if t then Some []
      else do r <- read_entry bs off; do es <- read_page f bs (off + snd r); Some (fst r :: es)
  end.

(** 361-373 and 389-408: the pages of an extent from number [i] on, [todo] of them, up
    to the first that is not valid; the extent they name as next if all are valid *)
Fixpoint scan_extent (mem : N -> bytes) (ea : N) (i todo : nat) (next : N) : option (list bytes * option N) :=
  match todo with
  | O => Some ([], Some next)
  | S k =>
      let bs := mem (ea + N.of_nat i * psz) in
      do v <- page_valid bs;
      if v then
        do nx <- rd64 bs at_next_extent;
        do r <- scan_extent mem ea (S i) k nx;
        Some (bs :: fst r, snd r)
      else Some ([], None)
  end.

(** 358-375 and 386-410: [live] says which extents have a reference count *)
Fixpoint scan_log (fuel : nat) (mem : N -> bytes) (live : N -> bool) (ea : N) : option (list bytes) :=
  match fuel with
  | O => None
  | S f =>
      if negb (ea =? 0) && live ea then
        do r <- scan_extent mem ea 0 ppe 0;
        match snd r with
        | None => Some (fst r)
        | Some nx => do ps <- scan_log f mem live nx; Some (fst r ++ ps)
        end
      else Some []
  end.

Fixpoint read_pages (ps : list bytes) : option (list entry) :=
  match ps with
  | [] => Some []
  | b :: r => do es <- read_page (S (N.to_nat psz)) b hdr_size; do rest <- read_pages r; Some (es ++ rest)
  end.

Fixpoint count_entries (ps : list bytes) : option N :=
  match ps with
  | [] => Some 0
  | b :: r => do n <- rd16 b at_entries; do m <- count_entries r; Some (n + m)
  end.

(** The array that is sorted: [None] if more entries are read than counted (the
    array overflows) or fewer (pointers that were never set are sorted) *)
Definition log_entries (fuel : nat) (mem : N -> bytes) (live : N -> bool) (addr : N) : option (list entry) :=
  do ps <- scan_log fuel mem live addr;
  do n <- count_entries ps;
  do es <- read_pages ps;
  if N.of_nat (length es) =? n then Some es else None.

End Log.

(** *** Sorting *)

(** 318-324: the difference of uint64, made an int *)
Definition compare_gen (a b : N) : Z :=
  let x := ((Z.of_N a - Z.of_N b) mod 2 ^ 32)%Z in
  if (x <? 2 ^ 31)%Z then x else (x - 2 ^ 32)%Z.

(** qsort_r (platform.c:603-611): a permutation, in order if the comparison is one *)
Definition consistent (l : list entry) : Prop :=
  (forall a b, In a l -> In b l -> (compare_gen (e_gen a) (e_gen b) <= 0 \/ compare_gen (e_gen b) (e_gen a) <= 0)%Z) /\
  (forall a b c, In a l -> In b l -> In c l -> (compare_gen (e_gen a) (e_gen b) <= 0)%Z -> (compare_gen (e_gen b) (e_gen c) <= 0)%Z ->
     (compare_gen (e_gen a) (e_gen c) <= 0)%Z).
Definition sorts (l l' : list entry) : Prop :=
  Permutation l l' /\ (consistent l -> StronglySorted (fun a b => (compare_gen (e_gen a) (e_gen b) <= 0)%Z) l').

(** *** The iterator, 434-462 *)

Record log_iterator := LogItor { li_entries : list entry; li_pos : N }.

(** uint64 pos >= 0 *)
Definition li_can_prev (it : log_iterator) : bool := 0 <=? li_pos it.
Definition li_can_next (it : log_iterator) : bool := li_pos it <? N.of_nat (length (li_entries it)).
Definition li_curr (it : log_iterator) : option entry := nth_error (li_entries it) (N.to_nat (li_pos it)).
Definition li_next (it : log_iterator) : log_iterator := LogItor (li_entries it) (li_pos it + 1).

(** Reading from the start to the end *)
Fixpoint li_drain (fuel : nat) (it : log_iterator) : option (list entry) :=
  match fuel with
  | O => None
  | S f => if li_can_next it then do e <- li_curr it; do r <- li_drain f (li_next it); Some (e :: r) else Some []
  end.
