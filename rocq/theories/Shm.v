(** Model of the shared-memory heap: /repo/src/platform_linux/shmem.c 46-134,
    355-429 (create), 525-622 (alloc), 632-694 (realloc), 707-776 (free),
    785-1047 (the tracker of large fragments), and the callers' rounding,
    platform_linux/platform_inline.h 429-472, 486-509.

    Any number of threads or processes.  A section under one of the two spin
    locks is one step.  Simplified: pids and thread ids of the tracker are one
    bit (freed or in use); tracing and the usage counters other than used and
    free bytes are left out; zeroing a recycled fragment (1005) and realloc's
    copy (657) appear as the range they write. *)
From Coq Require Import List NArith Bool.
Import ListNotations.
Local Open Scope N_scope.

(** SHM_LARGE_FRAG_SIZE of a release build, 69; SHM_NUM_LARGE_FRAGS, 77;
    PLATFORM_CACHELINE_SIZE. *)
Definition LARGE : N := 38 * 1024.
Definition NSLOTS : nat := 128.
Definition LINE : N := 64.
Definition w64 (x : N) : N := x mod 2 ^ 64.

(** platform_align_bytes_reqd, platform_inline.h 429-433; the sizes asked for by
    platform_aligned_malloc (464-465) and platform_realloc (501-503). *)
Definition rounded (align size : N) : N := w64 (size + (align - size mod align) mod align).

(** shm_large_frag_info, 46-56. *)
Record slot := Slot { f_addr : N; f_size : N; f_free : bool }.

(** The control block, 116-134. *)
Record heap := Heap {
  h_base : N;            (* shm_start + sizeof(shmem_heap) *)
  h_end  : N;            (* shm_end *)
  h_next : N;            (* shm_next *)
  h_last : option N;     (* shm_last_alloc *)
  h_hip  : N;            (* shm_large_frag_hip *)
  h_slots : list slot;   (* the slots in use; the array is filled in order *)
  h_used : N; h_avail : N
}.

(** A fragment in the hands of a caller: address, the size asked for, and (for the
    proofs; the code does not look at it) the size reserved at that address. *)
Record frag := Frag { a_addr : N; a_size : N; a_real : N }.

(** Where an agent is. *)
Inductive pc :=
| Idle
| Find (n : N)            (* alloc: 557 *)
| Bump (n : N)            (* alloc: 568 *)
| Track (a n : N)         (* alloc: 604 *)
| Free1 (f : frag)        (* free: 741 *)
| Free2 (f : frag)        (* free: 761 *)
| Boom.                   (* an assertion failed: 542, 803 *)

Record state := St { hp : heap; live : list frag; agents : list pc }.

(** What a caller does. *)
Inductive call := Malloc (n : N) | Release (k : nat).

(** platform_shm_find_large, 967-1007: the first slot that is free and big enough. *)
Fixpoint find_large (n : N) (l : list slot) : option (slot * list slot) :=
  match l with
  | [] => None
  | s :: r =>
      if (n <=? f_size s) && f_free s then Some (s, Slot (f_addr s) (f_size s) false :: r)
      else match find_large n r with
           | Some (x, r') => Some (x, s :: r')
           | None => None
           end
  end.

(** platform_shm_track_free, 877-917. *)
Fixpoint mark_free (a : N) (l : list slot) : list slot :=
  match l with
  | [] => []
  | s :: r =>
      if f_addr s =? a then Slot (f_addr s) (f_size s) true :: r
      else s :: mark_free a r
  end.

Definition w_slots (h : heap) (l : list slot) :=
  Heap (h_base h) (h_end h) (h_next h) (h_last h) (h_hip h) l (h_used h) (h_avail h).

(** One section.  The third component is the range that is written, if any. *)
Definition section (h : heap) (p : pc) : heap * list frag * pc * option (N * N) :=
  match p with
  | Find n =>
      match find_large n (h_slots h) with
      | Some (s, l) =>
          (w_slots h l, [Frag (f_addr s) n (f_size s)], Idle, Some (f_addr s, f_size s))
      | None => (h, [], Bump n, None)
      end
  | Bump n =>
      let ret := h_next h in
      if h_end h <? w64 (ret + n) then (h, [], Idle, None)         (* 573: NULL *)
      else
        let h' := Heap (h_base h) (h_end h) (w64 (ret + n)) (Some ret) (h_hip h)
                       (h_slots h) (w64 (h_used h + n)) (w64 (h_avail h + (2 ^ 64 - n))) in
        if LARGE <=? n then (h', [], Track ret n, None)
        else (h', [Frag ret n n], Idle, None)
  | Track a n =>
      (* 800-804: the assertion looks at all slots in use *)
      if existsb (fun s => f_addr s =? a) (h_slots h) then (h, [], Boom, None)
      else if Nat.ltb (length (h_slots h)) NSLOTS then
        (Heap (h_base h) (h_end h) (h_next h) (h_last h)
              (if h_hip h <? a then a else h_hip h)
              (h_slots h ++ [Slot a n false]) (h_used h) (h_avail h),
         [Frag a n n], Idle, None)
      else (h, [Frag a n n], Idle, None)
  | Free1 f =>
      let p := a_addr f in
      if negb ((h_base h <=? p) && (p <? h_end h)) then (h, [], Idle, None)   (* 722 *)
      else
        match h_last h with
        | Some l =>
            if (l =? p) && (w64 (h_next h + (2 ^ 64 - p)) <? LARGE) then
              let sz := w64 (h_next h + (2 ^ 64 - p)) in
              (Heap (h_base h) (h_end h) p None (h_hip h) (h_slots h)
                    (w64 (h_used h + (2 ^ 64 - sz))) (w64 (h_avail h + sz)), [], Idle, None)
            else (h, [], Free2 f, None)
        | None => (h, [], Free2 f, None)
        end
  | Free2 f =>
      if h_hip h <? a_addr f then (h, [], Idle, None)                          (* 868 *)
      else (w_slots h (mark_free (a_addr f) (h_slots h)), [], Idle, None)
  | Idle => (h, [], Idle, None)
  | Boom => (h, [], Boom, None)
  end.

Fixpoint put {A} (l : list A) (i : nat) (x : A) : list A :=
  match l, i with
  | [], _ => []
  | _ :: r, O => x :: r
  | y :: r, S i' => y :: put r i' x
  end.
Fixpoint del {A} (l : list A) (i : nat) : list A :=
  match l, i with
  | [], _ => []
  | _ :: r, O => r
  | y :: r, S i' => y :: del r i'
  end.

(** Alloc reads shm_next for its assertion (542) and tests the size (557). *)
Definition enter (h : heap) (n : N) : pc :=
  if negb (h_next h mod LINE =? 0) then Boom
  else if LARGE <=? n then Find n else Bump n.

(** A step of agent [i]: a call if it is idle, else its next section. *)
Definition step (s : state) (i : nat) (c : call) : option (state * option (N * N)) :=
  match nth_error (agents s) i with
  | None => None
  | Some Idle =>
      match c with
      | Malloc n => Some (St (hp s) (live s) (put (agents s) i (enter (hp s) n)), None)
      | Release k =>
          match nth_error (live s) k with
          | Some f => Some (St (hp s) (del (live s) k) (put (agents s) i (Free1 f)), None)
          | None => None
          end
      end
  | Some p =>
      let '(h, fs, p', w) := section (hp s) p in
      Some (St h (fs ++ live s) (put (agents s) i p'), w)
  end.

(** platform_shmcreate, 393-404; the segment is fresh, so zero. *)
Definition create (start size ctrl : N) : heap :=
  Heap (start + ctrl) (start + size) (start + ctrl) None 0 [] 0 (size - ctrl).
Definition init (start size ctrl : N) (k : nat) : state :=
  St (create start size ctrl) [] (repeat Idle k).

(** platform_shm_realloc, 651-659, by one caller alone: the new fragment, the range
    written by the copy, and the heap after the old fragment is freed. *)
Fixpoint finish (fuel : nat) (h : heap) (p : pc) : heap * list frag * pc :=
  match fuel with
  | O => (h, [], p)
  | S m =>
      match p with
      | Idle | Boom => (h, [], p)
      | _ => let '(h', fs, p', _) := section h p in
             match fs with
             | [] => finish m h' p'
             | _ => (h', fs, p')
             end
      end
  end.
Definition realloc (h : heap) (old : frag) (newsize : N) : option (frag * (N * N) * heap) :=
  match finish 3 h (enter h newsize) with
  | (h', f :: _, Idle) => Some (f, (a_addr f, a_size old), fst (fst (finish 3 h' (Free1 old))))
  | _ => None
  end.
