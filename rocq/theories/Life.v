(** * Creating, opening and closing a database

    /repo/src/splinterdb.c: splinterdb_create_or_open (231-399), splinterdb_close
    (431-460), with the setup and teardown of the parts: io_handle_init and
    io_handle_deinit (platform_linux/laio.c:157-263), task_system_create and
    task_system_destroy (task.c:888-973, 572-642), rc_allocator_init, _mount,
    _unmount and _deinit (rc_allocator.c:224-256, 320-488), super block addresses
    (rc_allocator.c:578-658), clockcache_init and clockcache_deinit
    (clockcache.c:1774-1938), trunk_create, trunk_mount, trunk_unmount,
    trunk_set_super_block and trunk_get_super_block_if_valid (trunk.c:906-983,
    7645-7895, 7966-7986), srq_init and srq_deinit (srq.h:36-51).

    A call is run against a stream of failures ([fails n] says whether the n-th
    thing that can fail does) and gives what it returns, or that the process died
    (failed assertion, NULL dereferenced), and the list of what it did to
    resources and to the device.

    Simplifications: the database's memory below the super block (reference
    counts, pages, root, ...) is an [image]; what trunk_create, trunk_mount and the
    work in between do to it is a parameter of the call.  Reads of the device
    inside a call see the device as it was at the start of the call.  The page
    of a super block is written as a whole and in place; a checksum that does not
    match is [None].  The memtable context, log and statistics are one resource
    [RTrunk].
    Definitions only; no proofs. *)

From Coq Require Import List NArith Arith Bool.
From Verif Require Import Config.
Import ListNotations.

(** ** Resources and events *)

Inductive resource :=
| RHeap                     (* shared segment, platform_heap_create *)
| RKvs                      (* the handle *)
| RFd | RReqs               (* file descriptor, async requests *)
| RTask                     (* task_system *)
| RReg                      (* this thread's id and scratch space *)
| RCond (g : nat)           (* lock and condition variable of task group g *)
| RThread (g j : nat)       (* background thread *)
| RAlLock | RMeta | RRefs   (* allocator: lock, meta page, reference counts *)
| RLookup | REntry | RData | RCount | RPin | RBusy  (* cache *)
| RSpl                      (* trunk_handle *)
| RSrq                      (* lock of the space reclamation queue *)
| RTrunk.                   (* memtable context, log, statistics *)

(** Super block, trunk.c:449-460; [None] on the device: checksum does not match *)
Record super := Super {
  s_root : N; s_next : N; s_tail : N; s_time : N; s_unmounted : bool
}.

(** What a database is below its super block: reference counts by extent, pages
    by address, root address, next node id and the tail of the trunk's extents *)
Record image := Image {
  i_refs : N -> N; i_pages : N -> N; i_root : N; i_next : N; i_tail : N
}.

(** The device: meta page (ids of databases by slot), super blocks by slot,
    stored reference counts, other pages *)
Record disk := Disk {
  d_meta : option (list N); d_super : nat -> option super; d_refs : N -> N; d_pages : N -> N
}.

Inductive write :=
| WMeta (ids : list N)
| WSuper (slot : nat) (s : super)
| WRefs (refs : N -> N)
| WPage (addr v : N).

Inductive event :=
| Acq (r : resource)
| Rel (r : resource)
| Use (r : resource)     (* needs the resource *)
| Wr (w : write).

Definition set_super (f : nat -> option super) (slot : nat) (v : option super) : nat -> option super :=
  fun i => if i =? slot then v else f i.
Definition set_page (f : N -> N) (a v : N) : N -> N := fun b => if N.eqb b a then v else f b.

Definition write_disk (d : disk) (w : write) : disk :=
  match w with
  | WMeta ids => Disk (Some ids) (d_super d) (d_refs d) (d_pages d)
  | WSuper k s => Disk (d_meta d) (set_super (d_super d) k (Some s)) (d_refs d) (d_pages d)
  | WRefs r => Disk (d_meta d) (d_super d) r (d_pages d)
  | WPage a v => Disk (d_meta d) (d_super d) (d_refs d) (set_page (d_pages d) a v)
  end.

Definition writes_of (es : list event) : list write :=
  flat_map (fun e => match e with Wr w => [w] | _ => [] end) es.

Definition disk_after (d : disk) (ws : list write) : disk := fold_left write_disk ws d.

(** ** Calls *)

Inductive outcome (A : Type) := Ret (a : A) | Died.
Arguments Ret {A} _.
Arguments Died {A}.

(** [fails], how many failures were asked for so far *)
Definition M (A : Type) := (nat -> bool) -> nat -> outcome A * nat * list event.

Definition ret {A} (a : A) : M A := fun _ n => (Ret a, n, []).
Definition die {A} : M A := fun _ n => (Died, n, []).
Definition bind {A B} (m : M A) (k : A -> M B) : M B := fun fails n =>
  match m fails n with
  | (Ret a, n1, e1) => let '(o, n2, e2) := k a fails n1 in (o, n2, e1 ++ e2)
  | (Died, n1, e1) => (Died, n1, e1)
  end.
Notation "'do' x <- m ; k" := (bind m (fun x => k)) (at level 200, x name, m at level 100, k at level 200).
Notation "m ;; k" := (bind m (fun _ => k)) (at level 100, k at level 200, right associativity).
Definition emit (e : event) : M unit := fun _ n => (Ret tt, n, [e]).
(** Does the next thing that can fail work? *)
Definition works : M bool := fun fails n => (Ret (negb (fails n)), S n, []).
Definition acquire (r : resource) : M bool :=
  do ok <- works; if ok then emit (Acq r) ;; ret true else ret false.
(** acquire, or a failed assertion (or NULL dereferenced) *)
Definition acquire_or_die (r : resource) : M unit :=
  do ok <- acquire r; if ok then ret tt else die.
Definition check (b : bool) : M unit := if b then ret tt else die.

(** Where a call failed *)
Inductive place :=
| PHeap | PKvs | PConfig | PIoOpen | PIoStat | PIoFallocate | PTaskMem | PTaskGroup | PAllocator | PCache | PTrunk.

Inductive result := Good (slot : nat) (im : image) | Bad (p : place).

(** *** I/O handle, laio.c:157-263 *)
Definition io_init (depth : N) : M (option place) :=
  check (N.eqb (N.modulo depth 32) 0) ;;                    (* 170 *)
  do ok <- acquire RFd;                                     (* 177-187 *)
  if negb ok then ret (Some PIoOpen) else
  do ok <- works;                                           (* 189-194: fstat *)
  if negb ok then ret (Some PIoStat) else
  do ok <- works;                                           (* 196-202: fallocate *)
  if negb ok then ret (Some PIoFallocate) else
  acquire_or_die RReqs ;;                                   (* 211-216 *)
  ret None.

Definition io_deinit : M unit := emit (Rel RFd) ;; emit (Rel RReqs).

(** *** Task system, task.c *)

(** 572-595: [n] threads of group [g], joined from number [j] on *)
Fixpoint join_threads (g j n : nat) : M unit :=
  match n with
  | O => ret tt
  | S n' => emit (Rel (RThread g j)) ;; join_threads g (S j) n'
  end.
Definition stop_threads (g n : nat) : M unit := emit (Use (RCond g)) ;; join_threads g 0 n.

(** 622-635: threads [j], ..., [n - 1]; the number made *)
Fixpoint make_threads (g j todo : nat) : M (nat * bool) :=
  match todo with
  | O => ret (j, true)
  | S t => do ok <- acquire (RThread g j); if ok then make_threads g (S j) t else ret (j, false)
  end.

(** 604-642; the number of threads in the group and whether it worked *)
Definition group_init (g n : nat) : M (nat * bool) :=
  do ok <- acquire (RCond g);                               (* 617-620 *)
  if negb ok then ret (0, false) else
  do r <- make_threads g 0 n;
  if snd r then ret (fst r, true) else
  stop_threads g (fst r) ;;                                 (* 631 *)
  emit (Rel (RCond g)) ;;                                   (* 640 *)
  ret (0, false).

(** 597-602 *)
Definition group_deinit (g n : nat) : M unit := stop_threads g n ;; emit (Rel (RCond g)).

(** 952-973; groups 1 (memtable) and 2 (normal) with their threads; whether this
    thread is registered *)
Definition tasks_destroy (n1 n2 : nat) (registered : bool) : M unit :=
  group_deinit 1 n1 ;; group_deinit 2 n2 ;;
  (if registered then emit (Rel RReg) else ret tt) ;;
  emit (Rel RTask).

(** 888-943; registered or where it failed *)
Definition tasks_create (n1 n2 : nat) : M (bool + place) :=
  do ok <- acquire RTask;                                   (* 899-903 *)
  if negb ok then ret (inr PTaskMem) else
  do reg <- acquire RReg;                                   (* 915: the result is not looked at *)
  do r1 <- group_init 1 n1;
  if negb (snd r1) then
    check reg ;; emit (Rel RReg) ;;                         (* 924; asserts that it is registered *)
    tasks_destroy (fst r1) 0 false ;;                       (* 925: both groups, ready or not *)
    ret (inr PTaskGroup)
  else
  do r2 <- group_init 2 n2;
  if negb (snd r2) then
    check reg ;; emit (Rel RReg) ;;
    tasks_destroy (fst r1) (fst r2) false ;;
    ret (inr PTaskGroup)
  else ret (inl reg).

(** *** Allocator, rc_allocator.c *)

(** The counts of a new device: the extents of the super blocks and of the counts
    themselves, 358-382 *)
Definition new_refs (extents : N) : N -> N :=
  let n := N.div (N.div (extents + 4095) 4096 * 4096 + 131071) 131072 in
  fun e => if N.leb e n then 2%N else 0%N.

(** 320-383; [true]: worked *)
Definition al_init (k : kvs) : M bool :=
  match allocator_valid k with
  | Ok _ =>
      do ok <- acquire RAlLock;
      if negb ok then ret false else
      do ok <- acquire RMeta;
      if negb ok then emit (Rel RAlLock) ;; ret false else
      do ok <- acquire RRefs;
      if negb ok then emit (Rel RAlLock) ;; emit (Rel RMeta) ;; ret false else
      ret true
  | _ => ret false
  end.

(** 402-473; reading the device fails an assertion if it goes wrong *)
Definition al_mount (k : kvs) (d : disk) : M bool :=
  do ok <- acquire RAlLock;
  if negb ok then ret false else
  do ok <- acquire RMeta;
  if negb ok then emit (Rel RAlLock) ;; ret false else
  check (match allocator_valid k with Ok _ => true | _ => false end) ;;   (* 430-434 *)
  do ok <- acquire RRefs;
  if negb ok then emit (Rel RMeta) ;; emit (Rel RAlLock) ;; ret false else
  do ok <- works;
  check ok ;;                                                             (* 448-450 *)
  check (match d_meta d with Some _ => true | None => false end) ;;       (* 452-458 *)
  do ok <- works;
  check ok ;;                                                             (* 463-464 *)
  ret true.

(** 385-392 and 476-488 *)
Definition al_unmount (refs : N -> N) : M unit :=
  do ok <- works;
  check ok ;;
  emit (Use RRefs) ;; emit (Wr (WRefs refs)) ;;
  emit (Rel RRefs) ;; emit (Rel RAlLock) ;; emit (Rel RMeta).

(** *** Cache, clockcache.c:1774-1938 *)

(** The allocations in order; [have] are those done, [None]: all done *)
Fixpoint acquire_all (rs : list resource) (have : list resource) : M (option (list resource)) :=
  match rs with
  | [] => ret None
  | r :: t => do ok <- acquire r; if ok then acquire_all t (have ++ [r]) else ret (Some have)
  end.

(** clockcache_deinit: what is there is released, in this order *)
Fixpoint release_all (rs : list resource) : M unit :=
  match rs with [] => ret tt | r :: t => emit (Rel r) ;; release_all t end.

Definition cache_resources : list resource := [RLookup; REntry; RData; RCount; RPin; RBusy].

Definition cache_init (k : kvs) : M bool :=
  check (N.eqb (N.modulo (k_cache_pages k) 64) 0 && N.eqb (u_cache_size (k_cfg k)) (k_cache_pages k * 4096)) ;; (* 1802-1804 *)
  do r <- acquire_all cache_resources [];
  match r with
  | None => ret true
  | Some have => release_all have ;; ret false
  end.

Definition cache_deinit : M unit := release_all cache_resources.

(** *** Super block addresses, rc_allocator.c:578-658 *)

Definition MAX_ROOT_IDS : nat := 30.

(** 578-597: the slot of [id] *)
Fixpoint find_id (ids : list N) (id : N) (slot : nat) : option nat :=
  match ids with
  | [] => None
  | x :: r => if N.eqb x id then Some slot else find_id r id (S slot)
  end.

(** 599-631: the first free slot (id 0) is taken *)
Definition take_slot (ids : list N) (id : N) : option (nat * list N) :=
  match find_id ids 0 0 with
  | Some k => Some (k, firstn k ids ++ id :: skipn (S k) ids)
  | None => None
  end.

(** 633-658 *)
Definition drop_slot (ids : list N) (id : N) : option (list N) :=
  match find_id ids id 0 with
  | Some k => Some (firstn k ids ++ 0%N :: skipn (S k) ids)
  | None => None
  end.

(** The address of a slot's super block, 590 and 613 *)
Definition super_addr (page_size : N) (slot : nat) : N := (1 + N.of_nat slot) * page_size.

(** *** Trunk *)

Definition trunk_id : N := 1.

(** trunk.c:906-958 *)
Definition write_super (slot : nat) (im : image) (now : N) (unmount : bool) : M unit :=
  emit (Use RReg) ;;
  emit (Wr (WSuper slot (Super (i_root im) (i_next im) (i_tail im) now unmount))).

(** Pages written back while a call runs *)
Fixpoint write_pages (l : list (N * N)) : M unit :=
  match l with [] => ret tt | (a, v) :: r => emit (Wr (WPage a v)) ;; write_pages r end.

(** What a call to trunk_create or trunk_mount makes of the database: a function
    of the image it starts from, and the pages it happens to write back *)
Record activity := Activity { act_image : image -> image; act_pages : list (N * N); act_time : N }.

(** 7645-7757; [im0] has the reference counts of the fresh allocator *)
Definition trunk_create (im0 : image) (act : activity) : M (nat * image) :=
  acquire_or_die RSpl ;;                                    (* 7653: not checked *)
  emit (Acq RSrq) ;;
  emit (Use RReg) ;;
  acquire_or_die RTrunk ;;
  let im := act_image act im0 in
  write_pages (act_pages act) ;;
  match take_slot (repeat 0%N MAX_ROOT_IDS) trunk_id with
  | Some (slot, ids) =>
      do ok <- works;
      check ok ;;
      emit (Wr (WMeta ids)) ;;
      write_super slot im (act_time act) false ;;
      ret (slot, im)
  | None => die
  end.

(** 7762-7856 *)
Definition trunk_mount (d : disk) (act : activity) : M (option (nat * image)) :=
  acquire_or_die RSpl ;;                                    (* 7770: not checked *)
  emit (Acq RSrq) ;;
  emit (Use RReg) ;;
  match find_id (match d_meta d with Some ids => ids | None => [] end) trunk_id 0 with
  | None => die                                             (* 966-967 *)
  | Some slot =>
      match (match d_super d slot with
             | Some s => if s_unmounted s && (N.ltb 0 (s_time s)) && negb (N.eqb (s_root s) 0) then Some s else None
             | None => None
             end) with
      | None => emit (Rel RSpl) ;; ret None                 (* 7800-7812 *)
      | Some s =>
          acquire_or_die RTrunk ;;
          let im := act_image act (Image (d_refs d) (d_pages d) (s_root s) (s_next s) (s_tail s)) in
          write_pages (act_pages act) ;;
          write_super slot im (act_time act) false ;;
          ret (Some (slot, im))
      end
  end.

(** 7966-7986, with trunk_prepare_for_shutdown (7862-7895): [act] is what the last
    flushes do; [act_pages] then has every page that differs from the device. *)
Definition trunk_unmount (slot : nat) (im : image) (act : activity) : M image :=
  emit (Rel RSrq) ;;
  emit (Use RReg) ;;
  let im' := act_image act im in
  emit (Rel RTrunk) ;;
  write_pages (act_pages act) ;;
  write_super slot im' (act_time act) true ;;
  emit (Rel RSpl) ;;
  ret im'.

(** ** splinterdb.c:231-399 *)

(** The failure labels, 358-381 *)
Definition fail_kvs (we_created_heap have_kvs : bool) (p : place) : M result :=
  (if have_kvs then emit (Rel RKvs) else ret tt) ;;
  (if we_created_heap then emit (Rel RHeap) else ret tt) ;;
  ret (Bad p).

Record request := Request {
  q_conf : uconf;
  q_shmem : bool;            (* use_shmem *)
  q_has_heap : bool;         (* heap_id given by the caller *)
  q_open : bool              (* open_existing *)
}.

Definition threads (x : N) : nat := N.to_nat (N.modulo x 256).    (* task_group_init takes a uint8 *)

Definition create_or_open (q : request) (d : disk) (act : activity) : M result :=
  let make_heap := q_shmem q && negb (q_has_heap q) in
  do ok <- (if make_heap then acquire RHeap else ret true);
  if negb ok then fail_kvs false false PHeap else
  do ok <- acquire RKvs;
  if negb ok then fail_kvs make_heap false PKvs else
  match init_config (q_conf q) with
  | BadParam => fail_kvs make_heap true PConfig
  | Ok k =>
      let n1 := threads (u_memtable_threads (k_cfg k)) in
      let n2 := threads (u_normal_threads (k_cfg k)) in
      do io <- io_init (u_io_depth (k_cfg k));
      match io with
      | Some p => fail_kvs make_heap true p
      | None =>
          do t <- tasks_create n1 n2;
          match t with
          | inr p => io_deinit ;; fail_kvs make_heap true p
          | inl reg =>
              do al <- (if q_open q then al_mount k d else al_init k);
              let refs := if q_open q then d_refs d else new_refs (k_disk_extents k) in
              if negb al then
                tasks_destroy n1 n2 reg ;; io_deinit ;; fail_kvs make_heap true PAllocator
              else
              do cc <- cache_init k;
              if negb cc then
                al_unmount refs ;;
                tasks_destroy n1 n2 reg ;; io_deinit ;; fail_kvs make_heap true PCache
              else
              do spl <- (if q_open q then trunk_mount d act
                         else do r <- trunk_create (Image refs (d_pages d) 0 0 0) act; ret (Some r));
              match spl with
              | Some (slot, im) => ret (Good slot im)
              | None =>
                  cache_deinit ;; al_unmount refs ;;
                  tasks_destroy n1 n2 reg ;; io_deinit ;; fail_kvs make_heap true PTrunk
              end
          end
      end
  | _ => die
  end.

(** ** splinterdb.c:431-460 *)

Definition close (q : request) (k : kvs) (slot : nat) (im : image) (act : activity) : M image :=
  do im' <- trunk_unmount slot im act;
  cache_deinit ;;
  al_unmount (i_refs im') ;;
  tasks_destroy (threads (u_memtable_threads (k_cfg k))) (threads (u_normal_threads (k_cfg k))) true ;;
  io_deinit ;;
  emit (Rel RKvs) ;;
  (if q_shmem q && negb (q_has_heap q) then emit (Rel RHeap) else ret tt) ;;
  ret im'.

Definition run {A} (m : M A) (fails : nat -> bool) : outcome A * list event :=
  let '(o, _, e) := m fails 0 in (o, e).

(** ** Histories

    A device, and at most one process using it.  A call runs to its end, or the
    process (or machine) dies in it, at any point: some of its writes are done and
    the next one may be half done.  Between open and close the database changes in
    memory and pages are written back. *)

Record world := World { w_disk : disk; w_live : option (request * kvs * nat * image) }.

Inductive op := OpCreate | OpOpen | OpRun | OpClose.
Inductive ending := Accepted | Refused | Dead.

(** What was written by whom, what was written half, and how it ended *)
Record label := Label { l_op : op; l_writes : list write; l_half : option write; l_end : ending; l_image : option image }.

Definition op_of (q : request) : op := if q_open q then OpOpen else OpCreate.

(** A write done half: damaged checksums are detected *)
Inductive half_write (d : disk) : write -> disk -> Prop :=
| hw_meta : forall ids, half_write d (WMeta ids) (Disk None (d_super d) (d_refs d) (d_pages d))
| hw_super : forall k s, half_write d (WSuper k s) (Disk (d_meta d) (set_super (d_super d) k None) (d_refs d) (d_pages d))
| hw_refs : forall r r', (forall e, r' e = d_refs d e \/ r' e = r e) ->
    half_write d (WRefs r) (Disk (d_meta d) (d_super d) r' (d_pages d))
| hw_page : forall a v v', half_write d (WPage a v) (Disk (d_meta d) (d_super d) (d_refs d) (set_page (d_pages d) a v')).

(** Died after the first [n] of the writes [ws] *)
Inductive died_in (d : disk) (ws : list write) : list write -> option write -> disk -> Prop :=
| di_between : forall n, died_in d ws (firstn n ws) None (disk_after d (firstn n ws))
| di_half : forall n w d', nth_error ws n = Some w -> half_write (disk_after d (firstn n ws)) w d' ->
    died_in d ws (firstn n ws) (Some w) d'.

Inductive wstep : world -> label -> world -> Prop :=
| ws_accept : forall d q k act fails slot im es,
    init_config (q_conf q) = Ok k ->
    run (create_or_open q d act) fails = (Ret (Good slot im), es) ->
    wstep (World d None) (Label (op_of q) (writes_of es) None Accepted None)
          (World (disk_after d (writes_of es)) (Some (q, k, slot, im)))
| ws_refuse : forall d q act fails p es,
    run (create_or_open q d act) fails = (Ret (Bad p), es) ->
    wstep (World d None) (Label (op_of q) (writes_of es) None Refused None) (World (disk_after d (writes_of es)) None)
| ws_die_in_call : forall d q act fails o es ws h d',
    run (create_or_open q d act) fails = (o, es) -> died_in d (writes_of es) ws h d' ->
    wstep (World d None) (Label (op_of q) ws h Dead None) (World d' None)
| ws_work : forall d q k slot im im',
    wstep (World d (Some (q, k, slot, im))) (Label OpRun [] None Accepted None) (World d (Some (q, k, slot, im')))
| ws_write_back : forall d l a v,
    wstep (World d (Some l)) (Label OpRun [WPage a v] None Accepted None)
          (World (write_disk d (WPage a v)) (Some l))
| ws_die : forall d l ws h d' a v,
    died_in d [WPage a v] ws h d' ->
    wstep (World d (Some l)) (Label OpRun ws h Dead None) (World d' None)
| ws_close : forall d q k slot im act fails im' es,
    run (close q k slot im act) fails = (Ret im', es) ->
    (forall a, d_pages (disk_after d (map (fun p => WPage (fst p) (snd p)) (act_pages act))) a = i_pages im' a) ->
    wstep (World d (Some (q, k, slot, im))) (Label OpClose (writes_of es) None Accepted (Some im'))
          (World (disk_after d (writes_of es)) None)
| ws_die_in_close : forall d q k slot im act fails o es ws h d',
    run (close q k slot im act) fails = (o, es) -> died_in d (writes_of es) ws h d' ->
    wstep (World d (Some (q, k, slot, im))) (Label OpClose ws h Dead None) (World d' None).

(** Histories, the last label first *)
Inductive history (d0 : disk) : list label -> world -> Prop :=
| h_start : history d0 [] (World d0 None)
| h_step : forall h w l w', history d0 h w -> wstep w l w' -> history d0 (l :: h) w'.
