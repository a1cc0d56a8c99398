(** * Configuration: defaults, validation and the derived geometry

    /repo/src/splinterdb.c: splinterdb_config_set_defaults (71-114),
    splinterdb_validate_app_data_config (116-126), splinterdb_init_config
    (145-225), with the functions it calls: io_config_init (io.h:198-221),
    laio_config_valid (platform_linux/laio.c:609-641), allocator_config_init
    (allocator.c:13-27), clockcache_config_init (clockcache.c:1753-1772),
    task_system_config_init (task.c:841-875), trunk_config_init
    (trunk.c:9615-9791), btree_config_init (btree.c:3884-3898) and
    memtable_config_init (memtable.c:351-363); then rc_allocator_valid_config
    (rc_allocator.c:270-309).

    uint64 arithmetic wraps ([w64]); uint32 fields truncate ([w32]).

    Simplifications: a string is its length; NULL is [None]; callbacks are
    whether they are there.  Fields that are only copied are kept in the copied
    configuration [k_cfg].  Log messages are left out.
    Definitions only; no proofs. *)

From Coq Require Import List NArith Bool.
From Verif Require Import Filter.
Import ListNotations.
Local Open Scope N_scope.

Definition w64 (x : N) : N := x mod 2 ^ 64.
Definition w32 (x : N) : N := x mod 2 ^ 32.
(** [a - b] on uint64, for [a] and [b] below 2^64 *)
Definition sub64 (a b : N) : N := w64 (a + 2 ^ 64 - b).

(** What a call can do: return, report STATUS_BAD_PARAM, fail an assertion, run
    into undefined behaviour, or loop forever *)
Inductive res (A : Type) :=
| Ok : A -> res A
| BadParam : res A
| AssertFail : res A
| Undef : res A
| Diverge : res A.
Arguments Ok {A} _.
Arguments BadParam {A}.
Arguments AssertFail {A}.
Arguments Undef {A}.
Arguments Diverge {A}.

Definition rbind {A B} (x : res A) (f : A -> res B) : res B :=
  match x with
  | Ok a => f a
  | BadParam => BadParam
  | AssertFail => AssertFail
  | Undef => Undef
  | Diverge => Diverge
  end.
Definition assert_ {A} (b : bool) (k : res A) : res A := if b then k else AssertFail.

(** data_config, include/splinterdb/data.h:159-180 *)
Record dconf := DConf {
  d_max_key : N;
  d_compare : bool;
  d_hash : bool;
  d_key_to_string : bool;
  d_msg_to_string : bool
}.

(** splinterdb_config, include/splinterdb/splinterdb.h:45-147; the heap and
    shared-memory fields are not read here. *)
Record uconf := UConf {
  u_filename : option N;
  u_cache_size : N;
  u_disk_size : N;
  u_data : dconf;
  u_page_size : N;
  u_extent_size : N;
  u_io_flags : N;
  u_io_perms : N;
  u_io_depth : N;
  u_cache_use_stats : bool;
  u_cache_logfile : option N;
  u_memtable_threads : N;
  u_normal_threads : N;
  u_rough_count_height : N;
  u_filter_remainder : N;
  u_filter_index : N;
  u_use_log : bool;
  u_memtable_capacity : N;
  u_fanout : N;
  u_max_branches : N;
  u_use_stats : N;
  u_reclaim : N;
  u_queue_scale : N
}.

(** [if (!x) x = d;] *)
Definition dflt (x d : N) : N := if x =? 0 then d else x.

(** O_RDWR | O_CREAT on Linux, and 0755 *)
Definition O_RDWR_CREAT : N := 66.
Definition PERM_755 : N := 493.

(** platform_linux/laio.h: LAIO_DEFAULT_PAGE_SIZE, LAIO_DEFAULT_EXTENT_SIZE *)
Definition LAIO_PAGE : N := 4096.
Definition LAIO_EXTENT : N := 32 * 4096.

(** splinterdb.c:71-114 *)
Definition set_defaults (c : uconf) : uconf :=
  UConf (u_filename c) (u_cache_size c) (u_disk_size c) (u_data c)
    (dflt (u_page_size c) LAIO_PAGE)
    (dflt (u_extent_size c) LAIO_EXTENT)
    (dflt (u_io_flags c) O_RDWR_CREAT)
    (dflt (u_io_perms c) PERM_755)
    (dflt (u_io_depth c) 256)
    (u_cache_use_stats c) (u_cache_logfile c)
    (u_memtable_threads c) (u_normal_threads c)
    (dflt (u_rough_count_height c) 1)
    (dflt (u_filter_remainder c) 4)
    (dflt (u_filter_index c) 512)
    (u_use_log c)
    (dflt (u_memtable_capacity c) (24 * 1024 * 1024))
    (dflt (u_fanout c) 8)
    (dflt (u_max_branches c) 24)
    (u_use_stats c)
    (dflt (u_reclaim c) (2 ^ 64 - 1))
    (u_queue_scale c).

(** splinterdb.c:116-126; trunk_validate_data_config (trunk.c) asserts part of
    the same. *)
Definition data_valid (d : dconf) : bool :=
  (0 <? d_max_key d) && d_compare d && d_hash d && d_key_to_string d && d_msg_to_string d.

(** ** Sizes, packed (ONDISK, util.h:351) *)

Definition sizeof_routing_filter : N := 8 + 8 + 4 + 4 + 4.       (* routing_filter.h:49-55 *)
Definition sizeof_bundle : N := 2 + 2 + 8 + 8.                   (* trunk.c:507-512 *)
Definition sizeof_subbundle : N := 2 * 5.                        (* trunk.c:482-488 *)
Definition MAX_BUNDLES : N := 12.                                (* trunk.c:61-63 *)
Definition MAX_SUBBUNDLES : N := 24.
Definition MAX_SB_FILTERS : N := 24.
Definition sizeof_trunk_hdr : N :=                               (* trunk.c:531-550 *)
  8 + 2 + 2 + 8 + 9 * 2 + MAX_BUNDLES * sizeof_bundle + MAX_SUBBUNDLES * sizeof_subbundle
  + MAX_SB_FILTERS * sizeof_routing_filter.
Definition sizeof_ondisk_key : N := 2 + 1.                       (* data_internal.h:229-233 *)
Definition sizeof_pivot_data : N := 6 * 8 + 2 * 2 + sizeof_routing_filter + 8 + sizeof_ondisk_key. (* trunk.c:566-578 *)
Definition sizeof_branch : N := 8.                               (* trunk.h:165-167 *)
Definition EXTRA_PIVOT_KEYS : N := 6.                            (* trunk.c:104 *)
Definition MAX_PIVOTS : N := 20.                                 (* trunk.c:60 *)
Definition sizeof_btree_hdr : N := 37.                           (* btree_private.h:36-45 *)
Definition sizeof_leaf_entry : N := 2 + 1 + 2 + 1.               (* data_internal.h:386-392 *)
Definition sizeof_table_entry : N := 2.

(** What is derived; [k_cfg] is the configuration with the defaults in. *)
Record kvs := Kvs {
  k_cfg : uconf;
  k_async_max_pages : N;
  k_disk_pages : N;
  k_disk_extents : N;
  k_extent_mask : N;
  k_log_page : N;
  k_cache_pages : N;
  k_cache_stats : N;
  k_max_pivot_keys : N;
  k_hard_max_branches : N;
  k_max_extents_per_memtable : N;
  k_max_kv_bytes : N;
  k_target_leaf : N;
  k_max_tuples : N;
  k_fingerprint : N;
  k_index : N;
  k_log_index : N
}.

(** MAX_STRING_LENGTH, platform.h:129; [snprintf] of NULL writes "(null)" *)
Definition string_fits (s : option N) : bool :=
  match s with Some l => l <? 256 | None => true end.

(** trunk.c:9776-9786.  32 doublings of a uint32 leave 0, which is not more than
    anything, so a loop that has not ended after that never does (see
    [index_loop_stuck] in ConfigProofs.v). *)
Fixpoint index_loop (fuel : nat) (bound index log : N) : option (N * N) :=
  if index <=? bound then
    match fuel with
    | O => None
    | S f => index_loop f bound (w32 (2 * index)) (w32 (log + 1))
    end
  else Some (index, log).

(** __builtin_clzll(x) as [64 - clzll x], the number of bits of [x]; [x = 0] is
    undefined *)
Definition bits (x : N) : N := N.log2 x + 1.

(** trunk.c:9728-9788: the filter part of trunk_config_init *)
Definition filter_config (remainder index max_tuples max_branches : N) : res (N * N * N) :=
  let index := w32 index in
  if index =? 0 then Undef else
  let log := N.log2 index in
  if max_tuples =? 0 then Undef else
  let fs := w64 (remainder + bits max_tuples) in
  if max_branches =? 0 then Undef else
  let room := sub64 32 (bits max_branches) in
  let fs := if room <? fs then w32 room else w32 fs in
  match index_loop 32 (max_tuples / ((LAIO_PAGE / 8) * (LAIO_EXTENT / LAIO_PAGE))) index log with
  | Some (index, log) => Ok (fs, index, log)
  | None => Diverge
  end.

(** trunk.c:9658-9711: the pivots and branches of a node *)
Definition node_config (page max_key fanout max_branches : N) : res (N * N) :=
  let pivot_size := w64 (max_key + sizeof_pivot_data) in
  let max_pivot_keys := w64 (fanout + EXTRA_PIVOT_KEYS) in
  let pivot_bytes := w64 (max_pivot_keys * pivot_size) in
  let branch_bytes := w64 (max_branches * sizeof_branch) in
  let min_size := w64 (sizeof_trunk_hdr + pivot_bytes + branch_bytes) in
  if max_pivot_keys =? 0 then Undef else      (* the division on 9669-9670 *)
  if page <=? min_size then BadParam else
  let bytes_for_branches := sub64 (sub64 page sizeof_trunk_hdr) pivot_bytes in
  Ok (max_pivot_keys, sub64 (bytes_for_branches / sizeof_branch) 1).

(** splinterdb.c:145-225 *)
Definition init_config (c0 : uconf) : res kvs :=
  assert_ (data_valid (u_data c0))
  (if (match u_filename c0 with None => true | Some _ => false end)
      || (u_cache_size c0 =? 0) || (u_disk_size c0 =? 0) then BadParam else
   let c := set_defaults c0 in
   assert_ (string_fits (u_filename c))
   (if negb (u_page_size c =? LAIO_PAGE) then BadParam else
    if negb (u_extent_size c =? LAIO_EXTENT) then BadParam else
    assert_ (string_fits (u_cache_logfile c))
    (if 64 <=? w64 (u_normal_threads c + u_memtable_threads c) then BadParam else
     rbind (node_config (u_page_size c) (d_max_key (u_data c)) (u_fanout c) (u_max_branches c))
     (fun n =>
      let '(max_pivot_keys, hard_max) := n in
      assert_ (sizeof_leaf_entry + u_page_size c / 8 + 35 * u_page_size c / 100 + sizeof_table_entry
               <? (u_page_size c - sizeof_btree_hdr) / 2)
      (let max_extents := w64 (2 * u_memtable_capacity c) / u_extent_size c in
       let max_kv := w64 (u_fanout c * max_extents * u_extent_size c) / 2 in
       let max_tuples := max_kv / 32 in
       rbind (filter_config (u_filter_remainder c) (u_filter_index c) max_tuples (u_max_branches c))
       (fun f =>
        let '(fs, index, log) := f in
        Ok (Kvs c
              (u_extent_size c / u_page_size c)
              (u_disk_size c / u_page_size c)
              (u_disk_size c / u_extent_size c)
              (2 ^ 64 - 2 ^ N.log2 (u_extent_size c))
              (N.log2 (u_page_size c))
              (u_cache_size c / u_page_size c)
              (u_use_stats c)
              max_pivot_keys hard_max max_extents max_kv (max_kv / 2) max_tuples fs index log))))))).

(** rc_allocator.c:270-309 *)
Definition allocator_valid (k : kvs) : res unit :=
  let c := k_cfg k in
  if negb (u_page_size c =? LAIO_PAGE) then BadParam else
  if negb (u_extent_size c =? LAIO_EXTENT) then BadParam else
  if u_disk_size c =? 0 then BadParam else
  if k_disk_extents k =? 0 then BadParam else
  if negb (u_disk_size c =? w64 (u_page_size c * k_disk_pages k)) then BadParam else
  if negb (u_disk_size c =? w64 (u_extent_size c * k_disk_extents k)) then BadParam else
  Ok tt.

(** ** Where things are in a trunk node *)

(** trunk_pivot_size, trunk.c:1435-1439 *)
Definition pivot_size (k : kvs) : N := sizeof_pivot_data + d_max_key (u_data (k_cfg k)).
(** trunk_get_pivot_data, trunk.c:1441-1446 *)
Definition pivot_off (k : kvs) (pivot_no : N) : N := sizeof_trunk_hdr + pivot_no * pivot_size k.
(** trunk_get_branch, trunk.c:2750-2762 *)
Definition branch_off (k : kvs) (branch_no : N) : N :=
  sizeof_trunk_hdr + k_max_pivot_keys k * pivot_size k + branch_no * sizeof_branch.
(** trunk_add_branch_number, trunk.c:1353-1357: [%] by zero is undefined *)
Definition add_branch_number (k : kvs) (branch_no offset : N) : res N :=
  if k_hard_max_branches k =? 0 then Undef
  else Ok ((branch_no + offset) mod k_hard_max_branches k mod 2 ^ 16).

(** The routing filter's configuration as the filter model takes it *)
Definition filter_cfg (k : kvs) : fcfg := FCfg (k_fingerprint k) (k_index k) (k_log_index k) (u_page_size (k_cfg k)).
