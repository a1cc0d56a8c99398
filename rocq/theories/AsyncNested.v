(** * The asynchronous lookups in a btree and in a filter

    /repo/src/btree.c:2203-2453 on the tree of Btree.v, /repo/src/routing_filter.c:
    946-1162 on the filter of Filter.v.  The outcomes of cache_get_async are those of
    Async.v.  The pages do not change during a lookup: the branches and filters of
    the trunk are never written once they are complete. *)

From Coq Require Import List Arith NArith ZArith Bool.
From Verif Require Import Base Page Search Btree PackedArr Filter Async.
Import ListNotations.
Local Open Scope nat_scope.

(** ** btree_lookup_async_with_ref, btree.c:2266-2374 *)

(** btree.h:176-183 *)
Inductive bstate := BStart | BGet | BIndex | BLeaf.
(** A page of the tree, with what is below it *)
Definition btpage := { ht : nat & tree ht }.
(** btree.h:186-201: child_addr, the node held, the page got; the references *)
Record bctx := BCtx {
  b_state : bstate; b_child : option btpage; b_node : option btpage; b_page : option btpage; b_refs : nat
}.
(** btree.h:229-237, btree_ctxt_init *)
Definition bctx_init : bctx := BCtx BStart None None None 0.

Section BtreeAsync.
Variables (cfg : data_config) (ht : nat) (t : tree ht) (k : bytes).

(** 2289-2327.  With async_success the page is referenced. *)
Definition bget (e : ev) (c : bctx) : res bctx (option message * nat) :=
  match e with
  | Got => Loop true (BCtx BIndex (b_child c) (b_node c) (b_child c) (S (b_refs c)))
  | Busy => Retry (BCtx BGet (b_child c) (b_node c) (b_page c) (b_refs c))
  | Started => Wait (BCtx BGet (b_child c) (b_node c) (b_page c) (b_refs c))
  end.
(** 2227-2243 *)
Definition bcallback (c : bctx) : option bctx :=
  match b_state c with
  | BGet => Some (BCtx BIndex (b_child c) (b_node c) (b_child c) (S (b_refs c)))
  | _ => None
  end.
(** 2345-2352: btree_find_pivot, and the child *)
Definition bdescend (x : btpage) : option btpage :=
  match x with
  | existT _ O _ => None
  | existT _ (S h') p =>
      match find_pivot cfg (p : page (ient (tree h'))) (KUser k) with
      | None => None
      | Some (i, _) => match get_child (p : page (ient (tree h'))) (clamp0 i) with
                       | None => None
                       | Some e => Some (existT _ h' (ie_child e))
                       end
      end
  end.
(** The result: the message, and the references still held *)
Definition bturn (e : ev) (c : bctx) : res bctx (option message * nat) :=
  match b_state c with
  | BStart => bget e (BCtx BGet (Some (existT _ ht t)) None (b_page c) (b_refs c))         (* 2282-2288 *)
  | BGet => bget e c
  | BIndex =>                                                                           (* 2328-2354 *)
      let refs := match b_node c with Some _ => b_refs c - 1 | None => b_refs c end in
      match b_page c with
      | None => Dead
      | Some (existT _ O _ as x) => Loop false (BCtx BLeaf (b_child c) (Some x) (b_page c) refs)
      | Some x =>
          match bdescend x with
          | None => Dead
          | Some y => Loop false (BCtx BGet (Some y) (Some x) (b_page c) refs)
          end
      end
  | BLeaf =>                                                                            (* 2355-2367 *)
      match b_node c with
      | Some (existT _ O l) =>
          match find_tuple cfg (lf_page (l : leaf)) (KUser k) with
          | None => Dead
          | Some (_, false) => Finished (None, b_refs c - 1)
          | Some (i, true) =>
              match nth_error (pg_cont (lf_page (l : leaf))) (Z.to_nat i) with
              | None => Dead
              | Some (_, m) => Finished (Some m, b_refs c)
              end
          end
      | _ => Dead
      end
  end.

(** btree_lookup_async_with_ref to the end, and the unget of the callers (2421,
    2450) *)
Definition btree_async (fuel : nat) (o : nat -> ev) : option (option (option message * nat)) :=
  match drive bturn bcallback fuel o 0 bctx_init with
  | Some (Some (Some m, refs)) => Some (Some (Some m, refs - 1))
  | r => r
  end.

End BtreeAsync.

(** ** routing_filter_lookup_async, routing_filter.c:996-1162 *)

(** routing_filter.h:60-68 *)
Inductive rstate := RStart | RGetIndex | RGetFilter | RGotIndex | RGotFilter.
(** routing_filter.h:71-90; [r_hdr]: what header_addr points to, once it is known *)
Record rctx := RCtx {
  r_state : rstate; r_rem_size : N; r_bucket : N; r_index : N; r_rem : N; r_hdr : option fblock; r_refs : nat
}.
(** routing_filter.h:142-149 *)
Definition rctx_init : rctx := RCtx RStart 0 0 0 0 None 0.
Definition set_rstate (s : rstate) (refs : nat) (c : rctx) : rctx :=
  RCtx s (r_rem_size c) (r_bucket c) (r_index c) (r_rem c) (r_hdr c) refs.

Section FilterAsync.
Variables (cfg : fcfg) (f : filter) (hash : N).

(** 1077-1085 and 946-966 *)
Definition rgot (c : rctx) : rctx :=
  set_rstate (match r_state c with RGetIndex => RGotIndex | _ => RGotFilter end) (S (r_refs c)) c.
Definition rget (e : ev) (c : rctx) : res rctx (N * nat) :=
  match e with Got => Loop true (rgot c) | Busy => Retry c | Started => Wait c end.
Definition rcallback (c : rctx) : option rctx :=
  match r_state c with RGetIndex | RGetFilter => Some (rgot c) | _ => None end.
(** 1012-1042 *)
Definition rstart (c : rctx) : option rctx :=
  let fp := N.shiftr hash (32 - fc_fs cfg) in
  let vs := rf_vs f in
  match sizes_of cfg (rf_num f) with
  | None => None
  | Some (_, _, rem) =>
      Some (RCtx RGetIndex rem (N.shiftr (shl32 fp vs) (rem + vs))
                 (get_index (shl32 fp vs) (rem + vs + fc_log_index cfg)) (N.land fp (mask32 rem)) (r_hdr c) (r_refs c))
  end.
Definition rturn (e : ev) (c : rctx) : res rctx (N * nat) :=
  match r_state c with
  | RStart => match rstart c with None => Dead | Some c' => rget e c' end
  | RGetIndex | RGetFilter => rget e c
  | RGotIndex =>                                                                        (* 1092-1108 *)
      match nth_error (rf_blocks f) (N.to_nat (r_index c)) with
      | None => Dead
      | Some b => Loop false (RCtx RGetFilter (r_rem_size c) (r_bucket c) (r_index c) (r_rem c) (Some b) (r_refs c - 1))
      end
  | RGotFilter =>                                                                       (* 1109-1155 *)
      match r_hdr c with
      | None => Dead
      | Some b =>
          let vs := rf_vs f in
          match bucket_bounds (fb_enc b) (header_length cfg (fb_num b)) (r_bucket c mod fc_index cfg)%N (enc_fuel cfg (fb_num b)) with
          | None => Dead
          | Some (s, e) =>
              match scan_bucket vs (r_rem_size c + vs) (r_rem c) (fb_rem b) (N.to_nat (e - s)) e 0 with
              | None => Dead
              | Some x => Finished (x, r_refs c - 1)
              end
          end
      end
  end.
Definition filter_async (fuel : nat) (o : nat -> ev) : option (option (N * nat)) :=
  drive rturn rcallback fuel o 0 rctx_init.
End FilterAsync.
