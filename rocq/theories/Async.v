(** * The asynchronous lookup

    /repo/src/trunk.c:7033-7597, trunk_lookup_async and its callbacks, on the trunk
    of TrunkNode.v and TrunkTree.v; /repo/src/btree.c:2204-2453 on the tree of
    Btree.v; /repo/src/routing_filter.c:946-1162 on the filter of Filter.v.

    Every cache_get_async has one of three outcomes ([ev]); the sequence of
    outcomes is arbitrary.  A caller calls again after async_locked and
    async_no_reqs, and after async_io_started once the callback has run.

    Simplifications:
    - the state of the database does not change while the lookup is suspended;
    - in the trunk's lookup the nested filter lookup gets two pages and the nested
      btree lookup one more page than the branch is high, and the results are those
      of TrunkNode.v; the nested lookups themselves are modelled below;
    - stats, prev_state and the strings for tracing are left out; so are page
      references within the nested lookups. *)

From Coq Require Import List Arith NArith Lia Bool.
From Verif Require Import Base TrunkNode TrunkTree.
Import ListNotations.
Local Open Scope nat_scope.

(** cache.h: async_success; async_locked and async_no_reqs; async_io_started *)
Inductive ev := Got | Busy | Started.

(** What one turn of the loop of such a lookup does: go round again (having used an
    outcome of cache_get_async or not), return, or die: a failed assertion or an
    access through NULL or beyond an array *)
Inductive res (C R : Type) :=
| Loop (used : bool) (c : C)
| Retry (c : C) | Wait (c : C)          (* async_locked and async_no_reqs; async_io_started *)
| Finished (r : R)                      (* async_success *)
| Dead.
Arguments Loop {C R}. Arguments Retry {C R}. Arguments Wait {C R}. Arguments Finished {C R}. Arguments Dead {C R}.

(** The caller: [i] outcomes have been used.  [None]: not finished after [fuel]
    turns.  [Some None]: dead. *)
Section Drive.
Context {C R : Type}.
Variables (turn : ev -> C -> res C R) (callback : C -> option C).
Fixpoint drive (fuel : nat) (o : nat -> ev) (i : nat) (c : C) : option (option R) :=
  match fuel with
  | O => None
  | S f =>
      match turn (o i) c with
      | Loop used c' => drive f o (if used then S i else i) c'
      | Retry c' => drive f o (S i) c'
      | Wait c' => match callback c' with Some c'' => drive f o (S i) c'' | None => Some None end
      | Finished r => Some (Some r)
      | Dead => Some None
      end
  end.
End Drive.

(** ** trunk_lookup_async *)

(** trunk.h:254-272 *)
Inductive astate :=
| AStart | AMem | ARoot | ANode | ASub | APivot | AFilterStart | AFilter
| ABtreeStart | ABtree | ANext | ADone | AChild | AUnget | AEarly | AEnd.
(** trunk.h:274-279 *)
Inductive lstate := LPivot | LSub | LCompacted.

(** trunk.h:296-328, and what the lookup has taken.  [c_node]: trunk_node, [None]
    when it is zeroed.  [c_page]: cache_ctxt.page.  [c_piv]: pdata, as the number
    of the pivot.  [c_left]: pages still to get in the nested lookup.  [c_acc]: the
    accumulator.  [c_mt]: memtable_begin_lookups without memtable_end_lookup.
    [c_refs]: references to trunk nodes. *)
Record ctx := Ctx {
  c_state : astate; c_node : option tree; c_page : option tree; c_height : nat;
  c_sb : nat; c_end : nat; c_fno : nat; c_ls : lstate; c_cur : subbundle; c_piv : option nat;
  c_filter : filt; c_found : list nat; c_value : option nat; c_branch : branch; c_left : nat;
  c_acc : acc; c_mt : nat; c_refs : nat
}.

(** trunk.h:447-453, trunk_async_ctxt_init; [a]: what the caller's accumulator
    holds *)
Definition ctx_init (a : acc) : ctx :=
  Ctx AStart None None 0 0 0 0 LPivot (SB false 0 0 0 0) None [] [] None [] 0 a 0 0.

Definition set_state v c := Ctx v (c_node c) (c_page c) (c_height c) (c_sb c) (c_end c) (c_fno c) (c_ls c) (c_cur c) (c_piv c) (c_filter c) (c_found c) (c_value c) (c_branch c) (c_left c) (c_acc c) (c_mt c) (c_refs c).
Definition set_node v c := Ctx (c_state c) v (c_page c) (c_height c) (c_sb c) (c_end c) (c_fno c) (c_ls c) (c_cur c) (c_piv c) (c_filter c) (c_found c) (c_value c) (c_branch c) (c_left c) (c_acc c) (c_mt c) (c_refs c).
Definition set_page v c := Ctx (c_state c) (c_node c) v (c_height c) (c_sb c) (c_end c) (c_fno c) (c_ls c) (c_cur c) (c_piv c) (c_filter c) (c_found c) (c_value c) (c_branch c) (c_left c) (c_acc c) (c_mt c) (c_refs c).
Definition set_height v c := Ctx (c_state c) (c_node c) (c_page c) v (c_sb c) (c_end c) (c_fno c) (c_ls c) (c_cur c) (c_piv c) (c_filter c) (c_found c) (c_value c) (c_branch c) (c_left c) (c_acc c) (c_mt c) (c_refs c).
Definition set_sb v c := Ctx (c_state c) (c_node c) (c_page c) (c_height c) v (c_end c) (c_fno c) (c_ls c) (c_cur c) (c_piv c) (c_filter c) (c_found c) (c_value c) (c_branch c) (c_left c) (c_acc c) (c_mt c) (c_refs c).
Definition set_end v c := Ctx (c_state c) (c_node c) (c_page c) (c_height c) (c_sb c) v (c_fno c) (c_ls c) (c_cur c) (c_piv c) (c_filter c) (c_found c) (c_value c) (c_branch c) (c_left c) (c_acc c) (c_mt c) (c_refs c).
Definition set_fno v c := Ctx (c_state c) (c_node c) (c_page c) (c_height c) (c_sb c) (c_end c) v (c_ls c) (c_cur c) (c_piv c) (c_filter c) (c_found c) (c_value c) (c_branch c) (c_left c) (c_acc c) (c_mt c) (c_refs c).
Definition set_ls v c := Ctx (c_state c) (c_node c) (c_page c) (c_height c) (c_sb c) (c_end c) (c_fno c) v (c_cur c) (c_piv c) (c_filter c) (c_found c) (c_value c) (c_branch c) (c_left c) (c_acc c) (c_mt c) (c_refs c).
Definition set_cur v c := Ctx (c_state c) (c_node c) (c_page c) (c_height c) (c_sb c) (c_end c) (c_fno c) (c_ls c) v (c_piv c) (c_filter c) (c_found c) (c_value c) (c_branch c) (c_left c) (c_acc c) (c_mt c) (c_refs c).
Definition set_pdata v c := Ctx (c_state c) (c_node c) (c_page c) (c_height c) (c_sb c) (c_end c) (c_fno c) (c_ls c) (c_cur c) v (c_filter c) (c_found c) (c_value c) (c_branch c) (c_left c) (c_acc c) (c_mt c) (c_refs c).
Definition set_filter v c := Ctx (c_state c) (c_node c) (c_page c) (c_height c) (c_sb c) (c_end c) (c_fno c) (c_ls c) (c_cur c) (c_piv c) v (c_found c) (c_value c) (c_branch c) (c_left c) (c_acc c) (c_mt c) (c_refs c).
Definition set_found v c := Ctx (c_state c) (c_node c) (c_page c) (c_height c) (c_sb c) (c_end c) (c_fno c) (c_ls c) (c_cur c) (c_piv c) (c_filter c) v (c_value c) (c_branch c) (c_left c) (c_acc c) (c_mt c) (c_refs c).
Definition set_value v c := Ctx (c_state c) (c_node c) (c_page c) (c_height c) (c_sb c) (c_end c) (c_fno c) (c_ls c) (c_cur c) (c_piv c) (c_filter c) (c_found c) v (c_branch c) (c_left c) (c_acc c) (c_mt c) (c_refs c).
Definition set_branch v c := Ctx (c_state c) (c_node c) (c_page c) (c_height c) (c_sb c) (c_end c) (c_fno c) (c_ls c) (c_cur c) (c_piv c) (c_filter c) (c_found c) (c_value c) v (c_left c) (c_acc c) (c_mt c) (c_refs c).
Definition set_left v c := Ctx (c_state c) (c_node c) (c_page c) (c_height c) (c_sb c) (c_end c) (c_fno c) (c_ls c) (c_cur c) (c_piv c) (c_filter c) (c_found c) (c_value c) (c_branch c) v (c_acc c) (c_mt c) (c_refs c).
Definition set_acc v c := Ctx (c_state c) (c_node c) (c_page c) (c_height c) (c_sb c) (c_end c) (c_fno c) (c_ls c) (c_cur c) (c_piv c) (c_filter c) (c_found c) (c_value c) (c_branch c) (c_left c) v (c_mt c) (c_refs c).
Definition set_mt v c := Ctx (c_state c) (c_node c) (c_page c) (c_height c) (c_sb c) (c_end c) (c_fno c) (c_ls c) (c_cur c) (c_piv c) (c_filter c) (c_found c) (c_value c) (c_branch c) (c_left c) (c_acc c) v (c_refs c).
Definition set_refs v c := Ctx (c_state c) (c_node c) (c_page c) (c_height c) (c_sb c) (c_end c) (c_fno c) (c_ls c) (c_cur c) (c_piv c) (c_filter c) (c_found c) (c_value c) (c_branch c) (c_left c) (c_acc c) (c_mt c) v.

Definition tres := res ctx (acc * nat * nat).

Section Async.
Variables (M : nat) (cfg : data_config) (h : bytes -> N).
(** btree_height of the root of a branch *)
Variable bh : branch -> nat.
(** The database and the key *)
Variables (st : state) (k : bytes).

(** trunk.c:643-647: a trunk node is asked for.  [got] is what follows async_success *)
Definition get_trunk (e : ev) (c : ctx) (got : ctx -> ctx) : tres :=
  match e with
  | Got => Loop true (got c)
  | Busy => Retry c
  | Started => Wait c
  end.
(** A page is asked for within a nested lookup; the loop of that lookup and the
    loop of this one are not told apart *)
Definition get_nested (e : ev) (c : ctx) : tres :=
  match e with
  | Got => Loop true (set_left (c_left c - 1) c)
  | Busy => Retry c
  | Started => Wait c
  end.

(** 7193-7232 *)
Definition root_turn (e : ev) (c : ctx) : tres :=
  get_trunk e c (fun c => set_mt (c_mt c - 1) (set_refs (S (c_refs c)) (set_page (Some (st_tree st)) (set_node (Some (st_tree st)) (set_state ANode c))))).
(** 7172-7191, which goes on into 7193.  The state is still
    async_state_lookup_memtable then. *)
Definition mem_turn (e : ev) (c : ctx) : tres :=
  let c := set_mt (S (c_mt c)) c in
  match mts_lookup cfg (st_mts st) k (c_acc c) with
  | None => Dead
  | Some (a, false) => Loop false (set_mt (c_mt c - 1) (set_state AEarly (set_acc a c)))
  | Some (a, true) => root_turn e (set_acc a c)
  end.

(** 7249-7269 *)
Definition sub_turn (n : node) (c : ctx) : tres :=
  if c_sb c =? c_end c then Loop false (set_ls LPivot (set_state APivot c))
  else
    let s := n_sb n (c_sb c) in
    Loop false (set_filter (sb_filter n s (c_fno c)) (set_cur s
      (set_ls (if sb_compacted s then LCompacted else LSub) (set_state AFilterStart c)))).
(** 7233-7247, which goes on into 7249 *)
Definition node_turn (n : node) (c : ctx) : tres :=
  match route cfg n (KUser k) with
  | None => Dead
  | Some i =>
      match get_pivot n i with
      | None => Dead
      | Some p =>
          sub_turn n (set_fno 0 (set_end (csub MAX_SUBBUNDLES (pivot_start_subbundle n p) 1)
            (set_sb (csub MAX_SUBBUNDLES (n_esb n) 1) (set_pdata (Some i) (set_height (n_height n) (set_state ASub c))))))
      end
  end.
(** 7277-7293 *)
Definition filter_start (c : ctx) : tres :=
  let c := set_value None c in
  match c_filter c with
  | [] => match c_ls c with LPivot => Loop false (set_state ANext c) | _ => Dead end      (* 7281 *)
  | _ => Loop false (set_left 2 (set_state AFilter c))
  end.

(** routing_filter.h:108-119, routing_filter_get_next_value: the values found are
    listed from the greatest *)
Definition next_value (found : list nat) (last : option nat) : option nat :=
  match last with
  | None => hd_error found
  | Some v => hd_error (filter (fun w => w <? v) found)
  end.
(** 7349-7396 *)
Definition btree_start (n : node) (p : pivot) (c : ctx) : tres :=
  let go b c := Loop false (set_left (S (bh b)) (set_branch b (set_state ABtree c))) in
  match c_ls c with
  | LPivot =>
      let v := next_value (c_found c) (c_value c) in
      let c := set_value v c in
      match v with
      | None => Loop false (set_state ANext c)
      | Some v => go (n_br n (cadd M (pv_sbr p) v)) c
      end
  | LSub =>
      let v := next_value (c_found c) (c_value c) in
      let c := set_value v c in
      match v with
      | None => Loop false (set_state ANext c)
      | Some v =>
          let b := sb_sbr (c_cur c) + v in                                                (* 7374 *)
          if b <? M then go (n_br n b) c else Dead
      end
  | LCompacted =>
      match c_found c with
      | [] => Loop false (set_state ANext (set_value None c))
      | _ => go (n_br n (sb_sbr (c_cur c))) c
      end
  end.
(** 7423-7436 *)
Definition btree_done (c : ctx) : tres :=
  match lookup_and_merge cfg (c_branch c) k (c_acc c) with
  | None => Dead
  | Some (a, _) =>
      let c := set_acc a c in
      if acc_definitive a then Loop false (set_node None (set_refs (c_refs c - 1) (set_state AEarly c)))
      else Loop false (set_state ANext c)
  end.
(** 7442-7490 *)
Definition next_turn (c : ctx) : tres :=
  let next_sb c := set_sb (csub MAX_SUBBUNDLES (c_sb c) 1) (set_state ASub c) in
  match c_ls c with
  | LPivot => Loop false (set_state (match c_value c with None => ADone | _ => ABtreeStart end) c)
  | LSub => Loop false (match c_value c with None => next_sb c | _ => set_state ABtreeStart c end)
  | LCompacted =>
      match c_found c with
      | _ :: _ => Loop false (set_fno 0 (next_sb c))
      | [] =>
          let c := set_fno (S (c_fno c)) c in
          if sb_filter_count (c_cur c) <=? c_fno c then Loop false (set_fno 0 (next_sb c))
          else Loop false (set_state ASub c)
      end
  end.
(** 7491-7509 *)
Definition done_turn (c : ctx) : tres :=
  if c_height c =? 0 then
    let fin a := Loop false (set_node None (set_refs (c_refs c - 1) (set_state AEnd (set_acc a c)))) in
    match c_acc c with
    | Some m =>
        match m_class m with
        | MInsert => fin (Some m)
        | _ => match data_merge_tuples_final cfg k m with Some m' => fin (Some m') | None => Dead end
        end
    | None => fin None
    end
  else Loop false (set_state AChild c).
(** 7565-7587: the accumulator, and what is still held *)
Definition end_turn (c : ctx) : tres :=
  Finished (match c_acc c with
            | Some m => match m_class m with MDelete => None | _ => Some m end
            | None => None
            end, c_mt c, c_refs c).

(** The child that pdata points to *)
Definition child_of (c : ctx) : option tree :=
  match c_node c, c_piv c with
  | Some t, Some i => nth_error (t_kids t) i
  | _, _ => None
  end.

(** 7164-7591: one turn *)
Definition turn (e : ev) (c : ctx) : tres :=
  match c_state c with
  | AStart => mem_turn e (set_state AMem (set_acc None c))
  | AMem => mem_turn e c
  | ARoot => root_turn e c
  | ANode => match c_node c with Some t => node_turn (t_node t) c | None => Dead end
  | ASub => match c_node c with Some t => sub_turn (t_node t) c | None => Dead end
  | APivot =>
      match c_node c, c_piv c with
      | Some t, Some i =>
          match get_pivot (t_node t) i with
          | Some p => filter_start (set_filter (pv_filt p) (set_state AFilterStart c))
          | None => Dead
          end
      | _, _ => Dead
      end
  | AFilterStart => filter_start c
  | AFilter =>
      match c_left c with
      | O => Loop false (set_found (filter_values (c_filter c) (h k)) (set_state ABtreeStart c))
      | S _ => get_nested e c
      end
  | ABtreeStart =>
      match c_node c, c_piv c with
      | Some t, Some i => match get_pivot (t_node t) i with Some p => btree_start (t_node t) p c | None => Dead end
      | _, _ => Dead
      end
  | ABtree => match c_left c with O => btree_done c | S _ => get_nested e c end
  | ANext => next_turn c
  | ADone => done_turn c
  | AChild =>                                                                             (* 7510-7547 *)
      match child_of c with
      | Some t => get_trunk e c (fun c => set_refs (S (c_refs c)) (set_page (Some t) (set_state AUnget c)))
      | None => Dead
      end
  | AUnget =>                                                                             (* 7548-7559 *)
      match c_node c, c_page c with
      | Some _, Some t => Loop false (set_refs (c_refs c - 1) (set_pdata None (set_node (Some t) (set_state ANode c))))
      | _, _ => Dead
      end
  | AEarly => Loop false (set_state AEnd c)
  | AEnd => end_turn c
  end.

(** The callback after async_io_started: 7054-7077 for a trunk node, with the
    page that was asked for; 7088-7116 for the nested lookups, which have moved on *)
Definition callback (c : ctx) : option ctx :=
  match c_state c with
  | AFilter | ABtree => Some (set_left (c_left c - 1) c)
  | ARoot => Some (set_refs (S (c_refs c)) (set_page (Some (st_tree st)) (set_state ANode c)))
  | AMem => Some (set_refs (S (c_refs c)) (set_page (Some (st_tree st)) (set_state AUnget c)))
  | AChild =>
      match child_of c with
      | Some t => Some (set_refs (S (c_refs c)) (set_page (Some t) (set_state AUnget c)))
      | None => None
      end
  | _ => None
  end.

(** The whole lookup; [a]: what the caller's accumulator holds at first *)
Definition lookup_async (a : acc) (fuel : nat) (o : nat -> ev) : option (option (acc * nat * nat)) :=
  drive turn callback fuel o 0 (ctx_init a).

End Async.
