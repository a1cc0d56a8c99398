(** * Key-range references to a branch

    /repo/src/mini_allocator.c:788-985, 1046-1233 (keyed allocators after
    mini_release).  Definitions only.

    Any number of threads below [k_n] take and drop references on key ranges;
    one step is one access to a reference count or one page claim.
    Simplifications:
    - the metadata pages are the lists of their entries, in order (that walking
      the links visits them is C24); they no longer change;
    - [k_metas] are the extents of those pages, the first one that of the head;
      mini_deinit frees them one at a time in that order;
    - a claim on a metadata page is a bit; mini_get_claim_meta_page waits for it;
    - discarding the cached pages of an extent (:1116) is not a step;
    - extents that were freed may be reused by the rest of the system. *)

From Coq Require Import List NArith ZArith Arith Bool Permutation.
From Verif Require Import Base Count Mini.
Import ListNotations.

Record kcfg := Kcfg {
  k_d : data_config;
  k_pages : list (list mentry);
  k_metas : list nat;
  k_n : nat
}.

Definition range := (key * key)%type.

(** :792-796 *)
Inductive bstate := Before | InRange | After.
Definition bnum (b : bstate) : N := match b with Before => 1 | InRange => 0 | After => 2 end.

(** :798-811 *)
Definition interval_intersects_range (l r : bstate) : bool := N.eqb (N.land (bnum l) (bnum r)) 0.

(** :813-824, state *)
Definition bound_state (d : data_config) (r : range) (k : key) : bstate :=
  if (data_key_compare d k (fst r) <? 0)%Z then Before
  else if (data_key_compare d k (snd r) <=? 0)%Z then InRange
  else After.

(** :857-862: current_state and extent_addr *)
Record walk := Walk { w_cur : nat -> bstate; w_ext : nat -> option nat }.
Definition walk0 : walk := Walk (fun _ => Before) (fun _ => None).

(** :868-890: one entry; the second component is the argument of func when it
    is called ([Some None] would be TERMINAL_EXTENT_ADDR) *)
Definition entry_step (d : data_config) (r : range) (w : walk) (en : mentry) : walk * option (option nat) :=
  let b := me_batch en in
  let next := match w_ext w b with
              | None => Before
              | Some _ => match me_ext en with
                          | None => After
                          | Some _ => bound_state d r (me_key en)
                          end
              end in
  (Walk (upd (w_cur w) b next) (upd (w_ext w) b (me_ext en)),
   if interval_intersects_range (w_cur w b) next then Some (w_ext w b) else None).

(** :839-902 run to the end by itself: the extents func is called on *)
Fixpoint for_each (d : data_config) (r : range) (w : walk) (l : list mentry) : list (option nat) :=
  match l with
  | [] => []
  | en :: l' => let '(w', v) := entry_step d r w en in
                match v with Some x => x :: for_each d r w' l' | None => for_each d r w' l' end
  end.
Definition keyed_for_each (c : kcfg) (r : range) : list (option nat) := for_each (k_d c) r walk0 (concat (k_pages c)).

(** :1215-1233 *)
Definition keyed_extent_count (c : kcfg) (r : range) : nat := length (keyed_for_each c r).

(** Where a thread is.  [j] page, [i] entry, [sc] should_cleanup. *)
Inductive kpc :=
| KOut
| KInc (r : range) (j i : nat) (w : walk)              (* in mini_keyed_inc_ref *)
| KWait (r : range)                                    (* :1143 *)
| KGet (r : range) (j : nat) (w : walk) (sc : bool)    (* :933, :974: wait for the claim on page j *)
| KRel (r : range) (j : nat) (w : walk) (sc : bool)    (* :975: drop the claim on page j - 1 *)
| KDec (r : range) (j i : nat) (w : walk) (sc : bool)  (* :943-978 *)
| KFree (r : range) (j i : nat) (w : walk) (sc : bool) (e : nat) (* :1116-1119, entry i visited *)
| KEnd (r : range) (sc : bool)                         (* :1153 *)
| KDein (l : list nat).                                (* :1157, extents still to free *)

Record kst := Kst {
  ks_refs : nat -> N;
  ks_claim : nat -> bool;
  ks_pcs : nat -> kpc;
  ks_out : list range;        (* outstanding range references *)
  ks_blk : list range;        (* ranges of the range queries that block *)
  ks_live : nat -> bool;      (* ghost: extents not freed by this module *)
  ks_gone : bool              (* ghost: metadata freed *)
}.

Inductive kres := KBlocked | KAbort | KStep (s : kst).

Definition set_refs (s : kst) f := Kst f (ks_claim s) (ks_pcs s) (ks_out s) (ks_blk s) (ks_live s) (ks_gone s).
Definition set_claim (s : kst) f := Kst (ks_refs s) f (ks_pcs s) (ks_out s) (ks_blk s) (ks_live s) (ks_gone s).
Definition set_pc (s : kst) t p := Kst (ks_refs s) (ks_claim s) (upd (ks_pcs s) t p) (ks_out s) (ks_blk s) (ks_live s) (ks_gone s).
Definition set_out (s : kst) l := Kst (ks_refs s) (ks_claim s) (ks_pcs s) l (ks_blk s) (ks_live s) (ks_gone s).
Definition set_blk (s : kst) l := Kst (ks_refs s) (ks_claim s) (ks_pcs s) (ks_out s) l (ks_live s) (ks_gone s).
Definition set_live (s : kst) f := Kst (ks_refs s) (ks_claim s) (ks_pcs s) (ks_out s) (ks_blk s) f (ks_gone s).
Definition set_gone (s : kst) b := Kst (ks_refs s) (ks_claim s) (ks_pcs s) (ks_out s) (ks_blk s) (ks_live s) b.

Definition page (c : kcfg) (j : nat) : list mentry := nth j (k_pages c) [].
Definition head_ext (c : kcfg) : nat := List.hd 0 (k_metas c).

(** One step of thread [t]. *)
Definition kstep (c : kcfg) (s : kst) (t : nat) : kres :=
  match ks_pcs s t with
  | KOut => KBlocked
  | KInc r j i w =>
      match nth_error (page c j) i with
      | Some en =>
          let '(w', v) := entry_step (k_d c) r w en in
          match v with
          | None => KStep (set_pc s t (KInc r j (S i) w'))
          | Some None => KAbort
          | Some (Some e) =>
              match inc8 (ks_refs s) e with
              | None => KAbort
              | Some (_, f) => KStep (set_pc (set_refs s f) t (KInc r j (S i) w'))
              end
          end
      | None =>
          if Nat.ltb (S j) (length (k_pages c)) then KStep (set_pc s t (KInc r (S j) 0 w))
          else KStep (set_pc (set_out s (r :: ks_out s)) t KOut)
      end
  | KWait r =>
      if N.eqb (ks_refs s (head_ext c)) 2 then KStep (set_pc s t (KGet r 0 walk0 true)) else KBlocked
  | KGet r j w sc =>
      if ks_claim s j then KBlocked
      else KStep (set_pc (set_claim s (upd (ks_claim s) j true)) t (KRel r j w sc))
  | KRel r j w sc =>
      KStep (set_pc (match j with O => s | S j' => set_claim s (upd (ks_claim s) j' false) end) t (KDec r j 0 w sc))
  | KDec r j i w sc =>
      match nth_error (page c j) i with
      | Some en =>
          let '(w', v) := entry_step (k_d c) r w en in
          match v with
          | None => KStep (set_pc s t (KDec r j (S i) w' sc))
          | Some None => KAbort
          | Some (Some e) =>
              match dec8 (ks_refs s) e with
              | None => KAbort
              | Some (n, f) =>
                  KStep (set_pc (set_refs s f) t
                           (if N.eqb n 1 then KFree r j i w' sc e else KDec r j (S i) w' false))
              end
          end
      | None =>
          if Nat.ltb (S j) (length (k_pages c)) then KStep (set_pc s t (KGet r (S j) w sc))
          else KStep (set_pc (set_claim s (upd (ks_claim s) j false)) t (KEnd r sc))
      end
  | KFree r j i w sc e =>
      match dec8 (ks_refs s) e with
      | Some (n, f) =>
          if N.eqb n 0 then KStep (set_pc (set_live (set_refs s f) (upd (ks_live s) e false)) t (KDec r j (S i) w sc))
          else KAbort
      | None => KAbort
      end
  | KEnd r sc =>
      if sc then
        if N.eqb (ks_refs s (head_ext c)) 2 then KStep (set_pc s t (KDein (k_metas c))) else KAbort
      else KStep (set_pc s t KOut)
  | KDein [] => KStep (set_pc (set_gone s true) t KOut)
  | KDein (x :: l) =>
      match free_extent (ks_refs s) x with
      | Some f => KStep (set_pc (set_live (set_refs s f) (upd (ks_live s) x false)) t (KDein l))
      | None => KAbort
      end
  end.

(** ** The layout of a branch: each batch is a run of entries with increasing
    keys closed by a terminal entry; an extent is recorded once; one batch (that
    of the root) has a single extent *)
Record layout_ok (d : data_config) (L : list mentry) (root : nat) : Prop := {
  lo_term : forall i j en en', nth_error L i = Some en -> nth_error L j = Some en' -> i < j ->
    me_batch en = me_batch en' -> me_ext en <> None;
  lo_sorted : forall i j en en', nth_error L i = Some en -> nth_error L j = Some en' -> i < j ->
    me_batch en = me_batch en' -> me_ext en' <> None -> (data_key_compare d (me_key en) (me_key en') <= 0)%Z;
  lo_once : forall i j en en' e, nth_error L i = Some en -> nth_error L j = Some en' ->
    me_ext en = Some e -> me_ext en' = Some e -> i = j;
  lo_close : forall i en, nth_error L i = Some en -> me_ext en <> None ->
    exists j en', i < j /\ nth_error L j = Some en' /\ me_batch en' = me_batch en /\ me_ext en' = None;
  lo_root : exists i j en en', i < j /\ nth_error L i = Some en /\ nth_error L j = Some en' /\
    me_batch en = me_batch en' /\ me_ext en = Some root /\ me_ext en' = None /\
    forall k ek, nth_error L k = Some ek -> me_batch ek = me_batch en -> k = i \/ k = j
}.

(** ** What callers may do *)

Definition kle (d : data_config) (a b : key) : Prop := (data_key_compare d a b <= 0)%Z.
Definition inside (d : data_config) (x : key) (r : range) : Prop := kle d (fst r) x /\ kle d x (snd r).
Definition proper (d : data_config) (r : range) : Prop := kle d (fst r) (snd r).
(** every key of [r] is in one of the ranges *)
Definition covered (d : data_config) (r : range) (l : list range) : Prop :=
  forall x, inside d x r -> exists r', In r' l /\ inside d x r'.

(** :1176-1191, mini_block_dec_ref and mini_unblock_dec_ref; [None] is a failed
    assertion *)
Definition block (c : kcfg) (refs : nat -> N) : option (nat -> N) :=
  match inc8 refs (head_ext c) with Some (n, f) => if N.ltb 2 n then Some f else None | None => None end.
Definition unblock (c : kcfg) (refs : nat -> N) : option (nat -> N) :=
  match dec8 refs (head_ext c) with Some (n, f) => if N.leb 2 n then Some f else None | None => None end.

Definition recorded_ext (c : kcfg) (e : nat) : Prop := In (Some e) (map me_ext (concat (k_pages c))).
Definition everything : range := (KNegInf, KPosInf).

(** An execution.  The branch starts with one reference to everything (every
    extent at AL_ONE_REF).  A range may be referenced while its keys are
    covered by outstanding references, which must not be dropped before the
    call returns (the trunk node holding them is locked); a query may block
    while its keys are covered; a reference to [a, c] together with one to
    [p, p] may be dropped as [a, p] and [p, c] (splits of trunk nodes). *)
Inductive kreach (c : kcfg) : kst -> Prop :=
| kr_init refs : (forall x, refs x < 256)%N ->
    (forall e, recorded_ext c e \/ In e (k_metas c) -> refs e = 2%N) ->
    kreach c (Kst refs (fun _ => false) (fun _ => KOut) [everything] [] (fun _ => true) false)
| kr_step s t s' : kreach c s -> t < k_n c -> kstep c s t = KStep s' -> kreach c s'
| kr_inc s t r : kreach c s -> t < k_n c -> ks_pcs s t = KOut -> proper (k_d c) r -> covered (k_d c) r (ks_out s) ->
    kreach c (set_pc s t (KInc r 0 0 walk0))
| kr_dec s t r l1 l2 : kreach c s -> t < k_n c -> ks_pcs s t = KOut -> ks_out s = l1 ++ r :: l2 ->
    (forall u r' j i w, ks_pcs s u = KInc r' j i w -> covered (k_d c) r' (l1 ++ l2)) ->
    kreach c (set_pc (set_out s (l1 ++ l2)) t (KWait r))
| kr_block s r f : kreach c s -> proper (k_d c) r -> covered (k_d c) r (ks_out s) -> block c (ks_refs s) = Some f ->
    kreach c (set_blk (set_refs s f) (r :: ks_blk s))
| kr_unblock s r l1 l2 f : kreach c s -> ks_blk s = l1 ++ r :: l2 -> unblock c (ks_refs s) = Some f ->
    kreach c (set_blk (set_refs s f) (l1 ++ l2))
| kr_split s a p q l : kreach c s -> ks_out s = (a, q) :: (p, p) :: l -> kle (k_d c) a p -> kle (k_d c) p q ->
    kreach c (set_out s ((a, p) :: (p, q) :: l))
| kr_perm s l : kreach c s -> Permutation (ks_out s) l -> kreach c (set_out s l)
| kr_env s e n : kreach c s -> ks_live s e = false \/ (~ recorded_ext c e /\ ~ In e (k_metas c)) -> (n < 256)%N ->
    kreach c (set_refs s (upd (ks_refs s) e n)).
