(** * Building a branch: btree_pack

    /repo/src/btree.c:1644-1685, 3015-3352 and /repo/src/btree.h:115-171.
    Definitions only.

    A branch is packed bottom up.  For every height the request keeps the
    nodes of the current extent, [edge], that are not yet in a parent; nodes
    are linked into their parents when an extent is full, or at the end.  Here
    the edges are a stack: level [h] holds the open nodes of height [h] with
    their stats, and the levels above it.

    Simplifications: the source iterator is the list of its tuples; whether a
    new page is in the same extent as the previous one of its height is an
    arbitrary predicate on its address, [share] (so the edge array's second
    bound, MAX_PAGES_PER_EXTENT, is not modelled); next_extent_addr, which only
    prefetching uses, is omitted; page locks and the mini-allocator's metadata
    are not modelled.  [None] is a failed platform_assert or an access outside
    the edge array. *)

From Coq Require Import List ZArith NArith Arith Bool.
From Verif Require Import Base Codec Search Page PageBytes Btree.
Import ListNotations.
Local Open Scope N_scope.

(** btree.h:28 *)
Definition BTREE_MAX_HEIGHT : nat := 8.

(** ** Stats *)
(** btree.h:115-119 and btree.c:102 *)
Definition unknown_counter : N := 2147483647.
(** btree.c:1644-1652, stored in a uint32 *)
Definition add_unknown (a b : N) : N :=
  if negb (a =? unknown_counter) && negb (b =? unknown_counter) then (a + b) mod 2 ^ 32 else unknown_counter.
(** btree.c:1654-1660 *)
Definition accumulate (d s : pstats) : pstats :=
  PStats (add_unknown (ps_kvs d) (ps_kvs s)) (add_unknown (ps_kbytes d) (ps_kbytes s))
         (add_unknown (ps_mbytes d) (ps_mbytes s)).
Definition zero_stats : pstats := PStats 0 0 0.
(** btree.c:3174-3177 *)
Definition count_tuple (st : pstats) (e : lent) : pstats :=
  PStats ((ps_kvs st + 1) mod 2 ^ 32) ((ps_kbytes st + blen (fst e)) mod 2 ^ 32)
         ((ps_mbytes st + blen (m_data (snd e))) mod 2 ^ 32).

(** ** The edges *)
Inductive stk (h : nat) : Type :=
| SNil
| SCons (es : list (tree h * pstats)) (r : stk (S h)).
Arguments SNil {h}. Arguments SCons {h}.

Definition last_opt {A} (l : list A) : option A :=
  match rev l with [] => None | x :: _ => Some x end.
Definition set_last {A} (l : list A) (x : A) : list A := removelast l ++ [x].

(** A new page *)
Definition alloc (en : env) : N * env := (e_fresh en, Env (e_links en) (e_fresh en + 1)).

(** btree.c:3101-3110: link all edges of a height into their parents.  The
    pivot (3075-3076) is the first key. *)
Fixpoint link_all {h} (push : stk (S h) -> env -> ient (tree h) -> option (stk (S h) * env))
         (s : stk (S h)) (en : env) (es : list (tree h * pstats)) : option (stk (S h) * env) :=
  match es with
  | [] => Some (s, en)
  | (t, st) :: es' =>
      match first_key h t with
      | None => None
      | Some k =>
          match push s en (IEnt k st t) with
          | None => None
          | Some (s', en') => link_all push s' en' es'
          end
      end
  end.

Section Pack.
  Variable share : N -> bool.
  Variable P : N.

  (** btree.c:3066-3099 (from the parent on) and 3112-3145, for a parent of
      height S h.  [f]: heights left in the edge array. *)
  Fixpoint push (f : nat) (h : nat) (s : stk (S h)) (en : env) (e : ient (tree h))
    : option (stk (S h) * env) :=
    match f with
    | O => None
    | S f' =>
        let '(a, en1) := alloc en in
        let node := match must (set_index_entry isz (pg_empty P) 0 e) with
                    | Some p => Some ((p : tree (S h)), accumulate zero_stats (ie_stats e))
                    | None => None
                    end in
        match s with
        | SNil => match node with None => None | Some n => Some (SCons [n] SNil, en1) end
        | SCons es r =>
            match last_opt es with
            | None => match node with None => None | Some n => Some (SCons [n] r, en1) end
            | Some (p, st) =>
                match set_index_entry isz (p : page (ient (tree h))) (pg_num (p : page (ient (tree h)))) e with
                | PAbort => None
                | PTrue p' => Some (SCons (set_last es ((p' : tree (S h)), accumulate st (ie_stats e))) r, en)
                | PFalse =>
                    if share a then
                      match node with None => None | Some n => Some (SCons (es ++ [n]) r, en1) end
                    else
                      match link_all (push f' (S h)) r en1 es with
                      | None => None
                      | Some (r', en2) =>
                          match node with None => None | Some n => Some (SCons [n] r', en2) end
                      end
                end
            end
        end
    end.

  (** ** One tuple: btree.c:3147-3193 *)
  Definition new_leaf (a : N) (e : lent) : option (tree 0 * pstats) :=
    match must (set_leaf_entry lsz (pg_empty P) 0 e) with
    | Some p => Some ((Leaf a p : tree 0), count_tuple zero_stats e)
    | None => None
    end.
  Definition pack_one (maxh : nat) (s : stk 0) (en : env) (e : lent) : option (stk 0 * env) :=
    match maxh with
    | O => None
    | S f =>
        let '(a, en1) := alloc en in
        let en0 := Env (upd_link (e_links en1) a (0, 0)) (e_fresh en1) in
        match s with
        | SNil => match new_leaf a e with None => None | Some n => Some (SCons [n] SNil, en0) end
        | SCons es r =>
            match last_opt es with
            | None => match new_leaf a e with None => None | Some n => Some (SCons [n] r, en0) end
            | Some (l, st) =>
                match set_leaf_entry lsz (lf_page l) (pg_num (lf_page l)) e with
                | PAbort => None
                | PTrue p' => Some (SCons (set_last es (Leaf (lf_addr l) p' : tree 0, count_tuple st e)) r, en)
                | PFalse =>
                    (* 3128-3131 *)
                    let l1 := upd_link (e_links en0) (lf_addr l) (fst (e_links en0 (lf_addr l)), a) in
                    let en2 := Env (upd_link l1 a (lf_addr l, snd (l1 a))) (e_fresh en0) in
                    if share a then
                      match new_leaf a e with None => None | Some n => Some (SCons (es ++ [n]) r, en2) end
                    else
                      match link_all (push f 0) r en2 es with
                      | None => None
                      | Some (r', en3) =>
                          match new_leaf a e with None => None | Some n => Some (SCons [n] r', en3) end
                      end
                end
            end
        end
    end.

  (** ** The end: btree.c:3213-3217 *)
  Fixpoint collapse (f : nat) (h : nat) (s : stk h) (en : env) : option ({h' : nat & tree h'} * env) :=
    match f with
    | O => None
    | S f' =>
        match s with
        | SNil => None
        | SCons es r =>
            let again tt :=
              match link_all (push f' h) r en es with
              | None => None
              | Some (r', en') => collapse f' (S h) r' en'
              end in
            match es, r with
            | [(t, _)], SNil => Some (existT tree h t, en)
            | _, _ => again tt
            end
        end
    end.

  (** The output of the request *)
  Record packed := Packed {
    pk_root : option bt;             (* None: root_addr is 0 *)
    pk_num : N;                      (* num_tuples *)
    pk_kbytes : N;
    pk_mbytes : N;
    pk_fps : list N                  (* fingerprint_arr, filled entries *)
  }.
  Inductive pack_result := PackLimitExceeded | PackOk (r : packed).

  (** btree.c:3264-3301.  The root created by btree_create is the page at
      address 1; the node built last is copied into it. *)
  Fixpoint pack_loop (maxh : nat) (max_tuples : N) (hash : option (bytes -> N))
           (s : stk 0) (en : env) (acc : packed) (es : list lent) : option (pack_result * (stk 0 * env)) :=
    match es with
    | [] => Some (PackOk acc, (s, en))
    | e :: es' =>
        if pk_num acc <? max_tuples then
          match pack_one maxh s en e with
          | None => None
          | Some (s', en') =>
              pack_loop maxh max_tuples hash s' en'
                (Packed None (pk_num acc + 1) (pk_kbytes acc + blen (fst e)) (pk_mbytes acc + blen (m_data (snd e)))
                        (match hash with Some f => pk_fps acc ++ [f (fst e)] | None => pk_fps acc end)) es'
          end
        else Some (PackLimitExceeded, (s, en))
    end.

  Definition root_of (h : nat) (t : tree h) (en : env) : bt :=
    match h return tree h -> bt with
    | O => fun l : leaf => Bt O (Leaf 1 (lf_page l)) (Env (upd_link (e_links en) 1 (e_links en (lf_addr l))) (e_fresh en))
    | S h' => fun p => Bt (S h') p en
    end t.

  Definition btree_pack (max_tuples : N) (hash : option (bytes -> N)) (es : list lent) : option pack_result :=
    match pack_loop BTREE_MAX_HEIGHT max_tuples hash SNil (Env (fun _ => (0, 0)) 2) (Packed None 0 0 0 []) es with
    | None => None
    | Some (PackLimitExceeded, _) => Some PackLimitExceeded
    | Some (PackOk acc, (s, en)) =>
        if pk_num acc =? 0 then Some (PackOk acc)
        else match collapse BTREE_MAX_HEIGHT 0 s en with
             | None => None
             | Some (existT _ h t, en') =>
                 Some (PackOk (Packed (Some (root_of h t en')) (pk_num acc) (pk_kbytes acc) (pk_mbytes acc) (pk_fps acc)))
             end
    end.
End Pack.

(** ** Counting: btree.c:1662-1685, 2071-2119, 3307-3352 *)
(** Entries [0], ..., [n]-1 of a page *)
Definition leaf_rank (st : pstats) (es : list lent) : pstats :=
  let st' := fold_left (fun s e => PStats (ps_kvs s) (add_unknown (ps_kbytes s) (blen (fst e)))
                                          (add_unknown (ps_mbytes s) (blen (m_data (snd e))))) es st in
  PStats ((ps_kvs st' + N.of_nat (length es)) mod 2 ^ 32) (ps_kbytes st') (ps_mbytes st').
Definition index_rank {T} (st : pstats) (es : list (ient T)) : pstats :=
  fold_left (fun s e => accumulate s (ie_stats e)) es st.

(** btree_lookup_node with stats *)
Fixpoint rank_leaf (cfg : data_config) (h : nat) : tree h -> key -> pstats -> option (leaf * pstats) :=
  match h with
  | O => fun t _ st => Some (t, st)
  | S h' => fun (t : page (ient (tree h'))) k st =>
      match descend_idx cfg t k with
      | None => None
      | Some i => match get_child t i with
                  | None => None
                  | Some e => rank_leaf cfg h' (ie_child e) k (index_rank st (firstn i (pg_cont t)))
                  end
      end
  end.
(** btree.c:3307-3325 *)
Definition get_rank (cfg : data_config) (t : bt) (k : key) : option pstats :=
  match rank_leaf cfg (bt_h t) (bt_tree t) k zero_stats with
  | None => None
  | Some (l, st) =>
      match find_tuple cfg (lf_page l) k with
      | None => None
      | Some (i, found) =>
          let n := if found : bool then i else (i + 1)%Z in
          Some (leaf_rank st (firstn (Z.to_nat n) (pg_cont (lf_page l))))
      end
  end.
(** btree.c:3331-3352; the fields are uint32 *)
Definition count_in_range (cfg : data_config) (t : bt) (mn mx : key) : option pstats :=
  match get_rank cfg t mn, get_rank cfg t mx with
  | Some a, Some b =>
      Some (if ps_kvs a <? ps_kvs b
            then PStats (ps_kvs b - ps_kvs a) ((ps_kbytes b + 2 ^ 32 - ps_kbytes a) mod 2 ^ 32)
                        ((ps_mbytes b + 2 ^ 32 - ps_mbytes a) mod 2 ^ 32)
            else zero_stats)
  | _, _ => None
  end.
