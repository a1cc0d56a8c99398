(** * The memtable's B-tree

    /repo/src/btree.c:85-92, 464-1053, 1330-1641, 1699-2189 and
    /repo/src/btree_private.h:64-110.  Definitions only.

    A tree of height h is a value of [tree h]: pages are the slotted pages of
    [Page.v] and an index entry holds the subtree its child address points to.
    Simplifications: index page addresses, the generation counters and page
    locks are omitted, so one insertion is one atomic step (the hand-over-hand
    locking that makes it look atomic is not modelled here); leaf pages keep
    their address because they are chained, and the chain (prev_addr and
    next_addr of every leaf) is the map [links].  New pages get increasing
    addresses, standing for the mini-allocator.  [None] is a failed
    platform_assert, a call through a NULL merge function or a read outside a
    page. *)

From Coq Require Import List ZArith NArith Arith Bool.
From Verif Require Import Base Codec Search Page PageBytes.
Import ListNotations.
Local Open Scope N_scope.

(** ** Sizes *)
(** btree_private.h:181-186 and leaf_entry_required_capacity *)
Definition lsz (e : lent) : N := sizeof_ondisk_tuple (fst e) (snd e).
(** btree_private.h:174-178; sizeof(index_entry) is 23 *)
Definition sizeof_index_entry : N := 23.
Record ient (T : Type) := IEnt { ie_key : bytes; ie_stats : pstats; ie_child : T }.
Arguments IEnt {T}. Arguments ie_key {T}. Arguments ie_stats {T}. Arguments ie_child {T}.
Definition isz {T} (e : ient T) : N := sizeof_index_entry + blen (ie_key e).

(** btree.h:28-60: MAX_INLINE_KEY_SIZE, MAX_INLINE_MESSAGE_SIZE *)
Definition max_key (P : N) : N := P / 8.
Definition max_msg (P : N) : N := 35 * P / 100.

(** btree.c:102-106 *)
Definition unknown_stats : pstats := PStats 2147483647 2147483647 2147483647.

(** ** Trees *)
Record leaf := Leaf { lf_addr : N; lf_page : page lent }.
Fixpoint tree (h : nat) : Type :=
  match h with
  | O => leaf
  | S h' => page (ient (tree h'))
  end.

(** Searching a page: btree.c:508-533 (leaf) and 464-490 (index) *)
Definition leaf_keys (p : page lent) : list key := map (fun e => KUser (fst e)) (pg_cont p).
Definition index_keys {T} (p : page (ient T)) : list key := map (fun e => KUser (ie_key e)) (pg_cont p).
Definition find_tuple (cfg : data_config) (p : page lent) (k : key) := btree_find cfg (leaf_keys p) k.
Definition find_pivot {T} (cfg : data_config) (p : page (ient T)) (k : key) := btree_find cfg (index_keys p) k.

(** ** Adding a tuple to a leaf: btree.c:561-681 *)
Inductive estate := DidNotExist | StillExists | HasBeenRemoved.
Record ispec := ISpec { is_key : bytes; is_idx : nat; is_state : estate; is_msg : message }.
Definition is_ent (sp : ispec) : lent := (is_key sp, is_msg sp).

(** btree.c:575-609 *)
Definition create_spec (cfg : data_config) (p : page lent) (k : bytes) (m : message) : option ispec :=
  match find_tuple cfg p (KUser k) with
  | None => None
  | Some (i, true) =>
      match nth_error (pg_cont p) (Z.to_nat i) with
      | None => None
      | Some (_, old) =>
          match data_merge_tuples cfg k old m with
          | None => None
          | Some m' => Some (ISpec k (Z.to_nat i) StillExists m')
          end
      end
  | Some (i, false) => Some (ISpec k (Z.to_nat (i + 1)) DidNotExist m)
  end.

(** btree.c:619-640 *)
Definition can_perform (p : page lent) (sp : ispec) : bool :=
  match is_state sp with
  | StillExists => can_set_leaf_entry lsz p (is_idx sp) (is_ent sp)
  | _ => can_set_leaf_entry lsz p (pg_num p) (is_ent sp)
  end.

(** btree.c:642-681, without the generation *)
Definition try_perform (p : page lent) (sp : ispec) : pres (page lent) :=
  match is_state sp with
  | StillExists => set_leaf_entry lsz p (is_idx sp) (is_ent sp)
  | _ => insert_leaf_entry lsz p (is_idx sp) (is_ent sp)
  end.
(** ... followed by platform_assert(incorporated) *)
Definition must {A} (r : pres A) : option A := match r with PTrue a => Some a | _ => None end.

(** The entries other than the one being replaced, and the state after they
    have been copied (the loops of btree.c:703-717 and 895-908, for the slots
    [i], [i]+1, ...) *)
Fixpoint other_entries (sp : ispec) (i : nat) (es : list lent) : list lent :=
  match es with
  | [] => []
  | e :: es' =>
      match is_state sp with
      | StillExists => if Nat.eqb i (is_idx sp) then es' else e :: other_entries sp (S i) es'
      | _ => es
      end
  end.
Definition spec_after (sp : ispec) (from upto : nat) : ispec :=
  match is_state sp with
  | StillExists => if Nat.leb from (is_idx sp) && Nat.ltb (is_idx sp) upto
                   then ISpec (is_key sp) (is_idx sp) HasBeenRemoved (is_msg sp) else sp
  | _ => sp
  end.

(** btree.c:693-718 *)
Definition defragment_leaf (P : N) (p : page lent) (sp : ispec) : option (page lent * ispec) :=
  match fill_leaf lsz (pg_empty P) 0 (other_entries sp 0 (pg_cont p)) with
  | None => None
  | Some p' => Some (p', spec_after sp 0 (pg_num p))
  end.

(** ** Splitting a leaf *)
(** btree.c:749-756 *)
Definition most_on_left (total left e : N) : bool := left + 2 + e <? (total + 2 + e) / 2.

(** btree.c:773-791; [es] are the entries from split_idx on, [budget] is
    max_entries - split_idx *)
Fixpoint plan_move (es : list lent) (budget : nat) (total left : N) (split : nat) : nat * N :=
  match budget, es with
  | S b, e :: es' =>
      if most_on_left total left (lsz e) then plan_move es' b total (left + (2 + lsz e)) (S split)
      else (split, left)
  | _, _ => (split, left)
  end.

(** btree.c:801-862.  Result: split_idx and insertion_goes_left. *)
Definition sum_sizes (es : list lent) : N := fold_right (fun e n => lsz e + n) 0 es.
Definition build_plan (p : page lent) (sp : ispec) : nat * bool :=
  let es := pg_cont p in
  let n := pg_num p in
  let entry_size := lsz (is_ent sp) in
  let new_n := match is_state sp with StillExists => n | _ => S n end in
  let total := entry_size + sum_sizes (other_entries sp 0 es) + 2 * N.of_nat new_n in
  let '(split, lbytes) := plan_move es (is_idx sp) total 0 0 in
  if Nat.eqb split (is_idx sp) && most_on_left total lbytes entry_size then
    let lbytes2 := lbytes + (2 + entry_size) in
    let split2 := match is_state sp with StillExists => S split | _ => split end in
    let '(split3, _) := plan_move (skipn split2 es) (n - split2) total lbytes2 split2 in
    (split3, true)
  else (split, false).

(** btree.c:864-878 *)
Definition splitting_pivot (p : page lent) (sp : ispec) (plan : nat * bool) : option bytes :=
  let '(split, goes_left) := plan in
  if Nat.eqb split (is_idx sp) &&
     (match is_state sp with StillExists => false | _ => true end) && negb goes_left
  then Some (is_key sp)
  else option_map fst (nth_error (pg_cont p) split).

(** btree.c:880-916 *)
Definition build_right (P : N) (p : page lent) (sp : ispec) (plan : nat * bool)
  : option (page lent * ispec) :=
  let '(split, goes_left) := plan in
  match fill_leaf lsz (pg_empty P) 0 (other_entries sp split (skipn split (pg_cont p))) with
  | None => None
  | Some r =>
      let sp1 := spec_after sp split (pg_num p) in
      if goes_left then Some (r, sp1)
      else
        let sp2 := ISpec (is_key sp1) (is_idx sp1 - split) (is_state sp1) (is_msg sp1) in
        match must (try_perform r sp2) with
        | None => None
        | Some r' => Some (r', sp2)
        end
  end.

(** btree.c:918-934 and 1412-1416 *)
Definition cleanup_left (P : N) (p : page lent) (sp : ispec) (plan : nat * bool)
  : option (page lent) :=
  let '(split, goes_left) := plan in
  match pg_truncate P p split with
  | None => None
  | Some l =>
      if goes_left then
        if can_perform l sp then must (try_perform l sp)
        else match defragment_leaf P l sp with
             | None => None
             | Some (l', sp') => must (try_perform l' sp')
             end
      else Some l
  end.

(** ** The tree state *)
Record env := Env { e_links : N -> N * N; e_fresh : N }.
Definition upd_link (f : N -> N * N) (a : N) (v : N * N) : N -> N * N :=
  fun x => if x =? a then v else f x.

(** A leaf [a] splits, the new leaf is [b]: btree.c:1366-1409 (child_next),
    889-891 (right header copied from left, prev_addr set), 925 (next_addr). *)
Definition link_split (e : env) (a : N) : env * N :=
  let b := e_fresh e in
  let l := e_links e in
  let '(pa, na) := l a in
  let l1 := if na =? 0 then l else upd_link l na (b, snd (l na)) in
  let l2 := upd_link l1 b (a, na) in
  let l3 := upd_link l2 a (pa, b) in
  (Env l3 (b + 1), b).

(** Replace the child of slot [i] (the child's page changed, not the slot). *)
Definition set_child {T} (p : page (ient T)) (i : nat) (t : T) : option (page (ient T)) :=
  match nth_error (pg_ents p) i with
  | None => None
  | Some (o, e) => Some (Page (pg_next p) (set_nth i (o, IEnt (ie_key e) (ie_stats e) t) (pg_ents p)))
  end.
Definition get_child {T} (p : page (ient T)) (i : nat) : option (ient T) := nth_error (pg_cont p) i.

(** btree.c:1330-1436 *)
Definition split_child_leaf (P : N) (parent : page (ient leaf)) (ci : nat) (child : leaf)
           (sp : ispec) (en : env) : option (page (ient leaf) * env) :=
  let plan := build_plan (lf_page child) sp in
  let '(en', b) := link_split en (lf_addr child) in
  match splitting_pivot (lf_page child) sp plan with
  | None => None
  | Some pivot =>
  match build_right P (lf_page child) sp plan with
  | None => None
  | Some (r, sp1) =>
  match cleanup_left P (lf_page child) sp1 plan with
  | None => None
  | Some l =>
  match set_child parent ci (Leaf (lf_addr child) l) with
  | None => None
  | Some parent1 =>
  match must (insert_index_entry isz parent1 (S ci) (IEnt pivot unknown_stats (Leaf b r))) with
  | None => None
  | Some parent2 => Some (parent2, en')
  end end end end end.

(** btree.c:1447-1497.  nentries + old_entry_state == ENTRY_STILL_EXISTS ? 0 : 1
    parses as ((nentries + old_entry_state) == ENTRY_STILL_EXISTS) ? 0 : 1,
    with ENTRY_DID_NOT_EXIST = 0, ENTRY_STILL_EXISTS = 1
    (btree_private.h:64-71). *)
Definition state_code (s : estate) : nat :=
  match s with DidNotExist => 0 | StillExists => 1 | HasBeenRemoved => 2 end.
Definition defragment_or_split_child_leaf (P : N) (parent : page (ient leaf)) (ci : nat)
           (child : leaf) (sp : ispec) (en : env) : option (page (ient leaf) * env) :=
  let p := lf_page child in
  let live := sum_sizes (other_entries sp 0 (pg_cont p)) in
  let required := live + lsz (is_ent sp)
                  + (if Nat.eqb (pg_num p + state_code (is_state sp)) 1 then 0 else 1) * sizeof_index_entry in
  if required <? P / 2 then
    match defragment_leaf P p sp with
    | None => None
    | Some (p', sp') =>
        match must (try_perform p' sp') with
        | None => None
        | Some p2 =>
            match set_child parent ci (Leaf (lf_addr child) p2) with
            | None => None
            | Some parent' => Some (parent', en)
            end
        end
    end
  else split_child_leaf P parent ci child sp en.

(** The end of btree_insert, btree.c:1946-2052: parent and leaf are known. *)
Definition insert_at_leaf (cfg : data_config) (P : N) (parent : page (ient leaf)) (ci : nat)
           (k : bytes) (m : message) (en : env) : option (page (ient leaf) * env * bool) :=
  match get_child parent ci with
  | None => None
  | Some ce =>
      let child := ie_child ce in
      match create_spec cfg (lf_page child) k m with
      | None => None
      | Some sp =>
          let unique := match is_state sp with DidNotExist => true | _ => false end in
          if can_perform (lf_page child) sp then
            match must (try_perform (lf_page child) sp) with
            | None => None
            | Some p' =>
                match set_child parent ci (Leaf (lf_addr child) p') with
                | None => None
                | Some parent' => Some (parent', en, unique)
                end
            end
          else
            match defragment_or_split_child_leaf P parent ci child sp en with
            | None => None
            | Some (parent', en') => Some (parent', en', unique)
            end
      end
  end.

(** ** Index pages *)
(** btree.c:945-952 *)
Definition index_is_full {T} (P : N) (p : page (ient T)) : bool :=
  pg_next p <? off_end (pg_num p + 2) + sizeof_index_entry + max_key P.

(** btree.c:954-978; [None]: read past the last entry *)
Fixpoint split_loop {T} (es : list (ient T)) (half acc : N) (n : nat) : option nat :=
  if acc <? half then
    match es with
    | [] => None
    | e :: es' => split_loop es' half (acc + isz e) (S n)
    end
  else Some n.
Definition index_bytes {T} (es : list (ient T)) : N := fold_right (fun e n => isz e + n) 0 es.
Definition choose_index_split {T} (p : page (ient T)) : option nat :=
  split_loop (pg_cont p) (index_bytes (pg_cont p) / 2) 0 0.

(** btree_set_index_entry on slot 0 with the same child and stats and a new
    key: btree.c:1806-1813, 1821-1829, 1885-1892, 1914-1922 *)
Definition set_min_key {T} (p : page (ient T)) (k : bytes) : pres (page (ient T)) :=
  match get_child p 0 with
  | None => PAbort
  | Some e => set_index_entry isz p 0 (IEnt k (ie_stats e) (ie_child e))
  end.

(** btree.c:1514-1590 (980-1004 for the right node).  The result of inserting
    the pivot into the parent is ignored: on FALSE the right node is in no
    parent.  Result: the parent, the left node, the right node, and the index
    at which the node was split. *)
Definition split_child_index {T} (P : N) (parent : page (ient (page (ient T)))) (ci : nat)
           (child : page (ient T))
  : option (pres (page (ient (page (ient T)))) * page (ient T) * page (ient T) * nat) :=
  match choose_index_split child with
  | None => None
  | Some idx =>
  match get_child child idx with
  | None => None
  | Some pe =>
  match fill_index isz (pg_empty P) 0 (skipn idx (pg_cont child)) with
  | None => None
  | Some rpage =>
  match truncate_index isz P child idx with
  | None => None
  | Some lpage =>
      Some (insert_index_entry isz parent (S ci) (IEnt (ie_key pe) unknown_stats rpage),
            lpage, rpage, idx)
  end end end end.

(** ** Insertion below an index page
    btree.c:1857-2052, from the top of the loop: the parent has room, its
    child [ci] is the one to descend into. *)
Fixpoint insert_below (cfg : data_config) (P : N) (h : nat)
  : tree (S h) -> nat -> bytes -> message -> env -> option (tree (S h) * env * bool) :=
  match h with
  | O => fun parent ci k m en => insert_at_leaf cfg P parent ci k m en
  | S h' => fun (parent : page (ient (tree (S h')))) ci k m en =>
      match get_child parent ci with
      | None => None
      | Some ce =>
      let child : page (ient (tree h')) := ie_child ce in
      match find_pivot cfg child (KUser k) with
      | None => None
      | Some (nci, _) =>
      if (nci <? 0)%Z || index_is_full P child then
        (* 1884-1893 *)
        match (if (nci <? 0)%Z then
                 match set_min_key child k with
                 | PAbort => None
                 | PFalse => Some (child, true)
                 | PTrue c => Some (c, false)
                 end
               else Some (child, false)) with
        | None => None
        | Some (child1, need) =>
        let nci1 := Z.to_nat nci in
        let finish c :=   (* 1914-1924 *)
          if need : bool then must (set_min_key c k) else Some c in
        if index_is_full P child1 then
          let total := index_bytes (pg_cont child1) + N.of_nat (pg_num child1) * sizeof_index_entry in
          if total <? P / 2 then
            match defragment_index isz P child1 with
            | None => None
            | Some c =>
            match finish c with
            | None => None
            | Some c1 =>
            match insert_below cfg P h' c1 nci1 k m en with
            | None => None
            | Some (c2, en', u) =>
            match set_child parent ci c2 with
            | None => None
            | Some parent' => Some (parent', en', u)
            end end end end
          else
            match split_child_index P parent ci child1 with
            | None => None
            | Some (pr, lpage, rpage, idx) =>
                let goes_left := Nat.ltb nci1 idx in
                match finish (if goes_left then lpage else rpage) with
                | None => None
                | Some c1 =>
                match insert_below cfg P h' c1 (if goes_left then nci1 else (nci1 - idx)%nat) k m en with
                | None => None
                | Some (c2, en', u) =>
                    let left2 := if goes_left then c2 else lpage in
                    let right2 := if goes_left then rpage else c2 in
                    match (match pr with
                           | PAbort => None
                           | PFalse => Some parent
                           | PTrue p => set_child p (S ci) right2
                           end) with
                    | None => None
                    | Some parent1 =>
                        match set_child parent1 ci left2 with
                        | None => None
                        | Some parent2 => Some (parent2, en', u)
                        end
                    end
                end end
            end
        else
          match finish child1 with
          | None => None
          | Some c1 =>
          match insert_below cfg P h' c1 nci1 k m en with
          | None => None
          | Some (c2, en', u) =>
          match set_child parent ci c2 with
          | None => None
          | Some parent' => Some (parent', en', u)
          end end end
        end
      else
        match insert_below cfg P h' child (Z.to_nat nci) k m en with
        | None => None
        | Some (c2, en', u) =>
        match set_child parent ci c2 with
        | None => None
        | Some parent' => Some (parent', en', u)
        end end
      end end
  end.

(** btree.c:1699-1734: a new root with the old one as its only child *)
Definition first_key (h : nat) : tree h -> option bytes :=
  match h with
  | O => fun t => option_map fst (nth_error (pg_cont (lf_page t)) 0)
  | S h' => fun (t : page (ient (tree h'))) => option_map ie_key (nth_error (pg_cont t) 0)
  end.
Definition grow_root (P : N) (h : nat) (t : tree h) : option (tree (S h)) :=
  match first_key h t with
  | None => None
  | Some k => must (set_index_entry isz (pg_empty P) 0 (IEnt k unknown_stats t))
  end.

Record bt := Bt { bt_h : nat; bt_tree : tree bt_h; bt_env : env }.

(** btree.c:1797-1834: the root is an index *)
Definition insert_index_root (cfg : data_config) (P : N) (h : nat) (root : tree (S h))
           (k : bytes) (m : message) (en : env) : option (bt * bool) :=
  let below (h' : nat) (r : tree (S h')) (ci : nat) :=
    match insert_below cfg P h' r ci k m en with
    | None => None
    | Some (r', en', u) => Some (Bt (S h') r' en', u)
    end in
  match find_pivot cfg (root : page (ient (tree h))) (KUser k) with
  | None => None
  | Some (ci, _) =>
      if (ci <? 0)%Z || index_is_full P (root : page (ient (tree h))) then
        match (if (ci <? 0)%Z then
                 match set_min_key (root : page (ient (tree h))) k with
                 | PAbort => None
                 | PFalse => Some (root, true)
                 | PTrue r => Some ((r : tree (S h)), false)
                 end
               else Some (root, false)) with
        | None => None
        | Some (root1, need) =>
            if index_is_full P (root1 : page (ient (tree h))) then
              match grow_root P (S h) root1 with
              | None => None
              | Some root2 =>
                  match (if need : bool then must (set_min_key (root2 : page (ient (tree (S h)))) k) else Some root2) with
                  | None => None
                  | Some root3 => below (S h) root3 0%nat
                  end
              end
            else
              match (if need : bool then must (set_min_key (root1 : page (ient (tree h))) k) else Some root1) with
              | None => None
              | Some root3 => below h root3 (Z.to_nat ci)
              end
        end
      else below h root (Z.to_nat ci)
  end.

Inductive bstatus := BOk (unique : bool) | BBadParam.

(** btree.c:1743-1796.  The check for invalid message types is vacuous for
    [message]. *)
Definition btree_insert (cfg : data_config) (P : N) (t : bt) (k : bytes) (m : message)
  : option (bstatus * bt) :=
  if max_key P <? blen k then Some (BBadParam, t)
  else if max_msg P <? blen (m_data m) then Some (BBadParam, t)
  else
    let fin r := match r with None => None | Some (t', u) => Some (BOk u, t') end in
    match t with
    | Bt O root en =>
        match create_spec cfg (lf_page root) k m with
        | None => None
        | Some sp =>
            match try_perform (lf_page root) sp with
            | PAbort => None
            | PTrue p' =>
                Some (BOk (match is_state sp with DidNotExist => true | _ => false end),
                      Bt O (Leaf (lf_addr root) p') en)
            | PFalse =>
                (* grow_root copies the root, at the old root's address, to a
                   new page; the copy is now the leaf *)
                let child := Leaf (e_fresh en) (lf_page root) in
                match grow_root P O child with
                | None => None
                | Some root1 =>
                    fin (insert_index_root cfg P O root1 k m
                           (Env (upd_link (e_links en) (e_fresh en) (e_links en (lf_addr root)))
                                (e_fresh en + 1)))
                end
            end
        end
    | Bt (S h) root en => fin (insert_index_root cfg P h root k m en)
    end.

(** btree.c:1188-1220: an empty leaf *)
Definition btree_create (P : N) : bt := Bt O (Leaf 1 (pg_empty P)) (Env (fun _ => (0, 0)) 2).

(** ** Lookup: btree.c:2071-2137 *)
Definition clamp0 (i : Z) : nat := Z.to_nat i.   (* child_idx < 0 becomes 0 *)
Definition descend_idx {T} (cfg : data_config) (p : page (ient T)) (target : key) : option nat :=
  match target with
  | KPosInf => match pg_num p with O => None | S n => Some n end
  | _ => match find_pivot cfg p target with None => None | Some (i, _) => Some (clamp0 i) end
  end.
Fixpoint lookup_leaf (cfg : data_config) (h : nat) : tree h -> key -> option leaf :=
  match h with
  | O => fun t _ => Some t
  | S h' => fun (t : page (ient (tree h'))) k =>
      match descend_idx cfg t k with
      | None => None
      | Some i => match get_child t i with
                  | None => None
                  | Some e => lookup_leaf cfg h' (ie_child e) k
                  end
      end
  end.
(** outer [None]: abort; inner [None]: not found *)
Definition btree_lookup (cfg : data_config) (h : nat) (t : tree h) (k : bytes) : option (option message) :=
  match lookup_leaf cfg h t (KUser k) with
  | None => None
  | Some l =>
      match find_tuple cfg (lf_page l) (KUser k) with
      | None => None
      | Some (_, false) => Some None
      | Some (i, true) => match nth_error (pg_cont (lf_page l)) (Z.to_nat i) with
                          | None => None
                          | Some (_, m) => Some (Some m)
                          end
      end
  end.

(** ** Contents, for statements *)
Fixpoint leaves (h : nat) : tree h -> list leaf :=
  match h with
  | O => fun t => [t]
  | S h' => fun (t : page (ient (tree h'))) => flat_map (fun e => leaves h' (ie_child e)) (pg_cont t)
  end.
Definition entries (h : nat) (t : tree h) : list lent := flat_map (fun l => pg_cont (lf_page l)) (leaves h t).
