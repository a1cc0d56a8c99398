(** * The trunk: a tree of nodes, the memtables and the background jobs

    /repo/src/trunk.c.  The state of the database as inserts, lookups and the
    background tasks see it, and one step for every change that is published
    at once.  Every change of the trunk copies the path from the root and then
    switches the root under the root lock (1205-1339), so a lookup sees one tree,
    and changes are serialised by the claim on the root.

    Simplifications.
    - A memtable is the sorted list of its tuples (C08); compacting it gives the
      same tuples (C13).
    - When to rotate, flush, split and compact is not modelled: a step may happen
      at any time at any place.  trunk_flush and the calls it makes (4656-4822)
      and trunk_memtable_incorporate_and_flush (3668-3772) are sequences of these
      steps.  In the code a compaction reads the node as it was when the flush or
      split that issued it was published (req->addr, 5144); here it may be started
      at any time.  trunk_split_index narrows the request of the flush that called
      it and issues another one for the right half (5603-5623), that is, it issues
      one compaction for each half.
    - Reference counts, space reclamation (6555-6775), statistics and failures
      of memory allocation are left out.

    Definitions only; no proofs. *)

From Coq Require Import List NArith ZArith Arith Bool.
From Verif Require Import Base Search Merge TrunkNode.
Import ListNotations.

Inductive tree := Tr (n : node) (kids : list tree).
Definition t_node (t : tree) : node := let 'Tr n _ := t in n.
Definition t_kids (t : tree) : list tree := let 'Tr _ l := t in l.

Section Tree.
Variables (M : nat)                 (* hard_max_branches_per_node *)
          (mp : nat)                (* max_pivot_keys *)
          (cfg : data_config)
          (h : bytes -> N).         (* the hash of the filters *)

(** trunk.c:1579-1676, trunk_find_pivot with less_than_or_equal (C12) *)
Definition route (n : node) (target : key) : option nat :=
  trunk_find_pivot cfg (map pv_key (children_pivots n)) target LessThanOrEqual.

(** trunk.c:1144-1177, trunk_node_get_by_key_and_height: [d] levels down *)
Fixpoint subtree_at (d : nat) (target : key) (t : tree) : option tree :=
  match d with
  | O => Some t
  | S d' =>
      match route (t_node t) target with
      | None => None
      | Some i => match nth_error (t_kids t) i with
                  | None => None
                  | Some c => subtree_at d' target c
                  end
      end
  end.
(** trunk.c:1306-1339, trunk_copy_path_by_key_and_height: the tree with the node
    [d] levels down replaced *)
Fixpoint put_at (d : nat) (target : key) (s : tree) (t : tree) : option tree :=
  match d with
  | O => Some s
  | S d' =>
      match route (t_node t) target with
      | None => None
      | Some i =>
          match nth_error (t_kids t) i with
          | None => None
          | Some c =>
              match put_at d' target s c with
              | None => None
              | Some c' => Some (Tr (t_node t) (firstn i (t_kids t) ++ c' :: skipn (S i) (t_kids t)))
              end
          end
      end
  end.

(** ** Lookup *)

(** trunk.c:6973-7001, the loop over the heights and the leaf *)
Fixpoint tree_lookup (ht : nat) (t : tree) (k : bytes) (a : acc) : option (acc * bool) :=
  let n := t_node t in
  match ht with
  | O => match get_pivot n 0 with None => None | Some p => pivot_lookup M cfg h n p k a end
  | S ht' =>
      match route n (KUser k) with
      | None => None
      | Some i =>
          match get_pivot n i, nth_error (t_kids t) i with
          | Some p, Some c =>
              match pivot_lookup M cfg h n p k a with
              | None => None
              | Some (a', false) => Some (a', false)
              | Some (a', true) => tree_lookup ht' c k a'
              end
          | _, _ => None
          end
      end
  end.

(** trunk.c:6958-6966: the memtables, newest first *)
Fixpoint mts_lookup (mts : list branch) (k : bytes) (a : acc) : option (acc * bool) :=
  match mts with
  | [] => Some (a, true)
  | b :: r =>
      match lookup_and_merge cfg b k a with
      | None => None
      | Some (a', _) => if acc_definitive a' then Some (a', false) else mts_lookup r k a'
      end
  end.

(** trunk.c:7003-7030: finish and normalize *)
Definition finish (k : bytes) (r : acc * bool) : option acc :=
  match (match r with
         | (Some m, true) => match data_merge_tuples_final cfg k m with Some m' => Some (Some m') | None => None end
         | (a, _) => Some a
         end) with
  | None => None
  | Some (Some m) => match m_class m with MDelete => Some None | _ => Some (Some m) end
  | Some None => Some None
  end.

(** ** Compaction jobs *)

(** trunk_compact_bundle and trunk_bundle_build_filters run without locks between
    the nodes they change.  [Replace out any]: the merge is done ([None]: no
    tuples), the bundle is being replaced node by node (5361-5447), [any] of them
    replaced; [Build]: the next step reads a node and builds its filters
    (4249-4296); [Install s]: they are being installed (4300-4369). *)
Inductive phase := Replace (out : option branch) (any : bool) | Build | Install (s : scratch).
Record job := Job {
  j_lo : key;                       (* req_original_start_key *)
  j_q : req; j_ph : phase
}.

(** trunk.c:5196-5310: the branch that the compaction writes *)
Definition drained (l : list (option bytes * option message)) : option branch :=
  fold_right (fun e r => match e, r with
                         | (Some k, Some m), Some r => Some ((k, m) :: r)
                         | _, _ => None
                         end) (Some []) l.
Definition compact_output (n : node) (bno : nat) : option branch :=
  let ls := compact_sources M cfg n bno in
  match merge_create cfg (if compact_full n bno then Full else Intermediate) (map (fun l => Src l 0) ls) with
  | Some (Some st) =>
      match drain m_can_next (merge_next cfg) (length (concat ls)) st with
      | Some (l, _) => drained l
      | None => None
      end
  | _ => None
  end.
Definition gens_of (n : node) : nat -> nat :=
  fun i => match nth_error (children_pivots n) i with Some p => pv_gen p | None => 0 end.
Definition start_compaction (n : node) (bno : nat) : option job :=
  if bundle_live n bno then
    match compact_output n bno with
    | None => None
    | Some b =>
        Some (Job (min_key n)
                (Req (min_key n) (max_key n) (n_id n) (n_height n) bno (gens_of n) (fun _ => 0) (map (fun e => h (fst e)) b))
                (Replace (match b with [] => None | _ => Some b end) false))
    end
  else None.

(** trunk.c:3588-3645: the job of an incorporated memtable starts with building
    the filters *)
Fixpoint counts_of (b : branch) (ps : list pivot) (i : nat) : nat :=
  match ps with
  | p :: ((p' :: _) as r) =>
      match i with
      | O => length (branch_range cfg (pv_key p) (pv_key p') b)
      | S j => counts_of b r j
      end
  | _ => 0
  end.
Definition memtable_job (n : node) (bno : nat) (b : branch) : job :=
  Job (min_key n)
    (Req (min_key n) (max_key n) (n_id n) (n_height n) bno (gens_of n) (counts_of b (n_piv n)) (map (fun e => h (fst e)) b))
    Build.

(** ** The state and its steps *)

Record state := St {
  st_tree : tree;
  st_next : nat;                    (* the next node id *)
  st_mts : list branch;             (* memtables, newest first; the first takes inserts *)
  st_jobs : list job
}.

(** trunk.c:7645-7757, trunk_create *)
Definition init : state := St (Tr (first_node 1 1) [Tr (first_node 2 0) []]) 3 [[]] [].

Definition height_of (st : state) : nat := n_height (t_node (st_tree st)).
(** A lookup, trunk.c:6940-7031 *)
Definition lookup (st : state) (k : bytes) : option acc :=
  match mts_lookup (st_mts st) k None with
  | None => None
  | Some (a, false) => finish k (a, false)
  | Some (a, true) =>
      match tree_lookup (height_of st) (st_tree st) k a with
      | None => None
      | Some r => finish k r
      end
  end.

(** An insert into a memtable (C08): the key is new or its message is merged *)
Fixpoint mt_insert (k : bytes) (m : message) (b : branch) : option branch :=
  match b with
  | [] => Some [(k, m)]
  | (k', m') :: r =>
      let c := key_compare cfg k k' in
      if (c <? 0)%Z then Some ((k, m) :: b)
      else if (c =? 0)%Z then
        match data_merge_tuples cfg k m' m with None => None | Some x => Some ((k', x) :: r) end
      else match mt_insert k m r with None => None | Some r' => Some ((k', m') :: r') end
  end.

Inductive step :=
| Insert (k : bytes) (m : message)
| Rotate                                    (* a fresh memtable *)
| Incorporate                               (* the oldest memtable into the root *)
| Flush (d : nat) (target : key)            (* of the pivot for [target], [d] levels down *)
| SplitLeaf (d : nat) (target : key) (ks : list bytes)
| SplitIndex (d : nat) (target : key)
| GrowRoot                                  (* 6084-6106 of trunk_split_root *)
| Compact (d : nat) (target : key) (bno : nat)
| ReplaceStep (i : nat) | BuildStep (i : nat) | InstallStep (i : nat).

Definition set_job (i : nat) (o : option job) (l : list job) : list job :=
  firstn i l ++ (match o with Some j => [j] | None => [] end) ++ skipn (S i) l.

(** trunk.c:5361-5480, one turn of the loop of trunk_compact_bundle *)
Definition replace_step (n : node) (j : job) : option (node * option job) :=
  let q := j_q j in
  match j_ph j with
  | Replace out any =>
      if (n_height n =? 0) && negb (n_id n =? rq_id q) then Some (n, None)
      else
        match (if bundle_live n (rq_bno q) then
                 match replace_bundle_branches M cfg n out q with
                 | None => None
                 | Some (n', q') => Some (n', q', any || match out with Some _ => true | None => false end)
                 end
               else if n_height n =? 0 then None
               else Some (n, q, any)) with
        | None => None
        | Some (n', q', any') =>
            if (data_key_compare cfg (max_key n) (rq_hi q) <? 0)%Z
            then Some (n', Some (Job (j_lo j) (set_lo (max_key n) q') (Replace out any')))
            else if any' then Some (n', Some (Job (j_lo j) (set_lo (j_lo j) q') Build))
            else Some (n', None)
        end
  | _ => None
  end.
(** 4387-4395: the next node *)
Definition next_build (j : job) (k : key) : option job :=
  let q := j_q j in
  if (data_key_compare cfg k (rq_hi q) <? 0)%Z then Some (Job (j_lo j) (set_lo k q) Build) else None.
(** trunk.c:4249-4296, the first half of a turn of trunk_bundle_build_filters *)
Definition build_step (n : node) (j : job) : option (option job) :=
  let q := j_q j in
  match j_ph j with
  | Build =>
      if (n_height n =? 0) && negb (n_id n =? rq_id q) then Some None
      else if negb (bundle_live n (rq_bno q)) then Some (next_build j (max_key n))
      else if negb (rq_bno q =? n_sbn n) then Some (Some j)
      else match prepare_build_filter M n q with
           | None => None
           | Some s => match build_filters q s with
                       | None => None
                       | Some s' => Some (Some (Job (j_lo j) q (Install s')))
                       end
           end
  | _ => None
  end.
(** trunk.c:4298-4385, the second half *)
Definition install_step (n : node) (j : job) : option (node * option job) :=
  let q := j_q j in
  match j_ph j with
  | Install s =>
      if (n_height n =? 0) && negb (n_id n =? rq_id q) then Some (n, None)
      else match replace_filters n q s with
           | None => None
           | Some (n', s') =>
               let k := max_key n' in
               if (data_key_compare cfg k (sc_hi s') =? 0)%Z then Some (n', next_build j k)
               else Some (n', Some (Job (j_lo j) q
                            (Install (Scr k (sc_hi s') (sc_build s') (sc_old s') (sc_value s') (sc_new s')))))
           end
  | _ => None
  end.

(** trunk.c:5721-6081 without the choice of the keys: the leaves for the ranges
    between the boundaries, and the parent with a pivot for each new one *)
Fixpoint cut_leaves (n : node) (id : nat) (bounds : list key) : list tree :=
  match bounds with
  | lo :: ((hi :: _) as r) => Tr (cut_leaf n id lo hi) [] :: cut_leaves n (S id) r
  | _ => []
  end.
Fixpoint add_pivots (n : node) (i : nat) (ks : list key) : option node :=
  match ks with
  | [] => Some n
  | k :: r => match add_pivot mp n i k with None => None | Some n' => add_pivots n' (S i) r end
  end.

Definition node_at (d : nat) (target : key) (t : tree) : option node :=
  match subtree_at d target t with Some s => Some (t_node s) | None => None end.
Definition put_node (d : nat) (target : key) (n : node) (t : tree) : option tree :=
  match subtree_at d target t with Some s => put_at d target (Tr n (t_kids s)) t | None => None end.

Definition with_tree (st : state) (t : option tree) : option state :=
  match t with Some t' => Some (St t' (st_next st) (st_mts st) (st_jobs st)) | None => None end.

(** [None]: the step cannot be taken, or an assertion fails *)
Definition exec (st : state) (s : step) : option state :=
  let t := st_tree st in
  let jobs := st_jobs st in
  match s with
  | Insert k m =>
      match st_mts st with
      | b :: r => match mt_insert k m b with
                  | Some b' => Some (St t (st_next st) (b' :: r) jobs)
                  | None => None
                  end
      | [] => None
      end
  | Rotate => Some (St t (st_next st) ([] :: st_mts st) jobs)
  | Incorporate =>
      match rev (st_mts st) with
      | b :: (_ :: _) as r =>
          let n := t_node t in
          match b with
          | [] => None                                          (* 3489 *)
          | _ =>
              if csub M (n_ebr n) (n_sbr n) + 1 + 1 <? M then   (* 2742-2748 *)
                match install_new_compacted_subbundle M n b (filt_add [] (map (fun e => h (fst e)) b) 0) with
                | None => None
                | Some (bno, n') =>
                    Some (St (Tr n' (t_kids t)) (st_next st) (removelast (st_mts st)) (jobs ++ [memtable_job n' bno b]))
                end
              else None
          end
      | _ => None
      end
  | Flush d target =>
      match subtree_at d target t with
      | Some (Tr n kids) =>
          match route n target with
          | None => None
          | Some i =>
              match get_pivot n i, nth_error kids i with
              | Some p, Some c =>
                  if room_to_flush M n p (t_node c) then
                    match flush_into_bundle M n i (t_node c) with
                    | None => None
                    | Some (_, n', c') =>
                        with_tree st (match put_node (S d) target c' t with
                                      | Some t' => put_node d target n' t'
                                      | None => None
                                      end)
                    end
                  else None
              | _, _ => None
              end
          end
      | None => None
      end
  | SplitLeaf d target ks =>
      match subtree_at d target t with
      | Some (Tr n kids) =>
          match route n target with
          | None => None
          | Some i =>
              match nth_error kids i with
              | Some (Tr l []) =>
                  match leaf_rebundle M l with
                  | None => None
                  | Some (_, l') =>
                      let keys := map KUser ks in
                      match add_pivots n (S i) keys with
                      | None => None
                      | Some n' =>
                          match put_at d target
                                  (Tr n' (firstn i kids ++ cut_leaves l' (st_next st) (min_key l :: keys ++ [max_key l]) ++ skipn (S i) kids)) t with
                          | Some t' => Some (St t' (st_next st + S (length ks)) (st_mts st) jobs)
                          | None => None
                          end
                      end
                  end
              | _ => None
              end
          end
      | None => None
      end
  | SplitIndex d target =>
      match subtree_at d target t with
      | Some (Tr n kids) =>
          match route n target with
          | None => None
          | Some i =>
              match nth_error kids i with
              | Some (Tr c ckids) =>
                  let (l, r) := split_halves M c (st_next st + 1) (st_next st) in
                  let x := num_children c / 2 in
                  match add_pivot mp n (S i) (min_key r) with
                  | None => None
                  | Some n' =>
                      match put_at d target
                              (Tr n' (firstn i kids ++ Tr l (firstn x ckids) :: Tr r (skipn x ckids) :: skipn (S i) kids)) t with
                      | Some t' => Some (St t' (st_next st + 2) (st_mts st) jobs)
                      | None => None
                      end
                  end
              | None => None
              end
          end
      | None => None
      end
  | GrowRoot => Some (St (Tr (new_root (t_node t)) [t]) (st_next st) (st_mts st) jobs)
  | Compact d target bno =>
      match node_at d target t with
      | Some n => match start_compaction n bno with
                  | Some j => Some (St t (st_next st) (st_mts st) (jobs ++ [j]))
                  | None => None
                  end
      | None => None
      end
  | ReplaceStep i =>
      match nth_error jobs i with
      | Some j =>
          let d := height_of st - rq_height (j_q j) in
          match node_at d (rq_lo (j_q j)) t with
          | Some n =>
              match replace_step n j with
              | Some (n', o) =>
                  match put_node d (rq_lo (j_q j)) n' t with
                  | Some t' => Some (St t' (st_next st) (st_mts st) (set_job i o jobs))
                  | None => None
                  end
              | None => None
              end
          | None => None
          end
      | None => None
      end
  | BuildStep i =>
      match nth_error jobs i with
      | Some j =>
          match node_at (height_of st - rq_height (j_q j)) (rq_lo (j_q j)) t with
          | Some n => match build_step n j with
                      | Some o => Some (St t (st_next st) (st_mts st) (set_job i o jobs))
                      | None => None
                      end
          | None => None
          end
      | None => None
      end
  | InstallStep i =>
      match nth_error jobs i with
      | Some j =>
          match j_ph j with
          | Install s =>
              let d := height_of st - rq_height (j_q j) in
              match node_at d (sc_lo s) t with
              | Some n =>
                  match install_step n j with
                  | Some (n', o) =>
                      match put_node d (sc_lo s) n' t with
                      | Some t' => Some (St t' (st_next st) (st_mts st) (set_job i o jobs))
                      | None => None
                      end
                  | None => None
                  end
              | None => None
              end
          | _ => None
          end
      | None => None
      end
  end.

Fixpoint run (st : state) (l : list step) : option state :=
  match l with
  | [] => Some st
  | s :: r => match exec st s with Some st' => run st' r | None => None end
  end.

End Tree.
