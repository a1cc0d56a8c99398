(** * Who refers to which branch, and for which keys

    /repo/src/trunk.c: the calls of trunk_inc_intersection, trunk_zap_branch_range,
    trunk_dec_ref (3145-3196), trunk_bundle_inc_pivot_rc (2700-2719) and of the
    branch iterators that take references (4856-4902).  Definitions only.

    A branch gets one reference on all of its extents when it is built.  From then
    on the tree adds and drops references on key ranges.  What such a call does to
    the extents is the subject of Keyed.v (C25); here the calls are recorded, and
    the question is whether they balance.

    Simplifications:
    - a branch is a number, its contents are of no importance here;
    - the rings of a node are lists that only grow: a [slot] is a bundle (or a
      branch that was one), [p_dead] of a pivot says how many of the oldest slots
      are no longer live for it.  TrunkNode.v has the rings;
    - a level of the tree is the list of its nodes in key order.  The child of a
      pivot is the node below with the same range (in the code, its address);
      TrunkTree.v has the pointers;
    - a bundle that is to be compacted gets a [s_tag] when the request is queued:
      the number of the request.  The code uses bundle numbers and key ranges;
    - when to flush, split, compact is left open; filters are not in the model;
    - reading of old versions of nodes by lookups and scans is not in the model. *)

From Coq Require Import List NArith ZArith Arith Bool.
From Verif Require Import Base.
Import ListNotations.

Definition bid := nat.
Definition krange := (key * key)%type.

Record slot := Slot { s_tag : option nat; s_brs : list bid }.
Record piv := Piv { p_key : key; p_dead : nat }.
Record rnode := RNode { r_id : nat; r_pivs : list piv; r_hi : key; r_slots : list slot }.

(** trunk_min_key *)
Definition next_key (l : list piv) (hi : key) : key := match l with p :: _ => p_key p | [] => hi end.
Definition r_lo (n : rnode) : key := next_key (r_pivs n) (r_hi n).

(** What happens to the references of branches. *)
Inductive ev :=
| EvNew (b : bid) (lo hi : key)          (* built from keys in [lo, hi): one reference on everything *)
| EvInc (b : bid) (r : krange)
| EvDec (b : bid) (r : krange).

(** A request for compaction, trunk.c:5128-5486. *)
Inductive phase :=
| Queued                                  (* before 5144 *)
| Reading                                 (* 5243-5324: the iterators hold references *)
| Placing (ob : option bid) (pos : key) (reps : nat) (lost : list krange). (* 5337-5435 *)

Record job := Job {
  j_id : nat; j_h : nat; j_node : nat; j_lo : key; j_hi : key;
  j_live : bool; j_src : list (bid * krange); j_ph : phase
}.

Record rst := Rst {
  t_lev : list (list rnode);   (* index: height *)
  t_jobs : list job;
  t_node : nat;                (* next node id *)
  t_job : nat;                 (* next request *)
  t_led : list ev;             (* oldest first *)
  t_lost : list (bid * krange) (* ghost: ranges given to nobody, see [replace] *)
}.

Fixpoint sub {A} (i : nat) (ns l : list A) {struct l} : list A :=
  match l, i with
  | [], _ => []
  | _ :: l', O => ns ++ l'
  | x :: l', S i' => x :: sub i' ns l'
  end.
Definition node_at (lv : list (list rnode)) (h i : nat) : option rnode :=
  match nth_error lv h with Some l => nth_error l i | None => None end.
Definition put (lv : list (list rnode)) (h i : nat) (ns : list rnode) : list (list rnode) :=
  match nth_error lv h with Some l => sub h [sub i ns l] lv | None => lv end.

(** The branches that are live for a pivot (7910-7912, branches from
    pdata->start_branch to the end). *)
Definition live_brs (slots : list slot) (p : piv) : list bid := flat_map s_brs (skipn (p_dead p) slots).

(** The branches and ranges of a node, 7905-7921 *)
Fixpoint pieces (slots : list slot) (pivs : list piv) (hi : key) : list (bid * krange) :=
  match pivs with
  | [] => []
  | p :: l => map (fun b => (b, (p_key p, next_key l hi))) (live_brs slots p) ++ pieces slots l hi
  end.
Definition node_pieces (n : rnode) : list (bid * krange) := pieces (r_slots n) (r_pivs n) (r_hi n).
Definition all_pieces (lv : list (list rnode)) : list (bid * krange) := flat_map node_pieces (concat lv).

(** Ranges of the pivots for which slot [q] is live ([dead]: is not), 2916-2922, 2975-2982 *)
Fixpoint ranges (f : piv -> bool) (pivs : list piv) (hi : key) : list krange :=
  match pivs with
  | [] => []
  | p :: l => if f p then (p_key p, next_key l hi) :: ranges f l hi else ranges f l hi
  end.
Definition live_for (q : nat) (p : piv) : bool := p_dead p <=? q.

(** 4929-4960: one iterator for each run of pivots for which the branch is live *)
Fixpoint groups (q : nat) (start : option key) (pivs : list piv) (hi : key) : list krange :=
  match pivs with
  | [] => match start with Some s => [(s, hi)] | None => [] end
  | p :: l => if live_for q p then groups q (Some (match start with Some s => s | None => p_key p end)) l hi
              else match start with
                   | Some s => (s, p_key p) :: groups q None l hi
                   | None => groups q None l hi
                   end
  end.

Definition inc_at (ks : list key) (bs : list bid) : list ev := flat_map (fun b => map (fun k => EvInc b (k, k)) ks) bs.
Definition inc_all (l : list (bid * krange)) : list ev := map (fun p => EvInc (fst p) (snd p)) l.
Definition dec_all (l : list (bid * krange)) : list ev := map (fun p => EvDec (fst p) (snd p)) l.
Definition everything : krange := (KNegInf, KPosInf).

Definition is_new (b : bid) (e : ev) : bool := match e with EvNew b' _ _ => b' =? b | _ => false end.
Definition fresh (b : bid) (l : list ev) : bool := negb (existsb (is_new b) l).

Definition keqb (d : data_config) (a b : key) : bool := Z.eqb (data_key_compare d a b) 0.
Definition kltb (d : data_config) (a b : key) : bool := Z.ltb (data_key_compare d a b) 0.
Fixpoint ascend (d : data_config) (lo : key) (ks : list key) (hi : key) : bool :=
  match ks with [] => kltb d lo hi | k :: l => kltb d lo k && ascend d k l hi end.

Inductive op :=
| OIncorporate (b : bid)
| OFlush (h i j c : nat)
| OSplitIndex (h i j c m : nat)
| OSplitLeaf (i j c : nat) (ks : list key)
| OGrow
| OEnqueue (h c q : nat)
| OStart (t : nat)
| OFail (t : nat)
| OMerge (t : nat) (ob : option bid)
| OReplace (t c : nat)
| ODestroy.

(** 3588-3645, trunk_install_new_compacted_subbundle: the new branch goes into the
    root and is cut at the root's pivots. *)
Definition incorporate (s : rst) (b : bid) : option rst :=
  let h := pred (length (t_lev s)) in
  match node_at (t_lev s) h 0 with
  | Some n =>
      if fresh b (t_led s) then
        Some (Rst (put (t_lev s) h 0 [RNode (r_id n) (r_pivs n) (r_hi n) (r_slots n ++ [Slot None [b]])])
                  (t_jobs s) (t_node s) (t_job s)
                  (t_led s ++ EvNew b KNegInf KPosInf :: inc_at (map p_key (tl (r_pivs n))) [b]) (t_lost s))
      else None
  | None => None
  end.

Definition kill (j : nat) (n : rnode) : rnode :=
  match nth_error (r_pivs n) j with
  | Some p => RNode (r_id n) (sub j [Piv (p_key p) (length (r_slots n))] (r_pivs n)) (r_hi n) (r_slots n)
  | None => n
  end.

(** The child of pivot [j] of [p] is [c]. *)
Definition child_of (d : data_config) (p : rnode) (j : nat) (c : rnode) : bool :=
  match skipn j (r_pivs p) with
  | q :: l => keqb d (r_lo c) (p_key q) && keqb d (r_hi c) (next_key l (r_hi p))
  | [] => false
  end.

(** 4447-4596, trunk_flush_into_bundle, 4714: the live branches of a pivot become a
    new bundle of the child and are cut at the child's pivots. *)
Definition flush (d : data_config) (s : rst) (h i j c : nat) : option rst :=
  match node_at (t_lev s) (S h) i, node_at (t_lev s) h c with
  | Some p, Some ch =>
      match nth_error (r_pivs p) j with
      | Some q =>
          if child_of d p j ch then
            let bs := live_brs (r_slots p) q in
            Some (Rst (put (put (t_lev s) (S h) i [kill j p]) h c
                           [RNode (r_id ch) (r_pivs ch) (r_hi ch) (r_slots ch ++ [Slot None bs])])
                      (t_jobs s) (t_node s) (t_job s)
                      (t_led s ++ inc_at (map p_key (tl (r_pivs ch))) bs) (t_lost s))
          else None
      | None => None
      end
  | _, _ => None
  end.

(** 1728-1755, 1538-1560, trunk_add_pivot: nothing is live for a new pivot *)
Definition add_pivots (j : nat) (ks : list key) (n : rnode) : rnode :=
  match nth_error (r_pivs n) j with
  | Some p => RNode (r_id n) (sub j (p :: map (fun k => Piv k (length (r_slots n))) ks) (r_pivs n)) (r_hi n) (r_slots n)
  | None => n
  end.
Definition cleared (j : nat) (n : rnode) : bool :=
  match nth_error (r_pivs n) j with Some p => p_dead p =? length (r_slots n) | None => false end.

(** 5514-5630, trunk_split_index: no reference changes.  The parent has just been
    flushed for this child (4720-4728) or is a new root. *)
Definition split_index (d : data_config) (s : rst) (h i j c m : nat) : option rst :=
  match h, node_at (t_lev s) (S h) i, node_at (t_lev s) h c with
  | S _, Some p, Some ch =>
      match skipn m (r_pivs ch) with
      | q :: l =>
          if (0 <? m) && child_of d p j ch && cleared j p then
            Some (Rst (put (put (t_lev s) (S h) i [add_pivots j [p_key q] p]) h c
                           [RNode (S (t_node s)) (firstn m (r_pivs ch)) (p_key q) (r_slots ch);
                            RNode (t_node s) (q :: l) (r_hi ch) (r_slots ch)])
                      (t_jobs s) (S (S (t_node s))) (t_job s) (t_led s) (t_lost s))
          else None
      | [] => None
      end
  | _, _, _ => None
  end.

Fixpoint new_leaves (id : nat) (bs : list bid) (lo : key) (ks : list key) (hi : key) : list rnode :=
  match ks with
  | [] => [RNode id [Piv lo 0] hi [Slot None bs]]
  | k :: l => RNode id [Piv lo 0] k [Slot None bs] :: new_leaves (S id) bs k l hi
  end.

(** 5930-6055, trunk_split_leaf (no keys: also a leaf compacted by itself): all
    branches become one bundle of each new leaf and are cut at the new keys *)
Definition split_leaf (d : data_config) (s : rst) (i j c : nat) (ks : list key) : option rst :=
  match node_at (t_lev s) 1 i, node_at (t_lev s) 0 c with
  | Some p, Some lf =>
      match r_pivs lf with
      | [q] =>
          if child_of d p j lf && ascend d (p_key q) ks (r_hi lf) && (cleared j p || match ks with [] => true | _ => false end) then
            let bs := live_brs (r_slots lf) q in
            Some (Rst (put (put (t_lev s) 1 i [add_pivots j ks p]) 0 c (new_leaves (t_node s) bs (p_key q) ks (r_hi lf)))
                      (t_jobs s) (t_node s + S (length ks)) (t_job s)
                      (t_led s ++ flat_map (fun k => inc_at [k] bs) ks) (t_lost s))
          else None
      | _ => None
      end
  | _, _ => None
  end.

(** 6084-6106, trunk_split_root before it splits the old root *)
Definition grow (s : rst) : option rst :=
  match t_lev s with
  | [] => None
  | _ => Some (Rst (t_lev s ++ [[RNode (t_node s) [Piv KNegInf 0] KPosInf []]]) (t_jobs s) (S (t_node s)) (t_job s) (t_led s) (t_lost s))
  end.

(** 4464-4484, 4745, 5603-5621, 6004-6019: a request for slot [q] of a node.  When
    it is carried out, it reads the node as it is now (req->addr, 5144). *)
Definition enqueue (s : rst) (h c q : nat) : option rst :=
  match node_at (t_lev s) h c with
  | Some n =>
      match nth_error (r_slots n) q with
      | Some (Slot None bs) =>
          let gs := groups q None (r_pivs n) (r_hi n) in
          Some (Rst (put (t_lev s) h c [RNode (r_id n) (r_pivs n) (r_hi n) (sub q [Slot (Some (t_job s)) bs] (r_slots n))])
                    (t_jobs s ++ [Job (t_job s) h (r_id n) (r_lo n) (r_hi n) (existsb (live_for q) (r_pivs n))
                                      (flat_map (fun b => map (fun r => (b, r)) gs) bs) Queued])
                    (t_node s) (S (t_job s)) (t_led s) (t_lost s))
      | _ => None
      end
  | None => None
  end.

Definition find_job (s : rst) (t : nat) : option job := find (fun j => j_id j =? t) (t_jobs s).
Definition drop_job (t : nat) (l : list job) : list job := filter (fun j => negb (j_id j =? t)) l.
Definition set_ph (t : nat) (ph : phase) (l : list job) : list job :=
  map (fun j => if j_id j =? t then Job (j_id j) (j_h j) (j_node j) (j_lo j) (j_hi j) (j_live j) (j_src j) ph else j) l.

(** 5176-5193 (nothing left to do), 5237-5250 *)
Definition start (s : rst) (t : nat) : option rst :=
  match find_job s t with
  | Some j =>
      match j_ph j with
      | Queued =>
          if j_live j then
            Some (Rst (t_lev s) (set_ph t Reading (t_jobs s)) (t_node s) (t_job s) (t_led s ++ inc_all (j_src j)) (t_lost s))
          else Some (Rst (t_lev s) (drop_job t (t_jobs s)) (t_node s) (t_job s) (t_led s) (t_lost s))
      | _ => None
      end
  | None => None
  end.

(** 5270-5294: no memory, or packing fails *)
Definition fail (s : rst) (t : nat) : option rst :=
  match find_job s t with
  | Some j =>
      match j_ph j with
      | Reading => Some (Rst (t_lev s) (drop_job t (t_jobs s)) (t_node s) (t_job s) (t_led s ++ dec_all (j_src j)) (t_lost s))
      | _ => None
      end
  | None => None
  end.

(** 5285, 5301-5337: [None] if there was nothing to pack *)
Definition merge (s : rst) (t : nat) (ob : option bid) : option rst :=
  match find_job s t with
  | Some j =>
      match j_ph j with
      | Reading =>
          let go news := Some (Rst (t_lev s) (set_ph t (Placing ob (j_lo j) 0 []) (t_jobs s)) (t_node s) (t_job s)
                                   (t_led s ++ news ++ dec_all (j_src j)) (t_lost s)) in
          match ob with
          | None => go []
          | Some b => if fresh b (t_led s) then go [EvNew b (j_lo j) (j_hi j)] else None
          end
      | _ => None
      end
  | None => None
  end.

Fixpoint find_slot (t : nat) (l : list slot) : option nat :=
  match l with
  | [] => None
  | s :: l' => if match s_tag s with Some t' => t' =? t | None => false end then Some 0
               else option_map S (find_slot t l')
  end.
(** trunk_bundle_live: the number of the slot if it is live for some pivot *)
Definition slot_live (t : nat) (n : rnode) : option nat :=
  match find_slot t (r_slots n) with
  | Some q => if existsb (live_for q) (r_pivs n) then Some q else None
  | None => None
  end.

Definition opt {A} (o : option A) : list A := match o with Some x => [x] | None => [] end.

(** 5337-5435: one node.  [cont] is should_continue; the references on the new
    branch are cut at the pivots and dropped where the bundle is dead (2967-2982),
    those on the old branches are dropped where it is live (2911-2924). *)
Definition replace (d : data_config) (s : rst) (t c : nat) : option rst :=
  match find_job s t with
  | Some j =>
      match j_ph j, node_at (t_lev s) (j_h j) c with
      | Placing ob pos reps lost, Some n =>
          if kltb d pos (r_lo n) || negb (kltb d pos (r_hi n)) then None
          else if (j_h j =? 0) && negb (r_id n =? j_node j) then
            (* 5353-5382: the leaf has split *)
            Some (Rst (t_lev s) (drop_job t (t_jobs s)) (t_node s) (t_job s)
                      (t_led s ++ dec_all (map (fun b => (b, everything)) (opt ob))) (t_lost s))
          else
            let cont := kltb d (r_hi n) (j_hi j) in
            if (j_h j =? 0) && cont then None      (* 5412 *)
            else
              match slot_live t n with
              | Some q =>
                  let old := match nth_error (r_slots n) q with Some sl => s_brs sl | None => [] end in
                  let lv := put (t_lev s) (j_h j) c
                              [RNode (r_id n) (r_pivs n) (r_hi n) (sub q [Slot (Some t) (opt ob)] (r_slots n))] in
                  let incs := inc_at (map p_key (tl (r_pivs n)) ++ [r_hi n]) (opt ob) in
                  let slice := flat_map (fun b => map (fun r => EvDec b r) (ranges (fun p => negb (live_for q p)) (r_pivs n) (r_hi n))) (opt ob) in
                  let gc := flat_map (fun b => map (fun r => EvDec b r) (ranges (live_for q) (r_pivs n) (r_hi n))) old in
                  if cont then
                    Some (Rst lv (set_ph t (Placing ob (r_hi n) (S reps) lost) (t_jobs s)) (t_node s) (t_job s)
                              (t_led s ++ incs ++ slice ++ gc) (t_lost s))
                  else
                    Some (Rst lv (drop_job t (t_jobs s)) (t_node s) (t_job s)
                              (t_led s ++ incs ++ slice ++ map (fun b => EvDec b (r_hi n, r_hi n)) (opt ob) ++ gc)
                              (t_lost s ++ flat_map (fun b => map (fun r => (b, r)) lost) (opt ob)))
              | None =>
                  if j_h j =? 0 then None          (* 5403 *)
                  else if cont then
                    Some (Rst (t_lev s) (set_ph t (Placing ob (r_hi n) reps (lost ++ [(r_lo n, r_hi n)])) (t_jobs s)) (t_node s) (t_job s)
                              (t_led s) (t_lost s))
                  else if reps =? 0 then           (* 5449-5452 *)
                    Some (Rst (t_lev s) (drop_job t (t_jobs s)) (t_node s) (t_job s)
                              (t_led s ++ dec_all (map (fun b => (b, everything)) (opt ob))) (t_lost s))
                  else                             (* 5415-5419 *)
                    Some (Rst (t_lev s) (drop_job t (t_jobs s)) (t_node s) (t_job s)
                              (t_led s ++ map (fun b => EvDec b (r_hi n, r_hi n)) (opt ob))
                              (t_lost s ++ flat_map (fun b => map (fun r => (b, r)) (lost ++ [(r_lo n, r_hi n)])) (opt ob)))
              end
      | _, _ => None
      end
  | None => None
  end.

(** 7898-7943, trunk_destroy, after all work has stopped *)
Definition destroy (s : rst) : option rst :=
  match t_jobs s with
  | [] => Some (Rst [] [] (t_node s) (t_job s) (t_led s ++ dec_all (all_pieces (t_lev s))) (t_lost s))
  | _ => None
  end.

Definition do (d : data_config) (s : rst) (o : op) : option rst :=
  match o with
  | OIncorporate b => incorporate s b
  | OFlush h i j c => flush d s h i j c
  | OSplitIndex h i j c m => split_index d s h i j c m
  | OSplitLeaf i j c ks => split_leaf d s i j c ks
  | OGrow => grow s
  | OEnqueue h c q => enqueue s h c q
  | OStart t => start s t
  | OFail t => fail s t
  | OMerge t ob => merge s t ob
  | OReplace t c => replace d s t c
  | ODestroy => destroy s
  end.

(** 7709-7722, trunk_create *)
Definition rst0 : rst :=
  Rst [[RNode 1 [Piv KNegInf 0] KPosInf []]; [RNode 0 [Piv KNegInf 0] KPosInf []]] [] 2 0 [] [].

(** A later request installs its result while an earlier one has not yet taken its
    references. *)
Definition queued (j : job) : bool := match j_ph j with Queued => true | _ => false end.
Definition overtakes (s : rst) (o : op) : bool :=
  match o with
  | OReplace t _ => existsb (fun j => (j_id j <? t) && queued j) (t_jobs s)
  | _ => false
  end.

(** An index node is split while a request for one of that height is pending. *)
Definition disturbs (s : rst) (o : op) : bool :=
  match o with
  | OSplitIndex h _ _ _ _ => existsb (fun j => j_h j =? h) (t_jobs s)
  | _ => false
  end.

Inductive rreach (d : data_config) : rst -> Prop :=
| rr0 : rreach d rst0
| rr1 s o s' : rreach d s -> do d s o = Some s' -> rreach d s'.

(** Every request takes its references before a later one installs its result. *)
Inductive oreach (d : data_config) : rst -> Prop :=
| or0 : oreach d rst0
| or1 s o s' : oreach d s -> overtakes s o = false -> do d s o = Some s' -> oreach d s'.

(** In addition no index node is split while a request of its height is pending. *)
Inductive creach (d : data_config) : rst -> Prop :=
| cr0 : creach d rst0
| cr1 s o s' : creach d s -> overtakes s o = false -> disturbs s o = false -> do d s o = Some s' -> creach d s'.
