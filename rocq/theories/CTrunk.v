(** The trunk used by many threads at once: /repo/src/trunk.c, trunk_lookup (6940-7031),
    trunk_root_get (1126-1132), trunk_claim_and_copy_root (1240-1252),
    trunk_update_claimed_root (1263-1271), trunk_copy_path_by_key_and_height (1306-1339),
    trunk_garbage_collect_node_get (2841-2884), trunk_garbage_collect_bundle (2889-2929),
    trunk_memtable_incorporate_and_flush (3668-3772), trunk_flush (4656-4763), the loop of
    trunk_compact_bundle that puts the new branch in (5339-5435), trunk_split_root
    (6084-6115).

    One step is one access to the lock of the root or of a node, or the work done on
    nodes between two such accesses.

    Simplifications:
    - keys are numbers, the least one 0; messages are numbers; a branch is a map from
      keys to lists of messages, the newest first; the new branch of a compaction has all
      messages of the branches it replaces (C05, C26) and for all keys, not only those of
      the node; lookups do not stop at a definitive message (C02);
    - the branches of a pivot are a list, newest first ([TrunkNode] has bundles and ring
      buffers); filters are left out (C20: they lose nothing);
    - when a node is flushed or split, into which child and at which keys is chosen by the
      schedule;
    - nodes made by an incorporation are not locked: nobody knows them before its root is
      switched in; the new root of a split root has a page of its own, where the code
      moves the old contents to one (6092);
    - the lock of the root is written only in the step that switches the root
      (1267-1270 in a row), which waits for its readers; taking a claim on it is one step
      (C22);
    - a page's claim is taken with its lock; a lock is announced, from then on nobody
      gets the page, and then waits for the readers;
    - unlock, unclaim and unget in a row are one step;
    - the memtables and their lookup lock (6952, 3729) are left out ([Memtable], C31). *)
From Coq Require Import List Arith Bool.
Import ListNotations.
Local Open Scope nat_scope.

(** ** Nodes. *)

(** trunk_pivot_data: the key, the child, the branches that are live for the pivot. *)
Record piv := Pv { pk : nat; ch : nat; bs : list nat }.
(** trunk_hdr: height, pivots, the last pivot key (none: no upper bound). *)
Record node := Nd { ht : nat; pvs : list piv; ub : option nat }.

Definition setch (p : piv) (c : nat) : piv := Pv (pk p) c (bs p).
Definition setbs (p : piv) (l : list nat) : piv := Pv (pk p) (ch p) l.

(** trunk_find_pivot, 1616, less_than_or_equal: the last pivot that is not greater. *)
Fixpoint slot (k : nat) (ps : list piv) : option piv :=
  match ps with
  | [] => None
  | p :: r => if k <? pk p then None else match slot k r with Some q => Some q | None => Some p end
  end.

(** 1106: the child of that pivot replaced. *)
Fixpoint reslot (k : nat) (ps : list piv) (c : nat) : list piv :=
  match ps with
  | [] => []
  | p :: r => if k <? pk p then ps
              else match slot k r with Some _ => p :: reslot k r c | None => setch p c :: r end
  end.

(** trunk_min_key. *)
Definition lo (n : node) : option nat := match pvs n with p :: _ => Some (pk p) | [] => None end.

Definition below (k : nat) (u : option nat) : bool := match u with Some x => k <? x | None => true end.
Definition same (u v : option nat) : bool :=
  match u, v with Some x, Some y => x =? y | None, None => true | _, _ => false end.

(** trunk_split_index, 5515, at pivot [c]; trunk_split_leaf, 5722, at key [c]: both
    leaves have all the branches. *)
Definition cut_node (n : node) (c : nat) : option (node * node) :=
  if ht n =? 0 then
    match pvs n with
    | p :: _ => if (pk p <? c) && below c (ub n)
                then Some (Nd 0 (pvs n) (Some c), Nd 0 [Pv c (ch p) (bs p)] (ub n)) else None
    | [] => None
    end
  else
    match firstn c (pvs n), skipn c (pvs n) with
    | _ :: _, p :: _ => Some (Nd (ht n) (firstn c (pvs n)) (Some (pk p)), Nd (ht n) (skipn c (pvs n)) (ub n))
    | _, _ => None
    end.
(** A leaf is split into any number of leaves (5722ff). *)
Fixpoint pieces (n : node) (cs : list nat) : option (list node) :=
  match cs with
  | [] => Some [n]
  | c :: r => match cut_node n c with
              | Some (l, n') => match pieces n' r with Some ps => Some (l :: ps) | None => None end
              | None => None
              end
  end.

(** trunk_add_pivot: the pivots for the pieces, which have the pages from [a] on. *)
Fixpoint heads (a : nat) (ns : list node) : list piv :=
  match ns with
  | [] => []
  | n :: r => match pvs n with
              | p :: _ => Pv (pk p) a [] :: heads (S a) r
              | [] => heads (S a) r
              end
  end.

Definition upd {A} (f : nat -> A) (a : nat) (x : A) : nat -> A := fun b => if b =? a then x else f b.
Fixpoint store (g : nat -> node) (a : nat) (ns : list node) : nat -> node :=
  match ns with [] => g | n :: r => store (upd g a n) (S a) r end.

(** trunk_install_new_compacted_subbundle, 3589, and trunk_flush_into_bundle, 4448: the
    branches are newer than those there, for all pivots. *)
Definition add_all (l : list nat) (n : node) : node :=
  Nd (ht n) (map (fun p => setbs p (l ++ bs p)) (pvs n)) (ub n).

(** The branches of a bundle are next to each other.  [swap]: they are replaced, 2944-3060;
    none: the bundle is not live for the pivot, trunk_bundle_live_for_pivot. *)
Fixpoint strip (seg l : list nat) {struct seg} : option (list nat) :=
  match seg, l with
  | [], _ => Some l
  | x :: seg, y :: l => if x =? y then strip seg l else None
  | _, [] => None
  end.
Fixpoint swap (seg new l : list nat) {struct l} : option (list nat) :=
  match strip seg l with
  | Some r => Some (new ++ r)
  | None => match l with
            | [] => None
            | x :: l => match swap seg new l with Some r => Some (x :: r) | None => None end
            end
  end.
Definition replaced (seg new : list nat) (n : node) : node :=
  Nd (ht n) (map (fun p => match swap seg new (bs p) with Some l => setbs p l | None => p end) (pvs n)) (ub n).
Definition live (seg l : list nat) : bool := match swap seg [] l with Some _ => true | None => false end.

Definition isin (a : nat) (l : list nat) : bool := existsb (Nat.eqb a) l.

(** ** Threads. *)

(** trunk_compact_bundle_req: where the bundle is, up to which key, its branches; the
    new branch. *)
Record req := Rq { sk : nat; hh : nat; ek : option nat; seg : list nat; nbr : nat }.

Inductive pc :=
| Idle
(* a lookup *)
| G0 (k : nat)                                  (* 1129 *)
| G1 (k : nat)                                  (* 1130, with the root's lock *)
| G2 (k a i : nat) (acc : list nat)             (* 6982, 6987, 6995 *)
| G3 (k a c : nat) (acc : list nat)             (* 6988 *)
(* a compaction: [e] the copy of the node, [old] the root before *)
| P0 (o : req)                                  (* 1209, 1210 *)
| P1 (o : req)                                  (* 1248 *)
| P2 (o : req) (a old : nat)                    (* 1267 *)
| P3 (o : req) (e old : nat)                    (* 1319; 5353 *)
| P4 (o : req) (e old : nat) (n : node)         (* 5386: [n] the node before *)
| K0 (o : req) (e old : nat)                    (* 2854 *)
| K1 (o : req) (e : nat) (up : option nat) (a : nat)  (* 2857, 2870 *)
| K2 (o : req) (e a : nat)                      (* 2867, 2912 *)
| P6 (o : req) (e : nat)                        (* 5432 *)
(* an incorporation: [a] the new root, [own] the new nodes *)
| I0 (c : list (nat * list nat))                (* 1209, 1210 *)
| I1 (c : list (nat * list nat))                (* 1248, 3695 *)
| I2 (c : list (nat * list nat)) (a : nat) (own : list nat)  (* 3715, 3720, 3741 *)
(* an assertion has failed: 1334, 2858, no pivot for the key *)
| Bad.

(** Nodes a thread has references to ... *)
Definition reads (t : pc) : list nat :=
  match t with G2 _ a _ _ => [a] | G3 _ a c _ => [a; c] | _ => [] end.
(** ... and those it has locked or announced to lock. *)
Definition locks (t : pc) : list nat :=
  match t with
  | P2 _ a _ | P3 _ a _ | P4 _ a _ _ | K0 _ a _ | P6 _ a => [a]
  | K1 _ e (Some b) a => [e; b; a]
  | K1 _ e None a => [e; a]
  | K2 _ e a => [e; a]
  | _ => []
  end.
(** The lock of the root: readers, claim. *)
Definition root_reader (t : pc) : bool := match t with G1 _ => true | _ => false end.
Definition root_claim (t : pc) : bool :=
  match t with P1 _ | P2 _ _ _ | I1 _ | I2 _ _ _ => true | _ => false end.

Record state := St {
  mem : nat -> node;                (* the nodes *)
  nx : nat;                         (* pages from here on are free *)
  root : nat;                       (* spl->root_addr *)
  br : nat -> nat -> list nat;      (* the branches *)
  nb : nat;
  fr : nat -> nat -> bool;          (* the branch's space for the key is given up *)
  ths : list pc }.

(** No thread but [i] has [a] in what [f] gives. *)
Fixpoint nobody (f : pc -> list nat) (a i : nat) (l : list pc) : bool :=
  match l with
  | [] => true
  | t :: r => match i with
              | 0 => forallb (fun t => negb (isin a (f t))) r
              | S i => negb (isin a (f t)) && nobody f a i r
              end
  end.
Definition can_get (s : state) (i a : nat) : bool := nobody locks a i (ths s).
Definition unread (s : state) (i a : nat) : bool := nobody reads a i (ths s).
Definition no_reader (s : state) : bool := forallb (fun t => negb (root_reader t)) (ths s).
Definition no_claim (s : state) : bool := forallb (fun t => negb (root_claim t)) (ths s).

Fixpoint put {A} (l : list A) (i : nat) (x : A) : list A :=
  match l, i with
  | [], _ => []
  | _ :: r, 0 => x :: r
  | y :: r, S i => y :: put r i x
  end.

(** A call: a lookup; the incorporation of a memtable; a compaction of the branches
    [seg] in the node of height [h] for [k], up to key [e]. *)
Inductive call := CGet (k : nat) | CInc (c : list (nat * list nat)) | CMerge (k h : nat) (e : option nat) (seg : list nat).
Inductive result := RGet (v : list nat) | RDone.
(** [Stale]: a lookup has read space that was given up. *)
Inductive label := Tau | Called (c : call) | Returned (r : result) | Stale.

(** The choices of the schedule: what given up space has now; an incorporation
    flushes pivot [i] of [p], splits the root, or switches it in. *)
Inductive act := AGo (junk : list nat) | AFlush (p i : nat) (cs : list nat) | ARoot (cs : list nat).
Inductive cmd := Do (c : call) | Go (x : act).

Definition cont (c : list (nat * list nat)) (k : nat) : list nat :=
  flat_map (fun e => if fst e =? k then snd e else []) c.
Definition all_of (B : nat -> nat -> list nat) (l : list nat) (k : nat) : list nat := flat_map (fun b => B b k) l.

(** What a step does: the new state but for the threads, where the thread is then. *)
Definition same_st (s : state) (t : pc) (l : label) : option (state * pc * label) := Some (s, t, l).
Definition with_mem (s : state) (g : nat -> node) (n : nat) : state :=
  St g n (root s) (br s) (nb s) (fr s) (ths s).
Definition with_root (s : state) (a : nat) : state :=
  St (mem s) (nx s) a (br s) (nb s) (fr s) (ths s).
Definition with_branch (s : state) (f : nat -> list nat) : state :=
  St (mem s) (nx s) (root s) (upd (br s) (nb s) f) (S (nb s)) (fr s) (ths s).

(** trunk_garbage_collect_bundle, 2912-2924: for the pivots the bundle is live for. *)
Definition freed (s : state) (sg : list nat) (n : node) : state :=
  St (mem s) (nx s) (root s) (br s) (nb s)
     (fun b k => fr s b k ||
        (isin b sg && below k (ub n) &&
         match slot k (pvs n) with Some p => live sg (bs p) | None => false end))
     (ths s).

(** trunk_flush, 4672-4730: the child of pivot [i] of [p] is copied, gets the branches of
    the pivot and is split. *)
Definition flush (s : state) (p i : nat) (cs : list nat) : option state :=
  let n := mem s p in
  match nth_error (pvs n) i with
  | Some q =>
      if ht n =? 0 then None
      else match pieces (add_all (bs q) (mem s (ch q))) cs with
           | Some ns =>
               Some (with_mem s
                  (upd (store (mem s) (nx s) ns) p
                       (Nd (ht n) (firstn i (pvs n) ++ heads (nx s) ns ++ skipn (S i) (pvs n)) (ub n)))
                  (nx s + length ns))
           | None => None
           end
  | None => None
  end.

(** trunk_split_root, 6084-6115: [a] is the page of the new root. *)
Definition grow (s : state) (a : nat) (cs : list nat) : option state :=
  let n := mem s a in
  match pieces n cs with
  | Some ns =>
      Some (with_mem s
         (upd (store (mem s) (nx s) ns) (nx s + length ns) (Nd (S (ht n)) (heads (nx s) ns) (ub n)))
         (S (nx s + length ns)))
  | None => None
  end.

Definition go (s : state) (i : nat) (t : pc) (x : act) : option (state * pc * label) :=
  let g := mem s in
  match t, x with
  (* trunk_root_get *)
  | G0 k, AGo _ => same_st s (G1 k) Tau
  | G1 k, AGo _ => if can_get s i (root s) then same_st s (G2 k (root s) 0 []) Tau else None
  (* 6976-6996 *)
  | G2 k a j acc, AGo junk =>
      match slot k (pvs (g a)) with
      | Some p =>
          match nth_error (bs p) j with
          | Some b => if fr s b k then same_st s (G2 k a (S j) (acc ++ junk)) Stale
                      else same_st s (G2 k a (S j) (acc ++ br s b k)) Tau
          | None => if ht (g a) =? 0 then same_st s Idle (Returned (RGet acc))
                    else if can_get s i (ch p) then same_st s (G3 k a (ch p) acc) Tau else None
          end
      | None => same_st s Bad Tau
      end
  | G3 k a c acc, AGo _ => same_st s (G2 k c 0 acc) Tau
  (* trunk_claim_and_copy_root *)
  | P0 o, AGo _ => if no_claim s then same_st s (P1 o) Tau else None
  | P1 o, AGo _ =>
      if can_get s i (root s)
      then Some (with_mem s (upd g (nx s) (g (root s))) (S (nx s)), P2 o (nx s) (root s), Tau) else None
  (* trunk_update_claimed_root *)
  | P2 o a old, AGo _ => if no_reader s then Some (with_root s a, P3 o a old, Tau) else None
  (* 1319-1332 *)
  | P3 o e old, AGo _ =>
      if hh o <? ht (g e) then
        match slot (sk o) (pvs (g e)) with
        | Some p =>
            if can_get s i (ch p)
            then Some (with_mem s (upd (upd g (nx s) (g (ch p))) e
                         (Nd (ht (g e)) (reslot (sk o) (pvs (g e)) (nx s)) (ub (g e)))) (S (nx s)),
                       P3 o (nx s) old, Tau)
            else None
        | None => same_st s Bad Tau
        end
      else if hh o =? ht (g e) then
        if (ht (g e) =? 0) && negb (same (ub (g e)) (ek o)) then same_st s Idle (Returned RDone)  (* 5353 *)
        else Some (with_mem s (upd g e (replaced (seg o) [] (g e))) (nx s), P4 o e old (g e), Tau)
      else same_st s Bad Tau
  | P4 o e old n, AGo _ =>
      Some (with_mem s (upd g e (replaced (seg o) [nbr o] n)) (nx s), K0 o e old, Tau)
  (* trunk_garbage_collect_node_get *)
  | K0 o e old, AGo _ => if can_get s i old then same_st s (K1 o e None old) Tau else None
  | K1 o e up a, AGo _ => if unread s i a then same_st s (K2 o e a) Tau else None
  | K2 o e a, AGo _ =>
      if hh o <? ht (g a) then
        match slot (sk o) (pvs (g a)) with
        | Some p => if can_get s i (ch p) then same_st s (K1 o e (Some a) (ch p)) Tau else None
        | None => same_st s Bad Tau
        end
      else if hh o =? ht (g a) then Some (freed s (seg o) (g a), P6 o e, Tau)
      else same_st s Bad Tau
  (* 5411, 5426-5434 *)
  | P6 o e, AGo _ =>
      match ub (g e) with
      | Some x => if below x (ek o) then same_st s (P0 (Rq x (hh o) (ek o) (seg o) (nbr o))) Tau
                  else same_st s Idle (Returned RDone)
      | None => same_st s Idle (Returned RDone)
      end
  (* trunk_memtable_incorporate_and_flush *)
  | I0 c, AGo _ => if no_claim s then same_st s (I1 c) Tau else None
  | I1 c, AGo _ =>
      if can_get s i (root s)
      then Some (with_mem (with_branch s (cont c)) (upd g (nx s) (add_all [nb s] (g (root s)))) (S (nx s)),
                 I2 c (nx s) [nx s], Tau) else None
  | I2 c a own, AFlush p j cs =>
      if isin p own && match nth_error (pvs (g p)) j with Some q => can_get s i (ch q) | None => false end then
        match flush s p j cs with
        | Some s' => Some (s', I2 c a (seq (nx s) (nx s' - nx s) ++ own), Tau)
        | None => None
        end
      else None
  | I2 c a own, ARoot cs =>
      match grow s a cs with
      | Some s' => Some (s', I2 c (pred (nx s')) (seq (nx s) (nx s' - nx s) ++ own), Tau)
      | None => None
      end
  | I2 c a own, AGo _ => if no_reader s then Some (with_root s a, Idle, Returned RDone) else None
  | _, _ => None
  end.

(** The calls.  A compaction is of branches that there are, in a node of a height that
    there is (trunk_compact_bundle, 5129: its request was made by a flush or a split of
    that node, or by an incorporation). *)
Definition start (s : state) (c : call) : option (state * pc) :=
  match c with
  | CGet k => Some (s, G0 k)
  | CInc c => Some (s, I0 c)
  | CMerge k h e sg =>
      if (h <=? ht (mem s (root s))) && forallb (fun b => b <? nb s) sg
      then Some (with_branch s (all_of (br s) sg), P0 (Rq k h e sg (nb s))) else None
  end.

Definition set_ths (s : state) (l : list pc) : state :=
  St (mem s) (nx s) (root s) (br s) (nb s) (fr s) l.

Definition step (s : state) (i : nat) (c : cmd) : option (state * label) :=
  match nth_error (ths s) i with
  | None => None
  | Some t =>
      match c, t with
      | Do c, Idle => match start s c with
                      | Some (s', t') => Some (set_ths s' (put (ths s) i t'), Called c)
                      | None => None
                      end
      | Do _, _ => None
      | Go x, _ => match go s i t x with
                   | Some (s', t', l) => Some (set_ths s' (put (ths s) i t'), l)
                   | None => None
                   end
      end
  end.

(** trunk_create, 7646: a root of height 1 with one leaf; [n] threads. *)
Definition init (n : nat) : state :=
  St (fun a => if a =? 0 then Nd 1 [Pv 0 1 []] None else Nd 0 [Pv 0 0 []] None) 2 0
     (fun _ _ => []) 0 (fun _ _ => false) (repeat Idle n).
