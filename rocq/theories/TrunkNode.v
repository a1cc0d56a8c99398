(** * Trunk nodes: the header arrays and the operations on one node

    /repo/src/trunk.c.  A trunk node is one page holding four circular arrays
    (branches, bundles, subbundles, subbundle filters), each with a start and an
    end number, and an array of pivots (470-577).  This file models the
    operations on a node on exactly that representation: the circular numbers are
    reduced modulo the array sizes, entries are moved one by one, and numbers that
    the code forgets to adjust are not adjusted here either.

    Simplifications.
    - A branch (a packed B-tree, see Pack.v) is the sorted list of its tuples; a
      routing filter (see Filter.v and C14) is the list of the (fingerprint,
      value) pairs in it, [] for a filter with address 0.  Reference counts on
      branches and filters are left out.
    - Tuple and byte counts of pivots and bundles are left out except the ones
      that the filters are built from; when to flush or split is not decided here
      (TrunkTree.v allows it at any time).
    - platform_assert is [None]; debug_assert is ignored.

    Definitions only; no proofs. *)

From Coq Require Import List NArith ZArith Arith Bool.
From Verif Require Import Base Search.
Import ListNotations.

(** A branch: tuples in key order. *)
Definition branch := list (bytes * message).
(** A filter: the fingerprints added, each with the value it was added with. *)
Definition filt := list (N * nat).

(** trunk.c:60-63 *)
Definition MAX_PIVOTS : nat := 20.
Definition MAX_BUNDLES : nat := 12.
Definition MAX_SUBBUNDLES : nat := 24.
Definition MAX_SB_FILTERS : nat := 24.

(** trunk.c:1353-1423: X_add and X_subtract in an array of [m] entries *)
Definition cadd (m a b : nat) : nat := (a + b) mod m.
Definition csub (m a b : nat) : nat := (a + m - b) mod m.

(** The numbers that [for (x = s; x != e; x = cadd m x 1)] goes through. *)
Definition cwalk (m s e : nat) : list nat := map (fun i => cadd m s i) (seq 0 (csub m e s)).

Definition put {A} (f : nat -> A) (i : nat) (v : A) : nat -> A :=
  fun j => if j =? i then v else f j.

(** trunk.c:470-488, trunk_subbundle; only "compacted or not" of the state is
    ever looked at (6892) *)
Record subbundle := SB {
  sb_compacted : bool;
  sb_sbr : nat; sb_ebr : nat;       (* start_branch, end_branch *)
  sb_sfl : nat; sb_efl : nat        (* start_filter, end_filter *)
}.
(** trunk.c:506-511, trunk_bundle *)
Record bundle := BN { bn_ssb : nat; bn_esb : nat }.
(** trunk.c:565-577, trunk_pivot_data without the counts; the child is kept
    outside the node *)
Record pivot := PV {
  pv_key : key; pv_gen : nat; pv_sbr : nat; pv_sbn : nat; pv_filt : filt
}.
(** trunk.c:530-549, trunk_hdr, and the arrays that follow it *)
Record node := Node {
  n_id : nat; n_height : nat; n_pgen : nat;
  n_sbr : nat; n_sfrac : nat; n_ebr : nat;
  n_sbn : nat; n_ebn : nat;
  n_ssb : nat; n_esb : nat;
  n_sfl : nat; n_efl : nat;
  n_bn : nat -> bundle; n_sb : nat -> subbundle; n_fl : nat -> filt;
  n_br : nat -> branch;
  n_piv : list pivot                (* num_pivot_keys of them *)
}.

(** Field updates *)
Definition set_id v n := Node v (n_height n) (n_pgen n) (n_sbr n) (n_sfrac n) (n_ebr n) (n_sbn n) (n_ebn n) (n_ssb n) (n_esb n) (n_sfl n) (n_efl n) (n_bn n) (n_sb n) (n_fl n) (n_br n) (n_piv n).
Definition set_pgen v n := Node (n_id n) (n_height n) v (n_sbr n) (n_sfrac n) (n_ebr n) (n_sbn n) (n_ebn n) (n_ssb n) (n_esb n) (n_sfl n) (n_efl n) (n_bn n) (n_sb n) (n_fl n) (n_br n) (n_piv n).
Definition set_sbr v n := Node (n_id n) (n_height n) (n_pgen n) v (n_sfrac n) (n_ebr n) (n_sbn n) (n_ebn n) (n_ssb n) (n_esb n) (n_sfl n) (n_efl n) (n_bn n) (n_sb n) (n_fl n) (n_br n) (n_piv n).
Definition set_sfrac v n := Node (n_id n) (n_height n) (n_pgen n) (n_sbr n) v (n_ebr n) (n_sbn n) (n_ebn n) (n_ssb n) (n_esb n) (n_sfl n) (n_efl n) (n_bn n) (n_sb n) (n_fl n) (n_br n) (n_piv n).
Definition set_ebr v n := Node (n_id n) (n_height n) (n_pgen n) (n_sbr n) (n_sfrac n) v (n_sbn n) (n_ebn n) (n_ssb n) (n_esb n) (n_sfl n) (n_efl n) (n_bn n) (n_sb n) (n_fl n) (n_br n) (n_piv n).
Definition set_sbn v n := Node (n_id n) (n_height n) (n_pgen n) (n_sbr n) (n_sfrac n) (n_ebr n) v (n_ebn n) (n_ssb n) (n_esb n) (n_sfl n) (n_efl n) (n_bn n) (n_sb n) (n_fl n) (n_br n) (n_piv n).
Definition set_ebn v n := Node (n_id n) (n_height n) (n_pgen n) (n_sbr n) (n_sfrac n) (n_ebr n) (n_sbn n) v (n_ssb n) (n_esb n) (n_sfl n) (n_efl n) (n_bn n) (n_sb n) (n_fl n) (n_br n) (n_piv n).
Definition set_ssb v n := Node (n_id n) (n_height n) (n_pgen n) (n_sbr n) (n_sfrac n) (n_ebr n) (n_sbn n) (n_ebn n) v (n_esb n) (n_sfl n) (n_efl n) (n_bn n) (n_sb n) (n_fl n) (n_br n) (n_piv n).
Definition set_esb v n := Node (n_id n) (n_height n) (n_pgen n) (n_sbr n) (n_sfrac n) (n_ebr n) (n_sbn n) (n_ebn n) (n_ssb n) v (n_sfl n) (n_efl n) (n_bn n) (n_sb n) (n_fl n) (n_br n) (n_piv n).
Definition set_sfl v n := Node (n_id n) (n_height n) (n_pgen n) (n_sbr n) (n_sfrac n) (n_ebr n) (n_sbn n) (n_ebn n) (n_ssb n) (n_esb n) v (n_efl n) (n_bn n) (n_sb n) (n_fl n) (n_br n) (n_piv n).
Definition set_efl v n := Node (n_id n) (n_height n) (n_pgen n) (n_sbr n) (n_sfrac n) (n_ebr n) (n_sbn n) (n_ebn n) (n_ssb n) (n_esb n) (n_sfl n) v (n_bn n) (n_sb n) (n_fl n) (n_br n) (n_piv n).
Definition set_bn v n := Node (n_id n) (n_height n) (n_pgen n) (n_sbr n) (n_sfrac n) (n_ebr n) (n_sbn n) (n_ebn n) (n_ssb n) (n_esb n) (n_sfl n) (n_efl n) v (n_sb n) (n_fl n) (n_br n) (n_piv n).
Definition set_sb v n := Node (n_id n) (n_height n) (n_pgen n) (n_sbr n) (n_sfrac n) (n_ebr n) (n_sbn n) (n_ebn n) (n_ssb n) (n_esb n) (n_sfl n) (n_efl n) (n_bn n) v (n_fl n) (n_br n) (n_piv n).
Definition set_fl v n := Node (n_id n) (n_height n) (n_pgen n) (n_sbr n) (n_sfrac n) (n_ebr n) (n_sbn n) (n_ebn n) (n_ssb n) (n_esb n) (n_sfl n) (n_efl n) (n_bn n) (n_sb n) v (n_br n) (n_piv n).
Definition set_br v n := Node (n_id n) (n_height n) (n_pgen n) (n_sbr n) (n_sfrac n) (n_ebr n) (n_sbn n) (n_ebn n) (n_ssb n) (n_esb n) (n_sfl n) (n_efl n) (n_bn n) (n_sb n) (n_fl n) v (n_piv n).
Definition set_piv v n := Node (n_id n) (n_height n) (n_pgen n) (n_sbr n) (n_sfrac n) (n_ebr n) (n_sbn n) (n_ebn n) (n_ssb n) (n_esb n) (n_sfl n) (n_efl n) (n_bn n) (n_sb n) (n_fl n) (n_br n) v.

(** trunk.c:1441-1457, 1496-1506, 2137-2142: pivots, children, key range *)
Definition num_children (n : node) : nat := length (n_piv n) - 1.
Definition get_pivot (n : node) (i : nat) : option pivot := nth_error (n_piv n) i.
Definition pivot_key (n : node) (i : nat) : key :=
  match get_pivot n i with Some p => pv_key p | None => KPosInf end.
Definition min_key (n : node) : key := pivot_key n 0.
Definition max_key (n : node) : key := pivot_key n (num_children n).

(** Replace the first [k] pivots by their images, leaving the others *)
Fixpoint map_first {A} (k : nat) (f : A -> A) (l : list A) : list A :=
  match k, l with
  | S k', x :: r => f x :: map_first k' f r
  | _, _ => l
  end.
(** "for (pivot_no = 0; pivot_no < trunk_num_children; pivot_no++)" *)
Definition map_children (f : pivot -> pivot) (n : node) : node :=
  set_piv (map_first (num_children n) f (n_piv n)) n.
Definition children_pivots (n : node) : list pivot := firstn (num_children n) (n_piv n).

Section Node.
(** hard_max_branches_per_node *)
Variable M : nat.

(** ** Ranges *)

(** trunk.c:1682-1692 *)
Definition branch_live_for_pivot (n : node) (b : nat) (p : pivot) : bool :=
  csub M b (pv_sbr p) <? csub M (n_ebr n) (pv_sbr p).
(** trunk.c:1698-1704 *)
Definition branch_is_whole (n : node) (b : nat) : bool :=
  csub M b (n_sbr n) <? csub M (n_sfrac n) (n_sbr n).
(** trunk.c:2800-2817: branch_live, branch_valid *)
Definition branch_live (n : node) (b : nat) : bool :=
  csub M b (n_sbr n) <? csub M (n_ebr n) (n_sbr n).
Definition branch_valid (n : node) (b : nat) : bool :=
  csub M b (n_sbr n) <=? csub M (n_ebr n) (n_sbr n).
(** trunk.c:2183-2190, 2574-2580, 2585-2596 *)
Definition bundle_live (n : node) (b : nat) : bool :=
  csub MAX_BUNDLES b (n_sbn n) <? csub MAX_BUNDLES (n_ebn n) (n_sbn n).
Definition bundle_valid (n : node) (b : nat) : bool :=
  csub MAX_BUNDLES b (n_sbn n) <=? csub MAX_BUNDLES (n_ebn n) (n_sbn n).
Definition bundle_live_for_pivot (n : node) (b : nat) (p : pivot) : bool :=
  csub MAX_BUNDLES b (pv_sbn p) <? csub MAX_BUNDLES (n_ebn n) (pv_sbn p).

(** trunk.c:1886-1907 *)
Definition pivot_whole_branch_count (n : node) (p : pivot) : nat :=
  if branch_is_whole n (pv_sbr p) then csub M (n_sfrac n) (pv_sbr p) else 0.
Definition pivot_bundle_count (n : node) (p : pivot) : nat :=
  csub MAX_BUNDLES (n_ebn n) (pv_sbn p).
(** trunk.c:1929-1939 *)
Definition pivot_start_subbundle (n : node) (p : pivot) : nat :=
  if pv_sbn p =? n_ebn n then n_esb n else bn_ssb (n_bn n (pv_sbn p)).

(** ** Subbundles and bundles *)

(** trunk.c:2326-2333: the difference is taken modulo MAX_SUBBUNDLES *)
Definition sb_filter_count (s : subbundle) : nat := csub MAX_SUBBUNDLES (sb_efl s) (sb_sfl s).
(** trunk.c:2371-2382 *)
Definition sb_filter (n : node) (s : subbundle) (off : nat) : filt :=
  n_fl n (cadd MAX_SB_FILTERS (sb_sfl s) off).
(** trunk.c:2335-2369 *)
Definition bundle_filter_count (n : node) (b : bundle) : nat :=
  fold_left (fun c i => c + sb_filter_count (n_sb n i)) (cwalk MAX_SUBBUNDLES (bn_ssb b) (bn_esb b)) 0.
Definition bundle_start_filter (n : node) (b : bundle) : nat := sb_sfl (n_sb n (bn_ssb b)).
Definition bundle_end_filter (n : node) (b : bundle) : nat := sb_efl (n_sb n (csub MAX_SUBBUNDLES (bn_esb b) 1)).
(** trunk.c:2502-2548 *)
Definition bundle_start_branch (n : node) (b : bundle) : nat := sb_sbr (n_sb n (bn_ssb b)).
Definition bundle_end_branch (n : node) (b : bundle) : nat := sb_ebr (n_sb n (csub MAX_SUBBUNDLES (bn_esb b) 1)).
Definition bundle_branch_count (n : node) (b : bundle) : nat :=
  csub M (bundle_end_branch n b) (bundle_start_branch n b).
Definition bundle_subbundle_count (b : bundle) : nat := csub MAX_SUBBUNDLES (bn_esb b) (bn_ssb b).

(** trunk.c:2205-2218, trunk_get_new_bundle *)
Definition get_new_bundle (n : node) : option (nat * node) :=
  let e := cadd MAX_BUNDLES (n_ebn n) 1 in
  if e =? n_sbn n then None else Some (n_ebn n, set_ebn e n).

(** trunk.c:2256-2273, trunk_get_new_subbundle: nothing checks that the filters
    fit.  The number, and the entry with the fields the caller sets. *)
Definition get_new_subbundle (n : node) (num_filters : nat) : option (nat * node) :=
  let no := n_esb n in
  let e := cadd MAX_SUBBUNDLES (n_esb n) 1 in
  if e =? n_ssb n then None
  else
    let f0 := n_efl n in
    let f1 := cadd MAX_SB_FILTERS (n_efl n) num_filters in
    Some (no, set_sb (put (n_sb n) no (SB true (sb_sbr (n_sb n no)) (sb_ebr (n_sb n no)) f0 f1))
                (set_efl f1 (set_esb e n))).

(** trunk.c:2768-2777, trunk_get_new_branch, and the store of the caller *)
Definition add_branch (n : node) (b : branch) : node :=
  set_ebr (cadd M (n_ebr n) 1) (set_br (put (n_br n) (n_ebr n) b) n).
Definition add_branches (n : node) (bs : list branch) : node := fold_left add_branch bs n.

(** trunk.c:2411-2427, trunk_bundle_clear_subbundles *)
Definition bundle_clear_subbundles (n : node) (b : bundle) : node :=
  set_ssb (bn_esb b) (set_sfl (bundle_end_filter n b) n).

(** trunk.c:2232-2238 *)
Definition inc_start_bundle (n : node) : node := set_sbn (cadd MAX_BUNDLES (n_sbn n) 1) n.

(** trunk.c:2052-2094, trunk_reset_start_branch *)
Definition min_start_branch (n : node) : nat :=
  fold_left (fun s p => if csub M (n_ebr n) s <? csub M (n_ebr n) (pv_sbr p) then pv_sbr p else s)
            (children_pivots n) (n_ebr n).
Definition kill_bundle (n : node) (i : nat) : node :=
  let b := n_bn n i in
  if branch_live n (bundle_start_branch n b) then n else inc_start_bundle (bundle_clear_subbundles n b).
Definition reset_start_branch (n : node) : node :=
  let n1 := set_sbr (min_start_branch n) n in
  let n2 := if branch_valid n1 (n_sfrac n1) then n1 else set_sfrac (n_sbr n1) n1 in
  fold_left kill_bundle (cwalk MAX_BUNDLES (n_sbn n2) (n_ebn n2)) n2.

(** trunk.c:2101-2118, trunk_pivot_clear *)
Definition set_pivot_at (n : node) (i : nat) (p : pivot) : node :=
  set_piv (firstn i (n_piv n) ++ p :: skipn (S i) (n_piv n)) n.
Definition pivot_clear (n : node) (i : nat) (p : pivot) : node :=
  let p1 := PV (pv_key p) (pv_gen p) (n_ebr n) (n_ebn n) (pv_filt p) in
  let n1 := set_pivot_at n i p1 in
  let n2 := if pv_sbr p =? n_sbr n then reset_start_branch n1 else n1 in
  set_pivot_at n2 i (PV (pv_key p) (pv_gen p) (n_ebr n) (n_ebn n) []).

(** trunk.c:2612-2623, trunk_reset_start_frac_branch *)
Definition reset_start_frac_branch (n : node) : node :=
  if csub MAX_BUNDLES (n_ebn n) (n_sbn n) =? 0 then set_sfrac (n_ebr n) n
  else set_sfrac (bundle_start_branch n (n_bn n (n_sbn n))) n.

(** trunk.c:2625-2647, trunk_clear_bundle *)
Definition clear_bundle (n : node) (i : nat) : option node :=
  if i =? n_sbn n then
    let n1 := inc_start_bundle (bundle_clear_subbundles n (n_bn n i)) in
    let n2 := map_children (fun p => if bundle_valid n1 (pv_sbn p) then p
                                     else PV (pv_key p) (pv_gen p) (pv_sbr p) (n_sbn n1) (pv_filt p)) n1 in
    Some (reset_start_frac_branch n2)
  else None.

(** ** Incorporation: trunk.c:3588-3645, trunk_install_new_compacted_subbundle;
    the request is built by the caller *)
Definition install_new_compacted_subbundle (n : node) (b : branch) (f : filt) : option (nat * node) :=
  match get_new_bundle n with
  | None => None
  | Some (bno, n1) =>
      match get_new_subbundle n1 1 with
      | None => None
      | Some (sno, n2) =>
          let br := n_ebr n2 in
          let n3 := add_branch n2 b in
          let n4 := set_bn (put (n_bn n3) bno (BN sno (n_esb n3))) n3 in
          let s := n_sb n4 sno in
          let s' := SB true br (n_ebr n4) (sb_sfl s) (sb_efl s) in
          let n5 := set_sb (put (n_sb n4) sno s') n4 in
          Some (bno, set_fl (put (n_fl n5) (cadd MAX_SB_FILTERS (sb_sfl s') 0) f) n5)
      end
  end.

(** ** Flush: trunk.c:4447-4596, trunk_flush_into_bundle *)

(** "for (branch_no = start; trunk_branch_is_whole; branch_no + 1)", 4502-4514;
    at most [M] steps *)
Fixpoint whole_from (n : node) (fuel b : nat) : list nat :=
  match fuel with
  | O => []
  | S f => if branch_is_whole n b then b :: whole_from n f (cadd M b 1) else []
  end.

(** One subbundle of the parent copied to the child, 4537-4576 *)
Definition copy_filters (parent : node) (ps : subbundle) (cs : subbundle) (count : nat) (fl : nat -> filt) : nat -> filt :=
  fold_left (fun g i => put g (cadd MAX_SB_FILTERS (sb_sfl cs) i) (sb_filter parent ps i)) (seq 0 count) fl.
Definition copy_subbundle (parent : node) (ps : subbundle) (child : node) : option node :=
  let count := sb_filter_count ps in
  match get_new_subbundle child count with
  | None => None
  | Some (sno, c1) =>
      let start := n_ebr c1 in
      let c2 := add_branches c1 (map (n_br parent) (cwalk M (sb_sbr ps) (sb_ebr ps))) in
      let cs := SB (sb_compacted ps) start (n_ebr c2) (sb_sfl (n_sb c2 sno)) (sb_efl (n_sb c2 sno)) in
      let c3 := set_sb (put (n_sb c2) sno cs) c2 in
      Some (set_fl (copy_filters parent ps cs count (n_fl c3)) c3)
  end.
Fixpoint copy_subbundles (parent : node) (l : list nat) (child : node) : option node :=
  match l with
  | [] => Some child
  | i :: r => match copy_subbundle parent (n_sb parent i) child with
              | None => None
              | Some c => copy_subbundles parent r c
              end
  end.

(** Pivot [i] of [parent] is flushed into [child]: the bundle number, the parent
    and the child afterwards.  The bundle itself is written at the end (the code
    fills its two fields as it goes; nothing in between reads them). *)
Definition flush_into_bundle (parent : node) (i : nat) (child : node) : option (nat * node * node) :=
  match get_pivot parent i with
  | None => None
  | Some p =>
      match get_new_bundle child with
      | None => None
      | Some (bno, c0) =>
          (* 4489-4523: the whole branches *)
          let step1 :=
            if branch_is_whole parent (pv_sbr p) then
              match get_new_subbundle c0 1 with
              | None => None
              | Some (sno, c1) =>
                  let start := n_ebr c1 in
                  let c2 := add_branches c1 (map (n_br parent) (whole_from parent M (pv_sbr p))) in
                  let s := n_sb c2 sno in
                  let s' := SB false start (n_ebr c2) (sb_sfl s) (sb_efl s) in
                  let c3 := set_sb (put (n_sb c2) sno s') c2 in
                  Some (sno, set_fl (put (n_fl c3) (cadd MAX_SB_FILTERS (sb_sfl s') 0) (pv_filt p)) c3)
              end
            else Some (n_esb c0, c0) in
          match step1 with
          | None => None
          | Some (first_sb, c4) =>
              (* 4525-4578: the subbundles *)
              let step2 :=
                if pivot_bundle_count parent p =? 0 then Some c4
                else copy_subbundles parent
                       (cwalk MAX_SUBBUNDLES (pivot_start_subbundle parent p) (n_esb parent)) c4 in
              match step2 with
              | None => None
              | Some c5 =>
                  if first_sb =? n_esb c5 then None      (* "Flush into empty bundle", 4592-4593 *)
                  else Some (bno, pivot_clear parent i p,
                             set_bn (put (n_bn c5) bno (BN first_sb (n_esb c5))) c5)
              end
          end
      end
  end.

(** trunk.c:1912-1927 and 4604-4619, trunk_room_to_flush, asserted by 4674 *)
Definition pivot_subbundle_count (n : node) (p : pivot) : nat :=
  if pivot_bundle_count n p =? 0 then 0
  else csub MAX_SUBBUNDLES (n_esb n) (bn_ssb (n_bn n (pv_sbn p))).
Definition room_to_flush (parent : node) (p : pivot) (child : node) : bool :=
  (csub M (n_ebr child) (n_sbr child) + csub M (n_ebr parent) (pv_sbr p) <? M) &&
  (csub MAX_BUNDLES (n_ebn child) (n_sbn child) + 2 <=? MAX_BUNDLES) &&
  (csub MAX_SUBBUNDLES (n_esb child) (n_ssb child) + (pivot_subbundle_count parent p + 1) + 1 <? MAX_SUBBUNDLES).

(** ** Compaction *)

(** trunk.c:710-732, the fields of trunk_compact_bundle_req that matter.  The two
    arrays have MAX_PIVOTS entries, zero-filled. *)
Record req := Req {
  rq_lo : key; rq_hi : key;          (* start_key, end_key *)
  rq_id : nat; rq_height : nat; rq_bno : nat;
  rq_gens : nat -> nat;              (* pivot_generation *)
  rq_out : nat -> nat;               (* output_pivot_tuple_count *)
  rq_fps : list N                    (* fp_arr *)
}.
Definition set_lo v q := Req v (rq_hi q) (rq_id q) (rq_height q) (rq_bno q) (rq_gens q) (rq_out q) (rq_fps q).
Definition set_hi v q := Req (rq_lo q) v (rq_id q) (rq_height q) (rq_bno q) (rq_gens q) (rq_out q) (rq_fps q).
Definition set_rid v q := Req (rq_lo q) (rq_hi q) v (rq_height q) (rq_bno q) (rq_gens q) (rq_out q) (rq_fps q).
Definition set_out v q := Req (rq_lo q) (rq_hi q) (rq_id q) (rq_height q) (rq_bno q) (rq_gens q) v (rq_fps q).
Definition set_fps v q := Req (rq_lo q) (rq_hi q) (rq_id q) (rq_height q) (rq_bno q) (rq_gens q) (rq_out q) v.

(** trunk.c:2819-2831, trunk_process_generation_to_pos; MAX_PIVOTS: not found *)
Fixpoint generation_to_pos_from (gens : nat -> nat) (g pos left : nat) : nat :=
  match left with
  | O => pos
  | S l => if gens pos =? g then pos else generation_to_pos_from gens g (S pos) l
  end.
Definition generation_to_pos (q : req) (g : nat) : nat := generation_to_pos_from (rq_gens q) g 0 MAX_PIVOTS.

(** Keys and ranges: [lo, hi) of a pivot *)
Definition key_in (cfg : data_config) (lo hi : key) (k : bytes) : bool :=
  (data_key_compare cfg lo (KUser k) <=? 0)%Z && (data_key_compare cfg (KUser k) hi <? 0)%Z.
(** btree_count_in_range (C45): the tuples of a branch in [lo, hi) *)
Definition branch_range (cfg : data_config) (lo hi : key) (b : branch) : branch :=
  filter (fun e => key_in cfg lo hi (fst e)) b.

(** trunk.c:4911-4976, trunk_btree_skiperator_init: one iterator for each maximal
    run of pivots that the branch is live for.  [start]: the first pivot of the
    run, if one has started.  Going through the skiperator gives the tuples of the
    iterators one after another (4986-5005). *)
Fixpoint skip_ranges (n : node) (b : nat) (ps : list pivot) (start : option key) : list (key * key) :=
  match ps with
  | [] => []
  | [last] => match start with Some s => [(s, pv_key last)] | None => [] end
  | p :: r =>
      if branch_live_for_pivot n b p then
        skip_ranges n b r (match start with Some s => Some s | None => Some (pv_key p) end)
      else match start with
           | Some s => (s, pv_key p) :: skip_ranges n b r None
           | None => skip_ranges n b r None
           end
  end.
Definition skiperator (cfg : data_config) (n : node) (b : nat) : branch :=
  flat_map (fun r => branch_range cfg (fst r) (snd r) (n_br n b)) (skip_ranges n b (n_piv n) None).

(** The sources of the compaction of bundle [bno] of [n], oldest first, and
    whether it may drop deletes (trunk.c:5195-5250: MERGE_FULL) *)
Definition compact_sources (cfg : data_config) (n : node) (bno : nat) : list branch :=
  let b := n_bn n bno in
  map (skiperator cfg n) (cwalk M (bundle_start_branch n b) (bundle_end_branch n b)).
Definition compact_full (n : node) (bno : nat) : bool :=
  (n_height n =? 0) && (bundle_start_branch n (n_bn n bno) =? n_sbr n).

(** trunk.c:2943-3144, trunk_replace_bundle_branches.  [None] for the branch: the
    compaction has no output. *)
Definition move_branches (n : node) (from diff : nat) : nat -> branch :=
  fold_left (fun g i => put g (csub M i diff) (g i)) (cwalk M from (n_ebr n)) (n_br n).
Definition move_filters (n : node) (from diff : nat) : nat -> filt :=
  fold_left (fun g i => put g (csub MAX_SUBBUNDLES i diff) (g i)) (cwalk MAX_SB_FILTERS from (n_efl n)) (n_fl n).
(** 3042-3052: only the branch numbers are adjusted *)
Definition move_subbundles (n : node) (from sdiff bdiff : nat) : nat -> subbundle :=
  fold_left
    (fun g i =>
       let s := g i in
       let s' := SB (sb_compacted s) (csub M (sb_sbr s) bdiff) (csub M (sb_ebr s) bdiff) (sb_sfl s) (sb_efl s) in
       put (put g i s') (csub MAX_SUBBUNDLES i sdiff) s')
    (cwalk MAX_SUBBUNDLES from (n_esb n)) (n_sb n).
Definition shift_bundles (n : node) (bno sdiff : nat) : nat -> bundle :=
  fold_left (fun g i => put g i (BN (csub MAX_SUBBUNDLES (bn_ssb (g i)) sdiff) (csub MAX_SUBBUNDLES (bn_esb (g i)) sdiff)))
            (cwalk MAX_BUNDLES (cadd MAX_BUNDLES bno 1) (n_ebn n)) (n_bn n).
(** 3103-3112 *)
Definition vanish_bundles (n : node) (bno : nat) : nat -> bundle :=
  fold_left (fun g i => put g i (g (cadd MAX_BUNDLES i 1)))
            (cwalk MAX_BUNDLES bno (csub MAX_BUNDLES (n_ebn n) 1)) (n_bn n).

(** 3068-3099: the counts of the new branch for the live pivots; [None] is the
    failed assertion *)
Fixpoint record_counts (cfg : data_config) (n : node) (bno : nat) (repl : option branch)
         (ps : list pivot) (q : req) : option req :=
  match ps with
  | [] => Some q
  | [_] => Some q
  | p :: ((p' :: _) as r) =>
      if bundle_live_for_pivot n bno p then
        let pos := generation_to_pos q (pv_gen p) in
        if pos =? MAX_PIVOTS then None
        else
          let q' := match repl with
                    | None => q
                    | Some b => set_out (put (rq_out q) pos (length (branch_range cfg (pv_key p) (pv_key p') b))) q
                    end in
          record_counts cfg n bno repl r q'
      else record_counts cfg n bno repl r q
  end.

Definition replace_bundle_branches (cfg : data_config) (n : node) (repl : option branch) (q : req)
  : option (node * req) :=
  let bno := rq_bno q in
  let b := n_bn n bno in
  let sbranch := bundle_start_branch n b in
  let ebranch := bundle_end_branch n b in
  let bcount := bundle_branch_count n b in
  let is_null := match repl with None => true | Some _ => false end in
  let bdiff := if is_null then bcount else bcount - 1 in
  (* 2958-2983: the new branch *)
  let n1 := match repl with None => n | Some br => set_br (put (n_br n) sbranch br) n end in
  (* 2985-2994 *)
  let n2 := set_br (move_branches n1 ebranch bdiff) n1 in
  (* 2996-3024 *)
  let n3 :=
    if is_null then
      let fdiff := bundle_filter_count n2 b in
      set_efl (csub MAX_SB_FILTERS (n_efl n2) fdiff)
        (set_fl (move_filters n2 (bundle_end_filter n2 b) fdiff) n2)
    else n2 in
  (* 3026-3040 *)
  let scount := bundle_subbundle_count b in
  let sdiff := if is_null then scount else scount - 1 in
  let later := bn_esb b in
  let n4 :=
    if is_null then n3
    else
      let s := n_sb n3 (bn_ssb b) in
      let s' := SB true (sb_sbr s) (cadd M sbranch 1) (sb_sfl s) (bundle_end_filter n3 b) in
      set_bn (put (n_bn n3) bno (BN (bn_ssb b) (cadd MAX_SUBBUNDLES (bn_ssb b) 1)))
        (set_sb (put (n_sb n3) (bn_ssb b) s') n3) in
  (* 3042-3064 *)
  let n5 := set_sb (move_subbundles n4 later sdiff bdiff) n4 in
  let n6 := set_esb (csub MAX_SUBBUNDLES (n_esb n5) sdiff) n5 in
  let n7 := set_bn (shift_bundles n6 bno sdiff) n6 in
  match record_counts cfg n7 bno repl (n_piv n7) q with
  | None => None
  | Some q' =>
      (* 3101-3127: vanish the bundle *)
      let n8 :=
        if is_null then
          let start := cadd MAX_BUNDLES bno 1 in
          let end_ := cadd MAX_BUNDLES (n_ebn n7) 1 in
          let n' := set_bn (vanish_bundles n7 bno) n7 in
          let n'' := map_children (fun p =>
                       if csub MAX_BUNDLES (pv_sbn p) start <? csub MAX_BUNDLES end_ start
                       then PV (pv_key p) (pv_gen p) (pv_sbr p) (csub MAX_BUNDLES (pv_sbn p) 1) (pv_filt p)
                       else p) n' in
          set_ebn (csub MAX_BUNDLES (n_ebn n'') 1) n''
        else n7 in
      (* 3129-3143 *)
      let n9 := map_children (fun p =>
                  if branch_live_for_pivot n8 sbranch p then p
                  else PV (pv_key p) (pv_gen p) (csub M (pv_sbr p) bdiff) (pv_sbn p) (pv_filt p)) n8 in
      Some (set_ebr (csub M (n_ebr n9) bdiff) n9, q')
  end.

(** ** Building filters *)

(** trunk.c:3927-3944, the scratch: per position, whether to build, the filter to
    extend, the value to add, and the result *)
Record scratch := Scr {
  sc_lo : key; sc_hi : key;
  sc_build : nat -> bool; sc_old : nat -> filt; sc_value : nat -> nat; sc_new : nat -> filt
}.

(** trunk.c:4045-4081, trunk_prepare_build_filter *)
Fixpoint prepare_pivots (n : node) (q : req) (ps : list pivot) (s : scratch) : option scratch :=
  match ps with
  | [] => Some s
  | p :: r =>
      if bundle_live_for_pivot n (rq_bno q) p then
        let pos := generation_to_pos q (pv_gen p) in
        if pos =? MAX_PIVOTS then None
        else prepare_pivots n q r
               (Scr (sc_lo s) (sc_hi s) (put (sc_build s) pos true) (put (sc_old s) pos (pv_filt p))
                    (put (sc_value s) pos (pivot_whole_branch_count n p)) (sc_new s))
      else prepare_pivots n q r s
  end.
Definition prepare_build_filter (n : node) (q : req) : option scratch :=
  if (rq_height q =? n_height n) && (rq_bno q =? n_sbn n) then
    prepare_pivots n q (children_pivots n)
      (Scr (min_key n) (max_key n) (fun _ => false) (fun _ => []) (fun _ => 0) (fun _ => []))
  else None.

(** trunk.c:4083-4100, trunk_process_generation_to_fp_bounds.  The assertion of
    4096 is on [pos + 1]. *)
Fixpoint fp_bounds_from (q : req) (g pos left start : nat) : nat * nat :=
  match left with
  | O => (pos, start)
  | S l => if rq_gens q pos =? g then (pos, start)
           else fp_bounds_from q g (S pos) l (start + rq_out q pos)
  end.
Definition fp_bounds (q : req) (g : nat) : option (nat * nat) :=
  let (pos, start) := fp_bounds_from q g 0 MAX_PIVOTS 0 in
  if S pos =? MAX_PIVOTS then None else Some (start, start + rq_out q pos).

(** routing_filter_add (C14) *)
Definition filt_add (f : filt) (fps : list N) (v : nat) : filt := map (fun x => (x, v)) fps ++ f.

(** trunk.c:4102-4158, trunk_build_filters *)
Fixpoint build_filters_from (q : req) (s : scratch) (pos left : nat) : option scratch :=
  match left with
  | O => Some s
  | S l =>
      if sc_build s pos then
        match fp_bounds q (rq_gens q pos) with
        | None => None
        | Some (a, b) =>
            let f := filt_add (sc_old s pos) (firstn (b - a) (skipn a (rq_fps q))) (sc_value s pos) in
            build_filters_from q (Scr (sc_lo s) (sc_hi s) (sc_build s) (sc_old s) (sc_value s) (put (sc_new s) pos f)) (S pos) l
        end
      else build_filters_from q s (S pos) l
  end.
Definition build_filters (q : req) (s : scratch) : option scratch := build_filters_from q s 0 MAX_PIVOTS.

(** trunk.c:4160-4213, trunk_replace_routing_filter: positions no longer live are
    dropped, the others installed, and either way emptied in the scratch *)
Fixpoint replace_pivots (n : node) (q : req) (k : nat) (ps : list pivot) (s : scratch) : option (list pivot * scratch) :=
  match k, ps with
  | S k', p :: r =>
      let pos := generation_to_pos q (pv_gen p) in
      let s' := Scr (sc_lo s) (sc_hi s) (sc_build s) (sc_old s) (sc_value s) (put (sc_new s) pos []) in
      if bundle_live_for_pivot n (rq_bno q) p then
        if pos =? MAX_PIVOTS then None
        else match replace_pivots n q k' r s' with
             | None => None
             | Some (r', s'') => Some (PV (pv_key p) (pv_gen p) (pv_sbr p) (pv_sbn p) (sc_new s pos) :: r', s'')
             end
      else
        match replace_pivots n q k' r (if pos =? MAX_PIVOTS then s else s') with
        | None => None
        | Some (r', s'') => Some (p :: r', s'')
        end
  | _, _ => Some (ps, s)
  end.
(** and trunk.c:4326-4330: clear the bundle if it is live *)
Definition replace_filters (n : node) (q : req) (s : scratch) : option (node * scratch) :=
  match replace_pivots n q (num_children n) (n_piv n) s with
  | None => None
  | Some (ps, s') =>
      let n1 := set_piv ps n in
      if bundle_live n1 (rq_bno q) then
        match clear_bundle n1 (rq_bno q) with None => None | Some n2 => Some (n2, s') end
      else Some (n1, s')
  end.

(** ** Splits *)

(** trunk.c:2275-2292 and 2456-2497, trunk_leaf_get_new_subbundle_at_head and
    trunk_leaf_rebundle_all_branches *)
Definition leaf_new_subbundle_at_head (n : node) : option (nat * node) :=
  let no := csub MAX_SUBBUNDLES (n_ssb n) 1 in
  if no =? n_esb n then None
  else
    let f1 := n_sfl n in
    let f0 := csub MAX_SUBBUNDLES (n_sfl n) 1 in
    if f0 =? n_efl n then None
    else Some (no, set_sb (put (n_sb n) no (SB false (sb_sbr (n_sb n no)) (sb_ebr (n_sb n no)) f0 f1))
                     (set_sfl f0 (set_ssb no n))).
Definition leaf_rebundle (n : node) : option (nat * node) :=
  match get_new_bundle n with
  | None => None
  | Some (bno, n1) =>
      let step :=
        if branch_is_whole n1 (n_sbr n1) then
          match leaf_new_subbundle_at_head n1, get_pivot n1 0 with
          | Some (sno, n2), Some p =>
              let s := n_sb n2 sno in
              let s' := SB false (n_sbr n2) (n_sfrac n2) (sb_sfl s) (sb_efl s) in
              let n3 := set_sb (put (n_sb n2) sno s') n2 in
              let n4 := set_fl (put (n_fl n3) (cadd MAX_SB_FILTERS (sb_sfl s') 0) (pv_filt p)) n3 in
              Some (set_pivot_at n4 0 (PV (pv_key p) (pv_gen p) (pv_sbr p) (pv_sbn p) []))
          | _, _ => None
          end
        else Some n1 in
      match step with
      | None => None
      | Some n5 =>
          let n6 := set_bn (put (n_bn n5) bno (BN (n_ssb n5) (n_esb n5))) n5 in
          let n7 := set_sfrac (n_sbr n6) (set_sbn bno n6) in
          match get_pivot n7 0 with
          | None => None
          | Some p => Some (bno, set_pgen (S (n_pgen n7))
                                   (set_pivot_at n7 0 (PV (pv_key p) (n_pgen n7) (pv_sbr p) bno (pv_filt p))))
          end
      end
  end.

(** trunk.c:5949-5958 of trunk_split_leaf: the leaf for [lo, hi) *)
Definition cut_leaf (n : node) (id : nat) (lo hi : key) : node :=
  set_id id
    (set_piv (match n_piv n with
              | p0 :: p1 :: r =>
                  PV lo (pv_gen p0) (pv_sbr p0) (pv_sbn p0) (pv_filt p0) ::
                  PV hi (pv_gen p1) (pv_sbr p1) (pv_sbn p1) (pv_filt p1) :: r
              | l => l
              end) n).

(** trunk.c:5531-5569, 5600-5601 of trunk_split_index: the two halves *)
Definition split_halves (n : node) (left_id right_id : nat) : node * node :=
  let t := num_children n / 2 in
  let right := set_piv (skipn t (n_piv n)) n in
  let left := set_piv (firstn (S t) (n_piv n)) n in
  (set_id left_id (reset_start_branch left), set_id right_id (reset_start_branch right)).

(** trunk.c:1728-1755 and 1538-1560, trunk_add_pivot: a pivot for a new child
    starting at [k], at position [i].  [None]: an assertion, or no room. *)
Definition add_pivot (max_pivot_keys : nat) (n : node) (i : nat) (k : key) : option node :=
  if (i =? 0) || (num_children n <? i) || (max_pivot_keys <=? length (n_piv n)) then None
  else
    match get_pivot n (i - 1) with
    | None => None
    | Some p =>
        let new := PV k (pv_gen p) (pv_sbr p) (pv_sbn p) (pv_filt p) in
        let pred := PV (pv_key p) (n_pgen n) (pv_sbr p) (pv_sbn p) (pv_filt p) in
        Some (set_pgen (S (n_pgen n))
                (set_piv (firstn (i - 1) (n_piv n) ++ pred :: new :: skipn i (n_piv n)) n))
    end.

(** trunk.c:6084-6106 of trunk_split_root and 1757-1765, 1481-1494, 1520-1536: the new root
    above the old one; its pivots are zeroed *)
Definition new_root (n : node) : node :=
  Node (n_id n) (S (n_height n)) (n_pgen n) 0 0 0 0 0 0 0 0 0 (n_bn n) (n_sb n) (n_fl n) (n_br n)
       [PV KNegInf 0 0 0 []; PV KPosInf 0 0 0 []].

(** trunk.c:7676-7722 of trunk_create: the first root (height 1) and leaf *)
Definition first_node (id height : nat) : node :=
  Node id height 1 0 0 0 0 0 0 0 0 0 (fun _ => BN 0 0) (fun _ => SB false 0 0 0 0) (fun _ => []) (fun _ => [])
       [PV KNegInf 0 0 0 []; PV KPosInf 0 0 0 []].

(** ** Lookup *)

(** The state of a lookup: the accumulator, and whether to go on *)
Definition acc := option message.
Definition acc_definitive (a : acc) : bool := match a with Some m => is_definitive m | None => false end.

(** btree_lookup_and_merge (C08; trunk.c:3209-3223) on a branch: the tuple found is older
    than what has been accumulated.  [None]: NULL merge callback. *)
Definition find_tuple (cfg : data_config) (b : branch) (k : bytes) : option message :=
  match find (fun e => (key_compare cfg (fst e) k =? 0)%Z) b with Some e => Some (snd e) | None => None end.
Definition lookup_and_merge (cfg : data_config) (b : branch) (k : bytes) (a : acc) : option (acc * bool) :=
  match find_tuple cfg b k with
  | None => Some (a, false)
  | Some m =>
      match a with
      | None => Some (Some m, true)
      | Some new => match data_merge_tuples cfg k m new with
                    | None => None
                    | Some r => Some (Some r, true)
                    end
      end
  end.

(** routing_filter_lookup and routing_filter_get_next_value (C14): the values
    stored for the fingerprint, greatest first *)
Definition max_value (f : filt) : nat := fold_right (fun e m => Nat.max (snd e) m) 0 f.
Definition filter_values (f : filt) (h : N) : list nat :=
  filter (fun v => existsb (fun e => (fst e =? h)%N && (snd e =? v)) f) (rev (seq 0 (S (max_value f)))).

(** trunk.c:6781-6828, trunk_filter_lookup; the flag says "go on" *)
Fixpoint lookup_values (cfg : data_config) (n : node) (start : nat) (vs : list nat) (k : bytes) (a : acc)
  : option (acc * bool) :=
  match vs with
  | [] => Some (a, true)
  | v :: r =>
      match lookup_and_merge cfg (n_br n (cadd M start v)) k a with
      | None => None
      | Some (a', found) =>
          if found && acc_definitive a' then Some (a', false)
          else lookup_values cfg n start r k a'
      end
  end.
Definition filter_lookup (cfg : data_config) (h : bytes -> N) (n : node) (f : filt) (start : nat) (k : bytes) (a : acc)
  : option (acc * bool) :=
  lookup_values cfg n start (filter_values f (h k)) k a.

(** trunk.c:6830-6880, trunk_compacted_subbundle_lookup *)
Fixpoint compacted_lookup (cfg : data_config) (h : bytes -> N) (n : node) (s : subbundle) (offs : list nat) (k : bytes) (a : acc)
  : option (acc * bool) :=
  match offs with
  | [] => Some (a, true)
  | i :: r =>
      match filter_values (sb_filter n s i) (h k) with
      | [] => compacted_lookup cfg h n s r k a
      | _ =>
          match lookup_and_merge cfg (n_br n (sb_sbr s)) k a with
          | None => None
          | Some (a', found) => Some (a', negb (found && acc_definitive a'))
          end
      end
  end.

(** trunk.c:6882-6910, trunk_bundle_lookup: newest subbundle first *)
Definition subbundle_lookup (cfg : data_config) (h : bytes -> N) (n : node) (s : subbundle) (k : bytes) (a : acc)
  : option (acc * bool) :=
  if sb_compacted s then compacted_lookup cfg h n s (seq 0 (sb_filter_count s)) k a
  else filter_lookup cfg h n (sb_filter n s 0) (sb_sbr s) k a.
Fixpoint lookup_each {A} (f : A -> acc -> option (acc * bool)) (l : list A) (a : acc) : option (acc * bool) :=
  match l with
  | [] => Some (a, true)
  | x :: r =>
      match f x a with
      | None => None
      | Some (a', true) => lookup_each f r a'
      | Some (a', false) => Some (a', false)
      end
  end.
Definition bundle_lookup (cfg : data_config) (h : bytes -> N) (n : node) (b : bundle) (k : bytes) (a : acc)
  : option (acc * bool) :=
  lookup_each (fun off => subbundle_lookup cfg h n (n_sb n (csub MAX_SUBBUNDLES (bn_esb b) (off + 1))) k)
              (seq 0 (bundle_subbundle_count b)) a.

(** trunk.c:6912-6936, trunk_pivot_lookup *)
Definition pivot_lookup (cfg : data_config) (h : bytes -> N) (n : node) (p : pivot) (k : bytes) (a : acc)
  : option (acc * bool) :=
  match lookup_each (fun off => bundle_lookup cfg h n (n_bn n (csub MAX_BUNDLES (n_ebn n) (off + 1))) k)
                    (seq 0 (pivot_bundle_count n p)) a with
  | None => None
  | Some (a', false) => Some (a', false)
  | Some (a', true) => filter_lookup cfg h n (pv_filt p) (pv_sbr p) k a'
  end.

End Node.
