(** Scans of the memtable's B-tree while threads insert into it: /repo/src/btree.c,
    btree_iterator_init (2951-3002), find_btree_node_and_get_idx_bounds (2788-2867),
    btree_iterator_find_end (2585-2609), btree_iterator_next (2741-2763),
    btree_iterator_next_leaf (2617-2674), btree_iterator_prev (2765-2785) and
    btree_iterator_prev_leaf (2681-2738), with the insertions and lookups of [CBtree].

    One scan is one call, with the lower bound [lo] and the upper bound [hi], [None]:
    positive infinity.  It goes forward from [lo] (greater_than_or_equal) to the end, or
    back from [hi] (less_than) to the beginning.

    Simplifications, besides those of [CBtree]:
    - what a caller reads from one leaf between two moves is one step: the iterator has a
      reference to the leaf, so it does not change meanwhile;
    - instead of the generation of the end leaf the iterator notes what is compared with
      it: the entries and the next leaf.  They change only with the generation (678, 891,
      928); the step that finds the generation changed is always allowed;
    - prefetching is left out; height is 0. *)
From Coq Require Import List Arith Bool.
Import ListNotations.
From Verif Require Import CBtree.
Local Open Scope nat_scope.

Notation entry := (nat * list nat)%type.

Definition below (hi : option nat) (k : nat) : bool := match hi with Some h => k <? h | None => true end.
(** find_key_in_node, 2541-2583, greater_than_or_equal (C11). *)
Definition upto (hi : option nat) (es : list entry) : nat := length (filter (fun e => below hi (fst e)) es).
(** The child for a bound, 2097-2103; for positive infinity the last. *)
Definition findo (hi : option nat) (ps : list (nat * nat)) : nat :=
  match hi with Some k => zero (find k ps) | None => length ps - 1 end.
(** 2970-2972. *)
Definition clamp (lo : nat) (hi : option nat) : option nat :=
  match hi with Some h => Some (Nat.max lo h) | None => None end.

Inductive dir := Fwd | Bwd.
(** The key a scan starts with: start_key, 2991. *)
Definition tgt (d : dir) (lo : nat) (hi : option nat) : option nat := match d with Fwd => Some lo | Bwd => hi end.

(** end_addr, end_generation and end_idx, 2598-2606. *)
Record snap := Snap { e_addr : nat; e_es : list entry; e_nx : option nat; e_idx : nat }.

(** From where the end is looked for: in the beginning, curr claimed (2834), or again, curr
    released (2659). *)
Inductive where_ := Init (c : nat) | Again (b : nat).

Inductive spc :=
| S0                                     (* 2794, 2824 *)
| S1 (a : nat)                           (* 2094 *)
| S2 (a ix : nat)                        (* 2108 *)
| S2b (a c : nat)                        (* 2110 *)
| S3 (c : nat)                           (* 2822 *)
| E0 (w : where_)                        (* 2590 *)
| E1 (w : where_) (a : nat)              (* 2094, 2598-2608 *)
| E2 (w : where_) (a ix : nat)           (* 2108 *)
| E3 (w : where_) (a c : nat)            (* 2110 *)
| S4 (c : nat) (e : snap)                (* 2837 *)
| SV (c ix : nat) (e : snap)              (* 2527, 2750-2752 *)
| SN (b : nat) (e : snap)                 (* 2627, 2660 *)
| SC (b : nat) (e : snap)                 (* 2631 *)
| BV (c ix : nat) (e : snap)              (* 2527, 2775-2777; the entries below [ix] are left *)
| BN (a d : nat) (e : snap)               (* 2691, 2702: back from [d] *)
| BW (a d : nat) (e : snap)               (* 2698 *)
| SD (c : nat).                           (* 3008 *)

Inductive scn := Off | On (d : dir) (lo : nat) (hi : option nat) (acc : list entry) (p : spc).

Definition held (w : where_) : list nat := match w with Init c => [c] | Again _ => [] end.

(** The pages a scan has references to, and those it claims. *)
Definition sreads (sc : scn) : list nat :=
  match sc with
  | Off => []
  | On _ _ _ _ p =>
      match p with
      | S0 | SN _ _ | BN _ _ _ => []
      | S1 a | S2 a _ => [a]
      | S2b a c => [a; c]
      | S3 c | S4 c _ | SV c _ _ | SC c _ | BV c _ _ | BW c _ _ | SD c => [c]
      | E0 w => held w
      | E1 w a | E2 w a _ => a :: held w
      | E3 w a c => a :: c :: held w
      end
  end.
Definition sclaims (sc : scn) : list nat :=
  match sc with
  | On _ _ _ _ (E0 w) | On _ _ _ _ (E1 w _) | On _ _ _ _ (E2 w _ _) | On _ _ _ _ (E3 w _ _) => held w
  | On _ _ _ _ (S4 c _) => [c]
  | _ => []
  end.

Record both := Both { base : state; scs : list scn }.

Definition has (f : scn -> list nat) (a : nat) (l : list scn) : bool := existsb (fun sc => mem a (f sc)) l.
Definition free (f : thr -> list nat) (a : nat) (s : state) : bool := forallb (fun t => negb (mem a (f t))) (ths s).

Inductive slabel := STau | SCall (d : dir) (lo : nat) (hi : option nat) | SRet (es : list entry).

(** 2632: the end leaf is as it was. *)
Fixpoint list_eqb (l l' : list nat) : bool :=
  match l, l' with
  | [], [] => true
  | x :: r, x' :: r' => (x =? x') && list_eqb r r'
  | _, _ => false
  end.
Fixpoint es_eqb (l l' : list entry) : bool :=
  match l, l' with
  | [], [] => true
  | (k, v) :: r, (k', v') :: r' => (k =? k') && list_eqb v v' && es_eqb r r'
  | _, _ => false
  end.
Definition isnone (o : option nat) : bool := match o with None => true | Some _ => false end.
Definition o_eqb (a b : option nat) : bool :=
  match a, b with Some x, Some y => x =? y | None, None => true | _, _ => false end.
Definition same (n : node) (e : snap) : bool :=
  match n with Leaf es _ nx => es_eqb es (e_es e) && o_eqb nx (e_nx e) | Index _ _ => false end.

(** curr_min_idx is not -1: a scan back ends in this leaf, 2846-2851, 2707-2724; it is then
    the number of keys below [lo]. *)
Definition last_leaf (lo : nat) (n : node) : bool :=
  isnone (prevp n) || existsb (fun e => fst e <=? lo) (entries n).

(** One step of a scan; [z]: the generation is found changed. *)
Definition sstep (s : state) (others : list scn) (d : dir) (lo : nat) (hi : option nat) (acc : list entry) (p : spc) (z : bool)
  : option (scn * slabel) :=
  let g := pg s in
  let can_get a := free locks a s in
  let can_claim a := free claims a s && negb (has sclaims a others) in
  let go q := Some (On d lo hi acc q, STau) in
  match p with
  | S0 => if can_get 0 then go (S1 0) else None
  | S1 a => match g a with
            | Index _ ps => go (S2 a (findo (tgt d lo hi) ps))
            | Leaf _ _ _ => go (S3 a)
            end
  | S2 a ix => match nth_error (pivots (g a)) ix with
               | Some (_, c) => if can_get c then go (S2b a c) else None
               | None => None
               end
  | S2b a c => go (S1 c)
  | S3 c => if can_claim c then go (E0 (Init c)) else go S0
  | E0 w => if can_get 0 then go (E1 w 0) else None
  | E1 w a => match g a with
              | Index _ ps => go (E2 w a (findo hi ps))
              | Leaf es _ nx =>
                  let e := Snap a es nx (upto hi es) in
                  go match w with Init c => S4 c e | Again b => SN b e end
              end
  | E2 w a ix => match nth_error (pivots (g a)) ix with
                 | Some (_, c) => if can_get c then go (E3 w a c) else None
                 | None => None
                 end
  | E3 w a c => go (E1 w c)
  | S4 c e => match d with                                (* 2854 *)
              | Fwd => go (SV c (upto (Some lo) (entries (g c))) e)
              | Bwd => go (BV c (upto hi (entries (g c))) e)
              end
  | SV c ix e =>
      if c =? e_addr e
      then Some (On d lo hi (acc ++ skipn ix (firstn (e_idx e) (entries (g c)))) (SD c), STau)
      else match nextp (g c) with
           | Some b => Some (On d lo hi (acc ++ skipn ix (entries (g c))) (SN b e), STau)
           | None => None
           end
  | SN b e => if can_get b then go (SC b e) else None
  | SC b e => if (b =? e_addr e) && (z || negb (same (g b) e)) then go (E0 (Again b)) else go (SV b 0 e)
  | BV c ix e =>
      let es := entries (g c) in
      if last_leaf lo (g c)
      then let m := upto (Some lo) es in
           Some (On d lo hi (acc ++ (if (c =? e_addr e) && (m =? e_idx e) then []      (* 2496-2498 *)
                                     else rev (skipn m (firstn ix es)))) (SD c), STau)
      else match prevp (g c) with
           | Some a => Some (On d lo hi (acc ++ rev (firstn ix es)) (BN a c e), STau)
           | None => None
           end
  | BN a b e => if can_get a then go (BW a b e) else None
  | BW a b e =>
      match nextp (g a) with
      | Some n => if n =? b
                  then match entries (g a) with
                       | [] => None                                            (* 2709: entry 0 *)
                       | es => go (BV a (length es) e)                         (* 2705 *)
                       end
                  else go (BN n b e)
      | None => None
      end
  | SD c => Some (Off, SRet acc)
  end.

(** ** Threads that insert or look up, with scans about. *)

(** The pages whose readers a thread waits for. *)
Definition awaits (t : thr) : list nat :=
  match t with
  | Ins _ _ p =>
      match p with
      | I2w _ | I6w _ => [0]
      | A3 p _ _ _ => [p]
      | A5 _ _ c _ => [c]
      | L2w c _ => [c]
      | B4 p _ _ _ _ _ _ => [p]
      | B8 _ _ _ _ _ _ _ n => [n]
      | B10 _ _ c _ _ _ _ _ => [c]
      | _ => []
      end
  | _ => []
  end.
(** Where an insertion goes whose claim is refused, as in [CBtree.istep]. *)
Definition refuse (t : thr) (x : act) : option thr :=
  match t with
  | Ins k m p =>
      match p with
      | I1 | I5 | I9 _ _ _ | A1 _ _ _ _ | L1 _ _ => Some (Ins k m I0)
      | B1 p ix c _ _ => Some (Ins k m (B1g p ix c))
      | B6 p ix c rc q gl sp n => Some (if yes x then Ins k m I0 else Ins k m (B5 p ix c rc q gl sp))
      | _ => None
      end
  | _ => None
  end.
(** The step takes a claim that a scan has. *)
Definition clash (t t' : thr) (l : list scn) : bool :=
  existsb (fun a => negb (mem a (claims t)) && has sclaims a l) (claims t').

Definition tstep (b : both) (i : nat) (c : cmd) : option (both * label) :=
  match nth_error (ths (base b)) i with
  | None => None
  | Some t =>
      if existsb (fun a => has sreads a (scs b)) (awaits t) then None
      else match step (base b) i c with
           | None => None
           | Some (s', l) =>
               match nth_error (ths s') i with
               | None => None
               | Some t' =>
                   if clash t t' (scs b) then
                     match c with
                     | Go x => match refuse t x with
                               | Some t1 => Some (Both (St (pg (base b)) (nxt (base b)) (put (ths (base b)) i t1)) (scs b), Tau)
                               | None => None
                               end
                     | Do _ => None
                     end
                   else Some (Both s' (scs b), l)
               end
           end
  end.

Inductive bcmd := BT (i : nat) (c : cmd) | BQ (j : nat) (d : dir) (lo : nat) (hi : option nat) | BG (j : nat) (z : bool).
Inductive ev := ET (i : nat) (l : label) | ES (j : nat) (l : slabel).

Definition others (l : list scn) (j : nat) : list scn := firstn j l ++ skipn (S j) l.

Definition bstep (b : both) (c : bcmd) : option (both * ev) :=
  match c with
  | BT i c => match tstep b i c with Some (b', l) => Some (b', ET i l) | None => None end
  | BQ j d lo hi =>
      match nth_error (scs b) j with
      | Some Off => Some (Both (base b) (put (scs b) j (On d lo (clamp lo hi) [] S0)), ES j (SCall d lo hi))
      | _ => None
      end
  | BG j z =>
      match nth_error (scs b) j with
      | Some (On d lo hi acc p) =>
          match sstep (base b) (others (scs b) j) d lo hi acc p z with
          | Some (sc, l) => Some (Both (base b) (put (scs b) j sc), ES j l)
          | None => None
          end
      | _ => None
      end
  end.

Definition binit (n k : nat) : both := Both (init n) (repeat Off k).
