(** * The B-tree iterator

    /repo/src/btree.c:2455-3010 and btree.h:129-146, for iterators over the
    leaves (height 0).  Definitions only.

    Simplifications: the tree does not change while the iterator is in use
    (always so for branches, which are read-only; for a memtable it means no
    concurrent insertion), so the generation check of btree.c:2632-2661 never
    fires and the claim of 2822-2832 always succeeds; prefetching and page
    locks are omitted.  Iterators over index levels (height > 0, used only to
    choose split points) and btree_iterator_seek (no caller) are not modelled.
    [None] is a failed assertion, a read outside a page or a read of a page
    that does not exist. *)

From Coq Require Import List ZArith NArith Arith Bool.
From Verif Require Import Base Spec_Merge Codec Search Page PageBytes Btree.
Import ListNotations.
Local Open Scope Z_scope.

(** A tree as an iterator sees it: the root, and the pages by address. *)
Definition leaf_at (t : bt) (a : N) : option leaf :=
  find (fun l => N.eqb (lf_addr l) a) (leaves (bt_h t) (bt_tree t)).
Definition prev_addr (t : bt) (a : N) : N := fst (e_links (bt_env t) a).
Definition next_addr (t : bt) (a : N) : N := snd (e_links (bt_env t) a).

Definition num_entries (l : leaf) : Z := Z.of_nat (length (pg_cont (lf_page l))).

(** btree.h:129-146; [i_curr] is curr.addr *)
Record bit := BIt {
  i_min : key;
  i_max : key;
  i_curr : N;
  i_idx : Z;
  i_curr_min : Z;                   (* curr_min_idx *)
  i_end : N;                        (* end_addr *)
  i_end_idx : Z
}.
Definition set_pos (it : bit) (a : N) (idx cm : Z) : bit :=
  BIt (i_min it) (i_max it) a idx cm (i_end it) (i_end_idx it).

(** btree.c:2492-2507 *)
Definition it_can_prev (it : bit) : bool :=
  (i_curr_min it <=? i_idx it) &&
  (negb (i_curr_min it =? i_end_idx it) || negb (N.eqb (i_curr it) (i_end it))).
Definition it_can_next (it : bit) : bool :=
  negb (N.eqb (i_curr it) (i_end it)) ||
  ((i_idx it <? i_end_idx it) && negb (i_curr_min it =? i_end_idx it)).
(** iterator.h:63-67 *)
Definition it_can_curr (it : bit) : bool := it_can_next it && it_can_prev it.

(** btree.c:2509-2538 *)
Definition it_curr (t : bt) (it : bit) : option (bytes * message) :=
  match leaf_at t (i_curr it) with
  | None => None
  | Some l => if i_idx it <? 0 then None else nth_error (pg_cont (lf_page l)) (Z.to_nat (i_idx it))
  end.

(** btree.c:2542-2582 *)
Definition find_key_in_node (cfg : data_config) (l : leaf) (target : key) (rule : comparison_mode)
  : option (Z * bool) :=
  match find_tuple cfg (lf_page l) target with
  | None => None
  | Some (i, found) =>
      Some (match rule with
            | LessThan => if found : bool then i - 1 else i
            | LessThanOrEqual => i
            | GreaterThanOrEqual => if found : bool then i else i + 1
            | GreaterThan => i + 1
            end, found)
  end.

(** btree.c:2584-2609: (end_addr, end_idx) *)
Definition find_end (cfg : data_config) (t : bt) (mx : key) : option (N * Z) :=
  match lookup_leaf cfg (bt_h t) (bt_tree t) mx with
  | None => None
  | Some l =>
      match mx with
      | KPosInf => Some (lf_addr l, num_entries l)
      | _ => match find_key_in_node cfg l mx GreaterThanOrEqual with
             | None => None
             | Some (i, _) => Some (lf_addr l, i)
             end
      end
  end.

(** btree.c:2617-2674 *)
Definition next_leaf (t : bt) (it : bit) : option bit :=
  match leaf_at t (next_addr t (i_curr it)) with
  | None => None
  | Some l => Some (set_pos it (lf_addr l) 0 (-1))
  end.

(** btree.c:2681-2737.  The walk of 2698-2703 towards the leaf whose
    successor is [old] has fuel. *)
Fixpoint walk_to (fuel : nat) (t : bt) (old a : N) : option leaf :=
  match fuel with
  | O => None
  | S f =>
      match leaf_at t a with
      | None => None
      | Some l => if N.eqb (next_addr t a) old then Some l else walk_to f t old (next_addr t a)
      end
  end.
Definition prev_leaf (cfg : data_config) (t : bt) (it : bit) : option bit :=
  match walk_to (S (length (leaves (bt_h t) (bt_tree t)))) t (i_curr it) (prev_addr t (i_curr it)) with
  | None => None
  | Some l =>
      match nth_error (pg_cont (lf_page l)) 0 with
      | None => None
      | Some (k0, _) =>
          let cm :=
            if data_key_compare cfg (i_min it) (KUser k0) <? 0 then Some (-1)
            else match find_tuple cfg (lf_page l) (i_min it) with
                 | None => None
                 | Some (i, found) => Some (if found : bool then i else i + 1)
                 end in
          match cm with
          | None => None
          | Some c =>
              let c' := if N.eqb (prev_addr t (lf_addr l)) 0 && (c =? -1) then 0 else c in
              Some (set_pos it (lf_addr l) (num_entries l - 1) c')
          end
      end
  end.

(** btree.c:2739-2762 *)
Definition it_next (t : bt) (it : bit) : option bit :=
  match leaf_at t (i_curr it) with
  | None => None
  | Some l =>
      let it' := set_pos it (i_curr it) (i_idx it + 1) (i_curr_min it) in
      if (i_idx it' =? num_entries l) && it_can_next it' then next_leaf t it' else Some it'
  end.

(** btree.c:2764-2784 *)
Definition it_prev (cfg : data_config) (t : bt) (it : bit) : option bit :=
  let it' := set_pos it (i_curr it) (i_idx it - 1) (i_curr_min it) in
  if (i_curr_min it' =? -1) && (i_idx it' =? -1) then prev_leaf cfg t it' else Some it'.

(** btree.c:2786-2866 *)
Definition find_bounds (cfg : data_config) (t : bt) (mn mx target : key) (rule : comparison_mode)
  : option bit :=
  match lookup_leaf cfg (bt_h t) (bt_tree t) target with
  | None => None
  | Some l =>
  match find_end cfg t mx with
  | None => None
  | Some (ea, ei) =>
  match find_key_in_node cfg l mn GreaterThanOrEqual with
  | None => None
  | Some (tmp, found) =>
  let cm := if negb found && (tmp =? 0) then tmp - 1 else tmp in
  let cm := if (cm =? -1) && N.eqb (prev_addr t (lf_addr l)) 0 then 0 else cm in
  match find_key_in_node cfg l target rule with
  | None => None
  | Some (idx, _) =>
  let it := BIt mn mx (lf_addr l) idx cm ea ei in
  match (if negb (N.eqb (i_curr it) (i_end it)) && (i_idx it =? num_entries l)
         then option_map (fun i => set_pos i (i_curr i) (i_idx i) 0) (next_leaf t it)
         else Some it) with
  | None => None
  | Some it1 =>
      if (i_curr_min it1 =? -1) && (i_idx it1 =? -1) then prev_leaf cfg t it1 else Some it1
  end end end end end.

(** btree.c:2949-3003 *)
Definition it_init (cfg : data_config) (t : bt) (mn mx start : key) (rule : comparison_mode)
  : option bit :=
  let mx' := if 0 <? data_key_compare cfg mn mx then mn else mx in
  let s1 := if data_key_compare cfg start mn <? 0 then mn else start in
  let s2 := if 0 <? data_key_compare cfg s1 mx' then mx' else s1 in
  find_bounds cfg t mn mx' s2 rule.

(** ** Using an iterator

    The loop every caller has: while the iterator is valid, take the current
    tuple and step. *)
Fixpoint it_scan (fuel : nat) (step : bit -> option bit) (t : bt) (it : bit) : option (list lent * bit) :=
  if negb (it_can_curr it) then Some ([], it)
  else match fuel with
       | O => None
       | S f =>
           match it_curr t it, step it with
           | Some e, Some it' =>
               match it_scan f step t it' with
               | Some (l, r) => Some (e :: l, r)
               | None => None
               end
           | _, _ => None
           end
       end.

(** Any sequence of steps, without looking. *)
Fixpoint it_moves (cfg : data_config) (t : bt) (ms : list move) (it : bit) : option bit :=
  match ms with
  | [] => Some it
  | Next :: r => match it_next t it with Some it' => it_moves cfg t r it' | None => None end
  | Prev :: r => match it_prev cfg t it with Some it' => it_moves cfg t r it' | None => None end
  end.
