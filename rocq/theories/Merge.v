(** * The merge iterator

    /repo/src/merge.c and /repo/src/merge.h: a k-way merge of sorted
    iterators, with a direction that can be switched.
    Definitions only; no proofs.

    Conventions: [None] is a failed assertion or undefined behaviour (reading
    an uninitialised variable or array cell, stepping an exhausted iterator,
    calling a user callback with an invalid key or message).  NULL_KEY and
    NULL_MESSAGE are [None] of the field's type.  Memory allocation does not
    fail and the sources' step functions return STATUS_OK (btree_iterator_next
    and _prev always do, btree.c:2740-2785).  Keys and messages are values, so
    the lifetime of the pages they point into is not modelled. *)

From Coq Require Import List ZArith NArith Bool.
From Verif Require Import Base.
Import ListNotations.
Local Open Scope Z_scope.

(** ** Source iterators

    What a merge iterator sees of a source through iterator.h:43-79: a sorted
    list of tuples and a position from -1 (before the first tuple) to the
    length (after the last one).  The B-tree iterator is modelled separately;
    an empty one can move in neither direction (btree.c:2492-2507). *)
Record src := Src { s_items : list (bytes * message); s_pos : Z }.

Definition src_len (s : src) : Z := Z.of_nat (length (s_items s)).
Definition src_can_next (s : src) : bool := s_pos s <? src_len s.
Definition src_can_prev (s : src) : bool := (0 <=? s_pos s) && (0 <? src_len s).

(** iterator.h:63-67, iterator_can_curr *)
Definition src_can_curr (s : src) : bool := src_can_next s && src_can_prev s.

Definition src_next (s : src) : src := Src (s_items s) (s_pos s + 1).
Definition src_prev (s : src) : src := Src (s_items s) (s_pos s - 1).

Definition src_curr (s : src) : option (bytes * message) :=
  if s_pos s <? 0 then None else nth_error (s_items s) (Z.to_nat (s_pos s)).

(** ** The merge iterator *)

(** merge.h:19-25, ordered_iterator *)
Record oit := OIt {
  o_seq : Z;
  o_src : src;
  o_key : option bytes;
  o_data : option message;
  o_eq : bool                       (* next_key_equal *)
}.

(** merge.h:27-56, merge_behavior; the flags it sets, merge.c:559-561 *)
Inductive mode := Raw | Intermediate | Full.
Definition merge_messages (m : mode) : bool := match m with Raw => false | _ => true end.
Definition finalize_updates (m : mode) : bool := match m with Full => true | _ => false end.
Definition emit_deletes (m : mode) : bool := match m with Full => false | _ => true end.

(** merge.h:59-86, merge_iterator.  [m_arr] is ordered_iterators[0 ..
    num_trees - 1]; the pad at index -1 is write-only and omitted. *)
Record mi := MI {
  m_mode : mode;
  m_fwd : bool;
  m_arr : list oit;
  m_rem : nat;                      (* num_remaining *)
  m_can_prev : bool;
  m_can_next : bool;
  cur_key : option bytes;
  cur_data : option message;
  m_discarded : N
}.

Definition set_arr (st : mi) (a : list oit) (n : nat) : mi :=
  MI (m_mode st) (m_fwd st) a n (m_can_prev st) (m_can_next st)
     (cur_key st) (cur_data st) (m_discarded st).
Definition set_curr (st : mi) (k : option bytes) (d : option message) : mi :=
  MI (m_mode st) (m_fwd st) (m_arr st) (m_rem st) (m_can_prev st) (m_can_next st)
     k d (m_discarded st).
Definition set_can (st : mi) (p n : bool) : mi :=
  MI (m_mode st) (m_fwd st) (m_arr st) (m_rem st) p n (cur_key st) (cur_data st) (m_discarded st).
Definition set_fwd (st : mi) (f : bool) : mi :=
  MI (m_mode st) f (m_arr st) (m_rem st) (m_can_prev st) (m_can_next st)
     (cur_key st) (cur_data st) (m_discarded st).
Definition add_discarded (st : mi) : mi :=
  MI (m_mode st) (m_fwd st) (m_arr st) (m_rem st) (m_can_prev st) (m_can_next st)
     (cur_key st) (cur_data st) (m_discarded st + 1).

(** merge.c:50-68, bsearch_comp: the comparison and keys_equal.  Equal keys
    compare by descending seq.  (The int negation at 59 is exact here: it
    would overflow only for a comparator returning INT_MIN.) *)
Definition bsearch_comp (cfg : data_config) (fwd : bool) (a b : oit) : option (Z * bool) :=
  match o_key a, o_key b with
  | Some ka, Some kb =>
      let c0 := key_compare cfg ka kb in
      let c := if fwd then c0 else - c0 in
      let eq := c =? 0 in
      Some ((if eq then o_seq b - o_seq a else c), eq)
  | _, _ => None
  end.

(** merge.c:88-123, bsearch_insert: the loop at 105-118.  [last] is [p] and
    whether [cmp < 0], both uninitialised before the first round. *)
Fixpoint bs_loop (fuel : nat) (cmp : oit -> option (Z * bool)) (l : list oit)
         (base lim : nat) (last : option (nat * bool)) (pe ne : bool)
  : option (Z * bool * bool) :=
  match lim with
  | O => match last with
         | None => None
         | Some (p, lt) => Some (Z.of_nat p - (if lt then 1 else 0), pe, ne)
         end
  | S _ =>
      match fuel with
      | O => None
      | S f =>
          let p := (base + Nat.div2 lim)%nat in
          match nth_error l p with
          | None => None
          | Some y =>
              match cmp y with
              | None => None
              | Some (c, eq) =>
                  if 0 <? c
                  then bs_loop f cmp l (S p) (Nat.div2 (lim - 1)) (Some (p, false)) (pe || eq) ne
                  else bs_loop f cmp l base (Nat.div2 lim) (Some (p, c <? 0)) pe
                               (ne || ((c <? 0) && eq))
              end
          end
      end
  end.

Definition bsearch_insert (cfg : data_config) (fwd : bool) (x : oit) (l : list oit)
  : option (Z * bool * bool) :=
  bs_loop (S (length l)) (bsearch_comp cfg fwd x) l 0 (length l) None false false.

(** Set next_key_equal of the iterator at an index. *)
Definition with_eq (b : bool) (x : oit) : oit := OIt (o_seq x) (o_src x) (o_key x) (o_data x) b.
Fixpoint set_eq (l : list oit) (i : nat) (b : bool) : list oit :=
  match l, i with
  | [], _ => []
  | x :: r, O => with_eq b x :: r
  | x :: r, S j => x :: set_eq r j b
  end.

(** One step of a source in the iterator's direction. *)
Definition src_step (fwd : bool) (s : src) : src := if fwd then src_next s else src_prev s.

(** merge.c:167-243, advance_and_resort_min_ritor *)
Definition advance (cfg : data_config) (st : mi) : option mi :=
  match m_arr st, m_rem st with
  | x :: r, S n =>
      let s' := src_step (m_fwd st) (o_src x) in
      if negb (src_can_curr s')
      then Some (set_arr st (firstn n r ++ OIt (o_seq x) s' None None false :: skipn n r) n)
      else match src_curr s' with
           | None => None
           | Some (k, m) =>
               let x2 := OIt (o_seq x) s' (Some k) (Some m) false in
               match n with
               | O => Some (set_arr st (x2 :: r) (S n))
               | S _ =>
                   match bsearch_insert cfg (m_fwd st) x2 (firstn n r) with
                   | None => None
                   | Some (i, pe, ne) =>
                       let index := 1 + i in
                       if index <? 0 then None else
                       let j := Z.to_nat index in
                       let a1 := firstn j r ++ x2 :: skipn j r in
                       let a2 := match j with O => a1 | S j' => set_eq a1 j' pe end in
                       Some (set_arr st (set_eq a2 j ne) (S n))
                   end
               end
           end
  | _, _ => None
  end.

(** data_merge_tuples (data_internal.h:560-586) on a key and an old message
    that may be NULL: harmless when the new message is definitive. *)
Definition merge_nullable (cfg : data_config) (k : option bytes) (old : option message)
           (new : message) : option message :=
  if is_definitive new then Some new
  else match k, old with
       | Some k, Some old => data_merge_tuples cfg k old new
       | _, _ => None
       end.

(** The number of tuples left in the sources bounds every loop. *)
Definition total_items (l : list oit) : nat :=
  fold_right (fun x n => (length (s_items (o_src x)) + n)%nat) O l.

(** merge.c:271-303, the loop of merge_resolve_equal_keys; [buf] is
    merge_buffer.  The array cells beyond num_trees are never initialised. *)
Fixpoint resolve_loop (fuel : nat) (cfg : data_config) (st : mi) (buf : message)
  : option (mi * message) :=
  match fuel with
  | O => None
  | S f =>
      match nth_error (m_arr st) 1 with
      | None => None
      | Some y =>
          match merge_nullable cfg (cur_key st) (o_data y) buf with
          | None => None
          | Some buf' =>
              match advance cfg (set_curr st (o_key y) (cur_data st)) with
              | None => None
              | Some st' =>
                  match m_arr st' with
                  | [] => None
                  | z :: _ => if o_eq z then resolve_loop f cfg st' buf' else Some (st', buf')
                  end
              end
          end
      end
  end.

(** merge.c:249-312, merge_resolve_equal_keys *)
Definition resolve_equal_keys (cfg : data_config) (st : mi) : option mi :=
  match cur_data st with
  | None => None
  | Some d =>
      match resolve_loop (S (total_items (m_arr st))) cfg st d with
      | None => None
      | Some (st', buf) => Some (set_curr st' (cur_key st') (Some buf))
      end
  end.

(** merge.c:325-357, merge_finalize_updates_and_discard_deletes; the boolean
    is *discarded.  data_merge_tuples_final is Base.v's. *)
Definition finalize_and_discard (cfg : data_config) (st : mi) : option (mi * bool) :=
  match cur_data st with
  | None => None
  | Some d =>
      let fin :=
        match m_class d with
        | MInsert => Some d
        | _ => if finalize_updates (m_mode st)
               then if is_definitive d then Some d
                    else match cur_key st with
                         | None => None
                         | Some k => data_merge_tuples_final cfg k d
                         end
               else Some d
        end in
      match fin with
      | None => None
      | Some d' =>
          let st' := set_curr st (cur_key st) (Some d') in
          match m_class d' with
          | MDelete => if emit_deletes (m_mode st)
                       then Some (st', false)
                       else Some (add_discarded st', true)
          | _ => Some (st', false)
          end
      end
  end.

(** merge.c:359-405, advance_one_loop; the boolean is *retry *)
Definition advance_one_loop (cfg : data_config) (st : mi) : option (mi * bool) :=
  match m_rem st with
  | O => Some (if m_fwd st then set_can st (m_can_prev st) false
               else set_can st false (m_can_next st), false)
  | S _ =>
      match m_arr st with
      | [] => None
      | x :: _ =>
          let st1 := set_curr st (o_key x) (o_data x) in
          if negb (merge_messages (m_mode st)) then Some (st1, false)
          else
            let st2 := if o_eq x then resolve_equal_keys cfg st1 else Some st1 in
            match st2 with
            | None => None
            | Some st2 => finalize_and_discard cfg st2
            end
      end
  end.

(** merge.c:696-717, merge_advance_helper *)
Fixpoint advance_helper (fuel : nat) (cfg : data_config) (st : mi) : option mi :=
  match fuel with
  | O => None
  | S f =>
      match advance cfg (set_curr st None None) with
      | None => None
      | Some st1 =>
          match advance_one_loop cfg st1 with
          | None => None
          | Some (st2, true) => advance_helper f cfg st2
          | Some (st2, false) => Some st2
          end
      end
  end.
Definition merge_advance (cfg : data_config) (st : mi) : option mi :=
  advance_helper (S (total_items (m_arr st))) cfg st.

(** merge.c:125-130, set_curr_ordered_iterator *)
Definition load_curr (x : oit) : option oit :=
  match src_curr (o_src x) with
  | None => None
  | Some (k, m) => Some (OIt (o_seq x) (o_src x) (Some k) (Some m) (o_eq x))
  end.

(** merge.c:424-448: move the exhausted iterators to the end.  [front] are
    the cells before [i] in reverse, [mid] the cells from [i] to
    num_remaining - 1, [back] the cells after.  Returns the live cells, the
    dead ones, can_prev and can_next. *)
Fixpoint part_loop (fuel : nat) (front mid back : list oit) (cp cn : bool)
  : option (list oit * list oit * bool * bool) :=
  match mid with
  | [] => Some (rev front, back, cp, cn)
  | x :: t =>
      match fuel with
      | O => None
      | S f =>
          let cp' := cp || src_can_prev (o_src x) in
          let cn' := cn || src_can_next (o_src x) in
          if negb (src_can_curr (o_src x))
          then match rev t with
               | [] => part_loop f front [] (x :: back) cp' cn'
               | l :: r => part_loop f front (l :: rev r) (x :: back) cp' cn'
               end
          else match load_curr x with
               | None => None
               | Some x' => part_loop f (x' :: front) t back cp' cn'
               end
      end
  end.

(** merge.c:75-86 and 452-457: platform_sort_slow (qsort_r) with merge_comp.
    The model sorts by insertion; merge_comp is a strict total order on the
    live iterators (no two have the same seq), so every correct sort gives
    this array. *)
Definition oit_before (cfg : data_config) (fwd : bool) (a b : oit) : bool :=
  match bsearch_comp cfg fwd a b with Some (c, _) => c <? 0 | None => false end.
Fixpoint ins_sorted (lt : oit -> oit -> bool) (x : oit) (l : list oit) : list oit :=
  match l with
  | [] => [x]
  | y :: r => if lt x y then x :: l else y :: ins_sorted lt x r
  end.
Definition sort_oits (lt : oit -> oit -> bool) (l : list oit) : list oit :=
  fold_right (ins_sorted lt) [] l.

(** merge.c:458-470: the initial next_key_equal bits.  The bit of the last
    live iterator is left as it was. *)
Fixpoint init_bits (cfg : data_config) (l : list oit) : list oit :=
  match l with
  | x :: (y :: _) as r =>
      match o_key x, o_key y with
      | Some a, Some b => with_eq (key_compare cfg a b =? 0) x :: init_bits cfg r
      | _, _ => x :: init_bits cfg r
      end
  | _ => l
  end.

(** merge.c:416-505, setup_ordered_iterators *)
Definition setup (cfg : data_config) (st : mi) : option mi :=
  match part_loop (S (length (m_arr st))) [] (m_arr st) [] false false with
  | None => None
  | Some (live, dead, cp, cn) =>
      let sorted := init_bits cfg (sort_oits (oit_before cfg (m_fwd st)) live) in
      let st1 := set_can (set_arr st (sorted ++ dead) (length live)) cp cn in
      match advance_one_loop cfg st1 with
      | None => None
      | Some (st2, true) => merge_advance cfg st2
      | Some (st2, false) => Some st2
      end
  end.

Definition MAX_MERGE_ARITY : nat := 1024.    (* merge.h:17 *)

(** merge.c:568-578: the initial iterators; seq is the source's index. *)
Fixpoint init_oits (i : Z) (l : list src) : list oit :=
  match l with
  | [] => []
  | s :: r => OIt i s None None false :: init_oits (i + 1) r
  end.

(** merge.c:520-587, merge_iterator_create; [Some None] is STATUS_BAD_PARAM *)
Definition merge_create (cfg : data_config) (md : mode) (l : list src) : option (option mi) :=
  if Nat.leb MAX_MERGE_ARITY (length l) then Some None
  else match setup cfg (MI md true (init_oits 0 l) O false false None None 0) with
       | None => None
       | Some st => Some (Some st)
       end.

(** merge.c:619-643, merge_iterator_set_direction *)
Definition turn_src (fwd : bool) (s : src) : src :=
  if fwd then (if src_can_next s then src_next s else s)
  else (if src_can_prev s then src_prev s else s).
Definition turn_oit (fwd : bool) (x : oit) : oit :=
  OIt (o_seq x) (turn_src fwd (o_src x)) (o_key x) (o_data x) (o_eq x).
Definition set_direction (cfg : data_config) (st : mi) (fwd : bool) : option mi :=
  setup cfg (set_arr (set_fwd st fwd) (map (turn_oit fwd) (m_arr st)) (m_rem st)).

(** merge.c:729-759, merge_next and merge_prev *)
Definition merge_next (cfg : data_config) (st : mi) : option mi :=
  if negb (m_fwd st) then set_direction cfg st true else merge_advance cfg st.
Definition merge_prev (cfg : data_config) (st : mi) : option mi :=
  if m_fwd st then set_direction cfg st false else merge_advance cfg st.

(** merge.c:660-694 and iterator.h:63-67 *)
Definition merge_can_curr (st : mi) : bool := m_can_next st && m_can_prev st.
Definition merge_curr (st : mi) : option bytes * option message := (cur_key st, cur_data st).

(** A caller that reads the current tuple and steps while [can] holds: with
    can_next, what trunk_range (trunk.c:7620-7630) and btree_pack
    (btree.c:3273-3288) do. *)
Fixpoint drain (can : mi -> bool) (step : mi -> option mi) (fuel : nat) (st : mi)
  : option (list (option bytes * option message) * mi) :=
  if negb (can st) then Some ([], st)
  else match fuel with
       | O => None
       | S f =>
           match step st with
           | None => None
           | Some st' =>
               match drain can step f st' with
               | None => None
               | Some (l, e) => Some (merge_curr st :: l, e)
               end
           end
       end.
