(** * When an asynchronous lookup can be compared with the synchronous one

    What trunk_lookup_async takes for granted about the subbundles that it visits
    and the code does not ensure (see the refutations in Prop_Async.v). *)

From Coq Require Import List Arith NArith Bool.
From Verif Require Import Base TrunkNode TrunkTree.
Import ListNotations.
Local Open Scope nat_scope.

Section Fit.
Variables (M : nat) (cfg : data_config) (h : bytes -> N) (k : bytes).

Definition some_fps (f : filt) : bool := match f with [] => false | _ => true end.
(** No filter has address 0, and no branch found through the filter of an
    uncompacted subbundle lies beyond the end of the circular array *)
Definition sub_fit (n : node) (s : subbundle) : bool :=
  if sb_compacted s then
    (0 <? sb_filter_count s) && forallb (fun i => some_fps (sb_filter n s i)) (seq 0 (sb_filter_count s))
  else
    some_fps (sb_filter n s 0) && forallb (fun v => sb_sbr s + v <? M) (filter_values (sb_filter n s 0) (h k)).
(** The subbundles of the pivot, newest first *)
Definition pivot_subs (n : node) (p : pivot) : list subbundle :=
  map (fun j => n_sb n (csub MAX_SUBBUNDLES (n_esb n) (j + 1)))
      (seq 0 (csub MAX_SUBBUNDLES (n_esb n) (pivot_start_subbundle n p))).
(** All the nodes on the way of the key *)
Fixpoint fit (ht : nat) (t : tree) : bool :=
  match route cfg (t_node t) (KUser k) with
  | None => false
  | Some i =>
      match get_pivot (t_node t) i with
      | None => false
      | Some p =>
          forallb (sub_fit (t_node t)) (pivot_subs (t_node t) p) &&
          match ht with
          | O => true
          | S ht' => match nth_error (t_kids t) i with Some c => fit ht' c | None => false end
          end
      end
  end.
End Fit.
