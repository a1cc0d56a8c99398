(** * What a log is expected to hold

    Pages as lists of entries, filled greedily: no bytes, no addresses. *)

From Coq Require Import List NArith Arith Bool.
From Verif Require Import Base Codec Log.
Import ListNotations.
Local Open Scope N_scope.

Record spage := SPage { s_tid : nat; s_entries : list entry; s_done : bool }.

Definition size (e : entry) : N := 14 + N.of_nat (length (e_key e)) + N.of_nat (length (m_data (e_msg e))).
Fixpoint sizes (es : list entry) : N := match es with [] => 0 | e :: r => size e + sizes r end.

(** Room for entries on a page of [cap] bytes.  An entry goes to the page its thread is
    filling, or, if it does not fit, to a new page; the old one is then complete. *)
Fixpoint put (cap : N) (t : nat) (e : entry) (ps : list spage) : list spage * bool :=
  match ps with
  | [] => ([], false)
  | p :: r =>
      if Nat.eqb (s_tid p) t && negb (s_done p) then
        if sizes (s_entries p) + size e <=? cap
        then (SPage t (s_entries p ++ [e]) false :: r, true)
        else (SPage t (s_entries p) true :: r, false)
      else let x := put cap t e r in (p :: fst x, snd x)
  end.
Definition spec_write (cap : N) (ps : list spage) (w : nat * entry) : list spage :=
  let x := put cap (fst w) (snd w) ps in
  if snd x then fst x else fst x ++ [SPage (fst w) [snd w] false].
Definition spec_writes (cap : N) (ws : list (nat * entry)) : list spage := fold_left (spec_write cap) ws [].

(** The pages before the first that is not complete *)
Fixpoint complete (ps : list spage) : list spage :=
  match ps with [] => [] | p :: r => if s_done p then p :: complete r else [] end.

(** What one thread wrote *)
Definition by_thread (t : nat) (ws : list (nat * entry)) : list entry :=
  map snd (filter (fun w => Nat.eqb (fst w) t) ws).
Definition labelled (ps : list spage) : list (nat * entry) :=
  flat_map (fun p => map (pair (s_tid p)) (s_entries p)) ps.
