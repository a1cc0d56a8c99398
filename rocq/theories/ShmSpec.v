(** What the users of the shared-memory heap rely on, and the rules they keep.
    Nothing here looks at the heap's control block, except for the segment's
    bounds. *)
From Coq Require Import List NArith Bool.
From Verif Require Import Shm.
Import ListNotations.
Local Open Scope N_scope.

(** The bytes a caller may use. *)
Definition in_frag (f : frag) (x : N) : Prop := a_addr f <= x < a_addr f + a_size f.
Definition in_range (w : N * N) (x : N) : Prop := fst w <= x < fst w + snd w.

(** A segment whose bounds are addresses; the control block and the segment start
    at cache lines (shmat; PLATFORM_CACHELINE_ALIGNED, shmem.c 134). *)
Definition segment (start size ctrl : N) : Prop :=
  0 < start /\ ctrl <= size /\ start + size < 2 ^ 64
  /\ start mod LINE = 0 /\ ctrl mod LINE = 0.

(** The rule for sizes: not zero, whole cache lines, and not so large that adding
    it to an address of the segment wraps. *)
Definition ok_size (top n : N) : Prop := 0 < n /\ n mod LINE = 0 /\ top + n < 2 ^ 64.
Definition ok_call (top : N) (c : call) : Prop :=
  match c with Malloc n => ok_size top n | Release _ => True end.

(** All interleavings of all calls that keep the rule. *)
Inductive reach (start size ctrl : N) (k : nat) : state -> Prop :=
| reach0 : reach start size ctrl k (init start size ctrl k)
| reach1 s i c s' w : reach start size ctrl k s -> ok_call (start + size) c ->
    step s i c = Some (s', w) -> reach start size ctrl k s'.

(** The same without the rule, for the counterexamples. *)
Fixpoint run (s : state) (l : list (nat * call)) : option state :=
  match l with
  | [] => Some s
  | (i, c) :: r => match step s i c with Some (s', _) => run s' r | None => None end
  end.
