(** What a scan that runs beside insertions promises (C52), said without pages: it reads
    the table in pieces, each at one instant, that follow one another from its lower to its
    upper bound, or from its upper to its lower bound. *)
From Coq Require Import List Arith Bool Sorting.Sorted.
Import ListNotations.
From Verif Require Import CBtree CBtreeSpec CScan.
Local Open Scope nat_scope.

Definition under (hi : option nat) (k : nat) : Prop := match hi with Some h => k < h | None => True end.
(** [x <= hi], [None] being infinite. *)
Definition upper (x : nat) (hi : option nat) : Prop := match hi with Some h => x <= h | None => True end.
Definition lesser (x y : option nat) : Prop := match x with Some x => upper x y | None => y = None end.

(** [es]: what the table has from [x] to before [y]. *)
Definition piece (m : table) (x : nat) (y : option nat) (es : list entry) : Prop :=
  StronglySorted lt (map fst es) /\
  forall k v, In (k, v) es <-> x <= k /\ under y k /\ v = m k /\ v <> [].

Inductive sst := SOff | SRun (d : dir) (lo : nat) (hi : option nat) (x : option nat) (acc : list entry).

Inductive scan_step (m : table) : sst -> slabel -> sst -> Prop :=
| s_call : forall lo hi, scan_step m SOff (SCall Fwd lo hi) (SRun Fwd lo (clamp lo hi) (Some lo) [])
| s_piece : forall lo hi x y acc es, upper x y -> lesser y hi -> piece m x y es ->
    scan_step m (SRun Fwd lo hi (Some x) acc) STau (SRun Fwd lo hi y (acc ++ es))
| s_ret : forall lo hi acc, scan_step m (SRun Fwd lo hi hi acc) (SRet acc) SOff
| b_call : forall lo hi, scan_step m SOff (SCall Bwd lo hi) (SRun Bwd lo (clamp lo hi) (clamp lo hi) [])
| b_piece : forall lo hi x y acc es, lo <= x -> upper x y -> piece m x y es ->
    scan_step m (SRun Bwd lo hi y acc) STau (SRun Bwd lo hi (Some x) (acc ++ rev es))
| b_ret : forall lo hi acc, scan_step m (SRun Bwd lo hi (Some lo) acc) (SRet acc) SOff.

Definition spec := (table * (nat -> sthr) * (nat -> sst))%type.

Definition put_at (q : nat -> sst) (j : nat) (x : sst) : nat -> sst := fun i => if i =? j then x else q i.

Definition shown (e : ev) : list ev :=
  match e with ET _ Tau => [] | ES _ STau => [] | _ => [e] end.

Inductive spec_step : spec -> ev -> spec -> Prop :=
| p_thr : forall m f q i l m' f', astep (m, f) i l (m', f') -> spec_step (m, f, q) (ET i l) (m', f', q)
| p_scan : forall m f q j l x, scan_step m (q j) l x -> spec_step (m, f, q) (ES j l) (m, f, put_at q j x).

Inductive spec_runs : spec -> list ev -> spec -> Prop :=
| p_stop : forall x, spec_runs x [] x
| p_more : forall x tr y e z, spec_runs x tr y -> spec_step y e z -> spec_runs x (tr ++ shown e) z.

Definition start : spec := (empty, all_idle, fun _ => SOff).

(** The calls and returns could have been made by calls that act at one instant and scans
    that read in pieces. *)
Definition explained (tr : list ev) : Prop := exists y, spec_runs start tr y.

Inductive bruns : both -> list ev -> both -> Prop :=
| b_stop : forall b, bruns b [] b
| b_more : forall b tr b' c b'' e, bruns b tr b' -> bstep b' c = Some (b'', e) -> bruns b (tr ++ shown e) b''.
