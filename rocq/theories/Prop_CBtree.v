(** C50, C51: the memtable's tree used by many threads at once. *)
From Coq Require Import List Arith Bool Lia Sorting.Sorted.
Import ListNotations.
From Verif Require Import CBtree CBtreeSpec CBtreeSees CBtreeInv CBtreeSplit CBtreeProofs CBtreeLin CBtreeRest CBtreeLive
  CBtreeFin CBtreeEnd.
Local Open Scope nat_scope.

(** Every run: the calls and returns are those of calls that act on a table at one
    instant between call and return. *)
Theorem C50_linearizable : forall n tr s, runs (init n) tr s -> linearizable tr.
Proof. exact linearizable_runs. Qed.
Print Assumptions C50_linearizable.

(** So a lookup that starts after an insertion has returned has its message. *)
Theorem C50_sees : forall n s t1 t2 t3 t4 t5 i j k v r w,
  runs (init n) (t1 ++ (i, Called (CIns k v)) :: t2 ++ (i, Returned r) :: t3 ++
                 (j, Called (CFnd k)) :: t4 ++ (j, Returned (RFnd w)) :: t5) s ->
  none_of i t2 -> none_of j t4 -> In v w.
Proof.
  intros n s t1 t2 t3 t4 t5 i j k v r w R N2 N4.
  exact (atomic_sees t1 t2 t3 t4 t5 i j k v r w (C50_linearizable _ _ _ R) N2 N4).
Qed.
Print Assumptions C50_sees.

(** When no call is running, scans from any key in either direction have each key
    that was inserted, once, in order, with its messages: those of one order of effects
    that explains all returns. *)
Theorem C50_scans : forall n tr s, runs (init n) tr s -> at_rest s ->
  exists m f, aruns (empty, all_idle) tr (m, f) /\
    forall k,
      (exists d es, scan d (pg s) k = Some es /\ StronglySorted lt (map fst es) /\
         forall x v, In (x, v) es <-> k <= x /\ v = m x /\ v <> []) /\
      (exists d es, scan_back d (pg s) k = Some es /\ StronglySorted lt (map fst es) /\
         forall x v, In (x, v) es <-> x < k /\ v = m x /\ v <> []).
Proof. exact rest_scans. Qed.
Print Assumptions C50_scans.

(** No deadlock: while a call is in progress, some call can go on, without a page
    being full. *)
Theorem C51_no_deadlock : forall n tr s i t, runs (init n) tr s -> nth_error (ths s) i = Some t -> t <> Idle ->
  exists j s' l, step s j (Go plain) = Some (s', l).
Proof. exact no_deadlock. Qed.
Print Assumptions C51_no_deadlock.

(** From every state all calls in progress can be brought to their end. *)
Theorem C51_all_end : forall n tr s, runs (init n) tr s -> exists tr' s', goes s tr' s' /\ at_rest s'.
Proof.
  intros n tr s R. destruct (sim_run n tr s R) as (ef & G & B & m & f & C & _ & _).
  eapply all_end; [|apply Nat.le_refl]. exists ef, G, B, m. auto.
Qed.
Print Assumptions C51_all_end.

(** ** A run: the root grows, a leaf is split while a lookup waits for it, an index is
    split and its first pivot lowered. *)
Fixpoint exec (s : state) (l : list (nat * cmd)) : option (state * list event) :=
  match l with
  | [] => Some (s, [])
  | (i, c) :: r => match step s i c with
                   | Some (s', e) => match exec s' r with Some (s'', tr) => Some (s'', seen i e ++ tr) | None => None end
                   | None => None
                   end
  end.
Lemma exec_from : forall l s0 tr0 s, runs s0 tr0 s -> forall s' tr, exec s l = Some (s', tr) -> runs s0 (tr0 ++ tr) s'.
Proof.
  induction l as [|[i c] l IH]; cbn; intros s0 tr0 s R s' tr E.
  - injection E as <- <-. rewrite app_nil_r. auto.
  - destruct (step s i c) as [[s1 e]|] eqn:S; [|discriminate]. destruct (exec s1 l) as [[s2 tr2]|] eqn:E2; [|discriminate].
    injection E as <- <-. rewrite app_assoc. eapply IH; eauto. econstructor; eauto.
Qed.
Lemma exec_runs : forall l n s' tr, exec (init n) l = Some (s', tr) -> runs (init n) tr s'.
Proof. intros l n s' tr E. change tr with ([] ++ tr). eapply exec_from; eauto. constructor. Qed.

Definition go (i n : nat) : list (nat * cmd) := repeat (i, Go plain) n.
Definition ins (i k v : nat) : list (nat * cmd) := [(i, Do (CIns k v))].
Definition full_ (i : nat) : list (nat * cmd) := [(i, Go (Act true 0 false))].
Definition cut_ (i q : nat) (gl : bool) : list (nat * cmd) := [(i, Go (Act true q gl))].

(** Thread 0 inserts 10 and 20 into the root; at 30 the root grows and the leaf is
    split; thread 1, which looks for 10 meanwhile, has come to the leaf and waits. *)
Definition sched1 : list (nat * cmd) :=
  ins 0 10 1 ++ go 0 6 ++ ins 0 20 2 ++ go 0 6 ++
  ins 0 30 3 ++ go 0 4 ++ full_ 0 ++ go 0 3 ++
  full_ 0 ++ go 0 1 ++ cut_ 0 1 false ++ go 0 8 ++
  [(1, Do (CFnd 10))] ++ go 1 2.
(** Both end; 5 lowers the first pivot and the root grows again, and 20 is inserted at
    the same time; 7 splits the index below the root. *)
Definition sched2 : list (nat * cmd) :=
  sched1 ++ go 0 5 ++ go 1 4 ++
  ins 0 5 4 ++ go 0 5 ++ full_ 0 ++ go 0 2 ++ ins 1 20 5 ++ go 1 3 ++ go 0 8 ++ go 1 9 ++
  ins 0 7 6 ++ go 0 4 ++ full_ 0 ++ go 0 5 ++ cut_ 0 1 false ++ go 0 13.

Definition trace2 : list event :=
  [(0, Called (CIns 10 1)); (0, Returned (RIns true)); (0, Called (CIns 20 2)); (0, Returned (RIns true));
   (0, Called (CIns 30 3)); (1, Called (CFnd 10)); (0, Returned (RIns true)); (1, Returned (RFnd [1]));
   (0, Called (CIns 5 4)); (1, Called (CIns 20 5)); (0, Returned (RIns true)); (1, Returned (RIns false));
   (0, Called (CIns 7 6)); (0, Returned (RIns true))].

Lemma exec_view : forall (A : Type) (f : state * list event -> A) l n v,
  option_map f (exec (init n) l) = Some v ->
  exists s tr, runs (init n) tr s /\ f (s, tr) = v.
Proof.
  intros A f l n v E. destruct (exec (init n) l) as [[s tr]|] eqn:X; [|discriminate].
  injection E as E. exists s, tr. split; auto. eapply exec_runs; eauto.
Qed.

(** C51: a state in which one call waits for another. *)
Example cbtree_ex1 : exists tr s, runs (init 2) tr s /\
  ths s = [Ins 30 3 (B14 1 2 1 false [] None); Fnd 10 (F2 0 0)] /\
  step s 1 (Go plain) = None /\
  map (pg s) [0; 1; 2] = [Index 1 [(10, 1); (20, 2)]; Leaf [(10, [1]); (20, [2])] None None; Leaf [] None None].
Proof.
  destruct (exec_view _ (fun st => (ths (fst st), map (pg (fst st)) [0; 1; 2],
               match step (fst st) 1 (Go plain) with None => true | Some _ => false end)) sched1 2
      ([Ins 30 3 (B14 1 2 1 false [] None); Fnd 10 (F2 0 0)],
       [Index 1 [(10, 1); (20, 2)]; Leaf [(10, [1]); (20, [2])] None None; Leaf [] None None], true)
      ltac:(vm_compute; reflexivity)) as (s & tr & R & E).
  cbn [fst] in E. exists tr, s. destruct (step s 1 (Go plain)); [discriminate|].
  injection E as E1 E2. split; [exact R|]. split; [exact E1|]. split; [reflexivity|].
  cbn [map]. congruence.
Qed.

(** C50: a run with concurrent calls, growth and both kinds of split, to its end, and
    the scans of the tree it has made. *)
Example cbtree_ex2 : exists s, runs (init 2) trace2 s /\ at_rest s /\
  map (pg s) [0; 1; 2; 3; 4] =
    [Index 2 [(5, 3); (20, 4)]; Leaf [(5, [4]); (7, [6]); (10, [1])] None (Some 2);
     Leaf [(20, [2; 5]); (30, [3])] (Some 1) None; Index 1 [(5, 1)]; Index 1 [(20, 2)]] /\
  scan 3 (pg s) 7 = Some [(7, [6]); (10, [1]); (20, [2; 5]); (30, [3])] /\
  scan_back 3 (pg s) 25 = Some [(5, [4]); (7, [6]); (10, [1]); (20, [2; 5])].
Proof.
  destruct (exec_view _ (fun st => (snd st, ths (fst st), map (pg (fst st)) [0; 1; 2; 3; 4],
               scan 3 (pg (fst st)) 7, scan_back 3 (pg (fst st)) 25)) sched2 2
      (trace2, [Idle; Idle],
       [Index 2 [(5, 3); (20, 4)]; Leaf [(5, [4]); (7, [6]); (10, [1])] None (Some 2);
        Leaf [(20, [2; 5]); (30, [3])] (Some 1) None; Index 1 [(5, 1)]; Index 1 [(20, 2)]],
       Some [(7, [6]); (10, [1]); (20, [2; 5]); (30, [3])],
       Some [(5, [4]); (7, [6]); (10, [1]); (20, [2; 5])])
      ltac:(vm_compute; reflexivity)) as (s & tr & R & E).
  cbn [fst snd] in E. exists s.
  assert (tr = trace2 /\ ths s = [Idle; Idle] /\ map (pg s) [0; 1; 2; 3; 4] =
    [Index 2 [(5, 3); (20, 4)]; Leaf [(5, [4]); (7, [6]); (10, [1])] None (Some 2);
     Leaf [(20, [2; 5]); (30, [3])] (Some 1) None; Index 1 [(5, 1)]; Index 1 [(20, 2)]] /\
    scan 3 (pg s) 7 = Some [(7, [6]); (10, [1]); (20, [2; 5]); (30, [3])] /\
    scan_back 3 (pg s) 25 = Some [(5, [4]); (7, [6]); (10, [1]); (20, [2; 5])]) as (E1 & E2 & E3 & E4 & E5).
  { repeat match type of E with (_, _) = (_, _) => apply pair_equal_spec in E; destruct E as [E ?] end. auto. }
  subst tr. split; [exact R|]. split; [|auto].
  intros i t Ht. rewrite E2 in Ht. destruct i as [|[|[|i]]]; cbn in Ht; congruence.
Qed.

(** C50_sees: the lookup of 10 in that run, after the insertion of 10. *)
Example cbtree_sees_ex : exists t1 t2 t3 t4 t5,
  trace2 = t1 ++ (0, Called (CIns 10 1)) :: t2 ++ (0, Returned (RIns true)) :: t3 ++
           (1, Called (CFnd 10)) :: t4 ++ (1, Returned (RFnd [1])) :: t5 /\ none_of 0 t2 /\ none_of 1 t4.
Proof.
  exists [], [], [(0, Called (CIns 20 2)); (0, Returned (RIns true)); (0, Called (CIns 30 3))],
    [(0, Returned (RIns true))],
    [(0, Called (CIns 5 4)); (1, Called (CIns 20 5)); (0, Returned (RIns true)); (1, Returned (RIns false));
     (0, Called (CIns 7 6)); (0, Returned (RIns true))].
  split; [reflexivity|]. split; intros e H; cbn in H; intuition (subst; try discriminate); cbn; discriminate.
Qed.

(** The specification is not met by every trace: a lookup that has lost a message, one
    that has a message nobody inserted. *)
Example lost_not_lin : ~ linearizable
  [(0, Called (CIns 10 1)); (0, Returned (RIns true)); (1, Called (CFnd 10)); (1, Returned (RFnd []))].
Proof.
  intros L.
  exact (atomic_sees [] [] [] [] [] 0 1 10 1 _ [] L ltac:(intros e []) ltac:(intros e [])).
Qed.
