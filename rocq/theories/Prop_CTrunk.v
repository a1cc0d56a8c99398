(** C54, C55, C56: the trunk used by many threads at once. *)
From Coq Require Import List Arith Bool Lia.
Import ListNotations.
From Verif Require Import CTrunk CTrunkSpec CTrunkSees CTrunkLin CTrunkLive CTrunkEnd.
Local Open Scope nat_scope.

(** Every run in which no lookup reads space that was given up: the calls and returns are
    those of calls that act on a table at one instant between call and return;
    compactions do nothing to it. *)
Theorem C54_linearizable : forall n tr s, runs (init n) tr s -> no_stale tr -> linearizable tr.
Proof. exact trunk_linearizable. Qed.
Print Assumptions C54_linearizable.

(** Every run whatever: the same, but that nothing is said of the answers of those
    lookups that do read such space. *)
Theorem C54_but_stale : forall n tr s, runs (init n) tr s -> linearizable_but_stale tr.
Proof. exact trunk_linearizable_but_stale. Qed.
Print Assumptions C54_but_stale.

(** So a lookup that starts after an incorporation has returned has its messages, ... *)
Theorem C54_sees : forall n s t1 t2 t3 t4 t5 i j c k v r w,
  runs (init n) (t1 ++ (i, Called (CInc c)) :: t2 ++ (i, Returned r) :: t3 ++
                 (j, Called (CGet k)) :: t4 ++ (j, Returned (RGet w)) :: t5) s ->
  no_stale (t1 ++ (i, Called (CInc c)) :: t2 ++ (i, Returned r) :: t3 ++
                 (j, Called (CGet k)) :: t4 ++ (j, Returned (RGet w)) :: t5) ->
  none_of i t2 -> none_of j t4 -> In v (msgs c k) -> In v w.
Proof.
  intros n s t1 t2 t3 t4 t5 i j c k v r w R NS N2 N4 V.
  exact (atomic_sees t1 t2 t3 t4 t5 i j c k v r w V (C54_linearizable _ _ _ R NS) N2 N4).
Qed.
Print Assumptions C54_sees.

(** ... and a lookup has only messages that were given to an incorporation for its key. *)
Theorem C54_only_given : forall n s tr i w v, runs (init n) tr s -> no_stale tr ->
  In (i, Returned (RGet w)) tr -> In v w ->
  exists k j c, In (i, Called (CGet k)) tr /\ In (j, Called (CInc c)) tr /\ In v (msgs c k).
Proof.
  intros n s tr i w v R NS H V. destruct (returned_given _ _ _ _ (C54_linearizable _ _ _ R NS) H V) as (k & A & j & c & B & D).
  exists k, j, c. auto.
Qed.
Print Assumptions C54_only_given.

(** No assertion on the way fails (1334, 2858; a key without a pivot). *)
Theorem C54_no_assertion_fails : forall n tr s, runs (init n) tr s -> ~ In Bad (ths s).
Proof. exact trunk_no_bad. Qed.
Print Assumptions C54_no_assertion_fails.

(** While a call is in progress, some call can go on, without a flush or a split. *)
Theorem C56_no_deadlock : forall n tr s i t, runs (init n) tr s -> nth_error (ths s) i = Some t -> t <> Idle ->
  exists j s' l, step s j (Go (AGo [])) = Some (s', l).
Proof. exact trunk_no_deadlock. Qed.
Print Assumptions C56_no_deadlock.

(** Without new calls, flushes and splits no run goes on for ever, whatever the schedule, ... *)
Theorem C56_no_livelock : forall n tr (f : nat -> state), runs (init n) tr (f 0) ->
  ~ (forall m, exists i z l, step (f m) i (Go (AGo z)) = Some (f (S m), l)).
Proof. intros n tr f R. exact (acc_finite _ (trunk_ends _ _ _ R) f eq_refl). Qed.
Print Assumptions C56_no_livelock.

(** ... and all calls in progress can be brought to their end. *)
Theorem C56_all_end : forall n tr s, runs (init n) tr s ->
  exists tr' s', runs s tr' s' /\ (forall t, In t (ths s') -> t = Idle) /\ (forall i c, ~ In (i, Called c) tr').
Proof. exact trunk_all_end. Qed.
Print Assumptions C56_all_end.

(** ** Runs. *)
Fixpoint exec (s : state) (l : list (nat * cmd)) : option (state * list event) :=
  match l with
  | [] => Some (s, [])
  | (i, c) :: r => match step s i c with
                   | Some (s', e) => match exec s' r with Some (s'', tr) => Some (s'', seen i e ++ tr) | None => None end
                   | None => None
                   end
  end.
Lemma exec_from : forall l s0 tr0 s, runs s0 tr0 s -> forall s' tr, exec s l = Some (s', tr) -> runs s0 (tr0 ++ tr) s'.
Proof.
  induction l as [|[i c] l IH]; cbn [exec]; intros s0 tr0 s R s' tr E.
  - injection E as <- <-. rewrite app_nil_r. auto.
  - destruct (step s i c) as [[s1 e]|] eqn:S; [|discriminate]. destruct (exec s1 l) as [[s2 tr2]|] eqn:E2; [|discriminate].
    injection E as <- <-. rewrite app_assoc. eapply IH; eauto. econstructor; eauto.
Qed.
Lemma exec_view : forall (A : Type) (f : state * list event -> A) l n v,
  option_map f (exec (init n) l) = Some v ->
  exists s tr, runs (init n) tr s /\ f (s, tr) = v.
Proof.
  intros A f l n v E. destruct (exec (init n) l) as [[s tr]|] eqn:X; [|discriminate].
  injection E as E. exists s, tr. split; auto. change tr with ([] ++ tr). eapply exec_from; eauto. constructor.
Qed.

Definition go_ (i n : nat) : list (nat * cmd) := repeat (i, Go (AGo [])) n.
Definition inc_ (i : nat) (c : list (nat * list nat)) : list (nat * cmd) := (i, Do (CInc c)) :: go_ i 2.

(** Two incorporations; in the first a leaf is split, in the second the root, and a leaf
    gets the branches above it.  A lookup has come to the root when a compaction of that
    leaf begins; the compaction has put its branch in and waits for the lookup. *)
Definition sched1 : list (nat * cmd) :=
  inc_ 0 [(5, [7]); (20, [1])] ++ [(0, Go (AFlush 2 0 [10]))] ++ go_ 0 1 ++
  inc_ 0 [(5, [8]); (30, [2])] ++ [(0, Go (ARoot [1])); (0, Go (AFlush 6 0 []))] ++ go_ 0 1 ++
  [(1, Do (CGet 5))] ++ go_ 1 2 ++ [(2, Do (CMerge 5 0 (Some 10) [1; 0]))] ++ go_ 2 8.
(** Both end; lookups on the new branch and elsewhere. *)
Definition sched2 : list (nat * cmd) :=
  sched1 ++ go_ 1 7 ++ go_ 2 7 ++ [(1, Do (CGet 5))] ++ go_ 1 8 ++ [(0, Do (CGet 30))] ++ go_ 0 9.
Definition trace2 : list event :=
  [(0, Called (CInc [(5, [7]); (20, [1])])); (0, Returned RDone);
   (0, Called (CInc [(5, [8]); (30, [2])])); (0, Returned RDone);
   (1, Called (CGet 5)); (2, Called (CMerge 5 0 (Some 10) [1; 0]));
   (1, Returned (RGet [8; 7])); (2, Returned RDone);
   (1, Called (CGet 5)); (1, Returned (RGet [8; 7]));
   (0, Called (CGet 30)); (0, Returned (RGet [2]))].

(** C56: a call waits, and another can go on. *)
Example ctrunk_ex1 : exists tr s, runs (init 3) tr s /\
  ths s = [Idle; G2 5 8 0 []; K1 (Rq 5 0 (Some 10) [1; 0] 2) 12 None 8] /\
  step s 2 (Go (AGo [])) = None /\ root s = 10 /\
  map (mem s) [8; 6; 9; 10; 11; 12] =
    [Nd 2 [Pv 0 6 []; Pv 10 7 []] None; Nd 1 [Pv 0 9 []] (Some 10); Nd 0 [Pv 0 0 [1; 0]] (Some 10);
     Nd 2 [Pv 0 11 []; Pv 10 7 []] None; Nd 1 [Pv 0 12 []] (Some 10); Nd 0 [Pv 0 0 [2]] (Some 10)].
Proof.
  destruct (exec_view _ (fun st => (ths (fst st), root (fst st), map (mem (fst st)) [8; 6; 9; 10; 11; 12],
               match step (fst st) 2 (Go (AGo [])) with None => true | Some _ => false end)) sched1 3
      ([Idle; G2 5 8 0 []; K1 (Rq 5 0 (Some 10) [1; 0] 2) 12 None 8], 10,
       [Nd 2 [Pv 0 6 []; Pv 10 7 []] None; Nd 1 [Pv 0 9 []] (Some 10); Nd 0 [Pv 0 0 [1; 0]] (Some 10);
        Nd 2 [Pv 0 11 []; Pv 10 7 []] None; Nd 1 [Pv 0 12 []] (Some 10); Nd 0 [Pv 0 0 [2]] (Some 10)], true)
      ltac:(vm_compute; reflexivity)) as (s & tr & R & E).
  cbn [fst] in E. exists tr, s. destruct (step s 2 (Go (AGo []))); [apply pair_equal_spec in E; destruct E; discriminate|].
  repeat match type of E with (_, _) = (_, _) => apply pair_equal_spec in E; destruct E as [E ?] end. auto.
Qed.

(** The same run to its end, which [C54_linearizable] and [C54_sees] are about. *)
Example ctrunk_ex2 : exists s, runs (init 3) trace2 s /\ no_stale trace2 /\ ths s = [Idle; Idle; Idle].
Proof.
  destruct (exec_view _ (fun st => (snd st, ths (fst st))) sched2 3 (trace2, [Idle; Idle; Idle])
      ltac:(vm_compute; reflexivity)) as (s & tr & R & E).
  cbn [fst snd] in E. injection E as -> E. exists s. split; [exact R|]. split; [|exact E].
  intros i H. cbn in H. intuition discriminate.
Qed.
Example ctrunk_sees_ex : exists t1 t2 t3 t4 t5,
  trace2 = t1 ++ (0, Called (CInc [(5, [8]); (30, [2])])) :: t2 ++ (0, Returned RDone) :: t3 ++
           (1, Called (CGet 5)) :: t4 ++ (1, Returned (RGet [8; 7])) :: t5 /\ none_of 0 t2 /\ none_of 1 t4 /\
  In 8 (msgs [(5, [8]); (30, [2])] 5).
Proof.
  exists (firstn 2 trace2), [], [], [(2, Called (CMerge 5 0 (Some 10) [1; 0]))], (skipn 7 trace2).
  split; [reflexivity|]. split; [intros e []|]. split; [|cbn; auto].
  intros e H; cbn in H; intuition (subst; try discriminate); cbn; discriminate.
Qed.

(** The specification is not met by every trace: a lookup that has lost a message, one
    that has a message nobody gave. *)
Example ctrunk_lost : ~ linearizable
  [(0, Called (CInc [(5, [7])])); (0, Returned RDone); (1, Called (CGet 5)); (1, Returned (RGet []))].
Proof.
  intros L. exact (atomic_sees [] [] [] [] [] 0 1 [(5, [7])] 5 7 _ [] ltac:(cbn; auto) L ltac:(intros e []) ltac:(intros e [])).
Qed.
Example ctrunk_invented : ~ linearizable
  [(0, Called (CInc [(5, [7])])); (1, Called (CGet 5)); (1, Returned (RGet [9]))].
Proof.
  intros L. destruct (returned_given _ 1 [9] 9 L ltac:(cbn; auto) ltac:(cbn; auto)) as (k & A & j & c & B & D).
  cbn in B. destruct B as [[= _ <-]|[[= ]|[[= ]|[]]]]. cbn in A. destruct A as [[= ]|[[= <-]|[[= ]|[]]]]. cbn in D. intuition discriminate.
Qed.

(** ** C55 is false: a lookup has the root of before the last incorporation.  A compaction
    that began after it has the root of after it as its old root, waits there and below
    for readers, and gives up the branches of a leaf both roots lead to.  The lookup,
    which has not yet come to the leaf, then reads them. *)
Definition sched3 (junk : list nat) : list (nat * cmd) :=
  inc_ 1 [(5, [7])] ++ [(1, Go (AFlush 2 0 []))] ++ go_ 1 1 ++
  [(0, Do (CGet 5))] ++ go_ 0 2 ++ inc_ 1 [(6, [8])] ++ go_ 1 1 ++
  [(2, Do (CMerge 5 0 None [0]))] ++ go_ 2 12 ++ go_ 0 2 ++ [(0, Go (AGo junk))] ++ go_ 0 1.
Definition trace3 (junk : list nat) : list event :=
  [(1, Called (CInc [(5, [7])])); (1, Returned RDone); (0, Called (CGet 5));
   (1, Called (CInc [(6, [8])])); (1, Returned RDone);
   (2, Called (CMerge 5 0 None [0])); (2, Returned RDone); (0, Stale); (0, Returned (RGet junk))].

(** Whatever is in the space by then, the lookup returns. *)
Theorem C55_reads_given_up_space_refuted : forall junk, exists s,
  runs (init 3) (trace3 junk) s /\ ~ no_stale (trace3 junk) /\ ths s = [Idle; Idle; Idle].
Proof.
  intros junk.
  destruct (exec_view _ (fun st => (snd st, ths (fst st))) (sched3 junk) 3 (trace3 junk, [Idle; Idle; Idle])
      ltac:(vm_compute; reflexivity)) as (s & tr & R & E).
  cbn [fst snd] in E. apply pair_equal_spec in E. destruct E as [E1 E2]. subst tr. exists s. split; [exact R|]. split; [|exact E2].
  intros N. apply (N 0). cbn. auto 10.
Qed.
Print Assumptions C55_reads_given_up_space_refuted.

(** ... a message nobody ever gave, for instance: no table explains the returns. *)
Theorem C55_wrong_answer_refuted : exists tr s, runs (init 3) tr s /\
  ~ linearizable (filter (fun e => match snd e with Stale => false | _ => true end) tr).
Proof.
  destruct (C55_reads_given_up_space_refuted [9]) as (s & R & _). exists (trace3 [9]), s. split; [exact R|].
  intros L. destruct (returned_given _ 0 [9] 9 L ltac:(cbn; auto 10) ltac:(cbn; auto)) as (k & _ & j & c & B & D).
  cbn [trace3 filter snd In] in B.
  repeat match type of B with _ \/ _ => destruct B as [B|B]; [try discriminate B|] | False => destruct B end;
    injection B as _ <-; cbn in D; destruct k as [|[|[|[|[|[|[|k]]]]]]]; cbn in D; intuition discriminate.
Qed.
Print Assumptions C55_wrong_answer_refuted.

(** No incorporation is needed: a compaction elsewhere has switched the root and waits for
    the lookup at the old one; a second compaction, whose old root is that of the first,
    does not meet the lookup. *)
Definition sched4 (junk : list nat) : list (nat * cmd) :=
  inc_ 1 [(5, [7]); (15, [8])] ++ [(1, Go (AFlush 2 0 [10]))] ++ go_ 1 1 ++
  [(0, Do (CGet 15))] ++ go_ 0 2 ++ [(1, Do (CMerge 5 0 (Some 10) [0]))] ++ go_ 1 7 ++
  [(2, Do (CMerge 15 0 None [0]))] ++ go_ 2 12 ++ go_ 0 2 ++ [(0, Go (AGo junk))] ++ go_ 0 1 ++ go_ 1 5.
Definition trace4 (junk : list nat) : list event :=
  [(1, Called (CInc [(5, [7]); (15, [8])])); (1, Returned RDone); (0, Called (CGet 15));
   (1, Called (CMerge 5 0 (Some 10) [0])); (2, Called (CMerge 15 0 None [0])); (2, Returned RDone);
   (0, Stale); (0, Returned (RGet junk)); (1, Returned RDone)].
Theorem C55_two_compactions_refuted : forall junk, exists s,
  runs (init 3) (trace4 junk) s /\ ~ no_stale (trace4 junk) /\ ths s = [Idle; Idle; Idle].
Proof.
  intros junk.
  destruct (exec_view _ (fun st => (snd st, ths (fst st))) (sched4 junk) 3 (trace4 junk, [Idle; Idle; Idle])
      ltac:(vm_compute; reflexivity)) as (s & tr & R & E).
  cbn [fst snd] in E. apply pair_equal_spec in E. destruct E as [E1 E2]. subst tr. exists s. split; [exact R|]. split; [|exact E2].
  intros N. apply (N 0). cbn. auto 10.
Qed.
Print Assumptions C55_two_compactions_refuted.
