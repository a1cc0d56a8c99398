(** C52, C53: scans of the memtable's tree beside insertions. *)
From Coq Require Import List Arith Bool Lia Sorting.Sorted.
Import ListNotations.
From Verif Require Import CBtree CBtreeSpec CBtreeSees CBtreeLive CScan CScanSpec CScanProofs CScanSees CScanLive.
Local Open Scope nat_scope.

(** Every run of threads and scans: lookups and insertions act at one instant, and a scan
    returns pieces of the table, each as it was at one instant between call and return,
    that follow one another without gap from the lower to the upper bound, or, for a scan
    back, from the upper to the lower bound. *)
Theorem C52_explained : forall n k tr b, bruns (binit n k) tr b -> explained tr.
Proof. intros n k tr b R. destruct (explained_runs _ _ _ _ R) as (m & f & q & _ & H). exists (m, f, q). auto. Qed.
Print Assumptions C52_explained.

(** The keys ascend, those of a scan back descend, and they lie within the bounds. *)
Theorem C52_ordered : forall n k b t1 t4 j d lo hi es,
  bruns (binit n k) (t1 ++ ES j (SCall d lo hi) :: t4 ++ [ES j (SRet es)]) b -> none_by j t4 ->
  StronglySorted (match d with Fwd => lt | Bwd => gt end) (map fst es) /\
  forall x w, In (x, w) es -> lo <= x /\ match hi with Some h => x < h | None => True end.
Proof. intros n k b t1 t4 j d lo hi es R. apply (scan_ordered t1). eapply C52_explained; eauto. Qed.
Print Assumptions C52_ordered.

(** What was inserted before the scan began is in it, whatever splits go on. *)
Theorem C52_sees : forall n k b t1 t2 t3 t4 i j x v r d lo hi es,
  bruns (binit n k) (t1 ++ ET i (Called (CIns x v)) :: t2 ++ ET i (Returned r) :: t3 ++
                     ES j (SCall d lo hi) :: t4 ++ [ES j (SRet es)]) b ->
  (forall l, ~ In (ET i l) t2) -> none_by j t4 ->
  lo <= x -> match hi with Some h => x < h | None => True end ->
  exists w, In (x, w) es /\ In v w.
Proof. intros n k b t1 t2 t3 t4 i j x v r d lo hi es R. apply (scan_sees t1 t2 t3 t4 i j x v r d). eapply C52_explained; eauto. Qed.
Print Assumptions C52_sees.

(** What is in it somebody had begun to insert. *)
Theorem C52_only : forall n k b t1 t4 j d lo hi es x w v,
  bruns (binit n k) (t1 ++ ES j (SCall d lo hi) :: t4 ++ [ES j (SRet es)]) b -> none_by j t4 ->
  In (x, w) es -> In v w -> exists i, In (ET i (Called (CIns x v))) (t1 ++ t4).
Proof. intros n k b t1 t4 j d lo hi es x w v R. apply (scan_only t1 t4 j d lo hi). eapply C52_explained; eauto. Qed.
Print Assumptions C52_only.

(** While a call or a scan is in progress, one of them can go on. *)
Theorem C53_no_deadlock : forall n k tr b, bruns (binit n k) tr b ->
  (exists i t, nth_error (ths (base b)) i = Some t /\ t <> Idle) \/ (exists j sc, nth_error (scs b) j = Some sc /\ sc <> Off) ->
  (exists i b' e, bstep b (BT i (Go plain)) = Some (b', e)) \/ (exists j b' e, bstep b (BG j false) = Some (b', e)).
Proof. exact scan_no_deadlock. Qed.
Print Assumptions C53_no_deadlock.

(** ** A run. *)
Fixpoint bexec (b : both) (l : list bcmd) : option (both * list ev) :=
  match l with
  | [] => Some (b, [])
  | c :: r => match bstep b c with
              | Some (b', e) => match bexec b' r with Some (b'', tr) => Some (b'', shown e ++ tr) | None => None end
              | None => None
              end
  end.
Lemma bexec_from : forall l b0 tr0 b, bruns b0 tr0 b -> forall b' tr, bexec b l = Some (b', tr) -> bruns b0 (tr0 ++ tr) b'.
Proof.
  induction l as [|c l IH]; cbn; intros b0 tr0 b R b' tr E.
  - injection E as <- <-. rewrite app_nil_r. auto.
  - destruct (bstep b c) as [[b1 e]|] eqn:S; [|discriminate]. destruct (bexec b1 l) as [[b2 tr2]|] eqn:E2; [|discriminate].
    injection E as <- <-. rewrite app_assoc. eapply IH; eauto. econstructor; eauto.
Qed.
Lemma bexec_view : forall (A : Type) (f : both * list ev -> A) l n k v,
  option_map f (bexec (binit n k) l) = Some v -> exists b tr, bruns (binit n k) tr b /\ f (b, tr) = v.
Proof.
  intros A f l n k v E. destruct (bexec (binit n k) l) as [[b tr]|] eqn:X; [|discriminate].
  injection E as E. exists b, tr. split; auto. change tr with ([] ++ tr). eapply bexec_from; eauto. constructor.
Qed.

Definition go (i n : nat) : list bcmd := repeat (BT i (Go plain)) n.
Definition ins (i k v : nat) : list bcmd := [BT i (Do (CIns k v))].
Definition cut_ (i q : nat) (gl : bool) : list bcmd := [BT i (Go (Act true q gl))].
Definition sgo (j n : nat) : list bcmd := repeat (BG j false) n.

(** Two leaves, 10 and 20, 30; the scan has read the first; 5 and 25 are inserted; the scan
    finds the end leaf changed, looks for the end again and goes on. *)
Definition sched_a : list bcmd :=
  ins 0 10 1 ++ go 0 6 ++ ins 0 20 2 ++ go 0 6 ++ ins 0 30 3 ++ go 0 4 ++ cut_ 0 0 false ++ go 0 3 ++
  cut_ 0 0 false ++ go 0 1 ++ cut_ 0 1 false ++ go 0 13 ++
  [BQ 0 Fwd 0 None] ++ sgo 0 13 ++ ins 0 5 5 ++ go 0 14 ++ ins 0 25 4 ++ go 0 10.
Definition trace_a : list ev :=
  [ET 0 (Called (CIns 10 1)); ET 0 (Returned (RIns true)); ET 0 (Called (CIns 20 2)); ET 0 (Returned (RIns true));
   ET 0 (Called (CIns 30 3)); ET 0 (Returned (RIns true)); ES 0 (SCall Fwd 0 None);
   ET 0 (Called (CIns 5 5)); ET 0 (Returned (RIns true)); ET 0 (Called (CIns 25 4)); ET 0 (Returned (RIns true));
   ES 0 (SRet [(10, [1]); (20, [2]); (25, [4]); (30, [3])])].

Example cscan_ex : exists b, bruns (binit 1 1) trace_a b /\
  map (pg (base b)) [0; 1; 2] =
    [Index 1 [(5, 1); (20, 2)]; Leaf [(5, [5]); (10, [1])] None (Some 2); Leaf [(20, [2]); (25, [4]); (30, [3])] (Some 1) None].
Proof.
  destruct (bexec_view _ (fun bt => (snd bt, map (pg (base (fst bt))) [0; 1; 2])) (sched_a ++ sgo 0 11) 1 1
      (trace_a, [Index 1 [(5, 1); (20, 2)]; Leaf [(5, [5]); (10, [1])] None (Some 2);
                 Leaf [(20, [2]); (25, [4]); (30, [3])] (Some 1) None])
      ltac:(vm_compute; reflexivity)) as (b & tr & R & E).
  cbn [fst snd] in E. apply pair_equal_spec in E. destruct E as [<- E]. exists b. auto.
Qed.

(** Its scan in the terms of [C52_ordered], [C52_sees] and [C52_only]. *)
Example cscan_trace : exists t1 t2 t3 t4,
  trace_a = t1 ++ ET 0 (Called (CIns 20 2)) :: t2 ++ ET 0 (Returned (RIns true)) :: t3 ++
            ES 0 (SCall Fwd 0 None) :: t4 ++ [ES 0 (SRet [(10, [1]); (20, [2]); (25, [4]); (30, [3])])] /\
  (forall l, ~ In (ET 0 l) t2) /\ none_by 0 t4 /\ In (ET 0 (Called (CIns 25 4))) t4.
Proof.
  exists [ET 0 (Called (CIns 10 1)); ET 0 (Returned (RIns true))], [],
    [ET 0 (Called (CIns 30 3)); ET 0 (Returned (RIns true))],
    [ET 0 (Called (CIns 5 5)); ET 0 (Returned (RIns true)); ET 0 (Called (CIns 25 4)); ET 0 (Returned (RIns true))].
  split; [reflexivity|]. split; [intros l []|]. split; [|cbn; auto].
  intros l H. cbn in H. intuition discriminate.
Qed.

(** A scan is not a view of one instant: 25 was inserted after 5, and the scan has 25 but
    not 5. *)
Theorem C52_not_one_instant : exists b t1 t2 t3 t4 es,
  bruns (binit 1 1) (t1 ++ ES 0 (SCall Fwd 0 None) :: t2 ++ ET 0 (Called (CIns 5 5)) :: ET 0 (Returned (RIns true)) ::
    t3 ++ ET 0 (Called (CIns 25 4)) :: t4 ++ [ES 0 (SRet es)]) b /\
  In (25, [4]) es /\ forall w, ~ In (5, w) es.
Proof.
  destruct cscan_ex as (b & R & _).
  exists b, [ET 0 (Called (CIns 10 1)); ET 0 (Returned (RIns true)); ET 0 (Called (CIns 20 2)); ET 0 (Returned (RIns true));
             ET 0 (Called (CIns 30 3)); ET 0 (Returned (RIns true))], [], [], [ET 0 (Returned (RIns true))],
    [(10, [1]); (20, [2]); (25, [4]); (30, [3])].
  split; [exact R|]. split; [cbn; auto|]. intros w H. cbn in H. intuition discriminate.
Qed.
Print Assumptions C52_not_one_instant.

(** The specification is not met by every trace: a scan that has lost an entry, and one
    that has an entry nobody inserted. *)
Example lost_not_explained : ~ explained
  [ET 0 (Called (CIns 10 1)); ET 0 (Returned (RIns true)); ES 0 (SCall Fwd 0 None); ES 0 (SRet [])].
Proof.
  intros H. destruct (scan_sees [] [] [] [] 0 0 10 1 (RIns true) Fwd 0 None [] H) as (w & [] & _); auto; try lia; intros l [].
Qed.
Example made_up_not_explained : ~ explained [ES 0 (SCall Fwd 0 None); ES 0 (SRet [(10, [1])])].
Proof.
  intros H. destruct (scan_only [] [] 0 Fwd 0 None [(10, [1])] 10 [1] 1 H) as (i & []); cbn; auto; intros l [].
Qed.

(** C53: the scan has claimed the first leaf, where thread 0's claim was refused, and waits
    for the second, which thread 1 has locked. *)
Definition sched_w : list bcmd :=
  ins 0 10 1 ++ go 0 6 ++ ins 0 20 2 ++ go 0 6 ++ ins 0 30 3 ++ go 0 4 ++ cut_ 0 0 false ++ go 0 3 ++
  cut_ 0 0 false ++ go 0 1 ++ cut_ 0 1 false ++ go 0 13 ++
  [BQ 0 Fwd 0 None] ++ sgo 0 8 ++ ins 1 25 4 ++ go 1 8 ++ ins 0 12 5 ++ go 0 6.
Example cscan_wait : exists tr b, bruns (binit 2 1) tr b /\
  ths (base b) = [Ins 12 5 I0; Ins 25 4 (L3 2 [])] /\
  scs b = [On Fwd 0 None [] (E2 (Init 1) 0 1)] /\
  bstep b (BG 0 false) = None.
Proof.
  destruct (bexec_view _ (fun bt => (ths (base (fst bt)), scs (fst bt), match bstep (fst bt) (BG 0 false) with None => true | _ => false end)) sched_w 2 1
      ([Ins 12 5 I0; Ins 25 4 (L3 2 [])], [On Fwd 0 None [] (E2 (Init 1) 0 1)], true)
      ltac:(vm_compute; reflexivity)) as (b & tr & R & E).
  cbn [fst] in E. exists tr, b. destruct (bstep b (BG 0 false)); [discriminate|].
  apply pair_equal_spec in E. destruct E as [E _]. apply pair_equal_spec in E. destruct E as [E1 E2]. auto.
Qed.

(** A scan back to 11: it has read 30 and 20 and released their leaf; the leaf before, 10
    and 15, is split by the insertion of 12; the scan comes to its left half, walks forward
    to the right half, reads 15 and 12, and ends in the left half. *)
Definition sched_b : list bcmd :=
  ins 0 10 1 ++ go 0 6 ++ ins 0 20 2 ++ go 0 6 ++ ins 0 30 3 ++ go 0 4 ++ cut_ 0 0 false ++ go 0 3 ++
  cut_ 0 0 false ++ go 0 1 ++ cut_ 0 1 false ++ go 0 13 ++ ins 0 15 4 ++ go 0 10 ++
  [BQ 0 Bwd 11 None] ++ sgo 0 13 ++ ins 0 12 5 ++ go 0 4 ++ cut_ 0 0 false ++ go 0 1 ++ cut_ 0 1 false ++ go 0 16.
Definition trace_b : list ev :=
  [ET 0 (Called (CIns 10 1)); ET 0 (Returned (RIns true)); ET 0 (Called (CIns 20 2)); ET 0 (Returned (RIns true));
   ET 0 (Called (CIns 30 3)); ET 0 (Returned (RIns true)); ET 0 (Called (CIns 15 4)); ET 0 (Returned (RIns true));
   ES 0 (SCall Bwd 11 None); ET 0 (Called (CIns 12 5)); ET 0 (Returned (RIns true));
   ES 0 (SRet [(30, [3]); (20, [2]); (15, [4]); (12, [5])])].
Example cscan_back : exists b, bruns (binit 1 1) trace_b b /\
  map (pg (base b)) [0; 1; 2; 3] =
    [Index 1 [(10, 1); (12, 3); (20, 2)]; Leaf [(10, [1])] None (Some 3); Leaf [(20, [2]); (30, [3])] (Some 3) None;
     Leaf [(12, [5]); (15, [4])] (Some 1) (Some 2)].
Proof.
  destruct (bexec_view _ (fun bt => (snd bt, map (pg (base (fst bt))) [0; 1; 2; 3])) (sched_b ++ sgo 0 9) 1 1
      (trace_b, [Index 1 [(10, 1); (12, 3); (20, 2)]; Leaf [(10, [1])] None (Some 3); Leaf [(20, [2]); (30, [3])] (Some 3) None;
                 Leaf [(12, [5]); (15, [4])] (Some 1) (Some 2)])
      ltac:(vm_compute; reflexivity)) as (b & tr & R & E).
  cbn [fst snd] in E. apply pair_equal_spec in E. destruct E as [<- E]. exists b. auto.
Qed.
(** On the way it is at the left half, and the next leaf is not the one it came from. *)
Example cscan_back_walks : exists tr b e, bruns (binit 1 1) tr b /\
  scs b = [On Bwd 11 None [(30, [3]); (20, [2])] (BW 1 2 e)] /\ nextp (pg (base b) 1) = Some 3.
Proof.
  destruct (bexec_view _ (fun bt => (scs (fst bt), nextp (pg (base (fst bt)) 1))) (sched_b ++ sgo 0 1) 1 1
      ([On Bwd 11 None [(30, [3]); (20, [2])] (BW 1 2 (Snap 2 [(20, [2]); (30, [3])] None 2))], Some 3)
      ltac:(vm_compute; reflexivity)) as (b & tr & R & E).
  cbn [fst snd] in E. apply pair_equal_spec in E. destruct E as [E1 E2]. exists tr, b. eauto.
Qed.
(** A scan back that skipped the right half of the split leaf would not be explained. *)
Example skipped_not_explained : ~ explained
  [ET 0 (Called (CIns 15 4)); ET 0 (Returned (RIns true)); ES 0 (SCall Bwd 11 None); ES 0 (SRet [(30, [3]); (20, [2])])].
Proof.
  intros H. destruct (scan_sees [] [] [] [] 0 0 15 4 (RIns true) Bwd 11 None [(30, [3]); (20, [2])] H) as (w & [X|[X|[]]] & _);
    try discriminate; auto; try lia; intros l [].
Qed.
Example order_not_explained : forall t4 y, none_by 0 t4 ->
  ~ spec_runs start ([] ++ ES 0 (SCall Bwd 0 None) :: t4 ++ [ES 0 (SRet [(10, [1]); (20, [2])])]) y.
Proof.
  intros t4 y N R. destruct (scan_ordered [] t4 0 Bwd 0 None [(10, [1]); (20, [2])] (ex_intro _ y R) N) as [S _].
  inversion S as [|a l _ F]; subst. inversion F as [|? ? X _]; subst. lia.
Qed.
