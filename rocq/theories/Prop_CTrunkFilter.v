(** C57: only one thread at a time has the claim of the root. *)
From Coq Require Import List Arith Bool Lia.
Import ListNotations.
From Verif Require Import CTrunk CTrunkSpec CTrunkInv CTrunkOps CTrunkProofs CTrunkSteps CTrunkLin CTrunkSees CTrunkFilter Prop_CTrunk.
Local Open Scope nat_scope.

(** Runs; [b]: some step has cleared somebody else's claim. *)
Inductive xruns : xstate -> list event -> bool -> xstate -> Prop :=
| x_stop : forall x, xruns x [] false x
| x_more : forall x tr b y i c z l d,
    xruns x tr b y -> xstep y i c = Some (z, l, d) -> xruns x (tr ++ seen i l) (b || d) z.

(** ** As long as no claim is cleared by a stranger, all is as in C54. *)
Lemma step_claim : forall s i c s' l t t', nth_error (ths s) i = Some t -> step s i c = Some (s', l) ->
  nth_error (ths s') i = Some t' ->
  root_claim t' = match t with P0 _ | I0 _ => true | _ => root_claim t && negb (switches t l) end.
Proof.
  intros s i c s' l t t' Hi E Ht'. unfold step in E. rewrite Hi in E.
  assert (X : forall s1 t1, nth_error (ths (set_ths s1 (put (ths s) i t1))) i = Some t' -> t1 = t').
  { intros s1 t1 H. cbn in H. rewrite (nth_put _ _ _ _ _ Hi), Nat.eqb_refl in H. congruence. }
  destruct c as [c|x].
  - destruct t; try discriminate. destruct (start s c) as [[s1 t1]|] eqn:Es; [|discriminate]. injection E as <- <-.
    apply X in Ht'. subst t'. unfold start in Es. destruct c; try (injection Es as <- <-; reflexivity).
    destruct ((h <=? ht (mem s (root s))) && forallb (fun b => b <? nb s) seg); [|discriminate]. injection Es as <- <-. auto.
  - destruct (go s i t x) as [[[s1 t1] l1]|] eqn:Eg; [|discriminate]. injection E as <- <-. apply X in Ht'. subst t'.
    unfold go, same_st in Eg. destruct t; try (destruct x; discriminate); destruct x; try discriminate;
    repeat match type of Eg with
    | (if ?b then _ else _) = _ => destruct b
    | match ?x with Some _ => _ | None => _ end = _ => destruct x
    end; try discriminate; injection Eg as <- <- <-; reflexivity.
Qed.

Definition claimed (s : state) : Prop := exists i t, nth_error (ths s) i = Some t /\ root_claim t = true.

Lemma no_claim_spec : forall s, ~ claimed s -> no_claim s = true.
Proof.
  intros s N. unfold no_claim. apply forallb_forall. intros t Ht. destruct (root_claim t) eqn:C; auto.
  exfalso. apply In_nth_error in Ht. destruct Ht as (i & Hi). apply N. exists i, t. auto.
Qed.

Lemma xstep_same : forall x i c z l, (cl x = true <-> claimed (base x)) ->
  (forall i j t u, i <> j -> nth_error (ths (base x)) i = Some t -> nth_error (ths (base x)) j = Some u ->
     root_claim t = true -> root_claim u = true -> False) ->
  xstep x i c = Some (z, l, false) -> step (base x) i c = Some (base z, l) /\ (cl z = true <-> claimed (base z)).
Proof.
  intros x i c z l Q U E. unfold xstep in E. destruct (nth_error (ths (base x)) i) as [t|] eqn:Hi; [|discriminate].
  assert (CL : forall t1 s1 l1, step (base x) i c = Some (s1, l1) -> nth_error (ths s1) i = Some t1 ->
            forall j, j <> i -> nth_error (ths s1) j = nth_error (ths (base x)) j).
  { intros t1 s1 l1 Es _ j Z. unfold step in Es. rewrite Hi in Es.
    assert (Y : forall s2 t2, nth_error (ths (set_ths s2 (put (ths (base x)) i t2))) j = nth_error (ths (base x)) j).
    { intros s2 t2. cbn. rewrite (nth_put _ _ _ _ _ Hi). apply Nat.eqb_neq in Z. rewrite Z. auto. }
    destruct c as [c|a].
    - destruct t; try discriminate. destruct (start (base x) c) as [[s2 t2]|]; [|discriminate]. injection Es as <- <-. apply Y.
    - destruct (go (base x) i t a) as [[[s2 t2] l2]|]; [|discriminate]. injection Es as <- <-. apply Y. }
  assert (IN : forall s1 l1, step (base x) i c = Some (s1, l1) -> exists t1, nth_error (ths s1) i = Some t1).
  { intros s1 l1 Es. unfold step in Es. rewrite Hi in Es.
    assert (Y : forall s2 t2, exists t1, nth_error (ths (set_ths s2 (put (ths (base x)) i t2))) i = Some t1).
    { intros s2 t2. cbn. rewrite (nth_put _ _ _ _ _ Hi), Nat.eqb_refl. eauto. }
    destruct c as [c|a].
    - destruct t; try discriminate. destruct (start (base x) c) as [[s2 t2]|]; [|discriminate]. injection Es as <- <-. apply Y.
    - destruct (go (base x) i t a) as [[[s2 t2] l2]|]; [|discriminate]. injection Es as <- <-. apply Y. }
  assert (TAKE : forall t1, (exists o, t = P0 o /\ t1 = P1 o) \/ (exists d, t = I0 d /\ t1 = I1 d) ->
     (if cl x then None else Some (X (set_ths (base x) (put (ths (base x)) i t1)) true, Tau, false)) = Some (z, l, false) ->
     (exists y, c = Go (AGo y)) -> step (base x) i c = Some (base z, l) /\ (cl z = true <-> claimed (base z))).
  { intros t1 T E1 (y & ->). destruct (cl x) eqn:C; [discriminate|].
    assert (NC : no_claim (base x) = true) by (apply no_claim_spec; intros H; apply Q in H; discriminate).
    injection E1 as <- <-. cbn [base cl]. split.
    - unfold step. rewrite Hi. destruct T as [(o & -> & ->)|(d & -> & ->)]; cbn [go]; rewrite NC; reflexivity.
    - split; auto. intros _. exists i, t1. cbn. rewrite (nth_put _ _ _ _ _ Hi), Nat.eqb_refl. split; auto.
      destruct T as [(o & _ & ->)|(d & _ & ->)]; auto. }
  assert (REST : match t with P0 _ | I0 _ => False | _ => True end ->
     match step (base x) i c with
     | Some (s', l0) => Some (X s' (if switches t l0 || discards t l0 then false else cl x), l0, discards t l0 && cl x)
     | None => None end = Some (z, l, false) -> step (base x) i c = Some (base z, l) /\ (cl z = true <-> claimed (base z))).
  { intros NT E1. destruct (step (base x) i c) as [[s1 l1]|] eqn:Es; [|discriminate]. injection E1 as <- <- D. cbn [base cl]. split; auto.
    destruct (IN _ _ eq_refl) as (t1 & H1). pose proof (step_claim _ _ _ _ _ _ _ Hi Es H1) as SC. pose proof (CL _ _ _ eq_refl H1) as OT.
    assert (SC' : root_claim t1 = root_claim t && negb (switches t l1)) by (destruct t; auto; tauto). clear SC.
    destruct (switches t l1) eqn:S; cbn [orb].
    - split; [discriminate|]. intros (j & u & Hu & Cu). exfalso. destruct (Nat.eq_dec j i) as [->|Z].
      + rewrite H1 in Hu. injection Hu as <-. rewrite Cu in SC'. rewrite andb_false_r in SC'. discriminate.
      + rewrite OT in Hu by auto. eapply (U j i); eauto. destruct t; cbn in S; try discriminate; auto.
    - rewrite andb_true_r in SC'.
      assert (CC : (if discards t l1 then false else cl x) = cl x) by (destruct (discards t l1); auto; cbn in D; auto).
      rewrite CC, Q. split; intros (j & u & Hu & Cu); destruct (Nat.eq_dec j i) as [->|Z].
      + exists i, t1. split; auto. rewrite Hi in Hu. injection Hu as <-. congruence.
      + exists j, u. rewrite OT; auto.
      + exists i, t. split; auto. rewrite H1 in Hu. injection Hu as <-. congruence.
      + exists j, u. rewrite OT in Hu; auto. }
  destruct t; try (apply REST; auto; exact Logic.I).
  - destruct c as [c|[y| |]]; try (destruct (step (base x) i _) as [[s1 l1]|] eqn:Es; [|discriminate]; unfold step in Es; rewrite Hi in Es; discriminate).
    eapply TAKE; eauto.
  - destruct c as [c9|[y| |]]; try (destruct (step (base x) i _) as [[s1 l1]|] eqn:Es; [|discriminate]; unfold step in Es; rewrite Hi in Es; discriminate).
    eapply TAKE; eauto.
Qed.

Lemma xruns_same : forall n tr x, xruns (xinit n) tr false x -> runs (init n) tr (base x) /\ (cl x = true <-> claimed (base x)).
Proof.
  intros n tr x R. remember (xinit n) as x0 eqn:E0. remember false as b eqn:Eb. induction R as [y|y tr b z i c w l d R IH St].
  - subst y. split; [constructor|]. split; [discriminate|]. intros (i & t & H & C). apply nth_repeat_some in H. subst t. discriminate.
  - apply orb_false_iff in Eb. destruct Eb as [-> ->]. destruct (IH E0 eq_refl) as [R' Q].
    destruct (runs_ok _ _ _ R') as (ef & m & f & g & V & _).
    destruct (xstep_same _ _ _ _ _ Q (v_claim _ _ _ _ V) St) as [S Q']. split; auto. econstructor; eauto.
Qed.

(** If no claim is cleared by a stranger, no two threads have it, ... *)
Theorem C57_one_claim : forall n tr x i j t u, xruns (xinit n) tr false x -> i <> j ->
  nth_error (ths (base x)) i = Some t -> nth_error (ths (base x)) j = Some u -> root_claim t = true -> root_claim u = false.
Proof.
  intros n tr x i j t u R Z Hi Hj C. destruct (xruns_same _ _ _ R) as [R' _]. destruct (runs_ok _ _ _ R') as (ef & m & f & g & V & _).
  destruct (root_claim u) eqn:D; auto. exfalso. eapply (v_claim _ _ _ _ V i j); eauto.
Qed.
Print Assumptions C57_one_claim.

(** ... and nothing is lost. *)
Theorem C57_linearizable : forall n tr x, xruns (xinit n) tr false x -> no_stale tr -> linearizable tr.
Proof. intros n tr x R. destruct (xruns_same _ _ _ R) as [R' _]. eapply C54_linearizable; eauto. Qed.
Print Assumptions C57_linearizable.

(** Only the filters do it: compactions of branches never clear a stranger's claim, also
    when their leaf has split. *)
Definition merges (t : pc) : option req :=
  match t with
  | P0 o | P1 o | P2 o _ _ | P3 o _ _ | P4 o _ _ _ | K0 o _ _ | K1 o _ _ _ | K2 o _ _ | P6 o _ => Some o
  | _ => None
  end.
Lemma step_seg : forall s i c s' l t, nth_error (ths s) i = Some t -> step s i c = Some (s', l) ->
  exists t', ths s' = put (ths s) i t' /\
    forall o', merges t' = Some o' -> (exists o, merges t = Some o /\ seg o' = seg o) \/ exists k h e, l = Called (CMerge k h e (seg o')).
Proof.
  intros s i c s' l t Hi E. unfold step in E. rewrite Hi in E. destruct c as [c|x].
  - destruct t; try discriminate. destruct (start s c) as [[s1 t1]|] eqn:Es; [|discriminate]. injection E as <- <-.
    exists t1. split; auto. intros o' M. right. unfold start in Es. destruct c; try (injection Es as <- <-; discriminate).
    destruct ((h <=? ht (mem s (root s))) && forallb (fun b => b <? nb s) seg); [|discriminate]. injection Es as <- <-. injection M as <-. cbn. eauto.
  - destruct (go s i t x) as [[[s1 t1] l1]|] eqn:Eg; [|discriminate]. injection E as <- <-. exists t1. split; auto. intros o' M. left.
    unfold go, same_st in Eg. destruct t; try (destruct x; discriminate); destruct x; try discriminate;
    repeat match type of Eg with
    | (if ?b then _ else _) = _ => destruct b
    | match ?x with Some _ => _ | None => _ end = _ => destruct x
    end; try discriminate; injection Eg as <- <- <-; try discriminate; injection M as <-; cbn; eauto.
Qed.
Definition no_filters (tr : list event) : Prop := forall i k h e, ~ In (i, Called (CMerge k h e [])) tr.

(** When a stranger's claim has been cleared, some call that builds filters has returned. *)
Theorem C57_filters_only : forall n tr x, xruns (xinit n) tr true x ->
  exists i k h e tr1 r tr2, tr = tr1 ++ (i, Returned r) :: tr2 /\ In (i, Called (CMerge k h e [])) tr1.
Proof.
  intros n tr x R. remember (xinit n) as x0 eqn:E0. remember true as b eqn:Eb.
  enough (X : (b = true -> exists i k h e tr1 r tr2, tr = tr1 ++ (i, Returned r) :: tr2 /\ In (i, Called (CMerge k h e [])) tr1) /\
    forall i t o, nth_error (ths (base x)) i = Some t -> merges t = Some o -> seg o = [] -> exists k h e, In (i, Called (CMerge k h e [])) tr) by (apply X; auto).
  clear Eb. induction R as [y|y tr b z i c w l d R IH St].
  - subst y. split; [discriminate|]. intros i t o H M. apply nth_repeat_some in H. subst t. discriminate.
  - destruct (IH E0) as [B I]. clear IH.
    assert (B' : b = true -> exists i0 k h e tr1 r tr2, tr ++ seen i l = tr1 ++ (i0, Returned r) :: tr2 /\ In (i0, Called (CMerge k h e [])) tr1).
    { intros Q. destruct (B Q) as (i0 & k & h & e & tr1 & r & tr2 & -> & H). exists i0, k, h, e, tr1, r, (tr2 ++ seen i l). rewrite <- app_assoc. auto. }
    unfold xstep in St. destruct (nth_error (ths (base z)) i) as [t|] eqn:Hi; [|discriminate].
    assert (PUT : forall s1 t1, (forall o, merges t1 = Some o -> seg o = [] -> exists k h e, In (i, Called (CMerge k h e [])) (tr ++ seen i l)) -> ths s1 = put (ths (base z)) i t1 ->
       forall j u o, nth_error (ths s1) j = Some u -> merges u = Some o -> seg o = [] -> exists k h e, In (j, Called (CMerge k h e [])) (tr ++ seen i l)).
    { intros s1 t1 H1 P j u o Hu M So. rewrite P, (nth_put _ _ _ _ _ Hi) in Hu. destruct (Nat.eqb_spec j i) as [->|]; [injection Hu as <-; eauto|].
      destruct (I _ _ _ Hu M So) as (k & h & e & H). exists k, h, e. apply in_or_app. auto. }
    assert (REST : match step (base z) i c with
       | Some (s', l0) => Some (X s' (if switches t l0 || discards t l0 then false else cl z), l0, discards t l0 && cl z)
       | None => None end = Some (w, l, d) ->
       (b || d = true -> exists i0 k h e tr1 r tr2, tr ++ seen i l = tr1 ++ (i0, Returned r) :: tr2 /\ In (i0, Called (CMerge k h e [])) tr1) /\
       forall j u o, nth_error (ths (base w)) j = Some u -> merges u = Some o -> seg o = [] -> exists k h e, In (j, Called (CMerge k h e [])) (tr ++ seen i l)).
    { intros E1. destruct (step (base z) i c) as [[s1 l1]|] eqn:Es; [|discriminate]. injection E1 as <- <- <-. cbn [base]. split.
      - intros Q. apply orb_prop in Q. destruct Q as [Q|Q]; auto. destruct (discards t l1) eqn:Dt; [|discriminate]. destruct t; try discriminate.
        assert (So : seg o = []) by (unfold discards, building in Dt; destruct (seg o); auto; rewrite ?andb_false_r in Dt; discriminate).
        destruct l1 as [|c1|r1|]; try (cbn in Dt; discriminate). destruct (I _ _ _ Hi eq_refl So) as (k & h & e0 & H).
        exists i, k, h, e0, tr, r1, []. auto.
      - destruct (step_seg _ _ _ _ _ _ Hi Es) as (t1 & P & M). eapply PUT; [|exact P]. intros o' Mo So.
        destruct (M o' Mo) as [(o & Mt & Eo)|(k & h & e & ->)].
        + rewrite Eo in So. destruct (I _ _ _ Hi Mt So) as (k & h & e & H). exists k, h, e. apply in_or_app. auto.
        + exists k, h, e. rewrite So. apply in_or_app. right. cbn. auto. }
    destruct t; try (apply REST; exact St).
    + destruct c as [c|[y'| |]]; try (apply REST; exact St). destruct (cl z); [discriminate|]. injection St as <- <- <-.
      split; [rewrite orb_false_r; auto|]. cbn [base].
      eapply (PUT _ (P1 o)); [|reflexivity]. intros o' M So. injection M as <-. destruct (I _ _ _ Hi eq_refl So) as (k & h & e & H). exists k, h, e. apply in_or_app. auto.
    + destruct c as [c9|[y'| |]]; try (apply REST; exact St). destruct (cl z); [discriminate|]. injection St as <- <- <-.
      split; [rewrite orb_false_r; auto|]. cbn [base]. eapply (PUT _ (I1 c0)); [|reflexivity]. intros o' M. discriminate.
Qed.
Print Assumptions C57_filters_only.

Theorem C57_no_filters : forall n tr b x, xruns (xinit n) tr b x -> no_filters tr -> b = false.
Proof.
  intros n tr [] x R F; auto. exfalso. destruct (C57_filters_only _ _ _ R) as (i & k & h & e & tr1 & r & tr2 & -> & H).
  apply (F i k h e), in_or_app. auto.
Qed.
Print Assumptions C57_no_filters.

(** So, without filters, nothing is lost. *)
Theorem C57_linearizable_without_filters : forall n tr b x, xruns (xinit n) tr b x -> no_filters tr -> no_stale tr -> linearizable tr.
Proof. intros n tr b x R F. pose proof (C57_no_filters _ _ _ _ R F) as ->. eapply C57_linearizable; eauto. Qed.
Print Assumptions C57_linearizable_without_filters.

(** ** Runs. *)
Fixpoint xexec (x : xstate) (l : list (nat * cmd)) : option (xstate * list event * bool) :=
  match l with
  | [] => Some (x, [], false)
  | (i, c) :: r => match xstep x i c with
                   | Some (y, e, d) => match xexec y r with
                                       | Some (z, tr, b) => Some (z, seen i e ++ tr, d || b)
                                       | None => None
                                       end
                   | None => None
                   end
  end.
Lemma xexec_from : forall l x0 tr0 b0 x, xruns x0 tr0 b0 x -> forall z tr b, xexec x l = Some (z, tr, b) ->
  xruns x0 (tr0 ++ tr) (b0 || b) z.
Proof.
  induction l as [|[i c] l IH]; cbn [xexec]; intros x0 tr0 b0 x R z tr b E.
  - injection E as <- <- <-. rewrite app_nil_r, orb_false_r. auto.
  - destruct (xstep x i c) as [[[y e] d]|] eqn:S; [|discriminate]. destruct (xexec y l) as [[[w tr2] b2]|] eqn:E2; [|discriminate].
    injection E as <- <- <-. rewrite app_assoc, orb_assoc. eapply IH; eauto. econstructor; eauto.
Qed.

(** A leaf is split while its filters are built (thread 0).  A compaction (thread 1) has the
    claim and has copied the root when thread 0 discards the filters and gives back the
    claim, which is not its own.  An incorporation (thread 2) takes it. *)
Definition sched5 : list (nat * cmd) :=
  inc_ 2 [(5, [7])] ++ [(2, Go (AFlush 2 0 []))] ++ go_ 2 1 ++
  [(0, Do (CMerge 5 0 None []))] ++
  inc_ 2 [(15, [8])] ++ [(2, Go (AFlush 4 0 [10]))] ++ go_ 2 1 ++
  go_ 0 4 ++ [(1, Do (CMerge 15 0 None [2; 0]))] ++ go_ 1 2 ++ go_ 0 1 ++ inc_ 2 [(20, [9])].
(** It switches its root in and returns; then the compaction switches in the copy it made
    before.  A lookup. *)
Definition sched6 : list (nat * cmd) :=
  sched5 ++ go_ 2 1 ++ go_ 1 10 ++ [(0, Do (CGet 20))] ++ go_ 0 6.
Definition trace6 : list event :=
  [(2, Called (CInc [(5, [7])])); (2, Returned RDone); (0, Called (CMerge 5 0 None []));
   (2, Called (CInc [(15, [8])])); (2, Returned RDone); (1, Called (CMerge 15 0 None [2; 0]));
   (0, Returned RDone); (2, Called (CInc [(20, [9])])); (2, Returned RDone); (1, Returned RDone);
   (0, Called (CGet 20)); (0, Returned (RGet []))].

(** C57 is false: two threads between claim and switch, ... *)
Theorem C57_two_claims_refuted : exists tr x t u, xruns (xinit 3) tr true x /\
  nth_error (ths (base x)) 1 = Some t /\ nth_error (ths (base x)) 2 = Some u /\
  root_claim t = true /\ root_claim u = true.
Proof.
  destruct (xexec (xinit 3) sched5) as [[[x tr] b]|] eqn:E; [|vm_compute in E; discriminate].
  assert (V : option_map (fun y => (ths (base (fst (fst y))), snd y)) (xexec (xinit 3) sched5) =
     Some ([Idle; P2 (Rq 15 0 None [2; 0] 3) 9 7; I2 [(20, [9])] 10 [10]], true)) by (vm_compute; reflexivity).
  rewrite E in V. cbn [option_map fst snd] in V. injection V as T ->.
  pose proof (xexec_from _ _ _ _ _ (x_stop _) _ _ _ E) as R. cbn [app orb] in R.
  exists tr, x, (P2 (Rq 15 0 None [2; 0] 3) 9 7), (I2 [(20, [9])] 10 [10]). rewrite T. auto.
Qed.
Print Assumptions C57_two_claims_refuted.

(** ... and a memtable whose incorporation has returned is lost: no table explains what
    the lookup returns. *)
Theorem C57_lost_memtable_refuted : exists x, xruns (xinit 3) trace6 true x /\ no_stale trace6 /\
  ~ linearizable trace6 /\ ths (base x) = [Idle; Idle; Idle].
Proof.
  destruct (xexec (xinit 3) sched6) as [[[x tr] b]|] eqn:E; [|vm_compute in E; discriminate].
  assert (V : option_map (fun y => (ths (base (fst (fst y))), snd (fst y), snd y)) (xexec (xinit 3) sched6) =
     Some ([Idle; Idle; Idle], trace6, true)) by (vm_compute; reflexivity).
  rewrite E in V. cbn [option_map fst snd] in V. injection V as T -> ->.
  pose proof (xexec_from _ _ _ _ _ (x_stop _) _ _ _ E) as R. cbn [app orb] in R.
  exists x. split; [exact R|]. split; [intros i H; cbn in H; intuition discriminate|]. split; [|exact T].
  intros L. exact (atomic_sees (firstn 7 trace6) [] [(1, Returned RDone)] [] [] 2 0 [(20, [9])] 20 9 _ []
    ltac:(cbn; auto) L ltac:(intros e []) ltac:(intros e [])).
Qed.
Print Assumptions C57_lost_memtable_refuted.

(** What [C57_linearizable] is about: filters are discarded while nobody has the claim, and
    a lookup finds all. *)
Definition sched7 : list (nat * cmd) :=
  inc_ 2 [(5, [7])] ++ [(2, Go (AFlush 2 0 []))] ++ go_ 2 1 ++ [(0, Do (CMerge 5 0 None []))] ++
  inc_ 2 [(15, [8])] ++ [(2, Go (AFlush 4 0 [10]))] ++ go_ 2 1 ++ go_ 0 5 ++
  inc_ 2 [(15, [9])] ++ go_ 2 1 ++ [(0, Do (CGet 15))] ++ go_ 0 8.
Definition trace7 : list event :=
  [(2, Called (CInc [(5, [7])])); (2, Returned RDone); (0, Called (CMerge 5 0 None []));
   (2, Called (CInc [(15, [8])])); (2, Returned RDone); (0, Returned RDone);
   (2, Called (CInc [(15, [9])])); (2, Returned RDone); (0, Called (CGet 15)); (0, Returned (RGet [9; 8]))].
Example ctrunk_filter_ex : exists x, xruns (xinit 3) trace7 false x /\ no_stale trace7 /\ ths (base x) = [Idle; Idle; Idle].
Proof.
  destruct (xexec (xinit 3) sched7) as [[[x tr] b]|] eqn:E; [|vm_compute in E; discriminate].
  assert (V : option_map (fun y => (ths (base (fst (fst y))), snd (fst y), snd y)) (xexec (xinit 3) sched7) =
     Some ([Idle; Idle; Idle], trace7, false)) by (vm_compute; reflexivity).
  rewrite E in V. cbn [option_map fst snd] in V. injection V as T -> ->.
  pose proof (xexec_from _ _ _ _ _ (x_stop _) _ _ _ E) as R. cbn [app orb] in R.
  exists x. split; [exact R|]. split; [intros i H; cbn in H; intuition discriminate|exact T].
Qed.

(** What [C57_no_filters] is about: the run of [sched5], with branches to compact in thread
    0.  Its leaf has split; thread 1 keeps the claim, and thread 2 waits for it. *)
Definition sched8 : list (nat * cmd) :=
  inc_ 2 [(5, [7])] ++ [(2, Go (AFlush 2 0 []))] ++ go_ 2 1 ++
  [(0, Do (CMerge 5 0 None [0]))] ++
  inc_ 2 [(15, [8])] ++ [(2, Go (AFlush 4 0 [10]))] ++ go_ 2 1 ++
  go_ 0 4 ++ [(1, Do (CMerge 15 0 None [2; 0]))] ++ go_ 1 2 ++ go_ 0 1 ++ [(2, Do (CInc [(20, [9])]))].
Example ctrunk_no_filters_ex : exists tr x, xruns (xinit 3) tr false x /\ no_filters tr /\ In (0, Returned RDone) tr /\
  nth_error (ths (base x)) 0 = Some Idle /\ cl x = true /\ xstep x 2 (Go (AGo [])) = None.
Proof.
  destruct (xexec (xinit 3) sched8) as [[[x tr] b]|] eqn:E; [|vm_compute in E; discriminate].
  assert (V : option_map (fun y => (nth_error (ths (base (fst (fst y)))) 0, snd (fst y), snd y, cl (fst (fst y)),
       match xstep (fst (fst y)) 2 (Go (AGo [])) with None => true | _ => false end)) (xexec (xinit 3) sched8) =
     Some (Some Idle, [(2, Called (CInc [(5, [7])])); (2, Returned RDone); (0, Called (CMerge 5 0 None [0]));
       (2, Called (CInc [(15, [8])])); (2, Returned RDone); (1, Called (CMerge 15 0 None [2; 0]));
       (0, Returned RDone); (2, Called (CInc [(20, [9])]))], false, true, true)) by (vm_compute; reflexivity).
  rewrite E in V. cbn [option_map fst snd] in V. injection V as T -> -> C N.
  pose proof (xexec_from _ _ _ _ _ (x_stop _) _ _ _ E) as R. cbn [app orb] in R.
  eexists; exists x. split; [exact R|]. split; [intros i k h e H; cbn in H; intuition discriminate|]. split; [cbn; auto 10|].
  split; [exact T|]. split; [exact C|]. destruct (xstep x 2 (Go (AGo []))); [discriminate|reflexivity].
Qed.
