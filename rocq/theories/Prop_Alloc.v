(** * C23: extents are never handed out twice

    All interleavings of any number of threads that allocate, take and drop
    references, starting from the reference counts found on disk. *)

From Coq Require Import List NArith ZArith Arith Bool Lia.
From Verif Require Import Count Alloc AllocProofs.
Import ListNotations.

(** Executions: threads below [T], extent numbers below [n] (the callers pass
    addresses they got from the allocator). *)
Definition al_reach (n T : nat) (disk : nat -> N) (s : al) : Prop :=
  (forall e, (disk e < 256)%N) /\
  exists sched, asched_ok n T sched /\ al_run n (al_mount n disk) sched = ANext s.

Lemma al_reach_inv : forall n T disk s, 0 < n -> al_reach n T disk s -> al_inv n T disk s.
Proof.
  intros n T disk s Hn (Hd & sched & Hs & Hr). eapply al_run_inv; eauto. now apply al_mount_inv.
Qed.

(** Specification: references taken minus dropped.  [balance] folds over the
    event history: 2 per allocation, 1 per increment, -1 per decrement. *)

(** An extent is handed out only when nobody holds a reference to it, so two
    allocations of one extent are separated by the release of every
    reference; an increment or decrement reports the exact count. *)
Theorem C23_never_in_use : forall n T disk s pre t e suf,
  0 < n -> al_reach n T disk s -> al_hist s = pre ++ EAlloc t e :: suf ->
  e < n /\ balance disk pre e = 0%Z.
Proof.
  intros n T disk s pre t e suf Hn R H. apply al_reach_inv in R; [|assumption]. split.
  - pose proof (ai_evin _ _ _ _ R) as F. rewrite H in F. apply Forall_app in F. destruct F as [_ F].
    inversion F; subst. assumption.
  - exact (ai_hist _ _ _ _ R _ _ _ H).
Qed.

Theorem C23_counts_exact : forall n T disk s e,
  0 < n -> al_reach n T disk s ->
  Z.of_N (al_refs s e) = balance disk (al_hist s) e
  /\ (forall pre r suf, al_hist s = pre ++ EInc e r :: suf ->
        (0 < balance disk pre e)%Z /\ Z.of_N r = (balance disk pre e + 1)%Z)
  /\ (forall pre r suf, al_hist s = pre ++ EDec e r :: suf ->
        (0 < balance disk pre e)%Z /\ Z.of_N r = (balance disk pre e - 1)%Z).
Proof.
  intros n T disk s e Hn R. apply al_reach_inv in R; [|assumption]. split; [apply (ai_bal _ _ _ _ R)|]. split.
  - intros pre r suf H. exact (ai_hist _ _ _ _ R _ _ _ H).
  - intros pre r suf H. exact (ai_hist _ _ _ _ R _ _ _ H).
Qed.

(** What an allocation returns is the extent it took. *)
Theorem C23_result : forall n T disk s t e,
  0 < n -> al_reach n T disk s -> al_pcs s t = ARet (Some e) ->
  e < n /\ last_alloc t (al_hist s) = Some e.
Proof.
  intros n T disk s t e Hn R H. apply al_reach_inv in R; [|assumption]. split.
  - pose proof (ai_pcs _ _ _ _ R t) as P. rewrite H in P. exact P.
  - apply (ai_got _ _ _ _ R). now rewrite H.
Qed.

(** The in-use count, when no call is between its reference update and its
    counter update, is the number of extents with references. *)
Theorem C23_in_use : forall n T disk s,
  0 < n -> al_reach n T disk s ->
  (forall t, t < T -> match al_pcs s t with ACount _ | ADecCount _ => False | _ => True end) ->
  al_curr s = Z.of_nat (length (filter (fun e => negb (N.eqb (al_refs s e) 0)) (seq 0 n))).
Proof.
  intros n T disk s Hn R Hq. apply al_reach_inv in R; [|assumption].
  pose proof (ai_curr _ _ _ _ R) as C.
  replace (cnt (at_count (al_pcs s)) T) with 0 in C.
  2: { symmetry. apply cnt_zero. intros i Hi. specialize (Hq i Hi). unfold at_count. destruct (al_pcs s i); tauto. }
  replace (cnt (at_deccount (al_pcs s)) T) with 0 in C.
  2: { symmetry. apply cnt_zero. intros i Hi. specialize (Hq i Hi). unfold at_deccount. destruct (al_pcs s i); tauto. }
  assert (L : forall m, cnt (nonzero (al_refs s)) m = length (filter (fun e => negb (N.eqb (al_refs s e) 0)) (seq 0 m))).
  { induction m; [reflexivity|]. rewrite seq_S, filter_app, app_length, <- IHm. cbn. unfold nonzero at 1.
    destruct (N.eqb (al_refs s m) 0); cbn; lia. }
  rewrite <- L. lia.
Qed.

(** The asserts fire exactly on misuse: taking a reference on a free extent,
    dropping one that is not held, or the 255th outstanding reference. *)
Theorem C23_abort_iff_misuse : forall n T disk s t q,
  0 < n -> al_reach n T disk s ->
  (al_step n s t q = AAbort <->
   (al_pcs s t = AIdle \/ exists r, al_pcs s t = ARet r) /\
   match q with
   | QAlloc => False
   | QInc e => balance disk (al_hist s) e = 0%Z \/ balance disk (al_hist s) e = 255%Z
   | QDec e => balance disk (al_hist s) e = 0%Z
   end).
Proof.
  intros n T disk s t q Hn R. apply al_reach_inv in R; [|assumption].
  assert (B : match q with
   | QAlloc => False
   | QInc e => balance disk (al_hist s) e = 0%Z \/ balance disk (al_hist s) e = 255%Z
   | QDec e => balance disk (al_hist s) e = 0%Z
   end <-> match q with
   | QAlloc => False
   | QInc e => al_refs s e = 0%N \/ al_refs s e = 255%N
   | QDec e => al_refs s e = 0%N
   end).
  { destruct q as [|e|e]; [tauto| |]; rewrite <- (ai_bal _ _ _ _ R); lia. }
  rewrite B. clear B. unfold al_step.
  assert (K : forall e, let r := ((al_refs s e + 1) mod 256)%N in
      (N.eqb r 1 || N.eqb r 0 = true <-> al_refs s e = 0%N \/ al_refs s e = 255%N)).
  { intros e r. pose proof (ai_refs _ _ _ _ R e). subst r. destruct (N.eq_dec (al_refs s e) 255) as [->|E].
    - cbn. tauto.
    - rewrite N.mod_small by lia. rewrite orb_true_iff, !N.eqb_eq. lia. }
  assert (D : forall e, (N.eqb ((al_refs s e + 255) mod 256)%N 255 = true <-> al_refs s e = 0%N)).
  { intros e. pose proof (ai_refs _ _ _ _ R e). destruct (N.eq_dec (al_refs s e) 0) as [->|E].
    - cbn. tauto.
    - replace (al_refs s e + 255)%N with ((al_refs s e - 1) + 1 * 256)%N by lia.
      rewrite N.mod_add by lia. rewrite N.mod_small by lia. rewrite N.eqb_eq. lia. }
  destruct (al_pcs s t) as [| | | | | | | |] eqn:Ep;
  try (split; [ try discriminate; repeat match goal with |- (if ?b then _ else _) = _ -> _ => destruct b end; discriminate
              | intros [[X|[x X]] _]; discriminate ]).
  - destruct q as [|e|e]; cbn zeta.
    + split; [discriminate | tauto].
    + specialize (K e). cbn zeta in K. destruct (_ || _); split; intros; try discriminate; try reflexivity.
      * split; [auto | now apply K]. * destruct H as [_ H]. apply K in H. discriminate.
    + specialize (D e). destruct (N.eqb _ 255); split; intros; try discriminate; try reflexivity.
      * split; [auto | now apply D]. * destruct H as [_ H]. apply D in H. discriminate.
  - destruct q as [|e|e]; cbn zeta.
    + split; [discriminate | tauto].
    + specialize (K e). cbn zeta in K. destruct (_ || _); split; intros; try discriminate; try reflexivity.
      * split; [eauto | now apply K]. * destruct H as [_ H]. apply K in H. discriminate.
    + specialize (D e). destruct (N.eqb _ 255); split; intros; try discriminate; try reflexivity.
      * split; [eauto | now apply D]. * destruct H as [_ H]. apply D in H. discriminate.
Qed.

(** An allocation that runs without interference finds a free extent exactly
    when there is one (the uint64 hand has not reached its last lap). *)
Theorem C23_alloc_complete : forall n s t,
  0 < n -> (al_hand s + N.of_nat n < 2 ^ 64)%N -> al_pcs s t = AIdle ->
  exists r s', al_solo n s t (3 * n + 10) = Some (r, s') /\
    match r with
    | Some e => e < n /\ al_refs s e = 0%N /\ al_refs s' e = 2%N
                /\ (forall x, x <> e -> al_refs s' x = al_refs s x)
    | None => (forall e, e < n -> al_refs s e <> 0%N) /\ (forall x, al_refs s' x = al_refs s x)
    end.
Proof.
  intros n s t Hn Hw Hp.
  destruct (solo_alloc n s t (N.to_nat (al_hand s))) as (r & s' & X & Y); auto; try lia.
  exists r, s'. split; [exact X|]. destruct Y as (_ & _ & Y). destruct r as [e|].
  - destruct Y as (j & Hj & -> & Hz & _ & H2 & Hs & _). split; [apply Nat.mod_upper_bound; lia|]. auto.
  - destruct Y as (Y1 & Y2 & _). split; [assumption|]. intro x. now rewrite Y2.
Qed.

(** Under concurrency the same claim fails: the hand is shared, so another
    thread can be given the only free extent to look at and stall.  Thread 1
    reports "no space" although extent 1 is free from before its call until
    after its return. *)
Definition spurious_disk (e : nat) : N := if Nat.eqb e 1 then 0%N else 2%N.
Definition spurious_sched : list (nat * al_req) :=
  [(1, QAlloc);                       (* thread 1 starts: first_hand = 0 *)
   (1, QAlloc); (1, QAlloc);          (* probes extent 0: busy *)
   (2, QAlloc); (2, QAlloc);          (* thread 2 is given extent 1 and stalls *)
   (1, QAlloc); (1, QAlloc)].         (* thread 1 probes extent 2: busy, full lap *)
Fixpoint free_throughout (n : nat) (s : al) (sched : list (nat * al_req)) (e : nat) : bool :=
  N.eqb (al_refs s e) 0 &&
  match sched with
  | [] => true
  | (t, q) :: rest => match al_step n s t q with AAbort => false | ANext s' => free_throughout n s' rest e end
  end.
Theorem C23_no_space_concurrent_refuted :
  ~ (forall n T disk sched s t e, 0 < n -> (forall x, (disk x < 256)%N) -> asched_ok n T sched ->
      al_run n (al_mount n disk) ((t, QAlloc) :: sched) = ANext s ->
      al_pcs s t = ARet None -> e < n ->
      free_throughout n (al_mount n disk) ((t, QAlloc) :: sched) e = false).
Proof.
  intro H.
  assert (F : free_throughout 3 (al_mount 3 spurious_disk) spurious_sched 1 = true) by (vm_compute; reflexivity).
  remember (al_run 3 (al_mount 3 spurious_disk) spurious_sched) as res eqn:E.
  assert (P : match res with ANext s => al_pcs s 1 = ARet None | AAbort => False end)
    by (subst res; vm_compute; reflexivity).
  destruct res as [|s]; [contradiction|].
  assert (G := H 3 3 spurious_disk (tl spurious_sched) s 1 1).
  change ((1, QAlloc) :: tl spurious_sched) with spurious_sched in G.
  rewrite G in F; try discriminate; try lia; auto.
  - intro x. unfold spurious_disk. destruct (Nat.eqb x 1); lia.
  - repeat constructor; cbn; lia.
Qed.

(** rc_allocator_init: the super block and reference-count extents are the
    first ones, in order; the asserts hold exactly when the device is large
    enough. *)
Theorem C23_init : forall n k, 0 < n -> (N.of_nat n < 2 ^ 63)%N ->
  (1 + k <= n -> exists s, al_init n k = Some s /\
      (forall e, al_refs s e = if Nat.leb e k then 2%N else 0%N))
  /\ (n < 1 + k -> al_init n k = None).
Proof.
  intros n k Hn Hb. unfold al_init. split; intro Hk.
  - destruct (init_loop_ok (1 + k) n al_fresh 0) as (s & X & Y); auto.
    exists s. split; [exact X|]. intro e. rewrite Y.
    destruct (Nat.ltb_spec e (0 + (1 + k))), (Nat.leb_spec e k); auto; lia.
  - apply init_loop_fails; auto; lia.
Qed.

(** Non-vacuity: two threads race for the last extent; one wins, the extent is
    released with two decrements and allocated again. *)
Example C23_race :
  match al_run 1 (al_mount 1 (fun _ => 0%N))
    [(0, QAlloc); (1, QAlloc); (0, QAlloc); (1, QAlloc); (0, QAlloc); (1, QAlloc);
     (1, QAlloc); (0, QAlloc); (1, QAlloc); (1, QAlloc); (1, QAlloc); (1, QAlloc);
     (1, QInc 0); (1, QDec 0); (1, QDec 0); (1, QDec 0); (1, QAlloc);
     (0, QAlloc); (0, QAlloc); (0, QAlloc); (0, QAlloc)] with
  | ANext s => al_hist s = [EAlloc 1 0; EInc 0 3; EDec 0 2; EDec 0 1; EDec 0 0; EAlloc 0 0]
  | AAbort => False
  end.
Proof. vm_compute. reflexivity. Qed.
Example C23_init_ok : match al_init 5 2 with Some s => map (al_refs s) (seq 0 5) = [2;2;2;0;0]%N | None => False end.
Proof. vm_compute. reflexivity. Qed.

Print Assumptions C23_never_in_use.
Print Assumptions C23_counts_exact.
Print Assumptions C23_result.
Print Assumptions C23_in_use.
Print Assumptions C23_abort_iff_misuse.
Print Assumptions C23_alloc_complete.
Print Assumptions C23_no_space_concurrent_refuted.
Print Assumptions C23_init.
