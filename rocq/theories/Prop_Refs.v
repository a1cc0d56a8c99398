(** * C48: an extent of a branch is kept as long as it is used and then given back

    /repo/src/trunk.c, the calls of trunk_inc_intersection, trunk_zap_branch_range,
    trunk_dec_ref and trunk_bundle_inc_pivot_rc; the model is Refs.v, the
    specification RefsSpec.v.  What one call does to the extents of a branch is C25. *)

From Coq Require Import List NArith ZArith Arith Bool Lia.
From Verif Require Import Base Spec Witness Refs RefsSpec RefsUse.
Import ListNotations.

Section Keys.
Variable d : data_config.
Hypothesis TO : total_order (key_compare d).

(** Nobody refers to an extent that was given back, and nobody drops a reference
    that is not there.  A branch that was not built has no references.  Missing: see
    [C48_overtaken_refuted]. *)
Theorem C48_never_misused_partial : forall s, oreach d s ->
  (forall b e, extent_of d (t_led s) b e -> exists n, references d b e (t_led s) = Has n) /\
  (forall b e, (forall lo hi, ~ In (EvNew b lo hi) (t_led s)) -> references d b e (t_led s) = Absent).
Proof using TO. intros s R. split; intros b e H; [rewrite (counted d TO s b e R H); eauto | apply (absent d TO); auto]. Qed.

(** An extent with keys for which a node refers to the branch, or a compaction reads
    it, has a reference. *)
Theorem C48_kept_partial : forall s b r e, oreach d s -> extent_of d (t_led s) b e ->
  refers s b r \/ reads s b r -> meets d r e = true -> exists n, references d b e (t_led s) = Has (S n).
Proof using TO. exact (kept d TO). Qed.

(** An extent that nobody refers to, reads or is about to place has no reference.
    Missing: see [C48_leak_refuted]. *)
Theorem C48_given_back_partial : forall s b e, creach d s -> extent_of d (t_led s) b e ->
  (forall r, refers s b r \/ reads s b r -> meets d r e = false) -> ~ places s b -> references d b e (t_led s) = Has 0.
Proof using TO.
  intros s b e R X U P. apply (freed d TO); auto; [apply creach_oreach; auto|]. intros r [H|[H|H]]; auto.
  rewrite (creach_lost d TO s R) in H. destruct H.
Qed.

(** When the database is destroyed, everything has been given back. *)
Theorem C48_destroyed_partial : forall s s' b e, creach d s -> do d s ODestroy = Some s' -> extent_of d (t_led s') b e ->
  references d b e (t_led s') = Has 0.
Proof using TO.
  intros s s' b e R H X. assert (R' : creach d s') by (apply (cr1 d s ODestroy s'); auto).
  cbn [do] in H. unfold destroy in H. destruct (t_jobs s) eqn:J; [|discriminate]. injection H as H.
  assert (E1 : t_lev s' = []) by (rewrite <- H; reflexivity). assert (E2 : t_jobs s' = []) by (rewrite <- H; reflexivity).
  apply C48_given_back_partial; auto.
  - intros r [(lvl & n & i & p & sl & q & Z & _)|(j & Z & _)]; [rewrite E1 in Z | rewrite E2 in Z]; destruct Z.
  - intros (j & pos & reps & lost & Z & _). rewrite E2 in Z. destruct Z.
Qed.
End Keys.

(** ** Examples and counterexamples *)
Fixpoint runs (d : data_config) (s : rst) (l : list op) : option rst :=
  match l with [] => Some s | o :: l' => match do d s o with Some s' => runs d s' l' | None => None end end.
Fixpoint runs_if (f : rst -> op -> bool) (d : data_config) (s : rst) (l : list op) : bool :=
  match l with [] => true | o :: l' => f s o && match do d s o with Some s' => runs_if f d s' l' | None => false end end.
Definition in_order (s : rst) (o : op) : bool := negb (overtakes s o).
Definition undisturbed (s : rst) (o : op) : bool := negb (overtakes s o) && negb (disturbs s o).

Lemma runs_r : forall d l s s', rreach d s -> runs d s l = Some s' -> rreach d s'.
Proof.
  intros d. induction l as [|o l IH]; intros s s' R H; cbn [runs] in H; [congruence|]. destruct (do d s o) as [s1|] eqn:E; [|discriminate].
  apply (IH s1); auto. econstructor; eauto.
Qed.
Lemma runs_o : forall d l s s', oreach d s -> runs_if in_order d s l = true -> runs d s l = Some s' -> oreach d s'.
Proof.
  intros d. induction l as [|o l IH]; intros s s' R F H; cbn [runs runs_if] in *; [congruence|]. apply andb_true_iff in F. destruct F as [F1 F2].
  destruct (do d s o) as [s1|] eqn:E; [|discriminate]. apply (IH s1); auto. econstructor; eauto. unfold in_order in F1. apply negb_true_iff. exact F1.
Qed.
Lemma runs_c : forall d l s s', creach d s -> runs_if undisturbed d s l = true -> runs d s l = Some s' -> creach d s'.
Proof.
  intros d. induction l as [|o l IH]; intros s s' R F H; cbn [runs runs_if] in *; [congruence|]. apply andb_true_iff in F. destruct F as [F1 F2].
  apply andb_true_iff in F1. destruct F1 as [F0 F1]. apply negb_true_iff in F0, F1.
  destruct (do d s o) as [s1|] eqn:E; [|discriminate]. apply (IH s1); auto. econstructor; eauto.
Qed.

Definition k (n : N) : key := KUser [n].
Definition x (a b : N) : key * key := (k a, k b).
Definition cfg := append_cfg.

(** A leaf is split at 5; a branch with keys on both sides is flushed and compacted
    at height 1, then flushed into both leaves. *)
Definition base : list op :=
  [OIncorporate 0; OFlush 0 0 0 0; OSplitLeaf 0 0 0 [k 5]; OIncorporate 1; OGrow; OIncorporate 2; OFlush 1 0 0 0; OEnqueue 1 0 2; OStart 0].
Definition whole : list op := base ++ [OMerge 0 (Some 3); OReplace 0 0; OFlush 0 0 0 0; OFlush 0 0 1 1; OEnqueue 0 0 1; OEnqueue 0 1 1;
  OStart 1; OStart 2; OMerge 2 (Some 4); OFail 1; OReplace 2 1].

Definition counts (l : list op) (b : bid) (e : key * key) : option refcount :=
  option_map (fun s => references cfg b e (t_led s)) (runs cfg rst0 l).

Example C48_example :
  runs_if undisturbed cfg rst0 (whole ++ [ODestroy]) = true /\
  map (fun b => (counts whole b (x 1 2), counts whole b (x 1 9), counts whole b (x 7 8))) [0; 1; 2; 3] =
    [(Some (Has 1), Some (Has 2), Some (Has 1)); (Some (Has 1), Some (Has 1), Some (Has 0)); (Some (Has 0), Some (Has 0), Some (Has 0));
     (Some (Has 1), Some (Has 1), Some (Has 0))] /\
  counts whole 4 (x 1 9) = Some (Has 1) /\ counts whole 4 (x 7 8) = Some (Has 1) /\
  map (fun b => counts (whole ++ [ODestroy]) b (x 1 9)) [0; 1; 2; 3; 4] = repeat (Some (Has 0)) 5.
Proof. vm_compute. auto. Qed.

(** The hypotheses of the theorems are met. *)
Example C48_hypotheses : exists s, creach cfg s /\ extent_of cfg (t_led s) 3 (x 1 2) /\ refers s 3 (KNegInf, k 5) /\
  meets cfg (KNegInf, k 5) (x 1 2) = true /\ meets cfg (KNegInf, k 5) (x 7 8) = false /\ extent_of cfg (t_led s) 3 (x 7 8) /\
  do cfg s ODestroy <> None.
Proof.
  destruct (runs cfg rst0 whole) as [s|] eqn:E; [|vm_compute in E; discriminate]. exists s.
  split; [apply (runs_c cfg whole rst0); [constructor | vm_compute; reflexivity | exact E]|].
  vm_compute in E. injection E as <-.
  split; [exists KNegInf, KPosInf; repeat split; try (vm_compute; reflexivity); cbn; tauto|].
  split.
  { eexists _, _, 0, _, _, 1. split; [left; reflexivity|]. split; [left; reflexivity|]. cbn. repeat split; auto; cbn; auto. }
  split; [vm_compute; reflexivity|]. split; [vm_compute; reflexivity|].
  split; [exists KNegInf, KPosInf; repeat split; try (vm_compute; reflexivity); cbn; tauto|].
  vm_compute. discriminate.
Qed.

(** An index node is split while one of its bundles is compacted, and the bundle is
    flushed from one of the halves: the new branch keeps its reference for the keys of
    that half (trunk.c:5399-5419), even when the database is destroyed. *)
Definition half : list op :=
  base ++ [OMerge 0 (Some 3); OSplitIndex 1 0 0 0 1; OFlush 0 0 0 0; OReplace 0 0; OReplace 0 1].
Theorem C48_leak_refuted : exists s s', oreach cfg s /\ extent_of cfg (t_led s) 3 (x 1 2) /\ t_jobs s = [] /\
  (forall r, refers s 3 r -> meets cfg r (x 1 2) = false) /\ references cfg 3 (x 1 2) (t_led s) = Has 1 /\
  do cfg s ODestroy = Some s' /\ references cfg 3 (x 1 2) (t_led s') = Has 1.
Proof.
  destruct (runs cfg rst0 half) as [s|] eqn:E; [|vm_compute in E; discriminate].
  destruct (do cfg s ODestroy) as [s'|] eqn:E'; [|vm_compute in E; injection E as <-; vm_compute in E'; discriminate]. exists s, s'.
  split; [apply (runs_o cfg half rst0); [constructor | vm_compute; reflexivity | exact E]|].
  vm_compute in E. injection E as <-. vm_compute in E'. injection E' as <-.
  split; [exists KNegInf, KPosInf; repeat split; try (vm_compute; reflexivity); cbn; tauto|]. split; [reflexivity|]. split.
  { intros r R. apply (refers_iff cfg lex_compare_total) in R. cbn in R.
    repeat (destruct R as [R|R]; [first [discriminate R | injection R as <-; vm_compute; reflexivity]|]). destruct R. }
  split; [vm_compute; reflexivity|]. split; [reflexivity|]. vm_compute. reflexivity.
Qed.

(** A request waits while a later one, for the leaf below, drops the last reference
    to the branches that it will read: it refers to extents that were given back. *)
Definition late : list op :=
  [OGrow; OIncorporate 0; OFlush 1 0 0 0; OEnqueue 1 0 0; OFlush 0 0 0 0; OEnqueue 0 0 0; OStart 1; OMerge 1 (Some 1); OReplace 1 0; OStart 0].
Theorem C48_overtaken_refuted : exists s, rreach cfg s /\ extent_of cfg (t_led s) 0 (x 1 2) /\ references cfg 0 (x 1 2) (t_led s) = Bad.
Proof.
  destruct (runs cfg rst0 late) as [s|] eqn:E; [|vm_compute in E; discriminate]. exists s.
  split; [apply (runs_r cfg late rst0); [constructor | exact E]|].
  vm_compute in E. injection E as <-.
  split; [exists KNegInf, KPosInf; repeat split; try (vm_compute; reflexivity); cbn; tauto|]. vm_compute. reflexivity.
Qed.

Print Assumptions C48_never_misused_partial.
Print Assumptions C48_kept_partial.
Print Assumptions C48_given_back_partial.
Print Assumptions C48_destroyed_partial.
Print Assumptions C48_leak_refuted.
Print Assumptions C48_overtaken_refuted.
