(** Runs of the concurrent trunk: no assertion fails, and calls act at one instant. *)
From Coq Require Import List Arith Bool Lia.
Import ListNotations.
From Verif Require Import CTrunk CTrunkSpec CTrunkInv CTrunkOps CTrunkProofs CTrunkSteps.
Local Open Scope nat_scope.

Lemma nth_repeat_some : forall A (x y : A) n i, nth_error (repeat x n) i = Some y -> y = x.
Proof. intros A x y n i H. apply nth_error_In in H. apply repeat_spec in H. auto. Qed.

Lemma init_ok : forall n, inv (init n) (mem (init n)) empty all_idle.
Proof.
  intros n.
  assert (ID : forall i t, nth_error (ths (init n)) i = Some t -> t = Idle) by (intros i t H; eapply nth_repeat_some; exact H).
  assert (W0 : wf (mem (init n)) 2 0).
  { intros a Ha. assert (C : a = 0 \/ a = 1) by lia. destruct C; subst a; cbn.
    - split; [discriminate|]. split; [|]; cbn; auto; try lia.
      repeat split; auto; cbn; auto; try lia.
    - split; [discriminate|]. split; cbn; auto; try lia. repeat split; auto; cbn; auto; try lia. }
  constructor.
  - exact W0.
  - intros i t a nd H. rewrite (ID _ _ H). discriminate.
  - auto.
  - auto.
  - intros i t a H. rewrite (ID _ _ H). cbn. tauto.
  - intros i j t u a _ H _. rewrite (ID _ _ H). cbn. tauto.
  - intros i j t u _ H _. rewrite (ID _ _ H). cbn. discriminate.
  - intros i t H. rewrite (ID _ _ H). split; [split|]; cbn; tauto.
  - split; [cbn; lia|]. split; [split; cbn; auto|]. intros k. reflexivity.
  - intros i t H. rewrite (ID _ _ H). reflexivity.
Qed.

Lemma step_ok : forall s i c s' l ef m f, inv s ef m f -> step s i c = Some (s', l) ->
  exists ef' m' x', inv s' ef' m' (now f i x') /\ sim m (f i) l m' x'.
Proof.
  intros s i c s' l ef m f V E. unfold step in E. destruct (nth_error (ths s) i) as [t|] eqn:Hi; [|discriminate].
  destruct c as [c|x].
  - destruct t; try discriminate. destruct (start s c) as [[s1 t1]|] eqn:Es; [|discriminate]. injection E as <- <-.
    eapply start_ok; eauto.
  - destruct (go s i t x) as [[[s1 t1] l1]|] eqn:Eg; [|discriminate]. injection E as <- <-.
    destruct t; try (eapply get_ok; eauto; exact Logic.I); try (eapply path_ok; eauto; exact Logic.I);
      try (eapply inc_ok; eauto; exact Logic.I); destruct x; discriminate.
Qed.

Definition eqf (f g : nat -> sthr) : Prop := forall j, f j = g j.

(** The atomic machine keeps up, its threads being as [f] says. *)
Lemma sim_runs : forall x tr m f g i l m' x', bruns x tr (m, g) -> eqf g f -> sim m (f i) l m' x' ->
  exists g', bruns x (tr ++ seen i l) (m', g') /\ eqf g' (now f i x').
Proof.
  intros x tr m f g i l m' x' A Q S.
  assert (QN : forall y, eqf (now g i y) (now f i y)) by (intros y j; unfold now; destruct (j =? i); auto).
  remember (f i) as y eqn:Ey. pose proof (Q i) as Qi. rewrite <- Ey in Qi. destruct S.
  - exists g. cbn [seen]. rewrite app_nil_r. split; auto. intros j. rewrite Q. unfold now. destruct (Nat.eqb_spec j i); congruence.
  - exists (now g i (SCalled c)). split; auto. eapply b_more; [exact A|]. apply b_one, a_call. auto.
  - exists (now g i (SDone (snd (apply c m)))). split; auto. eapply b_more; [exact A|]. apply b_one, a_effect. auto.
  - exists (now g i SIdle). split; auto. eapply b_more; [exact A|]. eapply b_one, a_return. auto.
  - exists (now (now g i (SDone r)) i SIdle). split.
    + eapply b_more.
      * replace tr with (tr ++ seen i Tau) by apply app_nil_r. eapply b_more; [exact A|]. apply b_one, (a_effect m g i c). auto.
      * subst r. apply b_one, a_return. unfold now. rewrite Nat.eqb_refl. auto.
    + intros j. unfold now. destruct (j =? i); auto.
  - destruct H as [-> | ->].
    + exists g. split.
      * eapply b_more; [exact A|]. apply b_again. auto.
      * intros j. rewrite Q. unfold now. destruct (Nat.eqb_spec j i); congruence.
    + exists (now g i SAny). split; auto. eapply b_more; [exact A|]. eapply b_stale. eauto.
  - exists (now g i SIdle). split; auto. eapply b_more; [exact A|]. apply b_any. auto.
Qed.

Lemma runs_ok : forall n tr s, runs (init n) tr s ->
  exists ef m f g, inv s ef m f /\ bruns (empty, all_idle) tr (m, g) /\ eqf g f.
Proof.
  intros n tr s R. remember (init n) as s0 eqn:E0. induction R as [s1|s1 tr s' i c s'' l R IH St].
  - subst s1. exists (mem (init n)), empty, all_idle, all_idle. split; [apply init_ok|]. split; [constructor|intros j; auto].
  - destruct (IH E0) as (ef & m & f & g & V & A & Q).
    destruct (step_ok _ _ _ _ _ _ _ _ V St) as (ef' & m' & x' & V' & S).
    destruct (sim_runs _ _ _ _ _ _ _ _ _ A Q S) as (g' & A' & Q'). exists ef', m', (now f i x'), g'. auto.
Qed.

(** With no read of given up space, that is plain linearizability. *)
Lemma bruns_strict : forall x tr y, bruns x tr y -> (forall i, snd x i <> SAny) -> no_stale tr ->
  aruns x tr y /\ forall i, snd y i <> SAny.
Proof.
  intros x tr y R F. induction R as [x|x tr y i l z R IH S]; intros NS; [split; [constructor|auto]|].
  destruct (IH F) as [A G]; [intros j Hj; apply (NS j); apply in_or_app; auto|].
  destruct S as [y i l z S|m f i v E|m f i E|m f i v E].
  - split; [eapply a_more; eauto|]. intros j. destruct S; cbn in *; unfold now; destruct (j =? i); auto; discriminate.
  - exfalso. apply (NS i). apply in_or_app. right. left. auto.
  - exfalso. apply (NS i). apply in_or_app. right. left. auto.
  - exfalso. apply (G i). auto.
Qed.

Theorem trunk_linearizable_but_stale : forall n tr s, runs (init n) tr s -> linearizable_but_stale tr.
Proof.
  intros n tr s R. destruct (runs_ok n tr s R) as (ef & m & f & g & _ & A & _). exists (m, g). exact A.
Qed.

Theorem trunk_linearizable : forall n tr s, runs (init n) tr s -> no_stale tr -> linearizable tr.
Proof.
  intros n tr s R NS. destruct (trunk_linearizable_but_stale n tr s R) as (y & A). exists y.
  eapply bruns_strict; eauto. intros i. discriminate.
Qed.

Theorem trunk_no_bad : forall n tr s, runs (init n) tr s -> ~ In Bad (ths s).
Proof.
  intros n tr s R. destruct (runs_ok n tr s R) as (ef & m & f & g & V & _ & _).
  intros H. apply In_nth_error in H. destruct H as (i & H). exact (v_pc _ _ _ _ V _ _ H).
Qed.
