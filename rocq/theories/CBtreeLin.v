(** Every run of the concurrent tree is a run of the atomic table; no state is stuck;
    scans at rest see the table. *)
From Coq Require Import List Arith Bool Lia Sorting.Sorted.
Import ListNotations.
From Verif Require Import CBtree CBtreeSpec CBtreeInv CBtreeSplit CBtreeProofs.
Local Open Scope nat_scope.

Definition G0 : ghost := fun a => if a =? 0 then Some (0, None, None) else None.

Lemma core_init : forall n, core (init n) (fun _ => Leaf [] None None) G0 (fun _ => 0) empty.
Proof.
  intros n.
  assert (id : forall i t, nth_error (ths (init n)) i = Some t -> t = Idle).
  { intros i t H. apply nth_error_In in H. cbn in H. apply repeat_spec in H. auto. }
  constructor.
  - intros i j t u a _ H. apply id in H. subst. intros _ [].
  - intros i j t u a _ H. apply id in H. subst. intros _ [].
  - intros i t a H. apply id in H. subst. intros [].
  - intros i t a x H. apply id in H. subst. discriminate.
  - auto.
  - constructor; unfold G0.
    + split; auto. exists 0. split; auto. intros a h' lo hi H. destruct (a =? 0); [injection H; lia|discriminate].
    + intros a x H. destruct a; cbn in *; [lia|discriminate].
    + intros a h lo hi H. destruct (a =? 0); [|discriminate]. injection H as <- <- <-. cbn.
      split; auto. split; [constructor|]. split; [tauto|]. auto.
    + intros a h lo hi H. destruct (a =? 0); [|discriminate]. injection H as <- <- <-. exists 0. split; cbn; auto.
    + intros a b h lo hi lo' hi' k H1 H2 _ _. destruct (a =? 0) eqn:Ea; [|discriminate]. destruct (b =? 0) eqn:Eb; [|discriminate].
      apply Nat.eqb_eq in Ea, Eb. congruence.
  - intros i t H. apply id in H. subst. cbn. auto.
Qed.

Lemma step_moved : forall s i c s' l ef G B m, core s ef G B m -> step s i c = Some (s', l) ->
  exists t t' ef' G' B' m', nth_error (ths s) i = Some t /\ ths s' = put (ths s) i t' /\
    moved s t ef G s' ef' G' B' m' /\ simstep m t l t' m'.
Proof.
  intros s i c s' l ef G B m C E. unfold step in E.
  destruct (nth_error (ths s) i) as [t|] eqn:Hi; [|discriminate].
  assert (X : exists f fresh t', stepped s ef G i t m (Next f fresh t' l) /\
            s' = St f (if fresh then S (nxt s) else nxt s) (put (ths s) i t')).
  { destruct t as [|k v p|k p]; destruct c as [[k' v'|k']|x]; try discriminate.
    - injection E as <- <-. exists (pg s), false, (Ins k' v' I0). split; auto.
      exists ef, G, B, m. split; [|apply sim_call; reflexivity].
      eapply core_go; eauto; cbn; auto; intros a [].
    - injection E as <- <-. exists (pg s), false, (Fnd k' F0). split; auto.
      exists ef, G, B, m. split; [|apply sim_call; reflexivity].
      eapply core_go; eauto; cbn; auto; intros a [].
    - destruct (istep s i k v p x) as [[f fresh t' l']|] eqn:E1; [|discriminate]. injection E as <- <-.
      exists f, fresh, t'. split; auto. eapply istep_ok; eauto.
    - destruct (fstep s i k p) as [[f fresh t' l']|] eqn:E1; [|discriminate]. injection E as <- <-.
      exists f, fresh, t'. split; auto. eapply fstep_ok; eauto. }
  destruct X as (f & fresh & t' & (ef' & G' & B' & m' & C' & S) & ->).
  exists t, t', ef', G', B', m'. auto.
Qed.

Lemma step_ok : forall s i c s' l ef G B m, core s ef G B m -> step s i c = Some (s', l) ->
  exists t t' ef' G' B' m', nth_error (ths s) i = Some t /\ ths s' = put (ths s) i t' /\
    core s' ef' G' B' m' /\ simstep m t l t' m'.
Proof.
  intros s i c s' l ef G B m C E. destruct (step_moved _ _ _ _ _ _ _ _ _ C E) as (t & t' & ef' & G' & B' & m' & H1 & H2 & [H3 _] & H4).
  exists t, t', ef', G', B', m'. auto.
Qed.

(** The atomic machine follows. *)
Definition follows (s : state) (f : nat -> sthr) : Prop :=
  forall i, f i = match nth_error (ths s) i with Some t => sim t | None => SIdle end.

Lemma follows_put : forall s f i t t' s', follows s f -> nth_error (ths s) i = Some t ->
  ths s' = put (ths s) i t' -> follows s' (now f i (sim t')).
Proof.
  intros s f i t t' s' F H E j. unfold now. rewrite E, nth_put, H. destruct (j =? i); auto.
Qed.

Lemma sim_run : forall n tr s, runs (init n) tr s ->
  exists ef G B m f, core s ef G B m /\ follows s f /\ aruns (empty, all_idle) tr (m, f).
Proof.
  intros n tr s R. remember (init n) as s0 eqn:E0. induction R as [s|s tr s' i c s'' l R IH E].
  - subst. exists (fun _ => Leaf [] None None), G0, (fun _ => 0), empty, all_idle.
    split; [apply core_init|]. split; [|constructor]. intros i. unfold all_idle. cbn.
    destruct (nth_error (repeat Idle n) i) as [t|] eqn:H; auto. apply nth_error_In, repeat_spec in H. subst. auto.
  - destruct (IH E0) as (ef & G & B & m & f & C & F & A).
    destruct (step_ok _ _ _ _ _ _ _ _ _ C E) as (t & t' & ef' & G' & B' & m' & Hi & Et & C' & S).
    pose proof (F i) as Fi. rewrite Hi in Fi. exists ef', G', B', m'.
    inversion S; subst.
    + exists f. split; auto. cbn [seen]. rewrite app_nil_r. split; auto. intros j. rewrite Et, nth_put, Hi.
      destruct (j =? i) eqn:Ej; auto. apply Nat.eqb_eq in Ej. subst. congruence.
    + exists (now f i (SCalled c0)). split; auto. split.
      * rewrite <- H0. eapply follows_put; eauto.
      * eapply a_more; eauto. constructor. congruence.
    + exists (now f i (SDone (snd (apply c0 m)))). split; auto. split.
      * rewrite <- H0. eapply follows_put; eauto.
      * eapply (a_more _ _ _ i Tau); eauto. constructor. congruence.
    + exists (now f i SIdle). split; auto. split.
      * rewrite <- H0. eapply follows_put; eauto.
      * eapply a_more; eauto. constructor. congruence.
Qed.

Theorem linearizable_runs : forall n tr s, runs (init n) tr s -> linearizable tr.
Proof.
  intros n tr s R. destruct (sim_run n tr s R) as (ef & G & B & m & f & _ & _ & A). exists (m, f). auto.
Qed.
