(** * The record of references and what it must add up to *)
From Coq Require Import List NArith ZArith Arith Bool Lia.
From Verif Require Import Base Spec Search SearchProofs TrunkKeys Refs RefsSpec RefsCount.
Import ListNotations.
Local Open Scope Z_scope.
Set Default Proof Using "All".
Section Steps.
Variable d : data_config.
Variable TO : total_order (key_compare d).
Notation cnt := (cnt d). Notation zov := (zov d). Notation ov := (ov d). Notation up := (up d).
Notation wsum := (wsum d). Notation sumov := (sumov d). Notation pts := (pts d). Notation delta := (delta d).
Notation asc := (asc d). Notation pcs := (pcs d).

(** *** Runs of events *)
Lemma run_incs : forall b e evs n, 0 <= n ->
  (forall v, In v evs -> exists b' r, v = EvInc b' r /\ (b' = b -> ov r e = true -> 1 <= n)) ->
  fold_left (on_event d b e) evs (Has (Z.to_nat n)) = Has (Z.to_nat (n + delta b e evs)) /\ n <= n + delta b e evs.
Proof.
  intros b e evs. induction evs as [|v evs IH]; intros n N H.
  - cbn. split; [f_equal; f_equal|]; lia.
  - destruct (H v (or_introl eq_refl)) as (b' & r & -> & C). cbn [fold_left RefsCount.delta dl on_event].
    destruct (Nat.eqb_spec b' b) as [E|E].
    + change (meets d r e) with (ov r e). destruct (ov r e) eqn:O.
      * specialize (C E eq_refl). destruct (Z.to_nat n) as [|m] eqn:M; [lia|]. rewrite <- M.
        replace (S (Z.to_nat n)) with (Z.to_nat (n + 1)) by lia.
        destruct (IH (n + 1)) as [R1 R2]; [lia| |].
        { intros v I. destruct (H v (or_intror I)) as (b2 & r2 & Q & X). exists b2, r2. split; auto. intros. specialize (X H0 H1). lia. }
        unfold RefsCount.zov. rewrite O. rewrite R1. split; [f_equal; f_equal|]; lia.
      * destruct (IH n) as [R1 R2]; [lia| intros; apply H; right; auto|]. unfold RefsCount.zov. rewrite O. rewrite R1. split; [f_equal; f_equal|]; lia.
    + destruct (IH n) as [R1 R2]; [lia| intros; apply H; right; auto|]. rewrite R1. split; [f_equal; f_equal|]; lia.
Qed.
Lemma delta_decs : forall b e evs, (forall v, In v evs -> exists b' r, v = EvDec b' r) -> delta b e evs <= 0.
Proof.
  intros b e. induction evs as [|v evs IH]; intros H; cbn [RefsCount.delta]; [lia|]. destruct (H v (or_introl eq_refl)) as (b' & r & ->).
  cbn [dl]. specialize (IH (fun v I => H v (or_intror I))). pose proof (zov_01 d TO r e). destruct (_ =? _)%nat; lia.
Qed.
Lemma run_decs : forall b e evs n, 0 <= n + delta b e evs ->
  (forall v, In v evs -> exists b' r, v = EvDec b' r) ->
  fold_left (on_event d b e) evs (Has (Z.to_nat n)) = Has (Z.to_nat (n + delta b e evs)).
Proof.
  intros b e evs. induction evs as [|v evs IH]; intros n N H.
  - cbn. f_equal; f_equal; lia.
  - destruct (H v (or_introl eq_refl)) as (b' & r & ->). cbn [fold_left RefsCount.delta dl on_event] in *.
    pose proof (delta_decs b e evs (fun v I => H v (or_intror I))).
    destruct (Nat.eqb_spec b' b) as [E|E].
    + change (meets d r e) with (ov r e). unfold RefsCount.zov in N |- *. destruct (ov r e) eqn:O.
      * destruct (Z.to_nat n) as [|m] eqn:M; [lia|].
        replace m with (Z.to_nat (n - 1)) by lia. rewrite IH; [f_equal; f_equal; lia | lia | intros; apply H; right; auto].
      * rewrite IH; [f_equal; f_equal; lia | lia | intros; apply H; right; auto].
    + rewrite IH; [f_equal; f_equal; lia | lia | intros; apply H; right; auto].
Qed.
Definition evb (v : ev) : bid := match v with EvNew b _ _ => b | EvInc b _ => b | EvDec b _ => b end.
Lemma run_other : forall b e evs c, (forall v, In v evs -> evb v <> b) -> fold_left (on_event d b e) evs c = c.
Proof.
  intros b e. induction evs as [|v evs IH]; intros c H; [reflexivity|]. cbn [fold_left]. rewrite IH by (intros; apply H; right; auto).
  specialize (H v (or_introl eq_refl)). destruct v; cbn in *; destruct (Nat.eqb_spec b0 b); congruence.
Qed.

(** *** Jobs *)
Fixpoint lsum (l : list krange) (e : xt) : Z := match l with [] => 0 | r :: l' => up (fst r) e - up (snd r) e + lsum l' e end.
Lemma lsum_app : forall e l l', lsum (l ++ l') e = lsum l e + lsum l' e.
Proof. induction l; intros; cbn [lsum app]; [lia|]. rewrite IHl. lia. Qed.
Definition lost_ok (l : list krange) : Prop := forall r, In r l -> kle d (fst r) (snd r).
Lemma lsum_nn : forall e l, lost_ok l -> 0 <= lsum l e.
Proof. induction l as [|r l IH]; intros H; cbn [lsum]; [lia|]. pose proof (up_mono d TO _ _ e (H r (or_introl eq_refl))). specialize (IH (fun r I => H r (or_intror I))). lia. Qed.
Fixpoint tlsum (b : bid) (e : xt) (l : list (bid * krange)) : Z :=
  match l with [] => 0 | p :: l' => (if (fst p =? b)%nat then up (fst (snd p)) e - up (snd (snd p)) e else 0) + tlsum b e l' end.
Lemma tlsum_app : forall b e l l', tlsum b e (l ++ l') = tlsum b e l + tlsum b e l'.
Proof. induction l; intros; cbn [tlsum app]; [lia|]. rewrite IHl. lia. Qed.
Lemma tlsum_map : forall b e b0 l, tlsum b e (map (fun r => (b0, r)) l) = if (b0 =? b)%nat then lsum l e else 0.
Proof. induction l as [|r l IH]; cbn [map tlsum lsum fst snd]; [destruct (_ =? _)%nat; reflexivity|]. rewrite IH. destruct (_ =? _)%nat; lia. Qed.
Lemma tlsum_nn : forall b e (l : list (bid * krange)), (forall p : bid * krange, In p l -> kle d (fst (snd p)) (snd (snd p))) -> 0 <= tlsum b e l.
Proof. induction l as [|p l IH]; intros H; cbn [tlsum]; [lia|]. pose proof (up_mono d TO _ _ e (H p (or_introl eq_refl))). specialize (IH (fun r I => H r (or_intror I))). destruct (_ =? _)%nat; lia. Qed.

Definition jm (b : bid) (e : xt) (j : job) : Z :=
  match j_ph j with
  | Queued => 0
  | Reading => cnt b e (j_src j)
  | Placing (Some b') pos _ lost => if (b' =? b)%nat then up pos e + lsum lost e else 0
  | Placing None _ _ _ => 0
  end.
Fixpoint jsum (b : bid) (e : xt) (l : list job) : Z := match l with [] => 0 | j :: l' => jm b e j + jsum b e l' end.
Lemma jsum_app : forall b e l l', jsum b e (l ++ l') = jsum b e l + jsum b e l'.
Proof. induction l; intros; cbn [jsum app]; [lia|]. rewrite IHl. lia. Qed.

Definition with_ph (j : job) (ph : phase) : job := Job (j_id j) (j_h j) (j_node j) (j_lo j) (j_hi j) (j_live j) (j_src j) ph.
Lemma find_split : forall t l j, NoDup (map j_id l) -> find (fun j => j_id j =? t)%nat l = Some j ->
  j_id j = t /\ exists a c, l = a ++ j :: c /\ (forall ph, set_ph t ph l = a ++ with_ph j ph :: c) /\ drop_job t l = a ++ c.
Proof.
  intros t. induction l as [|x l IH]; intros j ND F; cbn [find] in F; [discriminate|]. cbn [map] in ND. inversion ND as [|? ? N1 N2]; subst.
  cbn [set_ph map drop_job filter]. destruct (Nat.eqb_spec (j_id x) t) as [E|E].
  - inversion F; subst j. split; auto. exists [], l. cbn [app]. split; [reflexivity|].
    assert (H : forall y, In y l -> j_id y <> t). { intros y I Q. apply N1. rewrite E, <- Q. apply in_map. exact I. }
    split.
    + intros ph. f_equal. clear - H. induction l as [|y l IH]; [reflexivity|]. cbn [map].
      rewrite IH by (intros; apply H; right; auto). destruct (Nat.eqb_spec (j_id y) t); [|reflexivity]. destruct (H y (or_introl eq_refl) e).
    + cbn [negb]. clear - H. induction l as [|y l IH]; [reflexivity|]. cbn [filter].
      destruct (Nat.eqb_spec (j_id y) t); [destruct (H y (or_introl eq_refl) e)|]. cbn [negb]. rewrite IH by (intros; apply H; right; auto). reflexivity.
  - destruct (IH _ N2 F) as (Q & a & c & -> & S & D). split; auto. exists (x :: a), c. cbn [app negb]. repeat split.
    + intros ph. f_equal. apply S.
    + f_equal. exact D.
Qed.

(** *** Measure *)
Definition M (s : rst) (b : bid) (e : xt) : Z := pcs b e (t_lev s) + jsum b e (t_jobs s) + tlsum b e (t_lost s).
Definition ext (lo hi : key) (e : xt) : Prop := kle d (fst e) (snd e) /\ kle d (fst e) hi /\ kle d lo (snd e).

Definition made (l : list ev) (b : bid) : Prop := exists lo hi, In (EvNew b lo hi) l.
Lemma fresh_made : forall b l, fresh b l = true <-> ~ made l b.
Proof.
  intros b l. unfold fresh. rewrite negb_true_iff. split.
  - intros H (lo & hi & I). assert (existsb (is_new b) l = true); [|congruence]. apply existsb_exists. exists (EvNew b lo hi). split; auto. cbn. apply Nat.eqb_refl.
  - intros H. destruct (existsb (is_new b) l) eqn:E; [|reflexivity]. exfalso. apply H. apply existsb_exists in E. destruct E as (v & I & Q).
    destruct v; try discriminate. cbn in Q. apply Nat.eqb_eq in Q. subst. exists lo, hi. exact I.
Qed.

Definition cnt_ok (s : rst) : Prop := forall b lo hi e, In (EvNew b lo hi) (t_led s) -> ext lo hi e ->
  references d b e (t_led s) = Has (Z.to_nat (M s b e)).
Definition led_ok (l : list ev) : Prop :=
  (forall v, In v l -> made l (evb v)) /\
  (forall b lo hi lo' hi', In (EvNew b lo hi) l -> In (EvNew b lo' hi') l -> lo = lo' /\ hi = hi').

Definition is_inc (v : ev) : Prop := exists b r, v = EvInc b r.
Definition is_dec (v : ev) : Prop := exists b r, v = EvDec b r.

Lemma cert_old : forall s s' incs decs, cnt_ok s -> led_ok (t_led s) ->
  t_led s' = t_led s ++ incs ++ decs -> Forall is_inc incs -> Forall is_dec decs ->
  (forall v, In v (incs ++ decs) -> made (t_led s) (evb v)) ->
  (forall b e, 0 <= M s b e) -> (forall b e, 0 <= M s' b e) ->
  (forall b lo hi e, In (EvNew b lo hi) (t_led s) -> ext lo hi e ->
     (forall r, In (EvInc b r) incs -> ov r e = true -> 1 <= M s b e) /\ M s' b e = M s b e + delta b e (incs ++ decs)) ->
  cnt_ok s' /\ led_ok (t_led s').
Proof.
  intros s s' incs decs C L E I D MD N N' H. rewrite Forall_forall in I, D.
  assert (NI : forall b lo hi, In (EvNew b lo hi) (t_led s') -> In (EvNew b lo hi) (t_led s)).
  { intros b lo hi X. rewrite E in X. apply in_app_or in X. destruct X as [X|X]; auto. apply in_app_or in X.
    destruct X as [X|X]; [destruct (I _ X) as (? & ? & ?) | destruct (D _ X) as (? & ? & ?)]; discriminate. }
  split; [|split].
  - intros b lo hi e X Y. apply NI in X. destruct (H b lo hi e X Y) as [H1 H2]. unfold references in *. rewrite E, !fold_left_app.
    pose proof (C b lo hi e X Y) as C1. unfold references in C1. rewrite C1.
    destruct (run_incs b e incs (M s b e)) as [R1 R2]; [apply N| |].
    { intros v IV. destruct (I _ IV) as (b' & r & ->). exists b', r. split; auto. intros -> O. eapply H1; eauto. }
    rewrite R1. rewrite run_decs.
    + rewrite H2, delta_app by exact TO. f_equal; f_equal; lia.
    + rewrite delta_app in H2 by exact TO. specialize (N' b e). lia.
    + intros v IV. destruct (D _ IV) as (b' & r & ->). eauto.
  - intros v IV. rewrite E in IV. apply in_app_or in IV. assert (Q : made (t_led s) (evb v)) by (destruct IV; [apply L|]; auto).
    destruct Q as (lo & hi & Q). exists lo, hi. rewrite E. apply in_or_app. left. exact Q.
  - intros b lo hi lo' hi' X Y. apply NI in X, Y. exact (proj2 L _ _ _ _ _ X Y).
Qed.

Lemma cert_new : forall s s' b0 lo0 hi0 incs decs, cnt_ok s -> led_ok (t_led s) -> ~ made (t_led s) b0 ->
  t_led s' = t_led s ++ EvNew b0 lo0 hi0 :: incs ++ decs -> Forall is_inc incs -> Forall is_dec decs ->
  (forall v, In v (incs ++ decs) -> made (t_led s) (evb v) \/ evb v = b0) ->
  (forall v, In v decs -> evb v <> b0) ->
  (forall b e, 0 <= M s b e) -> (forall b e, 0 <= M s' b e) ->
  (forall b lo hi e, In (EvNew b lo hi) (t_led s) -> ext lo hi e ->
     (forall r, In (EvInc b r) incs -> ov r e = true -> 1 <= M s b e) /\ M s' b e = M s b e + delta b e (incs ++ decs)) ->
  (forall e, ext lo0 hi0 e -> M s' b0 e = 1 + delta b0 e incs) ->
  cnt_ok s' /\ led_ok (t_led s').
Proof.
  intros s s' b0 lo0 hi0 incs decs C L F E I D MD MD2 N N' H H0. rewrite Forall_forall in I, D.
  assert (NI : forall b lo hi, In (EvNew b lo hi) (t_led s') -> In (EvNew b lo hi) (t_led s) /\ b <> b0 \/ b = b0 /\ lo = lo0 /\ hi = hi0).
  { intros b lo hi X. rewrite E in X. apply in_app_or in X. destruct X as [X|X].
    - left. split; auto. intros ->. apply F. exists lo, hi. exact X.
    - destruct X as [X|X]; [inversion X; auto|]. apply in_app_or in X.
      destruct X as [X|X]; [destruct (I _ X) as (? & ? & ?) | destruct (D _ X) as (? & ? & ?)]; discriminate. }
  split; [|split].
  - intros b lo hi e X Y. apply NI in X. destruct X as [[X NE]|(-> & -> & ->)].
    + destruct (H b lo hi e X Y) as [H1 H2]. unfold references in *. rewrite E, fold_left_app. cbn [fold_left on_event].
      destruct (Nat.eqb_spec b0 b); [congruence|]. rewrite fold_left_app.
      pose proof (C b lo hi e X Y) as C1. unfold references in C1. rewrite C1.
      destruct (run_incs b e incs (M s b e)) as [R1 R2]; [apply N| |].
      { intros v IV. destruct (I _ IV) as (b' & r & ->). exists b', r. split; auto. intros -> O. eapply H1; eauto. }
      rewrite R1. rewrite run_decs.
      * rewrite H2, delta_app by exact TO. f_equal; f_equal; lia.
      * rewrite delta_app in H2 by exact TO. specialize (N' b e). lia.
      * intros v IV. destruct (D _ IV) as (b' & r & ->). eauto.
    + unfold references. rewrite E, fold_left_app. rewrite (run_other b0 e (t_led s)).
      2:{ intros v IV Q. apply F. destruct L as [L _]. rewrite <- Q. apply L. exact IV. }
      cbn [fold_left on_event]. rewrite Nat.eqb_refl, fold_left_app. change (Has 1) with (Has (Z.to_nat 1)).
      destruct (run_incs b0 e incs 1) as [R1 R2]; [lia| |].
      { intros v IV. destruct (I _ IV) as (b' & r & ->). exists b', r. split; auto. intros; lia. }
      rewrite R1. rewrite (run_other b0 e decs) by exact MD2. rewrite H0 by exact Y. reflexivity.
  - intros v IV. rewrite E in IV. apply in_app_or in IV. destruct IV as [IV|[IV|IV]].
    + destruct (proj1 L _ IV) as (lo & hi & Q). exists lo, hi. rewrite E. apply in_or_app. left. exact Q.
    + subst v. exists lo0, hi0. rewrite E. apply in_or_app. right. left. reflexivity.
    + destruct (MD _ IV) as [(lo & hi & Q)| ->].
      * exists lo, hi. rewrite E. apply in_or_app. left. exact Q.
      * exists lo0, hi0. rewrite E. apply in_or_app. right. left. reflexivity.
  - intros b lo hi lo' hi' X Y. apply NI in X, Y. destruct X as [[X X']|(-> & -> & ->)], Y as [[Y Y']|(? & ? & ?)]; subst; try congruence; auto.
    exact (proj2 L _ _ _ _ _ X Y).
Qed.
End Steps.
