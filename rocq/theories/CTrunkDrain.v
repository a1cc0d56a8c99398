(** Compactions wait for the readers of the nodes they go through. *)
From Coq Require Import List Arith Bool Lia.
Import ListNotations.
From Verif Require Import CTrunk CTrunkSpec CTrunkInv CTrunkOps CTrunkProofs CTrunkSteps CTrunkLin.
Local Open Scope nat_scope.

(** The nodes whose readers have gone. *)
Definition dry (t : pc) : list nat :=
  match t with K2 _ _ a => [a] | K1 _ _ (Some b) _ => [b] | _ => [] end.
Lemma dry_locks : forall t a, In a (dry t) -> In a (locks t).
Proof. destruct t; cbn; try tauto. destruct up; cbn; tauto. Qed.

Definition dinv (s : state) : Prop := forall i j t u a, i <> j -> nth_error (ths s) i = Some t -> nth_error (ths s) j = Some u ->
  In a (dry t) -> ~ In a (reads u).

Lemma go_dry : forall s i t x s' t' l, go s i t x = Some (s', t', l) ->
  (forall a, In a (dry t') -> In a (dry t) \/ unread s i a = true) /\
  (forall a, In a (reads t') -> In a (reads t) \/ can_get s i a = true).
Proof.
  intros s i t x s' t' l E. unfold go, same_st in E. destruct t; try (destruct x; discriminate); destruct x; try discriminate;
    repeat match type of E with
    | (if ?b then _ else _) = _ => destruct b eqn:?
    | match ?x with Some _ => _ | None => _ end = _ => destruct x eqn:?
    end; try discriminate; injection E as <- <- <-; cbn; split; intros b Hb; try tauto.
  all: repeat match goal with H : _ \/ _ |- _ => destruct H end; subst; auto; tauto.
Qed.

Lemma step_dry : forall s i c s' l, dinv s -> step s i c = Some (s', l) -> dinv s'.
Proof.
  intros s i c s' l D E. unfold step in E. destruct (nth_error (ths s) i) as [t|] eqn:Hi; [|discriminate].
  assert (X : forall s1 t1, (forall a, In a (dry t1) -> In a (dry t) \/ unread s i a = true) ->
     (forall a, In a (reads t1) -> In a (reads t) \/ can_get s i a = true) -> dinv (set_ths s1 (put (ths s) i t1))).
  { intros s1 t1 D1 R1 j k u w a Z Hj Hk Hd Hr. cbn in Hj, Hk. rewrite (nth_put _ _ _ _ _ Hi) in Hj. rewrite (nth_put _ _ _ _ _ Hi) in Hk.
    destruct (Nat.eqb_spec j i) as [->|Zj]; destruct (Nat.eqb_spec k i) as [->|Zk]; [congruence| | |exact (D j k u w a Z Hj Hk Hd Hr)].
    - injection Hj as <-. destruct (D1 a Hd) as [Y|Y]; [exact (D i k t w a Z Hi Hk Y Hr)|]. exact (nobody_spec reads a _ i Y k w Zk Hk Hr).
    - injection Hk as <-. destruct (R1 a Hr) as [Y|Y]; [exact (D j i u t a Zj Hj Hi Hd Y)|].
      exact (nobody_spec locks a _ i Y j u Zj Hj (dry_locks _ _ Hd)). }
  destruct c as [c|x].
  - destruct t; try discriminate. destruct (start s c) as [[s1 t1]|] eqn:Es; [|discriminate]. injection E as <- <-.
    unfold start in Es. destruct c; try (injection Es as <- <-; apply X; cbn; tauto).
    destruct ((h <=? ht (mem s (root s))) && forallb (fun b => b <? nb s) seg); [|discriminate]. injection Es as <- <-. apply X; cbn; tauto.
  - destruct (go s i t x) as [[[s1 t1] l1]|] eqn:Eg; [|discriminate]. injection E as <- <-.
    destruct (go_dry _ _ _ _ _ _ _ Eg). apply X; auto.
Qed.
Lemma runs_dry : forall n tr s, runs (init n) tr s -> dinv s.
Proof.
  intros n tr s R. remember (init n) as s0 eqn:E0. induction R as [s1|s1 tr s' i c s'' l R IH St].
  - subst s1. intros i j t u a _ H. apply nth_repeat_some in H. subst t. cbn. tauto.
  - eapply step_dry; eauto.
Qed.

Lemma strip_in : forall sg l r, strip sg l = Some r -> l = sg ++ r.
Proof.
  induction sg as [|x sg IH]; intros [|y l] r; cbn [strip]; try (intros [= <-]; reflexivity); try discriminate.
  destruct (Nat.eqb_spec x y) as [->|]; [|discriminate]. intros H. cbn. f_equal. auto.
Qed.
Lemma live_in : forall sg l b, live sg l = true -> In b sg -> In b l.
Proof.
  intros sg l b. unfold live. induction l as [|x l IH]; cbn [swap].
  - destruct (strip sg []) eqn:E; [|discriminate]. apply strip_in in E. destruct sg; [auto|discriminate].
  - destruct (strip sg (x :: l)) eqn:E; [intros _ H; apply strip_in in E; rewrite E; apply in_or_app; auto|].
    destruct (swap sg [] l); [|discriminate]. intros _ H. right. apply IH; auto.
Qed.

(** Whose space a step gives up. *)
Lemma gives_up : forall s i c s' l b k, step s i c = Some (s', l) -> fr s b k = false -> fr s' b k = true ->
  exists o e a p, nth_error (ths s) i = Some (K2 o e a) /\ In b (seg o) /\ slot k (pvs (mem s a)) = Some p /\ In b (bs p) /\ below k (ub (mem s a)) = true.
Proof.
  intros s i c s' l b k E F F'. unfold step in E. destruct (nth_error (ths s) i) as [t|] eqn:Hi; [|discriminate].
  destruct c as [c|x].
  - destruct t; try discriminate. destruct (start s c) as [[s1 t1]|] eqn:Es; [|discriminate]. injection E as <- <-.
    unfold start in Es. exfalso. destruct c; try (injection Es as <- <-; cbn in F'; congruence).
    destruct ((h <=? ht (mem s (root s))) && forallb (fun b => b <? nb s) seg); [|discriminate]. injection Es as <- <-. cbn in F'. congruence.
  - destruct (go s i t x) as [[[s1 t1] l1]|] eqn:Eg; [|discriminate]. injection E as <- <-. cbn in F'.
    assert (Q : (exists o e a, t = K2 o e a /\ s1 = freed s (seg o) (mem s a)) \/ fr s1 = fr s).
    { unfold go, same_st, flush, grow in Eg. destruct t; try (destruct x; discriminate); destruct x; try discriminate;
      repeat match type of Eg with
      | (if ?b then _ else _) = _ => destruct b eqn:?
      | match ?x with Some _ => _ | None => _ end = _ => destruct x eqn:?
      end; try discriminate; try (injection Eg as <- <- <-; right; reflexivity).
      - injection Eg as <- <- <-. left. eauto.
      - match goal with H : match _ with _ => _ end = Some _ |- _ =>
          repeat match type of H with
          | (if ?b then _ else _) = _ => destruct b
          | match ?x with Some _ => _ | None => _ end = _ => destruct x
          end; try discriminate; injection H as <- end. injection Eg as <- <- <-. right. reflexivity.
      - match goal with H : match _ with _ => _ end = Some _ |- _ =>
          repeat match type of H with
          | match ?x with Some _ => _ | None => _ end = _ => destruct x
          end; try discriminate; injection H as <- end. injection Eg as <- <- <-. right. reflexivity. }
    destruct Q as [(o & e & a & -> & ->)|Q]; [|congruence].
    cbn in F'. rewrite F in F'. cbn in F'. apply andb_true_iff in F'. destruct F' as [F1 F2]. apply andb_true_iff in F1. destruct F1 as [F1 F3].
    destruct (slot k (pvs (mem s a))) as [p|] eqn:Sp; [|discriminate]. apply isin_In in F1. exists o, e, a, p. split; auto. split; auto. split; auto.
    split; auto. eapply live_in; eauto.
Qed.

Theorem trunk_drains : forall n tr s i c s' l b k, runs (init n) tr s -> step s i c = Some (s', l) ->
  fr s b k = false -> fr s' b k = true ->
  exists a p, slot k (pvs (mem s a)) = Some p /\ In b (bs p) /\ forall j u, nth_error (ths s) j = Some u -> ~ In a (reads u).
Proof.
  intros n tr s i c s' l b k R E F F'. destruct (gives_up _ _ _ _ _ _ _ E F F') as (o & e & a & p & Hi & _ & Sp & Hb & _).
  exists a, p. split; auto. split; auto. intros j u Hj. destruct (Nat.eq_dec j i) as [->|Z].
  - rewrite Hi in Hj. injection Hj as <-. cbn. tauto.
  - eapply (runs_dry _ _ _ R i j); eauto. cbn. auto.
Qed.
