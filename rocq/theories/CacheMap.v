(** The lookup table has no stale slots: a slot names an entry that has the
    address, or that is about to be given it. *)
From Coq Require Import List Arith Bool Lia.
From Verif Require Import Cache CacheSpec CacheLocal CacheProofs.
Import ListNotations.
Local Open Scope nat_scope.

(** The agent knows that its entry is not in the slot of [a]. *)
Definition gone (a : nat) (p : lpc) : bool :=
  match p with
  | PLook b | PDa b | NDa b | EDa b | DDa b => b =? a
  | _ => false
  end.

Record Inv3 (s : state) : Prop := {
  m_found : forall a e, lkp s a = Some e ->
    da (ents s e) = Some a \/
    exists i t f, nth_error (ags s) i = Some (t, On e (LAddr f a));
  m_gone : forall i t e p a, nth_error (ags s) i = Some (t, On e p) -> gone a p = true ->
    lkp s a <> Some e
}.

Lemma gone_ver a p : gone a p = true -> verif p = Some a.
Proof. destruct p; cbn; intros H; try discriminate; apply Nat.eqb_eq in H; subst; reflexivity. Qed.
Lemma gone_kind a p : gone a p = true -> loaderb p = true \/ (claimsb p = true /\ heldty p = true).
Proof. destruct p; cbn; intros H; try discriminate; auto. Qed.

Section Step3.
Context {s : state} {i t e : nat} {p : lpc} {c : act} {en' : entry} {r : res}.
Hypothesis I : Inv s.
Hypothesis K : Inv3 s.
Hypothesis Hi : nth_error (ags s) i = Some (t, On e p).
Let won := wins p (lkp s).
Hypothesis H : lstep t (ents s e) p c won = (en', r).
Let s' := St (upd (ents s) e en') (leff e p won (lkp s)) (busy s)
             (put (ags s) i (t, aft e r)).

Lemma np3 j : nth_error (ags s') j = if j =? i then Some (t, aft e r) else nth_error (ags s) j.
Proof. cbn [s' ags]. apply (nth_put _ _ _ j _ Hi). Qed.

Lemma da_keep a : da (ents s e) = Some a -> gone a p = false -> da en' = Some a.
Proof.
  intros D G. pose proof (i_ok1 _ I _ _ _ _ Hi) as P1.
  pose proof (o_noda _ _ P1) as N. pose proof (o_ver _ _ P1) as V.
  assert (V' : forall b, verif p = Some b -> b = a).
  { intros b X. destruct (V b X). congruence. }
  clear - H D G N V'. revert H. destruct p; cbn [lstep]; intros H; bust; try discriminate;
    apply res_pair in H as [HE HR]; subst en';
    cbn [w_st w_da w_pin inc_ref dec_ref da] in *; auto;
    try congruence; try (destruct (N eq_refl); congruence).
  all: cbn [gone] in G; rewrite (V' _ eq_refl), Nat.eqb_refl in G; discriminate.
Qed.

Lemma found3 a e2 : lkp s' a = Some e2 ->
  da (ents s' e2) = Some a \/
  exists j tj f, nth_error (ags s') j = Some (tj, On e2 (LAddr f a)).
Proof.
  cbn [s' lkp ents]. intros L.
  destruct (leff_cases e p won (lkp s) a) as [X|[[X1 X2]|[(X1 & X2 & X3)|[X1 X2]]]].
  - rewrite X in L. destruct (m_found _ K _ _ L) as [D|(j & tj & f & J)].
    + left. unfold upd. destruct (e2 =? e) eqn:E; [|exact D].
      apply Nat.eqb_eq in E. subst e2. apply da_keep; [exact D|].
      destruct (gone a p) eqn:G; [|reflexivity].
      exfalso. exact (m_gone _ K _ _ _ _ _ Hi G L).
    + destruct (Nat.eq_dec j i) as [->|N].
      * rewrite Hi in J. injection J as -> -> ->. left. unfold upd. rewrite Nat.eqb_refl.
        cbn [lstep] in H. apply res_pair in H as [<- _]. reflexivity.
      * right. exists j, tj, f. rewrite np3, (proj2 (Nat.eqb_neq j i) N). exact J.
  - congruence.
  - assert (e2 = e) by congruence. subst e2.
    pose proof (i_ok1 _ I _ _ _ _ Hi) as P1. pose proof H as H0. rewrite X2 in H0.
    destruct X3 as [[f PE]|PE]; rewrite PE in H0, P1; cbn [lstep] in H0;
      apply res_pair in H0 as [E1 E2].
    + right. exists i, t, f. rewrite np3, Nat.eqb_refl, <- E2. reflexivity.
    + left. unfold upd. rewrite Nat.eqb_refl, <- E1. apply (o_ver _ _ P1 a eq_refl).
  - assert (e2 = e) by congruence. subst e2. left. unfold upd. rewrite Nat.eqb_refl.
    pose proof (i_ok1 _ I _ _ _ _ Hi) as P1. pose proof H as H0.
    rewrite X2 in H0, P1. cbn [lstep] in H0. apply res_pair in H0 as [<- _].
    apply (o_ver _ _ P1 a eq_refl).
Qed.

Lemma gone3 j tj e2 q a : nth_error (ags s') j = Some (tj, On e2 q) -> gone a q = true ->
  lkp s' a <> Some e2.
Proof.
  rewrite np3. destruct (j =? i) eqn:E.
  - intros X G. injection X as -> X.
    assert (e2 = e /\ r = Stay q) as [-> R].
    { destruct r as [p'|n]; cbn in X; [injection X as -> ->; auto|destruct n; discriminate]. }
    cbn [s' lkp]. clear X.
    pose proof (m_found _ K) as F. pose proof (i_ok1 _ I _ _ _ _ Hi) as P1.
    assert (PA : p = PAddr a -> lkp s a <> Some e).
    { intros -> L. destruct (F _ _ L) as [D|(j2 & t2 & f & J)].
      - destruct (o_noda _ _ P1 eq_refl). congruence.
      - assert (NJ : i <> j2) by (intros ->; rewrite Hi in J; discriminate J).
        pose proof (q_load _ _ _ _ (i_ok2 _ I i j2 _ _ _ _ _ NJ Hi J) eq_refl). discriminate. }
    pose proof (m_gone _ K i _ e p a Hi) as GP.
    clear - H R G PA GP. revert H. subst won. rewrite R.
    destruct p; cbn [lstep]; intros H; bust; try discriminate;
      apply res_pair in H as [_ HR]; try discriminate HR; injection HR as <-;
      cbn [gone] in G; try discriminate G; apply Nat.eqb_eq in G; subst;
      cbn [leff wins] in *; unfold upd in *; rewrite ?Nat.eqb_refl in *;
      try discriminate; auto.
    all: try (destruct (lkp s a) eqn:LA; try discriminate; auto).
    all: apply GP; apply Nat.eqb_refl.
  - intros X G. apply Nat.eqb_neq in E. cbn [s' lkp].
    pose proof (m_gone _ K _ _ _ _ _ X G) as NL.
    destruct (leff_cases e p won (lkp s) a) as [Y|[[Y1 Y2]|[(Y1 & Y2 & Y3)|[Y1 Y2]]]].
    + congruence.
    + congruence.
    + rewrite Y1. intros Z. injection Z as <-.
      pose proof (i_ok2 _ I i j _ _ _ _ _ (not_eq_sym E) Hi X) as O2.
      assert (LP : loaderb p = true) by (destruct Y3 as [[f ->]| ->]; reflexivity).
      destruct (gone_kind _ _ G) as [L|[C HD]].
      * rewrite (q_load _ _ _ _ O2 LP) in L. discriminate.
      * pose proof (o_load _ _ (i_ok1 _ I _ _ _ _ Hi) LP).
        pose proof (o_held _ _ (i_ok1 _ I _ _ _ _ X) HD). congruence.
    + rewrite Y1. intros Z. injection Z as <-. subst p.
      pose proof (i_ok2 _ I i j _ _ _ _ _ (not_eq_sym E) Hi X) as O2.
      destruct (gone_kind _ _ G) as [L|[C HD]].
      * pose proof (o_load _ _ (i_ok1 _ I _ _ _ _ X) L).
        pose proof (o_held _ _ (i_ok1 _ I _ _ _ _ Hi) eq_refl). congruence.
      * rewrite (q_claim _ _ _ _ O2 eq_refl) in C. discriminate.
Qed.

Lemma Inv3_on : Inv3 s'.
Proof. constructor; [apply found3|apply gone3]. Qed.
End Step3.

Lemma Inv3_put s i x b' :
  Inv3 s -> (exists y, nth_error (ags s) i = Some y /\ offp (snd y)) ->
  (forall e p, snd x = On e p -> start p = true) ->
  Inv3 (St (ents s) (lkp s) b' (put (ags s) i x)).
Proof.
  intros K ([ty y] & Y & O) ST. constructor; cbn [lkp ents ags].
  - intros a e L. destruct (m_found _ K _ _ L) as [D|(j & tj & f & J)]; [left; exact D|right].
    exists j, tj, f. rewrite (nth_put _ _ _ j _ Y). destruct (j =? i) eqn:E; [|exact J].
    apply Nat.eqb_eq in E. subst j. rewrite Y in J. injection J as -> ->. destruct O.
  - intros j tj e p a X G. rewrite (nth_put _ _ _ j _ Y) in X. destruct (j =? i) eqn:E.
    + injection X as ->. specialize (ST _ _ eq_refl). destruct p; discriminate.
    + exact (m_gone _ K _ _ _ _ _ X G).
Qed.

Lemma Inv3_step s i c s' : Inv s -> Inv3 s -> step s i c = Some s' -> Inv3 s'.
Proof.
  intros I K H. unfold step in H.
  destruct (nth_error (ags s) i) as [[t x]|] eqn:Hi; [|discriminate].
  assert (MV : forall x', offp x -> (forall e p, x' = On e p -> start p = true) -> Inv3 (move s i t x')).
  { intros x' O ST. apply Inv3_put; auto. exists (t, x). auto. }
  assert (BS : forall b v, Inv3 (St (ents s) (lkp s) (upd (busy s) b v) (ags s))).
  { intros b v. destruct K. constructor; auto. }
  destruct x as [|k|f|e p].
  - destruct c; try discriminate; bust;
      repeat match goal with X : context [match ?o with Some _ => _ | None => _ end] |- _ => destruct o end; bust;
      try discriminate; injection H as <-; auto; apply MV; try exact Logic.I; intros ? ? E; try discriminate E;
      injection E as <- <-; reflexivity.
  - destruct (target k); [|discriminate]. destruct (lkp s n).
    + injection H as <-. apply MV; [exact Logic.I|]. intros ? ? E. injection E as <- <-. reflexivity.
    + destruct k; injection H as <-; apply MV; try exact Logic.I; discriminate.
  - destruct c; try discriminate. destruct (busy s (batch e)); [|discriminate].
    destruct ((n =? t) && others_free t i (ags s)); [|discriminate].
    injection H as <-. apply MV; [exact Logic.I|]. intros ? ? E. injection E as <- <-. reflexivity.
  - destruct c; try discriminate.
    destruct (lstep t (ents s e) p c (wins p (lkp s))) as [en' r] eqn:LS.
    injection H as <-. exact (Inv3_on I K Hi LS).
Qed.

Lemma kept_Inv3 ts s : kept ts s -> Inv3 s.
Proof.
  induction 1 as [|s i c s' K IH CR NR H].
  - constructor; [discriminate|]. intros. cbn [init lkp]. discriminate.
  - eapply Inv3_step; eauto. eapply kept_Inv; eauto.
Qed.
