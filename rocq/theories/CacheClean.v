(** A second layer of invariants of the page cache: writeback and write locks
    exclude each other, and only clean pages are evicted. *)
From Coq Require Import List Arith Bool Lia.
From Verif Require Import Cache CacheSpec CacheLocal CacheProofs.
Import ListNotations.
Local Open Scope nat_scope.

(** The agent has set the writeback flag. *)
Definition wbing (p : lpc) : bool := match p with W1 | W2 => true | _ => false end.

(** It has seen the writeback flag clear since it took the write lock or started
    the load. *)
Definition nowb (p : lpc) : bool :=
  match p with
  | CScan _ _ | Locked _ | EScan _ | EStat | EPin | EMap | EMapW _ | EDa _ | EStore
  | DScan _ _ | DMap _ | DDa _ | DStore | FInc _ | FSet _ | AAddr _ | AMap _ => true
  | _ => loaderb p
  end.

(** It has seen the page clean while it had the write lock. *)
Definition cleanp (p : lpc) : bool :=
  match p with EPin | EMap | EMapW _ | EDa _ | EStore => true | _ => false end.

Record Inv2 (s : state) : Prop := {
  k_wb : forall i t e p, nth_error (ags s) i = Some (t, On e p) -> wbing p = true ->
    wb (st (ents s e)) = true;
  k_nowb : forall i t e p, nth_error (ags s) i = Some (t, On e p) -> nowb p = true ->
    wb (st (ents s e)) = false;
  k_one : forall i j t t' e p q, i <> j ->
    nth_error (ags s) i = Some (t, On e p) -> nth_error (ags s) j = Some (t', On e q) ->
    wbing p = true -> wbing q = false;
  k_free : forall e, fr (st (ents s e)) = true -> wb (st (ents s e)) = false;
  k_clean : forall i t e p, nth_error (ags s) i = Some (t, On e p) -> cleanp p = true ->
    cl (st (ents s e)) = true
}.

Lemma nowb_cases q : nowb q = true -> writesb q = true \/ loaderb q = true.
Proof. destruct q; cbn; auto. Qed.
Lemma cleanp_cases q : cleanp q = true ->
  writesb q = true /\ heldty q = true /\ nowb q = true /\ (nofree q = true \/ noda q = true \/ exists a, verif q = Some a).
Proof. destruct q; cbn; try discriminate; intros _; repeat split; eauto. Qed.

Section Step2.
Context {s : state} {i t e : nat} {p : lpc} {c : act} {en' : entry} {r : res}.
Hypothesis I : Inv s.
Hypothesis K : Inv2 s.
Hypothesis Hi : nth_error (ags s) i = Some (t, On e p).
Let won := wins p (lkp s).
Hypothesis H : lstep t (ents s e) p c won = (en', r).

Ltac flg := repeat match goal with X : flags_eqb _ _ = true |- _ => apply flags_eqb_eq in X end.

(** The flags after the step, and what the stepping agent knows. *)
Lemma own2 p' : r = Stay p' ->
  (wbing p' = true -> wb (st en') = true) /\
  (nowb p' = true -> wb (st en') = false) /\
  (cleanp p' = true -> cl (st en') = true).
Proof.
  intros E. rewrite E in H.
  pose proof (k_wb _ K _ _ _ _ Hi) as A1. pose proof (k_nowb _ K _ _ _ _ Hi) as A2.
  pose proof (k_clean _ K _ _ _ _ Hi) as A3.
  pose proof (k_free _ K e) as A4.
  clear - H A1 A2 A3 A4. revert H.
  destruct p; cbn [lstep]; intros H; bust; try discriminate; apply res_pair in H as [HE HR];
    try discriminate HR; injection HR as <-; subst en'; flg;
    cbn [wbing nowb cleanp loaderb w_st w_da w_pin inc_ref dec_ref st set_ac set_cl set_wb set_ld set_wl set_cm
         st_free st_alloc st_wb1 st_wb2 st_loading wb cl] in *;
    repeat split; intros; auto; try discriminate; try congruence.
  rewrite Heqb. reflexivity.
Qed.

Lemma other2 j t' q : j <> i -> nth_error (ags s) j = Some (t', On e q) ->
  (wbing q = true -> wb (st en') = true) /\
  (nowb q = true -> wb (st en') = false) /\
  (cleanp q = true -> cl (st en') = true) /\
  (forall p', r = Stay p' -> wbing p' = true -> wbing q = false).
Proof.
  intros N Hj.
  pose proof (k_wb _ K _ _ _ _ Hi) as A1. pose proof (k_nowb _ K _ _ _ _ Hi) as A2.
  pose proof (k_clean _ K _ _ _ _ Hi) as A3.
  pose proof (k_free _ K e) as A4.
  pose proof (k_wb _ K _ _ _ _ Hj) as B1. pose proof (k_nowb _ K _ _ _ _ Hj) as B2.
  pose proof (k_clean _ K _ _ _ _ Hj) as B3.
  pose proof (k_one _ K i j t t' e p q (not_eq_sym N) Hi Hj) as O1.
  pose proof (i_ok1 _ I _ _ _ _ Hi) as P1. pose proof (i_ok1 _ I _ _ _ _ Hj) as Q1.
  pose proof (q_claim _ _ _ _ (i_ok2 _ I i j _ _ _ _ _ (not_eq_sym N) Hi Hj)) as C1.
  pose proof (o_load _ _ P1) as L1.
  assert (W1 : nowb q = true -> wl (st (ents s e)) = true \/ ld (st (ents s e)) = true).
  { intros X. destruct (nowb_cases _ X) as [Y|Y]; [left; apply (o_write _ _ Q1 Y)|right; apply (o_load _ _ Q1 Y)]. }
  assert (W2 : cleanp q = true -> claimsb q = true /\ ld (st (ents s e)) = false /\ fr (st (ents s e)) = false).
  { intros X. destruct (cleanp_cases _ X) as (Y1 & Y2 & Y3 & Y4).
    split; [apply writes_claims; exact Y1|]. split; [apply (o_held _ _ Q1 Y2)|].
    destruct Y4 as [Y|[Y|[a Y]]]; [apply (o_nofr _ _ Q1 Y)|apply (o_noda _ _ Q1 Y)|apply (o_ver _ _ Q1 _ Y)]. }
  clear - H A1 A2 A3 A4 B1 B2 B3 O1 C1 L1 W1 W2. revert H.
  destruct p; cbn [lstep]; intros H; bust; try discriminate; apply res_pair in H as [HE HR];
    subst en' r; flg;
    cbn [wbing nowb loaderb claimsb w_st w_da w_pin inc_ref dec_ref st set_ac set_cl set_wb set_ld set_wl set_cm
         st_free st_alloc st_wb1 st_wb2 st_loading wb cl] in *;
    (repeat split; [intros X..|intros p' E X; try discriminate E; injection E as <-; try discriminate X]); auto.
  all: try (specialize (B1 X)); try (specialize (B2 X)); try (specialize (B3 X)); try (specialize (W2 X); destruct W2 as (? & ? & ?));
       try (specialize (W1 X)).
  all: try specialize (A1 eq_refl); try specialize (A2 eq_refl); try specialize (C1 eq_refl);
       try specialize (L1 eq_refl); try specialize (O1 eq_refl).
  all: try congruence; auto.
  all: try (destruct (wbing q); [specialize (B1 eq_refl)|reflexivity]; congruence).
  all: try (match goal with Y : st _ = _ |- _ => rewrite Y in * end; cbn in *; destruct W1; congruence).
  all: try (match goal with Y : st _ = _ |- _ => rewrite Y in * end; cbn in *; try specialize (A4 eq_refl); try congruence; auto).
  all: destruct (wbing q); [discriminate (B1 eq_refl)|reflexivity].
Qed.

Lemma fr2 : fr (st en') = true -> wb (st en') = false.
Proof.
  pose proof (k_free _ K e) as A4. pose proof (k_nowb _ K _ _ _ _ Hi) as A2.
  clear - H A4 A2. revert H.
  destruct p; cbn [lstep]; intros H; bust; try discriminate; apply res_pair in H as [HE HR];
    subst en'; flg; cbn in *; intros; auto; try discriminate.
  all: rewrite Heqb; auto.
Qed.

Let s' := St (upd (ents s) e en') (leff e p won (lkp s)) (busy s)
             (put (ags s) i (t, aft e r)).

Lemma np2 j tj x : nth_error (ags s') j = Some (tj, x) ->
  (j = i /\ tj = t /\ x = aft e r) \/ (j <> i /\ nth_error (ags s) j = Some (tj, x)).
Proof.
  cbn [s' ags]. rewrite (nth_put _ _ _ j _ Hi). destruct (j =? i) eqn:E.
  - apply Nat.eqb_eq in E. intros X. left. repeat split; congruence.
  - apply Nat.eqb_neq in E. auto.
Qed.

Lemma aft_on2 e2 p2 : On e2 p2 = aft e r -> e2 = e /\ r = Stay p2.
Proof. destruct r as [p'|n]; cbn; [|destruct n; discriminate]. intros X; injection X as -> ->; auto. Qed.

Lemma cls j tj e2 q : nth_error (ags s') j = Some (tj, On e2 q) ->
  (wbing q = true -> wb (st (ents s' e2)) = true) /\
  (nowb q = true -> wb (st (ents s' e2)) = false) /\
  (cleanp q = true -> cl (st (ents s' e2)) = true).
Proof.
  intros X. cbn [s' ents]. unfold upd. apply np2 in X as [(-> & -> & X)|[N X]].
  - apply aft_on2 in X as [-> X]. rewrite Nat.eqb_refl. apply own2. exact X.
  - destruct (e2 =? e) eqn:E.
    + apply Nat.eqb_eq in E. subst e2. destruct (other2 _ _ _ N X) as (Y1 & Y2 & Y3 & _). auto.
    + repeat split; intros C; [eapply k_wb|eapply k_nowb|eapply k_clean]; eauto.
Qed.

Lemma Inv2_on : Inv2 s'.
Proof.
  constructor.
  - intros j tj e2 q X. apply (cls _ _ _ _ X).
  - intros j tj e2 q X. apply (cls _ _ _ _ X).
  - intros j k tj tk e2 q u N X1 X2 C.
    apply np2 in X1 as [(-> & -> & X1)|[N1 X1]]; apply np2 in X2 as [(-> & -> & X2)|[N2 X2]].
    + congruence.
    + apply aft_on2 in X1 as [-> X1]. destruct (other2 _ _ _ N2 X2) as (_ & _ & _ & Y). eauto.
    + apply aft_on2 in X2 as [-> X2]. destruct (other2 _ _ _ N1 X1) as (_ & _ & _ & Y).
      destruct (wbing u) eqn:U; [|reflexivity]. rewrite (Y _ X2 U) in C. discriminate.
    + eapply (k_one _ K j k); eauto.
  - intros e2. cbn [s' ents]. unfold upd. destruct (e2 =? e); [apply fr2|apply (k_free _ K)].
  - intros j tj e2 q X. apply (cls _ _ _ _ X).
Qed.
End Step2.

(** Agents that come to an entry have none of these places. *)
Lemma Inv2_put s i x l' b' :
  Inv2 s -> nth_error (ags s) i <> None ->
  (forall e p, snd x = On e p -> start p = true) ->
  Inv2 (St (ents s) l' b' (put (ags s) i x)).
Proof.
  intros K Hi ST. destruct (nth_error (ags s) i) as [y|] eqn:Y; [|congruence].
  assert (Z : forall j tj e p, nth_error (put (ags s) i x) j = Some (tj, On e p) ->
    nth_error (ags s) j = Some (tj, On e p) \/ (wbing p = false /\ nowb p = false /\ cleanp p = false)).
  { intros j tj e p X. rewrite (nth_put _ _ _ j _ Y) in X. destruct (j =? i); [|auto].
    right. injection X as X. subst x. specialize (ST _ _ eq_refl).
    destruct p; cbn in ST |- *; try discriminate; auto. }
  constructor; cbn [ents ags].
  - intros j tj e p X C. destruct (Z _ _ _ _ X) as [A|(A1 & A2 & A3)]; [eapply k_wb; eauto|congruence].
  - intros j tj e p X C. destruct (Z _ _ _ _ X) as [A|(A1 & A2 & A3)]; [eapply k_nowb; eauto|congruence].
  - intros j k tj tk e p q N X1 X2 C.
    destruct (Z _ _ _ _ X1) as [A|(A1 & A2 & A3)]; [|congruence].
    destruct (Z _ _ _ _ X2) as [B|(B1 & B2 & B3)]; [|exact B1].
    eapply (k_one _ K j k); eauto.
  - apply (k_free _ K).
  - intros j tj e p X C. destruct (Z _ _ _ _ X) as [A|(A1 & A2 & A3)]; [eapply k_clean; eauto|congruence].
Qed.

Lemma Inv2_step s i c s' : Inv s -> Inv2 s -> step s i c = Some s' -> Inv2 s'.
Proof.
  intros I K H. unfold step in H.
  destruct (nth_error (ags s) i) as [[t x]|] eqn:Hi; [|discriminate].
  assert (MV : forall x', (forall e p, x' = On e p -> start p = true) -> Inv2 (move s i t x')).
  { intros x' ST. apply Inv2_put; auto. congruence. }
  assert (BS : forall b v, Inv2 (St (ents s) (lkp s) (upd (busy s) b v) (ags s))).
  { intros b v. destruct K. constructor; auto. }
  destruct x as [|k|f|e p].
  - destruct c; try discriminate; bust;
      repeat match goal with X : context [match ?o with Some _ => _ | None => _ end] |- _ => destruct o end; bust;
      try discriminate; injection H as <-; auto; apply MV; intros ? ? E; try discriminate E;
      injection E as <- <-; reflexivity.
  - destruct (target k); [|discriminate]. destruct (lkp s n).
    + injection H as <-. apply MV. intros ? ? E. injection E as <- <-. reflexivity.
    + destruct k; injection H as <-; apply MV; discriminate.
  - destruct c; try discriminate. destruct (busy s (batch e)); [|discriminate].
    destruct ((n =? t) && others_free t i (ags s)); [|discriminate].
    injection H as <-. apply MV. intros ? ? E. injection E as <- <-. reflexivity.
  - destruct c; try discriminate.
    destruct (lstep t (ents s e) p c (wins p (lkp s))) as [en' r] eqn:LS.
    injection H as <-. exact (Inv2_on I K Hi LS).
Qed.

Lemma Inv2_init ts : Inv2 (init ts).
Proof.
  assert (Z : forall i t x, nth_error (ags (init ts)) i = Some (t, x) -> x = Idle).
  { intros i t x H. cbn in H. apply nth_error_In in H. apply in_map_iff in H as (y & Y & _). congruence. }
  constructor; intros; try (apply Z in H; discriminate); auto.
  apply Z in H0; discriminate.
Qed.

Lemma kept_Inv2 ts s : kept ts s -> Inv2 s.
Proof.
  induction 1 as [|s i c s' K IH CR NR H]; [apply Inv2_init|].
  eapply Inv2_step; eauto. eapply kept_Inv; eauto.
Qed.
