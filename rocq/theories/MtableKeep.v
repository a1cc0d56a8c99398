(** * Memtables: every step keeps what the threads know *)

From Coq Require Import List Arith NArith Bool Lia.
From Verif Require Import Base Spec Spec_Merge Mtable MtableInv MtableProofs.
Import ListNotations.

Section Keep.
Variable cfg : data_config.
Variable N : nat.
Hypothesis HN : 2 <= N.
Notation at_gen := (at_gen N).
Notation put_slot := (put_slot N).
Notation stepR := (stepR cfg N).
Notation inv := (inv cfg N).

Lemma own_fact : forall st t p g m, inv st -> g_pc st t = p -> owned p = Some (g, m) ->
  s_gen (at_gen st g) = g /\ s_tok (at_gen st g) = Own t /\ s_st (at_gen st g) = m.
Proof. intros st t p g m I P O. destruct (v_own _ _ _ I t) as [A _]. rewrite P in A. apply A; auto. Qed.

(** The state and token of the slot that a step changes *)
Lemma touch_ins : forall st t w g, inv st -> g_pc st t = I9 w g ->
  g = g_gen st /\ s_st (at_gen st g) = Ready /\ s_gen (at_gen st g) = g /\ s_tok (at_gen st g) = Nobody /\ s_rec (at_gen st g) = None.
Proof.
  intros st t w g I P. pose proof (v_ins _ _ _ I t) as V. rewrite P in V. cbn in V. destruct V as [-> V].
  pose proof (st_at cfg N HN st I (g_gen st)) as S. unfold st_ok in S. rewrite V in S.
  pose proof (live_gen cfg N HN st I (g_gen st)) as L. pose proof (v_rg _ _ _ I).
  repeat split; try tauto. apply L. lia.
Qed.
Lemma touch_rec : forall st t g a, inv st -> (g_pc st t = Q1 g a \/ g_pc st t = Q2 g a \/ g_pc st t = Q3 g a) ->
  s_st (at_gen st g) = Incorporated /\ s_tok (at_gen st g) = Nobody /\ s_rec (at_gen st g) = Some t /\ s_holders (at_gen st g) = [].
Proof.
  intros st t g a I P. assert (s_rec (at_gen st g) = Some t) as E.
  { pose proof (v_rec _ _ _ I t) as V. destruct P as [P|[P|P]]; rewrite P in V; cbn in V; tauto. }
  destruct (recs_at cfg N HN st I g t E) as [H [S _]].
  pose proof (st_at cfg N HN st I g) as V. unfold st_ok in V. rewrite S in V. tauto.
Qed.
Lemma touch_done : forall st t g, inv st -> g_pc st t = F12 g ->
  s_gen (at_gen st g) = g /\ s_st (at_gen st g) = Incorporated /\ s_tok (at_gen st g) = Nobody /\ s_rec (at_gen st g) = None
  /\ s_base (at_gen st g) = true /\ g_ret st = S g.
Proof.
  intros st t g I P. pose proof (v_inc _ _ _ I t) as V. rewrite P in V. cbn in V. unfold after_switch in V.
  pose proof (st_at cfg N HN st I g) as S. unfold st_ok in S. destruct V as [[A B] [C [D E]]]. rewrite D in S. tauto.
Qed.
Lemma touch_task : forall st i g, inv st -> nth_error (g_tasks st) i = Some g ->
  s_gen (at_gen st g) = g /\ s_tok (at_gen st g) = InQueue /\ s_st (at_gen st g) = Finalized.
Proof.
  intros st i g I E. apply nth_error_In in E. destruct (v_tasks _ _ _ I g E) as [A B].
  pose proof (tok_at cfg N HN st I g) as T. unfold tok_ok in T. rewrite B in T. tauto.
Qed.
Lemma touch_inc : forall st t g nr, inv st -> (g_pc st t = F7 g nr \/ g_pc st t = F8 g nr) ->
  s_gen (at_gen st g) = g /\ s_tok (at_gen st g) = Nobody /\ g = g_ret st /\ s_cmt (at_gen st g) = s_tree (at_gen st g).
Proof.
  intros st t g nr I P. pose proof (v_inc _ _ _ I t) as V.
  pose proof (st_at cfg N HN st I g) as S. unfold st_ok in S.
  destruct P as [P|P]; rewrite P in V; cbn in V; unfold before_switch in V; destruct V as [[A [B [C D]]] _]; rewrite D in S; tauto.
Qed.

(** All that is known about the slot that a step changes *)
Ltac know I :=
  repeat match goal with H : g_pc ?st ?t = _ \/ _ |- _ => destruct H end;
  match goal with
  | H : g_pc ?st ?t = I9 _ _ |- _ => pose proof (touch_ins _ _ _ _ I H)
  | H : g_pc ?st ?t = Q1 _ _ |- _ => pose proof (touch_rec _ _ _ _ I (or_introl H))
  | H : g_pc ?st ?t = Q2 _ _ |- _ => pose proof (touch_rec _ _ _ _ I (or_intror (or_introl H)))
  | H : g_pc ?st ?t = Q3 _ _ |- _ => pose proof (touch_rec _ _ _ _ I (or_intror (or_intror H)))
  | H : g_pc ?st ?t = F12 _ |- _ => pose proof (touch_done _ _ _ I H)
  | H : nth_error (g_tasks ?st) _ = Some _ |- _ => pose proof (touch_task _ _ _ I H)
  | H : g_pc ?st ?t = F7 _ _ |- _ => pose proof (touch_inc _ _ _ _ I (or_introl H))
  | H : g_pc ?st ?t = F8 _ _ |- _ => pose proof (touch_inc _ _ _ _ I (or_intror H))
  | H : g_pc ?st ?t = I10 _ _ |- _ => pose proof (own_fact _ _ _ _ _ I H eq_refl)
  | H : g_pc ?st ?t = I7 _ _ |- _ => pose proof (own_fact _ _ _ _ _ I H eq_refl)
  | H : g_pc ?st ?t = I8 _ _ |- _ => pose proof (own_fact _ _ _ _ _ I H eq_refl)
  | H : g_pc ?st ?t = F0 _ |- _ => pose proof (own_fact _ _ _ _ _ I H eq_refl)
  | H : g_pc ?st ?t = F1 _ |- _ => pose proof (own_fact _ _ _ _ _ I H eq_refl)
  | H : g_pc ?st ?t = F2 _ |- _ => pose proof (own_fact _ _ _ _ _ I H eq_refl)
  | _ => idtac
  end;
  repeat match goal with H : _ /\ _ |- _ => destruct H end.

(** Split on whether the slot in question is the one that changed. *)
Ltac slotcase g' :=
  unfold Mtable.at_gen; proj; unfold upd;
  try match goal with
  | |- context [g' mod N =? ?y] =>
      let E := fresh "E" in let Ea := fresh "Ea" in destruct (g' mod N =? y) eqn:E;
      [apply Nat.eqb_eq in E;
       match type of E with _ = ?g mod N =>
         match goal with s : state |- _ => assert (at_gen s g' = at_gen s g) as Ea by (unfold Mtable.at_gen; rewrite E; reflexivity) end
       end|]
  end;
  repeat match goal with |- context [g_slots ?s (?g mod N)] => change (g_slots s (g mod N)) with (at_gen s g) end.

Lemma ready_keeps : forall st t st', inv st -> stepR st t st' -> (forall w g, g_pc st t <> I6 w g) ->
  forall g', s_st (at_gen st g') = Ready ->
  s_st (at_gen st' g') = Ready /\ (s_tree (at_gen st g') <> [] -> s_tree (at_gen st' g') <> []).
Proof.
  intros st t st' I R X g' E0.
  destruct R; try destruct a; try (exfalso; eapply X; eassumption);
    know I; slotcase g'; try (split; auto; fail); rewrite Ea in *; try congruence; split; auto; proj; auto.
  intros _ K. apply app_eq_nil in K. destruct K; discriminate.
Qed.

Lemma ins_locked : forall p, i_reader p = false -> i_writer p = false -> forall st, ins_ok N st p.
Proof. destruct p; cbn; intros; auto; discriminate. Qed.

Lemma writer_alone : forall st t, inv st -> i_writer (g_pc st t) = true -> forall t', t' <> t ->
  i_reader (g_pc st t') = false /\ i_writer (g_pc st t') = false.
Proof.
  intros st t I W t' D. pose proof (v_ilock _ _ _ I t) as V. pose proof (v_ilock _ _ _ I t') as V'.
  rewrite W in V. unfold holds_lock in *. destruct (g_ilock st) as [l|x]; destruct V as [V1 V2], V' as [V3 V4]; [discriminate|].
  split; auto. destruct (i_writer (g_pc st t')); auto. specialize (V2 eq_refl). specialize (V4 eq_refl). congruence.
Qed.
Lemma lwriter_alone : forall st t, inv st -> l_writer (g_pc st t) = true -> forall t', l_reader (g_pc st t') = false.
Proof.
  intros st t I W t'. pose proof (v_llock _ _ _ I t) as V. pose proof (v_llock _ _ _ I t') as V'.
  rewrite W in V. unfold holds_lock in *. destruct (g_llock st) as [l|x]; destruct V as [V1 V2], V' as [V3 V4]; [discriminate|auto].
Qed.

Lemma keep_ins : forall st t st', inv st -> stepR st t st' -> forall t', ins_ok N st' (g_pc st' t').
Proof.
  intros st t st' I R t'. destruct (Nat.eq_dec t' t) as [->|D].
  - pose proof (v_ins _ _ _ I t) as V.
    destruct R; try destruct a; proj; rewrite ?upd_eq; cbn; auto;
      know I; rewrite H in V; cbn in V; unfold Mtable.at_gen in *; proj; try tauto.
    + destruct V as [A [B [C D]]]. split; auto. unfold upd. subst g.
      destruct (S (g_gen st) mod N =? g_gen st mod N) eqn:E; auto. apply Nat.eqb_eq in E.
      apply cong_eq in E; try lia.
  - rewrite (pc_other _ _ _ _ _ R t' D). pose proof (v_ins _ _ _ I t') as V.
    destruct (i_writer (g_pc st t)) eqn:W.
    + destruct (writer_alone st t I W t' D) as [A B]. apply ins_locked; auto.
    + assert (forall w g, g_pc st t <> I6 w g) as X by (intros w g E; rewrite E in W; discriminate).
      assert (g_gen st' = g_gen st) as G.
      { destruct (nums_after cfg N st t st' I R) as [[G|[w [g [P _]]]] _]; auto. rewrite P in W. discriminate. }
      pose proof (ready_keeps st t st' I R X) as K. unfold ins_ok in *.
      destruct (g_pc st t'); auto; rewrite G; repeat match goal with H : _ /\ _ |- _ => destruct H end; repeat split; auto; apply K; auto.
Qed.

Lemma own_keeps : forall st t st', inv st -> stepR st t st' ->
  forall g' t', t' <> t -> s_tok (at_gen st g') = Own t' -> s_st (at_gen st g') = Finalized \/ s_st (at_gen st g') = Compacting ->
  s_gen (at_gen st' g') = s_gen (at_gen st g') /\ s_tok (at_gen st' g') = Own t' /\ s_st (at_gen st' g') = s_st (at_gen st g')
  /\ s_tree (at_gen st' g') = s_tree (at_gen st g') /\ s_cmt (at_gen st' g') = s_cmt (at_gen st g').
Proof.
  intros st t st' I R g' t' D T M.
  destruct R; try destruct a;
    know I; slotcase g'; try (repeat split; auto; fail); rewrite Ea in *; proj;
    try (destruct M; congruence); try (exfalso; congruence); try (repeat split; auto; fail).
Qed.

Lemma keep_own : forall st t st', inv st -> stepR st t st' -> forall t', own_ok N st' t' (g_pc st' t').
Proof.
  intros st t st' I R t'. destruct (Nat.eq_dec t' t) as [->|D].
  - assert (forall p, owned p = None -> own_ok N st' t p \/ exists g, p = F2 g) as X0.
    { intros p O. destruct p; cbn in O; try discriminate; left; split; auto; intros ? ? E; discriminate E. }
    destruct R; try destruct a; proj; rewrite ?upd_eq;
      try (match goal with |- own_ok _ _ _ ?p => destruct (X0 p eq_refl) as [X|[? X]]; [exact X|discriminate X] end);
      clear X0; know I; unfold own_ok, Mtable.at_gen in *; proj; unfold upd; rewrite ?Nat.eqb_refl; proj; cbn;
      (split; [intros ? ? E; injection E as <- <-; rewrite ?Nat.eqb_refl; proj; repeat split; auto|auto]).
    all: try (pose proof (v_own _ _ _ I t) as [_ V]; rewrite H in V; cbn in V; auto; fail).
    all: try (unfold Mtable.at_gen in *; congruence).
    + pose proof (st_at cfg N HN st I g) as S. unfold st_ok, Mtable.at_gen in S. rewrite H3 in S. destruct S as [[_ S1] [_ [_ [_ S2]]]].
      rewrite H1 in *. destruct (Nat.eq_dec g (g_gen st)) as [E|]; [|lia]. destruct (S2 E) as [tt [w [K _]]]. congruence.
    + pose proof (v_ins _ _ _ I t) as V. rewrite H in V. cbn in V. destruct V as [-> _].
      apply (live_gen cfg N HN st I). pose proof (v_rg _ _ _ I). lia.
    + pose proof (v_ins _ _ _ I t) as V. rewrite H in V. cbn in V. destruct V as [-> _]. lia.
  - rewrite (pc_other _ _ _ _ _ R t' D). destruct (v_own _ _ _ I t') as [V1 V2]. split.
    + intros g m O. destruct (V1 g m O) as [A [B C]].
      destruct (own_keeps st t st' I R g t' D B) as [E1 [E2 [E3 _]]].
      { rewrite C. destruct (g_pc st t'); cbn in O; try discriminate; injection O as _ <-; auto. }
      rewrite E1, E2, E3. auto.
    + assert (g_gen st <= g_gen st') as G by (destruct (nums_after cfg N st t st' I R) as [[G|[w [g [P [G _]]]]] _]; lia).
      destruct (g_pc st t') eqn:P; auto; try lia.
      destruct (V1 g Compacting eq_refl) as [A [B C]].
      destruct (own_keeps st t st' I R g t' D B (or_intror C)) as [_ [_ [_ [E4 E5]]]]. congruence.
Qed.

(** ** Incorporation *)
Lemma start_free : forall st t g, inv st -> g_pc st t = F3 g -> s_gen (at_gen st g) = g -> g = g_inc st -> s_st (at_gen st g) = Compacted ->
  g_incorp st = None.
Proof.
  intros st t g I P A B C. destruct (g_incorp st) as [u|] eqn:E; auto. exfalso.
  pose proof (proj2 (v_incp _ _ _ I u) E) as U. pose proof (v_inc _ _ _ I u) as V.
  pose proof (st_at cfg N HN st I g) as S. unfold st_ok in S. rewrite C, A in S. destruct S as [[S _] _].
  unfold inc_ok, before_switch, after_switch in V.
  destruct (g_pc st u); cbn in U; try discriminate; try destruct a; try discriminate;
    repeat match goal with H : _ /\ _ |- _ => destruct H end; try lia;
    assert (g0 = g) by lia; subst g0; congruence.
Qed.

Lemma keep_incp : forall st t st', inv st -> stepR st t st' -> forall t', inc_pc (g_pc st' t') = true <-> g_incorp st' = Some t'.
Proof.
  intros st t st' I R t'. pose proof (v_incp _ _ _ I t') as V. pose proof (v_incp _ _ _ I t) as V0.
  destruct (Nat.eq_dec t' t) as [->|D].
  - destruct R; try destruct a; proj; rewrite ?upd_eq;
      repeat match goal with H : _ \/ _ |- _ => destruct H end;
      try match goal with H : g_pc st t = _ |- _ => rewrite H in V; cbn in V |- * end; try tauto;
      split; intros; try discriminate; auto.
  - rewrite (pc_other _ _ _ _ _ R t' D). destruct R; try destruct a; proj; auto.
    + pose proof (start_free st t g I H H0 H1 H2) as F. rewrite F in V. split; intros X; [|congruence]. apply V in X. discriminate.
    + rewrite H in V0. cbn in V0. split; intros X; [|discriminate]. apply V in X. destruct V0 as [V0 _]. rewrite (V0 eq_refl) in X. congruence.
    + rewrite H in V0. cbn in V0. split; intros X; [|discriminate]. apply V in X. destruct V0 as [V0 _]. rewrite (V0 eq_refl) in X. congruence.
Qed.

Lemma inc_trivial : forall p st, inc_pc p = false -> inc_ok N st p.
Proof. intros p st E. destruct p; cbn in *; auto; try discriminate; destruct a; auto; discriminate. Qed.

(** Another thread does not disturb the memtable that is being incorporated. *)
Lemma inc_keeps : forall st t st', inv st -> stepR st t st' -> inc_pc (g_pc st t) = false -> g_incorp st <> None ->
  g_ret st' = g_ret st /\ g_inc st' = g_inc st /\ g_root st' = g_root st /\ g_incorp st' = g_incorp st /\
  forall g', s_tok (at_gen st g') = Nobody ->
    s_st (at_gen st g') = Assigned \/ s_st (at_gen st g') = Incorporating \/ s_st (at_gen st g') = Incorporated ->
    s_rec (at_gen st g') = None ->
    s_gen (at_gen st' g') = s_gen (at_gen st g') /\ s_st (at_gen st' g') = s_st (at_gen st g') /\ s_cmt (at_gen st' g') = s_cmt (at_gen st g')
    /\ s_tree (at_gen st' g') = s_tree (at_gen st g') /\ s_base (at_gen st' g') = s_base (at_gen st g')
    /\ (s_base (at_gen st g') = true -> s_rec (at_gen st' g') = None).
Proof.
  intros st t st' I R P NI.
  destruct R; try destruct a; try (rewrite H in P; cbn in P; discriminate P).
  all: try (exfalso; apply NI; eapply start_free; eassumption).
  all: proj; do 4 (split; [reflexivity|]); intros g' T M Z; know I; slotcase g';
    try (repeat split; auto; fail); rewrite Ea in *; proj; try (destruct M as [M|[M|M]]; congruence); try congruence;
    try (repeat split; auto; fail).
  repeat split; auto. intros B. exfalso.
  destruct (v_hold _ _ _ I t) as [_ [V _]]. rewrite H in V. destruct (V g (or_introl eq_refl)) as [_ V1].
  destruct (ref_at cfg N HN st I g) as [X _]. rewrite B, H1 in X. destruct (s_holders (at_gen st g)); [destruct V1|cbn in X; lia].
Qed.

Lemma before_more : forall st g m, inv st -> before_switch N st g m ->
  m = Assigned \/ m = Incorporating \/ m = Incorporated ->
  s_tok (at_gen st g) = Nobody /\ s_rec (at_gen st g) = None /\ s_base (at_gen st g) = true /\ s_cmt (at_gen st g) = s_tree (at_gen st g) /\ g < g_gen st.
Proof.
  intros st g m I [A [B [C D]]] M. pose proof (st_at cfg N HN st I g) as S. unfold st_ok in S. rewrite D, C in S.
  assert (s_base (at_gen st g) = true) as Bs.
  { destruct (ref_at cfg N HN st I g) as [_ [_ [_ [X _]]]]. destruct (s_base (at_gen st g)); auto. destruct (X eq_refl). lia. }
  pose proof (v_rg _ _ _ I).
  destruct M as [-> | [-> | ->]]; try tauto.
  destruct S as [S0 [S|[S|S]]]; [lia|tauto|lia].
Qed.

Lemma keep_inc : forall st t st', inv st -> stepR st t st' -> forall t', inc_ok N st' (g_pc st' t').
Proof.
  intros st t st' I R t'. destruct (Nat.eq_dec t' t) as [->|D].
  - pose proof (v_inc _ _ _ I t) as V. destruct R; try destruct a; proj; rewrite ?upd_eq; try (apply inc_trivial; reflexivity);
      rewrite H in V; cbn in V |- *; unfold before_switch, after_switch, Mtable.at_gen in *; proj; rewrite ?upd_eq; proj; try tauto.
    + pose proof (start_free st t g I H H0 H1 H2) as F. pose proof (v_noinc _ _ _ I F). repeat split; auto; try congruence.
    + destruct V as [[A [B [C E]]] F]. subst g.
      destruct (before_more st (g_ret st) Incorporated I) as [B1 [B2 [B3 _]]]; [unfold before_switch, Mtable.at_gen; auto|auto|].
      unfold Mtable.at_gen in *. tauto.
    + destruct V as [A B]. repeat split; auto.
  - rewrite (pc_other _ _ _ _ _ R t' D). destruct (inc_pc (g_pc st t')) eqn:X; [|apply inc_trivial; auto].
    pose proof (proj1 (v_incp _ _ _ I t') X) as Y.
    assert (inc_pc (g_pc st t) = false) as Z.
    { destruct (inc_pc (g_pc st t)) eqn:Z; auto. apply (v_incp _ _ _ I t) in Z. congruence. }
    destruct (inc_keeps st t st' I R Z) as [E1 [E2 [E3 [E4 K]]]]; [congruence|].
    pose proof (v_inc _ _ _ I t') as V.
    assert (forall g m, before_switch N st g m -> m = Assigned \/ m = Incorporating \/ m = Incorporated ->
              before_switch N st' g m /\ s_cmt (at_gen st' g) = s_cmt (at_gen st g)) as W.
    { intros g m Bf M. destruct (before_more st g m I Bf M) as [B1 [B2 [B3 _]]]. destruct Bf as [A [B [C E]]].
      destruct (K g B1) as [K1 [K2 [K3 _]]]; auto.
      { rewrite E. destruct M as [-> | [-> | ->]]; auto. }
      unfold before_switch. rewrite E1, E2, K1, K2, K3. auto. }
    assert (forall g, after_switch st g -> after_switch st' g) as W'.
    { unfold after_switch. rewrite E1, E2. auto. }
    assert (forall g, s_gen (at_gen st g) = g /\ s_st (at_gen st g) = Incorporated /\ s_base (at_gen st g) = true /\ s_rec (at_gen st g) = None ->
                      s_gen (at_gen st' g) = g /\ s_st (at_gen st' g) = Incorporated /\ s_base (at_gen st' g) = true /\ s_rec (at_gen st' g) = None) as W2.
    { intros g [A [B [C E]]]. destruct (K g) as [K1 [K2 [K3 [K4 [K5 K6]]]]]; auto.
      { pose proof (st_at cfg N HN st I g) as S. unfold st_ok in S. rewrite B in S. tauto. }
      rewrite K1, K2, K5. auto. }
    destruct (g_pc st t'); cbn in V |- *; auto; try (destruct a; auto; fail);
      try (destruct V as [V1 V2]; destruct (W _ _ V1) as [W0 W1]; auto; split; auto; rewrite E3, W1; exact V2);
      try (apply W; auto; fail); try (destruct V as [V1 V2]; split; auto).
Qed.

Lemma keep_noinc : forall st t st', inv st -> stepR st t st' -> g_incorp st' = None -> g_inc st' = g_ret st'.
Proof.
  intros st t st' I R E. pose proof (v_noinc _ _ _ I) as V. pose proof (v_inc _ _ _ I t) as V1. pose proof (v_incp _ _ _ I t) as V2.
  destruct R; try destruct a; proj; auto; try discriminate.
  - rewrite H in V2. cbn in V2. destruct V2 as [V2 _]. rewrite (V2 eq_refl) in E. discriminate.
  - exfalso. rewrite H in V1. cbn in V1. destruct V1 as [A B]. apply H0. apply (live_gen cfg N HN st I).
    pose proof (v_rg _ _ _ I). lia.
  - rewrite H in V2. cbn in V2. destruct V2 as [V2 _]. rewrite (V2 eq_refl) in E. discriminate.
  - rewrite H in V1. cbn in V1. destruct V1 as [A B]. congruence.
Qed.

(** ** Recycling *)
Lemma rec_keeps : forall st t st', inv st -> stepR st t st' ->
  forall g' t', t' <> t -> s_rec (at_gen st g') = Some t' -> at_gen st' g' = at_gen st g'.
Proof.
  intros st t st' I R g' t' D Z. destruct (recs_at cfg N HN st I g' t' Z) as [Hh [Hs _]].
  pose proof (st_at cfg N HN st I g') as S. unfold st_ok in S. rewrite Hs in S. destruct S as [Tk S].
  destruct R; try destruct a; know I; slotcase g'; auto; rewrite Ea in *; try congruence.
  - pose proof (v_hold _ _ _ I t) as V. rewrite H in V. destruct V as [_ [_ [V _]]]. destruct V as [V1 V2]. rewrite H0 in S.
    exfalso. destruct S as [S|[S|S]]; [lia| |lia]. destruct S as [_ [_ [S _]]]. congruence.
  - destruct (v_hold _ _ _ I t) as [_ [V _]]. rewrite H in V. destruct (V g (or_introl eq_refl)) as [_ V1]. rewrite Hh in V1. destruct V1.
  - destruct (v_hold _ _ _ I t) as [_ [V _]]. rewrite H in V. destruct (V g (or_introl eq_refl)) as [_ V1]. rewrite Hh in V1. destruct V1.
Qed.

Lemma keep_rec : forall st t st', inv st -> stepR st t st' -> forall t', rec_ok N st' t' (g_pc st' t').
Proof.
  intros st t st' I R t'. pose proof (keep_rg cfg N HN st t st' I R).
  assert (g_ret st <= g_ret st') as Hr by (destruct (nums_after cfg N st t st' I R) as [_ [G|[w [g [P [G _]]]]]]; lia).
  destruct (Nat.eq_dec t' t) as [->|D].
  - pose proof (v_rec _ _ _ I t) as V. destruct R; try destruct a; proj; rewrite ?upd_eq; cbn; auto;
      unfold Mtable.at_gen in *; proj; rewrite ?upd_eq; proj; know I; auto;
      match goal with H : g_pc st t = _ |- _ => rewrite H in V; cbn in V end;
      repeat match goal with H : _ /\ _ |- _ => destruct H end; repeat split; auto;
      try (unfold Mtable.at_gen in *; congruence);
      try (match goal with |- ?g < g_ret st => pose proof (ref_at cfg N HN st I g) as [_ [_ [_ [X _]]]]; unfold Mtable.at_gen in *;
             match goal with B : s_base _ = false |- _ => destruct (X B) end; lia end);
      try (pose proof (v_lo _ _ _ I (g mod N) (mod_lt N HN g)); unfold Mtable.at_gen in *; lia).
    destruct (v_hold _ _ _ I t) as [_ [W _]]. rewrite H0 in W. destruct (W g (or_introl eq_refl)) as [_ W1].
    destruct (ref_at cfg N HN st I g) as [X _]. unfold Mtable.at_gen in *. rewrite H2 in X.
    destruct (s_base (g_slots st (g mod N))); auto. destruct (s_holders (g_slots st (g mod N))); [destruct W1|cbn in X; lia].
  - rewrite (pc_other _ _ _ _ _ R t' D). pose proof (v_rec _ _ _ I t') as V.
    assert (forall g, s_rec (at_gen st g) = Some t' -> at_gen st' g = at_gen st g) as K by (intros g; apply rec_keeps with (t := t); auto).
    unfold rec_ok in *. destruct (g_pc st t') eqn:P; auto; destruct V as [V1 V2]; rewrite (K _ V1); repeat split; try tauto.
    + lia.
    + destruct V2 as [V3 [V4 _]]. destruct (nums_after cfg N st t st' I R) as [[G|[w [g0 [P0 [G _]]]]] _]; [lia|].
      destruct (rotate_room cfg N HN st t w g0 I P0) as [E0 [E1 E2]]. subst g0.
      destruct (Nat.eq_dec (S (g_gen st)) (g + N)) as [E|E]; [|lia]. exfalso.
      pose proof (v_ins _ _ _ I t) as W. rewrite P0 in W. cbn in W. destruct W as [_ W].
      assert (at_gen st (S (g_gen st)) = at_gen st g) as Ea.
      { unfold Mtable.at_gen. rewrite E. replace (g + N) with (g + 1 * N) by lia. rewrite Nat.mod_add by lia. reflexivity. }
      rewrite Ea in W. destruct (recs_at cfg N HN st I g t' V1) as [_ [X _]]. congruence.
Qed.

(** ** References *)
Lemma hold_keeps : forall st t st', inv st -> stepR st t st' ->
  forall g' t', t' <> t -> In t' (s_holders (at_gen st g')) ->
  s_gen (at_gen st' g') = s_gen (at_gen st g') /\ In t' (s_holders (at_gen st' g')).
Proof.
  intros st t st' I R g' t' D Z.
  destruct R; try destruct a; know I; slotcase g'; auto; rewrite Ea in *; proj; auto;
    try (match goal with Hn : s_holders _ = [] |- _ => rewrite Hn in Z; destruct Z end); split; auto.
  - right. auto.
  - apply in_drop. auto.
  - apply in_drop. auto.
Qed.

Lemma keep_hold : forall st t st', inv st -> stepR st t st' -> forall t', hold_ok N st' t' (g_pc st' t').
Proof.
  intros st t st' I R t'. destruct (Nat.eq_dec t' t) as [->|D].
  - pose proof (v_hold _ _ _ I t) as [V1 [V2 V3]]. pose proof (v_rg _ _ _ I) as RG.
    assert (forall p, helds p = [] -> match p with R2 _ | R3 _ _ | R4 _ _ => False | _ => True end -> hold_ok N st' t p) as X0.
    { intros p O. destruct p; cbn in O; intros F; try tauto; try destruct a; subst; (split; [constructor|]; split; [intros ? []|auto]). }
    destruct R; try destruct a; proj; rewrite ?upd_eq;
      try (match goal with |- hold_ok _ _ _ ?p => apply (X0 p); [reflexivity|exact Logic.I] end); clear X0;
      match goal with H : g_pc st t = _ |- _ => rewrite H in V1, V2, V3; cbn in V1, V2, V3 end; unfold hold_ok; cbn [helds]; proj.
    all: try (split; [auto|split; [|auto]]).
    all: try (intros g' Hg'; destruct (V2 g' Hg') as [W1 W2]; know I; slotcase g'; auto; exfalso; rewrite Ea in *;
              match goal with Hn : s_holders _ = [] |- _ => rewrite Hn in W2; destruct W2 end).
    all: try (intros g' Hg'; apply V2; auto; fail).
    all: try lia.
    all: try (destruct V3 as [V3 V4]; split; [lia|intros g' Hg'; specialize (V4 g' Hg'); lia]).
    + split; [lia|intros ? []].
    + destruct V3 as [V3 V4]. constructor; auto. intros B. specialize (V4 _ B). lia.
    + intros g' [<-|Hg'].
      * unfold Mtable.at_gen in *. proj. rewrite upd_eq. proj. split; auto. left. auto.
      * destruct (V2 g' Hg') as [W1 W2]. slotcase g'; auto. rewrite Ea in *. proj. split; auto. left. auto.
    + destruct V3 as [V3 V4]. split; [lia|]. intros g' [<-|Hg']; [lia|]. specialize (V4 g' Hg'). lia.
    + inversion V1; auto.
    + intros g' Hg'. destruct (V2 g' (or_intror Hg')) as [W1 W2]. slotcase g'; auto. exfalso.
      assert (g' = g) by (apply (same_slot N st); auto). subst g'. inversion V1; auto.
    + inversion V1; auto.
    + intros g' Hg'. destruct (V2 g' (or_intror Hg')) as [W1 W2]. slotcase g'; auto. exfalso.
      assert (g' = g) by (apply (same_slot N st); auto). subst g'. inversion V1; auto.
  - rewrite (pc_other _ _ _ _ _ R t' D). destruct (v_hold _ _ _ I t') as [V1 [V2 V3]]. split; auto. split.
    + intros g Hg. destruct (V2 g Hg) as [A B]. destruct (hold_keeps st t st' I R g t' D B) as [C E]. rewrite C. auto.
    + assert (g_gen st <= g_gen st') as G by (destruct (nums_after cfg N st t st' I R) as [[G|[w [g [P [G _]]]]] _]; lia).
      assert (l_reader (g_pc st t') = true -> g_ret st' = g_ret st) as Er.
      { intros L. destruct (nums_after cfg N st t st' I R) as [_ [G'|[g [nr [P _]]]]]; auto.
        rewrite (lwriter_alone st t I) in L; [discriminate|rewrite P; reflexivity]. }
      destruct (g_pc st t'); auto; rewrite (Er eq_refl); try (destruct V3; split; auto); lia.
Qed.
End Keep.
