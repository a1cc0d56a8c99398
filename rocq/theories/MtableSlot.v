(** * Memtables: every step keeps what is true of the slots *)

From Coq Require Import List Arith NArith Bool Lia.
From Verif Require Import Base Spec Spec_Merge Mtable MtableInv MtableProofs MtableKeep.
Import ListNotations.

Section SlotKeep.
Variable cfg : data_config.
Variable N : nat.
Hypothesis HN : 2 <= N.
Notation at_gen := (at_gen N).
Notation put_slot := (put_slot N).
Notation stepR := (stepR cfg N).
Notation inv := (inv cfg N).

Ltac know I :=
  repeat match goal with H : g_pc ?st ?t = _ \/ _ |- _ => destruct H end;
  match goal with
  | H : g_pc ?st ?t = I9 _ _ |- _ => pose proof (touch_ins cfg N HN _ _ _ _ I H)
  | H : g_pc ?st ?t = Q1 _ _ |- _ => pose proof (touch_rec cfg N HN _ _ _ _ I (or_introl H))
  | H : g_pc ?st ?t = Q2 _ _ |- _ => pose proof (touch_rec cfg N HN _ _ _ _ I (or_intror (or_introl H)))
  | H : g_pc ?st ?t = Q3 _ _ |- _ => pose proof (touch_rec cfg N HN _ _ _ _ I (or_intror (or_intror H)))
  | H : g_pc ?st ?t = F12 _ |- _ => pose proof (touch_done cfg N HN _ _ _ I H)
  | H : nth_error (g_tasks ?st) _ = Some _ |- _ => pose proof (touch_task cfg N HN _ _ _ I H)
  | H : g_pc ?st ?t = F7 _ _ |- _ => pose proof (touch_inc cfg N HN _ _ _ _ I (or_introl H))
  | H : g_pc ?st ?t = F8 _ _ |- _ => pose proof (touch_inc cfg N HN _ _ _ _ I (or_intror H))
  | H : g_pc ?st ?t = I10 _ _ |- _ => pose proof (own_fact cfg N _ _ _ _ _ I H eq_refl)
  | H : g_pc ?st ?t = I7 _ _ |- _ => pose proof (own_fact cfg N _ _ _ _ _ I H eq_refl)
  | H : g_pc ?st ?t = I8 _ _ |- _ => pose proof (own_fact cfg N _ _ _ _ _ I H eq_refl)
  | H : g_pc ?st ?t = F0 _ |- _ => pose proof (own_fact cfg N _ _ _ _ _ I H eq_refl)
  | H : g_pc ?st ?t = F1 _ |- _ => pose proof (own_fact cfg N _ _ _ _ _ I H eq_refl)
  | H : g_pc ?st ?t = F2 _ |- _ => pose proof (own_fact cfg N _ _ _ _ _ I H eq_refl)
  | _ => idtac
  end;
  repeat match goal with H : _ /\ _ |- _ => destruct H end.

Ltac slotcase g' :=
  unfold Mtable.at_gen; proj; unfold upd;
  try match goal with
  | |- context [g' mod N =? ?y] =>
      let E := fresh "E" in let Ea := fresh "Ea" in destruct (g' mod N =? y) eqn:E;
      [apply Nat.eqb_eq in E;
       match type of E with _ = ?g mod N =>
         match goal with s : state |- _ => assert (at_gen s g' = at_gen s g) as Ea by (unfold Mtable.at_gen; rewrite E; reflexivity) end
       end|]
  end;
  repeat match goal with |- context [g_slots ?s (?g mod N)] => change (g_slots s (g mod N)) with (at_gen s g) end.


(** A slot that the step does not change *)
Lemma st_frame : forall st t st' g', inv st -> stepR st t st' -> at_gen st' g' = at_gen st g' -> st_ok st' (at_gen st' g').
Proof.
  intros st t st' g' I R E. pose proof (st_at cfg N HN st I g') as V. rewrite E.
  destruct (nums_after cfg N st t st' I R) as [NG NR].
  pose proof (keep_incp cfg N HN st t st' I R) as IC.
  assert (forall t0, t0 <> t -> g_pc st' t0 = g_pc st t0) as PO by (intros; eapply pc_other; eauto).
  (* the retired counter moves past the memtable that is incorporated *)
  assert (s_gen (at_gen st g') = g_ret st -> s_st (at_gen st g') <> Incorporated -> g_ret st' = g_ret st) as RR.
  { intros Eg Ns. destruct NR as [X|[g [nr [P _]]]]; auto. exfalso.
    pose proof (v_inc _ _ _ I t) as W. rewrite P in W. cbn in W. destruct W as [[A [B [C D]]] _].
    assert (at_gen st g' = at_gen st g) as Ea.
    { unfold Mtable.at_gen. f_equal. pose proof (v_mod _ _ _ I (g' mod N) (mod_lt N HN g')) as M. fold (at_gen st g') in M.
      rewrite Eg, <- A in M. auto. }
    rewrite Ea in Ns. congruence. }
  assert (forall g, s_gen (at_gen st g') = g -> at_gen st g' = at_gen st g) as SG.
  { intros g Eg. unfold Mtable.at_gen. f_equal. pose proof (v_mod _ _ _ I (g' mod N) (mod_lt N HN g')) as M.
    fold (at_gen st g') in M. rewrite Eg in M. auto. }
  assert (forall g, s_gen (at_gen st g') = g -> g' mod N = g mod N) as SM.
  { intros g Eg. pose proof (v_mod _ _ _ I (g' mod N) (mod_lt N HN g')) as M. fold (at_gen st g') in M. rewrite Eg in M. auto. }
  assert (g_ret st <= g_ret st' <= S (g_ret st)) as RB by (destruct NR as [X|[? [? [_ [X _]]]]]; lia).
  assert (g_gen st <= g_gen st' <= S (g_gen st)) as GB by (destruct NG as [X|[? [? [_ [X _]]]]]; lia).
  unfold st_ok in *. destruct (s_st (at_gen st g')) eqn:Sg.
  - (* Ready *)
    destruct V as [A [B [C D]]]. repeat split; auto; [|intros; apply D; lia].
    destruct NG as [X|[w [g [P [X _]]]]]; rewrite X; auto.
    destruct (own_fact cfg N st t _ g Finalized I P eq_refl) as [F1 [_ F3]].
    destruct (rotate_room cfg N HN st t w g I P) as [-> _].
    destruct (Nat.eq_dec (s_gen (at_gen st g')) (g_gen st)) as [Q|]; [|lia].
    rewrite (SG _ Q) in Sg. congruence.
  - (* Finalized *)
    destruct V as [A [B [C [D F]]]].
    assert (g_ret st' <= s_gen (at_gen st g')) as L.
    { destruct (Nat.eq_dec (s_gen (at_gen st g')) (g_ret st)) as [Q|]; [rewrite RR; [lia|auto|congruence]|lia]. }
    repeat split; auto; try lia. intros Q.
    assert (g_gen st' = g_gen st) as GG by lia. rewrite GG in Q. destruct (F Q) as [t0 [w [T P]]].
    exists t0, w. split; auto. destruct (Nat.eq_dec t0 t) as [->|Dt]; [|rewrite PO; auto].
    destruct NG as [X|[w' [g [P' [X _]]]]]; [|lia]. exfalso.
    destruct R; try (match goal with H : _ \/ _ |- _ => destruct H as [H|[H|H]] end); try congruence. proj. lia.
  - destruct V as [A [B [C D]]].
    assert (g_ret st' <= s_gen (at_gen st g')) as L.
    { destruct (Nat.eq_dec (s_gen (at_gen st g')) (g_ret st)) as [Q|]; [rewrite RR; [lia|auto|congruence]|lia]. }
    repeat split; auto; lia.
  - (* Compacted *)
    destruct V as [A [B [C D]]].
    assert (g_ret st' <= s_gen (at_gen st g')) as L.
    { destruct (Nat.eq_dec (s_gen (at_gen st g')) (g_ret st)) as [Q|]; [rewrite RR; [lia|auto|congruence]|lia]. }
    repeat split; auto; try lia. destruct D as [[D1 D2]|D]; auto. left. split; auto.
    destruct R; try destruct a; proj; auto.
    + destruct (Nat.eq_dec (s_gen (at_gen st g')) (S g)) as [Q|]; [|lia]. exfalso.
      pose proof (f_equal s_st E) as E1. rewrite Sg in E1. unfold Mtable.at_gen in E1. proj. rewrite (SM _ Q), upd_eq in E1. discriminate E1.
    + destruct (Nat.eq_dec (s_gen (at_gen st g')) (S g)) as [Q|]; [|lia]. rewrite (SG _ Q) in Sg. congruence.
  - (* Assigned *)
    destruct V as [A [B [C [D [F [t0 [G H]]]]]]].
    assert (g_ret st' = g_ret st) as EQ by (apply RR; [auto|congruence]).
    repeat split; auto; try lia.
    destruct (Nat.eq_dec t0 t) as [->|Dt].
    + exists t. pose proof (f_equal s_st E) as E1. rewrite Sg in E1. unfold Mtable.at_gen in E1.
      destruct R; try destruct a; try (match goal with H : g_pc st t = _ \/ _ |- _ => destruct H as [H|[H|H]] end);
        destruct H as [H|[nr0 [H|H]]]; try congruence; proj; rewrite ?upd_eq; split; auto;
        try (right; eexists; left; match goal with K : g_pc st t = F5 ?g |- F6 ?g _ = _ => assert (g = s_gen (at_gen st g')) as <- by congruence end; reflexivity);
        try (right; eexists; right; match goal with K : g_pc st t = F6 ?g _ |- F7 ?g _ = _ => assert (g = s_gen (at_gen st g')) as <- by congruence end; reflexivity);
        exfalso; match goal with K : g_pc st t = F7 ?g _, K' : g_pc st t = F7 (s_gen _) _ |- _ =>
          assert (s_gen (at_gen st g') = g) as Q by congruence; rewrite (SM _ Q), upd_eq in E1; discriminate E1 end.
    + exists t0. assert (inc_pc (g_pc st t) = false) as Z.
      { destruct (inc_pc (g_pc st t)) eqn:Z; auto. apply (v_incp _ _ _ I t) in Z. congruence. }
      destruct (inc_keeps cfg N HN st t st' I R Z) as [_ [_ [_ [E4 _]]]]; [congruence|]. rewrite E4, (PO t0 Dt). auto.
  - (* Incorporating *)
    destruct V as [A [B [C [D [F [t0 [nr [G H]]]]]]]].
    assert (g_ret st' = g_ret st) as EQ by (apply RR; [auto|congruence]).
    repeat split; auto; try lia.
    destruct (Nat.eq_dec t0 t) as [->|Dt].
    + exfalso. pose proof (f_equal s_st E) as E1. rewrite Sg in E1. unfold Mtable.at_gen in E1.
      destruct R; try destruct a; try (match goal with H : g_pc st t = _ \/ _ |- _ => destruct H as [H|[H|H]] end); try congruence.
      proj. assert (s_gen (at_gen st g') = g) as Q by congruence. rewrite (SM _ Q), upd_eq in E1. discriminate E1.
    + exists t0, nr. assert (inc_pc (g_pc st t) = false) as Z.
      { destruct (inc_pc (g_pc st t)) eqn:Z; auto. apply (v_incp _ _ _ I t) in Z. congruence. }
      destruct (inc_keeps cfg N HN st t st' I R Z) as [_ [_ [_ [E4 _]]]]; [congruence|]. rewrite E4, (PO t0 Dt). auto.
  - (* Incorporated *)
    destruct V as [T V]. split; auto. destruct V as [V|[[A [B [C [D [t0 [nr [G H]]]]]]]|[A B]]].
    + left. lia.
    + destruct (Nat.eq_dec t0 t) as [->|Dt].
      * left. destruct R; try destruct a; try (match goal with H : g_pc st t = _ \/ _ |- _ => destruct H as [H|[H|H]] end); try congruence.
        proj. lia.
      * right; left. assert (inc_pc (g_pc st t) = false) as Z.
        { destruct (inc_pc (g_pc st t)) eqn:Z; auto. apply (v_incp _ _ _ I t) in Z. congruence. }
        destruct (inc_keeps cfg N HN st t st' I R Z) as [E1 [_ [_ [E4 _]]]]; [congruence|].
        repeat split; auto; try lia. exists t0, nr. rewrite E4, (PO t0 Dt). auto.
    + right; right. split; auto. destruct NG as [X|[w [g [P [X _]]]]]; [lia|].
      destruct (rotate_room cfg N HN st t w g I P) as [-> [_ Q]].
      destruct (Nat.eq_dec (s_gen (at_gen st g')) (S (g_gen st))) as [Q'|]; [|lia].
      pose proof (v_ins _ _ _ I t) as W. rewrite P in W. cbn in W. destruct W as [_ W]. rewrite (SG _ Q') in Sg. congruence.
Qed.

Lemma retired_le : forall st, inv st -> forall g, s_st (at_gen st g) <> Incorporated -> g_ret st <= s_gen (at_gen st g).
Proof.
  intros st I g D. pose proof (st_at cfg N HN st I g) as V. unfold st_ok in V. pose proof (v_rg _ _ _ I).
  destruct (s_st (at_gen st g)); try congruence; lia.
Qed.

Lemma keep_st' : forall st t st', inv st -> stepR st t st' -> forall g', st_ok st' (at_gen st' g').
Proof.
  intros st t st' I R g'. pose proof (st_frame st t st' g' I R) as FR.
  pose proof (v_rg _ _ _ I) as RG.
  assert (forall g, s_st (at_gen st g) <> Incorporated -> g_ret st <= s_gen (at_gen st g)) as RL by (apply retired_le; auto).
  destruct R; try (apply FR; reflexivity); know I;
    try (match goal with |- context [resume _ ?a _] => destruct a; cbn [resume] in * end);
    (match goal with |- context [Mtable.put_slot _ _ ?g _] =>
       pose proof (st_at cfg N HN st I g) as V; unfold st_ok in V;
       destruct (g' mod N =? g mod N) eqn:E;
       [apply Nat.eqb_eq in E; clear FR; unfold st_ok, Mtable.at_gen; proj; rewrite E, upd_eq; proj; change (g_slots st (g mod N)) with (at_gen st g) in *
       |apply FR; unfold Mtable.at_gen; proj; unfold upd; rewrite E; reflexivity] end).
  all: repeat match goal with K : s_st ?x = _, V : match s_st ?x with _ => _ end |- _ => rewrite K in V end.
  all: repeat match goal with K : s_st ?x = _ |- context [s_st ?x] => rewrite K end.
  - (* a task is taken *)
    destruct V as [A [B [C [D F]]]]. repeat split; auto; try lia; [discriminate|].
    intros Q. destruct (F Q) as [u [w [X _]]]. congruence.
  - (* finalized *)
    pose proof (v_ins _ _ _ I t) as W. rewrite H in W. cbn in W. destruct W as [-> [W1 [W2 W3]]].
    pose proof (live_gen cfg N HN st I (g_gen st)) as L. rewrite L in * by lia.
    repeat split; auto; try lia; try tauto; [discriminate|]. intros _. exists t, w. rewrite upd_eq. auto.
  - (* enqueued *)
    destruct (v_own _ _ _ I t) as [_ W]. rewrite H in W. cbn in W.
    destruct V as [A [B [C [D F]]]]. repeat split; auto; try lia; try discriminate; intros Q; lia.
  - (* insert *)
    subst g. repeat split; auto; try lia; try tauto; intros; lia.
  - (* compacting *)
    destruct (v_own _ _ _ I t) as [_ W]. rewrite H in W. cbn in W.
    destruct V as [A [B [C [D F]]]]. repeat split; auto; try lia. eauto.
  - destruct V as [A [B [C D]]]. repeat split; auto; lia.
  - (* compacted *)
    destruct (v_own _ _ _ I t) as [_ W]. rewrite H in W. cbn in W.
    destruct V as [A [B [C D]]]. repeat split; auto; lia.
  - (* left for the next incorporation *)
    destruct V as [A [B [C D]]]. repeat split; auto; try lia. left. split; auto.
    assert (g_inc st <= g_ret st) as L; [|lia].
    destruct (g_incorp st) as [u|] eqn:U; [|rewrite (v_noinc _ _ _ I U); lia].
    pose proof (proj2 (v_incp _ _ _ I u) U) as X. pose proof (v_inc _ _ _ I u) as Y. unfold inc_ok, before_switch, after_switch in Y.
    destruct (g_pc st u); cbn in X; try discriminate; try destruct a; try discriminate; lia.
  - (* assigned by its compactor *)
    pose proof (start_free cfg N HN st t g I H H0 H1 H2) as F. pose proof (v_noinc _ _ _ I F).
    destruct V as [A [B [C D]]]. repeat split; auto; try lia. exists t. rewrite upd_eq, H0. auto.
  - destruct V as [A [B [C [D [F [u [G K]]]]]]]. repeat split; auto. exists t, nr. rewrite upd_eq. split; [|congruence].
    apply (v_incp _ _ _ I t). rewrite H. reflexivity.
  - destruct V as [A [B [C [D [F [u [nr' [G K]]]]]]]]. split; auto. right; left. repeat split; auto. exists t, nr. rewrite upd_eq. split; [|congruence].
    apply (v_incp _ _ _ I t). rewrite H. reflexivity.
  - split; auto. left. lia.
  - split; auto. left. lia.
  - split; auto. destruct V as [_ V]. pose proof (v_rec _ _ _ I t) as W. rewrite H in W. cbn in W.
    destruct W as [W1 [W2 W3]]. destruct (ref_at cfg N HN st I g) as [_ [_ [_ [X _]]]]. left. apply X; auto.
  - split; auto. right; right. pose proof (v_rec _ _ _ I t) as W. rewrite H in W. cbn in W.
    destruct W as [W1 [W2 [W3 W4]]]. pose proof (v_lo _ _ _ I (g mod N) (mod_lt N HN g)). unfold Mtable.at_gen in *. split; [lia|eauto].
  - pose proof (v_rec _ _ _ I t) as W. rewrite H in W. cbn in W. repeat split; auto; try lia; tauto.
  - pose proof (v_rec _ _ _ I t) as W. rewrite H in W. cbn in W. repeat split; auto; try lia; tauto.
  - (* assigned by the incorporator of the one before *)
    pose proof (v_inc _ _ _ I t) as W. rewrite H in W. cbn in W. destruct W as [W1 W2].
    destruct V as [A [B [C D]]]. repeat split; auto; try lia. exists t. rewrite upd_eq, H0. split; auto.
    apply (v_incp _ _ _ I t). rewrite H. reflexivity.
  - (* a reference is taken *)
    clear H0 RL RG. destruct (s_st (at_gen st (j - 1))) eqn:M; auto.
    + destruct V as [A [B [C [D F]]]]. repeat (split; auto). intros Q. destruct (F Q) as [u [w [X Y]]]. exists u, w. rewrite upd_neq by congruence. auto.
    + destruct V as [A [B [C [D [F [u [G K]]]]]]]. repeat (split; auto). exists u. rewrite upd_neq; auto. intros ->. destruct K as [K|[nr [K|K]]]; congruence.
    + destruct V as [A [B [C [D [F [u [nr [G K]]]]]]]]. repeat (split; auto). exists u, nr. rewrite upd_neq by congruence. auto.
    + destruct V as [A V]. split; auto. destruct V as [V|[V|V]]; auto. right; left.
      destruct V as [B [C [D [F [u [nr [G K]]]]]]]. repeat (split; auto). exists u, nr. rewrite upd_neq by congruence. auto.
  - (* a reference is dropped *)
    clear H0 RL RG. destruct (s_st (at_gen st g)) eqn:M; auto.
    + destruct V as [A [B [C [D F]]]]. repeat (split; auto). intros Q. destruct (F Q) as [u [w [X Y]]]. exists u, w. rewrite upd_neq by congruence. auto.
    + destruct V as [A [B [C [D [F [u [G K]]]]]]]. repeat (split; auto). exists u. rewrite upd_neq; auto. intros ->. destruct K as [K|[nr [K|K]]]; congruence.
    + destruct V as [A [B [C [D [F [u [nr [G K]]]]]]]]. repeat (split; auto). exists u, nr. rewrite upd_neq by congruence. auto.
    + destruct V as [A V]. split; auto. destruct V as [V|[V|V]]; auto. right; left.
      destruct V as [B [C [D [F [u [nr [G K]]]]]]]. repeat (split; auto). exists u, nr. rewrite upd_neq by congruence. auto.
  - destruct V as [A V]. split; auto. left.
    destruct (v_hold _ _ _ I t) as [_ [W _]]. rewrite H in W. destruct (W g (or_introl eq_refl)) as [_ W1].
    destruct (ref_at cfg N HN st I g) as [X [_ [_ [Y _]]]]. rewrite H1 in X.
    apply Y. destruct (s_base (at_gen st g)); auto. destruct (s_holders (at_gen st g)); [destruct W1|cbn in X; lia].
Qed.

Lemma slot_at : forall st i, i < N -> g_slots st i = at_gen st i.
Proof. intros. unfold Mtable.at_gen. rewrite Nat.mod_small; auto. Qed.

Lemma keep_st : forall st t st', inv st -> stepR st t st' -> forall i, i < N -> st_ok st' (g_slots st' i).
Proof. intros. rewrite slot_at by auto. eapply keep_st'; eauto. Qed.

(** The slot of a generation *)
Lemma gen_mod : forall st, inv st -> forall g', s_gen (at_gen st g') mod N = g' mod N.
Proof. intros st I g'. apply (v_mod _ _ _ I _ (mod_lt N HN g')). Qed.

Ltac touched st g' FR :=
  match goal with |- context [Mtable.put_slot _ _ ?g _] =>
    destruct (g' mod N =? g mod N) eqn:E;
    [apply Nat.eqb_eq in E; clear FR
    |apply FR; unfold Mtable.at_gen; proj; unfold upd; rewrite E; reflexivity] end.
Ltac newslot st E := unfold Mtable.at_gen; proj; rewrite E, upd_eq; proj;
  repeat match goal with |- context [g_slots st (?g mod N)] => change (g_slots st (g mod N)) with (at_gen st g) end.

Lemma tok_frame : forall st t st' g', inv st -> stepR st t st' -> at_gen st' g' = at_gen st g' -> tok_ok st' (at_gen st' g').
Proof.
  intros st t st' g' I R E. pose proof (tok_at cfg N HN st I g') as V. pose proof (gen_mod st I g') as M. rewrite E. unfold tok_ok in *.
  pose proof (f_equal s_tok E) as E1. pose proof (f_equal s_st E) as E2. clear E.
  destruct (s_tok (at_gen st g')) as [| |u] eqn:T; auto.
  - destruct V as [V1 V2]. split; auto.
    destruct R; try destruct a; proj; auto; [|apply in_or_app; auto].
    rewrite <- (firstn_skipn i (g_tasks st)) in V1. apply in_app_or in V1. apply in_or_app. destruct V1 as [V1|V1]; auto.
    destruct (skipn i (g_tasks st)) as [|x r] eqn:Sk; [destruct V1|].
    assert (skipn (S i) (g_tasks st) = r /\ x = g) as [Sr Ex].
    { clear - Sk H0. revert i Sk H0. induction (g_tasks st) as [|y l IH]; intros [|i] Sk Hn; cbn in *; try discriminate.
      - injection Sk as <- <-. injection Hn as <-. auto.
      - apply IH; auto. }
    rewrite Sr. destruct V1 as [V1|V1]; auto. exfalso.
    unfold Mtable.at_gen in E1. proj. rewrite <- Ex, V1, M, upd_eq in E1. discriminate E1.
  - destruct (Nat.eq_dec u t) as [->|D].
    2: { rewrite (pc_other _ _ _ _ _ R u D). auto. }
    destruct R; try (match goal with H : g_pc st t = _ \/ _ |- _ => destruct H as [H|[H|H]] end);
      rewrite H in V; cbn [owned] in V; try (destruct V as [V|[V V']]; discriminate); proj; rewrite ?upd_eq; cbn [owned];
      destruct V as [V|[V V']]; try discriminate; try (left; exact V);
      try (injection V as Vg Vs); exfalso; unfold Mtable.at_gen in E1, E2; proj;
      try (match goal with K : ?g = s_gen (at_gen st g') |- _ =>
             rewrite <- M, <- K in E1, E2; rewrite upd_eq in E1, E2; proj; unfold Mtable.at_gen in *; congruence end).
    all: injection V as Vg.
    + rewrite <- M, <- Vg, upd_eq in E1. discriminate E1.
    + assert (at_gen st g' = at_gen st g) as Ea by (unfold Mtable.at_gen in *; rewrite <- M, <- Vg; reflexivity).
      rewrite Ea in *. destruct H0; congruence.
    + rewrite <- M, <- Vg, upd_eq in E1. discriminate E1.
Qed.

Lemma keep_tok' : forall st t st', inv st -> stepR st t st' -> forall g', tok_ok st' (at_gen st' g').
Proof.
  intros st t st' I R g'. pose proof (tok_frame st t st' g' I R) as FR.
  destruct R; try (apply FR; reflexivity); know I;
    try (match goal with |- context [resume _ ?a _] => destruct a; cbn [resume] in * end); touched st g' FR;
    match goal with E : _ = ?g mod N |- _ => pose proof (tok_at cfg N HN st I g) as V; unfold tok_ok in V end;
    unfold tok_ok; newslot st E; rewrite ?upd_eq;
    repeat match goal with K : s_tok ?x = _ |- _ => rewrite K in *; clear K end; rewrite ?upd_eq; auto;
    try (left; cbn; congruence).
  - pose proof (v_ins _ _ _ I t) as W. rewrite H in W. cbn in W. destruct W as [-> W].
    left. cbn. rewrite (live_gen cfg N HN st I (g_gen st)); auto. pose proof (v_rg _ _ _ I). lia.
  - split; auto. rewrite H1. apply in_or_app. right. left. auto.
  - destruct (s_tok (at_gen st (j - 1))) as [| |u]; auto. destruct (Nat.eq_dec u t) as [->|D]; [|rewrite upd_neq; auto].
    rewrite H in V. cbn in V. destruct V as [V|[V _]]; discriminate.
  - destruct (s_tok (at_gen st g)) as [| |u]; auto. destruct (Nat.eq_dec u t) as [->|D]; [|rewrite upd_neq; auto].
    rewrite H in V. cbn in V. destruct V as [V|[V _]]; discriminate.
  - destruct (s_tok (at_gen st g)) as [| |u]; auto. destruct (Nat.eq_dec u t) as [->|D]; [|rewrite upd_neq; auto].
    rewrite H in V. cbn in V. destruct V as [V|[V _]]; discriminate.
Qed.

(** ** References *)
Lemma ref_frame : forall st t st' g', inv st -> stepR st t st' -> at_gen st' g' = at_gen st g' -> ref_ok st' (at_gen st' g').
Proof.
  intros st t st' g' I R E. destruct (ref_at cfg N HN st I g') as [A [B [C [D F]]]]. pose proof (gen_mod st I g') as M. rewrite E.
  assert (g_ret st <= g_ret st') as Hr by (destruct (nums_after cfg N st t st' I R) as [_ [G|[w [g [P [G _]]]]]]; lia).
  repeat split; auto; try (destruct (D H); auto; lia). intros u Hu. specialize (C u Hu).
  destruct (Nat.eq_dec u t) as [->|Du]; [|rewrite (pc_other _ _ _ _ _ R u Du); auto].
  pose proof (f_equal s_holders E) as E1. clear E.
  destruct R; try destruct a; try (match goal with H : g_pc st t = _ \/ _ |- _ => destruct H as [H|[H|H]] end);
    rewrite H in C; cbn [helds] in C; try (destruct C; fail); proj; rewrite ?upd_eq; cbn [helds]; auto.
  - right. auto.
  - destruct C as [C|C]; auto. exfalso. unfold Mtable.at_gen in E1, Hu. proj. rewrite <- M, <- C in E1, Hu. rewrite upd_eq in E1. proj.
    rewrite <- E1 in Hu. apply in_drop in Hu. tauto.
  - destruct C as [C|C]; auto. exfalso. unfold Mtable.at_gen in E1, Hu. proj. rewrite <- M, <- C in E1, Hu. rewrite upd_eq in E1. proj.
    rewrite <- E1 in Hu. apply in_drop in Hu. tauto.
Qed.

Lemma drop_length : forall t l, NoDup l -> In t l -> S (length (drop t l)) = length l.
Proof.
  intros t l. unfold drop. induction l as [|x l IH]; intros Nd Hi; [destruct Hi|]. inversion Nd; subst. cbn. destruct Hi as [->|Hi].
  - rewrite Nat.eqb_refl. cbn. f_equal. clear IH Nd H2. induction l as [|y l IH]; cbn; auto.
    destruct (y =? t) eqn:X; [apply Nat.eqb_eq in X; subst; destruct H1; left; auto|]. cbn. f_equal. apply IH. intros K. apply H1. right. auto.
  - destruct (x =? t) eqn:X; [apply Nat.eqb_eq in X; subst; contradiction|]. cbn. rewrite IH; auto.
Qed.
Lemma drop_nodup : forall t l, NoDup l -> NoDup (drop t l).
Proof. intros. apply NoDup_filter. auto. Qed.

Lemma keep_ref' : forall st t st', inv st -> stepR st t st' -> forall g', ref_ok st' (at_gen st' g').
Proof.
  intros st t st' I R g'. pose proof (ref_frame st t st' g' I R) as FR.
  (* the holders of the slot, when the thread has no references *)
  assert (forall u g p, helds (g_pc st t) = [] -> In u (s_holders (at_gen st g)) ->
            In (s_gen (at_gen st g)) (helds (upd (g_pc st) t p u))) as HU.
  { intros u g p Hn Hu. destruct (ref_at cfg N HN st I g) as [_ [_ [C0 _]]]. specialize (C0 u Hu).
    destruct (Nat.eq_dec u t) as [->|Du]; [rewrite Hn in C0; destruct C0|rewrite upd_neq; auto]. }
  destruct R; try (apply FR; reflexivity); know I;
    try (match goal with |- context [resume _ ?a _] => destruct a; cbn [resume] in * end); touched st g' FR;
    match goal with E : _ = ?g mod N |- _ => destruct (ref_at cfg N HN st I g) as [A [B [C [D F]]]] end;
    unfold ref_ok; newslot st E;
    repeat match goal with K : s_holders _ = [] |- _ => rewrite K in *; clear K end;
    try (rewrite H in HU; specialize (fun u g p => HU u g p eq_refl));
    try (split; [exact A|split; [exact B|split; [intros; apply HU; auto|split; [intros X; destruct (D X); try congruence; auto|auto]]]]; fail);
    try (split; [exact A|split; [exact B|split; [intros ? []|split; [intros X; destruct (D X); try congruence; auto|auto]]]]; fail).
  - (* F12 *) rewrite H6 in *. repeat split; auto; lia.
  - rewrite H7 in *. repeat split; auto; try lia; discriminate.
  - repeat split; auto; try lia; try discriminate; intros ? [].
  - pose proof (v_rec _ _ _ I t) as W. rewrite H in W. cbn in W.
    destruct W as [_ [_ [_ [_ W]]]]. rewrite W in *. repeat split; auto; try (intros ? []; fail); discriminate.
  - pose proof (v_rec _ _ _ I t) as W. rewrite H in W. cbn in W. destruct W as [_ [_ [_ [_ W]]]]. rewrite W in *. cbn in A.
    repeat split; auto; try (intros ? []; fail); try discriminate. lia.
  - pose proof (v_rec _ _ _ I t) as W. rewrite H in W. cbn in W. destruct W as [_ [_ [_ [_ W]]]]. rewrite W in *. cbn in A.
    repeat split; auto; try (intros ? []; fail); try discriminate. lia.
  - (* a new reference *)
    destruct (v_hold _ _ _ I t) as [W1 [W2 W3]]. rewrite H in W1, W2, W3. cbn in W1, W2, W3. destruct W3 as [W3 W4].
    repeat split; try (cbn; lia); try (apply D; auto; fail); [|intros u [<-|Hu]].
    + constructor; auto. intros K. specialize (C _ K). rewrite H, H0 in C. cbn in C. specialize (W4 _ C). lia.
    + rewrite upd_eq, H0. left. auto.
    + destruct (Nat.eq_dec u t) as [->|Du]; [rewrite upd_eq, H0; left; auto|rewrite upd_neq; auto].
  - (* a reference goes *)
    destruct (v_hold _ _ _ I t) as [W1 [W2 _]]. rewrite H in W1, W2. cbn in W1, W2. destruct (W2 g (or_introl eq_refl)) as [_ W3].
    pose proof (drop_length t _ B W3) as Dl.
    repeat split; try lia; try (apply D; auto; fail); [apply drop_nodup; auto|].
    intros u Hu. apply in_drop in Hu. destruct Hu as [Hu Du]. rewrite upd_neq; auto.
  - destruct (v_hold _ _ _ I t) as [W1 [W2 _]]. rewrite H in W1, W2. cbn in W1, W2. destruct (W2 g (or_introl eq_refl)) as [_ W3].
    pose proof (drop_length t _ B W3) as Dl.
    repeat split; try lia; try (apply D; auto; fail); try discriminate; [apply drop_nodup; auto|].
    intros u Hu. apply in_drop in Hu. destruct Hu as [Hu Du]. rewrite upd_neq; auto.
Qed.

Lemma keep_recs' : forall st t st', inv st -> stepR st t st' -> forall g', recs_ok N st' (g' mod N) (at_gen st' g').
Proof.
  intros st t st' I R g' u Z. pose proof (recs_at cfg N HN st I g') as V.
  assert (at_gen st' g' = at_gen st g' ->
    s_holders (at_gen st' g') = [] /\ s_st (at_gen st' g') = Incorporated /\
    exists g a, g mod N = g' mod N /\ (g_pc st' u = Q1 g a \/ g_pc st' u = Q2 g a \/ g_pc st' u = Q3 g a)) as FR.
  { intros E. rewrite E in *. destruct (V u Z) as [A [B [g [a [C D]]]]]. repeat split; auto. exists g.
    destruct (Nat.eq_dec u t) as [->|Du].
    - pose proof (f_equal s_base E) as E1. pose proof (f_equal s_gen E) as E2. pose proof (f_equal s_rec E) as E3. clear E.
      assert (at_gen st g' = at_gen st g) as Ea by (unfold Mtable.at_gen; rewrite C; reflexivity).
      pose proof (v_rec _ _ _ I t) as W.
      exists a. split; auto.
      destruct D as [D|[D|D]]; destruct R; try (match goal with H : g_pc st t = _ \/ _ |- _ => destruct H as [H|[H|H]] end);
        try congruence; rewrite H in D; injection D as -> ->; proj; rewrite ?upd_eq; auto.
      exfalso. unfold Mtable.at_gen in *. destruct a; proj; rewrite <- C, upd_eq in E3; proj; congruence.
    - rewrite (pc_other _ _ _ _ _ R u Du). exists a. auto. }
  destruct R; try (apply FR; reflexivity); know I;
    try (match goal with |- context [resume _ ?a _] => destruct a; cbn [resume] in * end); touched st g' FR;
    revert Z; newslot st E; intros Z; try congruence; try discriminate;
    match goal with E : _ = ?g mod N |- _ => pose proof (recs_at cfg N HN st I g u) as V0; unfold recs_ok in V0 end.
  all: try (exfalso; destruct (V0 Z) as [_ [X _]]; congruence).
  - (* F12 *)
    injection Z as <-. destruct (ref_at cfg N HN st I g) as [A _]. rewrite H7, H1 in A.
    destruct (s_holders (at_gen st g)); [|cbn in A; lia]. repeat split; auto. exists g, (AFlush g). rewrite upd_eq. auto.
  - destruct (V0 Z) as [A [B _]]. assert (u = t) as -> by congruence. repeat split; auto. exists g, a. rewrite upd_eq. auto.
  - destruct (V0 Z) as [A [B _]]. assert (u = t) as -> by congruence. repeat split; auto. exists g, a. rewrite upd_eq. auto.
  - (* a live memtable is not recycled *)
    exfalso. destruct (V0 Z) as [A [B _]]. destruct (v_hold _ _ _ I t) as [_ [_ W]]. rewrite H in W. destruct W as [W _].
    pose proof (st_at cfg N HN st I (j - 1)) as S0. unfold st_ok in S0. rewrite B, H0 in S0.
    destruct S0 as [_ [S0|[S0|S0]]]; [lia| |lia]. destruct S0 as [_ [_ [S0 _]]]. congruence.
  - exfalso. destruct (V0 Z) as [A _]. destruct (v_hold _ _ _ I t) as [_ [W _]]. rewrite H in W.
    destruct (W g (or_introl eq_refl)) as [_ W1]. rewrite A in W1. destruct W1.
  - injection Z as <-. destruct (v_hold _ _ _ I t) as [_ [W _]]. rewrite H in W. destruct (W g (or_introl eq_refl)) as [_ W1].
    destruct (ref_at cfg N HN st I g) as [A [B _]]. pose proof (drop_length t _ B W1) as Dl.
    destruct (drop t (s_holders (at_gen st g))); [|cbn in Dl; lia]. repeat split; auto. exists g, (AIter held). rewrite upd_eq. auto.
Qed.

(** ** The queue *)
Lemma removed : forall (l : list nat) i g, nth_error l i = Some g -> NoDup l ->
  NoDup (firstn i l ++ skipn (S i) l) /\ forall x, In x (firstn i l ++ skipn (S i) l) -> In x l /\ x <> g.
Proof.
  induction l as [|y l IH]; intros [|i] g E Nd; cbn in E; try discriminate; inversion Nd; subst.
  - injection E as <-. cbn. split; auto. intros x Hx. split; auto. intros ->. contradiction.
  - destruct (IH i g E H2) as [A B]. cbn [firstn skipn app]. change (skipn (S (S i)) (y :: l)) with (skipn (S i) l). split.
    + constructor; auto. intros K. apply B in K. tauto.
    + intros x [<-|Hx].
      * split; [left; auto|]. intros ->. apply nth_error_In in E. contradiction.
      * destruct (B x Hx). split; auto. right. auto.
Qed.

Lemma queue_keeps : forall st t st', inv st -> stepR st t st' ->
  forall g', s_gen (at_gen st g') = g' -> s_tok (at_gen st g') = InQueue -> (forall i, nth_error (g_tasks st) i = Some g' -> g_pc st t = Idle -> g_tasks st' = g_tasks st) ->
  s_gen (at_gen st' g') = g' /\ s_tok (at_gen st' g') = InQueue.
Proof.
  intros st t st' I R g' G T X. pose proof (st_at cfg N HN st I g') as S0. pose proof (tok_at cfg N HN st I g') as T0.
  unfold tok_ok in T0. rewrite T in T0. destruct T0 as [T1 T2].
  assert (forall i g, nth_error (g_tasks st) i = Some g -> g_pc st t = Idle ->
    g_tasks st' = firstn i (g_tasks st) ++ skipn (S i) (g_tasks st) -> g' mod N = g mod N -> False) as Y.
  { intros i g En P Et Em. destruct (touch_task cfg N HN st i g I En) as [A _].
    assert (g' = g) by (apply (same_slot N st); auto). subst g'. specialize (X i En P). rewrite X in Et.
    pose proof (removed _ _ _ En (v_nodup _ _ _ I)) as [_ Rm]. rewrite <- Et in Rm. apply nth_error_In in En. apply Rm in En. tauto. }
  destruct R; try destruct a; know I; slotcase g'; try (split; auto; fail); rewrite Ea in *; proj; try congruence; try (split; auto; fail).
  exfalso. eapply Y; eauto.
Qed.

Lemma keep_tasks : forall st t st', inv st -> stepR st t st' -> forall g, In g (g_tasks st') -> s_gen (at_gen st' g) = g /\ s_tok (at_gen st' g) = InQueue.
Proof.
  intros st t st' I R g Hg.
  assert (In g (g_tasks st) -> (forall i, nth_error (g_tasks st) i = Some g -> g_pc st t = Idle -> g_tasks st' = g_tasks st) ->
          s_gen (at_gen st' g) = g /\ s_tok (at_gen st' g) = InQueue) as K.
  { intros Hi X. destruct (v_tasks _ _ _ I g Hi). eapply queue_keeps; eauto. }
  destruct R; try (apply K; auto; fail).
  - clear K. proj. destruct (removed _ _ _ H0 (v_nodup _ _ _ I)) as [_ Rm]. destruct (Rm g Hg) as [Hi Dg].
    destruct (v_tasks _ _ _ I g Hi) as [A B]. know I. slotcase g; auto. exfalso. apply Dg. apply (same_slot N st); auto.
  - proj. apply in_app_or in Hg. destruct Hg as [Hg|[<-|[]]].
    + apply K; auto. intros; congruence.
    + clear K. unfold Mtable.at_gen. proj. rewrite upd_eq. proj. auto.
  - destruct a; apply K; auto.
Qed.

Lemma NoDup_app_snoc : forall (l : list nat) x, NoDup l -> ~ In x l -> NoDup (l ++ [x]).
Proof.
  induction l as [|y l IH]; intros x Nd Hx; cbn; [constructor; auto|]. inversion Nd; subst. constructor.
  - intros K. apply in_app_or in K. destruct K as [K|[K|[]]]; auto. subst. apply Hx. left. auto.
  - apply IH; auto. intros K. apply Hx. right. auto.
Qed.

Lemma keep_nodup : forall st t st', inv st -> stepR st t st' -> NoDup (g_tasks st').
Proof.
  intros st t st' I R. pose proof (v_nodup _ _ _ I) as V. destruct R; try destruct a; proj; auto.
  - apply (removed _ _ _ H0 V).
  - apply NoDup_app_snoc; auto. intros K. destruct (v_tasks _ _ _ I g K) as [_ T]. know I. congruence.
Qed.
End SlotKeep.
