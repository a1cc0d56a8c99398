(** * Memtables: no assertion fails, and nothing is left over *)

From Coq Require Import List Arith NArith Bool Lia.
From Verif Require Import Base Spec Spec_Merge DataProofs Mtable MtableInv MtableProofs MtableKeep MtableSlot MtableHist.
Import ListNotations.

Section Live.
Variable cfg : data_config.
Variable N : nat.
Hypothesis HN : 2 <= N.
Notation at_gen := (at_gen N).
Notation inv := (inv cfg N).
Notation step := (step cfg N).

Lemma get_true : forall st g, s_gen (at_gen st g) = g -> get_ok N st g = true.
Proof. intros. unfold get_ok. apply Nat.eqb_eq. auto. Qed.
Lemma transition_ok : forall st g a b k nx, s_gen (at_gen st g) = g -> s_st (at_gen st g) = a -> transition N st g a b k nx <> Abort.
Proof. intros st g a b k nx A B. unfold transition. rewrite get_true by auto. rewrite B. destruct a; discriminate. Qed.
Lemma dec_ok : forall st t g k a, s_gen (at_gen st g) = g -> 0 < s_refs (at_gen st g) ->
  (s_refs (at_gen st g) = 1 -> s_st (at_gen st g) = Incorporated) -> dec_ref N st t g k a <> Abort.
Proof.
  intros st t g k a A B C. unfold dec_ref. rewrite get_true by auto. destruct (s_refs (at_gen st g)) as [|[|n]]; [lia| |discriminate].
  rewrite C by auto. discriminate.
Qed.

(** A reader of the lookup lock finds every live memtable readable. *)
Lemma readable : forall st t j, inv st -> l_reader (g_pc st t) = true -> g_ret st < j <= S (g_gen st) ->
  get_ok N st (j - 1) && ok_to_lookup (s_st (at_gen st (j - 1))) = true.
Proof.
  intros st t j I L B. pose proof (live_gen cfg N HN st I (j - 1) ltac:(lia)) as G. rewrite get_true by auto. cbn.
  pose proof (st_at cfg N HN st I (j - 1)) as S. unfold st_ok in S.
  destruct (s_st (at_gen st (j - 1))) eqn:E; auto; exfalso.
  - destruct S as [_ [_ [_ [_ [_ [u [nr [_ P]]]]]]]]. rewrite (lwriter_alone cfg N st u I) in L; [discriminate|rewrite P; reflexivity].
  - destruct S as [_ [S|[[_ [_ [_ [_ [u [nr [_ P]]]]]]]|[S _]]]]; [lia| |lia].
    rewrite (lwriter_alone cfg N st u I) in L; [discriminate|rewrite P; reflexivity].
Qed.

Theorem no_abort : forall st t c, inv st -> step st t c <> Abort.
Proof.
  intros st t c I. unfold Mtable.step. destruct (g_pc st t) eqn:P; try discriminate.
  - destruct c; try discriminate; try (destruct (lock_get _ _); discriminate). destruct (nth_error _ _); discriminate.
  - destruct (lock_get _ _); discriminate.
  - destruct (mstate_eqb _ _); discriminate.
  - destruct c as [| | | |[|]]; try discriminate. destruct (s_tree _); discriminate.
  - destruct (mstate_eqb _ _); discriminate.
  - destruct c as [| | | |[|]]; try discriminate. destruct (lock_excl _ _); discriminate.
  - pose proof (v_ins _ _ _ I t) as V. rewrite P in V. cbn in V. destruct V as [_ [V _]]. rewrite V. discriminate.
  - destruct (rotate_room cfg N HN st t w g I P) as [-> [B _]]. cbn [set_g_empty set_g_gen g_gen g_ret].
    replace (S (S (g_gen st)) - g_ret st <=? N) with true by (symmetry; apply Nat.leb_le; lia). rewrite Nat.eqb_refl. discriminate.
  - destruct (touch_ins cfg N HN st t w g I P) as [_ [_ [G _]]]. rewrite get_true by auto. discriminate.
  - destruct (own_fact cfg N st t (I10 w g) g Finalized I P eq_refl) as [A [_ B]]. rewrite get_true by auto. rewrite B. discriminate.
  - destruct (own_fact cfg N st t (F0 g) g Finalized I P eq_refl) as [A [_ B]]. apply transition_ok; auto.
  - destruct (own_fact cfg N st t (F1 g) g Compacting I P eq_refl) as [A [_ B]].
    pose proof (st_at cfg N HN st I g) as S. unfold st_ok in S. rewrite B in S. destruct (s_tree (at_gen st g)); [|discriminate].
    exfalso. tauto.
  - destruct (own_fact cfg N st t (F2 g) g Compacting I P eq_refl) as [A [_ B]]. apply transition_ok; auto.
  - destruct (negb _ || _); [discriminate|]. destruct (mstate_eqb _ _); discriminate.
  - pose proof (v_inc _ _ _ I t) as V. rewrite P in V. destruct V as [_ [_ [A B]]]. rewrite get_true by auto. rewrite B. discriminate.
  - destruct (g_llock st) as [[|]|]; discriminate.
  - pose proof (v_inc _ _ _ I t) as V. rewrite P in V. destruct V as [[_ [_ [A B]]] _]. apply transition_ok; auto.
  - pose proof (v_inc _ _ _ I t) as V. rewrite P in V. destruct V as [[_ [_ [A B]]] _]. apply transition_ok; auto.
  - pose proof (v_inc _ _ _ I t) as V. rewrite P in V. destruct V as [[A _] _]. rewrite A, Nat.eqb_refl. discriminate.
  - destruct (touch_done cfg N HN st t g I P) as [A [B [_ [C [D _]]]]]. apply dec_ok; auto.
    destruct (ref_at cfg N HN st I g) as [E _]. rewrite E, D. lia.
  - pose proof (v_inc _ _ _ I t) as V. rewrite P in V. destruct V as [A B]. destruct (negb _); [discriminate|].
    replace (g_inc st + 1 =? S g) with true by (symmetry; apply Nat.eqb_eq; lia). destruct (mstate_eqb _ _); discriminate.
  - destruct (touch_rec cfg N HN st t g a I) as [A _]; [auto|]. rewrite A. discriminate.
  - pose proof (v_look _ _ _ I t) as V. rewrite P in V. destruct V as [[A B] _].
    assert (g_gen st < g_ret st + N) as W.
    { pose proof (live_gen cfg N HN st I (g_gen st) ltac:(lia)) as G.
      pose proof (v_hi _ _ _ I (g_gen st mod N) (mod_lt N HN _)). unfold Mtable.at_gen in G. lia. }
    replace (S gs - g_ret st <=? N) with true by (symmetry; apply Nat.leb_le; lia). discriminate.
  - pose proof (v_look _ _ _ I t) as V. rewrite P in V. destruct V as [A _].
    destruct (j =? g_ret st) eqn:E; [discriminate|]. apply Nat.eqb_neq in E. destruct (_ && may_stop _ _); [discriminate|].
    rewrite (readable st t j I); [discriminate|rewrite P; reflexivity|lia].
  - pose proof (v_look _ _ _ I t) as V. rewrite P in V. destruct V as [A [_ [_ B]]].
    destruct compacted; [|discriminate]. specialize (B eq_refl).
    rewrite get_true by (apply (live_gen cfg N HN st I); lia). destruct (s_st (at_gen st (j - 1))); try discriminate B; discriminate.
  - pose proof (v_hold _ _ _ I t) as V. rewrite P in V. destruct V as [_ [_ [A _]]].
    destruct (j =? g_ret st) eqn:E; [discriminate|]. apply Nat.eqb_neq in E.
    rewrite (readable st t j I); [|rewrite P; reflexivity|lia]. destruct (ok_to_lookup_compacted _); discriminate.
  - pose proof (v_hold _ _ _ I t) as V. rewrite P in V. destruct V as [_ [_ [A _]]].
    rewrite get_true by (apply (live_gen cfg N HN st I); lia). discriminate.
  - destruct held as [|g held]; [discriminate|]. pose proof (v_hold _ _ _ I t) as V. rewrite P in V. destruct V as [_ [A _]].
    destruct (A g) as [B C]; [left; auto|]. destruct (ref_at cfg N HN st I g) as [R [_ [_ [D _]]]].
    assert (0 < length (s_holders (at_gen st g))) by (destruct (s_holders (at_gen st g)); [destruct C|cbn; lia]).
    apply dec_ok; auto; rewrite R; [lia|]. destruct (s_base (at_gen st g)); [lia|]. intros. apply D. auto.
Qed.

(** When no flush is queued or under way, everything but the current memtable has
    been incorporated. *)
Definition flushing (p : pc) : bool :=
  match p with
  | I7 _ _ | I8 _ _ | I10 _ _ | F0 _ | F1 _ | F2 _ | F3 _ => true
  | _ => inc_pc p
  end.
Theorem settled : forall st, inv st -> g_tasks st = [] -> (forall t, flushing (g_pc st t) = false) ->
  g_ret st = g_gen st /\ g_inc st = g_gen st /\ g_hist st = g_root st ++ s_tree (at_gen st (g_gen st)).
Proof.
  intros st I T F. pose proof (v_rg _ _ _ I) as RG.
  assert (g_incorp st = None) as U.
  { destruct (g_incorp st) as [u|] eqn:U; auto. apply (v_incp _ _ _ I u) in U. specialize (F u). destruct (g_pc st u); cbn in *; congruence. }
  assert (g_ret st = g_gen st) as E.
  { destruct (Nat.eq_dec (g_ret st) (g_gen st)) as [|D]; auto. exfalso. assert (g_ret st < g_gen st) as L by lia.
    pose proof (live_gen cfg N HN st I (g_ret st) ltac:(lia)) as G.
    pose proof (st_at cfg N HN st I (g_ret st)) as S. unfold st_ok in S.
    pose proof (tok_at cfg N HN st I (g_ret st)) as K. unfold tok_ok in K.
    pose proof (v_noinc _ _ _ I U) as Ni.
    assert (s_tok (at_gen st (g_ret st)) = Nobody) as Z.
    { destruct (s_tok (at_gen st (g_ret st))) as [| |u]; auto; exfalso.
      - rewrite T in K. destruct K as [[] _].
      - specialize (F u). destruct K as [K|[K _]]; [|rewrite K in F; discriminate].
        destruct (g_pc st u); cbn in *; try discriminate. }
    rewrite Z, G, U, Ni in S. destruct (s_st (at_gen st (g_ret st))).
    all: repeat match goal with
         | H : _ /\ _ |- _ => destruct H
         | H : _ \/ _ |- _ => destruct H
         | H : exists _, _ |- _ => destruct H
         end; try lia; try congruence. }
  split; auto. split; [rewrite (v_noinc _ _ _ I U); auto|].
  rewrite (v_hist _ _ _ I), E. unfold eff_root. rewrite U. f_equal.
  replace (S (g_gen st) - g_gen st) with 1 by lia. apply conts_one.
Qed.
End Live.

(** ** Progress *)
Definition conv1 (k : lock) (u : nat) (rd wr : bool) : Prop :=
  match k with Readers l => In u l -> rd = true | Writer w => u = w -> wr = true end.
Definition conv (st : state) : Prop :=
  forall u, conv1 (g_ilock st) u (i_reader (g_pc st u)) (i_writer (g_pc st u)) /\
            conv1 (g_llock st) u (l_reader (g_pc st u)) (l_writer (g_pc st u)).

Section Progress.
Variable cfg : data_config.
Variable N : nat.
Hypothesis HN : 2 <= N.
Notation stepR := (stepR cfg N).
Notation step := (step cfg N).
Notation inv := (inv cfg N).
Notation put_slot := (put_slot N).
Notation at_gen := (Mtable.at_gen N).

Lemma conv_step : forall st t st', inv st -> stepR st t st' -> conv st -> conv st'.
Proof.
  intros st t st' I R C u.
  pose proof (v_ilock _ _ _ I t) as V. pose proof (v_llock _ _ _ I t) as W. specialize (C u). destruct C as [A B].
  destruct (Nat.eq_dec u t) as [->|D].
  - destruct R; try destruct a; proj; rewrite ?upd_eq;
      repeat match goal with H : g_pc st t = _ \/ _ |- _ => destruct H as [H|[H|H]] end;
      match goal with H : g_pc st t = _ |- _ => rewrite H in A, B, V, W; cbn in A, B, V, W |- * end;
      unfold conv1 in *;
      destruct (g_ilock st) eqn:L1; destruct (g_llock st) eqn:L2; cbn in *; rewrite ?in_drop;
      try match goal with H : Readers _ = Readers _ |- _ => injection H as -> end;
      split; intros; try congruence; try tauto; intuition congruence.
  - rewrite (pc_other _ _ _ _ _ R u D).
    destruct R; try destruct a; proj; auto;
      repeat match goal with H : g_pc st t = _ \/ _ |- _ => destruct H as [H|[H|H]] end;
      match goal with H : g_pc st t = _ |- _ => rewrite H in V, W; cbn in V, W end;
      unfold conv1 in *;
      destruct (g_ilock st) eqn:L1; destruct (g_llock st) eqn:L2; cbn in *; rewrite ?in_drop;
      try match goal with H : Readers _ = Readers _ |- _ => injection H as -> end;
      split; intros; try congruence; try tauto; intuition congruence.
Qed.
Lemma conv_reach : forall st, reach cfg N st -> conv st.
Proof.
  intros st H. induction H as [|st t c st' H IH E]; [intros u; cbn; tauto|].
  eapply conv_step; eauto using inv_reach. eapply step_R; eauto.
Qed.

(** A thread that holds a lock never waits. *)
Lemma holder_runs : forall st t, inv st -> i_writer (g_pc st t) || l_writer (g_pc st t) || l_reader (g_pc st t) = true -> exists c st', step st t c = Next st'.
Proof.
  intros st t I H. exists (Go false). pose proof (no_abort cfg N HN st t (Go false) I) as A.
  destruct (step st t (Go false)) as [st'| |] eqn:E; [eauto| |congruence]. exfalso. clear A.
  unfold Mtable.step in E. destruct (g_pc st t); cbn in H; try discriminate H; try discriminate E;
    repeat match type of E with
    | transition _ _ _ _ _ _ _ = _ => unfold transition in E
    | (let _ := _ in _) = _ => cbv zeta in E
    | (if ?x then _ else _) = _ => destruct x
    end; discriminate E.
Qed.

Theorem progress : forall st t, reach cfg N st -> g_pc st t <> Idle ->
  exists u c st', g_pc st u <> Idle /\ step st u c = Next st'.
Proof.
  intros st t R P. pose proof (inv_reach cfg N HN st R) as I. pose proof (conv_reach st R) as C.
  assert (forall u, i_writer (g_pc st u) || l_writer (g_pc st u) || l_reader (g_pc st u) = true ->
    exists u c st', g_pc st u <> Idle /\ step st u c = Next st') as HR.
  { intros u H. destruct (holder_runs st u I H) as [c [st' E]]. exists u, c, st'. split; auto. intros Q. rewrite Q in H. discriminate H. }
  pose proof (no_abort cfg N HN st t (Go false) I) as A.
  destruct (step st t (Go false)) as [st'| |] eqn:E; [exists t, (Go false), st'; auto| |congruence]. clear A.
  unfold Mtable.step in E. destruct (g_pc st t) eqn:Q; try congruence;
    repeat match type of E with
    | transition _ _ _ _ _ _ _ = _ => unfold transition in E
    | dec_ref _ _ _ _ _ _ = _ => unfold dec_ref in E
    | (let _ := _ in _) = _ => cbv zeta in E
    | (if ?x then _ else _) = _ => destruct x
    end; try discriminate E.
  - destruct (g_ilock st) as [l|u] eqn:L; [discriminate E|]. apply (HR u). destruct (C u) as [C1 _]. rewrite L in C1. cbn in C1.
    rewrite C1 by auto. reflexivity.
  - destruct (g_llock st) as [[|u l]|u] eqn:L; [discriminate E| |]; apply (HR u); destruct (C u) as [_ C1]; rewrite L in C1; cbn in C1;
      rewrite C1 by auto; rewrite ?orb_true_r; reflexivity.
  - destruct (s_refs _) as [|[|]]; try discriminate E. destruct (mstate_eqb _ _); discriminate E.
  - destruct held; [discriminate E|]. unfold dec_ref in E. cbv zeta in E. repeat match type of E with (if ?x then _ else _) = _ => destruct x end; try discriminate E.
    destruct (s_refs _) as [|[|]]; try discriminate E. destruct (mstate_eqb _ _); discriminate E.
Qed.

Ltac know I :=
  repeat match goal with H : g_pc ?st ?t = _ \/ _ |- _ => destruct H end;
  match goal with
  | H : g_pc ?st ?t = I9 _ _ |- _ => pose proof (touch_ins cfg N HN _ _ _ _ I H)
  | H : g_pc ?st ?t = Q1 _ _ |- _ => pose proof (touch_rec cfg N HN _ _ _ _ I (or_introl H))
  | H : g_pc ?st ?t = Q2 _ _ |- _ => pose proof (touch_rec cfg N HN _ _ _ _ I (or_intror (or_introl H)))
  | H : g_pc ?st ?t = Q3 _ _ |- _ => pose proof (touch_rec cfg N HN _ _ _ _ I (or_intror (or_intror H)))
  | H : g_pc ?st ?t = F12 _ |- _ => pose proof (touch_done cfg N HN _ _ _ I H)
  | H : nth_error (g_tasks ?st) _ = Some _ |- _ => pose proof (touch_task cfg N HN _ _ _ I H)
  | H : g_pc ?st ?t = F7 _ _ |- _ => pose proof (touch_inc cfg N HN _ _ _ _ I (or_introl H))
  | H : g_pc ?st ?t = F8 _ _ |- _ => pose proof (touch_inc cfg N HN _ _ _ _ I (or_intror H))
  | H : g_pc ?st ?t = I10 _ _ |- _ => pose proof (own_fact cfg N _ _ _ _ _ I H eq_refl)
  | H : g_pc ?st ?t = I7 _ _ |- _ => pose proof (own_fact cfg N _ _ _ _ _ I H eq_refl)
  | H : g_pc ?st ?t = I8 _ _ |- _ => pose proof (own_fact cfg N _ _ _ _ _ I H eq_refl)
  | H : g_pc ?st ?t = F0 _ |- _ => pose proof (own_fact cfg N _ _ _ _ _ I H eq_refl)
  | H : g_pc ?st ?t = F1 _ |- _ => pose proof (own_fact cfg N _ _ _ _ _ I H eq_refl)
  | H : g_pc ?st ?t = F2 _ |- _ => pose proof (own_fact cfg N _ _ _ _ _ I H eq_refl)
  | _ => idtac
  end;
  repeat match goal with H : _ /\ _ |- _ => destruct H end.

Ltac slotcase g' :=
  unfold Mtable.at_gen; proj; unfold upd;
  try match goal with
  | |- context [g' mod N =? ?y] =>
      let E := fresh "E" in let Ea := fresh "Ea" in destruct (g' mod N =? y) eqn:E;
      [apply Nat.eqb_eq in E;
       match type of E with _ = ?g mod N =>
         match goal with s : state |- _ => assert (at_gen s g' = at_gen s g) as Ea by (unfold Mtable.at_gen; rewrite E; reflexivity) end
       end|]
  end;
  repeat match goal with |- context [g_slots ?s (?g mod N)] => change (g_slots s (g mod N)) with (at_gen s g) end.



(** A memtable's content is only appended to while it is the current one, and
    only dropped when it has been incorporated and nobody holds it. *)
Theorem content_kept : forall st t c st' i, reach cfg N st -> step st t c = Next st' ->
  s_tree (at_gen st' i) <> s_tree (at_gen st i) ->
  (s_gen (at_gen st i) = g_gen st /\ s_st (at_gen st i) = Ready /\
     exists w, s_tree (at_gen st' i) = s_tree (at_gen st i) ++ [w] /\ g_hist st' = g_hist st ++ [w]) \/
  (s_tree (at_gen st' i) = [] /\ s_gen (at_gen st i) < g_ret st /\ s_st (at_gen st i) = Incorporated /\
     forall u, ~ In (s_gen (at_gen st i)) (helds (g_pc st u))).
Proof.
  intros st t c st' i Re S. pose proof (inv_reach cfg N HN st Re) as I. apply step_R in S.
  destruct S; try destruct a; know I; slotcase i; rewrite ?Ea in *; proj; intros D; try (exfalso; apply D; reflexivity).
  all: try (left; subst g; repeat split; auto; eauto; fail).
  all: right; pose proof (v_rec _ _ _ I t) as V; rewrite H in V; cbn in V; destruct V as [V1 [V2 V3]];
    destruct (ref_at cfg N HN st I g) as [_ [_ [_ [F _]]]]; destruct (F V3) as [F1 F2]; rewrite V2 in *;
    repeat split; auto; intros u Hu; pose proof (v_hold _ _ _ I u) as [_ [Q _]]; destruct (Q g Hu) as [_ Q2];
    match goal with Hh : s_holders _ = [] |- _ => rewrite Hh in Q2; destruct Q2 end.
Qed.

Theorem slot_reuse : forall st t c st' i, reach cfg N st -> step st t c = Next st' ->
  s_gen (at_gen st' i) <> s_gen (at_gen st i) ->
  s_gen (at_gen st' i) = s_gen (at_gen st i) + N /\ s_gen (at_gen st i) < g_ret st /\
  forall u, ~ In (s_gen (at_gen st i)) (helds (g_pc st u)).
Proof.
  intros st t c st' i Re S. pose proof (inv_reach cfg N HN st Re) as I. apply step_R in S.
  destruct S; try destruct a; know I; slotcase i; rewrite ?Ea in *; proj; intros D; try (exfalso; apply D; reflexivity);
    pose proof (v_rec _ _ _ I t) as V; rewrite H in V; cbn in V; destruct V as [V1 [V2 [V3 _]]]; rewrite V2 in *;
    repeat split; auto; intros u Hu; pose proof (v_hold _ _ _ I u) as [_ [Q _]]; destruct (Q g Hu) as [_ Q2];
    match goal with Hh : s_holders _ = [] |- _ => rewrite Hh in Q2; destruct Q2 end.
Qed.

(** Generations are retired one after the other, and what is in the tree is a
    prefix of the writes. *)
Theorem retired_in_order : forall st t c st', reach cfg N st -> step st t c = Next st' ->
  g_ret st' = g_ret st \/
  (g_ret st' = S (g_ret st) /\ g_ret st < g_gen st /\ s_gen (at_gen st (g_ret st)) = g_ret st /\ s_st (at_gen st (g_ret st)) = Incorporated).
Proof.
  intros st t c st' Re S. pose proof (inv_reach cfg N HN st Re) as I. apply step_R in S.
  destruct (nums_after cfg N st t st' I S) as [_ [E|[g [nr [P [E _]]]]]]; auto. right.
  pose proof (f9_lt cfg N HN st t g nr I P). pose proof (v_inc _ _ _ I t) as V. rewrite P in V. destruct V as [[-> [_ [A B]]] _]. auto.
Qed.
Theorem root_prefix : forall st, reach cfg N st -> exists tail, g_hist st = g_root st ++ tail.
Proof.
  intros st R. induction R as [|st t c st' R IH S]; [exists []; reflexivity|].
  pose proof (inv_reach cfg N HN st R) as I. apply step_R in S. pose proof (inv_step cfg N HN st t st' I S) as I'.
  destruct IH as [tl IH]. destruct (root_after cfg N st t st' S) as [E|[g [nr P]]].
  - rewrite E. destruct (hist_after cfg N st t st' S) as [Eh|[w [g [_ Eh]]]]; rewrite Eh, IH; [eauto|]. rewrite <- app_assoc. eauto.
  - assert (g_incorp st = Some t) as U by (apply (v_incp _ _ _ I t); rewrite P; reflexivity).
    pose proof (v_hist _ _ _ I) as V. unfold eff_root in V. rewrite U, P in V.
    destruct S; try destruct a; try congruence; try (match goal with H : g_pc st t = _ \/ _ |- _ => destruct H as [H|[H|H]]; congruence end).
    rewrite P in H. injection H as <- <-. proj. rewrite V. eauto.
Qed.
End Progress.
