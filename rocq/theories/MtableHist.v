(** * Memtables: lookups see a prefix of the writes; the invariant holds *)

From Coq Require Import List Arith NArith Bool Lia.
From Verif Require Import Base Spec Spec_Merge DataProofs Mtable MtableInv MtableProofs MtableKeep MtableSlot.
Import ListNotations.

Section Hist.
Variable cfg : data_config.
Variable N : nat.
Hypothesis HN : 2 <= N.
Notation at_gen := (at_gen N).
Notation put_slot := (put_slot N).
Notation stepR := (stepR cfg N).
Notation inv := (inv cfg N).
Notation conts := (conts N).

Ltac know I :=
  repeat match goal with H : g_pc ?st ?t = _ \/ _ |- _ => destruct H end;
  match goal with
  | H : g_pc ?st ?t = I9 _ _ |- _ => pose proof (touch_ins cfg N HN _ _ _ _ I H)
  | H : g_pc ?st ?t = Q1 _ _ |- _ => pose proof (touch_rec cfg N HN _ _ _ _ I (or_introl H))
  | H : g_pc ?st ?t = Q2 _ _ |- _ => pose proof (touch_rec cfg N HN _ _ _ _ I (or_intror (or_introl H)))
  | H : g_pc ?st ?t = Q3 _ _ |- _ => pose proof (touch_rec cfg N HN _ _ _ _ I (or_intror (or_intror H)))
  | H : g_pc ?st ?t = F12 _ |- _ => pose proof (touch_done cfg N HN _ _ _ I H)
  | H : nth_error (g_tasks ?st) _ = Some _ |- _ => pose proof (touch_task cfg N HN _ _ _ I H)
  | H : g_pc ?st ?t = F7 _ _ |- _ => pose proof (touch_inc cfg N HN _ _ _ _ I (or_introl H))
  | H : g_pc ?st ?t = F8 _ _ |- _ => pose proof (touch_inc cfg N HN _ _ _ _ I (or_intror H))
  | H : g_pc ?st ?t = I10 _ _ |- _ => pose proof (own_fact cfg N _ _ _ _ _ I H eq_refl)
  | H : g_pc ?st ?t = I7 _ _ |- _ => pose proof (own_fact cfg N _ _ _ _ _ I H eq_refl)
  | H : g_pc ?st ?t = I8 _ _ |- _ => pose proof (own_fact cfg N _ _ _ _ _ I H eq_refl)
  | H : g_pc ?st ?t = F0 _ |- _ => pose proof (own_fact cfg N _ _ _ _ _ I H eq_refl)
  | H : g_pc ?st ?t = F1 _ |- _ => pose proof (own_fact cfg N _ _ _ _ _ I H eq_refl)
  | H : g_pc ?st ?t = F2 _ |- _ => pose proof (own_fact cfg N _ _ _ _ _ I H eq_refl)
  | _ => idtac
  end;
  repeat match goal with H : _ /\ _ |- _ => destruct H end.

Ltac slotcase g' :=
  unfold Mtable.at_gen; proj; unfold upd;
  try match goal with
  | |- context [g' mod N =? ?y] =>
      let E := fresh "E" in let Ea := fresh "Ea" in destruct (g' mod N =? y) eqn:E;
      [apply Nat.eqb_eq in E;
       match type of E with _ = ?g mod N =>
         match goal with s : state |- _ => assert (at_gen s g' = at_gen s g) as Ea by (unfold Mtable.at_gen; rewrite E; reflexivity) end
       end|]
  end;
  repeat match goal with |- context [g_slots ?s (?g mod N)] => change (g_slots s (g mod N)) with (at_gen s g) end.



Lemma conts_app : forall st a n m, conts st a (n + m) = conts st a n ++ conts st (a + n) m.
Proof. intros. unfold MtableInv.conts. rewrite seq_app, flat_map_app. reflexivity. Qed.
Lemma conts_one : forall st a, conts st a 1 = s_tree (at_gen st a).
Proof. intros. unfold MtableInv.conts. cbn. apply app_nil_r. Qed.
Lemma conts_ext : forall st st' a n, (forall i, a <= i < a + n -> s_tree (at_gen st' i) = s_tree (at_gen st i)) -> conts st' a n = conts st a n.
Proof.
  intros st st' a n. unfold MtableInv.conts. revert a. induction n as [|n IH]; intros a H; cbn; auto.
  rewrite H by lia. f_equal. apply IH. intros. apply H. lia.
Qed.

Lemma tree_keeps : forall st t st', inv st -> stepR st t st' -> (forall w g, g_pc st t <> I9 w g) ->
  forall i, g_ret st <= i <= g_gen st -> s_tree (at_gen st' i) = s_tree (at_gen st i).
Proof.
  intros st t st' I R X i L. pose proof (live_gen cfg N HN st I i L) as G.
  destruct R; try destruct a; try (exfalso; eapply X; eassumption); know I; slotcase i; auto; rewrite ?Ea; proj; auto; exfalso;
    pose proof (v_rec _ _ _ I t) as W; rewrite H in W; cbn in W; destruct W as [W1 [W2 W3]];
    assert (i = g) by (apply (same_slot N st); auto); subst i;
    destruct (ref_at cfg N HN st I g) as [_ [_ [_ [D _]]]]; destruct (D W3); lia.
Qed.

Lemma hist_after : forall st t st', stepR st t st' ->
  g_hist st' = g_hist st \/ exists w g, g_pc st t = I9 w g /\ g_hist st' = g_hist st ++ [w].
Proof. intros st t st' R. destruct R; try destruct a; proj; eauto 10. Qed.

Lemma insert_after : forall st t st' w g, inv st -> stepR st t st' -> g_pc st t = I9 w g ->
  g_hist st' = g_hist st ++ [w] /\ s_tree (at_gen st' (g_gen st)) = s_tree (at_gen st (g_gen st)) ++ [w] /\
  (forall i, g_ret st <= i < g_gen st -> s_tree (at_gen st' i) = s_tree (at_gen st i)) /\
  g_gen st' = g_gen st /\ g_ret st' = g_ret st /\ g_root st' = g_root st.
Proof.
  intros st t st' w g I R P. destruct (touch_ins cfg N HN st t w g I P) as [-> [_ [Gg _]]].
  destruct R; try (match goal with H : g_pc st t = _ \/ _ |- _ => destruct H as [H|[H|H]] end); try congruence.
  rewrite P in H. injection H as <- <-. proj. repeat split; auto.
  - unfold Mtable.at_gen. proj. rewrite upd_eq. reflexivity.
  - intros i L. slotcase i; auto. exfalso. pose proof (live_gen cfg N HN st I i ltac:(lia)).
    assert (i = g_gen st) by (apply (same_slot N st); auto). lia.
Qed.

Lemma conts_keeps : forall st t st' j, inv st -> stepR st t st' -> g_ret st <= j <= S (g_gen st) ->
  (conts st' (g_ret st) (j - g_ret st) = conts st (g_ret st) (j - g_ret st) /\ exists tl, g_hist st' = g_hist st ++ tl) \/
  (j = S (g_gen st) /\ exists w g, g_pc st t = I9 w g /\ g_hist st' = g_hist st ++ [w] /\
     conts st' (g_ret st) (j - g_ret st) = conts st (g_ret st) (j - g_ret st) ++ [w]).
Proof.
  intros st t st' j I R L. pose proof (v_rg _ _ _ I) as RG. destruct (hist_after st t st' R) as [E|[w [g [P E]]]].
  - left. split; [|exists []; rewrite app_nil_r; auto]. apply conts_ext. intros i Li. apply (tree_keeps st t st' I R); [|lia].
    intros w g P. destruct (insert_after st t st' w g I R P) as [E1 _]. rewrite E1 in E.
    apply (f_equal (@length _)) in E. rewrite app_length in E. cbn in E. lia.
  - destruct (insert_after st t st' w g I R P) as [_ [E2 [E3 _]]]. destruct (Nat.eq_dec j (S (g_gen st))) as [->|D].
    + right. split; auto. exists w, g. repeat split; auto.
      replace (S (g_gen st) - g_ret st) with ((g_gen st - g_ret st) + 1) by lia.
      rewrite !conts_app, !conts_one. replace (g_ret st + (g_gen st - g_ret st)) with (g_gen st) by lia.
      rewrite E2, app_assoc. f_equal. f_equal. apply conts_ext. intros. apply E3. lia.
    + left. split; [|eauto]. apply conts_ext. intros. apply E3. lia.
Qed.

(** The root, as a reader of the lookup lock sees it *)
Lemma eff_root_reader : forall st, inv st -> (exists t, l_reader (g_pc st t) = true) -> eff_root st = g_root st.
Proof.
  intros st I [t L]. unfold eff_root. destruct (g_incorp st) as [u|]; auto.
  destruct (g_pc st u) eqn:P; auto. rewrite (lwriter_alone cfg N st u I) in L; [discriminate|rewrite P; reflexivity].
Qed.

Lemma root_after : forall st t st', stepR st t st' -> g_root st' = g_root st \/ exists g nr, g_pc st t = F10 g nr.
Proof. intros st t st' R. destruct R; try destruct a; proj; eauto. Qed.

Lemma eff_root_keeps : forall st t st', inv st -> stepR st t st' -> (forall g nr, g_pc st t <> F9 g nr) -> eff_root st' = eff_root st.
Proof.
  intros st t st' I R X. unfold eff_root.
  destruct (g_incorp st) as [u|] eqn:U.
  - destruct (Nat.eq_dec u t) as [->|D].
    + pose proof (proj2 (v_incp _ _ _ I t) U) as P.
      destruct R; try destruct a; try (match goal with H : g_pc st t = _ \/ _ |- _ => destruct H as [H|[H|H]] end);
        rewrite H in P; cbn in P; try discriminate P; proj; rewrite ?U, ?upd_eq, ?H; auto. exfalso. eapply X; eauto.
    + assert (inc_pc (g_pc st t) = false) as Z.
      { destruct (inc_pc (g_pc st t)) eqn:Z; auto. apply (v_incp _ _ _ I t) in Z. congruence. }
      destruct (inc_keeps cfg N HN st t st' I R Z) as [_ [_ [E3 [E4 _]]]]; [congruence|].
      rewrite E3, E4, U, (pc_other _ _ _ _ _ R u D). reflexivity.
  - assert (inc_pc (g_pc st t) = false) as Z.
    { destruct (inc_pc (g_pc st t)) eqn:Z; auto. apply (v_incp _ _ _ I t) in Z. congruence. }
    destruct R; try destruct a; proj; rewrite ?U, ?upd_eq; auto. rewrite H in Z. discriminate Z.
Qed.

Lemma keep_hist : forall st t st', inv st -> stepR st t st' -> g_hist st' = eff_root st' ++ conts st' (g_ret st') (S (g_gen st') - g_ret st').
Proof.
  intros st t st' I R. pose proof (v_hist _ _ _ I) as V. pose proof (v_rg _ _ _ I) as RG.
  destruct (nums_after cfg N st t st' I R) as [[G|[w [g [P [G Sl]]]]] [Er|[g1 [nr [P1 [Er Sl1]]]]]].
  - assert (eff_root st' = eff_root st) as Ee.
    { apply (eff_root_keeps st t); auto. intros g nr P.
      destruct R; try (match goal with H : g_pc st t = _ \/ _ |- _ => destruct H as [H|[H|H]] end); try congruence. proj. lia. }
    rewrite Ee, G, Er. destruct (conts_keeps st t st' (S (g_gen st)) I R ltac:(lia)) as [[A [tl B]]|[_ [w [g [P [A B]]]]]].
    + rewrite A, <- V. destruct (hist_after st t st' R) as [E|[w [g [P E]]]]; auto.
      exfalso. destruct (insert_after st t st' w g I R P) as [_ [E2 [E3 _]]].
      assert (length (conts st' (g_ret st) (S (g_gen st) - g_ret st)) = length (conts st (g_ret st) (S (g_gen st) - g_ret st))) as K by congruence.
      replace (S (g_gen st) - g_ret st) with ((g_gen st - g_ret st) + 1) in K by lia.
      rewrite !conts_app, !conts_one in K. replace (g_ret st + (g_gen st - g_ret st)) with (g_gen st) in K by lia.
      rewrite E2 in K. rewrite (conts_ext st st') in K by (intros; apply E3; lia). rewrite !app_length in K. cbn in K. lia.
    + rewrite A, B, V, app_assoc. reflexivity.
  - (* an incorporation is retired *)
    pose proof (v_inc _ _ _ I t) as W. rewrite P1 in W. cbn in W. destruct W as [W Wn].
    destruct (before_more cfg N HN st g1 Incorporated I W) as [_ [_ [_ [Bc Bg]]]]; auto.
    destruct W as [W1 [W2 [W3 W4]]].
    assert (g_incorp st = Some t) as U by (apply (v_incp _ _ _ I t); rewrite P1; reflexivity).
    assert (eff_root st = g_root st) as Ee by (unfold eff_root; rewrite U, P1; reflexivity).
    assert (eff_root st' = nr /\ g_hist st' = g_hist st) as [Ee' Eh].
    { destruct R; try destruct a; try (match goal with H : g_pc st t = _ \/ _ |- _ => destruct H as [H|[H|H]] end); try congruence.
      rewrite P1 in H. injection H as <- <-. unfold eff_root. proj. rewrite U, upd_eq. auto. }
    rewrite Ee', Eh, V, Ee, G, Er, Wn, Bc.
    replace (S (g_gen st) - g_ret st) with (1 + (S (g_gen st) - S (g_ret st))) by lia. rewrite conts_app, conts_one, <- W1.
    rewrite <- app_assoc. f_equal. f_equal. replace (g1 + 1) with (S g1) by lia. symmetry. apply conts_ext.
    intros i _. unfold Mtable.at_gen. rewrite Sl1. reflexivity.
  - (* a new memtable *)
    destruct (rotate_room cfg N HN st t w g I P) as [-> [_ Gn]].
    assert (eff_root st' = eff_root st) as Ee by (apply (eff_root_keeps st t); auto; congruence).
    assert (g_hist st' = g_hist st) as Eh by (destruct (hist_after st t st' R) as [E|[? [? [P' E]]]]; [auto|congruence]).
    rewrite Eh, Ee, V, G, Er. f_equal. replace (S (S (g_gen st)) - g_ret st) with ((S (g_gen st) - g_ret st) + 1) by lia.
    rewrite conts_app, conts_one. replace (g_ret st + (S (g_gen st) - g_ret st)) with (S (g_gen st)) by lia.
    assert (forall i, at_gen st' i = at_gen st i) as Es by (intros; unfold Mtable.at_gen; rewrite Sl; reflexivity).
    rewrite Es. pose proof (v_ins _ _ _ I t) as W. rewrite P in W. cbn in W. destruct W as [_ W].
    pose proof (st_at cfg N HN st I (S (g_gen st))) as S0. unfold st_ok in S0. rewrite W, Gn in S0. destruct S0 as [_ [_ [_ S0]]].
    rewrite S0, app_nil_r by lia. symmetry. apply conts_ext. intros. rewrite Es. reflexivity.
  - congruence.
Qed.

Lemma replay_definitive : forall k ms v w, existsb is_definitive ms = true -> replay cfg k ms v = replay cfg k ms w.
Proof.
  intros k ms. induction ms as [|m ms IH]; intros v w E; cbn in E; [discriminate|].
  unfold replay. cbn. fold (replay cfg k ms (apply_msg cfg k m v)). fold (replay cfg k ms (apply_msg cfg k m w)).
  destruct (is_definitive m) eqn:D; cbn in E; [rewrite !apply_definitive by auto; reflexivity|apply IH; auto].
Qed.
Lemma source_messages_app : forall k a b, source_messages k (a ++ b) = source_messages k a ++ source_messages k b.
Proof.
  intros k a b. induction a as [|[k' m] a IH]; [reflexivity|]. cbn [app source_messages].
  destruct (bytes_eq_dec k k'); rewrite IH; reflexivity.
Qed.
Lemma stop_sound : forall k old seen, may_stop k seen = true -> answer cfg k seen = replay cfg k (source_messages k (old ++ seen)) None.
Proof.
  intros k old seen E. unfold answer, may_stop in *. rewrite source_messages_app. unfold replay at 2. rewrite fold_left_app.
  apply replay_definitive. auto.
Qed.

(** What a lookup has found stays a suffix of a prefix of the writes. *)
Lemma view_keeps : forall st t st' j seen n0, inv st -> stepR st t st' -> g_ret st <= j <= S (g_gen st) ->
  g_ret st' = g_ret st -> g_root st' = g_root st -> g_hist st = g_root st ++ conts st (g_ret st) (S (g_gen st) - g_ret st) ->
  (exists tail, g_hist st = g_root st ++ conts st (g_ret st) (j - g_ret st) ++ seen ++ tail) ->
  n0 <= length (g_root st ++ conts st (g_ret st) (j - g_ret st) ++ seen) ->
  (exists tail, g_hist st' = g_root st' ++ conts st' (g_ret st') (j - g_ret st') ++ seen ++ tail) /\
  n0 <= length (g_root st' ++ conts st' (g_ret st') (j - g_ret st') ++ seen).
Proof.
  intros st t st' j seen n0 I R L Er Eo Hh [tail Ht] Hn. rewrite Er, Eo.
  destruct (conts_keeps st t st' j I R L) as [[A [tl B]]|[-> [w [g [P [A B]]]]]].
  - rewrite A, B, Ht. split; [exists (tail ++ tl); rewrite <- !app_assoc; reflexivity|auto].
  - rewrite Hh in Ht. apply app_inv_head in Ht. rewrite <- (app_nil_r (conts _ _ _)) in Ht at 1. apply app_inv_head in Ht.
    symmetry in Ht. apply app_eq_nil in Ht. destruct Ht as [-> ->]. rewrite A, B, Hh. split.
    + exists []. rewrite !app_nil_r, <- app_assoc. reflexivity.
    + rewrite !app_length in *. cbn in *. lia.
Qed.

Lemma keep_look : forall st t st', inv st -> stepR st t st' -> forall t', look_ok cfg N st' (g_pc st' t').
Proof.
  intros st t st' I R t'. pose proof (v_rg _ _ _ I) as RG. pose proof (v_hist _ _ _ I) as VH.
  destruct (Nat.eq_dec t' t) as [->|D].
  - pose proof (v_look _ _ _ I t) as V.
    assert (forall p, match p with L1 _ _ | L2 _ _ _ | L3 _ _ _ _ | L4 _ _ _ _ | L5 _ _ _ _ _ | L6 _ _ _ | LDone _ _ _ => False | _ => True end ->
      look_ok cfg N st' p) as X0 by (intros p; destruct p; cbn; tauto).
    assert (l_reader (g_pc st t) = true -> eff_root st = g_root st) as EF by (intros; apply eff_root_reader; eauto).
    destruct R; try destruct a; proj; rewrite ?upd_eq;
      try (apply X0; exact Logic.I); clear X0; try (rewrite H in V, EF; cbn in V; specialize (EF eq_refl)); cbn; proj.
    + lia.
    + (* L1 *) rewrite EF in VH. split; [lia|]. rewrite VH in V. exact V.
    + (* L2 *) destruct V as [V1 V2]. split; [lia|]. rewrite EF in VH. split.
      * exists (conts st (S gs) (g_gen st - gs)). rewrite VH. f_equal. cbn [app].
        replace (S (g_gen st) - g_ret st) with ((S gs - g_ret st) + (g_gen st - gs)) by lia.
        rewrite conts_app. f_equal. f_equal. lia.
      * rewrite app_nil_r. exact V2.
    + (* root *) destruct V as [V1 [[tail V2] V3]]. subst j. rewrite Nat.sub_diag in *. cbn in V2, V3. split; [exists tail; rewrite V2, app_assoc; auto|auto].
    + (* stop *) destruct V as [V1 [[tail V2] V3]].
      exists (g_root st ++ conts st (g_ret st) (j - g_ret st) ++ seen), tail. split; [rewrite V2, <- !app_assoc; auto|].
      split; auto. rewrite app_assoc. apply stop_sound. auto.
    + destruct V as [V1 V2]. split; [lia|auto].
    + destruct V as [V1 [V2 V3]]. split; [auto|]. split; [auto|]. split; auto.
    + (* L5 *) destruct V as [V1 [[tail V2] [V3 V4]]].
      assert ((if b then s_cmt (at_gen st (j - 1)) else s_tree (at_gen st (j - 1))) = s_tree (at_gen st (j - 1))) as Ec.
      { destruct b; auto. specialize (V4 eq_refl). pose proof (st_at cfg N HN st I (j - 1)) as S0. unfold st_ok in S0.
        destruct (s_st (at_gen st (j - 1))); cbn in V4; try discriminate; tauto. }
      change (MtableInv.conts N (go t (L3 k n0 (j - 1) ((if b then s_cmt (at_gen st (j - 1)) else s_tree (at_gen st (j - 1))) ++ seen)) st))
        with (conts st) in *.
      rewrite Ec. assert (conts st (g_ret st) (j - g_ret st) = conts st (g_ret st) (j - 1 - g_ret st) ++ s_tree (at_gen st (j - 1))) as Es.
      { replace (j - g_ret st) with ((j - 1 - g_ret st) + 1) by lia. rewrite conts_app, conts_one. f_equal. f_equal. f_equal. lia. }
      rewrite Es in V2, V3. split; [lia|]. split; [exists tail; rewrite V2, <- !app_assoc; auto|].
      rewrite <- !app_assoc in V3. exact V3.
    + destruct V as [[tail V1] V2]. exists seen, tail. repeat split; auto.
  - rewrite (pc_other _ _ _ _ _ R t' D). pose proof (v_look _ _ _ I t') as V.
    assert (exists tl, g_hist st' = g_hist st ++ tl) as [tl Hg].
    { destruct (hist_after st t st' R) as [E|[w [g [_ E]]]]; rewrite E; [exists []; rewrite app_nil_r|]; eauto. }
    destruct (l_reader (g_pc st t')) eqn:L.
    + assert (g_ret st' = g_ret st) as Er.
      { destruct (nums_after cfg N st t st' I R) as [_ [G'|[g [nr [P _]]]]]; auto.
        rewrite (lwriter_alone cfg N st t I) in L; [discriminate|rewrite P; reflexivity]. }
      assert (g_root st' = g_root st) as Eo.
      { destruct (root_after st t st' R) as [G'|[g [nr P]]]; auto.
        rewrite (lwriter_alone cfg N st t I) in L; [discriminate|rewrite P; reflexivity]. }
      assert (g_gen st <= g_gen st') as Gm by (destruct (nums_after cfg N st t st' I R) as [[G|[w [g [P [G _]]]]] _]; lia).
      rewrite eff_root_reader in VH by eauto.
      pose proof (view_keeps st t st') as VK.
      unfold look_ok in *. destruct (g_pc st t') eqn:P'; auto.
      * rewrite Hg, app_length. lia.
      * destruct V as [V1 V2]. split; [lia|].
        assert (exists tail, g_hist st = g_root st ++ conts st (g_ret st) (S gs - g_ret st) ++ [] ++ tail) as Ht.
        { exists (conts st (S gs) (g_gen st - gs)). rewrite VH. f_equal. cbn [app].
          replace (S (g_gen st) - g_ret st) with ((S gs - g_ret st) + (g_gen st - gs)) by lia.
          rewrite conts_app. f_equal. f_equal. lia. }
        destruct (VK (S gs) [] n0 I R ltac:(lia) Er Eo VH Ht ltac:(rewrite app_nil_r; exact V2)) as [_ K]. rewrite app_nil_r in K. exact K.
      * destruct V as [V1 [V2 V3]]. split; [lia|]. apply (VK j seen n0 I R); auto.
      * destruct V as [V1 [V2 V3]]. split; [lia|]. apply (VK j seen n0 I R); auto; lia.
      * destruct V as [V1 [V2 [V3 V4]]]. split; [lia|]. destruct (VK j seen n0 I R ltac:(lia) Er Eo VH V2 V3) as [K1 K2].
        split; auto. split; auto. intros B. specialize (V4 B).
        (* a compacted memtable stays one while lookups are allowed *)
        clear VK K1 K2.
        assert (l_writer (g_pc st t) = false) as Lw.
        { destruct (l_writer (g_pc st t)) eqn:W; auto. pose proof (lwriter_alone cfg N st t I W t') as K. rewrite P' in K. discriminate. }
        destruct R; try destruct a; try (rewrite H in Lw; discriminate Lw); know I; slotcase (j - 1); auto;
          rewrite Ea in *; proj; auto; repeat match goal with K : s_st ?x = _ |- _ => rewrite K in *; clear K end; cbn in V4; try discriminate; auto.
      * destruct V as [[tail V1] V2]. split; auto. exists (tail ++ tl). rewrite Hg, V1, <- app_assoc. auto.
      * discriminate L.
    + unfold look_ok in *. destruct (g_pc st t'); cbn in L; try discriminate; auto.
      destruct V as [H [tail [V1 [V2 V3]]]]. exists H, (tail ++ tl). rewrite Hg, V1, <- app_assoc. auto.
Qed.

(** ** The invariant *)
Theorem inv_step : forall st t st', inv st -> stepR st t st' -> inv st'.
Proof.
  intros st t st' I R. constructor.
  - eapply keep_rg; eauto.
  - eapply keep_mod; eauto.
  - eapply keep_lo; eauto.
  - eapply keep_hi; eauto.
  - eapply keep_ilock; eauto.
  - eapply keep_llock; eauto.
  - eapply keep_ins; eauto.
  - eapply keep_own; eauto.
  - eapply keep_incp; eauto.
  - eapply keep_inc; eauto.
  - eapply keep_noinc; eauto.
  - eapply keep_rec; eauto.
  - eapply keep_hold; eauto.
  - eapply keep_st; eauto.
  - intros. rewrite slot_at with (N := N) by auto. eapply keep_tok'; eauto.
  - intros. rewrite slot_at with (N := N) by auto. eapply keep_ref'; eauto.
  - intros. rewrite slot_at with (N := N) by auto. pose proof (keep_recs' cfg N HN st t st' I R i) as K. rewrite Nat.mod_small in K; auto.
  - eapply keep_tasks; eauto.
  - eapply keep_nodup; eauto.
  - eapply keep_hist; eauto.
  - eapply keep_look; eauto.
Qed.

Theorem inv_init : inv init.
Proof.
  assert (forall g, Mtable.at_gen N init g = fresh (g mod N)) as A by reflexivity.
  constructor; cbn; auto; intros; try (apply Nat.mod_small; auto); try lia; try tauto.
  - split; [intros ? ? E; discriminate E|exact Logic.I].
  - split; intros; discriminate.
  - split; [constructor|]. split; [intros ? []|exact Logic.I].
  - repeat split; auto; lia.
  - unfold ref_ok. cbn. repeat split; auto; try constructor; try discriminate; intros ? [].
  - intros u E. discriminate E.
  - constructor.
Qed.

Theorem inv_reach : forall st, reach cfg N st -> inv st.
Proof.
  intros st R. induction R as [|st t c st' R IH S]; [apply inv_init|]. eapply inv_step; eauto. eapply step_R; eauto.
Qed.
End Hist.
