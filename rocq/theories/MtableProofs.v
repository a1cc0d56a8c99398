(** * Memtables: every step keeps the invariant *)

From Coq Require Import List Arith NArith Bool Lia.
From Verif Require Import Base Spec Spec_Merge Mtable MtableInv.
Import ListNotations.

Ltac proj := unfold Mtable.put_slot, Mtable.resume in *;
  cbn [g_gen g_inc g_ret g_empty g_ilock g_llock g_slots g_root g_tasks g_incorp g_hist g_pc
       set_g_gen set_g_inc set_g_ret set_g_empty set_g_ilock set_g_llock set_g_slots set_g_root set_g_tasks set_g_incorp set_g_hist go
       s_st s_gen s_tree s_refs s_cmt s_tok s_base s_holders s_rec
       set_st set_gen set_tree set_refs set_cmt set_tok set_base set_holders set_rec] in *.

Section Proofs.
Variable cfg : data_config.
Variable N : nat.
Hypothesis HN : 2 <= N.
Notation at_gen := (at_gen N).
Notation put_slot := (put_slot N).
Notation stepR := (stepR cfg N).
Notation inv := (inv cfg N).

Lemma upd_eq : forall A (f : nat -> A) i x, upd f i x i = x.
Proof. intros. unfold upd. rewrite Nat.eqb_refl. reflexivity. Qed.
Lemma upd_neq : forall A (f : nat -> A) i x j, j <> i -> upd f i x j = f j.
Proof. intros. unfold upd. apply Nat.eqb_neq in H. rewrite H. reflexivity. Qed.
Lemma upd_at : forall st g s g', upd (g_slots st) (g mod N) s (g' mod N) = if g' mod N =? g mod N then s else at_gen st g'.
Proof. reflexivity. Qed.

Lemma same_slot : forall st a b, s_gen (at_gen st a) = a -> s_gen (at_gen st b) = b -> a mod N = b mod N -> a = b.
Proof. intros st a b A B E. rewrite <- A, <- B. unfold Mtable.at_gen. rewrite E. reflexivity. Qed.

Lemma mod_lt : forall g, g mod N < N.
Proof. intros. apply Nat.mod_upper_bound. lia. Qed.

Lemma cong_eq : forall a b, a mod N = b mod N -> a < b + N -> b < a + N -> a = b.
Proof.
  intros a b E A B.
  pose proof (Nat.div_mod a N ltac:(lia)) as Da. pose proof (Nat.div_mod b N ltac:(lia)) as Db.
  rewrite E in Da. remember (a / N) as q eqn:Eq. remember (b / N) as p eqn:Ep. clear Eq Ep.
  assert (q = p) as ->; [|lia].
  destruct (Nat.lt_trichotomy q p) as [L|[L|L]]; auto; exfalso; nia.
Qed.

Lemma live_gen : forall st, inv st -> forall i, g_ret st <= i <= g_gen st -> s_gen (at_gen st i) = i.
Proof.
  intros st I i L. apply cong_eq.
  - apply (v_mod _ _ _ I (i mod N) (mod_lt i)).
  - pose proof (v_hi _ _ _ I (i mod N) (mod_lt i)). unfold Mtable.at_gen. lia.
  - pose proof (v_lo _ _ _ I (i mod N) (mod_lt i)). unfold Mtable.at_gen. lia.
Qed.

Lemma next_gen : forall st, inv st -> s_st (at_gen st (S (g_gen st))) = Ready -> s_gen (at_gen st (S (g_gen st))) = S (g_gen st).
Proof.
  intros st I R. set (i := S (g_gen st)) in *.
  pose proof (v_st _ _ _ I (i mod N) (mod_lt i)) as V. unfold st_ok in V. fold (at_gen st i) in V. rewrite R in V.
  apply cong_eq.
  - apply (v_mod _ _ _ I (i mod N) (mod_lt i)).
  - pose proof (v_hi _ _ _ I (i mod N) (mod_lt i)). pose proof (v_rg _ _ _ I). unfold Mtable.at_gen, i in *. lia.
  - destruct V as [V _]. unfold i in *. lia.
Qed.

(** The rotation: the assertion on the number of memtables *)
Lemma rotate_room : forall st t w g, inv st -> g_pc st t = I7 w g -> g = g_gen st /\ S (g_gen st) < g_ret st + N /\ s_gen (at_gen st (S g)) = S g.
Proof.
  intros st t w g I P. pose proof (v_ins _ _ _ I t) as V. rewrite P in V. cbn in V. destruct V as [E R]. subst g.
  pose proof (next_gen st I R) as E. repeat split; auto.
  pose proof (v_hi _ _ _ I (S (g_gen st) mod N) (mod_lt _)). unfold Mtable.at_gen in *. lia.
Qed.

(** ** Numbers *)
Lemma st_at : forall st, inv st -> forall g, st_ok st (at_gen st g).
Proof. intros. apply (v_st _ _ _ H). apply mod_lt. Qed.
Lemma ref_at : forall st, inv st -> forall g, ref_ok st (at_gen st g).
Proof. intros. apply (v_ref _ _ _ H). apply mod_lt. Qed.
Lemma tok_at : forall st, inv st -> forall g, tok_ok st (at_gen st g).
Proof. intros. apply (v_tok _ _ _ H). apply mod_lt. Qed.
Lemma recs_at : forall st, inv st -> forall g, recs_ok N st (g mod N) (at_gen st g).
Proof. intros. apply (v_recs _ _ _ H). apply mod_lt. Qed.

Lemma inc_facts : forall st t, inv st -> inc_ok N st (g_pc st t).
Proof. intros. apply (v_inc _ _ _ H). Qed.

(** A memtable that is incorporated but not retired is not the current one. *)
Lemma f9_lt : forall st t g nr, inv st -> g_pc st t = F9 g nr -> g_ret st < g_gen st.
Proof.
  intros st t g nr I P. pose proof (inc_facts st t I) as V. rewrite P in V. cbn in V. destruct V as [[A [B [C D]]] _].
  pose proof (st_at st I g) as S. unfold st_ok in S. rewrite D in S. rewrite C in S.
  destruct S as [_ [S|[S|S]]]; [lia| |]; [destruct S; lia|].
  destruct S as [S _]. pose proof (v_rg _ _ _ I). lia.
Qed.

Lemma keep_rg : forall st t st', inv st -> stepR st t st' -> g_ret st' <= g_gen st'.
Proof.
  intros st t st' I R. pose proof (v_rg _ _ _ I).
  destruct R; try destruct a; proj; try lia.
  - pose proof (f9_lt st t g nr I H0). lia.
Qed.

Lemma gens_after : forall st t st', inv st -> stepR st t st' ->
  (forall i, s_gen (g_slots st' i) = s_gen (g_slots st i)) \/
  (exists g a, g_pc st t = Q2 g a /\ g_slots st' = upd (g_slots st) (g mod N) (set_gen (s_gen (at_gen st g) + N) (at_gen st g))
               /\ g_ret st' = g_ret st /\ g_gen st' = g_gen st).
Proof.
  intros st t st' I R.
  destruct R; try destruct a;
    try (left; intros x; proj; unfold upd;
         try match goal with |- context [x =? ?y] => destruct (x =? y) eqn:E; [apply Nat.eqb_eq in E; subst x|] end; reflexivity);
    right; exists g; eexists; proj; repeat split; eauto.
Qed.

Lemma nums_after : forall st t st', inv st -> stepR st t st' ->
  (g_gen st' = g_gen st \/ (exists w g, g_pc st t = I7 w g /\ g_gen st' = S (g_gen st) /\ g_slots st' = g_slots st)) /\
  (g_ret st' = g_ret st \/ (exists g nr, g_pc st t = F9 g nr /\ g_ret st' = S (g_ret st) /\ g_slots st' = g_slots st)).
Proof.
  intros st t st' I R. destruct R; try (destruct a); proj; split; eauto 10.
Qed.

Lemma keep_mod : forall st t st', inv st -> stepR st t st' -> forall i, i < N -> s_gen (g_slots st' i) mod N = i.
Proof.
  intros st t st' I R i L. destruct (gens_after st t st' I R) as [E|[g [a [P [E _]]]]].
  - rewrite E. apply (v_mod _ _ _ I i L).
  - rewrite E. unfold upd. destruct (i =? g mod N) eqn:X; [apply Nat.eqb_eq in X; subst i|apply (v_mod _ _ _ I i L)].
    proj. replace (s_gen (at_gen st g) + N) with (s_gen (at_gen st g) + 1 * N) by lia. rewrite Nat.mod_add by lia.
    apply (v_mod _ _ _ I _ L).
Qed.

Lemma keep_lo : forall st t st', inv st -> stepR st t st' -> forall i, i < N -> g_gen st' < s_gen (g_slots st' i) + N.
Proof.
  intros st t st' I R i L. destruct (gens_after st t st' I R) as [E|[g [a [P [E [_ EG]]]]]].
  - rewrite E. destruct (nums_after st t st' I R) as [[G|[w [g [P [G _]]]]] _]; rewrite G; pose proof (v_lo _ _ _ I i L); [lia|].
    destruct (rotate_room st t w g I P) as [-> [B C]].
    destruct (Nat.eq_dec (S (g_gen st)) (s_gen (g_slots st i) + N)) as [X|X]; [|lia]. exfalso.
    assert (i = S (g_gen st) mod N) as Ei.
    { rewrite X. replace (s_gen (g_slots st i) + N) with (s_gen (g_slots st i) + 1 * N) by lia. rewrite Nat.mod_add by lia.
      symmetry. apply (v_mod _ _ _ I i L). }
    unfold Mtable.at_gen in C. rewrite <- Ei in C. lia.
  - rewrite E, EG. pose proof (v_lo _ _ _ I i L). unfold upd. destruct (i =? g mod N) eqn:X; [|lia].
    apply Nat.eqb_eq in X. subst i. proj. unfold Mtable.at_gen. lia.
Qed.

Lemma keep_hi : forall st t st', inv st -> stepR st t st' -> forall i, i < N -> s_gen (g_slots st' i) < g_ret st' + N.
Proof.
  intros st t st' I R i L. pose proof (v_hi _ _ _ I i L). destruct (gens_after st t st' I R) as [E|[g [a [P [E [ER _]]]]]].
  - rewrite E. destruct (nums_after st t st' I R) as [_ [G|[g [nr [P [G _]]]]]]; rewrite G; lia.
  - rewrite E, ER. unfold upd. destruct (i =? g mod N) eqn:X; [|lia].
    apply Nat.eqb_eq in X. subst i. proj. pose proof (v_rec _ _ _ I t) as V. rewrite P in V. cbn in V. lia.
Qed.

(** ** Locks *)
Lemma pc_other : forall st t st', stepR st t st' -> forall t', t' <> t -> g_pc st' t' = g_pc st t'.
Proof. intros st t st' R t' D. destruct R; try destruct a; proj; apply upd_neq; auto. Qed.

Lemma in_drop : forall t x l, In x (drop t l) <-> In x l /\ x <> t.
Proof.
  intros. unfold drop. rewrite filter_In. split; intros [A B]; split; auto.
  - apply negb_true_iff in B. apply Nat.eqb_neq in B. auto.
  - apply negb_true_iff. apply Nat.eqb_neq. auto.
Qed.

Lemma keep_ilock : forall st t st', inv st -> stepR st t st' ->
  forall t', holds_lock (g_ilock st') t' (i_reader (g_pc st' t')) (i_writer (g_pc st' t')).
Proof.
  intros st t st' I R t'. pose proof (v_ilock _ _ _ I t') as V. pose proof (v_ilock _ _ _ I t) as V0.
  destruct (Nat.eq_dec t' t) as [->|D].
  - clear V. destruct R; try destruct a; proj; rewrite ?upd_eq;
      repeat match goal with H : _ \/ _ |- _ => destruct H end;
      try match goal with H : g_pc st t = _ |- _ => rewrite H in V0; cbn in V0 |- * end;
      try (destruct (g_ilock st) eqn:L; cbn in *; intuition (try congruence; auto); fail).
  - rewrite (pc_other _ _ _ R t' D).
    destruct R; try destruct a; proj; auto;
      repeat match goal with H : _ \/ _ |- _ => destruct H end;
      match goal with H : g_pc st t = _ |- _ => rewrite H in V0; cbn in V0 end;
      destruct (g_ilock st) eqn:L; cbn in *; try congruence;
      rewrite ?in_drop; try (intuition (try congruence; auto); fail).
    + injection H0 as ->. destruct V as [V1 V2]. split.
      * destruct (i_reader (g_pc st t')); auto. destruct (V2 eq_refl) as [|[]]. congruence.
      * intros W. congruence.
    + destruct V as [V1 V2], V0 as [V3 V4]. rewrite (V4 eq_refl) in D. split.
      * destruct (i_writer (g_pc st t')); auto. rewrite (V2 eq_refl) in D. congruence.
      * congruence.
Qed.

Lemma keep_llock : forall st t st', inv st -> stepR st t st' ->
  forall t', holds_lock (g_llock st') t' (l_reader (g_pc st' t')) (l_writer (g_pc st' t')).
Proof.
  intros st t st' I R t'. pose proof (v_llock _ _ _ I t') as V. pose proof (v_llock _ _ _ I t) as V0.
  destruct (Nat.eq_dec t' t) as [->|D].
  - clear V. destruct R; try destruct a; proj; rewrite ?upd_eq;
      repeat match goal with H : _ \/ _ |- _ => destruct H end;
      try match goal with H : g_pc st t = _ |- _ => rewrite H in V0; cbn in V0 |- * end;
      try (destruct (g_llock st) eqn:L; cbn in *; intuition (try congruence; auto); fail).
  - rewrite (pc_other _ _ _ R t' D).
    destruct R; try destruct a; proj; auto;
      repeat match goal with H : _ \/ _ |- _ => destruct H end;
      match goal with H : g_pc st t = _ |- _ => rewrite H in V0; cbn in V0 end;
      destruct (g_llock st) eqn:L; cbn in *; try congruence;
      rewrite ?in_drop; try (intuition (try congruence; auto); fail).
    + injection H0 as ->. destruct V as [V1 V2]. split.
      * destruct (l_reader (g_pc st t')); auto. destruct (V2 eq_refl).
      * intros W. congruence.
    + destruct V as [V1 V2], V0 as [V3 V4]. rewrite (V4 eq_refl) in D. split.
      * destruct (l_writer (g_pc st t')); auto. rewrite (V2 eq_refl) in D. congruence.
      * congruence.
Qed.
End Proofs.
