(** * Proofs about the producer-consumer queue *)

From Coq Require Import List NArith Lia.
From Verif Require Import Pcq.
Import ListNotations.
Local Open Scope N_scope.

Section PcqProofs.
  Context {A : Type} (n : N).
  Hypothesis Hpos : 0 < n.
  Hypothesis Hsmall : n < 2 ^ 32.
  Hypothesis Hdiv : exists c, 2 ^ 32 = c * n.

  Definition nthN (l : list A) (i : N) : option A := nth_error l (N.to_nat i).
  Definition lenN (l : list A) : N := N.of_nat (length l).

  Lemma mod_mod_n : forall x, (x mod 2 ^ 32) mod n = x mod n.
  Proof.
    intros x. destruct Hdiv as [c E].
    rewrite (N.div_mod' x (2 ^ 32)) at 2. rewrite E at 2.
    replace (c * n * (x / 2 ^ 32) + x mod 2 ^ 32)
      with (x mod 2 ^ 32 + (c * (x / 2 ^ 32)) * n) by lia.
    rewrite N.mod_add by lia. reflexivity.
  Qed.

  Lemma mod_inj : forall m a x y, 0 < m -> a <= x < a + m -> a <= y < a + m ->
    x mod m = y mod m -> x = y.
  Proof.
    intros m a x y Hm Hx Hy E.
    pose proof (N.div_mod' x m) as Dx. pose proof (N.div_mod' y m) as Dy. rewrite E in Dx.
    assert (x / m = y / m \/ x / m < y / m \/ y / m < x / m) as [H|[H|H]] by lia.
    - rewrite H in Dx. lia.
    - assert (m * (y / m) >= m * (x / m) + m) by nia. lia.
    - assert (m * (x / m) >= m * (y / m) + m) by nia. lia.
  Qed.

  (** first position not yet taken, and the published head *)
  Definition took (q : pcq A) : N := lenN (pq_out q).
  Definition hd (q : pcq A) : N := took q - match pq_cons q with CTook => 1 | _ => 0 end.
  Definition tl (q : pcq A) : N := lenN (pq_all q).

  Record inv (q : pcq A) : Prop := {
    iv_took : match pq_cons q with CTook => 1 <= took q | _ => True end;
    iv_le : took q <= tl q;
    iv_cap : tl q <= hd q + n;
    iv_head : pq_head q = hd q mod 2 ^ 32;
    iv_tail : pq_tail q = tl q mod 2 ^ 32;
    iv_checked : pq_cons q = CChecked -> hd q < tl q;
    iv_pend : exists ps, NoDup ps /\
       (forall p, In p ps -> took q <= p < tl q) /\
       Forall2 (fun p te => fst te = p mod 2 ^ 32 /\ nthN (pq_all q) p = Some (snd te))
               ps (pq_pending q) /\
       (forall p, took q <= p < tl q ->
          (In p ps -> pq_elems q (p mod n) = None) /\
          (~ In p ps -> pq_elems q (p mod n) = nthN (pq_all q) p)) /\
       (forall s, (forall p, took q <= p < tl q -> p mod n <> s) -> pq_elems q s = None);
    iv_out : forall i, i < took q -> nthN (pq_out q) i = nthN (pq_all q) i
  }.

  Lemma lenN_app1 : forall l (e : A), lenN (l ++ [e]) = lenN l + 1.
  Proof. intros. unfold lenN. rewrite app_length. simpl. lia. Qed.

  Lemma nthN_app_l : forall l (e : A) i, i < lenN l -> nthN (l ++ [e]) i = nthN l i.
  Proof. intros. unfold nthN. apply nth_error_app1. unfold lenN in H. lia. Qed.

  Lemma nthN_app_r : forall l (e : A), nthN (l ++ [e]) (lenN l) = Some e.
  Proof.
    intros. unfold nthN, lenN. rewrite Nat2N.id, nth_error_app2 by lia.
    now rewrite PeanoNat.Nat.sub_diag.
  Qed.

  Lemma inv_init : inv pcq_init.
  Proof.
    constructor; simpl; auto; unfold took, hd, tl, lenN; simpl; try lia; try discriminate.
    exists []. repeat split; auto; try constructor; simpl; try lia; try contradiction.
  Qed.

  Lemma Forall2_weaken : forall B C (R S : B -> C -> Prop) l1 l2,
    (forall x y, R x y -> S x y) -> Forall2 R l1 l2 -> Forall2 S l1 l2.
  Proof. intros B C R S l1 l2 H F. induction F; constructor; auto. Qed.

  Lemma Forall2_mid : forall B C (R : B -> C -> Prop) ps l1 x l2,
    Forall2 R ps (l1 ++ x :: l2) ->
    exists p1 p p2, ps = p1 ++ p :: p2 /\ Forall2 R p1 l1 /\ R p x /\ Forall2 R p2 l2.
  Proof.
    intros. apply Forall2_app_inv_r in H. destruct H as [p1 [p2 [H1 [H2 E]]]].
    inversion H2; subst. exists p1, x0, l. auto.
  Qed.

  Lemma nodup_not_in_window : forall q p, inv q -> took q <= p < tl q ->
    forall p', took q <= p' < tl q -> p mod n = p' mod n -> p = p'.
  Proof.
    intros q p I Hp p' Hp' E. destruct I.
    apply (mod_inj n (took q)); auto.
    - unfold hd in *. destruct (pq_cons q); lia.
    - unfold hd in *. destruct (pq_cons q); lia.
  Qed.

  Lemma inv_step : forall q q', inv q -> pcq_step n q q' -> inv q'.
  Proof.
    intros q q' I S. pose proof (nodup_not_in_window q) as NW. destruct I as [K1 K2 K3 K4 K5 K6 K7 K8].
    destruct S as [q e D | q l1 l2 t e E | q E1 E2 | q E1 E2 | q E1 E2 | q e E1 E2 | q E1].
    - (* reserve *)
      fold (lenN (pq_all q)) in D. fold (lenN (pq_out q)) in D.
      fold (took q) in D. fold (hd q) in D. fold (tl q) in D.
      set (q' := Pcq _ _ _ _ _ _ _).
      assert (T': tl q' = tl q + 1) by (unfold tl; simpl; now rewrite lenN_app1).
      assert (KT: took q' = took q) by reflexivity.
      assert (KH: hd q' = hd q) by reflexivity.
      destruct K7 as [ps [P1 [P2 [P3 [P4 P5]]]]].
      constructor; rewrite ?T', ?KT, ?KH; simpl; auto; try lia.
      + unfold u32_succ. rewrite K5. rewrite N.add_mod_idemp_l by lia. reflexivity.
      + intros C. specialize (K6 C). lia.
      + exists (ps ++ [tl q]). split; [|split; [|split; [|split]]].
        * apply NoDup_rev in P1. rewrite <- (rev_involutive (ps ++ [tl q])).
          apply NoDup_rev. rewrite rev_app_distr. simpl. constructor; auto.
          rewrite <- in_rev. intros C. apply P2 in C. lia.
        * intros p Hp. apply in_app_or in Hp. destruct Hp as [Hp|[<-|[]]]; [apply P2 in Hp; lia|lia].
        * apply Forall2_app.
          { eapply Forall2_weaken; [|apply P3]. simpl. intros p te [Q1 Q2]. split; auto.
            rewrite nthN_app_l; auto.
            unfold nthN in Q2. assert (H: nth_error (pq_all q) (N.to_nat p) <> None) by congruence.
            apply nth_error_Some in H. unfold lenN. lia. }
          { constructor; [|constructor]. simpl. split; auto. apply nthN_app_r. }
        * intros p Hp. destruct (N.eq_dec p (tl q)).
          { subst p. split; [intros _|intros C; exfalso; apply C; apply in_or_app; right; simpl; auto].
            apply P5. intros p' Hp' C.
            assert (p' = tl q).
            { apply (mod_inj n (took q)); auto; unfold hd in *; destruct (pq_cons q); lia. }
            lia. }
          { split.
            - intros C. apply in_app_or in C. destruct C as [C|[C|[]]]; [|congruence].
              apply P4; auto; lia.
            - intros C. rewrite nthN_app_l by (unfold tl in *; lia). apply P4; [lia|].
              intros X. apply C. apply in_or_app; auto. }
        * intros s Hs. apply P5. intros p Hp. apply Hs. lia.
      + intros i Hi. rewrite K8 by auto. rewrite nthN_app_l; auto. unfold tl in *. lia.
    - (* store *)
      destruct K7 as [ps [P1 [P2 [P3 [P4 P5]]]]]. rewrite E in P3.
      destruct (Forall2_mid _ _ _ _ _ _ _ P3) as [p1 [p [p2 [Eps [F1 [[Ft Fe] F2]]]]]].
      simpl in Ft, Fe. subst ps.
      assert (Hp: took q <= p < tl q) by (apply P2; apply in_or_app; right; simpl; auto).
      constructor; auto. simpl. exists (p1 ++ p2).
      assert (ND: NoDup (p1 ++ p2)) by (eapply NoDup_remove_1; eauto).
      assert (NI: ~ In p (p1 ++ p2)) by (eapply NoDup_remove_2; eauto).
      split; [auto|]. split; [|split; [|split]].
      + intros x Hx. apply P2. apply in_app_or in Hx. apply in_or_app. simpl. tauto.
      + now apply Forall2_app.
      + unfold took, tl in *. simpl in *. intros x Hx. unfold slot_set.
        destruct (N.eqb_spec (x mod n) (t mod n)) as [Ex|Ex].
        * rewrite Ft, mod_mod_n in Ex.
          assert (x = p).
          { apply (mod_inj n (lenN (pq_out q))); auto; unfold hd, took, tl in *; destruct (pq_cons q); lia. }
          subst x. split; [contradiction|]. intros _. auto.
        * destruct (P4 x Hx) as [Q1 Q2]. split.
          { intros C. apply Q1. apply in_app_or in C. apply in_or_app. simpl. tauto. }
          { intros C. apply Q2. intros X. apply in_app_or in X. destruct X as [X|[X|X]].
            - apply C, in_or_app; auto.
            - subst x. apply Ex. rewrite Ft, mod_mod_n. reflexivity.
            - apply C, in_or_app; auto. }
      + unfold took, tl in *. simpl in *. intros s Hs. unfold slot_set.
        destruct (N.eqb_spec s (t mod n)); [|auto].
        exfalso. apply (Hs p Hp). rewrite e0, Ft, mod_mod_n. reflexivity.
    - (* check *)
      assert (HD: hd (Pcq (pq_elems q) (pq_head q) (pq_tail q) (pq_pending q) CChecked (pq_all q) (pq_out q)) = hd q)
        by (unfold hd, took; simpl; now rewrite E1).
      constructor; rewrite ?HD; try exact Logic.I; try assumption.
      intros _. unfold hd in *. rewrite E1 in *. simpl. change (tl (Pcq _ _ _ _ _ _ _)) with (tl q).
      rewrite !N.sub_0_r in *. change (took (Pcq _ _ _ _ _ _ _)) with (took q).
      destruct (N.eq_dec (took q) (tl q)) as [X|X]; [|lia].
      exfalso. apply E2. rewrite K4, K5, X. reflexivity.
    - constructor; auto.
    - assert (HD: hd (Pcq (pq_elems q) (pq_head q) (pq_tail q) (pq_pending q) CIdle (pq_all q) (pq_out q)) = hd q)
        by (unfold hd, took; simpl; now rewrite E1).
      constructor; rewrite ?HD; try exact Logic.I; try assumption; discriminate.
    - (* take *)
      set (q' := Pcq _ _ _ _ _ _ _).
      assert (TK: took q' = took q + 1) by (unfold took; simpl; apply lenN_app1).
      assert (HD: hd q' = hd q) by (unfold hd; rewrite TK; simpl; rewrite E1; lia).
      assert (HQ: hd q = took q) by (unfold hd; rewrite E1; lia).
      assert (TL: tl q' = tl q) by reflexivity.
      specialize (K6 E1).
      destruct K7 as [ps [P1 [P2 [P3 [P4 P5]]]]].
      assert (SL: pq_head q mod n = took q mod n) by (rewrite K4, mod_mod_n; congruence).
      destruct (P4 (took q) ltac:(lia)) as [Q1 Q2].
      assert (NI: ~ In (took q) ps).
      { intros C. apply Q1 in C. rewrite SL in E2. congruence. }
      assert (EV: nthN (pq_all q) (took q) = Some e).
      { rewrite <- Q2 by auto. rewrite <- SL. auto. }
      constructor; rewrite ?TK, ?HD, ?TL; auto; simpl; try lia; try discriminate.
      + exists ps. split; auto. split; [|split; [auto|split]].
        * intros p Hp. pose proof (P2 p Hp). assert (p <> took q) by congruence. lia.
        * intros p Hp. unfold slot_set.
          destruct (N.eqb_spec (p mod n) (pq_head q mod n)) as [Ex|Ex]; [|apply P4; lia].
          exfalso. rewrite SL in Ex.
          assert (p = took q) by (apply (mod_inj n (took q)); auto; lia). lia.
        * intros s Hs. unfold slot_set. destruct (N.eqb_spec s (pq_head q mod n)); auto.
          apply P5. intros p Hp X. destruct (N.eq_dec p (took q)).
          { subst p. apply n0. rewrite SL. auto. }
          { apply (Hs p); auto; lia. }
      + intros i Hi. destruct (N.eq_dec i (took q)).
        * subst i. unfold took at 1. rewrite nthN_app_r. auto.
        * rewrite nthN_app_l by (unfold took in *; lia). apply K8. lia.
    - (* advance *)
      set (q' := Pcq _ _ _ _ _ _ _). rewrite E1 in K1.
      assert (HD: hd q' = took q) by (unfold hd; simpl; change (took q') with (took q); lia).
      assert (HQ: hd q = took q - 1) by (unfold hd; now rewrite E1).
      constructor; rewrite ?HD; auto; change (took q') with (took q); change (tl q') with (tl q);
        simpl; try lia; auto; try discriminate.
      + unfold u32_succ. rewrite K4, HQ, N.add_mod_idemp_l by lia. f_equal. lia.
  Qed.

  Lemma inv_reach : forall q : pcq A, pcq_reach n q -> inv q.
  Proof. induction 1; [apply inv_init|eapply inv_step; eauto]. Qed.

  (** FIFO without loss or duplication. *)
  Lemma reach_prefix : forall q : pcq A, pcq_reach n q -> exists rest, pq_all q = pq_out q ++ rest.
  Proof.
    intros q R. apply inv_reach in R. destruct R as [K1 K2 K3 K4 K5 K6 K7 K8].
    exists (skipn (length (pq_out q)) (pq_all q)).
    assert (G: forall (l1 l2 : list A), (length l1 <= length l2)%nat ->
      (forall i, (i < length l1)%nat -> nth_error l1 i = nth_error l2 i) ->
      l2 = l1 ++ skipn (length l1) l2).
    { induction l1; intros l2 L H; [reflexivity|]. destruct l2; [simpl in L; lia|].
      simpl. pose proof (H 0%nat ltac:(simpl; lia)) as E. simpl in E. inversion E; subst. f_equal.
      apply IHl1; [simpl in L; lia|]. intros i Hi. apply (H (S i)). simpl; lia. }
    apply G.
    - unfold took, tl, lenN in K2. lia.
    - intros i Hi. specialize (K8 (N.of_nat i)). unfold nthN, took, lenN in K8.
      rewrite Nat2N.id in K8. apply K8. lia.
  Qed.

  (** A store never overwrites an element. *)
  Lemma store_slot_free : forall (q : pcq A) l1 l2 t e, pcq_reach n q ->
    pq_pending q = l1 ++ (t, e) :: l2 -> pq_elems q (t mod n) = None.
  Proof.
    intros q l1 l2 t e R E. apply inv_reach in R. destruct R as [K1 K2 K3 K4 K5 K6 K7 K8].
    destruct K7 as [ps [P1 [P2 [P3 [P4 P5]]]]]. rewrite E in P3.
    destruct (Forall2_mid _ _ _ _ _ _ _ P3) as [p1 [p [p2 [Eps [F1 [[Ft Fe] F2]]]]]].
    simpl in Ft. subst ps t. rewrite mod_mod_n. 
    apply P4; [apply P2|]; apply in_or_app; right; simpl; auto.
  Qed.

  (** If no producer is in the middle of an enqueue and something is left, an
      idle consumer's dequeue succeeds with the oldest element. *)
  Lemma dequeue_progress : forall (q : pcq A) e rest, pcq_reach n q ->
    pq_pending q = [] -> pq_cons q = CIdle -> pq_all q = pq_out q ++ e :: rest ->
    pq_head q <> pq_tail q /\ pq_elems q (pq_head q mod n) = Some e.
  Proof.
    intros q e rest R EP EC EA. apply inv_reach in R. destruct R as [K1 K2 K3 K4 K5 K6 K7 K8].
    destruct K7 as [ps [P1 [P2 [P3 [P4 P5]]]]]. rewrite EP in P3. inversion P3; subst ps.
    assert (HQ: hd q = took q) by (unfold hd; rewrite EC; lia).
    assert (LT: took q < tl q).
    { unfold took, tl, lenN. rewrite EA, app_length. simpl. lia. }
    split.
    - rewrite K4, K5, HQ. intros C.
      assert (took q = tl q) by (apply (mod_inj (2 ^ 32) (took q)); auto; lia). lia.
    - rewrite K4, HQ, mod_mod_n. destruct (P4 (took q) ltac:(lia)) as [_ Q]. rewrite Q by auto.
      unfold nthN, took, lenN. rewrite Nat2N.id, EA, nth_error_app2 by lia.
      now rewrite PeanoNat.Nat.sub_diag.
  Qed.
End PcqProofs.
