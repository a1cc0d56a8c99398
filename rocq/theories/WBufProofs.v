(** * Proofs about writable buffers and accumulators *)

From Coq Require Import List NArith Arith Bool Lia.
From Verif Require Import Base WBuf.
Import ListNotations.
Local Open Scope N_scope.

(** split conjunctions only *)
Ltac splits := repeat match goal with |- _ /\ _ => split end.

Lemma blen_app : forall a b, blen (a ++ b) = blen a + blen b.
Proof. intros. unfold blen. rewrite app_length. lia. Qed.

Lemma blen_firstn : forall n l, n <= blen l -> blen (firstn (N.to_nat n) l) = n.
Proof. intros. unfold blen in *. rewrite firstn_length. lia. Qed.

Lemma blen_fit : forall n c, blen (fit n c) = n.
Proof.
  intros. unfold fit, blen. rewrite firstn_length, app_length, repeat_length. lia.
Qed.

Lemma firstn_fit : forall k n c, k <= n -> k <= blen c ->
  firstn (N.to_nat k) (fit n c) = firstn (N.to_nat k) c.
Proof.
  intros. unfold fit, blen in *. rewrite firstn_firstn.
  rewrite Nat.min_l by lia. rewrite firstn_app.
  replace (N.to_nat k - length c)%nat with 0%nat by lia. simpl. now rewrite app_nil_r.
Qed.

Lemma blen_splice : forall l off src l', splice l off src = Some l' -> blen l' = blen l.
Proof.
  intros l off src l' H. unfold splice in H.
  destruct (N.leb_spec (off + blen src) (blen l)); [|discriminate]. inversion H; subst.
  rewrite !blen_app. unfold blen in *. rewrite firstn_length, skipn_length. lia.
Qed.

Lemma splice_defined : forall l off src, off + blen src <= blen l ->
  exists l', splice l off src = Some l'.
Proof. intros. unfold splice. destruct (N.leb_spec (off + blen src) (blen l)); [eauto|lia]. Qed.

Lemma splice_firstn : forall l off src l' n, splice l off src = Some l' ->
  n <= blen l -> off + blen src <= n ->
  splice (firstn (N.to_nat n) l) off src = Some (firstn (N.to_nat n) l').
Proof.
  intros l off src l' n H Hn Ho. unfold splice in *.
  rewrite blen_firstn by auto.
  destruct (N.leb_spec (off + blen src) (blen l)); [|discriminate].
  destruct (N.leb_spec (off + blen src) n); [|lia]. inversion H; subst. f_equal.
  unfold blen in *.
  rewrite !firstn_app, !firstn_firstn, !firstn_length.
  rewrite (Nat.min_l (N.to_nat off) (N.to_nat n)) by lia.
  rewrite (Nat.min_r (N.to_nat n) (N.to_nat off)) by lia. f_equal.
  rewrite (firstn_all2 src) by lia. f_equal.
  rewrite firstn_skipn_comm. f_equal. f_equal. lia.
Qed.

Lemma splice_skipn : forall l off src l' n, splice l off src = Some l' ->
  off + blen src <= n -> skipn (N.to_nat n) l' = skipn (N.to_nat n) l.
Proof.
  intros l off src l' n H Ho. unfold splice in *.
  destruct (N.leb_spec (off + blen src) (blen l)); [|discriminate]. inversion H; subst.
  unfold blen in *. rewrite !skipn_app, !firstn_length.
  rewrite (skipn_all2 (firstn _ l)) by (rewrite firstn_length; lia).
  rewrite (skipn_all2 src) by lia. cbn [app].
  assert (SK: forall (m : bytes) a b, skipn a (skipn b m) = skipn (b + a) m).
  { clear. induction m; intros a' b'; destruct b', a'; simpl; auto.
    - now rewrite Nat.add_0_r.
    - destruct b'; auto.
      rewrite <- (IHm (S a') (S b')). reflexivity. }
  rewrite SK. f_equal. lia.
Qed.

(** The whole-buffer overwrite used by copies. *)
Lemma splice_zero : forall l src l', splice l 0 src = Some l' ->
  firstn (N.to_nat (blen src)) l' = src.
Proof.
  intros l src l' H. unfold splice in H.
  destruct (N.leb_spec (0 + blen src) (blen l)); [|discriminate]. inversion H; subst.
  simpl. unfold blen. rewrite Nat2N.id, firstn_app, firstn_all, Nat.sub_diag. simpl.
  now rewrite app_nil_r.
Qed.

Section Inv.
  (** initial heap, caller's buffer and its length *)
  Variables (h0 : heap) (ub : option nat) (L : N).
  Hypothesis fresh0 : forall j, (h_next h0 <= j)%nat -> h_blocks h0 j = None.
  Hypothesis user_ok : match ub with
                       | None => L = 0
                       | Some u => exists l, h_blocks h0 u = Some l /\ L <= blen l
                       end.

  (** The caller's block was neither freed nor written past its length; other
      blocks are untouched; a block of the buffer's own is the only new one. *)
  Record inv (h : heap) (wb : wbuf) : Prop := {
    iv_next : (h_next h0 <= h_next h)%nat;
    iv_fresh : forall j, (h_next h <= j)%nat -> h_blocks h j = None;
    iv_frame : forall j, (j < h_next h0)%nat -> Some j <> ub -> h_blocks h j = h_blocks h0 j;
    iv_user : forall u, ub = Some u -> exists l l0, h_blocks h u = Some l /\
        h_blocks h0 u = Some l0 /\ blen l = blen l0 /\
        skipn (N.to_nat L) l = skipn (N.to_nat L) l0;
    iv_buf : if wb_can_free wb
             then exists b l, wb_buffer wb = Some b /\ (h_next h0 <= b)%nat /\
                    h_blocks h b = Some l /\ blen l = wb_capacity wb
             else wb_buffer wb = ub /\ wb_capacity wb = L;
    iv_new : forall j, (h_next h0 <= j)%nat -> h_blocks h j <> None ->
        wb_can_free wb = true /\ wb_buffer wb = Some j;
    iv_len : forall n, wb_length wb = Some n -> n <= wb_capacity wb
  }.

  Lemma user_old : forall u, ub = Some u -> (u < h_next h0)%nat.
  Proof.
    intros u E. rewrite E in user_ok. destruct user_ok as [l [H _]].
    destruct (Nat.lt_ge_cases u (h_next h0)); auto. rewrite fresh0 in H by auto. discriminate.
  Qed.

  (** the buffer has a block large enough for its capacity *)
  Lemma buf_block : forall h wb, inv h wb -> 0 < wb_capacity wb ->
    exists b l, wb_buffer wb = Some b /\ h_blocks h b = Some l /\ wb_capacity wb <= blen l.
  Proof.
    intros h wb I P. destruct I. destruct (wb_can_free wb).
    - destruct iv_buf0 as [b [l [E1 [E2 [E3 E4]]]]]. exists b, l. splits; auto. lia.
    - destruct iv_buf0 as [E1 E2]. destruct ub as [u|] eqn:EU.
      + destruct (iv_user0 u eq_refl) as [l [l0 [A [B [C D]]]]].
        destruct user_ok as [l1 [X Y]]. rewrite B in X. inversion X; subst l1.
        exists u, l. splits; auto. lia.
      + lia.
  Qed.

  Lemma read_defined : forall h wb n, inv h wb -> n <= wb_capacity wb ->
    exists c, h_read h (wb_buffer wb) n = Some c /\ blen c = n.
  Proof.
    intros h wb n I Hn. unfold h_read. destruct (N.eqb_spec n 0).
    - subst. exists []. auto.
    - destruct (buf_block h wb I ltac:(lia)) as [b [l [E1 [E2 E3]]]]. rewrite E1, E2.
      destruct (N.leb_spec n (blen l)); [|lia]. eexists. split; eauto. now apply blen_firstn.
  Qed.

  Lemma inv_init : inv h0 (wb_init_with_buffer ub L None).
  Proof.
    constructor; simpl; auto.
    - intros u E. rewrite E in user_ok. destruct user_ok as [l [A B]]. exists l, l. auto.
    - intros j Hj C. rewrite fresh0 in C by auto. congruence.
    - discriminate.
  Qed.

  Lemma inv_set_length : forall h wb n, inv h wb ->
    (forall k, n = Some k -> k <= wb_capacity wb) ->
    inv h (WBuf (wb_buffer wb) (wb_capacity wb) n (wb_can_free wb)).
  Proof. intros h wb n I H. destruct I. constructor; simpl; auto. Qed.

  (** The ensure_space step keeps the first [length] bytes. *)
  Lemma ensure_spec : forall h wb n ok junk, inv h wb ->
    exists h' wb' r, wb_ensure_space h wb n ok junk = Some (h', wb', r) /\ inv h' wb' /\
      wb_length wb' = wb_length wb /\
      (r = true -> n <= wb_capacity wb') /\
      (r = false -> h' = h /\ wb' = wb) /\
      (ok = true -> r = true) /\
      (forall len, wb_length wb = Some len -> forall k, k <= len ->
         h_read h' (wb_buffer wb') k = h_read h (wb_buffer wb) k).
  Proof.
    intros h wb n ok junk I. unfold wb_ensure_space.
    destruct (N.leb_spec n (wb_capacity wb)) as [C|C].
    { exists h, wb, true. splits; auto; try discriminate. }
    set (ms := if n <? 2 * wb_capacity wb then 2 * wb_capacity wb else n).
    assert (MS: n <= ms /\ wb_capacity wb < ms).
    { unfold ms. destruct (N.ltb_spec n (2 * wb_capacity wb)); lia. }
    destruct ok; cbn [negb].
    2:{ exists h, wb, false. splits; auto; try discriminate. }
    pose proof I as I'. destruct I' as [J1 J2 J3 J4 J5 J6 J7].
    destruct (wb_can_free wb) eqn:CF.
    - destruct J5 as [ob [old [E1 [E2 [E3 E4]]]]]. rewrite E1, E3. cbn [h_alloc].
      assert (OB: (ob < h_next h)%nat).
      { destruct (Nat.lt_ge_cases ob (h_next h)); auto. rewrite J2 in E3 by auto. discriminate. }
      unfold h_free. cbn [h_set h_blocks].
      destruct (Nat.eqb_spec ob (h_next h)); [lia|]. rewrite E3. cbn [h_set h_blocks h_next].
      eexists. eexists. exists true. split; [reflexivity|]. split; [|split; [|split; [|split; [|split]]]].
      + constructor; cbn [h_set h_blocks h_next wb_can_free wb_buffer wb_capacity wb_length].
        * lia.
        * intros j Hj. destruct (Nat.eqb_spec j ob); auto. destruct (Nat.eqb_spec j (h_next h)); [lia|].
          apply J2. lia.
        * intros j Hj U. destruct (Nat.eqb_spec j ob); [lia|]. destruct (Nat.eqb_spec j (h_next h)); [lia|].
          auto.
        * intros u Hu. pose proof (user_old u Hu). destruct (Nat.eqb_spec u ob); [lia|].
          destruct (Nat.eqb_spec u (h_next h)); [lia|]. apply J4; auto.
        * exists (h_next h), (fit ms (old ++ junk)). splits; auto.
          { destruct (Nat.eqb_spec (h_next h) ob); [lia|]. now rewrite Nat.eqb_refl. }
          { apply blen_fit. }
        * intros j Hj X. split; auto. destruct (Nat.eqb_spec j ob); [congruence|].
          destruct (Nat.eqb_spec j (h_next h)); [congruence|].
          destruct (J6 j Hj X) as [_ K]. congruence.
        * intros k Hk. apply J7 in Hk. lia.
      + reflexivity.
      + intros _. simpl. lia.
      + discriminate.
      + auto.
      + intros len HL k Hk. pose proof (J7 len HL).
        cbn [wb_buffer]. unfold h_read. destruct (N.eqb_spec k 0); auto.
        cbn [h_set h_blocks]. destruct (Nat.eqb_spec (h_next h) ob); [lia|]. rewrite Nat.eqb_refl, E3.
        rewrite blen_fit.
        destruct (N.leb_spec k ms); [|lia]. destruct (N.leb_spec k (blen old)); [|lia].
        f_equal. rewrite firstn_fit; [|lia|rewrite blen_app; lia].
        rewrite firstn_app. unfold blen in *.
        replace (N.to_nat k - length old)%nat with 0%nat by lia. simpl. now rewrite app_nil_r.
    - cbn [h_alloc].
      assert (G: forall c, blen c = ms ->
        inv (Heap (fun j => if Nat.eqb j (h_next h) then Some c else h_blocks h j) (S (h_next h)))
            (WBuf (Some (h_next h)) ms (wb_length wb) true)).
      { intros c Hc. constructor; cbn [h_set h_blocks h_next wb_can_free wb_buffer wb_capacity wb_length].
        * lia.
        * intros j Hj. destruct (Nat.eqb_spec j (h_next h)); [lia|]. apply J2. lia.
        * intros j Hj U. destruct (Nat.eqb_spec j (h_next h)); [lia|]. auto.
        * intros u Hu. pose proof (user_old u Hu).
          destruct (Nat.eqb_spec u (h_next h)); [lia|]. apply J4; auto.
        * exists (h_next h), c. rewrite Nat.eqb_refl. splits; auto.
        * intros j Hj X. split; auto.
          destruct (Nat.eqb_spec j (h_next h)); [congruence|].
          destruct (J6 j Hj X) as [K _]. congruence.
        * intros k Hk. apply J7 in Hk. lia. }
      destruct (wb_length wb) as [len|] eqn:WL.
      + destruct (read_defined h wb len I (J7 len eq_refl)) as [cur [R1 R2]]. rewrite R1.
        pose proof (J7 len eq_refl) as LC.
        unfold h_write. destruct cur as [|c0 cur'] eqn:EC.
        * eexists. eexists. exists true. split; [reflexivity|].
          split; [apply G; apply blen_fit|]. cbn [wb_length wb_capacity wb_buffer].
          splits; auto; try lia; try discriminate.
          intros len0 E k Hk. inversion E; subst. unfold blen in Hk; simpl in Hk.
          assert (k = 0) by lia. subst. reflexivity.
        * rewrite <- EC in *. cbn [h_set h_blocks]. rewrite Nat.eqb_refl.
          destruct (splice_defined (fit ms junk) 0 cur) as [l' SP].
          { rewrite blen_fit. lia. }
          rewrite SP. cbn [h_set h_blocks h_next].
          eexists. eexists. exists true. split; [reflexivity|].
          assert (I2 := G l' ltac:(rewrite (blen_splice _ _ _ _ SP); apply blen_fit)).
          cbn [wb_length wb_capacity wb_buffer].
          split.
          { destruct I2 as [Q1 Q2 Q3 Q4 Q5 Q6 Q7].
            constructor; cbn [h_set h_blocks h_next wb_can_free wb_buffer wb_capacity wb_length] in *; auto.
            - intros j Hj. specialize (Q2 j Hj). destruct (Nat.eqb_spec j (h_next h)); auto.
            - intros j Hj U. specialize (Q3 j Hj U). destruct (Nat.eqb_spec j (h_next h)); auto.
            - intros u Hu. specialize (Q4 u Hu). destruct (Nat.eqb_spec u (h_next h)); auto.
            - exists (h_next h), l'. rewrite Nat.eqb_refl. splits; auto.
              rewrite (blen_splice _ _ _ _ SP). apply blen_fit.
            - intros j Hj X. apply Q6; auto. destruct (Nat.eqb_spec j (h_next h)); auto. }
          splits; auto; try lia; try discriminate.
          intros len0 E k Hk. inversion E; subst len0.
          unfold h_read in *. destruct (N.eqb_spec k 0); auto. cbn [h_set h_blocks]. rewrite Nat.eqb_refl.
          rewrite (blen_splice _ _ _ _ SP), blen_fit. destruct (N.leb_spec k ms); [|lia].
          destruct (N.eqb_spec len 0); [lia|].
          destruct (wb_buffer wb) as [ob|]; [|discriminate].
          destruct (h_blocks h ob) as [old|]; [|discriminate].
          destruct (N.leb_spec len (blen old)); [|discriminate].
          destruct (N.leb_spec k (blen old)); [|lia]. f_equal.
          pose proof (splice_zero _ _ _ SP) as Z. rewrite R2 in Z.
          injection R1 as R1.
          assert (F: forall l : bytes, firstn (N.to_nat k) l = firstn (N.to_nat k) (firstn (N.to_nat len) l)).
          { intros l. rewrite firstn_firstn. f_equal. lia. }
          rewrite (F l'), (F old), Z. congruence.
      + eexists. eexists. exists true. split; [reflexivity|].
        split; [apply G; apply blen_fit|]. cbn [wb_length wb_capacity wb_buffer].
        splits; auto; try lia; try discriminate.
  Qed.

  Lemma resize_spec : forall h wb n ok junk, inv h wb -> n < 2 ^ 64 - 1 ->
    exists h' wb' r, wb_resize h wb n ok junk = Some (h', wb', r) /\ inv h' wb' /\
      (r = true -> wb_length wb' = Some n) /\
      (r = false -> h' = h /\ wb' = wb) /\ (ok = true -> r = true) /\
      (r = true -> forall len, wb_length wb = Some len -> forall k, k <= len ->
         h_read h' (wb_buffer wb') k = h_read h (wb_buffer wb) k).
  Proof.
    intros h wb n ok junk I Hn. unfold wb_resize.
    destruct (N.eqb_spec n (2 ^ 64 - 1)); [lia|].
    destruct (ensure_spec h wb n ok junk I) as [h' [wb' [r [E [I' [EL [R1 [R2 [R3 R4]]]]]]]]].
    rewrite E. destruct r.
    - eexists. eexists. exists true. split; [reflexivity|]. split.
      + apply inv_set_length; auto. intros k Ek; inversion Ek; subst. auto.
      + cbn [wb_length wb_buffer]. splits; auto; try discriminate; eauto.
    - eexists. eexists. exists false. split; [reflexivity|]. destruct (R2 eq_refl); subst.
      splits; auto; try discriminate.
  Qed.

  (** writes through the buffer below its capacity *)
  Lemma write_spec : forall h wb off src, inv h wb -> off + blen src <= wb_capacity wb ->
    exists h', h_write h (wb_buffer wb) off src = Some h' /\ inv h' wb /\
      (forall n, off + blen src <= n -> n <= wb_capacity wb ->
        forall c, h_read h (wb_buffer wb) n = Some c ->
        h_read h' (wb_buffer wb) n = splice c off src).
  Proof.
    intros h wb off src I Ho. unfold h_write. destruct src as [|s0 src'] eqn:ES.
    - exists h. splits; auto. intros n H1 H2 c R. rewrite R.
      assert (BC: blen c = n).
      { destruct (read_defined h wb n I H2) as [c' [X Y]]. congruence. }
      unfold splice. rewrite BC. destruct (N.leb_spec (off + blen []) n); [|lia].
      change (blen []) with 0. rewrite N.add_0_r. simpl. now rewrite firstn_skipn.
    - assert (P: 0 < blen (s0 :: src')) by (unfold blen; simpl; lia).
      rewrite <- ES in *. clear ES s0 src'.
      destruct (buf_block h wb I ltac:(lia)) as [b [l [E1 [E2 E3]]]]. rewrite E1, E2.
      destruct (splice_defined l off src) as [l' SP]; [lia|]. rewrite SP.
      pose proof (blen_splice _ _ _ _ SP) as BL.
      exists (h_set h b (Some l')). split; auto. split.
      + destruct I as [J1 J2 J3 J4 J5 J6 J7].
        assert (BN: (b < h_next h)%nat).
        { destruct (Nat.lt_ge_cases b (h_next h)); auto. rewrite J2 in E2 by auto. discriminate. }
        assert (BU: wb_can_free wb = false -> ub = Some b /\ wb_capacity wb = L).
        { intros F. rewrite F in J5. destruct J5. split; congruence. }
        assert (BO: wb_can_free wb = true -> (h_next h0 <= b)%nat).
        { intros F. rewrite F in J5. destruct J5 as [b' [l2 [K1 [K2 _]]]]. congruence. }
        constructor; cbn [h_set h_blocks h_next]; auto.
        * intros j Hj. destruct (Nat.eqb_spec j b); [lia|auto].
        * intros j Hj U. destruct (Nat.eqb_spec j b); [|auto]. subst j.
          destruct (wb_can_free wb); [specialize (BO eq_refl); lia|]. destruct (BU eq_refl). congruence.
        * intros u Hu. destruct (Nat.eqb_spec u b); [|auto]. subst u.
          destruct (J4 b Hu) as [l1 [l0 [A [B [C D]]]]]. rewrite E2 in A. inversion A; subst l1.
          exists l', l0. splits; auto; [congruence|].
          pose proof (user_old b Hu).
          destruct (wb_can_free wb); [specialize (BO eq_refl); lia|]. destruct (BU eq_refl) as [_ CL].
          rewrite (splice_skipn _ _ _ _ L SP); auto. lia.
        * destruct (wb_can_free wb); [|auto]. destruct J5 as [b' [l2 [K1 [K2 [K3 K4]]]]].
          assert (b' = b) by congruence. subst b'. exists b, l'. rewrite Nat.eqb_refl.
          splits; auto. assert (l2 = l) by congruence. congruence.
        * intros j Hj X. apply J6; auto. destruct (Nat.eqb_spec j b); congruence.
      + intros n H1 H2 c R. unfold h_read in *. destruct (N.eqb_spec n 0); [lia|].
        rewrite E2 in R. cbn [h_set h_blocks]. rewrite Nat.eqb_refl, BL.
        destruct (N.leb_spec n (blen l)); [|lia]. inversion R; subst c.
        symmetry. apply (splice_firstn _ _ _ _ n SP); lia.
  Qed.

  (** *** Accumulator operations against a plain byte string *)

  Definition content (h : heap) (a : macc) : option bytes := wb_to_slice h (ma_data a).

  (** Sizes must be representable; direct stores must stay below the length. *)
  Definition op_ok (old : option bytes) (o : acc_op) : Prop :=
    match o with
    | ACopy m _ _ => blen (m_data m) < 2 ^ 64 - 1
    | AResize n _ _ => n < 2 ^ 64 - 1
    | AWrite off src => match old with Some b => off + blen src <= blen b | None => False end
    | _ => True
    end.

  Definition op_alloc (o : acc_op) : bool :=
    match o with ACopy _ ok _ | AResize _ ok _ => ok | _ => true end.

  (** content after an operation that reported success *)
  Definition op_effect (old : option bytes) (o : acc_op) (new : option bytes) : Prop :=
    match o with
    | ASetNull => new = None
    | ACopy m _ _ => new = Some (m_data m)
    | AResize n _ _ => exists b, new = Some b /\ blen b = n /\
        forall b0 k, old = Some b0 -> k <= n -> k <= blen b0 ->
          firstn (N.to_nat k) b = firstn (N.to_nat k) b0
    | AWrite off src => match old with Some b => new = splice b off src | None => False end
    | ASetClass _ => new = old
    end.

  Lemma content_some : forall h a len, inv h (ma_data a) -> wb_length (ma_data a) = Some len ->
    exists c, content h a = Some c /\ blen c = len /\ h_read h (wb_buffer (ma_data a)) len = Some c.
  Proof.
    intros h a len I E. unfold content, wb_to_slice. rewrite E.
    destruct (read_defined h (ma_data a) len I) as [c [R B]]; [apply I; auto|].
    exists c. auto.
  Qed.

  Lemma acc_step_spec : forall h a o, inv h (ma_data a) -> op_ok (content h a) o ->
    exists h' a' r, acc_step h a o = Some (h', a', r) /\ inv h' (ma_data a') /\
      (op_alloc o = true -> r = true) /\
      (r = true -> op_effect (content h a) o (content h' a')) /\
      (r = false -> h' = h /\ a' = a).
  Proof.
    intros h a o I OK. destruct o as [|m ok junk|n ok junk|off src|c]; cbn [acc_step].
    - exists h, (Macc None (wb_set_to_null (ma_data a))), true. split; auto. split.
      + apply (inv_set_length h (ma_data a) None I). discriminate.
      + splits; intros; auto; try discriminate; try reflexivity.
    - simpl in OK. unfold wb_copy_slice.
      destruct (resize_spec h (ma_data a) (blen (m_data m)) ok junk I OK)
        as [h1 [wb1 [r [E [I1 [R1 [R2 [R3 R4]]]]]]]].
      rewrite E. destruct r.
      + specialize (R1 eq_refl).
        assert (C1: blen (m_data m) <= wb_capacity wb1) by (apply I1; auto).
        destruct (write_spec h1 wb1 0 (m_data m) I1 ltac:(lia)) as [h2 [W1 [W2 W3]]].
        rewrite W1. exists h2, (Macc (Some (m_class m)) wb1), true. split; auto. split; auto.
        split; auto. split; [|discriminate]. intros _. simpl. unfold content, wb_to_slice.
        cbn [ma_data]. rewrite R1.
        destruct (read_defined h1 wb1 (blen (m_data m)) I1 C1) as [c [RC BC]].
        rewrite (W3 (blen (m_data m)) ltac:(lia) C1 c RC).
        destruct (splice_defined c 0 (m_data m)) as [c' SP]; [lia|]. rewrite SP. f_equal.
        pose proof (splice_zero _ _ _ SP) as Z.
        pose proof (blen_splice _ _ _ _ SP) as BS. rewrite <- Z. rewrite firstn_all2; auto.
        unfold blen in *. lia.
      + destruct (R2 eq_refl); subst. exists h, a, false. destruct a. simpl.
        splits; intros; auto; try discriminate; try reflexivity.
    - simpl in OK.
      destruct (resize_spec h (ma_data a) n ok junk I OK) as [h1 [wb1 [r [E [I1 [R1 [R2 [R3 R4]]]]]]]].
      rewrite E. exists h1, (Macc (ma_type a) wb1), r. split; auto. split; auto. split; auto.
      split.
      + intros ->. specialize (R1 eq_refl).
        destruct (content_some h1 (Macc (ma_type a) wb1) n I1 R1) as [b [B1 [B2 B3]]].
        exists b. split; auto. split; auto.
        intros b0 k Eb Hk Hk0. unfold content, wb_to_slice in Eb.
        destruct (wb_length (ma_data a)) as [len|] eqn:WL; [|discriminate].
        destruct (read_defined h (ma_data a) len I) as [c [RC BC]]; [apply I; auto|].
        rewrite RC in Eb. inversion Eb; subst c. 
        specialize (R4 eq_refl len eq_refl k ltac:(lia)).
        assert (FR: forall h p n c k, h_read h p n = Some c -> k <= n ->
                    h_read h p k = Some (firstn (N.to_nat k) c)).
        { clear. intros h p n c k R Hk. unfold h_read in *. destruct (N.eqb_spec k 0).
          - subst. reflexivity.
          - destruct (N.eqb_spec n 0); [lia|]. destruct p; [|discriminate].
            destruct (h_blocks h n2) as [l|]; [|discriminate].
            destruct (N.leb_spec n (blen l)); [|discriminate]. destruct (N.leb_spec k (blen l)); [|lia].
            inversion R; subst. rewrite firstn_firstn. do 2 f_equal. lia. }
        rewrite (FR _ _ _ _ k RC) in R4 by lia.
        cbn [ma_data] in B3. rewrite (FR _ _ _ _ k B3) in R4 by auto. congruence.
      + intros ->. destruct (R2 eq_refl); subst. destruct a; auto.
    - simpl in OK. destruct (content h a) as [b|] eqn:EC; [|contradiction].
      assert (WL: exists len, wb_length (ma_data a) = Some len).
      { unfold content, wb_to_slice in EC. destruct (wb_length (ma_data a)); [eauto|discriminate]. }
      destruct WL as [len WL]. destruct (content_some h a len I WL) as [c [C1 [C2 C3]]].
      rewrite EC in C1. inversion C1; subst c.
      assert (LC: len <= wb_capacity (ma_data a)) by (apply I; auto).
      destruct (write_spec h (ma_data a) off src I ltac:(lia)) as [h' [W1 [W2 W3]]].
      rewrite W1. exists h', a, true. split; auto. split; auto. split; auto. split; [|discriminate].
      intros _. simpl. unfold content, wb_to_slice. rewrite WL. apply W3; auto; lia.
    - exists h, (Macc (Some c) (ma_data a)), true. split; auto. split; auto.
      splits; intros; auto; try discriminate; try reflexivity.
  Qed.

  Lemma deinit_spec : forall h a, inv h (ma_data a) ->
    exists h' a', lookup_result_deinit h a = Some (h', a') /\
      (forall j, Some j <> ub -> h_blocks h' j = h_blocks h0 j) /\
      (forall u, ub = Some u -> h_blocks h' u = h_blocks h u).
  Proof.
    intros h a I. unfold lookup_result_deinit, wb_deinit.
    destruct I as [J1 J2 J3 J4 J5 J6 J7]. destruct (wb_can_free (ma_data a)) eqn:CF.
    - destruct J5 as [b [l [E1 [E2 [E3 E4]]]]]. rewrite E1. unfold h_free. rewrite E3.
      eexists. eexists. split; [reflexivity|]. cbn [h_set h_blocks]. split.
      + intros j U. destruct (Nat.eqb_spec j b).
        * subst. symmetry. apply fresh0. auto.
        * destruct (Nat.lt_ge_cases j (h_next h0)); auto. rewrite (fresh0 j) by auto.
          destruct (h_blocks h j) eqn:X; auto. exfalso.
          destruct (J6 j H ltac:(congruence)) as [_ K]. congruence.
      + intros u Hu. pose proof (user_old u Hu). destruct (Nat.eqb_spec u b); [lia|auto].
    - eexists. eexists. split; [reflexivity|]. split; auto.
      intros j U. destruct (Nat.lt_ge_cases j (h_next h0)); auto. rewrite (fresh0 j) by auto.
      destruct (h_blocks h j) eqn:X; auto. exfalso.
      destruct (J6 j H ltac:(congruence)) as [K _]. congruence.
  Qed.
End Inv.
