(** * Incorporation and flush keep the invariant *)
From Coq Require Import List NArith ZArith Arith Bool Lia.
From Verif Require Import Base Spec Search SearchProofs TrunkKeys Refs RefsSpec RefsCount RefsLedger RefsInv.
Import ListNotations.
Local Open Scope Z_scope.
Set Default Proof Using "All".
Section Ops.
Variable d : data_config.
Variable TO : total_order (key_compare d).
Notation cnt := (cnt d). Notation zov := (zov d). Notation ov := (ov d). Notation up := (up d).
Notation wsum := (wsum d). Notation sumov := (sumov d). Notation pts := (pts d). Notation delta := (delta d).
Notation asc := (asc d). Notation pcs := (pcs d). Notation M := (M d). Notation lsum := (lsum d). Notation tlsum := (tlsum d).
Notation jm := (jm d). Notation jsum := (jsum d). Notation nw := (nw d). Notation nws := (nws d). Notation pcsj := (pcsj d).
Notation Inv := (Inv d). Notation node_ok := (node_ok d). Notation levels_ok := (levels_ok d). Notation tiled := (tiled d).

Lemma nw_snoc : forall j b e n id bs, dead_ok (r_slots n) (r_pivs n) ->
  nw j b e (RNode id (r_pivs n) (r_hi n) (r_slots n ++ [Slot None bs])) = nw j b e n + occ b bs * sumov (r_pivs n) (r_hi n) e.
Proof.
  intros. unfold RefsInv.nw. cbn [r_slots r_pivs r_hi]. rewrite map_app. cbn [map]. change (mslot j (Slot None bs)) with (Slot None bs).
  rewrite (wsum_snoc d TO) by (apply (dead_ok_m d TO); auto). reflexivity.
Qed.
Lemma dead_ok_snoc : forall sl x l, dead_ok sl l -> dead_ok (sl ++ x) l.
Proof. intros sl x l H p I. rewrite app_length. specialize (H p I). lia. Qed.
Lemma node_ok_snoc : forall n id x, node_ok n -> node_ok (RNode id (r_pivs n) (r_hi n) (r_slots n ++ x)).
Proof. intros n id x (A & B & C). split; [exact A|split; [exact B|]]. apply dead_ok_snoc. exact C. Qed.
Lemma tiled_one : forall n m, node_ok m -> r_lo m = r_lo n -> r_hi m = r_hi n -> tiled (r_lo n) [m] (r_hi n).
Proof. intros n m O A B. cbn [RefsInv.tiled]. auto. Qed.
Lemma sumov_nn : forall l hi e, 0 <= sumov l hi e.
Proof. induction l as [|p l IH]; intros; cbn [RefsCount.sumov]; [lia|]. pose proof (zov_01 d TO (p_key p, next_key l hi) e). specialize (IH hi e). lia. Qed.

Lemma covers : forall s n l1 p l2 b k e, Inv s -> In n (concat (t_lev s)) -> r_pivs n = l1 ++ p :: l2 -> In b (live_brs (r_slots n) p) ->
  kle d (p_key p) k -> kle d k (next_key l2 (r_hi n)) -> ov (k, k) e = true -> 1 <= M s b e.
Proof.
  intros s n l1 p l2 b k e I IN E IB K1 K2 O. pose proof (M_pcs d TO s b e I). enough (1 <= pcs b e (t_lev s)) by lia.
  apply (cnt_in d TO) with (r := (p_key p, next_key l2 (r_hi n))).
  - unfold all_pieces. apply in_flat_map. exists n. split; auto. unfold node_pieces. rewrite E, (pieces_app d TO). apply in_or_app. right.
    cbn [pieces]. apply in_or_app. left. apply in_map_iff. eauto.
  - unfold RefsCount.ov in *. cbn in *. apply andb_true_iff in O. destruct O as [O1 O2]. apply andb_true_iff. split; apply (kleb_kle d TO); apply (kleb_kle d TO) in O1, O2; ord TO.
Qed.
Lemma live_in_slots : forall sl p b, In b (live_brs sl p) -> exists s, In s sl /\ In b (s_brs s).
Proof.
  intros sl p b I. unfold live_brs in I. apply in_flat_map in I. destruct I as (s & I1 & I2).
  exists s. split; auto. rewrite <- (firstn_skipn (p_dead p) sl). apply in_or_app. auto.
Qed.
Lemma inc_at_inc : forall ks bs, Forall is_inc (inc_at ks bs).
Proof.
  intros. apply Forall_forall. intros v I. unfold inc_at in I. apply in_flat_map in I. destruct I as (b & _ & I). apply in_map_iff in I.
  destruct I as (k & <- & _). exists b, (k, k). reflexivity.
Qed.
Lemma inc_at_in : forall ks bs b r, In (EvInc b r) (inc_at ks bs) -> In b bs /\ exists k, In k ks /\ r = (k, k).
Proof.
  intros ks bs b r I. unfold inc_at in I. apply in_flat_map in I. destruct I as (b' & I1 & I). apply in_map_iff in I.
  destruct I as (k & E & I2). inversion E; subst. eauto.
Qed.
Lemma inc_at_made : forall l ks bs v, (forall b, In b bs -> made l b) -> In v (inc_at ks bs) -> made l (evb v).
Proof.
  intros l ks bs v H I. pose proof (inc_at_inc ks bs) as F. rewrite Forall_forall in F. destruct (F _ I) as (b & r & ->).
  apply inc_at_in in I. apply H. tauto.
Qed.

(** *** Incorporation *)
Lemma step_incorporate : forall s b0 s', Inv s -> incorporate s b0 = Some s' -> Inv s'.
Proof.
  intros s b0 s' I H. unfold incorporate in H. set (h := pred (length (t_lev s))) in *.
  destruct (node_at (t_lev s) h 0) as [n|] eqn:EN; [|discriminate]. destruct (fresh b0 (t_led s)) eqn:F; [|discriminate].
  apply (fresh_made d TO) in F.
  set (n' := RNode (r_id n) (r_pivs n) (r_hi n) (r_slots n ++ [Slot None [b0]])) in *.
  set (incs := inc_at (map p_key (tl (r_pivs n))) [b0]) in *.
  assert (IN : In n (concat (t_lev s))) by (eapply node_at_in; eauto).
  assert (ON : node_ok n) by (eapply levels_node; eauto; apply I).
  assert (ON' : node_ok n') by (apply node_ok_snoc; auto).
  assert (T : tiled (r_lo n) [n'] (r_hi n)) by (apply tiled_one; auto).
  assert (RNG : r_lo n = KNegInf /\ r_hi n = KPosInf).
  { unfold node_at in EN. destruct (nth_error (t_lev s) h) as [l|] eqn:E; [|discriminate]. pose proof (i_top _ _ I l E) as L.
    pose proof (i_lev _ _ I l (nth_error_In _ _ E)) as TL. destruct l as [|x [|? ?]]; try discriminate. cbn in EN. inversion EN; subst x.
    cbn [RefsInv.tiled] in TL. tauto. }
  assert (PJ : forall j b e, pcsj j b e (put (t_lev s) h 0 [n']) = pcsj j b e (t_lev s) + occ b [b0] * sumov (r_pivs n) (r_hi n) e).
  { intros. rewrite (pcsj_put d TO j b e _ h 0%nat _ n EN). cbn [RefsInv.nws]. unfold n'. rewrite nw_snoc by apply ON. lia. }
  inversion H; subst s'; clear H.
  apply (tree_step d TO s); cbn [t_lev t_jobs t_lost t_job t_led]; auto.
  - eexists. reflexivity.
  - eapply levels_put; eauto. apply I.
  - intros l. apply (top_put d TO); [apply I | right; reflexivity].
  - intros h' k. eapply bdry_put; eauto.
  - intros x sl IX IS. eapply concat_put_in in IX; eauto. destruct IX as [[<-|[]]|IX].
    + cbn [r_slots n'] in IS. apply in_app_or in IS. destruct IS as [IS|[<-|[]]].
      * apply (slot_lift d TO s); [eapply i_slots; eauto | cbn; lia | eexists; reflexivity].
      * split; cbn; [discriminate|]. intros b [<-|[]]. exists KNegInf, KPosInf. apply in_or_app. right. left. reflexivity.
    + apply (slot_lift d TO s); [eapply i_slots; eauto | cbn; lia | eexists; reflexivity].
  - intros j b e E. rewrite PJ. pose proof (occ_nn d TO b [b0]). pose proof (sumov_nn (r_pivs n) (r_hi n) e). nia.
  - intros NN. match goal with |- cnt_ok _ ?s2 /\ _ => apply (cert_new d TO s s2 b0 KNegInf KPosInf incs []) end; cbn [t_led]; auto; try apply I.
    + rewrite app_nil_r. reflexivity.
    + apply inc_at_inc.
    + rewrite app_nil_r. intros v IV. right. unfold incs in IV. pose proof (inc_at_inc (map p_key (tl (r_pivs n))) [b0]) as FF. rewrite Forall_forall in FF.
      destruct (FF _ IV) as (b & r & ->). apply inc_at_in in IV. destruct IV as [[->|[]] _]. reflexivity.
    + intros; apply M_nn; auto.
    + intros b lo hi e IB X. assert (NE : b <> b0) by (intros ->; apply F; exists lo, hi; auto). split.
      * intros r IR. apply inc_at_in in IR. destruct IR as [[->|[]] _]. congruence.
      * rewrite app_nil_r. unfold incs. rewrite (delta_inc_at d TO). cbn [occ]. unfold RefsLedger.M. cbn [t_lev t_jobs t_lost].
        rewrite <- !(pcsj_0 d TO), PJ. cbn [occ]. destruct (Nat.eqb_spec b0 b); [congruence|]. lia.
    + intros e X. pose proof (M_unmade d TO s b0 e I F) as Z0. unfold RefsLedger.M in *. cbn [t_lev t_jobs t_lost].
      rewrite <- !(pcsj_0 d TO) in *. rewrite PJ. unfold incs. rewrite (delta_inc_at d TO). cbn [occ]. rewrite Nat.eqb_refl.
      destruct ON as (N1 & N2 & _). rewrite (sumov_eq d TO) by (auto; apply X). fold (r_lo n). destruct RNG as [-> ->].
      assert (zov (KNegInf, KPosInf) e = 1).
      { unfold RefsCount.zov, RefsCount.ov. cbn [fst snd]. rewrite (proj2 (kleb_kle d TO _ _) (kle_pos_inf d (fst e))), (proj2 (kleb_kle d TO _ _) (kle_neg_inf d (snd e))). reflexivity. }
      lia.
Qed.

(** *** Flush *)
Lemma child_split : forall p j q c, nth_error (r_pivs p) j = Some q -> child_of d p j c = true ->
  exists l1 l2, r_pivs p = l1 ++ q :: l2 /\ length l1 = j /\ r_lo c = p_key q /\ r_hi c = next_key l2 (r_hi p) /\
    (forall ns, sub j ns (r_pivs p) = l1 ++ ns ++ l2).
Proof.
  intros p j q c N C. unfold child_of in C. destruct (sub_split d TO _ j [] (r_pivs p) q N) as (l1 & l2 & E & _ & L). exists l1, l2.
  rewrite E in C. rewrite skipn_app in C. rewrite <- L in C. rewrite skipn_all, Nat.sub_diag in C. cbn [skipn app] in C.
  apply andb_true_iff in C. destruct C as [C1 C2]. apply (keqb_eq d TO) in C1, C2. repeat split; auto.
  intros ns. destruct (sub_split d TO _ j ns (r_pivs p) q N) as (l1' & l2' & E' & S & L'). rewrite S.
  rewrite E in E'. assert (l1 = l1' /\ q :: l2 = q :: l2').
  { clear S. revert l1' L' E'. rewrite <- L. clear. induction l1; intros [|y l1'] L' E'; cbn in *; try discriminate; auto. inversion E'; subst. destruct (IHl1 l1') as [-> ?]; auto. }
  destruct H as [-> H]. inversion H. reflexivity.
Qed.
Lemma asc_replace : forall l1 q x l2 hi, asc (l1 ++ q :: l2) hi -> p_key x = p_key q -> asc (l1 ++ x :: l2) hi.
Proof.
  intros l1 q x l2 hi A E. apply (asc_app d TO) in A. destruct A as [A1 A2]. apply (asc_app d TO). cbn [next_key RefsCount.asc] in *. rewrite E. auto.
Qed.
Lemma kill_ok : forall p j q c, node_ok p -> nth_error (r_pivs p) j = Some q -> child_of d p j c = true ->
  node_ok (kill j p) /\ r_lo (kill j p) = r_lo p /\ r_hi (kill j p) = r_hi p /\ r_slots (kill j p) = r_slots p /\
  (forall m b e, nw m b e (kill j p) = nw m b e p - occ b (live_brs (map (mslot m) (r_slots p)) q) * zov (r_lo c, r_hi c) e).
Proof.
  intros p j q c (O1 & O2 & O3) N C. destruct (child_split p j q c N C) as (l1 & l2 & E & L & C1 & C2 & S).
  unfold kill. rewrite N. rewrite S. cbn [app]. rewrite E in *.
  split; [|split; [|split; [|split]]]; cbn [r_hi r_slots]; auto.
  - split; [|split]; cbn [r_pivs r_hi r_slots].
    + destruct l1; discriminate.
    + eapply asc_replace; eauto.
    + intros x I. apply in_app_or in I. destruct I as [I|[<-|I]]; [|cbn; lia|]; apply O3; apply in_or_app; auto. right. right. auto.
  - unfold r_lo. cbn [r_pivs r_hi]. rewrite E. destruct l1; reflexivity.
  - intros m b e. unfold RefsInv.nw. cbn [r_pivs r_hi r_slots]. rewrite E. rewrite !(wsum_app d TO). cbn [RefsCount.wsum next_key p_key].
    assert (H : live_brs (map (mslot m) (r_slots p)) (Piv (p_key q) (length (r_slots p))) = []).
    { unfold live_brs. cbn [p_dead]. rewrite <- (map_length (mslot m)). rewrite skipn_all. reflexivity. }
    rewrite H, C1, C2. cbn [occ]. lia.
Qed.

Lemma step_flush : forall s h i j c s', Inv s -> flush d s h i j c = Some s' -> Inv s'.
Proof.
  intros s h i j c s' I H. unfold flush in H.
  destruct (node_at (t_lev s) (S h) i) as [p|] eqn:EP; [|discriminate]. destruct (node_at (t_lev s) h c) as [ch|] eqn:EC; [|discriminate].
  destruct (nth_error (r_pivs p) j) as [q|] eqn:EQ; [|discriminate]. destruct (child_of d p j ch) eqn:CO; [|discriminate].
  set (bs := live_brs (r_slots p) q) in *.
  set (ch' := RNode (r_id ch) (r_pivs ch) (r_hi ch) (r_slots ch ++ [Slot None bs])) in *.
  set (incs := inc_at (map p_key (tl (r_pivs ch))) bs) in *.
  assert (INP : In p (concat (t_lev s))) by (eapply node_at_in; eauto).
  assert (INC : In ch (concat (t_lev s))) by (eapply node_at_in; eauto).
  assert (OP : node_ok p) by (eapply levels_node; eauto; apply I).
  assert (OC : node_ok ch) by (eapply levels_node; eauto; apply I).
  destruct (kill_ok p j q ch OP EQ CO) as (OK & K1 & K2 & K3 & K4).
  assert (TP : tiled (r_lo p) [kill j p] (r_hi p)) by (apply tiled_one; auto).
  assert (TC : tiled (r_lo ch) [ch'] (r_hi ch)) by (apply tiled_one; auto; apply node_ok_snoc; auto).
  set (lv1 := put (t_lev s) (S h) i [kill j p]) in *.
  assert (EC1 : node_at lv1 h c = Some ch) by (unfold lv1; rewrite (node_at_put_ne d TO); auto).
  assert (LV1 : levels_ok lv1) by (eapply levels_put; eauto; apply I).
  assert (MB : forall b, In b bs -> made (t_led s) b).
  { intros b IB. apply live_in_slots in IB. destruct IB as (sl & S1 & S2). exact (proj2 (i_slots _ _ I p sl INP S1) b S2). }
  assert (PJ : forall m b e, pcsj m b e (put lv1 h c [ch']) =
     pcsj m b e (t_lev s) - occ b (live_brs (map (mslot m) (r_slots p)) q) * zov (r_lo ch, r_hi ch) e + occ b bs * sumov (r_pivs ch) (r_hi ch) e).
  { intros. rewrite (pcsj_put d TO m b e lv1 h c _ ch EC1). unfold lv1. rewrite (pcsj_put d TO m b e _ (S h) i _ p EP).
    cbn [RefsInv.nws]. rewrite K4. unfold ch'. rewrite nw_snoc by apply OC. lia. }
  assert (SU : forall e, kle d (fst e) (snd e) -> sumov (r_pivs ch) (r_hi ch) e = zov (r_lo ch, r_hi ch) e + pts (map p_key (tl (r_pivs ch))) e).
  { intros e X. destruct OC as (N1 & N2 & _). apply (sumov_eq d TO); auto. }
  inversion H; subst s'; clear H.
  apply (tree_step d TO s); cbn [t_lev t_jobs t_lost t_job t_led]; auto.
  - eexists. reflexivity.
  - eapply levels_put; eauto.
  - intros l. apply (top_put d TO); [|right; reflexivity]. intros l0. unfold lv1. apply (top_put d TO); [apply I | right; reflexivity].
  - intros h' k B. eapply bdry_put; eauto. unfold lv1. eapply bdry_put; eauto.
  - intros x sl IX IS. eapply concat_put_in in IX; eauto. destruct IX as [[<-|[]]|IX].
    + cbn [r_slots ch'] in IS. apply in_app_or in IS. destruct IS as [IS|[<-|[]]].
      * apply (slot_lift d TO s); [eapply (i_slots _ _ I ch); eauto | cbn; lia | eexists; reflexivity].
      * split; cbn; [discriminate|]. intros b IB. apply (made_app d TO); auto.
    + unfold lv1 in IX. eapply concat_put_in in IX; eauto. destruct IX as [[<-|[]]|IX].
      * rewrite K3 in IS. apply (slot_lift d TO s); [eapply (i_slots _ _ I p); eauto | cbn; lia | eexists; reflexivity].
      * apply (slot_lift d TO s); [eapply i_slots; eauto | cbn; lia | eexists; reflexivity].
  - intros m b e E. rewrite PJ, SU by auto. pose proof (mlive_occ d TO m b (r_slots p) q) as X1. fold bs in X1.
    pose proof (occ_nn d TO b (live_brs (map (mslot m) (r_slots p)) q)).
    pose proof (zov_01 d TO (r_lo ch, r_hi ch) e).
    assert (0 <= pts (map p_key (tl (r_pivs ch))) e).
    { generalize (map p_key (tl (r_pivs ch))). induction l as [|k l IH]; cbn [RefsCount.pts]; [lia|]. pose proof (zov_01 d TO (k, k) e). lia. }
    nia.
  - intros NN. match goal with |- cnt_ok _ ?s2 /\ _ => apply (cert_old d TO s s2 incs []) end; cbn [t_led]; auto; try apply I.
    + rewrite app_nil_r. reflexivity.
    + apply inc_at_inc.
    + rewrite app_nil_r. intros v IV. eapply inc_at_made; eauto.
    + intros; apply M_nn; auto.
    + intros b lo hi e IB X. split.
      * intros r IR. apply inc_at_in in IR. destruct IR as [IB2 (k & IK & ->)]. intros OV.
        destruct (child_split p j q ch EQ CO) as (l1 & l2 & E & L & C1 & C2 & S).
        apply in_map_iff in IK. destruct IK as (pp & <- & IK).
        assert (IK' : In pp (r_pivs ch)) by (destruct (r_pivs ch); [contradiction | right; exact IK]).
        destruct OC as (N1 & N2 & _). destruct (asc_in d TO _ _ _ N2 IK') as [A1 A2]. fold (r_lo ch) in A1.
        eapply (covers s p l1 q l2); eauto; [rewrite <- C1; auto | rewrite <- C2; ord TO].
      * rewrite app_nil_r. unfold incs. rewrite (delta_inc_at d TO). unfold RefsLedger.M. cbn [t_lev t_jobs t_lost].
        rewrite <- !(pcsj_0 d TO), PJ, SU by apply X.
        assert (Q : map (mslot 0) (r_slots p) = r_slots p) by (rewrite <- (map_id (r_slots p)) at 2; apply map_ext; apply (mslot_0 d TO)).
        rewrite Q. fold bs. lia.
Qed.
End Ops.
