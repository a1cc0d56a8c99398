(** * Splits keep the invariant *)
From Coq Require Import List NArith ZArith Arith Bool Lia.
From Verif Require Import Base Spec Search SearchProofs TrunkKeys Refs RefsSpec RefsCount RefsLedger RefsInv RefsFlush.
Import ListNotations.
Local Open Scope Z_scope.
Set Default Proof Using "All".
Section Ops2.
Variable d : data_config.
Variable TO : total_order (key_compare d).
Notation cnt := (cnt d). Notation zov := (zov d). Notation ov := (ov d). Notation up := (up d).
Notation wsum := (wsum d). Notation sumov := (sumov d). Notation pts := (pts d). Notation delta := (delta d).
Notation asc := (asc d). Notation pcs := (pcs d). Notation M := (M d). Notation lsum := (lsum d). Notation tlsum := (tlsum d).
Notation jm := (jm d). Notation jsum := (jsum d). Notation nw := (nw d). Notation nws := (nws d). Notation pcsj := (pcsj d).
Notation Inv := (Inv d). Notation node_ok := (node_ok d). Notation levels_ok := (levels_ok d). Notation tiled := (tiled d).

(** *** Splits *)
Lemma ascend_asc : forall (f : key -> piv) ks q hi, (forall k, p_key (f k) = k) -> ascend d (p_key q) ks hi = true -> asc (q :: map f ks) hi.
Proof.
  intros f. induction ks as [|k ks IH]; intros q hi F A; cbn [ascend map] in *.
  - cbn. split; auto. apply (kltb_klt d TO). exact A.
  - apply andb_true_iff in A. destruct A as [A1 A2]. apply (kltb_klt d TO) in A1. split.
    + cbn [next_key]. rewrite F. exact A1.
    + apply IH; auto. rewrite F. exact A2.
Qed.
Lemma dead_0 : forall m sl p b, p_dead p = length sl -> occ b (live_brs (map (mslot m) sl) p) = 0.
Proof. intros m sl p b H. unfold live_brs. rewrite H, <- (map_length (mslot m)), skipn_all. reflexivity. Qed.
Lemma wsum_dead : forall m sl b l hi e, (forall p, In p l -> p_dead p = length sl) -> wsum b (map (mslot m) sl) l hi e = 0.
Proof. intros m sl b l hi e. induction l as [|p l IH]; intros H; cbn [RefsCount.wsum]; [reflexivity|]. rewrite dead_0, IH by (intros; apply H; cbn; auto). lia. Qed.
Lemma add_pivots_ok : forall p j q c ks, node_ok p -> nth_error (r_pivs p) j = Some q -> child_of d p j c = true ->
  ascend d (p_key q) ks (r_hi c) = true -> (cleared j p = true \/ ks = []) ->
  node_ok (add_pivots j ks p) /\ r_lo (add_pivots j ks p) = r_lo p /\ r_hi (add_pivots j ks p) = r_hi p /\ r_slots (add_pivots j ks p) = r_slots p /\
  (forall m b e, nw m b e (add_pivots j ks p) = nw m b e p).
Proof.
  intros p j q c ks (O1 & O2 & O3) N C A D. destruct (child_split d TO p j q c N C) as (l1 & l2 & E & L & C1 & C2 & SB).
  assert (D' : p_dead q = length (r_slots p) \/ ks = []) by (destruct D as [D|D]; auto; left; unfold cleared in D; rewrite N in D; apply Nat.eqb_eq; exact D).
  clear D.
  unfold add_pivots. rewrite N, SB. rewrite E in *.
  split; [|split; [|split; [|split]]]; cbn [r_hi r_slots]; auto.
  - split; [|split]; cbn [r_pivs r_hi r_slots].
    + destruct l1; discriminate.
    + apply (asc_app d TO) in O2. destruct O2 as [O2 O4]. cbn [next_key] in O2. apply (asc_app d TO). split; [exact O2|].
      apply (asc_app d TO). split; [|apply O4]. rewrite <- C2. apply ascend_asc; auto.
    + intros x I. apply in_app_or in I. destruct I as [I|I]; [apply O3; apply in_or_app; auto|]. apply in_app_or in I. destruct I as [[<-|I]|I].
      * apply O3. apply in_or_app. right. left. auto.
      * apply in_map_iff in I. destruct I as (k & <- & _). cbn. lia.
      * apply O3. apply in_or_app. right. right. auto.
  - unfold r_lo. cbn [r_pivs r_hi]. rewrite E. destruct l1; reflexivity.
  - intros m b e. unfold RefsInv.nw. cbn [r_pivs r_hi r_slots]. rewrite E. destruct D' as [D| ->]; [|reflexivity].
    rewrite !(wsum_app d TO). cbn [RefsCount.wsum next_key p_key app].
    rewrite ?(wsum_app d TO). rewrite (wsum_dead m _ b (map _ ks)).
    2:{ intros x I. apply in_map_iff in I. destruct I as (k & <- & _). reflexivity. }
    rewrite (dead_0 m _ q b) by auto. lia.
Qed.
Lemma put_length : forall lv h i ns, length (put lv h i ns) = length lv.
Proof.
  intros. unfold put. destruct (nth_error lv h); [|reflexivity]. generalize (sub i ns l). intros x. revert h. induction lv; intros [|h]; cbn; auto.
Qed.
Lemma node_at_lt : forall lv h i n, node_at lv h i = Some n -> (h < length lv)%nat.
Proof. intros lv h i n H. unfold node_at in H. apply nth_error_Some. destruct (nth_error lv h); congruence. Qed.

Lemma step_split_index : forall s h i j c m s', Inv s -> split_index d s h i j c m = Some s' -> Inv s'.
Proof.
  intros s h i j c m s' I H. unfold split_index in H. destruct h as [|h0]; [discriminate|]. set (h := S h0) in *. clearbody h.
  destruct (node_at (t_lev s) (S h) i) as [p|] eqn:EP; [|discriminate]. destruct (node_at (t_lev s) h c) as [ch|] eqn:EC; [|discriminate].
  destruct (skipn m (r_pivs ch)) as [|q l] eqn:EQ; [discriminate|]. destruct ((0 <? m)%nat && child_of d p j ch && cleared j p) eqn:CO; [|discriminate].
  apply andb_true_iff in CO. destruct CO as [CO CL]. apply andb_true_iff in CO. destruct CO as [M0 CO]. apply Nat.ltb_lt in M0.
  set (A := RNode (S (t_node s)) (firstn m (r_pivs ch)) (p_key q) (r_slots ch)) in *.
  set (B := RNode (t_node s) (q :: l) (r_hi ch) (r_slots ch)) in *.
  assert (INP : In p (concat (t_lev s))) by (eapply node_at_in; eauto).
  assert (INC : In ch (concat (t_lev s))) by (eapply node_at_in; eauto).
  assert (OP : node_ok p) by (eapply levels_node; eauto; apply I).
  assert (OC : node_ok ch) by (eapply levels_node; eauto; apply I).
  assert (PV : r_pivs ch = firstn m (r_pivs ch) ++ q :: l) by (rewrite <- EQ; symmetry; apply firstn_skipn).
  assert (FN : firstn m (r_pivs ch) <> []). { destruct m; [lia|]. destruct OC as (X & _). destruct (r_pivs ch); [congruence | discriminate]. }
  destruct (nth_error (r_pivs p) j) as [pj|] eqn:EJ; [|unfold cleared in CL; rewrite EJ in CL; discriminate].
  destruct (child_split d TO p j pj ch EJ CO) as (l1 & l2 & E & L & C1 & C2 & SB).
  assert (OA : node_ok A /\ node_ok B /\ r_lo A = r_lo ch).
  { pose proof OC as (X & Y & Z). rewrite PV in Y, Z. apply (asc_app d TO) in Y. destruct Y as [Y1 Y2]. cbn [next_key] in Y1.
    split; [split; [exact FN | split; [exact Y1 | intros x Ix; apply Z; apply in_or_app; auto]]|].
    split; [split; [discriminate | split; [exact Y2 | intros x Ix; apply Z; apply in_or_app; auto]]|].
    unfold r_lo. cbn [A r_pivs r_hi]. clear - FN PV. destruct (firstn m (r_pivs ch)) as [|x y]; [congruence|]. rewrite PV. reflexivity. }
  destruct OA as (OA & OB & LA).
  assert (ASC : ascend d (p_key pj) [p_key q] (r_hi ch) = true).
  { cbn [ascend]. apply andb_true_iff. split; apply (kltb_klt d TO).
    - rewrite <- C1, <- LA. exact (node_lt d TO A OA).
    - exact (node_lt d TO B OB). }
  destruct (add_pivots_ok p j pj ch [p_key q] OP EJ CO ASC (or_introl CL)) as (OK & K1 & K2 & K3 & K4).
  assert (TP : tiled (r_lo p) [add_pivots j [p_key q] p] (r_hi p)) by (apply tiled_one; auto).
  assert (TC : tiled (r_lo ch) [A; B] (r_hi ch)) by (cbn [RefsInv.tiled]; auto 10).
  set (lv1 := put (t_lev s) (S h) i [add_pivots j [p_key q] p]) in *.
  assert (EC1 : node_at lv1 h c = Some ch) by (unfold lv1; rewrite (node_at_put_ne d TO); auto).
  assert (LV1 : levels_ok lv1) by (eapply levels_put; eauto; apply I).
  assert (PJ : forall m b e, pcsj m b e (put lv1 h c [A; B]) = pcsj m b e (t_lev s)).
  { intros m0 b e. rewrite (pcsj_put d TO m0 b e lv1 h c _ ch EC1). unfold lv1. rewrite (pcsj_put d TO m0 b e _ (S h) i _ p EP).
    cbn [RefsInv.nws]. rewrite K4. unfold A, B, RefsInv.nw. cbn [r_slots r_pivs r_hi]. rewrite PV at 1. rewrite (wsum_app d TO). cbn [next_key]. lia. }
  inversion H; subst s'; clear H.
  apply (tree_step d TO s); cbn [t_lev t_jobs t_lost t_job t_led]; auto.
  - exists []. rewrite app_nil_r. reflexivity.
  - eapply levels_put; eauto.
  - intros l0. apply (top_put d TO).
    + intros l3. unfold lv1. apply (top_put d TO); [apply I | right; reflexivity].
    + left. unfold lv1. rewrite put_length. apply node_at_lt in EP. lia.
  - intros h' k Bd. eapply bdry_put; eauto. unfold lv1. eapply bdry_put; eauto.
  - intros x sl IX IS. eapply concat_put_in in IX; eauto. destruct IX as [[<-|[<-|[]]]|IX].
    + apply (slot_lift d TO s); [eapply (i_slots _ _ I ch); eauto | cbn; lia | exists []; cbn; rewrite app_nil_r; reflexivity].
    + apply (slot_lift d TO s); [eapply (i_slots _ _ I ch); eauto | cbn; lia | exists []; cbn; rewrite app_nil_r; reflexivity].
    + unfold lv1 in IX. eapply concat_put_in in IX; eauto. destruct IX as [[<-|[]]|IX].
      * rewrite K3 in IS. apply (slot_lift d TO s); [eapply (i_slots _ _ I p); eauto | cbn; lia | exists []; cbn; rewrite app_nil_r; reflexivity].
      * apply (slot_lift d TO s); [eapply i_slots; eauto | cbn; lia | exists []; cbn; rewrite app_nil_r; reflexivity].
  - intros m0 b e X. rewrite PJ. lia.
  - intros NN. match goal with |- cnt_ok _ ?s2 /\ _ => apply (cert_old d TO s s2 [] []) end; cbn [t_led app]; auto; try apply I.
    + rewrite app_nil_r. reflexivity.
    + intros v [].
    + intros; apply M_nn; auto.
    + intros b lo hi e IB X. split; [intros r []|]. unfold RefsLedger.M. cbn [t_lev t_jobs t_lost RefsCount.delta]. rewrite <- !(pcsj_0 d TO), PJ. lia.
Qed.

Lemma new_leaves_tiled : forall bs ks id lo hi, ascend d lo ks hi = true -> tiled lo (new_leaves id bs lo ks hi) hi.
Proof.
  intros bs. induction ks as [|k ks IH]; intros id lo hi A; cbn [ascend new_leaves] in *.
  - apply (kltb_klt d TO) in A. cbn. repeat split; auto; [discriminate|]. intros p [<-|[]]. cbn. lia.
  - apply andb_true_iff in A. destruct A as [A1 A2]. apply (kltb_klt d TO) in A1. cbn [RefsInv.tiled]. repeat split; auto; [discriminate|].
    intros p [<-|[]]. cbn. lia.
Qed.
Lemma new_leaves_in : forall bs ks id lo hi n, In n (new_leaves id bs lo ks hi) -> r_slots n = [Slot None bs].
Proof.
  intros bs. induction ks as [|k ks IH]; intros id lo hi n [<-|I]; try reflexivity; [destruct I | eapply IH; eauto].
Qed.
Lemma ascend_le : forall ks lo hi, ascend d lo ks hi = true -> klt d lo hi.
Proof.
  induction ks as [|k ks IH]; intros lo hi A; cbn [ascend] in A; [apply (kltb_klt d TO); auto|]. apply andb_true_iff in A. destruct A as [A1 A2].
  apply (kltb_klt d TO) in A1. apply IH in A2. ord TO.
Qed.
Lemma ascend_in : forall ks lo hi k, ascend d lo ks hi = true -> In k ks -> klt d lo k /\ klt d k hi.
Proof.
  induction ks as [|x ks IH]; intros lo hi k A I; [destruct I|]. cbn [ascend] in A. apply andb_true_iff in A. destruct A as [A1 A2].
  apply (kltb_klt d TO) in A1. pose proof (ascend_le _ _ _ A2). destruct I as [<-|I]; [split; auto|]. destruct (IH _ _ _ A2 I). split; ord TO.
Qed.
Lemma new_leaves_nws : forall m b bs ks id lo hi e, ascend d lo ks hi = true -> kle d (fst e) (snd e) ->
  nws m b e (new_leaves id bs lo ks hi) = occ b bs * (zov (lo, hi) e + pts ks e).
Proof.
  intros m b bs. induction ks as [|k ks IH]; intros id lo hi e A E; cbn [ascend new_leaves] in *.
  - cbn [RefsInv.nws RefsCount.pts]. unfold RefsInv.nw. cbn [r_slots r_pivs r_hi RefsCount.wsum map next_key p_key]. unfold live_brs. cbn [p_dead skipn flat_map]. change (mslot m (Slot None bs)) with (Slot None bs).
    cbn [s_brs]. rewrite app_nil_r. lia.
  - apply andb_true_iff in A. destruct A as [A1 A2]. apply (kltb_klt d TO) in A1. pose proof (ascend_le _ _ _ A2) as A3. cbn [RefsInv.nws RefsCount.pts]. rewrite IH by auto.
    unfold RefsInv.nw. cbn [r_slots r_pivs r_hi RefsCount.wsum map next_key p_key]. unfold live_brs. cbn [p_dead skipn flat_map]. change (mslot m (Slot None bs)) with (Slot None bs).
    cbn [s_brs]. rewrite app_nil_r. rewrite !(zov_eq d TO) by (auto; ord TO). lia.
Qed.
Lemma delta_cuts : forall b e bs ks, delta b e (flat_map (fun k => inc_at [k] bs) ks) = occ b bs * pts ks e.
Proof. intros b e bs. induction ks as [|k ks IH]; cbn [flat_map RefsCount.pts]; [cbn; lia|]. rewrite (delta_app d TO), IH, (delta_inc_at d TO). cbn [RefsCount.pts]. lia. Qed.
Lemma pts_nn : forall l e, 0 <= pts l e.
Proof. induction l as [|k l IH]; intros; cbn [RefsCount.pts]; [lia|]. pose proof (zov_01 d TO (k, k) e). specialize (IH e). lia. Qed.

Lemma step_split_leaf : forall s i j c ks s', Inv s -> split_leaf d s i j c ks = Some s' -> Inv s'.
Proof.
  intros s i j c ks s' I H. unfold split_leaf in H.
  destruct (node_at (t_lev s) 1 i) as [p|] eqn:EP; [|discriminate]. destruct (node_at (t_lev s) 0 c) as [ch|] eqn:EC; [|discriminate].
  destruct (r_pivs ch) as [|q [|? ?]] eqn:EQ; try discriminate. destruct (child_of d p j ch && ascend d (p_key q) ks (r_hi ch) && (cleared j p || match ks with [] => true | _ => false end)) eqn:CO; [|discriminate].
  apply andb_true_iff in CO. destruct CO as [CO CL]. apply andb_true_iff in CO. destruct CO as [CO ASC].
  assert (CL' : cleared j p = true \/ ks = []). { apply orb_true_iff in CL. destruct CL; auto. right. destruct ks; auto; discriminate. }
  set (bs := live_brs (r_slots ch) q) in *.
  set (ls := new_leaves (t_node s) bs (p_key q) ks (r_hi ch)) in *.
  assert (INP : In p (concat (t_lev s))) by (eapply node_at_in; eauto).
  assert (INC : In ch (concat (t_lev s))) by (eapply node_at_in; eauto).
  assert (OP : node_ok p) by (eapply levels_node; eauto; apply I).
  assert (OC : node_ok ch) by (eapply levels_node; eauto; apply I).
  assert (LQ : r_lo ch = p_key q) by (unfold r_lo; rewrite EQ; reflexivity).
  destruct (nth_error (r_pivs p) j) as [pj|] eqn:EJ.
  2:{ exfalso. unfold child_of in CO. apply nth_error_None in EJ. rewrite skipn_all2 in CO by auto. discriminate. }
  destruct (child_split d TO p j pj ch EJ CO) as (l1 & l2 & E & L & C1 & C2 & SB).
  assert (ASC' : ascend d (p_key pj) ks (r_hi ch) = true) by (rewrite <- C1, LQ; exact ASC).
  destruct (add_pivots_ok p j pj ch ks OP EJ CO ASC' CL') as (OK & K1 & K2 & K3 & K4).
  assert (TP : tiled (r_lo p) [add_pivots j ks p] (r_hi p)) by (apply tiled_one; auto).
  assert (TC : tiled (r_lo ch) ls (r_hi ch)) by (rewrite LQ; apply new_leaves_tiled; auto).
  set (lv1 := put (t_lev s) 1 i [add_pivots j ks p]) in *.
  assert (EC1 : node_at lv1 0 c = Some ch) by (unfold lv1; rewrite (node_at_put_ne d TO); auto).
  assert (LV1 : levels_ok lv1) by (eapply levels_put; eauto; apply I).
  assert (MB : forall b, In b bs -> made (t_led s) b).
  { intros b IB. apply (live_in_slots d TO) in IB. destruct IB as (sl & S1 & S2). exact (proj2 (i_slots _ _ I ch sl INC S1) b S2). }
  assert (PJ : forall m b e, kle d (fst e) (snd e) -> pcsj m b e (put lv1 0 c ls) =
     pcsj m b e (t_lev s) - occ b (live_brs (map (mslot m) (r_slots ch)) q) * zov (p_key q, r_hi ch) e + occ b bs * (zov (p_key q, r_hi ch) e + pts ks e)).
  { intros m b e X. rewrite (pcsj_put d TO m b e lv1 0%nat c _ ch EC1). unfold lv1. rewrite (pcsj_put d TO m b e _ 1%nat i _ p EP).
    cbn [RefsInv.nws]. rewrite K4. unfold ls. rewrite new_leaves_nws by auto. assert (NC : nw m b e ch = occ b (live_brs (map (mslot m) (r_slots ch)) q) * zov (p_key q, r_hi ch) e).
    { unfold RefsInv.nw. rewrite EQ. cbn [RefsCount.wsum next_key]. lia. }
    rewrite NC. lia. }
  set (incs := flat_map (fun k => inc_at [k] bs) ks) in *.
  assert (II : forall v, In v incs -> exists b k, v = EvInc b (k, k) /\ In b bs /\ In k ks).
  { intros v IV. unfold incs in IV. apply in_flat_map in IV. destruct IV as (k & IK & IV). pose proof (inc_at_inc d TO [k] bs) as FF. rewrite Forall_forall in FF.
    destruct (FF _ IV) as (b & r & ->). apply (inc_at_in d TO) in IV. destruct IV as (B1 & k' & [<-|[]] & ->). eauto. }
  inversion H; subst s'; clear H.
  apply (tree_step d TO s); cbn [t_lev t_jobs t_lost t_job t_led]; auto.
  - eexists. reflexivity.
  - eapply levels_put; eauto.
  - intros l0. apply (top_put d TO).
    + intros l3. unfold lv1. apply (top_put d TO); [apply I | right; reflexivity].
    + left. unfold lv1. rewrite put_length. apply node_at_lt in EP. lia.
  - intros h' k Bd. eapply bdry_put; eauto. unfold lv1. eapply bdry_put; eauto.
  - intros x sl IX IS. eapply concat_put_in in IX; eauto. destruct IX as [IX|IX].
    + apply new_leaves_in in IX. rewrite IX in IS. destruct IS as [<-|[]]. split; cbn; [discriminate|]. intros b IB. apply (made_app d TO); auto.
    + unfold lv1 in IX. eapply concat_put_in in IX; eauto. destruct IX as [[<-|[]]|IX].
      * rewrite K3 in IS. apply (slot_lift d TO s); [eapply (i_slots _ _ I p); eauto | cbn; lia | eexists; reflexivity].
      * apply (slot_lift d TO s); [eapply i_slots; eauto | cbn; lia | eexists; reflexivity].
  - intros m b e X. rewrite PJ by auto. pose proof (mlive_occ d TO m b (r_slots ch) q) as X1. fold bs in X1.
    pose proof (occ_nn d TO b (live_brs (map (mslot m) (r_slots ch)) q)). pose proof (zov_01 d TO (p_key q, r_hi ch) e). pose proof (pts_nn ks e). nia.
  - intros NN. match goal with |- cnt_ok _ ?s2 /\ _ => apply (cert_old d TO s s2 incs []) end; cbn [t_led]; auto; try apply I.
    + rewrite app_nil_r. reflexivity.
    + apply Forall_forall. intros v IV. destruct (II v IV) as (b & k & -> & _). exists b, (k, k). reflexivity.
    + rewrite app_nil_r. intros v IV. destruct (II v IV) as (b & k & -> & IB & _). cbn. auto.
    + intros; apply M_nn; auto.
    + intros b lo hi e IB X. split.
      * intros r IR OV. destruct (II _ IR) as (b' & k & Q & IB2 & IK). inversion Q; subst b' r.
        destruct (ascend_in _ _ _ _ ASC IK) as [A1 A2].
        eapply (covers d TO s ch [] q []); eauto; cbn [next_key]; ord TO.
      * rewrite app_nil_r. unfold incs. rewrite delta_cuts. unfold RefsLedger.M. cbn [t_lev t_jobs t_lost].
        rewrite <- !(pcsj_0 d TO), PJ by apply X.
        assert (Q : map (mslot 0) (r_slots ch) = r_slots ch) by (rewrite <- (map_id (r_slots ch)) at 2; apply map_ext; apply (mslot_0 d TO)).
        rewrite Q. fold bs. lia.
Qed.

Lemma step_grow : forall s s', Inv s -> grow s = Some s' -> Inv s'.
Proof.
  intros s s' I H. unfold grow in H. destruct (t_lev s) as [|l0 lv] eqn:EL; [discriminate|]. rewrite <- EL in H.
  set (r := RNode (t_node s) [Piv KNegInf 0] KPosInf []) in *.
  assert (PJ : forall m b e, pcsj m b e (t_lev s ++ [[r]]) = pcsj m b e (t_lev s)).
  { intros. unfold RefsInv.pcsj, RefsCount.pcs, all_pieces. rewrite map_app, concat_app, flat_map_app, (cnt_app d TO). cbn. unfold live_brs. cbn. lia. }
  inversion H; subst s'; clear H.
  apply (tree_step d TO s); cbn [t_lev t_jobs t_lost t_job t_led]; auto.
  - exists []. rewrite app_nil_r. reflexivity.
  - intros l IL. apply in_app_or in IL. destruct IL as [IL|[<-|[]]]; [apply I; auto|]. cbn. repeat split; auto; [discriminate | ].
    intros p [<-|[]]. cbn. lia.
  - intros l. rewrite app_length. cbn [length]. replace (pred (length (t_lev s) + 1)) with (length (t_lev s)) by lia. rewrite nth_error_app2, Nat.sub_diag by lia. cbn. intros X. inversion X. reflexivity.
  - intros h k [B|(l & n & B1 & B2 & B3)]; [left; auto|]. right. exists l, n. split; auto. rewrite nth_error_app1; auto. apply nth_error_Some. congruence.
  - intros n sl IN IS. rewrite concat_app in IN. apply in_app_or in IN. destruct IN as [IN|IN].
    + apply (slot_lift d TO s); [eapply i_slots; eauto | cbn; lia | exists []; cbn; rewrite app_nil_r; reflexivity].
    + cbn in IN. destruct IN as [<-|[]]. destruct IS.
  - intros. rewrite PJ. lia.
  - intros NN. match goal with |- cnt_ok _ ?s2 /\ _ => apply (cert_old d TO s s2 [] []) end; cbn [t_led app]; auto; try apply I.
    + rewrite app_nil_r. reflexivity.
    + intros v [].
    + intros; apply M_nn; auto.
    + intros b lo hi e IB X. split; [intros ? []|]. unfold RefsLedger.M. cbn [t_lev t_jobs t_lost RefsCount.delta]. rewrite <- !(pcsj_0 d TO), PJ. lia.
Qed.
End Ops2.
