(** * Requests keep the invariant *)
From Coq Require Import List NArith ZArith Arith Bool Lia.
From Verif Require Import Base Spec Search SearchProofs TrunkKeys Refs RefsSpec RefsCount RefsLedger RefsInv RefsFlush RefsSplit.
Import ListNotations.
Local Open Scope Z_scope.
Set Default Proof Using "All".
Section Ops3.
Variable d : data_config.
Variable TO : total_order (key_compare d).
Notation cnt := (cnt d). Notation zov := (zov d). Notation ov := (ov d). Notation up := (up d). Notation dn := (dn d).
Notation wsum := (wsum d). Notation sumov := (sumov d). Notation pts := (pts d). Notation delta := (delta d). Notation sumsel := (sumsel d).
Notation asc := (asc d). Notation pcs := (pcs d). Notation M := (M d). Notation lsum := (lsum d). Notation tlsum := (tlsum d).
Notation jm := (jm d). Notation jsum := (jsum d). Notation nw := (nw d). Notation nws := (nws d). Notation pcsj := (pcsj d).
Notation Inv := (Inv d). Notation node_ok := (node_ok d). Notation levels_ok := (levels_ok d). Notation tiled := (tiled d). Notation job_ok := (job_ok d).

Lemma wsum_mono : forall j b sl l hi e, wsum b (map (mslot j) sl) l hi e <= wsum b sl l hi e.
Proof.
  intros j b sl l hi e. induction l as [|p l IH]; cbn [RefsCount.wsum]; [lia|]. pose proof (mlive_occ d TO j b sl p). pose proof (zov_01 d TO (p_key p, next_key l hi) e). nia.
Qed.
Lemma pcsj_le : forall j b e lv, pcsj j b e lv <= pcs b e lv.
Proof.
  intros j b e lv. unfold RefsInv.pcsj, RefsCount.pcs, all_pieces. rewrite <- concat_map. generalize (concat lv). induction l as [|n l IH]; cbn [map flat_map]; [lia|].
  rewrite !(cnt_app d TO). unfold node_pieces at 1 3. rewrite !(cnt_pieces d TO). cbn [mnode r_slots r_pivs r_hi]. pose proof (wsum_mono j b (r_slots n) (r_pivs n) (r_hi n) e). lia.
Qed.
Lemma live_brs_in : forall sl q x p b, nth_error sl q = Some x -> (p_dead p <= q)%nat -> In b (s_brs x) -> In b (live_brs sl p).
Proof.
  intros sl q x p b N D I. unfold live_brs. apply in_flat_map. exists x. split; auto. rewrite <- (nth_error_skipn d TO _ _ _ _ D) in N. eapply nth_error_In; eauto.
Qed.
Lemma piece_in : forall sl p l1 l2 hi b, In b (live_brs sl p) -> In (b, (p_key p, next_key l2 hi)) (pieces sl (l1 ++ p :: l2) hi).
Proof. intros. rewrite (pieces_app d TO). apply in_or_app. right. cbn [pieces]. apply in_or_app. left. apply in_map_iff. eauto. Qed.

Lemma groups_cover : forall q e hi, kle d (fst e) (snd e) -> forall l start r, asc l hi -> (forall s, start = Some s -> kle d s (next_key l hi)) ->
  In r (groups q start l hi) -> ov r e = true ->
  (exists l1 p l2, l = l1 ++ p :: l2 /\ live_for q p = true /\ ov (p_key p, next_key l2 hi) e = true) \/
  (exists s, start = Some s /\ ov (s, next_key l hi) e = true).
Proof.
  intros q e hi E l. induction l as [|p l IH]; intros start r A ST I O; cbn [groups] in I.
  - destruct start as [s|]; [|contradiction]. destruct I as [<-|[]]. right. exists s. auto.
  - cbn [RefsCount.asc next_key] in *. destruct A as [A1 A2]. destruct (live_for q p) eqn:L.
    + assert (ST' : forall s, Some (match start with Some s => s | None => p_key p end) = Some s -> kle d s (next_key l hi)).
      { intros s Q. inversion Q; subst. destruct start as [s|]; [specialize (ST s eq_refl)|]; ord TO. }
      destruct (IH _ _ A2 ST' I O) as [(l1 & p' & l2 & -> & X & Y)|(s & Q & Y)].
      * left. exists (p :: l1), p', l2. auto.
      * inversion Q; subst s. destruct start as [s|].
        -- unfold RefsCount.ov in Y |- *. cbn [fst snd] in *. apply andb_true_iff in Y. destruct Y as [Y1 Y2]. destruct (kleb d (fst e) (p_key p)) eqn:K.
           ++ right. exists s. split; auto.
           ++ left. exists [], p, l. repeat split; auto. cbn [fst snd]. rewrite Y1. cbn. apply (kleb_kle d TO). apply (kleb_false d TO) in K. ord TO.
        -- left. exists [], p, l. auto.
    + destruct start as [s|].
      * destruct I as [<-|I]; [right; exists s; auto|]. destruct (IH None _ A2 ltac:(discriminate) I O) as [(l1 & p' & l2 & -> & X & Y)|(s' & Q & Y)]; [|discriminate].
        left. exists (p :: l1), p', l2. auto.
      * destruct (IH None _ A2 ltac:(discriminate) I O) as [(l1 & p' & l2 & -> & X & Y)|(s' & Q & Y)]; [|discriminate].
        left. exists (p :: l1), p', l2. auto.
Qed.

Lemma step_enqueue : forall s h c q s', Inv s -> enqueue s h c q = Some s' -> Inv s'.
Proof.
  intros s h c q s' I H. unfold enqueue in H.
  destruct (node_at (t_lev s) h c) as [n|] eqn:EN; [|discriminate]. destruct (nth_error (r_slots n) q) as [[[?|] bs]|] eqn:EQ; try discriminate.
  set (n' := RNode (r_id n) (r_pivs n) (r_hi n) (sub q [Slot (Some (t_job s)) bs] (r_slots n))) in *.
  set (src := flat_map (fun b => map (fun r => (b, r)) (groups q None (r_pivs n) (r_hi n))) bs) in *.
  set (lv := put (t_lev s) h c [n']) in *.
  set (j0 := Job (t_job s) h (r_id n) (r_lo n) (r_hi n) (existsb (live_for q) (r_pivs n)) src Queued) in *.
  assert (IN : In n (concat (t_lev s))) by (eapply node_at_in; eauto).
  assert (ON : node_ok n) by (eapply levels_node; eauto; apply I).
  assert (LS : length (sub q [Slot (Some (t_job s)) bs] (r_slots n)) = length (r_slots n)).
  { generalize (r_slots n). intros l. generalize q. induction l; intros [|q']; cbn; auto. }
  assert (ON' : node_ok n').
  { destruct ON as (X & Y & Z). split; [exact X|split; [exact Y|]]. intros p IP. cbn [n' r_slots r_pivs] in *. rewrite LS. apply Z. exact IP. }
  assert (T : tiled (r_lo n) [n'] (r_hi n)) by (apply tiled_one; auto).
  assert (BD : forall h' k, bdry (t_lev s) h' k -> bdry lv h' k) by (intros h' k; eapply bdry_put; eauto).
  assert (PJ : forall m b e, (m <= t_job s)%nat -> pcsj m b e lv = pcsj m b e (t_lev s)).
  { intros m b e L. unfold lv. rewrite (pcsj_put d TO m b e _ h c _ n EN). cbn [RefsInv.nws]. unfold n', RefsInv.nw. cbn [r_slots r_pivs r_hi].
    rewrite (map_sub d TO). cbn [map].
    rewrite (wsum_sub d TO b e _ q _ (mslot m (Slot None bs))) by (rewrite (nth_error_map' d TO); rewrite EQ; reflexivity).
    replace (mslot m (Slot (Some (t_job s)) bs)) with (Slot (Some (t_job s)) bs).
    2:{ unfold mslot, young. cbn [s_tag]. rewrite (proj2 (Nat.leb_le _ _) L). reflexivity. }
    change (mslot m (Slot None bs)) with (Slot None bs). cbn [s_brs]. lia. }
  assert (MB : forall b, In b bs -> made (t_led s) b).
  { intros b IB. exact (proj2 (i_slots _ _ I n _ IN (nth_error_In _ _ EQ)) b IB). }
  assert (SRC : forall b r, In (b, r) src -> In b bs /\ In r (groups q None (r_pivs n) (r_hi n))).
  { intros b r IX. unfold src in IX. apply in_flat_map in IX. destruct IX as (b' & I1 & I2). apply in_map_iff in I2. destruct I2 as (r' & Q & I2). inversion Q; subst. auto. }
  inversion H; subst s'; clear H.
  match goal with |- Inv ?x => set (s2 := x) end.
  assert (JO : forall j, In j (t_jobs s2) -> job_ok s2 j).
  { cbn [s2 t_jobs]. intros j IJ. apply in_app_or in IJ. destruct IJ as [IJ|[<-|[]]].
    - apply (job_lift d TO s); [apply I; auto | cbn; lia | exists []; cbn; rewrite app_nil_r; auto | exact BD].
    - split; [cbn; lia|]. cbn [j_lo j_hi j_h j_src j_ph j0 t_lev s2 t_led]. split; [apply BD; eapply bdry_lo; eauto|]. split; [apply BD; eapply bdry_hi; eauto; apply I|].
      split; [apply (node_lt d TO); auto|]. split; [|exact Logic.I]. intros b r IX. apply MB. eapply SRC; eauto. }
  assert (NN : forall b e, 0 <= M s2 b e) by (intros; apply (M_nn' d TO); auto; apply I).
  assert (C : cnt_ok d s2 /\ led_ok (t_led s2)).
  { apply (cert_old d TO s s2 [] []); cbn [t_led s2 app]; auto; try apply I.
    - rewrite app_nil_r. reflexivity.
    - intros v [].
    - intros; apply M_nn; auto.
    - intros b lo hi e IB X. split; [intros r []|]. unfold RefsLedger.M. cbn [t_lev t_jobs t_lost s2 RefsCount.delta].
      rewrite <- !(pcsj_0 d TO), PJ by lia. rewrite (jsum_app d TO). cbn [RefsLedger.jsum]. unfold RefsLedger.jm at 1. cbn [j0 j_ph]. lia. }
  constructor; cbn [s2 t_lev t_jobs t_lost t_led]; try apply C; auto; try apply I.
  - eapply levels_put; eauto. apply I.
  - intros l. apply (top_put d TO); [apply I | right; reflexivity].
  - rewrite map_app. cbn [map j_id j0]. apply NoDup_app_remove_r with (l' := []) || idtac.
    assert (X : forall x, In x (map j_id (t_jobs s)) -> (x < t_job s)%nat).
    { intros x IX. apply in_map_iff in IX. destruct IX as (j & <- & IJ). apply (i_jobs _ _ I j IJ). }
    pose proof (i_ids _ _ I) as ND. clear - X ND. induction (map j_id (t_jobs s)) as [|x l IH]; cbn [app]; [constructor; [intros [] | constructor]|].
    inversion ND; subst. constructor; [|apply IH; auto; intros; apply X; right; auto].
    intros IX. apply in_app_or in IX. destruct IX as [IX|[IX|[]]]; [contradiction|]. specialize (X x (or_introl eq_refl)). lia.
  - intros x sl IX IS. eapply concat_put_in in IX; eauto. destruct IX as [[<-|[]]|IX].
    + cbn [r_slots n'] in IS. apply (in_sub d TO) in IS. destruct IS as [[<-|[]]|IS].
      * split; cbn; [intros t Q; inversion Q; lia | auto].
      * apply (slot_lift d TO s); [eapply i_slots; eauto | cbn; lia | exists []; cbn; rewrite app_nil_r; reflexivity].
    + apply (slot_lift d TO s); [eapply i_slots; eauto | cbn; lia | exists []; cbn; rewrite app_nil_r; reflexivity].
  - intros j b r e IJ Q IS E O. cbn [s2 t_jobs t_lev] in *. apply in_app_or in IJ. destruct IJ as [IJ|[<-|[]]].
    + rewrite PJ. { eapply i_cov; eauto. } destruct (i_jobs _ _ I j IJ). lia.
    + cbn [j_src j_id j0] in *. apply SRC in IS. destruct IS as [IB IR]. rewrite PJ by lia.
      destruct ON as (X & Y & Z). destruct (groups_cover q e (r_hi n) E (r_pivs n) None r Y ltac:(discriminate) IR O) as [(l1 & p & l2 & PV & LV & OV)|(? & ? & _)]; [|discriminate].
      unfold RefsInv.pcsj, RefsCount.pcs. apply (cnt_in d TO) with (r := (p_key p, next_key l2 (r_hi n))); auto.
      unfold all_pieces. rewrite <- concat_map. apply in_flat_map. exists (mnode (t_job s) n). split; [apply in_map; auto|].
      unfold node_pieces. cbn [mnode r_slots r_pivs r_hi]. rewrite PV. apply piece_in. apply live_brs_in with (q := q) (x := Slot None bs); auto.
      * rewrite (nth_error_map' d TO). rewrite EQ. reflexivity.
      * apply Nat.leb_le. exact LV.
Qed.

(** *** Steps of requests *)
Lemma jm_q : forall b e j, j_ph j = Queued -> jm b e j = 0.
Proof. intros b e j H. unfold RefsLedger.jm. rewrite H. reflexivity. Qed.
Lemma jm_r : forall b e j, j_ph j = Reading -> jm b e j = cnt b e (j_src j).
Proof. intros b e j H. unfold RefsLedger.jm. rewrite H. reflexivity. Qed.
Lemma jm_wr : forall b e j, jm b e (with_ph j Reading) = cnt b e (j_src j).
Proof. reflexivity. Qed.
Lemma jm_p : forall b e j ob pos reps lost, j_ph j = Placing ob pos reps lost -> jm b e j = occ b (opt ob) * (up pos e + lsum lost e).
Proof. intros b e j ob pos reps lost H. unfold RefsLedger.jm. rewrite H. destruct ob as [b'|]; cbn [opt occ]; [|lia]. destruct (_ =? _)%nat; lia. Qed.
Lemma jm_wp : forall b e j ob pos reps lost, jm b e (with_ph j (Placing ob pos reps lost)) = occ b (opt ob) * (up pos e + lsum lost e).
Proof. intros. apply jm_p with (reps := reps). reflexivity. Qed.
Lemma job_step : forall s s', Inv s -> t_lev s' = t_lev s -> t_job s' = t_job s -> (exists evs, t_led s' = t_led s ++ evs) ->
  NoDup (map j_id (t_jobs s')) -> (forall j, In j (t_jobs s') -> job_ok s' j) -> (forall j, In j (t_jobs s') -> j_ph j = Queued -> In j (t_jobs s)) ->
  (forall p, In p (t_lost s') -> made (t_led s') (fst p) /\ kle d (fst (snd p)) (snd (snd p))) ->
  ((forall b e, 0 <= M s' b e) -> cnt_ok d s' /\ led_ok (t_led s')) -> Inv s'.
Proof.
  intros s s' I EL EJ EV ND JO QU LO CERT. destruct CERT as [C1 C2]; [intros; apply (M_nn' d TO); auto|].
  constructor; auto; rewrite ?EL; try apply I.
  - intros n sl H1 H2. apply (slot_lift d TO s); auto; [eapply i_slots; eauto | lia].
  - intros j b r e H1 H2 H3 H4 H5. rewrite EL. eapply i_cov; eauto.
Qed.
Lemma nodup_mid : forall (a : list job) j c, NoDup (map j_id (a ++ j :: c)) -> NoDup (map j_id (a ++ c)) /\ ~ In (j_id j) (map j_id (a ++ c)).
Proof. intros a j c H. rewrite !map_app in *. cbn [map] in H. split; [eapply NoDup_remove_1; eauto | eapply NoDup_remove_2; eauto]. Qed.
Lemma nodup_ph : forall (a : list job) j ph c, NoDup (map j_id (a ++ j :: c)) -> NoDup (map j_id (a ++ with_ph j ph :: c)).
Proof. intros a j ph c H. rewrite map_app in *. exact H. Qed.
Lemma mid_in : forall A (a : list A) j c x, In x (a ++ c) -> In x (a ++ j :: c).
Proof. intros A a j c x H. apply in_app_or in H. apply in_or_app. destruct H; auto. right. right. auto. Qed.
Lemma mid_cases : forall A (a : list A) j c x, In x (a ++ j :: c) -> x = j \/ In x (a ++ c).
Proof. intros A a j c x H. apply in_app_or in H. destruct H as [H|[H|H]]; auto; right; apply in_or_app; auto. Qed.
Lemma inc_all_inc : forall l, Forall is_inc (inc_all l).
Proof. intros l. apply Forall_forall. intros v I. apply in_map_iff in I. destruct I as (p & <- & _). exists (fst p), (snd p). auto. Qed.
Lemma dec_all_dec : forall l, Forall is_dec (dec_all l).
Proof. intros l. apply Forall_forall. intros v I. apply in_map_iff in I. destruct I as (p & <- & _). exists (fst p), (snd p). auto. Qed.
Lemma inc_all_in : forall l b r, In (EvInc b r) (inc_all l) -> In (b, r) l.
Proof. intros l b r I. apply in_map_iff in I. destruct I as ([b' r'] & Q & I). inversion Q; subst. auto. Qed.
Lemma dec_all_made : forall led l v, (forall b r, In (b, r) l -> made led b) -> In v (dec_all l) -> made led (evb v).
Proof. intros led l v H I. apply in_map_iff in I. destruct I as ([b r] & <- & I). cbn. eauto. Qed.
Lemma inc_all_made : forall led l v, (forall b r, In (b, r) l -> made led b) -> In v (inc_all l) -> made led (evb v).
Proof. intros led l v H I. apply in_map_iff in I. destruct I as ([b r] & <- & I). cbn. eauto. Qed.

Lemma step_start : forall s t s', Inv s -> start s t = Some s' -> Inv s'.
Proof.
  intros s t s' I H. unfold start, find_job in H. destruct (find _ (t_jobs s)) as [j|] eqn:F; [|discriminate].
  destruct (find_split d TO t (t_jobs s) j (i_ids _ _ I) F) as (ID & a & c & EJ & SP & DR).
  destruct (j_ph j) eqn:PH; try discriminate.
  assert (IJ : In j (t_jobs s)) by (rewrite EJ; apply in_or_app; right; left; auto).
  pose proof (i_jobs _ _ I j IJ) as JJ. pose proof (i_ids _ _ I) as ND. rewrite EJ in ND.
  assert (OTH : forall x, In x (a ++ c) -> In x (t_jobs s)) by (intros x IX; rewrite EJ; apply mid_in; auto).
  destruct (j_live j).
  - inversion H; subst s'; clear H. rewrite SP.
    match goal with |- Inv ?x => set (s2 := x) end.
    assert (JO : forall x, In x (t_jobs s) -> job_ok s2 x).
    { intros x IX. apply (job_lift d TO s); [apply I; auto | cbn; lia | eexists; reflexivity | auto]. }
    apply (job_step s); cbn [s2 t_lev t_jobs t_job t_led t_lost]; auto.
    + eexists. reflexivity.
    + apply nodup_ph. auto.
    + intros x IX. apply mid_cases in IX. destruct IX as [->|IX]; [|auto]. destruct (JO j IJ) as (X1 & X2 & X3 & X4 & X5 & _). repeat (split; auto).
    + intros x IX Q. apply mid_cases in IX. destruct IX as [->|IX]; [discriminate | auto].
    + intros p IP. destruct (i_lost _ _ I p IP). split; auto. apply (made_app d TO). auto.
    + intros NN. match goal with |- cnt_ok _ ?x /\ _ => apply (cert_old d TO s x (inc_all (j_src j)) []) end; cbn [s2 t_led]; auto; try apply I.
      * rewrite app_nil_r. reflexivity.
      * apply inc_all_inc.
      * rewrite app_nil_r. intros v IV. revert IV. apply inc_all_made. apply JJ.
      * intros; apply M_nn; auto.
      * intros b lo hi e IB X. split.
        -- intros r IR O. apply inc_all_in in IR. pose proof (i_cov _ _ I j b r e IJ PH IR (proj1 X) O). pose proof (pcsj_le (j_id j) b e (t_lev s)). pose proof (M_pcs d TO s b e I). lia.
        -- rewrite app_nil_r, (delta_inc_all d TO). unfold RefsLedger.M. cbn [s2 t_lev t_jobs t_lost]. rewrite EJ, !(jsum_app d TO). cbn [RefsLedger.jsum].
           rewrite jm_wr, (jm_q b e j PH). lia.
  - inversion H; subst s'; clear H. rewrite DR.
    match goal with |- Inv ?x => set (s2 := x) end.
    assert (JO : forall x, In x (t_jobs s) -> job_ok s2 x).
    { intros x IX. apply (job_lift d TO s); [apply I; auto | cbn; lia | exists []; cbn; rewrite app_nil_r; reflexivity | auto]. }
    apply (job_step s); cbn [s2 t_lev t_jobs t_job t_led t_lost]; auto.
    + exists []. rewrite app_nil_r. reflexivity.
    + eapply nodup_mid; eauto.
    + apply I.
    + intros NN. match goal with |- cnt_ok _ ?x /\ _ => apply (cert_old d TO s x [] []) end; cbn [s2 t_led app]; auto; try apply I.
      * rewrite app_nil_r. reflexivity.
      * intros v [].
      * intros; apply M_nn; auto.
      * intros b lo hi e IB X. split; [intros r []|]. unfold RefsLedger.M. cbn [s2 t_lev t_jobs t_lost RefsCount.delta]. rewrite EJ, !(jsum_app d TO). cbn [RefsLedger.jsum].
        rewrite (jm_q b e j PH). lia.
Qed.

Lemma step_fail : forall s t s', Inv s -> fail s t = Some s' -> Inv s'.
Proof.
  intros s t s' I H. unfold fail, find_job in H. destruct (find _ (t_jobs s)) as [j|] eqn:F; [|discriminate].
  destruct (find_split d TO t (t_jobs s) j (i_ids _ _ I) F) as (ID & a & c & EJ & SP & DR).
  destruct (j_ph j) eqn:PH; try discriminate.
  assert (IJ : In j (t_jobs s)) by (rewrite EJ; apply in_or_app; right; left; auto).
  pose proof (i_jobs _ _ I j IJ) as JJ. pose proof (i_ids _ _ I) as ND. rewrite EJ in ND.
  assert (OTH : forall x, In x (a ++ c) -> In x (t_jobs s)) by (intros x IX; rewrite EJ; apply mid_in; auto).
  inversion H; subst s'; clear H. rewrite DR.
  match goal with |- Inv ?x => set (s2 := x) end.
  assert (JO : forall x, In x (t_jobs s) -> job_ok s2 x).
  { intros x IX. apply (job_lift d TO s); [apply I; auto | cbn; lia | eexists; reflexivity | auto]. }
  apply (job_step s); cbn [s2 t_lev t_jobs t_job t_led t_lost]; auto.
  + eexists. reflexivity.
  + eapply nodup_mid; eauto.
  + intros p IP. destruct (i_lost _ _ I p IP). split; auto. apply (made_app d TO). auto.
  + intros NN. match goal with |- cnt_ok _ ?x /\ _ => apply (cert_old d TO s x [] (dec_all (j_src j))) end; cbn [s2 t_led app]; auto; try apply I.
    * apply dec_all_dec.
    * intros v IV. revert IV. apply dec_all_made. apply JJ.
    * intros; apply M_nn; auto.
    * intros b lo hi e IB X. split; [intros r []|]. rewrite (delta_dec_all d TO). unfold RefsLedger.M. cbn [s2 t_lev t_jobs t_lost RefsCount.delta]. rewrite EJ, !(jsum_app d TO). cbn [RefsLedger.jsum].
      rewrite (jm_r b e j PH). lia.
Qed.

Lemma step_merge : forall s t ob s', Inv s -> merge s t ob = Some s' -> Inv s'.
Proof.
  intros s t ob s' I H. unfold merge, find_job in H. destruct (find _ (t_jobs s)) as [j|] eqn:F; [|discriminate].
  destruct (find_split d TO t (t_jobs s) j (i_ids _ _ I) F) as (ID & a & c & EJ & SP & DR).
  destruct (j_ph j) eqn:PH; try discriminate. cbv zeta in H.
  assert (IJ : In j (t_jobs s)) by (rewrite EJ; apply in_or_app; right; left; auto).
  pose proof (i_jobs _ _ I j IJ) as JJ. pose proof (i_ids _ _ I) as ND. rewrite EJ in ND.
  assert (OTH : forall x, In x (a ++ c) -> In x (t_jobs s)) by (intros x IX; rewrite EJ; apply mid_in; auto).
  assert (H' : exists news, s' = Rst (t_lev s) (a ++ with_ph j (Placing ob (j_lo j) 0 []) :: c) (t_node s) (t_job s) (t_led s ++ news ++ dec_all (j_src j)) (t_lost s) /\
     (ob = None /\ news = [] \/ exists b, ob = Some b /\ ~ made (t_led s) b /\ news = [EvNew b (j_lo j) (j_hi j)])).
  { rewrite SP in H. destruct ob as [b|].
    - destruct (fresh b (t_led s)) eqn:FR; [|discriminate]. apply (fresh_made d TO) in FR. inversion H; subst. exists [EvNew b (j_lo j) (j_hi j)]. split; [reflexivity|]. right. eauto.
    - inversion H; subst. exists []. auto. }
  clear H. destruct H' as (news & -> & NW).
  match goal with |- Inv ?x => set (s2 := x) end.
  assert (JO : forall x, In x (t_jobs s) -> job_ok s2 x).
  { intros x IX. apply (job_lift d TO s); [apply I; auto | cbn; lia | eexists; reflexivity | auto]. }
  apply (job_step s); cbn [s2 t_lev t_jobs t_job t_led t_lost]; auto.
  + eexists. reflexivity.
  + apply nodup_ph. auto.
  + intros x IX. apply mid_cases in IX. destruct IX as [->|IX]; [|auto]. destruct (JO j IJ) as (X1 & X2 & X3 & X4 & X5 & _). cbn [with_ph j_id j_h j_lo j_hi j_src j_ph].
    split; [auto|]. split; [auto|]. split; [auto|]. split; [auto|]. split; [auto|].
    cbn [with_ph j_id j_h j_lo j_hi j_src j_ph]. split; [auto|]. split; [ord TO|]. split; [auto|]. split; [intros r []|]. split; [intros _ e; cbn; lia|]. split; [auto|].
    intros b ->. destruct NW as [[? _]|(b' & Q & _ & ->)]; [discriminate|]. inversion Q; subst. cbn [s2 t_led]. apply in_or_app. right. left. reflexivity.
  + intros x IX Q. apply mid_cases in IX. destruct IX as [->|IX]; [discriminate | auto].
  + intros p IP. destruct (i_lost _ _ I p IP). split; auto. apply (made_app d TO). auto.
  + intros NN. destruct NW as [[-> ->]|(b0 & -> & NM & ->)].
    * match goal with |- cnt_ok _ ?x /\ _ => apply (cert_old d TO s x [] (dec_all (j_src j))) end; cbn [s2 t_led app]; auto; try apply I.
      -- apply dec_all_dec.
      -- intros v IV. revert IV. apply dec_all_made. apply JJ.
      -- intros; apply M_nn; auto.
      -- intros b lo hi e IB X. split; [intros r []|]. rewrite (delta_dec_all d TO). unfold RefsLedger.M. cbn [s2 t_lev t_jobs t_lost]. rewrite EJ, !(jsum_app d TO). cbn [RefsLedger.jsum].
         rewrite jm_wp, (jm_r b e j PH). cbn [opt occ]. lia.
    * match goal with |- cnt_ok _ ?x /\ _ => apply (cert_new d TO s x b0 (j_lo j) (j_hi j) [] (dec_all (j_src j))) end; cbn [s2 t_led app]; auto; try apply I.
      -- apply dec_all_dec.
      -- intros v IV. left. revert IV. apply dec_all_made. apply JJ.
      -- intros v IV Q. apply NM. rewrite <- Q. revert IV. apply dec_all_made. apply JJ.
      -- intros; apply M_nn; auto.
      -- intros b lo hi e IB X. split; [intros r []|]. assert (b0 <> b) by (intros ->; apply NM; exists lo, hi; auto).
         rewrite (delta_dec_all d TO). unfold RefsLedger.M. cbn [s2 t_lev t_jobs t_lost]. rewrite EJ, !(jsum_app d TO). cbn [RefsLedger.jsum].
         rewrite jm_wp, (jm_r b e j PH). cbn [opt occ]. destruct (Nat.eqb_spec b0 b); [contradiction|]. lia.
      -- intros e (X1 & X2 & X3). pose proof (M_unmade d TO s b0 e I NM) as Z0. pose proof (M_jm d TO s b0 e j I IJ) as Z1. pose proof (jm_nn d TO s j b0 e JJ) as Z2.
         unfold RefsLedger.M in *. cbn [s2 t_lev t_jobs t_lost RefsCount.delta]. rewrite EJ, !(jsum_app d TO) in *. cbn [RefsLedger.jsum] in *.
         assert (Z3 : jm b0 e (with_ph j (Placing (Some b0) (j_lo j) 0 [])) = 1).
         { unfold RefsLedger.jm. cbn [with_ph j_ph]. rewrite Nat.eqb_refl. unfold RefsCount.up. rewrite (proj2 (kleb_kle d TO _ _) X3). reflexivity. }
         rewrite Z3. lia.
Qed.

Lemma step_destroy : forall s s', Inv s -> destroy s = Some s' -> Inv s'.
Proof.
  intros s s' I H. unfold destroy in H. destruct (t_jobs s) eqn:EJ; [|discriminate]. inversion H; subst s'; clear H.
  match goal with |- Inv ?x => set (s2 := x) end.
  assert (LO : forall p, In p (t_lost s2) -> made (t_led s2) (fst p) /\ kle d (fst (snd p)) (snd (snd p))).
  { intros p IP. destruct (i_lost _ _ I p IP). split; auto. apply (made_app d TO). auto. }
  assert (NN : forall b e, 0 <= M s2 b e) by (intros; apply (M_nn' d TO); auto; intros j []).
  assert (C : cnt_ok d s2 /\ led_ok (t_led s2)).
  { apply (cert_old d TO s s2 [] (dec_all (all_pieces (t_lev s)))); cbn [s2 t_led app]; auto; try apply I.
    - apply dec_all_dec.
    - intros v IV. revert IV. apply dec_all_made. intros b r IX. unfold all_pieces in IX. apply in_flat_map in IX. destruct IX as (n & I1 & I2).
      apply (pieces_in d TO) in I2. destruct I2 as (sl & I2 & I3). exact (proj2 (i_slots _ _ I n sl I1 I2) _ I3).
    - intros; apply M_nn; auto.
    - intros b lo hi e IB X. split; [intros r []|]. rewrite (delta_dec_all d TO). unfold RefsLedger.M, RefsCount.pcs. cbn [s2 t_lev t_jobs t_lost]. rewrite EJ. cbn. lia. }
  constructor; cbn [s2 t_lev t_jobs]; try apply C; auto.
  - intros l [].
  - cbn. discriminate.
  - constructor.
  - intros n sl [].
  - intros j [].
  - intros j b r e [].
Qed.
End Ops3.
