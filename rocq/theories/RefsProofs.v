(** * Every reachable state satisfies the invariant; what follows from it *)
From Coq Require Import List NArith ZArith Arith Bool Lia.
From Verif Require Import Base Spec Search SearchProofs TrunkKeys Refs RefsSpec RefsCount RefsLedger RefsInv RefsFlush RefsSplit RefsJobs.
Import ListNotations.
Local Open Scope Z_scope.
Set Default Proof Using "All".
Section Ops4.
Variable d : data_config.
Variable TO : total_order (key_compare d).
Notation cnt := (cnt d). Notation zov := (zov d). Notation ov := (ov d). Notation up := (up d). Notation dn := (dn d).
Notation wsum := (wsum d). Notation sumov := (sumov d). Notation pts := (pts d). Notation delta := (delta d). Notation sumsel := (sumsel d).
Notation asc := (asc d). Notation pcs := (pcs d). Notation M := (M d). Notation lsum := (lsum d). Notation tlsum := (tlsum d).
Notation jm := (jm d). Notation jsum := (jsum d). Notation nw := (nw d). Notation nws := (nws d). Notation pcsj := (pcsj d).
Notation Inv := (Inv d). Notation node_ok := (node_ok d). Notation levels_ok := (levels_ok d). Notation tiled := (tiled d). Notation job_ok := (job_ok d).

Lemma find_slot_ok : forall t l q, find_slot t l = Some q -> exists sl, nth_error l q = Some sl /\ s_tag sl = Some t.
Proof.
  intros t. induction l as [|x l IH]; intros q H; cbn [find_slot] in H; [discriminate|].
  destruct (s_tag x) as [t'|] eqn:T.
  - destruct (Nat.eqb_spec t' t) as [E|E].
    + inversion H; subst. exists x. auto.
    + destruct (find_slot t l) as [q'|]; [|discriminate]. inversion H; subst. cbn. apply IH. reflexivity.
  - destruct (find_slot t l) as [q'|]; [|discriminate]. inversion H; subst. cbn. apply IH. reflexivity.
Qed.
Lemma zov_everything : forall e, zov everything e = 1.
Proof.
  intros e. unfold RefsCount.zov, RefsCount.ov, everything. cbn [fst snd].
  rewrite (proj2 (kleb_kle d TO _ _) (kle_pos_inf d (fst e))), (proj2 (kleb_kle d TO _ _) (kle_neg_inf d (snd e))). reflexivity.
Qed.
Lemma occ_opt : forall b ob, (ob = Some b /\ occ b (opt ob) = 1) \/ (ob <> Some b /\ occ b (opt ob) = 0).
Proof. intros b [b'|]; cbn [opt occ]; [|right; split; [discriminate|lia]]. destruct (Nat.eqb_spec b' b); [left; subst; split; auto; lia | right; split; [congruence | lia]]. Qed.
Lemma opt_in : forall A (o : option A) x, In x (opt o) -> o = Some x.
Proof. intros A [y|] x H; [destruct H as [<-|[]]; reflexivity | destruct H]. Qed.
Lemma tlsum_opt : forall b e ob l, tlsum b e (flat_map (fun b => map (fun r => (b, r)) l) (opt ob)) = occ b (opt ob) * lsum l e.
Proof. intros b e [b'|] l; cbn [opt flat_map occ RefsLedger.tlsum]; [|lia]. rewrite app_nil_r, (tlsum_map d TO). destruct (_ =? _)%nat; lia. Qed.
Lemma dec_opt : forall b e r ob, cnt b e (map (fun b => (b, r)) (opt ob)) = occ b (opt ob) * zov r e.
Proof. intros. apply (cnt_map d TO). Qed.
Lemma decs_dec : forall rs bs, Forall is_dec (flat_map (fun b => map (fun r => EvDec b r) rs) bs).
Proof. intros. apply Forall_forall. intros v I. apply in_flat_map in I. destruct I as (b & _ & I). apply in_map_iff in I. destruct I as (r & <- & _). exists b, r. auto. Qed.
Lemma decs_made : forall led rs bs v, (forall b, In b bs -> made led b) -> In v (flat_map (fun b => map (fun r => EvDec b r) rs) bs) -> made led (evb v).
Proof. intros led rs bs v H I. apply in_flat_map in I. destruct I as (b & IB & I). apply in_map_iff in I. destruct I as (r & <- & _). cbn. auto. Qed.

Lemma kle_eq : forall a b, kle d a b -> kle d b a -> a = b.
Proof.
  intros a b H1 H2. apply (to_eq _ (data_key_compare_total d TO)). pose proof (to_antisym _ (data_key_compare_total d TO) b a) as A. pose proof (to_antisym _ (data_key_compare_total d TO) a b). unfold kle in *. lia.
Qed.
Lemma place_step : forall s s' h c n q sl t ob, Inv s -> node_at (t_lev s) h c = Some n -> nth_error (r_slots n) q = Some sl -> s_tag sl = Some t ->
  (t < t_job s)%nat -> (forall b, In b (opt ob) -> made (t_led s) b) ->
  t_lev s' = put (t_lev s) h c [RNode (r_id n) (r_pivs n) (r_hi n) (sub q [Slot (Some t) (opt ob)] (r_slots n))] ->
  t_job s' = t_job s -> (exists evs, t_led s' = t_led s ++ evs) ->
  NoDup (map j_id (t_jobs s')) ->
  ((forall h k, bdry (t_lev s) h k -> bdry (t_lev s') h k) -> forall j, In j (t_jobs s') -> job_ok s' j) ->
  (forall j, In j (t_jobs s') -> j_ph j = Queued -> In j (t_jobs s) /\ (t < j_id j)%nat) ->
  (forall p, In p (t_lost s') -> made (t_led s') (fst p) /\ kle d (fst (snd p)) (snd (snd p))) ->
  ((forall b e, 0 <= M s' b e) -> (forall b e, pcs b e (t_lev s') = pcs b e (t_lev s) + (occ b (opt ob) - occ b (s_brs sl)) * sumsel (live_for q) (r_pivs n) (r_hi n) e) ->
   cnt_ok d s' /\ led_ok (t_led s')) -> Inv s'.
Proof.
  intros s s' h c n q sl t ob I EN NQ TG TL OBM EL EJ EV ND JO QU LO CERT.
  set (n' := RNode (r_id n) (r_pivs n) (r_hi n) (sub q [Slot (Some t) (opt ob)] (r_slots n))) in *.
  assert (IN : In n (concat (t_lev s))) by (eapply node_at_in; eauto).
  assert (ON : node_ok n) by (eapply levels_node; eauto; apply I).
  assert (LS : length (sub q [Slot (Some t) (opt ob)] (r_slots n)) = length (r_slots n)).
  { generalize (r_slots n). intros l. generalize q. induction l; intros [|q']; cbn; auto. }
  assert (ON' : node_ok n').
  { destruct ON as (X & Y & Z). split; [exact X|split; [exact Y|]]. intros p IP. cbn [n' r_slots r_pivs] in *. rewrite LS. apply Z. exact IP. }
  assert (T : tiled (r_lo n) [n'] (r_hi n)) by (apply tiled_one; auto).
  assert (BD : forall h' k, bdry (t_lev s) h' k -> bdry (t_lev s') h' k) by (intros h' k; rewrite EL; eapply bdry_put; eauto).
  assert (PJ : forall m b e, pcsj m b e (t_lev s') = pcsj m b e (t_lev s) + (if (m <=? t)%nat then occ b (opt ob) - occ b (s_brs sl) else 0) * sumsel (live_for q) (r_pivs n) (r_hi n) e).
  { intros m b e. rewrite EL, (pcsj_put d TO m b e _ h c _ n EN). cbn [RefsInv.nws]. unfold n', RefsInv.nw. cbn [r_slots r_pivs r_hi].
    rewrite (map_sub d TO). cbn [map]. rewrite (wsum_sub d TO b e _ q _ (mslot m sl)) by (rewrite (nth_error_map' d TO), NQ; reflexivity).
    unfold mslot, young. cbn [s_tag]. rewrite TG. destruct (m <=? t)%nat; cbn [s_brs]; lia. }
  specialize (JO BD).
  destruct CERT as [C1 C2]; [intros; apply (M_nn' d TO); auto | intros; rewrite <- !(pcsj_0 d TO), PJ; reflexivity |].
  constructor; auto.
  - rewrite EL. eapply levels_put; eauto. apply I.
  - intros l. rewrite EL. apply (top_put d TO); [apply I | right; reflexivity].
  - intros x sl' IX IS. rewrite EL in IX. eapply concat_put_in in IX; eauto. destruct IX as [[<-|[]]|IX].
    + cbn [r_slots n'] in IS. apply (in_sub d TO) in IS. destruct IS as [[<-|[]]|IS].
      * split; cbn [s_tag s_brs]; [intros t' Q; inversion Q; lia | intros b IB; destruct EV as (evs & ->); apply (made_app d TO); auto].
      * apply (slot_lift d TO s); [eapply i_slots; eauto | lia | auto].
    + apply (slot_lift d TO s); [eapply i_slots; eauto | lia | auto].
  - intros j b r e IJ Q IS E O. destruct (QU j IJ Q) as [IJ' LT]. rewrite PJ. destruct (Nat.leb_spec (j_id j) t); [lia|].
    pose proof (i_cov _ _ I j b r e IJ' Q IS E O). lia.
Qed.

Lemma cut_count : forall n q e, node_ok n -> kle d (fst e) (snd e) ->
  sumsel (live_for q) (r_pivs n) (r_hi n) e + sumsel (fun p => negb (live_for q p)) (r_pivs n) (r_hi n) e =
  up (r_lo n) e + dn (r_hi n) e - 1 + pts (map p_key (tl (r_pivs n))) e.
Proof.
  intros n q e ON E. rewrite (sumsel_neg d TO). pose proof (node_lt d TO n ON). destruct ON as (X & Y & _). rewrite (sumov_eq d TO) by auto.
  rewrite (zov_eq d TO) by (auto; fold (r_lo n); ord TO). reflexivity.
Qed.

Lemma step_replace : forall s t c s', Inv s -> overtakes s (OReplace t c) = false -> replace d s t c = Some s' -> Inv s'.
Proof.
  intros s t c0 s' I OVT H. unfold replace, find_job in H. destruct (find _ (t_jobs s)) as [j|] eqn:F; [|discriminate].
  destruct (find_split d TO t (t_jobs s) j (i_ids _ _ I) F) as (ID & a & c & EJ & SP & DR).
  destruct (j_ph j) as [| |ob pos reps lost] eqn:PH; try discriminate.
  destruct (node_at (t_lev s) (j_h j) c0) as [n|] eqn:EN; [|discriminate].
  destruct (kltb d pos (r_lo n) || negb (kltb d pos (r_hi n))) eqn:POS; [discriminate|].
  apply orb_false_iff in POS. destruct POS as [P1 P2]. apply negb_false_iff in P2. apply (kltb_false d TO) in P1. apply (kltb_klt d TO) in P2.
  assert (IJ : In j (t_jobs s)) by (rewrite EJ; apply in_or_app; right; left; auto).
  pose proof (i_jobs _ _ I j IJ) as JJ. pose proof (i_ids _ _ I) as ND. rewrite EJ in ND.
  assert (OTH : forall x, In x (a ++ c) -> In x (t_jobs s)) by (intros x IX; rewrite EJ; apply (mid_in d TO); auto).
  pose proof JJ as (J1 & J2 & J3 & J4 & J5 & J6). rewrite PH in J6. destruct J6 as (B1 & B2 & B3 & B4 & B5 & B6 & B7).
  assert (IN : In n (concat (t_lev s))) by (eapply node_at_in; eauto).
  assert (ON : node_ok n) by (eapply levels_node; eauto; apply I).
  assert (EPOS : pos = r_lo n) by (eapply bdry_inside; eauto; apply I).
  assert (HIJ : kle d (r_hi n) (j_hi j)).
  { destruct (kltb d (j_hi j) (r_hi n)) eqn:K; [|apply (kltb_false d TO); auto]. apply (kltb_klt d TO) in K. exfalso.
    assert (j_hi j = r_lo n) by (eapply bdry_inside; eauto; [apply I | ord TO]). rewrite H0, <- EPOS in B3. ord TO. }
  assert (NLT : klt d (r_lo n) (r_hi n)) by (apply (node_lt d TO); auto).
  assert (OBM : forall b, In b (opt ob) -> made (t_led s) b).
  { intros b IB. apply opt_in in IB. exists (j_lo j), (j_hi j). auto. }
  assert (UQ : forall b lo hi, ob = Some b -> In (EvNew b lo hi) (t_led s) -> lo = j_lo j /\ hi = j_hi j).
  { intros b lo hi Q X. eapply (proj2 (i_led _ _ I)); eauto. }
  assert (JM : forall b e, jm b e j = occ b (opt ob) * (up pos e + lsum lost e)) by (intros; eapply jm_p; eauto).
  (* the whole branch is dropped *)
  assert (WHOLE : (forall e, ext d (j_lo j) (j_hi j) e -> up pos e + lsum lost e = 1) ->
     Inv (Rst (t_lev s) (a ++ c) (t_node s) (t_job s) (t_led s ++ dec_all (map (fun b => (b, everything)) (opt ob))) (t_lost s))).
  { intros W. match goal with |- Inv ?x => set (s2 := x) end.
    apply (job_step d TO s); cbn [s2 t_lev t_jobs t_job t_led t_lost]; auto.
    - eexists. reflexivity.
    - eapply nodup_mid; eauto.
    - intros x IX. apply (job_lift d TO s); [apply I; auto | cbn; lia | eexists; reflexivity | auto].
    - intros p IP. destruct (i_lost _ _ I p IP). split; auto. apply (made_app d TO). auto.
    - intros NN. match goal with |- cnt_ok _ ?x /\ _ => apply (cert_old d TO s x [] (dec_all (map (fun b => (b, everything)) (opt ob)))) end; cbn [s2 t_led app]; auto; try apply I.
      + apply (dec_all_dec d TO).
      + intros v IV. revert IV. apply (dec_all_made d TO). intros b r IX. apply in_map_iff in IX. destruct IX as (b' & Q & IB). inversion Q; subst. auto.
      + intros; apply M_nn; auto.
      + intros b lo hi e IB X. split; [intros r []|]. rewrite (delta_dec_all d TO), dec_opt, zov_everything. unfold RefsLedger.M. cbn [s2 t_lev t_jobs t_lost].
        rewrite EJ, !(jsum_app d TO). cbn [RefsLedger.jsum]. rewrite JM. destruct (occ_opt b ob) as [[Q ->]|[_ ->]]; [|lia].
        destruct (UQ b lo hi Q IB) as [-> ->]. rewrite W by auto. lia. }
  assert (QU : forall x, In x (a ++ c) -> j_ph x = Queued -> In x (t_jobs s) /\ (t < j_id x)%nat).
  { intros x IX Q. split; auto. destruct (Nat.lt_trichotomy (j_id x) t) as [L|[L|L]]; auto; exfalso.
    - cbn [overtakes] in OVT. assert (X : existsb (fun j => (j_id j <? t)%nat && queued j) (t_jobs s) = true); [|congruence].
      apply existsb_exists. exists x. split; auto. unfold queued. rewrite Q, (proj2 (Nat.ltb_lt _ _) L). reflexivity.
    - apply (nodup_mid d TO) in ND. apply (proj2 ND). rewrite ID, <- L. apply in_map. auto. }
  assert (FS : forall q, slot_live t n = Some q -> exists sl, nth_error (r_slots n) q = Some sl /\ s_tag sl = Some t).
  { intros q SL. unfold slot_live in SL. destruct (find_slot t (r_slots n)) as [q'|] eqn:FF; [|discriminate]. destruct (existsb _ _); [|discriminate].
    inversion SL; subst. apply find_slot_ok. auto. }
  assert (INCM : forall b r e, In (EvInc b r) (inc_at (map p_key (tl (r_pivs n)) ++ [r_hi n]) (opt ob)) -> ov r e = true -> 1 <= M s b e).
  { intros b r e IR O. apply (inc_at_in d TO) in IR. destruct IR as [IB (k & IK & ->)]. pose proof (M_jm d TO s b e j I IJ) as Z1. rewrite JM in Z1.
    apply opt_in in IB. destruct (occ_opt b ob) as [[_ Q]|[Q _]]; [|contradiction]. rewrite Q in Z1. pose proof (lsum_nn d TO e lost B4).
    assert (LK : kle d (r_lo n) k).
    { apply in_app_or in IK. destruct IK as [IK|[<-|[]]]; [|ord TO]. apply in_map_iff in IK. destruct IK as (pp & <- & IK). destruct ON as (X & Y & _).
      eapply asc_in; eauto. destruct (r_pivs n); [contradiction | right; exact IK]. }
    assert (up pos e = 1).
    { unfold RefsCount.up. rewrite EPOS. unfold RefsCount.ov in O. apply andb_true_iff in O. destruct O as [_ O]. cbn [fst snd] in O. apply (kleb_kle d TO) in O.
      rewrite (proj2 (kleb_kle d TO (r_lo n) (snd e))); [reflexivity|]. ord TO. }
    lia. }
  assert (BDHI : bdry (t_lev s) (j_h j) (r_hi n)) by (eapply bdry_hi; eauto; apply I).
  destruct ((j_h j =? 0)%nat && negb (r_id n =? j_node j)%nat) eqn:LEAF.
  { inversion H; subst s'; clear H. rewrite DR. apply WHOLE. intros e (_ & _ & X). apply andb_true_iff in LEAF. destruct LEAF as [L0 _]. apply Nat.eqb_eq in L0.
    destruct (B6 L0) as [-> ->]. unfold RefsCount.up. rewrite (proj2 (kleb_kle d TO _ _) X). reflexivity. }
  cbv zeta in H. destruct (kltb d (r_hi n) (j_hi j)) eqn:CONT.
  all: destruct ((j_h j =? 0)%nat && _) eqn:L0 in H; [discriminate|].
  all: destruct (slot_live t n) as [q|] eqn:SL.
  - (* a node where the bundle is live, more to come *)
    destruct (FS q eq_refl) as (sl & NQ & TG). rewrite NQ in H. apply (kltb_klt d TO) in CONT.
    assert (HZ : j_h j <> 0%nat) by (intros HZ; rewrite HZ in L0; discriminate).
    inversion H; subst s'; clear H. rewrite SP. match goal with |- Inv ?x => set (s2 := x) end.
    apply (place_step s s2 (j_h j) c0 n q sl t ob); cbn [s2 t_jobs t_led t_lost t_job]; auto; [lia | eexists; reflexivity | apply (nodup_ph d TO); auto | | | | ].
    + intros BD x IX. apply (mid_cases d TO) in IX.
      assert (JO : forall x, In x (t_jobs s) -> job_ok s2 x) by (intros; apply (job_lift d TO s); [apply I; auto | cbn; lia | eexists; reflexivity | auto]).
      destruct IX as [->|IX]; [|auto]. destruct (JO j IJ) as (Y1 & Y2 & Y3 & Y4 & Y5 & Y6). rewrite PH in Y6. destruct Y6 as (_ & _ & _ & _ & _ & _ & Y7).
      split; [auto|]. split; [auto|]. split; [auto|]. split; [auto|]. split; [auto|].
      cbn [with_ph j_id j_h j_lo j_hi j_src j_ph]. split; [auto|]. split; [ord TO|]. split; [auto|]. split; [auto|].
      split; [intros; discriminate|]. split; [intros; contradiction|]. auto.
    + intros x IX Q. apply (mid_cases d TO) in IX. destruct IX as [->|IX]; [discriminate | auto].
    + intros p IP. destruct (i_lost _ _ I p IP). split; auto. apply (made_app d TO). auto.
    + intros NN PC. match goal with |- context [(t_led s ++ ?x ++ ?y ++ ?z)] => set (incs := x) in *; set (slice := y) in *; set (gc := z) in * end.
      apply (cert_old d TO s s2 incs (slice ++ gc)); auto; try apply I.
      * apply (inc_at_inc d TO).
      * apply Forall_app. split; apply decs_dec.
      * intros v IV. apply in_app_or in IV. destruct IV as [IV|IV]; [eapply inc_at_made; eauto|]. apply in_app_or in IV. destruct IV as [IV|IV]; [eapply decs_made; eauto|].
        eapply decs_made; [|exact IV]. intros b IB. exact (proj2 (i_slots _ _ I n _ IN (nth_error_In _ _ NQ)) b IB).
      * intros; apply M_nn; auto.
      * intros b lo hi e IB X. split; [intros r IR O; eapply INCM; eauto|].
        rewrite !(delta_app d TO). unfold incs, slice, gc. rewrite (delta_inc_at d TO), !(delta_dec_ranges d TO), !(sumsel_ranges d TO), (pts_app d TO). cbn [RefsCount.pts].
        unfold RefsLedger.M. rewrite PC. cbn [s2 t_jobs t_lost]. rewrite EJ, !(jsum_app d TO). cbn [RefsLedger.jsum]. rewrite JM, (jm_wp d TO), EPOS.
        pose proof (cut_count n q e ON (proj1 X)) as CC. rewrite (zov_eq d TO (r_hi n)) by (try apply X; ord TO). nia.
  - destruct (j_h j =? 0)%nat eqn:HZ; [discriminate|]. apply Nat.eqb_neq in HZ. apply (kltb_klt d TO) in CONT.
    inversion H; subst s'; clear H. rewrite SP. match goal with |- Inv ?x => set (s2 := x) end.
    assert (JO : forall x, In x (t_jobs s) -> job_ok s2 x).
    { intros x IX. apply (job_lift d TO s); [apply I; auto | cbn; lia | exists []; cbn; rewrite app_nil_r; reflexivity | auto]. }
    apply (job_step d TO s); cbn [s2 t_lev t_jobs t_job t_led t_lost]; auto; try apply I.
    + exists []. rewrite app_nil_r. reflexivity.
    + apply (nodup_ph d TO). auto.
    + intros x IX. apply (mid_cases d TO) in IX. destruct IX as [->|IX]; [|auto].
      split; [auto|]. split; [auto|]. split; [auto|]. split; [auto|]. split; [auto|].
      cbn [with_ph j_id j_h j_lo j_hi j_src j_ph]. split; [auto|]. split; [ord TO|]. split; [auto|]. split.
      { intros r IR. apply in_app_or in IR. destruct IR as [IR|[<-|[]]]; auto. cbn. ord TO. }
      split; [intros R e; rewrite (lsum_app d TO), (B5 R e), EPOS; cbn; lia|]. split; [intros; contradiction|]. auto.
    + intros x IX Q. apply (mid_cases d TO) in IX. destruct IX as [->|IX]; [discriminate | auto].
    + intros NN. match goal with |- cnt_ok _ ?x /\ _ => apply (cert_old d TO s x [] []) end; cbn [s2 t_led app]; auto; try apply I.
      * rewrite app_nil_r. reflexivity.
      * intros v [].
      * intros; apply M_nn; auto.
      * intros b lo hi e IB X. split; [intros r []|]. unfold RefsLedger.M. cbn [s2 t_lev t_jobs t_lost RefsCount.delta].
        rewrite EJ, !(jsum_app d TO). cbn [RefsLedger.jsum]. rewrite JM, (jm_wp d TO), (lsum_app d TO). cbn [RefsLedger.lsum fst snd]. rewrite EPOS. lia.
  - (* the last node *)
    destruct (FS q eq_refl) as (sl & NQ & TG). rewrite NQ in H. apply (kltb_false d TO) in CONT.
    assert (EHI : r_hi n = j_hi j) by (apply kle_eq; auto).
    inversion H; subst s'; clear H. rewrite DR. match goal with |- Inv ?x => set (s2 := x) end.
    apply (place_step s s2 (j_h j) c0 n q sl t ob); cbn [s2 t_jobs t_led t_lost t_job]; auto; [lia | eexists; reflexivity | eapply nodup_mid; eauto | | | ].
    + intros BD x IX. apply (job_lift d TO s); [apply I; auto | cbn; lia | eexists; reflexivity | auto].
    + intros p IP. apply in_app_or in IP. destruct IP as [IP|IP].
      * destruct (i_lost _ _ I p IP). split; auto. apply (made_app d TO). auto.
      * apply in_flat_map in IP. destruct IP as (b & IB & IP). apply in_map_iff in IP. destruct IP as (r & <- & IR). cbn [fst snd]. split; [apply (made_app d TO); auto | auto].
    + intros NN PC. match goal with |- context [(t_led s ++ ?x ++ ?y ++ ?w ++ ?z)] => set (incs := x) in *; set (slice := y) in *; set (pt := w) in *; set (gc := z) in * end.
      apply (cert_old d TO s s2 incs (slice ++ pt ++ gc)); auto; try apply I.
      * apply (inc_at_inc d TO).
      * apply Forall_app. split; [apply decs_dec|]. apply Forall_app. split; [|apply decs_dec]. apply Forall_forall. intros v IV. apply in_map_iff in IV. destruct IV as (b & <- & _). exists b, (r_hi n, r_hi n). auto.
      * intros v IV. apply in_app_or in IV. destruct IV as [IV|IV]; [eapply inc_at_made; eauto|]. apply in_app_or in IV. destruct IV as [IV|IV]; [eapply decs_made; eauto|].
        apply in_app_or in IV. destruct IV as [IV|IV]; [apply in_map_iff in IV; destruct IV as (b & <- & IB); cbn; auto|].
        eapply decs_made; [|exact IV]. intros b IB. exact (proj2 (i_slots _ _ I n _ IN (nth_error_In _ _ NQ)) b IB).
      * intros; apply M_nn; auto.
      * intros b lo hi e IB X. split; [intros r IR O; eapply INCM; eauto|].
        rewrite !(delta_app d TO). unfold incs, slice, gc, pt. rewrite (delta_inc_at d TO), !(delta_dec_ranges d TO), !(sumsel_ranges d TO), (pts_app d TO), (delta_dec_pts d TO). cbn [RefsCount.pts].
        unfold RefsLedger.M. rewrite PC. cbn [s2 t_jobs t_lost]. rewrite EJ, !(jsum_app d TO), (tlsum_app d TO), tlsum_opt. cbn [RefsLedger.jsum]. rewrite JM, EPOS.
        pose proof (cut_count n q e ON (proj1 X)) as CC.
        assert (DN : ob = Some b -> dn (r_hi n) e = 1).
        { intros Q. destruct (UQ b lo hi Q IB) as [-> ->]. unfold RefsCount.dn. rewrite EHI. destruct X as (_ & X & _). rewrite (proj2 (kleb_kle d TO _ _) X). reflexivity. }
        destruct (occ_opt b ob) as [[Q ->]|[_ ->]]; [specialize (DN Q)|]; nia.
  - destruct (j_h j =? 0)%nat eqn:HZ; [discriminate|]. apply (kltb_false d TO) in CONT.
    assert (EHI : r_hi n = j_hi j) by (apply kle_eq; auto).
    destruct (reps =? 0)%nat eqn:RZ.
    { apply Nat.eqb_eq in RZ. inversion H; subst s'; clear H. rewrite DR. apply WHOLE. intros e (_ & _ & X). rewrite (B5 RZ e). unfold RefsCount.up at 2.
      rewrite (proj2 (kleb_kle d TO _ _) X). lia. }
    inversion H; subst s'; clear H. rewrite DR. match goal with |- Inv ?x => set (s2 := x) end.
    apply (job_step d TO s); cbn [s2 t_lev t_jobs t_job t_led t_lost]; auto.
    + eexists. reflexivity.
    + eapply nodup_mid; eauto.
    + intros x IX. apply (job_lift d TO s); [apply I; auto | cbn; lia | eexists; reflexivity | auto].
    + intros p IP. apply in_app_or in IP. destruct IP as [IP|IP].
      * destruct (i_lost _ _ I p IP). split; auto. apply (made_app d TO). auto.
      * apply in_flat_map in IP. destruct IP as (b & IB & IP). apply in_map_iff in IP. destruct IP as (r & <- & IR). cbn [fst snd]. split; [apply (made_app d TO); auto |].
        apply in_app_or in IR. destruct IR as [IR|[<-|[]]]; [auto|]. cbn. ord TO.
    + intros NN. match goal with |- context [(t_led s ++ ?x)] => set (pt := x) in * end.
      match goal with |- cnt_ok _ ?x /\ _ => apply (cert_old d TO s x [] pt) end; cbn [s2 t_led app]; auto; try apply I.
      * apply Forall_forall. intros v IV. apply in_map_iff in IV. destruct IV as (b & <- & _). exists b, (r_hi n, r_hi n). auto.
      * intros v IV. apply in_map_iff in IV; destruct IV as (b & <- & IB); cbn; auto.
      * intros; apply M_nn; auto.
      * intros b lo hi e IB X. split; [intros r []|]. unfold pt. rewrite (delta_dec_pts d TO). unfold RefsLedger.M. cbn [s2 t_lev t_jobs t_lost].
        rewrite EJ, !(jsum_app d TO), (tlsum_app d TO), tlsum_opt, (lsum_app d TO). cbn [RefsLedger.jsum RefsLedger.lsum fst snd]. rewrite JM, EPOS.
        rewrite (zov_eq d TO (r_hi n)) by (try apply X; ord TO).
        assert (DN : ob = Some b -> dn (r_hi n) e = 1).
        { intros Q. destruct (UQ b lo hi Q IB) as [-> ->]. unfold RefsCount.dn. rewrite EHI. destruct X as (_ & X & _). rewrite (proj2 (kleb_kle d TO _ _) X). reflexivity. }
        destruct (occ_opt b ob) as [[Q ->]|[_ ->]]; [specialize (DN Q)|]; lia.
Qed.

Theorem oreach_inv : forall s, oreach d s -> Inv s.
Proof.
  induction 1 as [|s o s' R IH OV H].
  - constructor; cbn.
    + intros l [<-|[<-|[]]]; cbn; repeat split; auto; try discriminate; intros p [<-|[]]; cbn; lia.
    + intros l Q. inversion Q. reflexivity.
    + constructor.
    + intros n sl [<-|[<-|[]]] [].
    + intros j [].
    + intros p [].
    + intros b lo hi e [].
    + split; [intros v [] | intros b lo hi lo' hi' []].
    + intros j b r e [].
  - destruct o; cbn [do] in H.
    + eapply step_incorporate; eauto.
    + eapply step_flush; eauto.
    + eapply step_split_index; eauto.
    + eapply step_split_leaf; eauto.
    + eapply step_grow; eauto.
    + eapply step_enqueue; eauto.
    + eapply step_start; eauto.
    + eapply step_fail; eauto.
    + eapply step_merge; eauto.
    + eapply step_replace; eauto.
    + eapply step_destroy; eauto.
Qed.
End Ops4.
