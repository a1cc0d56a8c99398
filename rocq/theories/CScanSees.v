(** What scans that read in pieces give their callers. *)
From Coq Require Import List Arith Bool Lia Sorting.Sorted.
Import ListNotations.
From Verif Require Import CBtree CBtreeSpec CBtreeSees CScan CScanSpec.
Local Open Scope nat_scope.

Lemma spec_runs_app : forall x tr y, spec_runs x tr y -> forall t1 t2, tr = t1 ++ t2 ->
  exists z, spec_runs x t1 z /\ spec_runs z t2 y.
Proof.
  induction 1 as [x|x tr y e z R IH S]; intros t1 t2 E.
  - symmetry in E. apply app_eq_nil in E. destruct E as [-> ->]. exists x. split; constructor.
  - assert (X : shown e = [] \/ shown e = [e]) by (destruct e as [i []|j []]; cbn; auto).
    destruct X as [X|X].
    + rewrite X, app_nil_r in E. destruct (IH t1 t2 E) as (w & W1 & W2). exists w. split; auto.
      rewrite <- (app_nil_r t2), <- X. econstructor; eauto.
    + destruct t2 as [|e' t2] using rev_ind.
      * rewrite app_nil_r in E. subst t1. exists z. split; [|constructor]. econstructor; eauto.
      * rewrite X, app_assoc in E. apply app_inj_tail in E. destruct E as [-> <-]. destruct (IH t1 t2 eq_refl) as (w & W1 & W2).
        exists w. split; auto. rewrite <- X. econstructor; eauto.
Qed.

Lemma spec_runs_trans : forall a b d t t', spec_runs a t b -> spec_runs b t' d -> spec_runs a (t ++ t') d.
Proof.
  intros a b d t t' H K. induction K as [|x tr y e z K IH S]; [rewrite app_nil_r; auto|]. rewrite app_assoc. econstructor; eauto.
Qed.

Lemma spec_one : forall x e y, spec_runs x [e] y ->
  exists x1 y1, spec_runs x [] x1 /\ spec_step x1 e y1 /\ spec_runs y1 [] y.
Proof.
  intros x e y R. remember [e] as tr eqn:E. induction R as [x|x tr y e' z R IH S]; [discriminate|].
  assert (X : shown e' = [] \/ shown e' = [e']) by (destruct e' as [i []|j []]; cbn; auto).
  destruct X as [X|X]; rewrite X in E.
  - rewrite app_nil_r in E. destruct (IH E) as (x1 & y1 & A & B & D). exists x1, y1. split; auto. split; auto.
    rewrite <- (app_nil_l (shown e')) in X. rewrite <- X. econstructor; eauto.
  - destruct tr as [|a [|a' tr]]; try discriminate E. injection E as ->. exists y, z. split; auto. split; auto. constructor.
Qed.

(** The threads alone. *)
Definition thr_events (tr : list ev) : list event := flat_map (fun e => match e with ET i l => [(i, l)] | ES _ _ => [] end) tr.

Lemma thr_runs : forall x tr y, spec_runs x tr y -> aruns (fst x) (thr_events tr) (fst y).
Proof.
  induction 1 as [x|x tr y e z R IH S]; [constructor|]. unfold thr_events. rewrite flat_map_app.
  destruct S as [m f q i l m' f' A|m f q j l x' A].
  - cbn [fst] in *. replace (flat_map _ (shown (ET i l))) with (seen i l) by (destruct l; reflexivity). econstructor; eauto.
  - replace (flat_map _ (shown (ES j l))) with (@nil event) by (destruct l; reflexivity). rewrite app_nil_r. auto.
Qed.

Lemma spec_grows : forall x tr y k v, spec_runs x tr y -> In v (fst (fst x) k) -> In v (fst (fst y) k).
Proof. intros x tr y k v R. apply thr_runs in R. eapply aruns_grows; eauto. Qed.

Lemma inserted_in : forall x y t1 t2 t3 i k v r,
  aruns x (t1 ++ (i, Called (CIns k v)) :: t2 ++ (i, Returned r) :: t3) y -> none_of i t2 -> In v (fst y k).
Proof.
  intros x y t1 t2 t3 i k v r R N2.
  destruct (aruns_app _ _ _ R _ _ eq_refl) as (z1 & _ & R1). rewrite app_cons in R1.
  destruct (aruns_app _ _ _ R1 _ _ eq_refl) as (z2 & E1 & R2).
  destruct (aruns_app _ _ _ R2 _ _ eq_refl) as (z3 & E2 & R3). rewrite app_cons in R3.
  destruct (aruns_app _ _ _ R3 _ _ eq_refl) as (z4 & E3 & R4).
  destruct (one_event _ _ _ _ E1 ltac:(discriminate)) as (a1 & b1 & _ & S1 & Q1).
  destruct (one_event _ _ _ _ E3 ltac:(discriminate)) as (a3 & b3 & P3 & S3 & Q3).
  assert (V3 : In v (fst a3 k)).
  { inversion S1; subst. inversion S3; subst.
    destruct (inserting _ _ _ i k v Q1 (none_nil' i)) as [X|[(r' & X) V]].
    { cbn. unfold now. rewrite Nat.eqb_refl. auto. }
    - destruct (inserting _ _ _ i k v E2 N2 X) as [Y|[(r' & Y) V]].
      + destruct (inserting _ _ _ i k v P3 (none_nil' i) Y) as [Z|[_ V]]; [cbn in Z; congruence|auto].
      + eapply aruns_grows; eauto.
    - eapply aruns_grows; [exact P3|]. eapply aruns_grows; [exact E2|]. auto. }
  eapply aruns_grows; [exact R4|]. eapply aruns_grows; [exact Q3|]. eapply astep_grows; eauto.
Qed.

(** Every message of the table was inserted. *)
Lemma called_in : forall x tr y, aruns x tr y -> x = (empty, all_idle) ->
  (forall k v, In v (fst y k) -> exists i, In (i, Called (CIns k v)) tr) /\
  (forall i k v, snd y i = SCalled (CIns k v) -> In (i, Called (CIns k v)) tr).
Proof.
  induction 1 as [x|x tr y i l z R IH S]; intros ->.
  - split; [intros k v []|discriminate].
  - destruct (IH eq_refl) as [I1 I2]. clear IH R.
    assert (W : forall e, In e tr -> In e (tr ++ seen i l)) by (intros; apply in_or_app; auto).
    inversion S; subst; cbn [fst snd] in *; unfold now.
    + split; [intros k v Hv; destruct (I1 _ _ Hv); eauto|]. intros j k v. destruct (j =? i) eqn:E; [|auto].
      apply Nat.eqb_eq in E. subst j. intros [= ->]. apply in_or_app. right. cbn. auto.
    + split.
      * intros k v. destruct c as [k' v'|k']; cbn [apply fst].
        -- destruct (k =? k') eqn:E; [|intros Hv; destruct (I1 _ _ Hv); eauto]. apply Nat.eqb_eq in E. subst k'.
           intros Hv. apply in_app_or in Hv. destruct Hv as [Hv|[<-|[]]]; [destruct (I1 _ _ Hv); eauto|]. exists i. auto.
        -- intros Hv. destruct (I1 _ _ Hv); eauto.
      * intros j k v. destruct (j =? i); [discriminate|auto].
    + split; [intros k v Hv; destruct (I1 _ _ Hv); eauto|]. intros j k v. destruct (j =? i); [discriminate|auto].
Qed.

(** ** A scan from its call to its return. *)
Definition none_by (j : nat) (tr : list ev) : Prop := forall l, ~ In (ES j l) tr.

(** What holds of a scan that is under way. *)
Definition way (P : nat -> nat -> Prop) (m : table) (lo : nat) (hi x : option nat) (acc : list entry) : Prop :=
  lesser (Some lo) x /\ lesser x hi /\ StronglySorted lt (map fst acc) /\
  (forall k w, In (k, w) acc -> lo <= k /\ under x k /\ forall v, In v w -> In v (m k)) /\
  (forall k v, P k v -> In v (m k) /\ (lo <= k -> (match x with Some x => x <= k | None => False end) \/ exists w, In (k, w) acc /\ In v w)).

Lemma sorted_app : forall (l l' : list nat), StronglySorted lt l -> StronglySorted lt l' ->
  (forall a b, In a l -> In b l' -> a < b) -> StronglySorted lt (l ++ l').
Proof.
  induction l as [|a l IH]; cbn; auto. intros l' H H' L. inversion H; subst. constructor; auto.
  rewrite Forall_forall in *. intros x Hx. apply in_app_or in Hx. destruct Hx; auto.
Qed.

Lemma way_grows : forall P m m' lo hi x acc, (forall k v, In v (m k) -> In v (m' k)) -> way P m lo hi x acc -> way P m' lo hi x acc.
Proof.
  intros P m m' lo hi x acc L (W1 & W2 & W3 & W4 & W5). split; auto. split; auto. split; auto. split.
  - intros k w H. destruct (W4 k w H) as (X1 & X2 & X3). auto.
  - intros k v H. destruct (W5 k v H). auto.
Qed.

Lemma way_piece : forall P m lo hi x y acc es, way P m lo hi (Some x) acc -> upper x y -> lesser y hi -> piece m x y es ->
  way P m lo hi y (acc ++ es).
Proof.
  intros P m lo hi x y acc es (W1 & W2 & W3 & W4 & W5) U L [S E]. cbn in W1. split; [destruct y; cbn in *; auto; lia|].
  split; auto. split; [|split].
  - rewrite map_app. apply sorted_app; auto. intros a b Ha Hb. apply in_map_iff in Ha, Hb.
    destruct Ha as ([ka va] & <- & Ha). destruct Hb as ([kb vb] & <- & Hb). apply E in Hb. apply W4 in Ha. cbn in *. lia.
  - intros k w H. apply in_app_or in H. destruct H as [H|H].
    + destruct (W4 k w H) as (X1 & X2 & X3). split; auto. split; auto. destruct y; cbn in *; auto. lia.
    + apply E in H. destruct H as (X1 & X2 & -> & _). split; [lia|]. auto.
  - intros k v H. destruct (W5 k v H) as [V D]. split; auto. intros Lk. specialize (D Lk). destruct D as [D|(w & D1 & D2)].
    + destruct y as [y|].
      * destruct (le_lt_dec y k) as [Ly|Ly]; auto. right. exists (m k). split; auto. apply in_or_app. right. apply E.
        cbn. split; auto. split; auto. split; auto. intros Z. rewrite Z in V. destruct V.
      * right. exists (m k). split; auto. apply in_or_app. right. apply E. cbn. split; auto. split; auto. split; auto.
        intros Z. rewrite Z in V. destruct V.
    + right. exists w. split; auto. apply in_or_app. auto.
Qed.

(** The same for a scan back: what it has is from [x] up. *)
Definition bway (P : nat -> nat -> Prop) (m : table) (lo : nat) (hi x : option nat) (acc : list entry) : Prop :=
  lesser (Some lo) x /\ lesser x hi /\ StronglySorted gt (map fst acc) /\
  (forall k w, In (k, w) acc -> lesser x (Some k) /\ under hi k /\ forall v, In v w -> In v (m k)) /\
  (forall k v, P k v -> In v (m k) /\ (under hi k -> under x k \/ exists w, In (k, w) acc /\ In v w)).

Lemma bway_grows : forall P m m' lo hi x acc, (forall k v, In v (m k) -> In v (m' k)) -> bway P m lo hi x acc -> bway P m' lo hi x acc.
Proof.
  intros P m m' lo hi x acc L (W1 & W2 & W3 & W4 & W5). split; auto. split; auto. split; auto. split.
  - intros k w H. destruct (W4 k w H) as (X1 & X2 & X3). auto.
  - intros k v H. destruct (W5 k v H). auto.
Qed.

Lemma rsorted_app : forall (l l' : list nat), StronglySorted gt l -> StronglySorted gt l' ->
  (forall a b, In a l -> In b l' -> b < a) -> StronglySorted gt (l ++ l').
Proof.
  induction l as [|a l IH]; cbn; auto. intros l' H H' L. inversion H; subst. constructor; auto.
  rewrite Forall_forall in *. intros x Hx. apply in_app_or in Hx. destruct Hx; auto.
Qed.
Lemma sorted_rev : forall (l : list nat), StronglySorted lt l -> StronglySorted gt (rev l).
Proof.
  induction 1 as [|a l S IH F]; cbn; [constructor|]. apply rsorted_app; auto; [repeat constructor|].
  intros x b Hx [<-|[]]. rewrite Forall_forall in F. apply F. apply in_rev. auto.
Qed.

Lemma bway_piece : forall P m lo hi x y acc es, bway P m lo hi y acc -> lo <= x -> upper x y -> piece m x y es ->
  bway P m lo hi (Some x) (acc ++ rev es).
Proof.
  intros P m lo hi x y acc es (W1 & W2 & W3 & W4 & W5) L U [S E].
  assert (UH : forall k, under y k -> under hi k) by (intros k; destruct y, hi; cbn in *; auto; try lia; discriminate).
  split; [cbn; auto|]. split; [destruct y; cbn in *; [destruct hi; cbn in *; auto; lia|subst; cbn; auto]|]. split; [|split].
  - rewrite map_app, map_rev. apply rsorted_app; auto; [apply sorted_rev; auto|].
    intros a b Ha Hb. apply in_rev in Hb. apply in_map_iff in Ha, Hb.
    destruct Ha as ([ka va] & <- & Ha). destruct Hb as ([kb vb] & <- & Hb). apply E in Hb. apply W4 in Ha.
    destruct y; cbn in *; [lia|]. destruct Ha. discriminate.
  - intros k w H. apply in_app_or in H. destruct H as [H|H].
    + destruct (W4 k w H) as (X1 & X2 & X3). split; auto. destruct y; cbn in *; [lia|discriminate].
    + apply in_rev in H. apply E in H. destruct H as (X1 & X2 & -> & _). cbn. auto.
  - intros k v H. destruct (W5 k v H) as [V D]. split; auto. intros Lk. specialize (D Lk). destruct D as [D|(w & D1 & D2)].
    + destruct (le_lt_dec x k) as [Lx|Lx]; auto. right. exists (m k). split; auto. apply in_or_app. right. apply -> in_rev. apply E.
      split; auto. split; auto. split; auto. intros Z. rewrite Z in V. destruct V.
    + right. exists w. split; auto. apply in_or_app. auto.
Qed.

Definition wayd (d : dir) := match d with Fwd => way | Bwd => bway end.
Definition fin (d : dir) (lo : nat) (hi : option nat) := match d with Fwd => hi | Bwd => Some lo end.

Lemma way_runs : forall P x tr y j d lo hi c acc, spec_runs x tr y -> none_by j tr ->
  snd x j = SRun d lo hi c acc -> wayd d P (fst (fst x)) lo hi c acc ->
  exists c' acc', snd y j = SRun d lo hi c' acc' /\ wayd d P (fst (fst y)) lo hi c' acc'.
Proof.
  intros P x tr y j d lo hi c acc R. induction R as [x|x tr y e z R IH S]; intros N E W; [eauto|].
  assert (N' : none_by j tr) by (intros l Hl; apply (N l); apply in_or_app; auto).
  destruct (IH N' E W) as (c' & acc' & E' & W'). clear IH E W.
  inversion S as [m f q i l m' f' A|m f q i l x' A]; subst; cbn [fst snd] in *.
  - exists c', acc'. split; auto. pose proof (fun k v => astep_grows _ _ _ _ k v A) as L.
    destruct d; [eapply way_grows|eapply bway_grows]; eauto.
  - unfold put_at. destruct (j =? i) eqn:Ei; [|eauto]. apply Nat.eqb_eq in Ei. subst i. rewrite E' in A.
    inversion A; subst.
    + do 2 eexists. split; [reflexivity|]. eapply way_piece; eauto.
    + exfalso. apply (N (SRet acc')). apply in_or_app. right. cbn. auto.
    + do 2 eexists. split; [reflexivity|]. eapply bway_piece; eauto.
    + exfalso. apply (N (SRet acc')). apply in_or_app. right. cbn. auto.
Qed.

Lemma none_by_nil : forall j, none_by j []. Proof. intros j l []. Qed.

Theorem scan_way : forall (P : nat -> nat -> Prop) x t4 y j d lo hi es,
  spec_runs x (ES j (SCall d lo hi) :: t4 ++ [ES j (SRet es)]) y -> none_by j t4 ->
  (forall k v, P k v -> In v (fst (fst x) k)) ->
  exists z, spec_runs x (ES j (SCall d lo hi) :: t4) z /\ wayd d P (fst (fst z)) lo (clamp lo hi) (fin d lo (clamp lo hi)) es.
Proof.
  intros P x t4 y j d lo hi es R N HP. rewrite app_comm_cons in R. destruct (spec_runs_app _ _ _ R _ _ eq_refl) as (z & R1 & R2).
  destruct (spec_one _ _ _ R2) as (z1 & z2 & Q1 & S & _).
  rewrite app_cons in R1. destruct (spec_runs_app _ _ _ R1 _ _ eq_refl) as (u & Ra & Rb).
  destruct (spec_one _ _ _ Ra) as (u1 & u2 & P1 & Sa & P2).
  assert (V : forall k v, P k v -> In v (fst (fst u1) k)) by (intros k v H; eapply spec_grows; eauto).
  inversion Sa as [|m f q i l x' A]; subst. cbn [fst] in V.
  assert (X : x' = SRun d lo (clamp lo hi) (tgt d lo (clamp lo hi)) []) by (inversion A; subst; reflexivity). subst x'.
  assert (W : wayd d P m lo (clamp lo hi) (tgt d lo (clamp lo hi)) []).
  { destruct d; (split; [destruct hi; cbn; auto; lia|]); (split; [destruct hi; cbn; auto; lia|]);
      (split; [constructor|]); (split; [intros k w []|]); intros k v H; split; auto. }
  assert (E0 : snd (m, f, put_at q j (SRun d lo (clamp lo hi) (tgt d lo (clamp lo hi)) [])) j =
               SRun d lo (clamp lo hi) (tgt d lo (clamp lo hi)) []).
  { cbn. unfold put_at. rewrite Nat.eqb_refl. auto. }
  destruct (way_runs P _ _ _ j _ _ _ _ _ P2 (none_by_nil j) E0 W) as (c1 & a1 & E1' & W1).
  destruct (way_runs P _ _ _ j _ _ _ _ _ Rb N E1' W1) as (c2 & a2 & E2' & W2).
  destruct (way_runs P _ _ _ j _ _ _ _ _ Q1 (none_by_nil j) E2' W2) as (c3 & a3 & E3' & W3).
  exists z1. split.
  { rewrite <- (app_nil_r (ES j (SCall d lo hi) :: t4)). clear -R1 Q1 Ra Rb.
    eapply spec_runs_trans; eauto. }
  inversion S as [|m' f' q' i' l' x'' A']; subst. cbn [snd fst] in *. rewrite E3' in A'. inversion A'; subst; exact W3.
Qed.

(** What both ways have in common. *)
Lemma scan_both : forall (P : nat -> nat -> Prop) x t4 y j d lo hi es,
  spec_runs x (ES j (SCall d lo hi) :: t4 ++ [ES j (SRet es)]) y -> none_by j t4 ->
  (forall k v, P k v -> In v (fst (fst x) k)) ->
  exists z, spec_runs x (ES j (SCall d lo hi) :: t4) z /\
    StronglySorted (match d with Fwd => lt | Bwd => gt end) (map fst es) /\
    (forall k w, In (k, w) es -> lo <= k /\ under hi k /\ forall v, In v w -> In v (fst (fst z) k)) /\
    (forall k v, P k v -> lo <= k -> under hi k -> exists w, In (k, w) es /\ In v w).
Proof.
  intros P x t4 y j d lo hi es R N HP. destruct (scan_way P _ _ _ _ _ _ _ _ R N HP) as (z & Rz & W). exists z. split; auto.
  assert (UC : forall k, lo <= k -> under (clamp lo hi) k <-> under hi k) by (intros k L; destruct hi; cbn; [lia|tauto]).
  destruct d; destruct W as (_ & _ & S & I & D); (split; [exact S|]); (split; [intros k w H|intros k v H L U]).
  - destruct (I k w H) as (L & U & V). split; auto. split; auto. apply UC; auto.
  - destruct (D k v H) as [_ [X|X]]; auto. exfalso. destruct hi; cbn in *; lia.
  - destruct (I k w H) as (L & U & V). cbn in L. split; auto. split; auto. apply UC; auto.
  - destruct (D k v H) as [_ [X|X]]; auto; [apply UC; auto|]. cbn in X. lia.
Qed.

(** In order and within the bounds. *)
Theorem scan_ordered : forall t1 t4 j d lo hi es, explained (t1 ++ ES j (SCall d lo hi) :: t4 ++ [ES j (SRet es)]) -> none_by j t4 ->
  StronglySorted (match d with Fwd => lt | Bwd => gt end) (map fst es) /\
  forall k w, In (k, w) es -> lo <= k /\ match hi with Some h => k < h | None => True end.
Proof.
  intros t1 t4 j d lo hi es (y & R) N. destruct (spec_runs_app _ _ _ R _ _ eq_refl) as (x & _ & R1).
  destruct (scan_both (fun _ _ => False) _ _ _ _ _ _ _ _ R1 N) as (z & _ & S & I & _); [tauto|].
  split; auto. intros k w H. destruct (I k w H) as (L & U & _). split; auto.
Qed.

(** What was inserted before is seen. *)
Theorem scan_sees : forall t1 t2 t3 t4 i j k v r d lo hi es,
  explained (t1 ++ ET i (Called (CIns k v)) :: t2 ++ ET i (Returned r) :: t3 ++ ES j (SCall d lo hi) :: t4 ++ [ES j (SRet es)]) ->
  (forall l, ~ In (ET i l) t2) -> none_by j t4 ->
  lo <= k -> match hi with Some h => k < h | None => True end ->
  exists w, In (k, w) es /\ In v w.
Proof.
  intros t1 t2 t3 t4 i j k v r d lo hi es (y & R) N2 N4 L U.
  replace (t1 ++ ET i (Called (CIns k v)) :: t2 ++ ET i (Returned r) :: t3 ++ ES j (SCall d lo hi) :: t4 ++ [ES j (SRet es)])
    with ((t1 ++ ET i (Called (CIns k v)) :: t2 ++ ET i (Returned r) :: t3) ++ ES j (SCall d lo hi) :: t4 ++ [ES j (SRet es)]) in R.
  2:{ rewrite <- !app_assoc. cbn. rewrite <- !app_assoc. reflexivity. }
  destruct (spec_runs_app _ _ _ R _ _ eq_refl) as (x & R0 & R1).
  assert (V : In v (fst (fst x) k)).
  { apply thr_runs in R0. unfold thr_events in R0. rewrite flat_map_app in R0. cbn [flat_map] in R0. rewrite flat_map_app in R0. cbn [flat_map app] in R0.
    eapply inserted_in; [exact R0|]. intros [i' l] He. apply in_flat_map in He. destruct He as ([i2 l2|? ?] & H1 & H2); [|destruct H2].
    destruct H2 as [[= -> ->]|[]]. cbn. intros ->. eapply N2; eauto. }
  destruct (scan_both (fun k' v' => k' = k /\ v' = v) _ _ _ _ _ _ _ _ R1 N4) as (z & _ & _ & _ & D); [intros k' v' [-> ->]; auto|].
  apply D; auto.
Qed.

(** And only what was inserted. *)
Theorem scan_only : forall t1 t4 j d lo hi es k w v, explained (t1 ++ ES j (SCall d lo hi) :: t4 ++ [ES j (SRet es)]) -> none_by j t4 ->
  In (k, w) es -> In v w -> exists i, In (ET i (Called (CIns k v))) (t1 ++ t4).
Proof.
  intros t1 t4 j d lo hi es k w v (y & R) N H Hv. destruct (spec_runs_app _ _ _ R _ _ eq_refl) as (x & R0 & R1).
  destruct (scan_both (fun _ _ => False) _ _ _ _ _ _ _ _ R1 N) as (z & Rz & _ & I & _); [tauto|].
  destruct (I k w H) as (_ & _ & V). specialize (V v Hv).
  apply thr_runs in R0, Rz. assert (TT : forall a b d t t', aruns a t b -> aruns b t' d -> aruns a (t ++ t') d).
  { intros a b d' t t' A K. induction K as [|x' tr y' i l z' K IH S]; [rewrite app_nil_r; auto|]. rewrite app_assoc. econstructor; eauto. }
  pose proof (TT _ _ _ _ _ R0 Rz) as A. destruct (called_in _ _ _ A eq_refl) as [X _]. destruct (X k v V) as (i & Hi). exists i.
  unfold thr_events in Hi. rewrite <- flat_map_app in Hi. apply in_flat_map in Hi. destruct Hi as ([i2 l2|? ?] & H1 & H2); [|destruct H2].
  destruct H2 as [[= -> ->]|[]]. apply in_app_or in H1. apply in_or_app. destruct H1 as [H1|[H1|H1]]; auto. discriminate.
Qed.
