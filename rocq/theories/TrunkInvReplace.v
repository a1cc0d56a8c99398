(** * The invariant when a compaction replaces its bundle *)

From Coq Require Import List Arith NArith ZArith Lia Bool Sorted.
From Verif Require Import Base Spec Spec_Merge DataProofs Search.
From Verif Require Import TrunkNode TrunkRing TrunkRep TrunkOps TrunkReset TrunkFlush TrunkClear TrunkReplace TrunkSplit.
From Verif Require Import TrunkAlpha TrunkKeys TrunkView TrunkTree TrunkShape TrunkLookup TrunkEffects TrunkInstall TrunkSplitEff TrunkInv TrunkInvMem TrunkInvNode TrunkInvFlush TrunkInvSplit TrunkInvCompact TrunkInvJob.
Import ListNotations.
Local Open Scope nat_scope.

Set Default Proof Using "All".
Section Rep.
Variables (M mp : nat) (cfg : data_config) (hash : bytes -> N).
Hypothesis TO : total_order (key_compare cfg).
Hypothesis LM : lawful_merge cfg.
Hypothesis Hmp : mp <= MAX_PIVOTS.
Hypothesis M0 : 0 < M.
Local Notation klt := (klt cfg).
Local Notation kle := (kle cfg).
Local Notation nwf := (nwf M mp cfg).
Local Notation twf := (twf M mp cfg).
Local Notation nview := (nview M cfg).
Local Notation view_at := (view_at M cfg).
Local Notation branch_ok := (branch_ok cfg).
Local Notation view_ok := (view_ok cfg hash).
Local Notation views := (views M cfg).
Local Notation swf := (swf M mp cfg).
Local Notation content := (content M cfg).
Local Notation job_ok := (job_ok cfg hash).
Local Notation job_base := (job_base cfg hash).
Local Notation inv := (inv M mp cfg hash).
Local Notation exec := (exec M mp cfg hash).
Local Notation bound := (bound cfg).
Local Notation count := (count cfg).
Local Notation excl := (excl cfg).
Local Notation local := (local M mp cfg).

Local Notation phase_ok := (phase_ok cfg).
Local Notation active := (active cfg).
Local Notation pending_at := (pending_at cfg).

(** ** The cells of a job *)

Lemma sorted_nth : forall (l : list key) i i' a b, StronglySorted klt l -> nth_error l i = Some a -> nth_error l i' = Some b -> i < i' -> klt a b.
Proof.
  induction l as [|x l IH]; intros i i' a b Hs E1 E2 L; [destruct i; discriminate|]. apply StronglySorted_inv in Hs. destruct Hs as [Hs Hf]. destruct i' as [|i']; [lia|].
  destruct i as [|i]; cbn in E1, E2; [|apply (IH i i'); auto; lia]. injection E1 as <-. rewrite Forall_forall in Hf. apply Hf. eapply nth_error_In; eauto.
Qed.
Lemma cell_ends : forall V H nx j ks out i lo hi, job_base V H nx j ks out -> cell ks i lo hi ->
  kle (j_lo j) lo /\ klt lo hi /\ kle hi (rq_hi (j_q j)) /\ i < MAX_PIVOTS.
Proof.
  intros V H nx j ks out i lo hi B Ce. pose proof (jb_sorted _ _ _ _ _ _ _ _ B) as Hs. destruct (jb_ends _ _ _ _ _ _ _ _ B) as (mid & Ek). pose proof (jb_len _ _ _ _ _ _ _ _ B) as Ll.
  unfold cell in Ce. apply pairs_nth in Ce. destruct Ce as [C1 C2].
  assert (S i < length ks) by (apply nth_error_Some; congruence).
  split; [|split; [|split; [|lia]]].
  - destruct i as [|i]; [rewrite Ek in C1; cbn in C1; injection C1 as <-; apply (kle_refl M mp cfg hash TO LM)|].
    assert (L : klt (j_lo j) lo) by (eapply (sorted_nth ks 0 (S i)); eauto; [rewrite Ek; reflexivity | lia]). ord TO.
  - eapply (sorted_nth ks i (S i)); eauto.
  - assert (El : nth_error ks (length ks - 1) = Some (rq_hi (j_q j))).
    { rewrite Ek. cbn [length]. rewrite app_length. cbn [length]. replace (S (length mid + 1) - 1) with (S (length mid)) by lia. cbn [nth_error]. rewrite nth_error_app2 by lia. rewrite Nat.sub_diag. reflexivity. }
    destruct (Nat.eq_dec (S i) (length ks - 1)) as [Q|N]; [rewrite Q in C2; assert (hi = rq_hi (j_q j)) by congruence; subst hi; apply (kle_refl M mp cfg hash TO LM)|].
    assert (L : klt hi (rq_hi (j_q j))) by (eapply (sorted_nth ks (S i) (length ks - 1)); eauto; lia). ord TO.
Qed.
Lemma pos_cell : forall V H nx j ks out i lo hi, job_base V H nx j ks out -> cell ks i lo hi -> generation_to_pos (j_q j) (rq_gens (j_q j) i) = i.
Proof.
  intros V H nx j ks out i lo hi B Ce. destruct (cell_ends _ _ _ _ _ _ _ _ _ B Ce) as (_ & _ & _ & Li). apply gpos_first; auto. intros i' L E.
  assert (Q : exists a b, cell ks i' a b).
  { unfold cell in *. destruct (nth_error (pairs ks) i') as [[a b]|] eqn:Z; [eauto|]. exfalso. apply nth_error_None in Z. assert (nth_error (pairs ks) i <> None) by congruence. apply nth_error_Some in H0. lia. }
  destruct Q as (a & b & Q). pose proof (jb_gens _ _ _ _ _ _ _ _ B i' i _ _ _ _ Q Ce E). lia.
Qed.
Lemma known_pos : forall V H nx j ks out v, job_base V H nx j ks out -> known j ks v ->
  cell ks (generation_to_pos (j_q j) (v_gen v)) (v_lo v) (v_hi v) /\ generation_to_pos (j_q j) (v_gen v) < MAX_PIVOTS /\
  rq_gens (j_q j) (generation_to_pos (j_q j) (v_gen v)) = v_gen v.
Proof.
  intros V H nx j ks out v B (i & Ce & Eg). rewrite Eg, (pos_cell _ _ _ _ _ _ _ _ _ B Ce). split; [exact Ce|]. split; [apply (cell_ends _ _ _ _ _ _ _ _ _ B Ce) | reflexivity].
Qed.

(** ** The counts of the output *)

Lemma record_spec : forall n bno out ps q q', record_counts cfg n bno (Some out) ps q = Some q' ->
  (forall x y p p', nth_error ps x = Some p -> nth_error ps y = Some p' -> S x < length ps -> S y < length ps -> pv_gen p = pv_gen p' -> x = y) ->
  exists f, q' = set_out f q /\
    (forall x p p', nth_error ps x = Some p -> nth_error ps (S x) = Some p' -> bundle_live_for_pivot n bno p = true ->
       generation_to_pos q (pv_gen p) <> MAX_PIVOTS /\ f (generation_to_pos q (pv_gen p)) = count (pv_key p) (pv_key p') out) /\
    (forall i, (forall x p p', nth_error ps x = Some p -> nth_error ps (S x) = Some p' -> bundle_live_for_pivot n bno p = true -> generation_to_pos q (pv_gen p) <> i) -> f i = rq_out q i).
Proof.
  intros n bno out ps. induction ps as [|p0 [|p1 r] IH]; intros q q' E U.
  - cbn in E. injection E as <-. exists (rq_out q). split; [destruct q; reflexivity|]. split; [intros [|x]; discriminate | reflexivity].
  - cbn in E. injection E as <-. exists (rq_out q). split; [destruct q; reflexivity|]. split; [|reflexivity]. intros [|x] p p' _ E2; [discriminate | destruct x; discriminate].
  - change (record_counts cfg n bno (Some out) (p0 :: p1 :: r) q) with
      (if bundle_live_for_pivot n bno p0 then
         if generation_to_pos q (pv_gen p0) =? MAX_PIVOTS then None
         else record_counts cfg n bno (Some out) (p1 :: r) (set_out (put (rq_out q) (generation_to_pos q (pv_gen p0)) (count (pv_key p0) (pv_key p1) out)) q)
       else record_counts cfg n bno (Some out) (p1 :: r) q) in E.
    assert (U' : forall x y p p', nth_error (p1 :: r) x = Some p -> nth_error (p1 :: r) y = Some p' -> S x < length (p1 :: r) -> S y < length (p1 :: r) -> pv_gen p = pv_gen p' -> x = y).
    { intros x y p p' E1 E2 L1 L2 Eg. assert (S x = S y); [|lia]. apply (U (S x) (S y) p p'); auto; cbn [length] in *; lia. }
    destruct (bundle_live_for_pivot n bno p0) eqn:El.
    + destruct (Nat.eqb_spec (generation_to_pos q (pv_gen p0)) MAX_PIVOTS) as [|Np]; [discriminate|].
      remember (set_out (put (rq_out q) (generation_to_pos q (pv_gen p0)) (count (pv_key p0) (pv_key p1) out)) q) as q1 eqn:Eq1.
      assert (Eg : forall g, generation_to_pos q1 g = generation_to_pos q g) by (intro g; apply gpos_ext; subst q1; reflexivity).
      destruct (IH q1 q' E U') as (f & E' & F1 & F2). exists f. split; [subst q1; exact E'|]. split.
      * intros [|x] p p' E1 E2 L; [|rewrite <- Eg; apply (F1 x p p'); auto].
        cbn in E1, E2. injection E1 as <-. injection E2 as <-. split; [exact Np|]. rewrite F2.
        -- subst q1. cbn [set_out rq_out]. apply TrunkRing.put_same.
        -- intros x p p' E1 E2 L2 Q. rewrite Eg in Q. assert (Np2 : generation_to_pos q (pv_gen p) <> MAX_PIVOTS) by congruence.
           destruct (gpos_found _ _ Np) as [_ G1]. destruct (gpos_found _ _ Np2) as [_ G2]. rewrite Q in G2. assert (Ex : 0 = S x); [|discriminate].
           apply (U 0 (S x) p0 p); auto; [cbn; lia | | congruence]. assert (nth_error (p1 :: r) (S x) <> None) by congruence. apply nth_error_Some in H. cbn [length] in *. lia.
      * intros i Hn. rewrite F2.
        -- subst q1. cbn [set_out rq_out]. apply put_other. intro Q. apply (Hn 0 p0 p1); auto.
        -- intros x p p' E1 E2 L Q. rewrite Eg in Q. apply (Hn (S x) p p'); auto.
    + destruct (IH q q' E U') as (f & E' & F1 & F2). exists f. split; [exact E'|]. split.
      * intros [|x] p p' E1 E2 L; [cbn in E1; injection E1 as <-; congruence | apply (F1 x p p'); auto].
      * intros i Hn. apply F2. intros x p p' E1 E2 L. apply (Hn (S x) p p'); auto.
Qed.
Lemma record_none : forall n bno ps q q', record_counts cfg n bno None ps q = Some q' -> q' = q.
Proof.
  intros n bno ps. induction ps as [|p0 [|p1 r] IH]; intros q q' E; [cbn in E; congruence | cbn in E; congruence |].
  change (record_counts cfg n bno None (p0 :: p1 :: r) q) with
    (if bundle_live_for_pivot n bno p0 then if generation_to_pos q (pv_gen p0) =? MAX_PIVOTS then None else record_counts cfg n bno None (p1 :: r) q
     else record_counts cfg n bno None (p1 :: r) q) in E.
  destruct (bundle_live_for_pivot n bno p0); [|apply IH; exact E]. destruct (Nat.eqb (generation_to_pos q (pv_gen p0)) MAX_PIVOTS); [discriminate | apply IH; exact E].
Qed.

(** [f]: the counts after a node *)
Definition counts_upd (n : node) (A : anode) (q : req) (out : branch) (f : nat -> nat) : Prop :=
  (forall k v, kle (an_lo A) k -> klt k (an_hi A) -> nview n k = Some v -> vbundle (rq_bno q) v <> None ->
     f (generation_to_pos q (v_gen v)) = count (v_lo v) (v_hi v) out) /\
  (forall i, (forall k v, kle (an_lo A) k -> klt k (an_hi A) -> nview n k = Some v -> vbundle (rq_bno q) v <> None -> generation_to_pos q (v_gen v) <> i) -> f i = rq_out q i).

Lemma record_views : forall ht n A q out q', nwf ht n A -> record_counts cfg n (rq_bno q) (Some out) (n_piv n) q = Some q' ->
  exists f, q' = set_out f q /\ counts_upd n A q out f.
Proof.
  intros ht n A q out q' W E. pose proof (w_rep _ _ _ _ _ _ W) as R. pose proof (w_aok _ _ _ _ _ _ W) as K.
  destruct (r_piv _ _ _ R) as (ps & last & F1 & F2 & F3). pose proof (Forall2_length _ _ _ F3) as Lp.
  pose proof (node_keys M mp cfg hash TO LM Hmp M0 _ _ _ W) as Ek.
  assert (Piv : forall x p p', nth_error (n_piv n) x = Some p -> nth_error (n_piv n) (S x) = Some p' -> exists a, nth_error (an_piv A) x = Some a /\ piv_rep M n p a /\ cell (akeys A) x (ap_key a) (pv_key p')).
  { intros x p p' E1 E2. assert (Lx : x < length ps). { assert (nth_error (n_piv n) (S x) <> None) by congruence. apply nth_error_Some in H. rewrite F1, app_length in H. cbn in H. lia. }
    destruct (nth_error (an_piv A) x) as [a|] eqn:Ea; [|apply nth_error_None in Ea; lia]. exists a. split; [reflexivity|].
    destruct (Forall2_nth _ _ _ F3 x a Ea) as (p2 & Ep2 & Pr). rewrite F1, nth_error_app1 in E1 by exact Lx. assert (p2 = p) by congruence. subst p2. split; [exact Pr|].
    unfold cell. destruct Pr as (Q & _). rewrite <- Q, <- Ek. apply pairs_nth. split; apply map_nth_error; [rewrite F1, nth_error_app1 by exact Lx; exact E1 | exact E2]. }
  destruct (record_spec n (rq_bno q) out (n_piv n) q q' E) as (f & Ef & G1 & G2).
  { intros x y p p' E1 E2 L1 L2 Eg. rewrite F1, app_length in L1, L2. cbn in L1, L2.
    destruct (nth_error (n_piv n) (S x)) as [px|] eqn:Ex; [|apply nth_error_None in Ex; rewrite F1, app_length in Ex; cbn in Ex; lia].
    destruct (nth_error (n_piv n) (S y)) as [py|] eqn:Ey; [|apply nth_error_None in Ey; rewrite F1, app_length in Ey; cbn in Ey; lia].
    destruct (Piv x p px E1 Ex) as (a & Ea & (_ & Qa & _) & _). destruct (Piv y p' py E2 Ey) as (a' & Ea' & (_ & Qa' & _) & _).
    pose proof (w_gens _ _ _ _ _ _ W) as Nd. apply (NoDup_nth_error (map ap_gen (an_piv A))); auto.
    - rewrite map_length. apply nth_error_Some. congruence.
    - rewrite (map_nth_error ap_gen _ _ Ea), (map_nth_error ap_gen _ _ Ea'). congruence. }
  exists f. split; [exact Ef|].
  assert (At : forall k v, kle (an_lo A) k -> klt k (an_hi A) -> nview n k = Some v -> exists x p p', nth_error (n_piv n) x = Some p /\ nth_error (n_piv n) (S x) = Some p' /\
     v_lo v = pv_key p /\ v_hi v = pv_key p' /\ v_gen v = pv_gen p /\ bundle_live_for_pivot n (rq_bno q) p = match vbundle (rq_bno q) v with Some _ => true | None => false end).
  { intros k v K1 K2 Ev. destruct (nview_at M mp cfg TO _ n A k W K1 K2) as (x & a & hi & _ & Ea & Ei & Ev' & _). assert (v = view_of n A a hi) by congruence. subst v.
    assert (Lx : x < length (an_piv A)) by (apply nth_error_Some; congruence).
    destruct (nth_error (n_piv n) x) as [p|] eqn:Ex; [|apply nth_error_None in Ex; rewrite F1, app_length in Ex; cbn in Ex; lia].
    destruct (nth_error (n_piv n) (S x)) as [p'|] eqn:Ey; [|apply nth_error_None in Ey; rewrite F1, app_length in Ey; cbn in Ey; lia].
    destruct (Piv x p p' Ex Ey) as (a' & Ea' & Pr & Ce). assert (a' = a) by congruence. subst a'. unfold cell in Ce. rewrite Ei in Ce. injection Ce as Q. subst hi.
    exists x, p, p'. split; [exact Ex|]. split; [exact Ey|]. pose proof Pr as (Q1 & Q2 & _). cbn [view_of v_lo v_hi v_gen]. repeat split; auto.
    apply (vb_live M mp cfg hash TO LM Hmp M0 n A p a (pv_key p')); auto. apply (piv_off_ok _ _ _ _ _ _ _ W). eapply nth_error_In; eauto. }
  split.
  - intros k v K1 K2 Ev Nv. destruct (At k v K1 K2 Ev) as (x & p & p' & E1 & E2 & Q1 & Q2 & Q3 & Q4). rewrite Q1, Q2, Q3. apply (G1 x p p'); auto. rewrite Q4. destruct (vbundle (rq_bno q) v); congruence.
  - intros i Hn. apply G2. intros x p p' E1 E2 L Q. destruct (Piv x p p' E1 E2) as (a & Ea & Pr & Ce).
    destruct (cell_in_range cfg TO A _ _ (w_sorted _ _ _ _ _ _ W) (nth_error_In _ _ Ce)) as (B1 & B2 & B3).
    assert (K1 : kle (an_lo A) (ap_key a)) by exact B1. assert (K2 : klt (ap_key a) (an_hi A)) by ord TO.
    pose proof (nview_char M mp cfg TO _ n A (ap_key a) x a (pv_key p') W Ea Ce (kle_refl M mp cfg hash TO LM _) B3) as Ev.
    apply (Hn (ap_key a) _ K1 K2 Ev).
    + rewrite (vb_live M mp cfg hash TO LM Hmp M0 n A p a (pv_key p')) in L; auto; [destruct (vbundle (rq_bno q) (view_of n A a (pv_key p'))); congruence|].
      apply (piv_off_ok _ _ _ _ _ _ _ W). eapply nth_error_In; eauto.
    + cbn [view_of v_gen]. destruct Pr as (_ & Q2 & _). congruence.
Qed.

(** ** The job after a node *)

Lemma replace_phase : forall st st' j ks out full n A f o any, inv st -> let h := rq_height (j_q j) in let q := j_q j in
  j_ph j = Replace o any -> job_base (views st) (height_of st) (st_next st) j ks out -> phase_ok (views st) j ks out full ->
  nwf h n A -> (forall k, kle (an_lo A) k -> klt k (an_hi A) -> views st h k = nview n k) ->
  kle (an_lo A) (rq_lo q) -> kle (rq_lo q) (an_lo A) -> klt (rq_lo q) (an_hi A) -> kle (an_hi A) (rq_hi q) ->
  (h = 0 -> n_id n = rq_id q) -> (h = 0 -> forall k v, kle (an_lo A) k -> klt k (an_hi A) -> nview n k = Some v -> vbundle (rq_bno q) v <> None) ->
  local st st' h (an_lo A) (an_hi A) -> counts_upd n A q out f ->
  (forall k v v' b, kle (an_lo A) k -> klt k (an_hi A) -> nview n k = Some v -> views st' h k = Some v' -> vbundle (rq_bno q) v' = Some b ->
     vbundle (rq_bno q) v <> None /\ exists fls, b = [AS true [out] fls]) ->
  (forall i lo hi, cell ks i lo hi -> (klt lo (an_hi A) -> f i = count lo hi out) /\ (kle (an_hi A) lo -> f i = 0)) /\
  (forall k v, active (views st') j k v -> (kle (an_hi A) k -> pending_at j ks out full k v) /\ (klt k (an_hi A) -> replaced_at j ks out v)) /\
  bound (views st') h (an_hi A).
Proof.
  intros st st' j ks out full n A f o any Hi h q Eph B Ph W Vn R1 R2 R3 R4 Hid Hleaf Lc [F1 F2] Hnew. pose proof (i_wf _ _ _ _ _ Hi) as T.
  pose proof (jb_height _ _ _ _ _ _ _ _ B) as Lh. fold h in Lh.
  unfold TrunkInv.phase_ok in Ph. rewrite Eph in Ph. fold q h in Ph. destruct Ph as (P1 & P2 & P3 & P4 & P5 & P6).
  assert (Top : forall k, klt k (rq_hi q) -> klt k KPosInf) by (intro k; eapply (base_top M mp cfg hash TO LM Hmp M0); exact B).
  assert (Act : forall k v, kle (an_lo A) k -> klt k (an_hi A) -> nview n k = Some v -> active (views st) j k v).
  { intros k v K1 K2 Ev. split; [ord TO|]. split; [fold q; ord TO|]. fold q h. rewrite Vn by auto. split; [exact Ev|]. intro Z.
    destruct (nview_facts M mp cfg hash TO LM _ n A k W K1 K2) as (w & Ew & _ & _ & _ & Iw & _). rewrite <- Hid by exact Z. congruence. }
  assert (Kn : forall k v, kle (an_lo A) k -> klt k (an_hi A) -> nview n k = Some v -> vbundle (rq_bno q) v <> None -> known j ks v).
  { intros k v K1 K2 Ev Nv. destruct (P6 k v (Act k v K1 K2 Ev)) as [P _]. specialize (P ltac:(ord TO)). unfold TrunkInv.pending_at in P. fold q in P. destruct (vbundle (rq_bno q) v); [|congruence]. apply P. }
  assert (Kc : forall i lo hi k v, cell ks i lo hi -> kle (an_lo A) k -> klt k (an_hi A) -> nview n k = Some v -> vbundle (rq_bno q) v <> None -> generation_to_pos q (v_gen v) = i -> v_lo v = lo /\ v_hi v = hi).
  { intros i lo hi k v Ce K1 K2 Ev Nv Q. destruct (known_pos _ _ _ _ _ _ v B (Kn k v K1 K2 Ev Nv)) as (C & _). fold q in C. rewrite Q in C. unfold cell in *. split; congruence. }
  assert (Vf : forall k v, kle (an_lo A) k -> klt k (an_hi A) -> nview n k = Some v -> view_facts cfg k v /\ v_nlo v = an_lo A /\ v_nhi v = an_hi A).
  { intros k v K1 K2 Ev. destruct (nview_facts M mp cfg hash TO LM _ n A k W K1 K2) as (w & Ew & Fw & N1 & N2 & _). assert (w = v) by congruence. subst w. auto. }
  split; [|split].
  - intros i lo hi Ce. destruct (cell_ends _ _ _ _ _ _ _ _ _ B Ce) as (C1 & C2 & C3 & C4). fold q in C3. destruct (P5 i lo hi Ce) as [P51 P52]. split.
    + intro L. destruct (kle_lt_dec cfg TO (rq_lo q) lo) as [L2|L2].
      * assert (K1 : kle (an_lo A) lo) by ord TO.
        destruct (nview_facts M mp cfg hash TO LM _ n A lo W K1 L) as (v0 & Ev0 & Fv0 & N1 & N2 & _).
        destruct (vbundle (rq_bno q) v0) as [b0|] eqn:Eb0.
        -- assert (Nv : vbundle (rq_bno q) v0 <> None) by congruence. pose proof (Kn lo v0 K1 L Ev0 Nv) as Kv. destruct (known_pos _ _ _ _ _ _ v0 B Kv) as (C & _ & _). fold q in C.
           assert (Ei : generation_to_pos q (v_gen v0) = i).
           { eapply (cell_unique cfg TO ks _ i _ _ lo hi lo (jb_sorted _ _ _ _ _ _ _ _ B) C Ce); [apply (vf_lo _ _ _ Fv0) | apply (vf_hi _ _ _ Fv0) | apply (kle_refl M mp cfg hash TO LM) | exact C2]. }
           destruct (Kc i lo hi lo v0 Ce K1 L Ev0 Nv Ei) as [Q1 Q2]. rewrite <- Ei at 1. rewrite (F1 lo v0 K1 L Ev0 Nv), Q1, Q2. reflexivity.
        -- assert (Nh : h <> 0). { intro Z. apply (Hleaf Z lo v0 K1 L Ev0). exact Eb0. }
           assert (Ef : f i = rq_out q i).
           { apply F2. intros k v K1' K2' Ev Nv Q. destruct (Kc i lo hi k v Ce K1' K2' Ev Nv Q) as [Q1 Q2].
             assert (Ev2 : nview n lo = Some v). { apply (nview_cell M mp cfg hash TO LM _ n A k lo v W K1' K2' Ev); rewrite ?Q1, ?Q2; [apply (kle_refl M mp cfg hash TO LM) | exact C2]. }
             congruence. }
           rewrite Ef, (P52 L2). symmetry. unfold TrunkInv.count. destruct (branch_range cfg lo hi out) as [|e r] eqn:Er; [reflexivity|]. exfalso.
           assert (Ie : In e out /\ key_in cfg lo hi (fst e) = true) by (apply (filter_In (fun e => key_in cfg lo hi (fst e))); fold (branch_range cfg lo hi out); rewrite Er; left; reflexivity).
           destruct Ie as [Ie Ke]. apply (key_in_iff M mp cfg hash TO LM Hmp M0) in Ke. destruct Ke as [Ke1 Ke2].
           assert (Hk : klt (KUser (fst e)) KPosInf) by apply klt_pos_inf.
           destruct (views_some M mp cfg hash TO LM st h (KUser (fst e)) T Lh Hk) as (v & Ev & Fv).
           assert (Av : active (views st) j (KUser (fst e)) v).
           { split; [ord TO|]. split; [fold q; ord TO|]. fold q h. split; [exact Ev|]. intro Z. contradiction. }
           destruct (P6 _ v Av) as [P _]. specialize (P ltac:(ord TO)). unfold TrunkInv.pending_at in P. fold q in P. destruct (vbundle (rq_bno q) v) as [b|] eqn:Eb.
           ++ destruct P as (_ & Kv & _). destruct (known_pos _ _ _ _ _ _ v B Kv) as (C & _ & _). fold q in C.
              assert (Ei : generation_to_pos q (v_gen v) = i).
              { eapply (cell_unique cfg TO ks _ i _ _ lo hi (KUser (fst e)) (jb_sorted _ _ _ _ _ _ _ _ B) C Ce); [apply (vf_lo _ _ _ Fv) | apply (vf_hi _ _ _ Fv) | exact Ke1 | exact Ke2]. }
              rewrite Ei in C. unfold cell in C, Ce. rewrite Ce in C. injection C as Q1 Q2.
              assert (Ev2 : views st h lo = Some v). { apply (views_cell M mp cfg hash TO LM st h (KUser (fst e)) lo v T Lh Hk Ev); rewrite <- ?Q1, <- ?Q2; [apply (kle_refl M mp cfg hash TO LM) | exact C2]. }
              rewrite Vn in Ev2 by auto. congruence.
           ++ specialize (P (fst e) eq_refl). pose proof (jb_out _ _ _ _ _ _ _ _ B) as [Oa _]. destruct e as [ek em]. cbn [fst] in *.
              rewrite (source_single M mp cfg hash TO LM Hmp M0 ek em out Oa Ie) in P. discriminate.
      * rewrite <- (P51 L2). apply F2. intros k v K1 K2 Ev Nv Q. destruct (Kc i lo hi k v Ce K1 K2 Ev Nv Q) as [Q1 Q2]. destruct (Vf k v K1 K2 Ev) as (Fv & N1 & N2).
        pose proof (vf_nlo _ _ _ Fv) as Z. rewrite N1, Q1 in Z. ord TO.
    + intro L. rewrite <- (P52 ltac:(ord TO)). apply F2. intros k v K1 K2 Ev Nv Q. destruct (Kc i lo hi k v Ce K1 K2 Ev Nv Q) as [Q1 Q2]. destruct (Vf k v K1 K2 Ev) as (Fv & N1 & N2).
      pose proof (vf_lo _ _ _ Fv) as Z. rewrite Q1 in Z. ord TO.
  - intros k v' (A1 & A2 & A3 & A4). fold q h in A2, A3, A4.
    destruct (local_back M mp cfg hash TO LM Hmp M0 st st' h _ _ h k v' T Lc Lh (Top k A2) A3) as (v & Ev & I1 & I2 & I3 & I4 & I5 & I6 & I7 & Iout).
    assert (Av : active (views st) j k v). { split; [exact A1|]. split; [exact A2|]. fold q h. split; [exact Ev|]. intro Z. rewrite <- I1. auto. }
    destruct (P6 k v Av) as [Q1 Q2]. split.
    + intro L. rewrite (Iout ltac:(auto)). apply Q1. ord TO.
    + intro L. destruct (kle_lt_dec cfg TO (an_lo A) k) as [L2|L2]; [|rewrite (Iout ltac:(auto)); apply Q2; ord TO].
      rewrite Vn in Ev by auto. intros b Eb. fold q in Eb. destruct (Hnew k v v' b L2 L Ev A3 Eb) as [Nv Sh]. split; [exact Sh|].
      destruct (Kn k v L2 L Ev Nv) as (i & C & Eg). exists i. rewrite I5, I6, I7. auto.
  - assert (Hu : kle (an_hi A) KPosInf). { pose proof (jb_top _ _ _ _ _ _ _ _ B) as [_ Z]. fold q in Z. ord TO. }
    destruct (node_bounds M mp cfg hash TO LM Hmp M0 st h n A T Lh W Hu Vn) as [_ Bh]. eapply (local_bound M mp cfg hash TO LM Hmp M0); eauto.
Qed.

Lemma replace_next : forall st st' j ks out full n A f o any any' j2, inv st -> let h := rq_height (j_q j) in let q := j_q j in
  j_ph j = Replace o any -> job_base (views st) (height_of st) (st_next st) j ks out -> phase_ok (views st) j ks out full ->
  nwf h n A -> (forall k, kle (an_lo A) k -> klt k (an_hi A) -> views st h k = nview n k) ->
  kle (an_lo A) (rq_lo q) -> kle (rq_lo q) (an_lo A) -> klt (rq_lo q) (an_hi A) -> kle (an_hi A) (rq_hi q) ->
  (h = 0 -> n_id n = rq_id q) -> (h = 0 -> forall k v, kle (an_lo A) k -> klt k (an_hi A) -> nview n k = Some v -> vbundle (rq_bno q) v <> None) ->
  local st st' h (an_lo A) (an_hi A) -> counts_upd n A q out f ->
  (forall k v v' b, kle (an_lo A) k -> klt k (an_hi A) -> nview n k = Some v -> views st' h k = Some v' -> vbundle (rq_bno q) v' = Some b ->
     vbundle (rq_bno q) v <> None /\ exists fls, b = [AS true [out] fls]) ->
  (if (data_key_compare cfg (max_key n) (rq_hi q) <? 0)%Z then j2 = Job (j_lo j) (set_lo (max_key n) (set_out f q)) (Replace o any')
   else j2 = Job (j_lo j) (set_lo (j_lo j) (set_out f q)) Build) ->
  alike j j2 /\ job_ok (views st') (height_of st') (st_next st) j2.
Proof.
  intros st st' j ks out full n A f o any any' j2 Hi h q Eph B Ph W Vn R1 R2 R3 R4 Hid Hleaf Lc Cu Hnew E2. pose proof (i_wf _ _ _ _ _ Hi) as T.
  destruct (replace_phase st st' j ks out full n A f o any Hi Eph B Ph W Vn R1 R2 R3 R4 Hid Hleaf Lc Cu Hnew) as (C & D & Bd).
  destruct (rep_min_max M n A (w_rep _ _ _ _ _ _ W)) as [_ Emx].
  unfold TrunkInv.phase_ok in Ph. rewrite Eph in Ph. fold q h in Ph. destruct Ph as (P1 & P2 & P3 & P4 & _).
  destruct (Z.ltb_spec (data_key_compare cfg (max_key n) (rq_hi q)) 0) as [L|L].
  - assert (Al : alike j j2) by (subst j2; repeat split; reflexivity). split; [exact Al|].
    exists ks, out, full. split.
    + apply (base_local M mp cfg hash TO LM Hmp M0 st st' h (an_lo A) (an_hi A) j j2 ks out T Lc B Al); subst j2; reflexivity.
    + subst j2. rewrite Emx in *. assert (L' : klt (an_hi A) (rq_hi q)) by exact L. unfold TrunkInv.phase_ok. cbn [j_q j_ph j_lo set_lo set_out rq_lo rq_hi rq_height rq_out].
      split; [ord TO|]. split; [exact L'|]. split; [exact Bd|]. split; [exact P4|]. split; [exact C|exact D].
  - assert (Al : alike j j2) by (subst j2; repeat split; reflexivity). split; [exact Al|].
    assert (Hu : kle (rq_hi q) (an_hi A)). { rewrite Emx in L. destruct (kle_lt_dec cfg TO (rq_hi q) (an_hi A)) as [Q|Q]; [exact Q|]. unfold TrunkKeys.klt in Q. lia. }
    exists ks, out, full. split.
    + apply (base_local M mp cfg hash TO LM Hmp M0 st st' h (an_lo A) (an_hi A) j j2 ks out T Lc B Al); subst j2; reflexivity.
    + subst j2. unfold TrunkInv.phase_ok. cbn [j_q j_ph j_lo set_lo set_out rq_lo rq_hi rq_height rq_out].
      split; [apply (kle_refl M mp cfg hash TO LM)|]. split; [fold q; ord TO|].
      split; [eapply (local_bound M mp cfg hash TO LM Hmp M0); eauto; [apply (jb_height _ _ _ _ _ _ _ _ B) | apply (jb_bound_lo _ _ _ _ _ _ _ _ B)]|]. split.
      * intros i lo hi Ce. destruct (cell_ends _ _ _ _ _ _ _ _ _ B Ce) as (C1 & C2 & C3 & C4). fold q in C3. apply (C i lo hi Ce). ord TO.
      * intros k v Av. apply (D k v Av). destruct Av as (_ & A2 & _). cbn [j_q set_lo set_out rq_hi] in A2. fold q in A2. ord TO.
Qed.

Lemma local_refl : forall st st' h lo hi, swf st -> h <= height_of st -> kle hi KPosInf -> st_tree st' = st_tree st -> local st st' h lo hi.
Proof.
  intros [t nx ms js] [t' nx' ms' js'] h lo hi T Lh Hu E. cbn in E. subst t'. constructor; auto.
  intros k K1 K2. assert (Hk : klt k KPosInf) by ord TO. destruct (views_some M mp cfg hash TO LM _ h k T Lh Hk) as (v & Ev & _).
  exists v, (v_bno v), (v_whole v), (v_bns v), (v_filt v). split; [exact Ev|]. etransitivity; [exact Ev|]. destruct v; reflexivity.
Qed.

(** A bundle with messages of a key has a filter that answers for the key *)
Lemma sub_hit : forall k s, sub_ok hash k s -> key_messages k (as_brs s) <> [] -> exists f, In f (as_fls s) /\ hits hash k f.
Proof.
  intros k s Hs Ne. unfold sub_ok in Hs. destruct (as_comp s).
  - destruct Hs as (br & E & H). rewrite E, key_messages_one in Ne. auto.
  - destruct Hs as (f & E & H1 & H2). exists f. rewrite E. split; [left; reflexivity|].
    assert (G : forall bs, key_messages k bs <> [] -> exists v br, nth_error bs v = Some br /\ source_messages k br <> []).
    { induction bs as [|x bs IH]; intro N; [elim N; reflexivity|]. destruct (source_messages k x) eqn:Es.
      - unfold key_messages in N, IH. cbn [map concat] in N. rewrite Es in N. destruct (IH N) as (v & br & Q1 & Q2). exists (S v), br. auto.
      - exists 0, x. split; [reflexivity|]. congruence. }
    destruct (G _ Ne) as (v & br & Q1 & Q2). exists v. apply (H2 v br); auto.
Qed.
Lemma bundle_hit : forall k b, Forall (sub_ok hash k) b -> key_messages k (brs_of b) <> [] -> exists f, In f (fls_of b) /\ hits hash k f.
Proof.
  intros k b. induction b as [|s b IH]; intros F N; [elim N; reflexivity|]. inversion F as [|? ? F1 F2]; subst. unfold brs_of, fls_of in *. cbn [flat_map] in *.
  rewrite key_messages_app in N. destruct (key_messages k (as_brs s)) eqn:Es.
  - destruct (IH F2 N) as (f & Q1 & Q2). exists f. split; [apply in_or_app; auto | exact Q2].
  - destruct (sub_hit k s F1) as (f & Q1 & Q2); [congruence|]. exists f. split; [apply in_or_app; auto | exact Q2].
Qed.

Lemma set_nth_mid : forall {X} (p : list X) x y r, set_nth (length p) y (p ++ x :: r) = p ++ y :: r.
Proof.
  intros. unfold set_nth. rewrite firstn_app, firstn_all, Nat.sub_diag. cbn [firstn]. rewrite app_nil_r. f_equal. f_equal.
  replace (S (length p)) with (length (p ++ [x])) by (rewrite app_length; cbn; lia). change (p ++ x :: r) with (p ++ [x] ++ r). rewrite app_assoc.
  rewrite skipn_app, skipn_all, Nat.sub_diag. reflexivity.
Qed.

(** Replacing the bundle by the output *)
Lemma replaced_view : forall k full b out bno v, let x := [AS true [out] (fls_of b)] in let v' := v_set (csub MAX_BUNDLES bno (v_bno v)) x v in
  vbundle bno v = Some b -> out_ok cfg k full b out -> branch_ok out -> v_bno v < MAX_BUNDLES -> (full = true -> v_bno v = bno /\ v_whole v = []) ->
  (forall u, k = KUser u -> view_ok u v -> view_ok u v') /\
  (forall u y, k = KUser u -> (full = true -> y = None) -> replay cfg u (key_messages u (v_branches v')) y = replay cfg u (key_messages u (v_branches v)) y).
Proof.
  intros k full b out bno v x v' Eb Ho Bo Lb Hf. unfold vbundle in Eb. destruct (nth_error_split _ _ Eb) as (p & r & Ep & Lp).
  assert (Ev' : v_bns v' = p ++ x :: r). { subst v'. unfold v_set. cbn [v_with v_bns]. rewrite Ep, <- Lp. apply set_nth_mid. }
  assert (Ew : v_whole v' = v_whole v) by reflexivity. assert (Ef : v_filt v' = v_filt v) by reflexivity. clearbody v'.
  assert (Bx : brs_of x = [out]) by reflexivity. split.
  - intros u Ek (H1 & H2 & H3). unfold TrunkView.view_ok, v_branches in *. rewrite Ev', Ew, Ef. rewrite Ep in H2, H3. rewrite concat_app in *. cbn [concat] in *.
    rewrite !brs_of_app in *. rewrite !Forall_app in *. destruct H2 as (H2a & H2b & H2c). destruct H3 as (H3a & H3b & H3c & H3d). split; [exact H1|]. rewrite Bx. split.
    + split; [exact H2a|]. split; [|exact H2c]. constructor; [|constructor]. unfold sub_ok. cbn [as_comp as_brs as_fls x]. exists out. split; [reflexivity|].
      intro N. apply bundle_hit; auto. apply (Ho u Ek). exact N.
    + split; [exact H3a|]. split; [exact H3b|]. split; [constructor; auto | exact H3d].
  - intros u y Ek Hy. unfold v_branches. rewrite Ev', Ew, Ep. rewrite !concat_app. cbn [concat]. rewrite !brs_of_app, Bx. rewrite !key_messages_app, !key_messages_one, !(replay_app cfg). f_equal.
    apply (Ho u Ek). intro F. destruct (Hf F) as [Q1 Q2]. rewrite Q2.
    assert (p = []). { apply length_zero_iff_nil. rewrite Lp, <- Q1. rewrite <- (cadd_0 MAX_BUNDLES (v_bno v)) at 1 by exact Lb. apply (csub_rep M mp cfg hash TO LM Hmp M0); auto; lia. }
    subst p. cbn [concat brs_of flat_map]. apply Hy. exact F.
Qed.

(** The bundle vanishes *)
Lemma vanished_view : forall k full b v r bno, v_bns v = r ++ [b] -> out_ok cfg k full b [] -> (full = true -> r = [] /\ v_whole v = []) ->
  let v' := v_with v bno (v_whole v) r (v_filt v) in
  (forall u, k = KUser u -> view_ok u v -> view_ok u v') /\
  (forall u y, k = KUser u -> (full = true -> y = None) -> replay cfg u (key_messages u (v_branches v')) y = replay cfg u (key_messages u (v_branches v)) y).
Proof.
  intros k full b v r bno Eb Ho Hf v'. assert (Ev' : v_bns v' = r) by reflexivity. assert (Ew : v_whole v' = v_whole v) by reflexivity. assert (Ef : v_filt v' = v_filt v) by reflexivity. clearbody v'. split.
  - intros u Ek (H1 & H2 & H3). unfold TrunkView.view_ok, v_branches in *. rewrite Ev', Ew, Ef. rewrite Eb in H2, H3. rewrite concat_app in *. rewrite !brs_of_app in *. rewrite !Forall_app in *.
    destruct H2 as (H2a & H2b). destruct H3 as (H3a & H3b & H3c). split; [exact H1|]. split; [exact H2a|]. split; assumption.
  - intros u y Ek Hy. unfold v_branches. rewrite Ev', Ew, Eb. rewrite concat_app. cbn [concat]. rewrite app_nil_r. rewrite brs_of_app, app_assoc. rewrite (key_messages_app u (_ ++ _)), (replay_app cfg).
    destruct (Ho u Ek) as [Q _]. rewrite <- Q; [reflexivity|]. intro F. destruct (Hf F) as [Q1 Q2]. rewrite Q1, Q2. cbn [concat brs_of flat_map app]. apply Hy. exact F.
Qed.

(** A compaction whose output is empty removes the bundle; the code keeps the numbers
    of the other bundles only when it is the last *)
Definition replace_legal (st : state) (i : nat) : Prop :=
  forall j any n, nth_error (st_jobs st) i = Some j -> j_ph j = Replace None any ->
    node_at cfg (height_of st - rq_height (j_q j)) (rq_lo (j_q j)) (st_tree st) = Some n -> bundle_live n (rq_bno (j_q j)) = true ->
    cadd MAX_BUNDLES (rq_bno (j_q j)) 1 = n_ebn n.

Theorem replace_step_inv : forall st i st', inv st -> replace_legal st i -> exec st (ReplaceStep i) = Some st' -> inv st' /\ forall x, content st' x = content st x.
Proof.
  intros st i st' Hi Hl E. pose proof (i_wf _ _ _ _ _ Hi) as T. cbn [TrunkTree.exec] in E.
  destruct (nth_error (st_jobs st) i) as [j|] eqn:Ej; [|discriminate].
  destruct (node_at cfg (height_of st - rq_height (j_q j)) (rq_lo (j_q j)) (st_tree st)) as [n|] eqn:En; [|discriminate].
  destruct (replace_step M cfg n j) as [[n' o]|] eqn:Er; [|discriminate].
  destruct (put_node cfg (height_of st - rq_height (j_q j)) (rq_lo (j_q j)) n' (st_tree st)) as [t'|] eqn:Ep; [|discriminate]. injection E as <-.
  pose proof (i_jobs _ _ _ _ _ Hi) as Fj. rewrite Forall_forall in Fj. destruct (Fj j (nth_error_In _ _ Ej)) as (ks & out & full & B & Ph).
  unfold replace_step in Er. cbv zeta in Er. destruct (j_ph j) as [oo any| |] eqn:Eph; try discriminate.
  remember (j_q j) as q eqn:Eq. remember (rq_height q) as h eqn:Eh.
  pose proof Ph as Ph0. unfold TrunkInv.phase_ok in Ph. rewrite Eph, <- Eq, <- Eh in Ph. destruct Ph as (P1 & P2 & P3 & P4 & P5 & P6).
  pose proof (jb_height _ _ _ _ _ _ _ _ B) as Lh. pose proof (jb_bound_hi _ _ _ _ _ _ _ _ B) as Bh. pose proof (jb_bno _ _ _ _ _ _ _ _ B) as Lb. pose proof (jb_top _ _ _ _ _ _ _ _ B) as [Tl Tu]. rewrite <- Eq, ?Eh in *.
  assert (Hc : klt (rq_lo q) KPosInf) by ord TO.
  destruct (job_node M mp cfg hash TO LM Hmp M0 st j (rq_lo q)) as (n0 & A & En0 & W & EA & R1 & R2 & R3 & R4 & Vn); rewrite <- ?Eq; auto.
  rewrite <- Eq in *. assert (n0 = n) by congruence. subst n0. rewrite <- Eh in *. pose proof (w_height _ _ _ _ _ _ W) as Hh.
  assert (Hu : kle (an_hi A) KPosInf) by ord TO.
  destruct (rep_min_max M n A (w_rep _ _ _ _ _ _ W)) as [_ Emx].
  destruct ((n_height n =? 0) && negb (n_id n =? rq_id q)) eqn:Eid.
  { injection Er as <- <-. assert (t' = st_tree st) by (exact (put_same M mp cfg hash TO LM Hmp M0 st (height_of st - h) (rq_lo q) n t' T ltac:(lia) Hc En Ep)). subst t'. apply (job_quiet M mp cfg hash TO LM Hmp M0 st i j None Hi Ej I). }
  assert (Hid : h = 0 -> n_id n = rq_id q).
  { intro Z. rewrite Hh, Z in Eid. cbn in Eid. apply negb_false_iff in Eid. apply Nat.eqb_eq. exact Eid. }
  assert (Act : forall k v, kle (an_lo A) k -> klt k (an_hi A) -> nview n k = Some v -> active (views st) j k v).
  { intros k v K1 K2 Ev. unfold TrunkInv.active. rewrite <- Eq, <- Eh. split; [ord TO|]. split; [ord TO|]. rewrite Vn by auto. split; [exact Ev|]. intro Z.
    destruct (nview_facts M mp cfg hash TO LM _ n A k W K1 K2) as (w & Ew & _ & _ & _ & Iw & _). rewrite <- Hid by exact Z. congruence. }
  assert (Pend : forall k v, kle (an_lo A) k -> klt k (an_hi A) -> nview n k = Some v -> pending_at j ks out full k v).
  { intros k v K1 K2 Ev. apply (P6 k v (Act k v K1 K2 Ev)). ord TO. }
  assert (Vf : forall k v, kle (an_lo A) k -> klt k (an_hi A) -> nview n k = Some v -> view_facts cfg k v).
  { intros k v K1 K2 Ev. destruct (nview_facts M mp cfg hash TO LM _ n A k W K1 K2) as (w & Ew & Fw & _). congruence. }
  destruct (bundle_live n (rq_bno q)) eqn:El.
  2: { (* not live *)
    destruct (Nat.eqb_spec (n_height n) 0) as [Z|Nz]; [discriminate|].
    assert (Dead : forall k v, kle (an_lo A) k -> klt k (an_hi A) -> nview n k = Some v -> vbundle (rq_bno q) v = None).
    { intros k v K1 K2 Ev. destruct (nview_at M mp cfg TO _ n A k W K1 K2) as (x & a & hi & _ & Ea & _ & Ev' & _). assert (v = view_of n A a hi) by congruence. subst v.
      eapply vbundle_dead; eauto. eapply nth_error_In; eauto. }
    assert (En' : n' = n).
    { destruct (data_key_compare cfg (max_key n) (rq_hi q) <? 0)%Z; [congruence|]. destruct any; congruence. }
    subst n'. assert (t' = st_tree st) by (exact (put_same M mp cfg hash TO LM Hmp M0 st (height_of st - h) (rq_lo q) n t' T ltac:(lia) Hc En Ep)). subst t'.
    apply (job_quiet M mp cfg hash TO LM Hmp M0 st i j o Hi Ej). destruct o as [j2|]; [|exact I].
    eapply (replace_next st st j ks out full n A (rq_out q) oo any any j2 Hi); rewrite <- ?Eq, <- ?Eh; auto.
    - intros Z. congruence.
    - apply local_refl; auto; lia.
    - split; [|reflexivity]. intros k v K1 K2 Ev Nv. rewrite (Dead k v K1 K2 Ev) in Nv. congruence.
    - intros k v v' b K1 K2 Ev Ev' Eb. rewrite Vn in Ev' by auto. assert (v' = v) by congruence. subst v'. rewrite (Dead k v K1 K2 Ev) in Eb. discriminate.
    - replace (set_out (rq_out q) q) with q by (destruct q; reflexivity). destruct (data_key_compare cfg (max_key n) (rq_hi q) <? 0)%Z; [congruence|]. destruct any; congruence. }
  destruct (replace_bundle_branches M cfg n oo q) as [[n1 q1]|] eqn:Eb; [|discriminate].
  assert (En' : n1 = n'). { destruct (data_key_compare cfg (max_key n) (rq_hi q) <? 0)%Z; [congruence|]. destruct (any || _); congruence. } subst n1.
  destruct (bundle_live_inv M n A _ (w_rep _ _ _ _ _ _ W) (w_aok _ _ _ _ _ _ W) Lb El) as (x & Lx & Ex).
  destruct (nth_error (an_bns A) x) as [b|] eqn:Ebx; [|apply nth_error_None in Ebx; lia]. destruct (nth_error_split _ _ Ebx) as (X & Y & EX & LX). subst x.
  assert (Hleaf : h = 0 -> forall k v, kle (an_lo A) k -> klt k (an_hi A) -> nview n k = Some v -> vbundle (rq_bno q) v <> None).
  { intros Z k v K1 K2 Ev. destruct (nview_at M mp cfg TO _ n A k W K1 K2) as (y & a & hi & _ & Ea & _ & Ev' & _). assert (v = view_of n A a hi) by congruence. subst v.
    destruct (w_leaf _ _ _ _ _ _ W Z) as (a0 & Q1 & _ & Q2). rewrite Q1 in Ea. destruct y; [|destruct y; discriminate]. cbn in Ea. injection Ea as <-.
    rewrite Ex, (vbundle_back M mp cfg h n A a0 X Y b hi W ltac:(rewrite Q1; left; reflexivity) EX), Q2. cbn. discriminate. }
  destruct oo as [br|].
  - (* a new branch *)
    assert (Eo : br = out) by (destruct out; congruence). subst br.
    destruct (replace_effect M mp cfg TO _ n A X b Y q out n' q1 W EX Ex Eb) as (Ec & A' & W' & Ek & Hv).
    destruct (record_views _ n A q out q1 W Ec) as (f & Ef & Cu). subst q1.
    assert (Hv2 : forall k v, kle (an_lo A) k -> klt k (an_hi A) -> nview n k = Some v ->
       match vbundle (rq_bno q) v with Some b' => nview n' k = Some (v_set (csub MAX_BUNDLES (rq_bno q) (v_bno v)) [AS true [out] (fls_of b')] v) | None => nview n' k = Some v end).
    { intros k v K1 K2 Ev. destruct (Hv k K1 K2) as (w & Ew & Q). assert (w = v) by congruence. subst w. destruct (vbundle (rq_bno q) v); [|exact Q]. destruct Q as [-> Q]. exact Q. }
    eapply (job_commit M mp cfg hash TO LM Hmp M0 st i j (rq_lo q) n n' A A' t' o Hi Ej); rewrite <- ?Eq, <- ?Eh; auto; [ord TO| |].
    + intros k K1 K2. destruct (nview_facts M mp cfg hash TO LM _ n A k W K1 K2) as (v & Ev & Fv & _).
      specialize (Hv2 k v K1 K2 Ev). pose proof (Pend k v K1 K2 Ev) as Pk. unfold TrunkInv.pending_at in Pk. rewrite <- Eq, <- Eh in Pk. destruct (vbundle (rq_bno q) v) as [b'|] eqn:Ebv.
      * destruct Pk as (Po & Pk & Pf). exists v, (v_bno v), (v_whole v), (set_nth (csub MAX_BUNDLES (rq_bno q) (v_bno v)) [AS true [out] (fls_of b')] (v_bns v)), (v_filt v).
        split; [exact Ev|]. split; [exact Hv2|].
        destruct (replaced_view k full b' out (rq_bno q) v Ebv Po (jb_out _ _ _ _ _ _ _ _ B) (vf_bno _ _ _ Fv)) as [G1 G2]; [intro F; apply Pf in F; tauto|].
        split; [|split; [exact G1|]].
        -- intros bno Lbno Nb. right. split; [|intros _; repeat split; reflexivity].
           pose proof (vb_set M mp cfg hash TO LM bno (rq_bno q) [AS true [out] (fls_of b')] v Lbno Lb (vf_bno _ _ _ Fv) ltac:(congruence)) as Q. destruct (Nat.eqb_spec bno (rq_bno q)); [contradiction|]. exact Q.
        -- intros u y Eu Hy. apply G2; auto. intro F. apply Hy. apply Pf in F. tauto.
      * exists v, (v_bno v), (v_whole v), (v_bns v), (v_filt v). replace (v_with v (v_bno v) (v_whole v) (v_bns v) (v_filt v)) with v by (destruct v; reflexivity).
        split; [exact Ev|]. split; [exact Hv2|]. split; [|split; auto]. intros bno _ _. right. auto.
    + intro Lc. destruct o as [j2|]; [|exact I].
      destruct (put_local M mp cfg hash TO LM Hmp M0 st h (rq_lo q) n n' A' t' T ltac:(lia) Hc En W' ltac:(rewrite Ek, EA; reflexivity) Ep) as (_ & _ & _ & _ & _ & _ & Hst).
      destruct (Hst (St t' (st_next st) (st_mts st) (set_job i (Some j2) (st_jobs st))) eq_refl) as (_ & _ & _ & _ & V3 & _). destruct (akeys_ends A A' Ek) as (Ea1 & Ea2 & _). rewrite Ea1, Ea2 in V3.
      eapply (replace_next st _ j ks out full n A f (Some out) any true j2 Hi); rewrite <- ?Eq, <- ?Eh; auto.
      * intros k v v' b' K1 K2 Ev Ev' Eb'. rewrite V3 in Ev' by auto. specialize (Hv2 k v K1 K2 Ev). destruct (vbundle (rq_bno q) v) as [b0|] eqn:Ebv.
        -- split; [discriminate|]. assert (v' = v_set (csub MAX_BUNDLES (rq_bno q) (v_bno v)) [AS true [out] (fls_of b0)] v) by congruence. subst v'.
           rewrite (vb_set M mp cfg hash TO LM (rq_bno q) (rq_bno q) _ v Lb Lb (vf_bno _ _ _ (Vf k v K1 K2 Ev)) ltac:(congruence)), Nat.eqb_refl in Eb'. injection Eb' as <-. eauto.
        -- assert (v' = v) by congruence. subst v'. congruence.
      * rewrite orb_true_r in Er. destruct (data_key_compare cfg (max_key n) (rq_hi q) <? 0)%Z; congruence.
  - (* nothing left *)
    assert (Eo : out = []) by (destruct out; [reflexivity | discriminate]). subst out.
    assert (Ey : Y = []).
    { specialize (Hl j any n Ej Eph). rewrite <- Eq, <- Eh in Hl. specialize (Hl En El). rewrite Ex, (r_ebn _ _ _ (w_rep _ _ _ _ _ _ W)), EX in Hl. pose proof (ok_bns _ _ (w_aok _ _ _ _ _ _ W)) as Lbn. rewrite EX in Lbn. rewrite app_length in *. cbn [length] in *.
      rewrite cadd_cadd in Hl by lia. assert (length X + 1 = length X + S (length Y)); [|apply length_zero_iff_nil; lia].
      apply (cadd_inj MAX_BUNDLES (n_sbn n)); auto; lia. }
    subst Y. destruct (vanish_effect M mp cfg TO _ n A X b q n' q1 W EX Ex Eb) as (Ec & A' & W' & Ek & Hv). apply record_none in Ec. subst q1.
    assert (Hr : forall k v r, kle (an_lo A) k -> klt k (an_hi A) -> nview n k = Some v -> vbundle (rq_bno q) v <> None -> v_bns v = r ++ [b] -> csub MAX_BUNDLES (rq_bno q) (v_bno v) = length r).
    { intros k v r K1 K2 Ev Nv Er'. destruct (nview_at M mp cfg TO _ n A k W K1 K2) as (y & a & hi & _ & Ea & _ & Ev' & _). assert (v = view_of n A a hi) by congruence. subst v.
      pose proof (nth_error_In _ _ Ea) as Ia. pose proof (off_ok_le _ _ _ (piv_off_ok _ _ _ _ _ _ _ W Ia)) as [_ L2]. cbn [view_of v_bns v_bno] in *.
      assert (Ll : length (skipn (ap_boff a) (an_bns A)) = length r + 1) by (rewrite Er', app_length; reflexivity). rewrite skipn_length, EX, app_length in Ll. cbn [length] in Ll.
      pose proof (ok_bns _ _ (w_aok _ _ _ _ _ _ W)) as Lbn. rewrite EX, app_length in Lbn. cbn [length] in Lbn. rewrite Ex, csub_cadd by (try apply (r_sbn _ _ _ (w_rep _ _ _ _ _ _ W)); lia). lia. }
    assert (Cu : counts_upd n A q [] (rq_out q)).
    { split; [|reflexivity]. intros k v K1 K2 Ev Nv. pose proof (Pend k v K1 K2 Ev) as Pk. unfold TrunkInv.pending_at in Pk. rewrite <- Eq in Pk. destruct (vbundle (rq_bno q) v) as [b0|]; [|congruence]. destruct Pk as (_ & Kv & _).
      destruct (known_pos _ _ _ _ _ _ v B Kv) as (Ce & _). rewrite <- Eq in Ce. destruct (P5 _ _ _ Ce) as [Q1 Q2]. unfold TrunkInv.count in *. cbn in Q1 |- *. destruct (kle_lt_dec cfg TO (rq_lo q) (v_lo v)); auto. }
    eapply (job_commit M mp cfg hash TO LM Hmp M0 st i j (rq_lo q) n n' A A' t' o Hi Ej); rewrite <- ?Eq, <- ?Eh; auto; [ord TO| |].
    + intros k K1 K2. destruct (Hv k K1 K2) as (v & Ev & Q). pose proof (Vf k v K1 K2 Ev) as Fv. pose proof (Pend k v K1 K2 Ev) as Pk. unfold TrunkInv.pending_at in Pk. rewrite <- Eq, <- Eh in Pk. destruct (vbundle (rq_bno q) v) as [b'|] eqn:Ebv.
      * destruct Q as (-> & r & Er' & Ev'). destruct Pk as (Po & Pk & Pf). pose proof (Hr k v r K1 K2 Ev ltac:(congruence) Er') as Ei. exists v, (v_bno v), (v_whole v), r, (v_filt v).
        split; [exact Ev|]. split; [exact Ev'|].
        destruct (vanished_view k full b v r (v_bno v) Er' Po) as [G1 G2].
        { intro F. apply Pf in F. destruct F as (_ & F1 & F2). split; [|exact F2]. apply length_zero_iff_nil. rewrite <- Ei, F1. rewrite <- (cadd_0 MAX_BUNDLES (rq_bno q)) at 1 by exact Lb. apply (csub_rep M mp cfg hash TO LM Hmp M0); auto; lia. }
        split; [|split; [exact G1|]].
        -- intros bno Lbno Nb. right. split; [|intros _; repeat split; reflexivity]. unfold vbundle. cbn [v_with v_bns v_bno]. rewrite Er'.
           assert (Nl : csub MAX_BUNDLES bno (v_bno v) <> length r). { intro Q. apply Nb. apply (csub_inj M mp cfg hash TO LM MAX_BUNDLES bno (rq_bno q) (v_bno v)); auto; [apply (vf_bno _ _ _ Fv) | congruence]. }
           destruct (Nat.lt_ge_cases (csub MAX_BUNDLES bno (v_bno v)) (length r)) as [C|C]; [rewrite nth_error_app1 by exact C; reflexivity|].
           transitivity (@None (list asub)); [apply nth_error_None; exact C | symmetry; apply nth_error_None; rewrite app_length; cbn; lia].
        -- intros u y Eu Hy. apply G2; auto. intro F. apply Hy. apply Pf in F. tauto.
      * destruct Q as (Q1 & Q2 & Ev'). exists v, (rq_bno q), (v_whole v), (v_bns v), (v_filt v). split; [exact Ev|]. split; [exact Ev'|]. split; [|split; auto].
        intros bno _ _. left. unfold vbundle. cbn [v_with v_bns v_bno]. rewrite Q1. split; apply nth_error_None; cbn; lia.
    + intro Lc. destruct o as [j2|]; [|exact I].
      destruct (put_local M mp cfg hash TO LM Hmp M0 st h (rq_lo q) n n' A' t' T ltac:(lia) Hc En W' ltac:(rewrite Ek, EA; reflexivity) Ep) as (_ & _ & _ & _ & _ & _ & Hst).
      destruct (Hst (St t' (st_next st) (st_mts st) (set_job i (Some j2) (st_jobs st))) eq_refl) as (_ & _ & _ & _ & V3 & _). destruct (akeys_ends A A' Ek) as (Ea1 & Ea2 & _). rewrite Ea1, Ea2 in V3.
      eapply (replace_next st _ j ks [] full n A (rq_out q) None any any j2 Hi); rewrite <- ?Eq, <- ?Eh; auto.
      * intros k v v' b' K1 K2 Ev Ev' Eb'. exfalso. rewrite V3 in Ev' by auto. destruct (Hv k K1 K2) as (w & Ew & Q). assert (w = v) by congruence. subst w. destruct (vbundle (rq_bno q) v) as [b0|] eqn:Ebv.
        -- destruct Q as (-> & r & Er' & Ev2). assert (v' = v_with v (v_bno v) (v_whole v) r (v_filt v)) by congruence. subst v'. unfold vbundle in Eb'. cbn [v_with v_bns v_bno] in Eb'.
           rewrite (Hr k v r K1 K2 Ev ltac:(congruence) Er') in Eb'. assert (nth_error r (length r) <> None) by congruence. apply nth_error_Some in H. lia.
        -- destruct Q as (Q1 & Q2 & Ev2). assert (v' = v_with v (rq_bno q) (v_whole v) (v_bns v) (v_filt v)) by congruence. subst v'. unfold vbundle in Eb'. cbn [v_with v_bns v_bno] in Eb'. rewrite Q1 in Eb'. destruct (csub MAX_BUNDLES (rq_bno q) (rq_bno q)); discriminate.
      * rewrite orb_false_r in Er. replace (set_out (rq_out q) q) with q by (destruct q; reflexivity). destruct (data_key_compare cfg (max_key n) (rq_hi q) <? 0)%Z; [congruence|]. destruct any; congruence.
Qed.

End Rep.
