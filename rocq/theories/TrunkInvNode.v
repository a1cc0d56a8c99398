(** * The invariant under changes of one node; incorporation and flushes *)

From Coq Require Import List Arith NArith ZArith Lia Bool Sorted.
From Verif Require Import Base Spec Spec_Merge DataProofs Search.
From Verif Require Import TrunkNode TrunkRing TrunkRep TrunkOps TrunkReset TrunkFlush TrunkClear TrunkReplace TrunkSplit.
From Verif Require Import TrunkAlpha TrunkKeys TrunkView TrunkTree TrunkShape TrunkLookup TrunkEffects TrunkInstall TrunkSplitEff TrunkInv TrunkInvMem.
Import ListNotations.

Set Default Proof Using "All".
Section Node.
Variables (M mp : nat) (cfg : data_config) (hash : bytes -> N).
Hypothesis TO : total_order (key_compare cfg).
Hypothesis LM : lawful_merge cfg.
Hypothesis Hmp : mp <= MAX_PIVOTS.
Hypothesis M0 : 0 < M.
Local Notation klt := (klt cfg).
Local Notation kle := (kle cfg).
Local Notation nwf := (nwf M mp cfg).
Local Notation twf := (twf M mp cfg).
Local Notation nview := (nview M cfg).
Local Notation view_at := (view_at M cfg).
Local Notation branch_ok := (branch_ok cfg).
Local Notation view_ok := (view_ok cfg hash).
Local Notation views := (views M cfg).
Local Notation swf := (swf M mp cfg).
Local Notation content := (content M cfg).
Local Notation job_ok := (job_ok cfg hash).
Local Notation job_base := (job_base cfg hash).
Local Notation inv := (inv M mp cfg hash).
Local Notation exec := (exec M mp cfg hash).
Local Notation bound := (bound cfg).
Local Notation count := (count cfg).
Local Notation excl := (excl cfg).

(** ** One node changes *)

(** Only the views of height [h] between [lo] and [hi] change, and their cells do not *)
Record local (st st' : state) (h : nat) (lo hi : key) : Prop := {
  lc_height : height_of st' = height_of st;
  lc_wf : swf st';
  lc_h : h <= height_of st;
  lc_other : forall e k, e <= height_of st -> e <> h -> klt k KPosInf -> views st' e k = views st e k;
  lc_out : forall k, klt k KPosInf -> klt k lo \/ kle hi k -> views st' h k = views st h k;
  lc_in : forall k, kle lo k -> klt k hi ->
    exists v b w bs f, views st h k = Some v /\ views st' h k = Some (v_with v b w bs f)
}.

Lemma height_twf : forall t h lo hi, twf h t lo hi -> n_height (t_node t) = h.
Proof. intros t h lo hi T. pose proof (twf_nwf _ _ _ _ _ _ _ T) as (W & _). apply (w_height _ _ _ _ _ _ W). Qed.

Lemma put_local : forall st h target n n' A' t', swf st -> h <= height_of st -> klt target KPosInf ->
  node_at cfg (height_of st - h) target (st_tree st) = Some n -> nwf h n' A' -> akeys A' = akeys (alpha M n) ->
  put_node cfg (height_of st - h) target n' (st_tree st) = Some t' ->
  nwf h n (alpha M n) /\ kle (an_lo A') target /\ klt target (an_hi A') /\ kle (an_hi A') KPosInf /\ klt (an_lo A') KPosInf /\
  (forall k, kle (an_lo A') k -> klt k (an_hi A') -> views st h k = nview n k) /\
  forall st', st_tree st' = t' ->
    height_of st' = height_of st /\ swf st' /\
    (forall e k, e <= height_of st -> e <> h -> klt k KPosInf -> views st' e k = views st e k) /\
    (forall k, klt k KPosInf -> klt k (an_lo A') \/ kle (an_hi A') k -> views st' h k = views st h k) /\
    (forall k, kle (an_lo A') k -> klt k (an_hi A') -> views st' h k = nview n' k) /\
    (forall e, e <> height_of st - h -> e <= height_of st -> node_at cfg e target t' = node_at cfg e target (st_tree st)) /\
    node_at cfg (height_of st - h) target t' = Some n'.
Proof.
  intros st h target n n' A' t' T L Ht En W' Ek Ep. set (d := height_of st - h) in *.
  assert (Eh : height_of st - d = h) by (unfold d; lia).
  destruct (put_node_ok M mp cfg TO d (height_of st) (st_tree st) _ _ target n n' A' T (kle_neg_inf cfg target) Ht ltac:(unfold d; lia) En) as
    (t'' & Ep' & T' & Wn & R1 & R2 & R3 & R4 & Vw & Vn & Nn & Nd); [rewrite Eh; exact W' | exact Ek |].
  assert (t'' = t') by congruence. subst t''. rewrite Eh in Wn.
  split; [exact Wn|]. split; [exact R2|]. split; [exact R3|]. split; [exact R4|]. split; [ord TO|]. split.
  { intros k H1 H2. unfold TrunkInv.views. fold d. apply Vn; auto. }
  intros st' Et. assert (EH : height_of st' = height_of st) by (unfold height_of at 1; rewrite Et; eapply height_twf; eauto).
  split; [exact EH|]. split; [unfold TrunkInv.swf; rewrite EH, Et; exact T'|].
  assert (Vw' : forall e k, klt k KPosInf -> views st' e k = TrunkShape.view_at M cfg (height_of st - e) k t') by (intros e k Hk; unfold TrunkInv.views; rewrite EH, Et; reflexivity).
  assert (Inv : forall e k, e <= height_of st -> e <> h -> klt k KPosInf -> views st' e k = views st e k).
  { intros e k Le Ne Hk. rewrite Vw' by exact Hk. rewrite (Vw _ _ (kle_neg_inf cfg k) Hk). destruct (Nat.eqb_spec (height_of st - e) d) as [Q|Q]; [unfold d in Q; lia|]. reflexivity. }
  split; [exact Inv|]. split; [|split; [|split; [exact Nn | exact Nd]]].
  - intros k Hk O. rewrite Vw' by exact Hk. fold d. rewrite (Vw _ _ (kle_neg_inf cfg k) Hk), Nat.eqb_refl.
    destruct (kle_lt_dec cfg TO (an_lo A') k) as [C1|C1]; [|reflexivity]. destruct (kle_lt_dec cfg TO (an_hi A') k) as [C2|C2]; [reflexivity|].
    exfalso. destruct O; ord TO.
  - intros k C1 C2. assert (Hk : klt k KPosInf) by ord TO. rewrite Vw' by exact Hk. fold d. rewrite (Vw _ _ (kle_neg_inf cfg k) Hk), Nat.eqb_refl.
    destruct (kle_lt_dec cfg TO (an_lo A') k) as [C3|C3]; [|exfalso; ord TO]. destruct (kle_lt_dec cfg TO (an_hi A') k) as [C4|C4]; [exfalso; ord TO|]. reflexivity.
Qed.

(** A job other than the one that takes a step *)
Lemma local_job : forall st st' h lo hi nx' j, local st st' h lo hi -> job_ok (views st) (height_of st) (st_next st) j ->
  st_next st <= nx' ->
  (forall k v v', kle lo k -> klt k hi -> views st h k = Some v -> views st' h k = Some v' ->
     h = rq_height (j_q j) -> active cfg (views st) j k v ->
     (vbundle (rq_bno (j_q j)) v' = None /\
       (vbundle (rq_bno (j_q j)) v = None \/ match j_ph j with Replace _ _ => klt k (rq_lo (j_q j)) | _ => True end)) \/
     (vbundle (rq_bno (j_q j)) v' = vbundle (rq_bno (j_q j)) v /\
      (v_bno v = rq_bno (j_q j) -> v_bno v' = v_bno v /\ v_whole v' = v_whole v /\ v_filt v' = v_filt v))) ->
  job_ok (views st') (height_of st') nx' j.
Proof.
  intros st st' h lo hi nx' j L J Hn Hk. pose proof (lc_height _ _ _ _ _ L) as EH.
  eapply (job_keep M mp cfg hash TO LM (views st)); [exact J | lia | exact Hn |]. intros k v' E Hkk.
  assert (Lh : rq_height (j_q j) <= height_of st) by (destruct J as (ks & out & full & B & _); apply (jb_height _ _ _ _ _ _ _ _ B)).
  assert (Same : views st' (rq_height (j_q j)) k = views st (rq_height (j_q j)) k ->
    exists v, views st (rq_height (j_q j)) k = Some v /\ kle (v_nlo v) (v_nlo v') /\ kle (v_nhi v') (v_nhi v) /\
      (rq_height (j_q j) = 0 -> v_id v' = v_id v \/ st_next st <= v_id v') /\
      ((rq_height (j_q j) = 0 -> v_id v' = rq_id (j_q j)) -> kle (j_lo j) k -> klt k (rq_hi (j_q j)) -> keeps cfg j k v v')).
  { intro Q. exists v'. rewrite <- Q. split; [exact E|]. split; [apply (kle_refl M mp cfg hash TO LM)|]. split; [apply (kle_refl M mp cfg hash TO LM)|]. split; [auto|]. intros. apply (keeps_refl M mp cfg hash TO LM). }
  destruct (Nat.eq_dec (rq_height (j_q j)) h) as [Eh|Nh]; [|apply Same; apply (lc_other _ _ _ _ _ L); auto].
  destruct (kle_lt_dec cfg TO lo k) as [C1|C1]; [|apply Same; rewrite Eh; apply (lc_out _ _ _ _ _ L); auto].
  destruct (kle_lt_dec cfg TO hi k) as [C2|C2]; [apply Same; rewrite Eh; apply (lc_out _ _ _ _ _ L); auto|].
  destruct (lc_in _ _ _ _ _ L k C1 C2) as (v & b & w & bs & f & Ev & Ev'). rewrite Eh in *. exists v. split; [exact Ev|].
  assert (v' = v_with v b w bs f) by congruence. subst v'. cbn [v_with v_nlo v_nhi v_id].
  split; [apply (kle_refl M mp cfg hash TO LM)|]. split; [apply (kle_refl M mp cfg hash TO LM)|]. split; [auto|]. intros Hid A1 A2.
  assert (Ac : active cfg (views st) j k v) by (repeat split; auto; rewrite Eh; auto).
  destruct (Hk k v _ C1 C2 Ev Ev' eq_refl Ac) as [Q|[Q1 Q2]].
  - split; [cbn; lia|]. split; [left; reflexivity|]. left. exact Q.
  - split; [cbn; lia|]. split; [left; reflexivity|]. right. split; [exact Q1|]. repeat split; auto; apply Q2; auto.
Qed.

Lemma local_inv : forall st st' h lo hi, inv st -> local st st' h lo hi -> st_next st' = st_next st -> Forall branch_ok (st_mts st') ->
  (forall k v v', kle lo (KUser k) -> klt (KUser k) hi -> views st h (KUser k) = Some v -> views st' h (KUser k) = Some v' -> view_ok k v -> view_ok k v') ->
  Forall (job_ok (views st') (height_of st') (st_next st')) (st_jobs st') -> ForallOrdPairs excl (st_jobs st') -> inv st'.
Proof.
  intros st st' h lo hi Hi L En Fm Hok Fj Fx. pose proof (lc_height _ _ _ _ _ L) as EH. constructor; auto.
  - exact (lc_wf _ _ _ _ _ L).
  - intros e k v Le Ev. rewrite EH in Le. pose proof (klt_pos_inf cfg k) as Hk.
    assert (Same : views st' e (KUser k) = views st e (KUser k) -> view_ok k v) by (intro Q; apply (i_ok _ _ _ _ _ Hi e k v Le); congruence).
    destruct (Nat.eq_dec e h) as [->|N]; [|apply Same; apply (lc_other _ _ _ _ _ L); auto].
    destruct (kle_lt_dec cfg TO lo (KUser k)) as [C1|C1]; [|apply Same; apply (lc_out _ _ _ _ _ L); auto].
    destruct (kle_lt_dec cfg TO hi (KUser k)) as [C2|C2]; [apply Same; apply (lc_out _ _ _ _ _ L); auto|].
    destruct (lc_in _ _ _ _ _ L _ C1 C2) as (w & _ & _ & _ & _ & Ew & _). apply (Hok k w v C1 C2 Ew Ev). apply (i_ok _ _ _ _ _ Hi h k w Le Ew).
  - intros e k v Le Hk Ev. rewrite EH in Le. rewrite En.
    assert (Same : views st' e k = views st e k -> v_id v < st_next st) by (intro Q; apply (i_ids _ _ _ _ _ Hi e k v Le Hk); congruence).
    destruct (Nat.eq_dec e h) as [->|N]; [|apply Same; apply (lc_other _ _ _ _ _ L); auto].
    destruct (kle_lt_dec cfg TO lo k) as [C1|C1]; [|apply Same; apply (lc_out _ _ _ _ _ L); auto].
    destruct (kle_lt_dec cfg TO hi k) as [C2|C2]; [apply Same; apply (lc_out _ _ _ _ _ L); auto|].
    destruct (lc_in _ _ _ _ _ L _ C1 C2) as (w & b & x & bs & f & Ew & Ev'). assert (v = v_with w b x bs f) by congruence. subst v. cbn [v_with v_id].
    apply (i_ids _ _ _ _ _ Hi h k w Le Hk Ew).
Qed.

Lemma node_id_lt : forall st h n A, inv st -> h <= height_of st -> nwf h n A -> klt (an_lo A) KPosInf ->
  (forall k, kle (an_lo A) k -> klt k (an_hi A) -> views st h k = nview n k) -> n_id n < st_next st.
Proof.
  intros st h n A Hi L W Hl Hv. pose proof (nwf_lt M mp cfg hash TO LM Hmp M0 _ _ _ W) as Lt. pose proof (kle_refl M mp cfg hash TO LM (an_lo A)) as R.
  destruct (nview_facts M mp cfg hash TO LM h n A _ W R Lt) as (v & Ev & _ & _ & _ & Ei & _). rewrite <- Ei.
  apply (i_ids _ _ _ _ _ Hi h (an_lo A) v L Hl). rewrite Hv; auto.
Qed.

(** ** Adding a bundle *)

Lemma filt_add_in : forall f fps v x w, In (x, w) (filt_add f fps v) <-> (In x fps /\ w = v) \/ In (x, w) f.
Proof.
  intros. unfold filt_add. rewrite in_app_iff, in_map_iff. split.
  - intros [(y & E & I)|I]; [injection E as <- <-; auto | auto].
  - intros [[I ->]|I]; [left; eauto | auto].
Qed.
Lemma key_in_messages : forall k b, source_messages k b <> [] -> In k (map fst b).
Proof. intros k b H. destruct (in_dec bytes_eq_dec k (map fst b)); auto. rewrite source_messages_none in H by auto. contradiction. Qed.

Lemma memtable_sub_ok : forall k b, sub_ok hash k (AS true [b] [filt_add [] (map (fun e => hash (fst e)) b) 0]).
Proof.
  intros k b. unfold sub_ok. cbn. exists b. split; [reflexivity|]. intro N. eexists. split; [left; reflexivity|]. exists 0. apply filt_add_in. left. split; [|reflexivity].
  apply key_in_messages in N. apply in_map_iff in N. destruct N as (e & <- & I). apply in_map_iff. exists e. auto.
Qed.
Lemma push_ok : forall k l v, view_ok k v -> Forall (sub_ok hash k) l -> Forall branch_ok (brs_of l) -> view_ok k (v_push l v).
Proof.
  intros k l v (H1 & H2 & H3) Hs Hb. unfold TrunkView.view_ok, v_branches, v_push, v_with in *. cbn [v_filt v_whole v_bns] in *.
  rewrite concat_app. cbn [concat]. rewrite app_nil_r. split; [exact H1|]. split; [apply Forall_app; auto|].
  rewrite brs_of_app, app_assoc. apply Forall_app. auto.
Qed.
Lemma push_msgs : forall k l v, key_messages k (v_branches (v_push l v)) = key_messages k (v_branches v) ++ key_messages k (brs_of l).
Proof.
  intros. unfold v_branches, v_push, v_with. cbn [v_whole v_bns]. rewrite concat_app. cbn [concat]. rewrite app_nil_r, brs_of_app, app_assoc.
  apply key_messages_app.
Qed.

(** The jobs when the view of a bundle not theirs is added *)
Lemma push_job : forall st st' h lo hi nx' j bno (l : key -> list asub), swf st -> local st st' h lo hi -> job_ok (views st) (height_of st) (st_next st) j ->
  st_next st <= nx' -> kle hi KPosInf ->
  (forall k v, kle lo k -> klt k hi -> views st h k = Some v -> views st' h k = Some (v_push (l k) v) /\ v_end v = bno) ->
  (rq_height (j_q j) = h -> rq_bno (j_q j) = bno -> kle (rq_hi (j_q j)) lo \/ kle hi (j_lo j) \/ (h = 0 /\ forall k v, kle lo k -> klt k hi -> views st h k = Some v -> v_id v <> rq_id (j_q j))) ->
  job_ok (views st') (height_of st') nx' j.
Proof.
  intros st st' h lo hi nx' j bno l T L J Hn Hhi Hp Hg. eapply local_job; eauto. intros k v v' C1 C2 Ev Ev' Eh Ac.
  destruct (Hp k v C1 C2 Ev) as [E1 E2]. assert (v' = v_push (l k) v) by congruence. subst v'.
  assert (Hk : klt k KPosInf) by ord TO.
  destruct (views_some M mp cfg hash TO LM st h k T (lc_h _ _ _ _ _ L) Hk) as (w & Ew & F). assert (w = v) by congruence. subst w.
  assert (Lb : rq_bno (j_q j) < MAX_BUNDLES) by (destruct J as (ks & out & full & B & _); apply (jb_bno _ _ _ _ _ _ _ _ B)).
  right. split.
  - apply (vb_push M mp cfg hash TO LM); [apply (vf_bno _ _ _ F) | exact Lb | apply (vf_bns _ _ _ F) |]. rewrite E2. intro Q.
    destruct Ac as (A1 & A2 & A3 & A4). destruct (Hg (eq_sym Eh) Q) as [G|[G|[G1 G2]]]; [ord TO | ord TO |].
    apply (G2 k v C1 C2 Ev). apply A4. congruence.
  - intros _. repeat split; reflexivity.
Qed.

(** ** Incorporation *)

(** Room in the ring of subbundle filters, which the code does not check, and no
    outstanding job for the number that the new bundle takes *)
Definition filters_room (n : node) (extra : nat) : Prop := csub MAX_SB_FILTERS (n_efl n) (n_sfl n) + extra < MAX_SB_FILTERS.
Definition bundle_free (js : list job) (h : nat) (n : node) : Prop :=
  Forall (fun j => rq_height (j_q j) = h -> rq_bno (j_q j) = n_ebn n ->
                   kle (rq_hi (j_q j)) (min_key n) \/ kle (max_key n) (j_lo j) \/ (h = 0 /\ n_id n <> rq_id (j_q j))) js.

Lemma csub_rep : forall m s l, s < m -> l < m -> csub m (cadd m s l) s = l.
Proof. intros m s l H H0. rewrite <- (cadd_0 m s H) at 2. rewrite csub_cadd by lia. apply Nat.sub_0_r. Qed.

Theorem incorporate_step : forall st st', inv st -> filters_room (t_node (st_tree st)) 1 ->
  bundle_free (st_jobs st) (height_of st) (t_node (st_tree st)) -> exec st Incorporate = Some st' ->
  inv st' /\ forall x, content st' x = content st x.
Proof.
  intros st st' Hi Gf Gb E. unfold TrunkTree.exec in E. destruct (rev (st_mts st)) as [|b [|b2 rr]] eqn:Er; try discriminate.
  destruct b as [|e0 b0]; [discriminate|]. remember (e0 :: b0) as b eqn:Eqb.
  set (n := t_node (st_tree st)) in *. set (f := filt_add [] (map (fun e => hash (fst e)) b) 0) in *.
  destruct (Nat.ltb_spec (csub M (n_ebr n) (n_sbr n) + 1 + 1) M) as [Lb|_]; [|discriminate].
  destruct (install_new_compacted_subbundle M n b f) as [[bno n']|] eqn:Ei; [|discriminate].
  pose proof (i_wf _ _ _ _ _ Hi) as T. pose proof (twf_nwf _ _ _ _ _ _ _ T) as (W & Ea & Eb). fold n in W, Ea, Eb. set (A := alpha M n) in *.
  pose proof (w_rep _ _ _ _ _ _ W) as R. pose proof (w_aok _ _ _ _ _ _ W) as K.
  pose proof (install_rep M n A b f R K) as Hr. rewrite Ei in Hr. destruct Hr as [L1 Hr].
  rewrite (r_ebr _ _ _ R) in Lb. rewrite csub_rep in Lb by (try apply (r_sbr _ _ _ R); apply (ok_brs _ _ K)).
  unfold filters_room in Gf. rewrite (r_efl _ _ _ R) in Gf. rewrite csub_rep in Gf by (try apply (r_sfl _ _ _ R); apply (ok_fls _ _ K)).
  specialize (Hr ltac:(lia) ltac:(lia)). cbv zeta in Hr. destruct Hr as (R' & K' & Ebno & Eid & Eh & Epg & Esb & Ep).
  set (l := [AS true [b] [f]]) in *.
  pose proof (nwf_add _ _ _ _ _ _ _ _ W R' K' Eh Epg) as W'.
  assert (Hn : node_at cfg (height_of st - height_of st) KNegInf (st_tree st) = Some n) by (rewrite Nat.sub_diag; reflexivity).
  assert (Hp : put_node cfg (height_of st - height_of st) KNegInf n' (st_tree st) = Some (Tr n' (t_kids (st_tree st)))) by (rewrite Nat.sub_diag; reflexivity).
  injection E as <-. set (st' := {| st_tree := Tr n' (t_kids (st_tree st)); st_next := _; st_mts := _; st_jobs := _ |}).
  destruct (put_local st (height_of st) KNegInf n n' (add_bundle A l) _ T (le_n _) ltac:(reflexivity) Hn W' eq_refl Hp) as
    (_ & R1 & R2 & R3 & R4 & Vn & Hst). destruct (Hst st' eq_refl) as (EH & T' & V1 & V2 & V3 & _).
  change (an_lo (add_bundle A l)) with (an_lo A) in *. change (an_hi (add_bundle A l)) with (an_hi A) in *.
  assert (V4 : forall k v, kle (an_lo A) k -> klt k (an_hi A) -> views st (height_of st) k = Some v -> views st' (height_of st) k = Some (v_push l v) /\ v_end v = n_ebn n).
  { intros k v C1 C2 Ev. rewrite Vn in Ev by auto. destruct (add_effect M mp cfg TO _ n A n' l k W W' Eid Epg Esb C1 C2) as (w & Ew & Ew' & Ee).
    assert (w = v) by congruence. subst w. rewrite V3 by auto. auto. }
  assert (Lc : local st st' (height_of st) (an_lo A) (an_hi A)).
  { constructor; auto. intros k C1 C2. destruct (nview_facts M mp cfg hash TO LM _ n A k W C1 C2) as (v & Ev & _). rewrite <- Vn in Ev by auto.
    destruct (V4 k v C1 C2 Ev) as [Ev' _]. exists v. unfold v_push in Ev'. eauto 6. }
  assert (Fm : Forall branch_ok (rev (st_mts st))) by (apply Forall_rev; apply (i_mts _ _ _ _ _ Hi)).
  rewrite Er in Fm. inversion Fm as [|? ? Fb Fm2]; subst x l0.
  assert (Em : st_mts st = removelast (st_mts st) ++ [b]).
  { apply (f_equal (@rev _)) in Er. rewrite rev_involutive in Er. rewrite Er. cbn [rev]. rewrite removelast_last. reflexivity. }
  destruct (rep_min_max _ _ _ R) as [Emin Emax]. destruct (rep_min_max _ _ _ R') as [Emin' Emax'].
  assert (Ez : an_lo A = KNegInf /\ an_hi A = KPosInf) by auto. destruct Ez as [Ez1 Ez2].
  assert (Hin : forall k, klt k KPosInf -> kle (an_lo A) k /\ klt k (an_hi A)) by (intros k Hk; rewrite Ez1, Ez2; split; [apply kle_neg_inf | exact Hk]).
  split.
  - apply (local_inv st st' (height_of st) (an_lo A) (an_hi A) Hi Lc eq_refl).
    + cbn [st' st_mts]. pose proof (i_mts _ _ _ _ _ Hi) as F. rewrite Em in F. apply Forall_app in F. apply F.
    + intros k v v' C1 C2 Ev Ev' Hv. destruct (V4 _ v C1 C2 Ev) as [E' _]. assert (v' = v_push l v) by congruence. subst v'.
      apply push_ok; auto; [constructor; [apply memtable_sub_ok | constructor] | constructor; [exact Fb | constructor]].
    + cbn [st' st_jobs]. change (st_next st') with (st_next st). apply Forall_app. split.
      * rewrite Forall_forall. intros j Ij. pose proof (i_jobs _ _ _ _ _ Hi) as Fj. rewrite Forall_forall in Fj.
        eapply (push_job st st' (height_of st) _ _ _ j (n_ebn n) (fun _ => l) T Lc (Fj j Ij) (le_n _)); [rewrite Ez2; apply kle_pos_inf | exact V4 |].
        intros Q1 Q2. unfold bundle_free in Gb. rewrite Forall_forall in Gb. rewrite Ez1, Ez2. specialize (Gb j Ij Q1 Q2). rewrite Emin, Emax, Ez1, Ez2 in Gb.
        destruct Gb as [G|[G|[G1 G2]]]; auto. right. right. split; [exact G1|]. intros k v _ Hk Ev. destruct (Hin k Hk) as [C1 C2].
        destruct (nview_facts M mp cfg hash TO LM _ n A k W C1 C2) as (w & Ew & _ & _ & _ & Eid' & _). rewrite Vn in Ev by auto. assert (w = v) by congruence. subst w. congruence.
      * constructor; [|constructor]. exists (akeys (add_bundle A l)), b, false.
        assert (Gens : rq_gens (j_q (memtable_job cfg hash n' bno b)) = gens_of n') by reflexivity.
        split.
        -- apply (start_base M mp cfg hash TO LM Hmp M0 st' (height_of st) n' (add_bundle A l)); auto.
           ++ rewrite EH. lia.
           ++ change (st_next st') with (st_next st). rewrite Eid. apply (node_id_lt st (height_of st) n A Hi (le_n _) W R4 Vn).
           ++ cbn. rewrite Ebno. rewrite (r_ebn _ _ _ R). apply cadd_lt. auto.
           ++ intros e Ie. apply Hin. apply klt_pos_inf.
        -- unfold phase_ok. cbn [memtable_job j_q j_ph j_lo rq_lo rq_hi rq_height]. rewrite Emin', Emax'. change (an_lo (add_bundle A l)) with (an_lo A). change (an_hi (add_bundle A l)) with (an_hi A).
           split; [apply (kle_refl M mp cfg hash TO LM)|]. split; [apply (nwf_lt M mp cfg hash TO LM Hmp M0 _ _ _ W)|].
           destruct (node_bounds M mp cfg hash TO LM Hmp M0 st' (height_of st) n' (add_bundle A l) T' ltac:(rewrite EH; lia) W' R3 V3) as [B1 B2].
           split; [rewrite Eh, (w_height _ _ _ _ _ _ W); exact B1|]. split.
           ++ intros i lo hi Hc. cbn [memtable_job j_q rq_out]. apply (counts_of_spec M mp cfg hash TO LM Hmp M0 _ n' _ b i lo hi W' Hc).
           ++ intros k v (A1 & A2 & A3 & A4) bb Ebb. cbn [memtable_job j_q j_lo rq_hi rq_height rq_bno] in *.
              rewrite Emin' in A1. rewrite Emax' in A2. change (an_lo (add_bundle A l)) with (an_lo A) in *. change (an_hi (add_bundle A l)) with (an_hi A) in *.
              rewrite Eh, (w_height _ _ _ _ _ _ W) in A3.
              destruct (nview_facts M mp cfg hash TO LM _ n A k W A1 A2) as (w & Ew & Fw & _). pose proof Ew as Ew2. rewrite <- Vn in Ew2 by auto.
              destruct (V4 k w A1 A2 Ew2) as [E1 E2]. assert (v = v_push l w) by congruence. subst v.
              split.
              ** exists [f]. unfold vbundle, v_push, v_with in Ebb. cbn [v_bns v_bno] in Ebb. rewrite Ebno, <- E2 in Ebb. unfold v_end in Ebb.
                 rewrite csub_rep in Ebb by (try apply (vf_bno _ _ _ Fw); apply (vf_bns _ _ _ Fw)). rewrite nth_error_app2, Nat.sub_diag in Ebb by lia. injection Ebb as <-. reflexivity.
              ** rewrite V3 in E1 by auto. exact (start_known M mp cfg hash TO LM Hmp M0 _ n' (add_bundle A l) (memtable_job cfg hash n' bno b) k (v_push l w) W' Gens A1 A2 E1).
    + cbn [st' st_jobs]. apply (excl_snoc M mp cfg hash TO LM Hmp M0); [apply (i_excl _ _ _ _ _ Hi)|]. rewrite Forall_forall. intros j Ij. unfold bundle_free in Gb. rewrite Forall_forall in Gb. specialize (Gb j Ij).
      unfold TrunkInv.excl. cbn [memtable_job j_q j_lo rq_hi rq_height rq_bno rq_id]. rewrite Eh, (w_height _ _ _ _ _ _ W), Ebno, Emin', Emax', Eid.
      change (an_lo (add_bundle A l)) with (an_lo A). change (an_hi (add_bundle A l)) with (an_hi A). rewrite Emin, Emax in Gb.
      destruct (Nat.eq_dec (rq_height (j_q j)) (height_of st)) as [Q1|Q1]; [|auto]. destruct (Nat.eq_dec (rq_bno (j_q j)) (n_ebn n)) as [Q2|Q2]; [|auto].
      destruct (Gb Q1 Q2) as [G|[G|[G1 G2]]]; auto. right. right. right. right. split; [congruence | auto].
  - intro x. rewrite !(content_eq M mp cfg hash TO LM Hmp M0), EH. rewrite !(msgs_split M mp cfg hash TO LM Hmp M0 _ _ (height_of st)) by lia. rewrite Nat.sub_diag. change (seq (S (height_of st)) 0) with (@nil nat).
    cbn [map concat]. rewrite !app_nil_r. rewrite (msgs_ext M mp cfg hash TO LM Hmp M0 (views st) (views st')) by (intros e I; apply in_seq in I; apply V1; [lia | lia | apply klt_pos_inf]).
    destruct (Hin (KUser x) (klt_pos_inf cfg x)) as [C1 C2]. destruct (nview_facts M mp cfg hash TO LM _ n A _ W C1 C2) as (v & Ev & _). rewrite <- Vn in Ev by auto.
    destruct (V4 _ v C1 C2 Ev) as [Ev' _]. rewrite Ev, Ev'. cbn [vmsgs]. rewrite push_msgs. rewrite Er. cbn [st' st_mts].
    assert (Er' : rev (removelast (st_mts st)) = b2 :: rr). { rewrite Em, rev_app_distr in Er. cbn in Er. congruence. }
    rewrite Er'. rewrite (key_messages_cons x b). f_equal. change (brs_of l) with [b]. rewrite key_messages_one. rewrite <- !app_assoc. reflexivity.
Qed.

End Node.
