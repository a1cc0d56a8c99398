(** * The invariant under flushes *)

From Coq Require Import List Arith NArith ZArith Lia Bool Sorted.
From Verif Require Import Base Spec Spec_Merge DataProofs Search.
From Verif Require Import TrunkNode TrunkRing TrunkRep TrunkOps TrunkReset TrunkFlush TrunkClear TrunkReplace TrunkSplit.
From Verif Require Import TrunkAlpha TrunkKeys TrunkView TrunkTree TrunkShape TrunkLookup TrunkEffects TrunkInstall TrunkSplitEff TrunkInv TrunkInvMem TrunkInvNode.
Import ListNotations.

Set Default Proof Using "All".
Section Flush.
Variables (M mp : nat) (cfg : data_config) (hash : bytes -> N).
Hypothesis TO : total_order (key_compare cfg).
Hypothesis LM : lawful_merge cfg.
Hypothesis Hmp : mp <= MAX_PIVOTS.
Hypothesis M0 : 0 < M.
Local Notation klt := (klt cfg).
Local Notation kle := (kle cfg).
Local Notation nwf := (nwf M mp cfg).
Local Notation twf := (twf M mp cfg).
Local Notation nview := (nview M cfg).
Local Notation view_at := (view_at M cfg).
Local Notation branch_ok := (branch_ok cfg).
Local Notation view_ok := (view_ok cfg hash).
Local Notation views := (views M cfg).
Local Notation swf := (swf M mp cfg).
Local Notation content := (content M cfg).
Local Notation job_ok := (job_ok cfg hash).
Local Notation job_base := (job_base cfg hash).
Local Notation inv := (inv M mp cfg hash).
Local Notation exec := (exec M mp cfg hash).
Local Notation bound := (bound cfg).
Local Notation count := (count cfg).
Local Notation excl := (excl cfg).
Local Notation local := (local M mp cfg).

Lemma flushed_view : forall n A a hi, flushed A a = v_rebundled (view_of n A a hi).
Proof.
  intros. unfold flushed, v_rebundled. cbn [view_of v_whole v_bns v_filt].
  destruct (Nat.ltb_spec (ap_off a) (length (an_whole A))) as [L|L].
  - destruct (skipn (ap_off a) (an_whole A)) eqn:E; [|reflexivity]. apply (f_equal (@length _)) in E. rewrite skipn_length in E. cbn in E. lia.
  - rewrite (skipn_all2 (an_whole A)) by exact L. reflexivity.
Qed.
Lemma rebundled_brs : forall v, brs_of (v_rebundled v) = v_branches v.
Proof. intro v. unfold v_rebundled, v_branches. destruct (v_whole v); reflexivity. Qed.
Lemma flushed_count : forall A a, off_ok A (ap_off a) (ap_boff a) -> nbr (flushed A a) = length (brs A) - ap_off a.
Proof.
  intros A a O. rewrite (flushed_view (first_node 0 0) A a KPosInf). unfold nbr. rewrite rebundled_brs. unfold v_branches. cbn [view_of v_whole v_bns].
  rewrite app_length, skipn_length. unfold brs, subs. rewrite app_length.
  rewrite <- (firstn_skipn (ap_boff a) (an_bns A)) at 2. rewrite concat_app, brs_of_app, app_length.
  destruct O as [[O1 O2]|O].
  - rewrite O1. cbn [firstn concat]. cbn. lia.
  - destruct O as (_ & _ & O). unfold nbr in O. lia.
Qed.
Lemma content_same : forall st st' k, height_of st' = height_of st -> st_mts st' = st_mts st ->
  (forall e, e <= height_of st -> views st' e (KUser k) = views st e (KUser k)) -> content st' k = content st k.
Proof.
  intros st st' k EH Em Hv. apply (content_one M mp cfg hash TO LM Hmp M0 st st' k 0); auto; [lia|]. intros x _. rewrite Hv by lia. reflexivity.
Qed.

(** A bundle of the node is live for the pivot exactly if the view has it *)
Lemma vb_live : forall n A p a hi bno, rep M n A -> aok M A -> piv_rep M n p a -> off_ok A (ap_off a) (ap_boff a) ->
  bundle_live_for_pivot n bno p = match vbundle bno (view_of n A a hi) with Some _ => true | None => false end.
Proof.
  intros n A p a hi bno R K (_ & _ & _ & _ & E) O. unfold bundle_live_for_pivot, vbundle. cbn [view_of v_bns v_bno]. rewrite E, (r_ebn _ _ _ R).
  pose proof (off_ok_le _ _ _ O) as [_ L]. pose proof (ok_bns _ _ K). rewrite csub_cadd by lia.
  destruct (Nat.ltb_spec (csub MAX_BUNDLES bno (cadd MAX_BUNDLES (n_sbn n) (ap_boff a))) (length (an_bns A) - ap_boff a)) as [Q|Q].
  - destruct (nth_error _ _) eqn:Z; [reflexivity|]. apply nth_error_None in Z. rewrite skipn_length in Z. lia.
  - destruct (nth_error _ _) eqn:Z; [|reflexivity]. assert (Z' : nth_error (skipn (ap_boff a) (an_bns A)) (csub MAX_BUNDLES bno (cadd MAX_BUNDLES (n_sbn n) (ap_boff a))) <> None) by congruence.
    apply nth_error_Some in Z'. rewrite skipn_length in Z'. lia.
Qed.

(** No compaction that has still to replace a bundle of the pivot *)
Definition pivot_settled (js : list job) (h : nat) (n : node) (p : pivot) (lo hi : key) : Prop :=
  Forall (fun j => rq_height (j_q j) = h -> match j_ph j with Replace _ _ => True | _ => False end ->
                   bundle_live_for_pivot n (rq_bno (j_q j)) p = true -> kle hi (rq_lo (j_q j)) \/ kle (rq_hi (j_q j)) lo) js.

Definition flush_legal (st : state) (d : nat) (target : key) : Prop :=
  d < height_of st /\ klt target KPosInf /\
  forall n kids i p c v, subtree_at cfg d target (st_tree st) = Some (Tr n kids) -> route cfg n target = Some i ->
    get_pivot n i = Some p -> nth_error kids i = Some c -> nview n target = Some v ->
    filters_room (t_node c) (length (fls_of (v_rebundled v))) /\
    bundle_free cfg (st_jobs st) (n_height (t_node c)) (t_node c) /\
    pivot_settled (st_jobs st) (n_height n) n p (min_key (t_node c)) (max_key (t_node c)).

Theorem flush_step : forall st st' d target, inv st -> flush_legal st d target -> exec st (Flush d target) = Some st' ->
  inv st' /\ (forall x, content st' x = content st x).
Proof.
  intros st st' d target Hi (Ld & Ht & G) E. pose proof (i_wf _ _ _ _ _ Hi) as T. unfold TrunkTree.exec in E.
  destruct (subtree_ok M mp cfg TO d _ _ _ _ target T (kle_neg_inf cfg target) Ht ltac:(lia)) as (s & na & nb & Es & Ts & R1 & R2 & R3 & R4).
  rewrite Es in E. destruct s as [n kids]. set (H := height_of st) in *. remember (H - d - 1) as hc eqn:Ehc. assert (Ehp : H - d = S hc) by lia. rewrite Ehp in Ts.
  destruct (child_at M mp cfg TO _ _ _ _ target Ts R2 R3) as (i & c & lo & hi & Er & Ec & Ei & Tc & C1 & C2). cbn [t_node t_kids] in *.
  rewrite Er in E. destruct (get_pivot n i) as [p|] eqn:Ep; [|discriminate]. rewrite Ec in E.
  destruct (room_to_flush M n p (t_node c)) eqn:Rm; [|discriminate].
  destruct (flush_into_bundle M n i (t_node c)) as [[[bno n'] c']|] eqn:Ef; [|discriminate].
  destruct (put_node cfg (S d) target c' (st_tree st)) as [t1|] eqn:P1; [|discriminate].
  destruct (put_node cfg d target n' t1) as [t2|] eqn:P2; [|discriminate]. cbn [with_tree] in E. injection E as <-.
  pose proof (twf_nwf _ _ _ _ _ _ _ Ts) as (Wn & Ena & Enb). cbn [t_node] in *. set (P := alpha M n) in *.
  pose proof (twf_nwf _ _ _ _ _ _ _ Tc) as (Wc & Eca & Ecb). set (C := alpha M (t_node c)) in *.
  destruct (nview_at M mp cfg TO _ n P target Wn ltac:(rewrite Ena; exact R2) ltac:(rewrite Enb; exact R3)) as (i' & a & b & Er' & Ea & Ei' & Ev & _ & _).
  assert (i' = i) by congruence. subst i'. pose proof Ei' as Ei2. rewrite Ei in Ei'. injection Ei' as Elo Ehi. subst b. assert (Char : forall k, kle lo k -> klt k hi -> nview n k = Some (view_of n P a hi)) by (intros k D1 D2; apply (nview_char M mp cfg TO _ n P k i a hi Wn Ea Ei2); [rewrite <- Elo; exact D1 | exact D2]).
  set (vp := view_of n P a hi) in *. specialize (G n kids i p c vp Es Er Ep Ec Ev). destruct G as (G1 & G2 & G3).
  pose proof (w_rep _ _ _ _ _ _ Wn) as Rn. pose proof (w_aok _ _ _ _ _ _ Wn) as Kn. pose proof (w_rep _ _ _ _ _ _ Wc) as Rc. pose proof (w_aok _ _ _ _ _ _ Wc) as Kc.
  pose proof (piv_off_ok _ _ _ _ _ _ _ Wn (nth_error_In _ _ Ea)) as Oa.
  assert (Pr : piv_rep M n p a).
  { destruct (r_piv _ _ _ Rn) as (ps & last & E1 & _ & F). destruct (Forall2_nth _ _ _ F i a Ea) as (q & Eq & Q). unfold get_pivot in Ep. rewrite E1 in Ep.
    rewrite nth_error_app1 in Ep by (apply nth_error_Some; congruence). assert (q = p) by congruence. subst q. exact Q. }
  unfold room_to_flush in Rm. apply andb_true_iff in Rm. destruct Rm as [Rm _]. apply andb_true_iff in Rm. destruct Rm as [Rm _]. apply Nat.ltb_lt in Rm.
  rewrite (r_ebr _ _ _ Rc) in Rm. rewrite (csub_rep M mp cfg hash TO LM Hmp M0) in Rm by (try apply (r_sbr _ _ _ Rc); apply (ok_brs _ _ Kc)).
  pose proof Pr as (Pk & Pg & Pf & Psbr & Psbn). rewrite Psbr, (r_ebr _ _ _ Rn) in Rm. pose proof (off_ok_le _ _ _ Oa) as [Lo1 Lo2]. pose proof (ok_brs _ _ Kn) as Lbr.
  rewrite csub_cadd in Rm by lia. rewrite <- (flushed_count P a Oa) in Rm.
  unfold filters_room in G1. rewrite (r_efl _ _ _ Rc) in G1. rewrite (csub_rep M mp cfg hash TO LM Hmp M0) in G1 by (try apply (r_sfl _ _ _ Rc); apply (ok_fls _ _ Kc)).
  unfold vp in G1. rewrite <- (flushed_view n P a hi) in G1.
  pose proof (flush_rep M n P (t_node c) C i a Rn Kn Rc Kc Ea Rm G1) as Fr. rewrite Ef in Fr.
  destruct Fr as (Eb & NE & Rc' & Kc' & (Fid & Fh & Fpg & Fsb & _ & Fpv) & (p1 & Ep1 & Pr1 & En')).
  assert (p1 = p) by congruence. subst p1. rewrite (flushed_view n P a hi) in Rc', Kc', NE. fold vp in Rc', Kc', NE. set (l := v_rebundled vp) in *.
  pose proof (nwf_add _ _ _ _ _ _ _ _ Wc Rc' Kc' Fh Fpg) as Wc'.
  assert (Lc : hc <= height_of st) by (fold H; lia).
  assert (Sd : height_of st - hc = S d) by (fold H; lia). assert (Sd' : height_of st - S hc = d) by (fold H; lia).
  assert (Nc : node_at cfg (height_of st - hc) target (st_tree st) = Some (t_node c)).
  { rewrite Sd. unfold node_at. replace (S d) with (d + 1) by lia. rewrite subtree_add, Es. cbn [subtree_at t_node t_kids]. rewrite Er, Ec. reflexivity. }
  assert (Pc : put_node cfg (height_of st - hc) target c' (st_tree st) = Some t1) by (rewrite Sd; exact P1).
  destruct (put_local M mp cfg hash TO LM Hmp M0 st hc target (t_node c) c' (add_bundle C l) t1 T Lc Ht Nc Wc' eq_refl Pc) as (_ & Q1 & Q2 & Q3 & Q4 & Vc & Hst).
  change (an_lo (add_bundle C l)) with (an_lo C) in *. change (an_hi (add_bundle C l)) with (an_hi C) in *. rewrite Eca, Ecb in *.
  set (st1 := {| st_tree := t1; st_next := st_next st; st_mts := st_mts st; st_jobs := st_jobs st |}).
  destruct (Hst st1 eq_refl) as (EH1 & T1 & V1 & V2 & V3 & N1 & N2). clear Hst.
  assert (V4 : forall k v, kle lo k -> klt k hi -> views st hc k = Some v -> views st1 hc k = Some (v_push l v) /\ v_end v = n_ebn (t_node c)).
  { intros k v D1 D2 Evk. rewrite Vc in Evk by auto. destruct (add_effect M mp cfg TO _ (t_node c) C c' l k Wc Wc' Fid Fpg Fsb ltac:(rewrite Eca; exact D1) ltac:(rewrite Ecb; exact D2)) as (w & Ew & Ew' & Ee).
    assert (w = v) by congruence. subst w. rewrite V3 by auto. auto. }
  assert (L1 : local st st1 hc lo hi).
  { constructor; auto. intros k D1 D2. destruct (nview_facts M mp cfg hash TO LM _ (t_node c) C k Wc ltac:(rewrite Eca; exact D1) ltac:(rewrite Ecb; exact D2)) as (v & Evk & _).
    rewrite <- Vc in Evk by auto. destruct (V4 k v D1 D2 Evk) as [Ev' _]. exists v. unfold v_push in Ev'. eauto 6. }
  (* the parent's cell *)
  assert (Npar : node_at cfg (height_of st - S hc) target (st_tree st) = Some n) by (rewrite Sd'; unfold node_at; rewrite Es; reflexivity).
  assert (Vp : forall k, kle lo k -> klt k hi -> views st (S hc) k = Some vp).
  { intros k D1 D2. unfold TrunkInv.views. rewrite Sd'. unfold TrunkShape.view_at.
    destruct (cell_in_range cfg TO P lo hi (w_sorted _ _ _ _ _ _ Wn) (nth_error_In _ _ Ei)) as (B1 & B2 & _). rewrite Ena in B1. rewrite Enb in B2.
    rewrite (subtree_range M mp cfg TO d _ _ _ _ target k (Tr n kids) na nb T (kle_neg_inf cfg target) Ht ltac:(fold H; lia) Es); [| fold H; rewrite Ehp; exact Ts | ord TO | ord TO].
    cbn [t_node]. apply Char; auto. }
  assert (Vpok : forall k, kle lo (KUser k) -> klt (KUser k) hi -> view_ok k vp).
  { intros k D1 D2. apply (i_ok _ _ _ _ _ Hi (S hc) k vp); [fold H; lia|]. apply Vp; auto. }
  assert (I1 : inv st1).
  { apply (local_inv M mp cfg hash TO LM Hmp M0 st st1 hc lo hi Hi L1 eq_refl (i_mts _ _ _ _ _ Hi)).
    - intros k v v' D1 D2 Evk Ev' Hv. destruct (V4 _ v D1 D2 Evk) as [E' _]. assert (v' = v_push l v) by congruence. subst v'.
      destruct (Vpok k D1 D2) as (O1 & O2 & O3). apply (push_ok M mp cfg hash TO LM Hmp M0); auto.
      + unfold l, v_rebundled. destruct (v_whole vp) as [|w0 wr] eqn:Ew; [exact O2|]. constructor; [|exact O2].
        unfold sub_ok. cbn [as_comp as_fls as_brs]. exists (v_filt vp). split; [reflexivity | exact O1].
      + unfold l. rewrite rebundled_brs. exact O3.
    - rewrite Forall_forall. intros j Ij. pose proof (i_jobs _ _ _ _ _ Hi) as Fj. rewrite Forall_forall in Fj.
      eapply (push_job M mp cfg hash TO LM Hmp M0 st st1 hc lo hi _ j (n_ebn (t_node c)) (fun _ => l) T L1 (Fj j Ij) (le_n _) Q3 V4).
      intros Z1 Z2. unfold bundle_free in G2. rewrite Forall_forall in G2. rewrite (w_height _ _ _ _ _ _ Wc) in G2. destruct (rep_min_max _ _ _ Rc) as [Emn Emx].
      specialize (G2 j Ij Z1 Z2). rewrite Emn, Emx, Eca, Ecb in G2. destruct G2 as [Z|[Z|[Z3 Z4]]]; auto. right. right. split; [exact Z3|].
      intros k v D1 D2 Evk. rewrite Vc in Evk by auto. destruct (nview_facts M mp cfg hash TO LM _ (t_node c) C k Wc ltac:(rewrite Eca; exact D1) ltac:(rewrite Ecb; exact D2)) as (w & Ew & _ & _ & _ & Eid & _).
      assert (w = v) by congruence. subst w. congruence.
    - exact (i_excl _ _ _ _ _ Hi). }
  destruct (clear_effect M mp cfg TO _ n P i a p Wn ltac:(lia) Ea Ep Pr) as (P' & Wn' & Ek & Hcl). rewrite <- En' in Wn', Hcl.
  assert (Npar1 : node_at cfg (height_of st1 - S hc) target (st_tree st1) = Some n).
  { rewrite EH1, Sd'. change (st_tree st1) with t1. rewrite N1; [rewrite <- Sd'; exact Npar | lia | fold H; lia]. }
  assert (Pp1 : put_node cfg (height_of st1 - S hc) target n' (st_tree st1) = Some t2) by (rewrite EH1, Sd'; exact P2).
  destruct (put_local M mp cfg hash TO LM Hmp M0 st1 (S hc) target n n' P' t2 T1 ltac:(rewrite EH1; fold H; lia) Ht Npar1 Wn' Ek Pp1) as (_ & U1 & U2 & U3 & U4 & Vn & Hst).
  set (st2 := {| st_tree := t2; st_next := st_next st; st_mts := st_mts st; st_jobs := st_jobs st |}).
  destruct (Hst st2 eq_refl) as (EH2 & T2 & X1 & X2 & X3 & _ & _). clear Hst.
  destruct (akeys_ends _ _ Ek) as (El & Eh' & _). rewrite Ena in El. rewrite Enb in Eh'. rewrite El, ?Eh' in *.
  destruct (cell_in_range cfg TO P lo hi (w_sorted _ _ _ _ _ _ Wn) (nth_error_In _ _ Ei)) as (B1 & B2 & _). rewrite Ena in B1. rewrite Enb in B2.
  assert (X4 : forall k, kle lo k -> klt k hi -> views st1 (S hc) k = Some vp /\ views st2 (S hc) k = Some (v_clear vp)).
  { intros k D1 D2. assert (Hk : klt k KPosInf) by ord TO. split; [rewrite V1; [apply Vp; auto | fold H; lia | lia | exact Hk]|].
    rewrite X3 by ord TO. destruct (Hcl k ltac:(rewrite Ena; ord TO) ltac:(rewrite Enb; ord TO)) as (w & Ew & Ew').
    rewrite (Char k D1 D2) in Ew. injection Ew as <-.
    rewrite (route_at M mp cfg TO _ n P k i lo hi Wn Ei D1 D2), Nat.eqb_refl in Ew'. exact Ew'. }
  assert (L2 : local st1 st2 (S hc) lo hi).
  { constructor; auto.
    - rewrite EH1. fold H. lia.
    - intros k Hk O. destruct (kle_lt_dec cfg TO na k) as [D1|D1]; [|apply X2; auto]. destruct (kle_lt_dec cfg TO nb k) as [D2|D2]; [apply X2; auto|].
      rewrite X3, Vn by auto. destruct (Hcl k ltac:(rewrite Ena; exact D1) ltac:(rewrite Enb; exact D2)) as (w & Ew & Ew'). rewrite Ew, Ew'. f_equal.
      destruct (route cfg n k) as [jj|] eqn:Erk; [|reflexivity]. destruct (Nat.eqb_spec jj i) as [->|]; [|reflexivity]. exfalso.
      destruct (nview_at M mp cfg TO _ n P k Wn ltac:(rewrite Ena; exact D1) ltac:(rewrite Enb; exact D2)) as (i2 & a2 & b2 & Er2 & _ & Ei9 & _ & Hp2 & Hb2).
      assert (i2 = i) by congruence. subst i2. rewrite Ei in Ei9. injection Ei9 as E1 E2. rewrite <- E1 in Hp2. rewrite <- E2 in Hb2. destruct O; ord TO.
    - intros k D1 D2. destruct (X4 k D1 D2) as [Y1 Y2]. exists vp. unfold v_clear in Y2. eauto 6. }
  assert (I2 : inv st2).
  { apply (local_inv M mp cfg hash TO LM Hmp M0 st1 st2 (S hc) lo hi I1 L2 eq_refl (i_mts _ _ _ _ _ Hi)).
    - intros k v v' D1 D2 Evk Ev' _. destruct (X4 _ D1 D2) as [_ E']. assert (v' = v_clear vp) by congruence. subst v'.
      unfold TrunkView.view_ok, v_branches, v_clear, v_with. cbn. split; [split; [intros x y [] | intros y br Ey; destruct y; discriminate] | split; constructor].
    - rewrite Forall_forall. intros j Ij. pose proof (i_jobs _ _ _ _ _ I1) as Fj. rewrite Forall_forall in Fj.
      eapply (local_job M mp cfg hash TO LM Hmp M0 st1 st2 (S hc) lo hi _ j L2 (Fj j Ij) (le_n _)).
      intros k v v' D1 D2 Evk Ev' Ehj Ac. destruct (X4 _ D1 D2) as [Y1 E']. assert (v' = v_clear vp) by congruence. assert (v = vp) by congruence. subst v v'.
      left. split; [apply (vb_nil M mp cfg hash TO LM); reflexivity|]. destruct (vbundle (rq_bno (j_q j)) vp) as [bb|] eqn:Evb; [|left; reflexivity]. right.
      destruct (j_ph j) as [o any| |s0] eqn:Eph; auto. unfold pivot_settled in G3. rewrite Forall_forall in G3. specialize (G3 j Ij). rewrite Eph in G3.
      rewrite (w_height _ _ _ _ _ _ Wn) in G3. specialize (G3 (eq_sym Ehj) Logic.I). rewrite (vb_live n P p a hi _ Rn Kn Pr Oa) in G3. fold vp in G3. rewrite Evb in G3. specialize (G3 eq_refl).
      destruct (rep_min_max _ _ _ Rc) as [Emn Emx]. rewrite Emn, Emx, Eca, Ecb in G3. destruct Ac as (A1 & A2 & _). destruct G3 as [Z|Z]; ord TO.
    - exact (i_excl _ _ _ _ _ Hi). }
  split; [exact I2|]. intro x. assert (Hx := klt_pos_inf cfg x).
  assert (HH : height_of st2 = height_of st) by congruence.
  destruct (kle_lt_dec cfg TO lo (KUser x)) as [D1|D1]; [destruct (kle_lt_dec cfg TO hi (KUser x)) as [D2|D2]|].
  - apply content_same; auto. intros e Le. destruct (Nat.eq_dec e (S hc)) as [->|N].
    + rewrite (lc_out _ _ _ _ _ _ _ _ L2) by auto. apply V1; auto.
    + rewrite X1 by (auto; lia). destruct (Nat.eq_dec e hc) as [->|N']; [apply V2; auto | apply V1; auto].
  - apply (content_flush M mp cfg hash TO LM Hmp M0 st st2 x hc HH eq_refl); [fold H; lia | |].
    + intros e Le N1' N2'. rewrite X1 by (auto; lia). apply V1; auto.
    + destruct (X4 _ D1 D2) as [Y1 Y2]. rewrite Y2, (Vp _ D1 D2). rewrite X1 by (auto; lia).
      destruct (nview_facts M mp cfg hash TO LM _ (t_node c) C _ Wc ltac:(rewrite Eca; exact D1) ltac:(rewrite Ecb; exact D2)) as (v & Evk & _). rewrite <- Vc in Evk by auto.
      destruct (V4 _ v D1 D2 Evk) as [Ev' _]. rewrite Ev', Evk. cbn [vmsgs]. rewrite (push_msgs M mp cfg hash TO LM Hmp M0). unfold l. rewrite rebundled_brs. cbn. rewrite app_nil_r. reflexivity.
  - apply content_same; auto. intros e Le. destruct (Nat.eq_dec e (S hc)) as [->|N].
    + rewrite (lc_out _ _ _ _ _ _ _ _ L2) by auto. apply V1; auto.
    + rewrite X1 by (auto; lia). destruct (Nat.eq_dec e hc) as [->|N']; [apply V2; auto | apply V1; auto].
Qed.

End Flush.
