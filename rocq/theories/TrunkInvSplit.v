(** * The invariant under splits *)

From Coq Require Import List Arith NArith ZArith Lia Bool Sorted.
From Verif Require Import Base Spec Spec_Merge DataProofs Search.
From Verif Require Import TrunkNode TrunkRing TrunkRep TrunkOps TrunkReset TrunkFlush TrunkClear TrunkReplace TrunkSplit.
From Verif Require Import TrunkAlpha TrunkKeys TrunkView TrunkTree TrunkShape TrunkLookup TrunkEffects TrunkInstall TrunkSplitEff TrunkInv TrunkInvMem TrunkInvNode TrunkInvFlush.
Import ListNotations.

Set Default Proof Using "All".
Section Split.
Variables (M mp : nat) (cfg : data_config) (hash : bytes -> N).
Hypothesis TO : total_order (key_compare cfg).
Hypothesis LM : lawful_merge cfg.
Hypothesis Hmp : mp <= MAX_PIVOTS.
Hypothesis M0 : 0 < M.
Local Notation klt := (klt cfg).
Local Notation kle := (kle cfg).
Local Notation nwf := (nwf M mp cfg).
Local Notation twf := (twf M mp cfg).
Local Notation nview := (nview M cfg).
Local Notation view_at := (view_at M cfg).
Local Notation branch_ok := (branch_ok cfg).
Local Notation view_ok := (view_ok cfg hash).
Local Notation views := (views M cfg).
Local Notation swf := (swf M mp cfg).
Local Notation content := (content M cfg).
Local Notation job_ok := (job_ok cfg hash).
Local Notation job_base := (job_base cfg hash).
Local Notation inv := (inv M mp cfg hash).
Local Notation exec := (exec M mp cfg hash).
Local Notation bound := (bound cfg).
Local Notation count := (count cfg).
Local Notation excl := (excl cfg).
Local Notation local := (local M mp cfg).

(** ** Views that hold the same in finer nodes and cells *)

Record vref (nx nx' h : nat) (v v' : view) : Prop := {
  vr_nlo : kle (v_nlo v) (v_nlo v'); vr_nhi : kle (v_nhi v') (v_nhi v);
  vr_id : v_id v' = v_id v \/ nx <= v_id v'; vr_next : v_id v' < nx';
  vr_ok : forall k, view_ok k v -> view_ok k v';
  vr_msgs : forall k, key_messages k (v_branches v') = key_messages k (v_branches v);
  vr_keep : (h = 0 /\ nx <= v_id v') \/
    (v_pgen v <= v_pgen v' /\ (v_gen v' = v_gen v \/ v_pgen v <= v_gen v') /\
     ((v_bns v = [] /\ v_bns v' = []) \/
      (v_lo v' = v_lo v /\ v_hi v' = v_hi v /\ v_gen v' = v_gen v /\ v_bno v' = v_bno v /\ v_whole v' = v_whole v /\ v_bns v' = v_bns v /\ v_filt v' = v_filt v)))
}.
Lemma vref_refl : forall nx nx' h v, v_id v < nx -> nx <= nx' -> vref nx nx' h v v.
Proof. intros nx nx' h v L L'. constructor; auto; try apply (kle_refl M mp cfg hash TO LM); [lia|]. right. split; [lia|]. split; [auto|]. right. repeat split; reflexivity. Qed.

Lemma refine_inv : forall st st', inv st -> swf st' -> height_of st' = height_of st -> st_mts st' = st_mts st -> st_jobs st' = st_jobs st ->
  st_next st <= st_next st' ->
  (forall e k, e <= height_of st -> klt k KPosInf -> exists v v', views st e k = Some v /\ views st' e k = Some v' /\ vref (st_next st) (st_next st') e v v') ->
  inv st' /\ forall x, content st' x = content st x.
Proof.
  intros st st' Hi T' EH Em Ej Hn Hv. split; [constructor|].
  - exact T'.
  - rewrite Em. exact (i_mts _ _ _ _ _ Hi).
  - intros h k v L Ev. rewrite EH in L. destruct (Hv h (KUser k) L (klt_pos_inf cfg k)) as (w & w' & E1 & E2 & R). assert (w' = v) by congruence. subst w'.
    apply (vr_ok _ _ _ _ _ R). apply (i_ok _ _ _ _ _ Hi h k w L E1).
  - intros h k v L Hk Ev. rewrite EH in L. destruct (Hv h k L Hk) as (w & w' & E1 & E2 & R). assert (w' = v) by congruence. subst w'. apply (vr_next _ _ _ _ _ R).
  - rewrite Ej. eapply Forall_impl; [|exact (i_jobs _ _ _ _ _ Hi)]. intros j J. rewrite EH. eapply (job_keep M mp cfg hash TO LM _ _ _ _ _ _ j J (le_n _) Hn).
    intros k v' E Hk. assert (Lh : rq_height (j_q j) <= height_of st) by (destruct J as (ks & out & full & B & _); apply (jb_height _ _ _ _ _ _ _ _ B)).
    assert (Lid : rq_id (j_q j) < st_next st) by (destruct J as (ks & out & full & B & _); apply (jb_id _ _ _ _ _ _ _ _ B)).
    destruct (Hv _ k Lh Hk) as (w & w' & E1 & E2 & R). assert (w' = v') by congruence. subst w'. destruct R as [R1 R2 R3 R4 R5 R6 R7].
    exists w. split; [exact E1|]. split; [exact R1|]. split; [exact R2|]. split; [intros _; exact R3|]. intros Hid A1 A2.
    destruct R7 as [[Z1 Z2]|(P1 & P2 & P3)]; [specialize (Hid Z1); lia|]. split; [exact P1|]. split; [exact P2|]. destruct P3 as [[Z1 Z2]|(Z1 & Z2 & Z3 & Z4 & Z5 & Z6 & Z7)].
    + left. split; [apply (vb_nil M mp cfg hash TO LM); exact Z2|]. left. apply (vb_nil M mp cfg hash TO LM). exact Z1.
    + right. unfold vbundle. rewrite Z4, Z6. repeat split; auto.
  - rewrite Ej. exact (i_excl _ _ _ _ _ Hi).
  - intro x. rewrite !(content_eq M mp cfg hash TO LM Hmp M0), EH, Em. f_equal. f_equal. unfold msgs_of. f_equal. apply map_ext_in. intros h I. apply in_seq in I.
    destruct (Hv h (KUser x) ltac:(lia) (klt_pos_inf cfg x)) as (w & w' & E1 & E2 & R). rewrite E1, E2. cbn [vmsgs]. apply (vr_msgs _ _ _ _ _ R).
Qed.

Lemma cells_cover : forall (ks : list key) lo hi k, StronglySorted klt (lo :: ks ++ [hi]) -> kle lo k -> klt k hi ->
  exists j x y, nth_error (pairs (lo :: ks ++ [hi])) j = Some (x, y) /\ kle x k /\ klt k y.
Proof.
  intros ks. induction ks as [|m r IH]; intros lo hi k Hs H1 H2.
  - exists 0, lo, hi. auto.
  - cbn [app] in *. apply StronglySorted_inv in Hs. destruct Hs as [Hs _]. destruct (kle_lt_dec cfg TO m k) as [C|C].
    + destruct (IH m hi k Hs C H2) as (j & x & y & E & Q). exists (S j), x, y. split; [exact E | exact Q].
    + exists 0, lo, m. auto.
Qed.

(** The two heights of a split *)
Lemma split_core : forall st d target hc n kids na nb i c lo hi ks n' cs t' v nx', inv st -> klt target KPosInf -> height_of st - d = S hc -> d <= height_of st ->
  subtree_at cfg d target (st_tree st) = Some (Tr n kids) -> twf (S hc) (Tr n kids) na nb -> kle na target -> klt target nb -> kle nb KPosInf ->
  route cfg n target = Some i -> nth_error kids i = Some c -> nth_error (pairs (akeys (alpha M n))) i = Some (lo, hi) -> twf hc c lo hi -> kle lo target -> klt target hi ->
  StronglySorted klt (lo :: ks ++ [hi]) -> add_pivots mp n (S i) ks = Some n' ->
  Forall2 (fun c ab => twf hc c (fst ab) (snd ab)) cs (pairs (lo :: ks ++ [hi])) ->
  nview n target = Some v -> v_bns v = [] -> st_next st <= nx' ->
  put_at cfg d target (Tr n' (firstn i kids ++ cs ++ skipn (S i) kids)) (st_tree st) = Some t' ->
  (forall e j cj x y k, e <= hc -> nth_error cs j = Some cj -> nth_error (pairs (lo :: ks ++ [hi])) j = Some (x, y) -> kle x k -> klt k y ->
     exists w w', view_at e k c = Some w /\ view_at e k cj = Some w' /\ (w' = w \/ vref (st_next st) nx' (hc - e) w w')) ->
  let st' := St t' nx' (st_mts st) (st_jobs st) in inv st' /\ forall x, content st' x = content st x.
Proof.
  intros st d target hc n kids na nb i c lo hi ks n' cs t' v nx' Hi Ht Ehd Ld Es Ts R2 R3 R4 Er Ec Ei Tc C1 C2 Hs Ea Fc Ev Hb Hn Ep Hcs st'.
  pose proof (i_wf _ _ _ _ _ Hi) as T. pose proof (twf_nwf _ _ _ _ _ _ _ Ts) as (Wn & Ena & Enb). cbn [t_node] in *. set (A := alpha M n) in *.
  destruct (pairs_split _ _ _ _ Ei) as (X & Y & EX & LX). rewrite <- LX in Ea.
  destruct (add_pivots_effect M mp cfg TO _ ks n A X Y lo hi n' Wn ltac:(lia) EX Hs Ea) as (A' & Wn' & Ek' & Eid & Hpg & Hviews). rewrite LX in Ea.
  destruct (split_kids M mp cfg TO hc n kids na nb X Y lo hi n' A' ks cs Ts EX Wn' Ek' Fc) as (Ts' & Hout & Hin). cbv zeta in Ts', Hout, Hin. rewrite LX in Ts', Hout, Hin.
  set (s' := Tr n' (firstn i kids ++ cs ++ skipn (S i) kids)) in *.
  destruct (put_at_ok M mp cfg TO d _ _ _ _ target (Tr n kids) na nb s' T (kle_neg_inf cfg target) Ht Ld Es ltac:(rewrite Ehd; exact Ts) ltac:(rewrite Ehd; exact Ts'))
    as (t'' & Ep' & T' & _ & _ & Vout & Vin & Vup). assert (t'' = t') by congruence. subst t''.
  assert (EH : height_of st' = height_of st) by (unfold height_of at 1; cbn [st' st_tree]; apply (height_twf M mp cfg hash TO LM Hmp M0 _ _ _ _ T')).
  destruct (cell_in_range cfg TO A lo hi (w_sorted _ _ _ _ _ _ Wn) (nth_error_In _ _ Ei)) as (B1 & B2 & _). rewrite Ena in B1. rewrite Enb in B2.
  apply refine_inv; auto.
  { unfold TrunkInv.swf. rewrite EH. exact T'. }
  intros e k Le Hk. destruct (views_some M mp cfg hash TO LM st e k T Le Hk) as (w & Ew & Fw). pose proof (i_ids _ _ _ _ _ Hi e k w Le Hk Ew) as Lid.
  assert (Same : views st' e k = views st e k -> exists v v', views st e k = Some v /\ views st' e k = Some v' /\ vref (st_next st) (st_next st') e v v').
  { intro Q. exists w, w. rewrite Q. split; [exact Ew|]. split; [exact Ew|]. apply vref_refl; auto. }
  assert (Vw' : views st' e k = view_at (height_of st - e) k t') by (unfold TrunkInv.views; rewrite EH; reflexivity).
  assert (Dec : (klt k na \/ kle nb k) \/ (kle na k /\ klt k nb)).
  { destruct (kle_lt_dec cfg TO na k); [destruct (kle_lt_dec cfg TO nb k)|]; auto. }
  destruct Dec as [Out|[D1 D2]]; [apply Same; rewrite Vw', Vout; auto; apply kle_neg_inf|].
  destruct (Nat.lt_ge_cases (height_of st - e) d) as [Lt|Ge]; [apply Same; rewrite Vw', Vup; auto|].
  rewrite Vw', (Vin _ _ D1 D2 Ge).
  assert (Old : forall f, view_at (d + f) k (st_tree st) = view_at f k (Tr n kids)).
  { intro f. unfold TrunkShape.view_at. rewrite subtree_add. rewrite (subtree_range M mp cfg TO d _ _ _ _ target k (Tr n kids) na nb T (kle_neg_inf cfg target) Ht Ld Es); auto. rewrite Ehd. exact Ts. }
  assert (Ew2 : view_at (height_of st - e - d) k (Tr n kids) = Some w). { rewrite <- Old. replace (d + (height_of st - e - d)) with (height_of st - e) by lia. exact Ew. }
  destruct (height_of st - e - d) as [|f] eqn:Ef.
  - (* the parent *)
    assert (Ee : e = S hc) by lia. subst e. destruct (Hviews k ltac:(rewrite Ena; exact D1) ltac:(rewrite Enb; exact D2)) as (u & u' & Eu & Eu' & Ci & Hof).
    assert (u = w) by (unfold TrunkShape.view_at in Ew2; cbn [subtree_at t_node] in Ew2; congruence). subst u.
    exists w, u'. split; [exact Ew|]. split; [exact Eu'|]. destruct Ci as [c1 c2 c3 c4 c5 c6 c7 c8 c9 c10 c11].
    assert (Hbr : v_branches u' = v_branches w) by (unfold v_branches; congruence).
    constructor.
    + rewrite c2. apply (kle_refl M mp cfg hash TO LM).
    + rewrite c3. apply (kle_refl M mp cfg hash TO LM).
    + left. exact c1.
    + cbn. lia.
    + intros x (O1 & O2 & O3). unfold TrunkView.view_ok. rewrite c9, c10, c11, Hbr. auto.
    + intro x. rewrite Hbr. reflexivity.
    + right. split; [exact c4|]. split; [exact c7|].
      assert (Dec : (klt k lo \/ kle hi k) \/ (kle lo k /\ klt k hi)) by (destruct (kle_lt_dec cfg TO lo k); [destruct (kle_lt_dec cfg TO hi k)|]; auto).
      destruct Dec as [O|[I1 I2]].
      * right. rewrite (Hof O). repeat split; reflexivity.
      * left. assert (w = v).
        { destruct (nview_at M mp cfg TO _ n A target Wn ltac:(rewrite Ena; exact R2) ltac:(rewrite Enb; exact R3)) as (i1 & a1 & b1 & Er1 & Ea1 & Ei1 & Ev1 & _ & _).
          assert (i1 = i) by congruence. subst i1. rewrite Ei in Ei1. injection Ei1 as Q1 Q2. subst b1.
          pose proof (nview_char M mp cfg TO _ n A k i a1 hi Wn Ea1 ltac:(rewrite <- Q1; exact Ei) ltac:(rewrite <- Q1; exact I1) I2) as Evk. congruence. }
        subst w. split; [exact Hb | congruence].
  - (* below *)
    assert (Dec : (klt k lo \/ kle hi k) \/ (kle lo k /\ klt k hi)) by (destruct (kle_lt_dec cfg TO lo k); [destruct (kle_lt_dec cfg TO hi k)|]; auto).
    destruct Dec as [O|[I1 I2]].
    + rewrite (Hout f k D1 D2 O). exists w, w. split; [exact Ew|]. split; [exact Ew2|]. apply vref_refl; auto.
    + destruct (cells_cover ks lo hi k Hs I1 I2) as (j & x & y & Ej & J1 & J2).
      destruct (nth_error cs j) as [cj|] eqn:Ecj.
      2:{ exfalso. apply nth_error_None in Ecj. apply (Forall2_length) in Fc. assert (nth_error (pairs (lo :: ks ++ [hi])) j <> None) by congruence. apply nth_error_Some in H. lia. }
      rewrite (Hin f j cj x y k Ecj Ej J1 J2).
      destruct (Hcs f j cj x y k ltac:(lia) Ecj Ej J1 J2) as (u & u' & Eu & Eu' & Hr).
      assert (u = w).
      { unfold TrunkShape.view_at in Ew2. cbn [subtree_at t_node t_kids] in Ew2.
        assert (Erk : route cfg n k = Some i) by (apply (route_at M mp cfg TO _ n A k i lo hi Wn Ei I1 I2)). rewrite Erk, Ec in Ew2. unfold TrunkShape.view_at in Eu. congruence. }
      subst u. exists w, u'. split; [exact Ew|]. split; [exact Eu'|]. destruct Hr as [->|Hr]; [apply vref_refl; auto|].
      replace e with (hc - f) by lia. exact Hr.
Qed.

(** ** Leaves *)

Definition split_leaf_legal (st : state) (d : nat) (target : key) (ks : list bytes) : Prop :=
  d < height_of st /\ klt target KPosInf /\
  forall n kids i p c, subtree_at cfg d target (st_tree st) = Some (Tr n kids) -> route cfg n target = Some i ->
    get_pivot n i = Some p -> nth_error kids i = Some c ->
    pv_sbn p = n_ebn n /\                                       (* just flushed *)
    n_sbr (t_node c) <> n_ebr (t_node c) /\                     (* something to split *)
    StronglySorted klt (min_key (t_node c) :: map KUser ks ++ [max_key (t_node c)]).

Lemma clean_view : forall ht n A p a hi, nwf ht n A -> In a (an_piv A) -> piv_rep M n p a -> pv_sbn p = n_ebn n -> v_bns (view_of n A a hi) = [].
Proof.
  intros ht n A p a hi W Ia (_ & _ & _ & _ & E) Q. pose proof (w_rep _ _ _ _ _ _ W) as R. pose proof (w_aok _ _ _ _ _ _ W) as K.
  pose proof (off_ok_le _ _ _ (piv_off_ok _ _ _ _ _ _ _ W Ia)) as [_ L]. cbn [view_of v_bns]. rewrite Q, (r_ebn _ _ _ R) in E. pose proof (ok_bns _ _ K).
  apply cadd_inj in E; [|lia|lia|lia]. rewrite <- E. apply skipn_all.
Qed.

Lemma pivot_rep_at : forall ht n A i a p, nwf ht n A -> nth_error (an_piv A) i = Some a -> get_pivot n i = Some p -> piv_rep M n p a.
Proof.
  intros ht n A i a p W Ea Ep. destruct (r_piv _ _ _ (w_rep _ _ _ _ _ _ W)) as (ps & last & E1 & _ & F). destruct (Forall2_nth _ _ _ F i a Ea) as (q & Eq & Q).
  unfold get_pivot in Ep. rewrite E1 in Ep. rewrite nth_error_app1 in Ep by (apply nth_error_Some; congruence). assert (q = p) by congruence. subst q. exact Q.
Qed.
Lemma pivot_at : forall ht n A i a, nwf ht n A -> nth_error (an_piv A) i = Some a -> exists p, get_pivot n i = Some p.
Proof.
  intros ht n A i a W Ea. destruct (r_piv _ _ _ (w_rep _ _ _ _ _ _ W)) as (ps & last & E1 & _ & F). destruct (Forall2_nth _ _ _ F i a Ea) as (q & Eq & Q).
  exists q. unfold get_pivot. rewrite E1. rewrite nth_error_app1 by (apply nth_error_Some; congruence). exact Eq.
Qed.

Lemma leaf_cut_ref : forall nx nx' v v', leaf_cut cfg v v' -> nx <= v_id v' -> v_id v' < nx' -> vref nx nx' 0 v v'.
Proof.
  intros nx nx' v v' [l1 l2 l3 l4 l5 l6 l7 l8] L1 L2.
  assert (Hbr : v_branches v' = v_branches v).
  { unfold v_branches at 1. rewrite l6, l7. cbn [concat app]. rewrite app_nil_r. apply (rebundled_brs M mp cfg hash TO LM Hmp M0). }
  constructor; auto.
  - intros k (O1 & O2 & O3). unfold TrunkView.view_ok. rewrite Hbr, l6, l7, l8. cbn [concat]. rewrite app_nil_r. split; [|split; [|exact O3]].
    + destruct (v_whole v); [exact O1|]. split; [intros x y [] | intros y br Ey; destruct y; discriminate].
    + unfold v_rebundled. destruct (v_whole v) eqn:Ew; [exact O2|]. constructor; [|exact O2]. unfold sub_ok. cbn [as_comp as_fls as_brs]. exists (v_filt v). split; [reflexivity | exact O1].
  - intro k. rewrite Hbr. reflexivity.
Qed.

Lemma cut_leaves_length : forall l id bs, length (cut_leaves l id bs) = length (pairs bs).
Proof. intros l id bs. revert id. induction bs as [|a [|b r] IH]; intro id; try reflexivity. cbn [cut_leaves pairs length]. f_equal. apply (IH (S id)). Qed.

Theorem split_leaf_step : forall st st' d target ks, inv st -> split_leaf_legal st d target ks -> exec st (SplitLeaf d target ks) = Some st' ->
  inv st' /\ forall x, content st' x = content st x.
Proof.
  intros st st' d target ks Hi (Ld & Ht & G) E. pose proof (i_wf _ _ _ _ _ Hi) as T. unfold TrunkTree.exec in E.
  destruct (subtree_ok M mp cfg TO d _ _ _ _ target T (kle_neg_inf cfg target) Ht ltac:(lia)) as (s & na & nb & Es & Ts & R1 & R2 & R3 & R4).
  rewrite Es in E. destruct s as [n kids]. remember (height_of st - d - 1) as hc eqn:Ehc. assert (Ehp : height_of st - d = S hc) by lia. rewrite Ehp in Ts.
  destruct (child_at M mp cfg TO _ _ _ _ target Ts R2 R3) as (i & c & lo & hi & Er & Ec & Ei & Tc & C1 & C2). cbn [t_node t_kids] in *.
  rewrite Er in E. rewrite Ec in E. destruct c as [l ck]. destruct ck; [|discriminate].
  destruct (leaf_rebundle M l) as [[bno l']|] eqn:El; [|discriminate]. cbv zeta in E.
  destruct (add_pivots mp n (S i) (map KUser ks)) as [n'|] eqn:Ea; [|discriminate].
  match type of E with match ?X with _ => _ end = _ => destruct X as [t'|] eqn:Ep; [|discriminate] end. injection E as <-.
  assert (Hh0 : hc = 0).
  { destruct hc as [|h0]; [reflexivity|]. exfalso. pose proof (twf_nwf _ _ _ _ _ _ _ Tc) as (Wc & _). cbn [TrunkShape.twf t_kids] in Tc. destruct Tc as (_ & _ & _ & F).
    apply Forall2_length in F. rewrite cells_length in F. pose proof (ok_children _ _ (w_aok _ _ _ _ _ _ Wc)). destruct (an_piv (alpha M (t_node (Tr l [])))); [contradiction|discriminate]. }
  clear Ehc. subst hc. pose proof (twf_nwf _ _ _ _ _ _ _ Tc) as (Wl & Ela & Elb). cbn [t_node] in *. set (A := alpha M l) in *.
  pose proof (twf_nwf _ _ _ _ _ _ _ Ts) as (Wn & Ena & Enb). cbn [t_node] in *.
  destruct (nview_at M mp cfg TO _ n (alpha M n) target Wn ltac:(rewrite Ena; exact R2) ltac:(rewrite Enb; exact R3)) as (i' & a & b & Er' & Eap & Ei' & Ev & _ & _).
  assert (i' = i) by congruence. subst i'.
  destruct (pivot_at _ _ _ _ _ Wn Eap) as (p & Epv).
  destruct (G n kids i p (Tr l []) Es Er Epv Ec) as (G1 & G2 & G3). cbn [t_node] in *.
  destruct (rep_min_max _ _ _ (w_rep _ _ _ _ _ _ Wl)) as [Emin Emax]. rewrite Emin, Emax, Ela, Elb in *.
  assert (NE : brs A <> []).
  { intro Q. apply G2. pose proof (w_rep _ _ _ _ _ _ Wl) as Rl. rewrite (r_ebr _ _ _ Rl), Q. cbn [length]. rewrite cadd_0 by apply (r_sbr _ _ _ Rl). reflexivity. }
  assert (Hks : forall k, In k (lo :: map KUser ks ++ [hi]) -> kle (an_lo A) k /\ kle k (an_hi A)).
  { intros k I. rewrite Ela, Elb. clear - G3 I TO C1 C2. apply StronglySorted_inv in G3. destruct G3 as [G3 F]. rewrite Forall_forall in F.
    assert (Lh : klt lo hi) by (apply F; apply in_or_app; right; left; reflexivity).
    destruct I as [<-|I]; [split; ord TO|]. split; [specialize (F k I); ord TO|].
    apply in_app_or in I. destruct I as [I|[<-|[]]]; [|assert (hi = hi) by auto; ord TO].
    assert (Q : forall l, StronglySorted klt (l ++ [hi]) -> In k l -> klt k hi).
    { clear - TO. induction l as [|z l IH]; intros Hs Il; [contradiction|]. cbn in Hs. apply StronglySorted_inv in Hs. destruct Hs as [Hs Fz]. destruct Il as [<-|Il]; [|auto].
      rewrite Forall_forall in Fz. apply Fz. apply in_or_app. right. left. reflexivity. }
    specialize (Q _ G3 I). ord TO. }
  destruct (cut_leaves_ok M mp cfg TO l A l' bno Wl El NE (lo :: map KUser ks ++ [hi]) (st_next st) G3 Hks) as (Fc & Hcv).
  eapply (split_core st d target 0 n kids na nb i (Tr l []) lo hi (map KUser ks) n' _ t' _ (st_next st + S (length ks)) Hi Ht Ehp ltac:(lia) Es Ts R2 R3 R4 Er Ec Ei Tc C1 C2 G3 Ea Fc Ev).
  - eapply clean_view; eauto; [eapply nth_error_In; eauto|]. eapply pivot_rep_at; eauto.
  - lia.
  - exact Ep.
  - intros e j cj x y k Le Ecj Ej J1 J2. assert (e = 0) by lia. subst e. destruct (Hcv j x y cj Ecj Ej k J1 J2) as (v & v' & Ew & Ew' & Lc & Eid).
    exists v, v'. split; [exact Ew|]. split; [exact Ew'|]. right. apply leaf_cut_ref; [exact Lc | lia |].
    assert (Lj : j < length (cut_leaves l' (st_next st) (lo :: map KUser ks ++ [hi]))) by (apply nth_error_Some; congruence).
    rewrite cut_leaves_length in Lj. change (lo :: map KUser ks ++ [hi]) with ((lo :: map KUser ks) ++ [hi]) in Lj. rewrite pairs_length in Lj. cbn [length] in Lj. rewrite map_length in Lj. lia.
Qed.

(** ** Index nodes *)

Definition split_index_legal (st : state) (d : nat) (target : key) : Prop :=
  S d < height_of st /\ klt target KPosInf /\
  forall n kids i p c, subtree_at cfg d target (st_tree st) = Some (Tr n kids) -> route cfg n target = Some i ->
    get_pivot n i = Some p -> nth_error kids i = Some c -> pv_sbn p = n_ebn n /\ 2 <= num_children (t_node c).

Lemma half_ref : forall nx nx' h v id nlo nhi, kle (v_nlo v) nlo -> kle nhi (v_nhi v) -> nx <= id -> id < nx' -> vref nx nx' h v (v_half v id nlo nhi).
Proof.
  intros. constructor; auto. right. cbn. split; [lia|]. split; [auto|]. right. repeat split; reflexivity.
Qed.

Theorem split_index_step : forall st st' d target, inv st -> split_index_legal st d target -> exec st (SplitIndex d target) = Some st' ->
  inv st' /\ forall x, content st' x = content st x.
Proof.
  intros st st' d target Hi (Ld & Ht & G) E. pose proof (i_wf _ _ _ _ _ Hi) as T. unfold TrunkTree.exec in E.
  destruct (subtree_ok M mp cfg TO d _ _ _ _ target T (kle_neg_inf cfg target) Ht ltac:(lia)) as (s & na & nb & Es & Ts & R1 & R2 & R3 & R4).
  rewrite Es in E. destruct s as [n kids]. remember (height_of st - d - 2) as hd eqn:Ehd. assert (Ehp : height_of st - d = S (S hd)) by lia. rewrite Ehp in Ts.
  destruct (child_at M mp cfg TO _ _ _ _ target Ts R2 R3) as (i & c & lo & hi & Er & Ec & Ei & Tc & C1 & C2). cbn [t_node t_kids] in *.
  rewrite Er in E. rewrite Ec in E. destruct c as [c ck].
  pose proof (twf_nwf _ _ _ _ _ _ _ Ts) as (Wn & Ena & Enb). cbn [t_node] in *.
  destruct (nview_at M mp cfg TO _ n (alpha M n) target Wn ltac:(rewrite Ena; exact R2) ltac:(rewrite Enb; exact R3)) as (i' & a & b & Er' & Eap & Ei' & Ev & _ & _).
  assert (i' = i) by congruence. subst i'.
  destruct (pivot_at _ _ _ _ _ Wn Eap) as (p & Epv).
  destruct (G n kids i p (Tr c ck) Es Er Epv Ec) as (G1 & G2). cbn [t_node] in *.
  pose proof (twf_nwf _ _ _ _ _ _ _ Tc) as (Wc & Eca & Ecb). cbn [t_node] in *.
  assert (N2 : 2 <= length (an_piv (alpha M c))).
  { destruct (r_piv _ _ _ (w_rep _ _ _ _ _ _ Wc)) as (ps & last & E1 & _ & F). apply Forall2_length in F. rewrite <- F. unfold num_children in G2. rewrite E1, app_length in G2. cbn in G2. lia. }
  pose proof (halves_effect M mp cfg TO hd c ck lo hi (st_next st + 1) (st_next st) Tc N2) as He.
  destruct (split_halves M c (st_next st + 1) (st_next st)) as [l r]. cbv zeta in E, He. set (x := num_children c / 2) in *.
  destruct He as (mid & Emid & H1 & H2 & Tl & Tr' & Vl & Vr & Dl & Dr). rewrite Emid in E.
  destruct (add_pivot mp n (S i) mid) as [n'|] eqn:Ea; [|discriminate].
  match type of E with match ?X with _ => _ end = _ => destruct X as [t'|] eqn:Ep; [|discriminate] end. injection E as <-.
  assert (Ea' : add_pivots mp n (S i) [mid] = Some n') by (cbn [add_pivots]; rewrite Ea; reflexivity).
  assert (Hs : StronglySorted klt (lo :: [mid] ++ [hi])).
  { cbn [app]. constructor; [constructor; [repeat constructor|]|].
    - constructor; [exact H2|constructor].
    - constructor; [exact H1|]. constructor; [ord TO|constructor]. }
  eapply (split_core st d target (S hd) n kids na nb i (Tr c ck) lo hi [mid] n' [Tr l (firstn x ck); Tr r (skipn x ck)] t' _ (st_next st + 2) Hi Ht Ehp ltac:(lia) Es Ts R2 R3 R4 Er Ec Ei Tc C1 C2 Hs Ea').
  - cbn [app pairs]. constructor; [exact Tl|]. constructor; [exact Tr'|constructor].
  - exact Ev.
  - eapply clean_view; eauto; [eapply nth_error_In; eauto|]. eapply pivot_rep_at; eauto.
  - lia.
  - exact Ep.
  - intros e j cj y z k Le Ecj Ej J1 J2. cbn [app pairs] in Ej.
    assert (Rg : forall w, nview c k = Some w -> kle lo k -> klt k hi -> v_nlo w = lo /\ v_nhi w = hi).
    { intros w Ew K1 K2. destruct (nview_facts M mp cfg hash TO LM _ c (alpha M c) k Wc ltac:(rewrite Eca; exact K1) ltac:(rewrite Ecb; exact K2)) as (w' & Ew' & _ & Q1 & Q2 & _). assert (w' = w) by congruence. subst w'. split; congruence. }
    pose proof (view_at_ok M mp cfg TO e _ _ _ _ k Tc) as Vok.
    destruct j as [|[|j]]; [| |destruct j; discriminate].
    + injection Ecj as <-. injection Ej as <- <-. destruct e as [|e].
      * destruct (Vl k J1 J2) as (w & Ew & Ew'). exists w, (v_half w (st_next st + 1) lo mid). split; [exact Ew|]. split; [exact Ew'|]. right.
        destruct (Rg w Ew J1 ltac:(ord TO)) as [Q1 Q2]. apply half_ref; try lia; rewrite ?Q1, ?Q2; [apply (kle_refl M mp cfg hash TO LM) | ord TO].
      * destruct (Vok J1 ltac:(ord TO) Le) as (w & Ew & _). exists w, w. split; [exact Ew|]. split; [rewrite Dl; auto | left; reflexivity].
    + injection Ecj as <-. injection Ej as <- <-. destruct e as [|e].
      * destruct (Vr k J1 J2) as (w & Ew & Ew'). exists w, (v_half w (st_next st) mid hi). split; [exact Ew|]. split; [exact Ew'|]. right.
        destruct (Rg w Ew ltac:(ord TO) J2) as [Q1 Q2]. apply half_ref; try lia; rewrite ?Q1, ?Q2; [ord TO | apply (kle_refl M mp cfg hash TO LM)].
      * destruct (Vok ltac:(ord TO) J2 Le) as (w & Ew & _). exists w, w. split; [exact Ew|]. split; [rewrite Dr; auto | left; reflexivity].
Qed.

End Split.
