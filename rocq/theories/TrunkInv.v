(** * The invariant of the trunk

    Stated on the views: what each height holds for a key.  [job_ok] says what a
    compaction job relies on while other steps are taken. *)

From Coq Require Import List Arith NArith ZArith Lia Bool Sorted.
From Verif Require Import Base Spec Spec_Merge Search.
From Verif Require Import TrunkNode TrunkRing TrunkRep TrunkOps TrunkReset TrunkFlush TrunkClear TrunkReplace TrunkSplit.
From Verif Require Import TrunkAlpha TrunkKeys TrunkView TrunkTree TrunkShape TrunkLookup TrunkEffects TrunkInstall TrunkSplitEff.
Import ListNotations.

Set Default Proof Using "All".
Section Inv.
Variables (M mp : nat) (cfg : data_config) (hash : bytes -> N).
Hypothesis TO : total_order (key_compare cfg).
Hypothesis LM : lawful_merge cfg.
Local Notation klt := (klt cfg).
Local Notation kle := (kle cfg).
Local Notation nwf := (nwf M mp cfg).
Local Notation twf := (twf M mp cfg).
Local Notation nview := (nview M cfg).
Local Notation view_at := (view_at M cfg).
Local Notation branch_ok := (branch_ok cfg).
Local Notation view_ok := (view_ok cfg hash).

(** ** The views of a state *)

Definition vw := nat -> key -> option view.
Definition views (st : state) : vw := fun h k => view_at (height_of st - h) k (st_tree st).
Definition content (st : state) (k : bytes) : option bytes :=
  replay cfg k (tree_msgs M cfg (height_of st) (st_tree st) k ++ key_messages k (rev (st_mts st))) None.

(** What holds of the views of a well-formed tree *)
Record view_facts (k : key) (v : view) : Prop := {
  vf_nlo : kle (v_nlo v) (v_lo v); vf_lo : kle (v_lo v) k; vf_hi : klt k (v_hi v); vf_nhi : kle (v_hi v) (v_nhi v);
  vf_gen : v_gen v < v_pgen v; vf_bno : v_bno v < MAX_BUNDLES; vf_bns : length (v_bns v) < MAX_BUNDLES
}.

Lemma nview_facts : forall ht n A k, nwf ht n A -> kle (an_lo A) k -> klt k (an_hi A) ->
  exists v, nview n k = Some v /\ view_facts k v /\ v_nlo v = an_lo A /\ v_nhi v = an_hi A /\ v_id v = n_id n /\ v_pgen v = n_pgen n.
Proof.
  intros ht n A k W Hl Hh. destruct (nview_at M mp cfg TO ht n A k W Hl Hh) as (i & p & b & _ & Ep & Ei & Ev & Hp & Hb).
  destruct (cell_in_range cfg TO A _ _ (w_sorted _ _ _ _ _ _ W) (nth_error_In _ _ Ei)) as (H5 & H6 & _).
  pose proof (nth_error_In _ _ Ep) as Ip. pose proof (w_pgen _ _ _ _ _ _ W) as G. rewrite Forall_forall in G.
  pose proof (off_ok_le _ _ _ (piv_off_ok _ _ _ _ _ _ _ W Ip)) as [_ L2].
  exists (view_of n A p b). split; [exact Ev|]. split; [|cbn; auto].
  constructor; cbn [view_of v_nlo v_lo v_hi v_nhi v_gen v_pgen v_bno v_bns]; auto.
  rewrite skipn_length. pose proof (ok_bns _ _ (w_aok _ _ _ _ _ _ W)). lia.
Qed.

(** The same cell: the same view; the same node: the same node data *)
Lemma nview_cell : forall ht n A k k' v, nwf ht n A -> kle (an_lo A) k -> klt k (an_hi A) -> nview n k = Some v ->
  kle (v_lo v) k' -> klt k' (v_hi v) -> nview n k' = Some v.
Proof.
  intros ht n A k k' v W Hl Hh Ev H1 H2. destruct (nview_at M mp cfg TO ht n A k W Hl Hh) as (i & p & b & _ & Ep & Ei & Ev' & Hp & Hb).
  rewrite Ev in Ev'. injection Ev' as ->. cbn [view_of v_lo v_hi] in *. apply (nview_char M mp cfg TO ht n A k' i p b W Ep Ei H1 H2).
Qed.
Lemma nview_gen : forall ht n A k k' v v', nwf ht n A -> kle (an_lo A) k -> klt k (an_hi A) -> kle (an_lo A) k' -> klt k' (an_hi A) ->
  nview n k = Some v -> nview n k' = Some v' -> v_gen v = v_gen v' -> v = v'.
Proof.
  intros ht n A k k' v v' W H1 H2 H3 H4 Ev Ev' Eg.
  destruct (nview_at M mp cfg TO ht n A k W H1 H2) as (i & p & b & _ & Ep & Ei & Ew & _ & _).
  destruct (nview_at M mp cfg TO ht n A k' W H3 H4) as (i' & p' & b' & _ & Ep' & Ei' & Ew' & _ & _).
  assert (v = view_of n A p b) by congruence. assert (v' = view_of n A p' b') by congruence. subst v v'. cbn [view_of v_gen] in Eg.
  assert (i = i').
  { pose proof (w_gens _ _ _ _ _ _ W) as G. rewrite NoDup_nth_error in G. apply G.
    - rewrite map_length. apply nth_error_Some. congruence.
    - rewrite !nth_error_map, Ep, Ep'. simpl. congruence. }
  subst i'. assert (p = p') by congruence. subst p'. assert (b = b') by congruence. subst b'. reflexivity.
Qed.

Definition swf (st : state) : Prop := twf (height_of st) (st_tree st) KNegInf KPosInf.

Lemma klt_top : forall k, klt k KPosInf -> kle KNegInf k.
Proof. intros k H. apply kle_neg_inf. Qed.
Lemma kle_refl : forall k, kle k k.
Proof. intro k. assert (k = k) by reflexivity. ord TO. Qed.

(** The node of a height and a key *)
Lemma node_view : forall st h k, swf st -> h <= height_of st -> klt k KPosInf ->
  exists n A, node_at cfg (height_of st - h) k (st_tree st) = Some n /\ nwf h n A /\ kle (an_lo A) k /\ klt k (an_hi A) /\ kle (an_hi A) KPosInf /\
    (forall k', kle (an_lo A) k' -> klt k' (an_hi A) -> views st h k' = nview n k') /\ klt (an_lo A) KPosInf.
Proof.
  intros st h k T L Hk. pose proof (klt_top k Hk) as Hk0.
  destruct (subtree_ok M mp cfg TO (height_of st - h) _ _ _ _ k T Hk0 Hk ltac:(lia)) as (s & a & b & Es & Ts & R1 & R2 & R3 & R4).
  pose proof (twf_nwf _ _ _ _ _ _ _ Ts) as (W & Ea & Eb). replace (height_of st - (height_of st - h)) with h in * by lia.
  exists (t_node s), (alpha M (t_node s)). unfold node_at. rewrite Es. rewrite Ea, Eb. split; [reflexivity|]. split; [exact W|].
  split; [exact R2|]. split; [exact R3|]. split; [exact R4|]. split; [|ord TO].
  intros k' H1 H2. unfold views, TrunkShape.view_at.
  rewrite (subtree_range M mp cfg TO (height_of st - h) _ _ _ _ k k' s a b T Hk0 Hk ltac:(lia) Es); auto.
  replace (height_of st - (height_of st - h)) with h by lia. exact Ts.
Qed.

Lemma views_some : forall st h k, swf st -> h <= height_of st -> klt k KPosInf -> exists v, views st h k = Some v /\ view_facts k v.
Proof.
  intros st h k T L Hk. destruct (node_view st h k T L Hk) as (n & A & _ & W & Hl & Hh & _ & Hv & _).
  destruct (nview_facts h n A k W Hl Hh) as (v & Ev & F & _). exists v. rewrite Hv; auto.
Qed.
Lemma views_cell : forall st h k k' v, swf st -> h <= height_of st -> klt k KPosInf -> views st h k = Some v ->
  kle (v_lo v) k' -> klt k' (v_hi v) -> views st h k' = Some v.
Proof.
  intros st h k k' v T L Hk Ev H1 H2. destruct (node_view st h k T L Hk) as (n & A & _ & W & Hl & Hh & _ & Hv & _).
  rewrite Hv in Ev by auto. destruct (nview_facts h n A k W Hl Hh) as (v0 & Ev0 & F & E1 & E2 & _). assert (v0 = v) by congruence. subst v0.
  destruct F. rewrite Hv; [eapply nview_cell; eauto | ord TO | ord TO].
Qed.
Lemma views_node : forall st h k k' v, swf st -> h <= height_of st -> klt k KPosInf -> views st h k = Some v ->
  kle (v_nlo v) k' -> klt k' (v_nhi v) -> exists v', views st h k' = Some v' /\
    v_id v' = v_id v /\ v_nlo v' = v_nlo v /\ v_nhi v' = v_nhi v /\ v_pgen v' = v_pgen v /\ (v_gen v' = v_gen v -> v' = v).
Proof.
  intros st h k k' v T L Hk Ev H1 H2. destruct (node_view st h k T L Hk) as (n & A & _ & W & Hl & Hh & _ & Hv & _).
  rewrite Hv in Ev by auto. destruct (nview_facts h n A k W Hl Hh) as (v0 & Ev0 & F & E1 & E2 & E3 & E4). assert (v0 = v) by congruence. subst v0.
  rewrite E1, E2 in *. destruct (nview_facts h n A k' W H1 H2) as (v' & Ev' & F' & E1' & E2' & E3' & E4').
  exists v'. rewrite Hv by auto. split; [exact Ev'|]. split; [congruence|]. split; [congruence|]. split; [congruence|]. split; [congruence|].
  intro Eg. apply (nview_gen h n A k' k v' v W); auto.
Qed.

(** ** Jobs *)

Definition count (lo hi : key) (out : branch) : nat := length (branch_range cfg lo hi out).
Definition cell (ks : list key) (i : nat) (lo hi : key) : Prop := nth_error (pairs ks) i = Some (lo, hi).
Definition slice (q : req) (i : nat) : list N := firstn (rq_out q i) (skipn (sum_out q i) (rq_fps q)).

(** A key of the job's range; a leaf that has been split is no longer the job's *)
Definition active (V : vw) (j : job) (k : key) (v : view) : Prop :=
  kle (j_lo j) k /\ klt k (rq_hi (j_q j)) /\ V (rq_height (j_q j)) k = Some v /\ (rq_height (j_q j) = 0 -> v_id v = rq_id (j_q j)).
(** No node of height [h] goes across [c] *)
Definition bound (V : vw) (h : nat) (c : key) : Prop :=
  forall k v, V h k = Some v -> klt k KPosInf -> klt (v_nlo v) c -> klt c (v_nhi v) -> False.

(** The output has the effect of the bundle *)
Definition out_ok (k : key) (full : bool) (b : list asub) (out : branch) : Prop :=
  forall u, k = KUser u ->
    (forall x, (full = true -> x = None) -> replay cfg u (source_messages u out) x = replay cfg u (key_messages u (brs_of b)) x) /\
    (source_messages u out <> [] -> key_messages u (brs_of b) <> []).
Definition no_out (k : key) (out : branch) : Prop := forall u, k = KUser u -> source_messages u out = [].

Record job_base (V : vw) (H next : nat) (j : job) (ks : list key) (out : branch) : Prop := {
  jb_height : rq_height (j_q j) <= H;
  jb_id : rq_id (j_q j) < next;
  jb_bno : rq_bno (j_q j) < MAX_BUNDLES;
  jb_top : klt (j_lo j) KPosInf /\ kle (rq_hi (j_q j)) KPosInf;
  jb_sorted : StronglySorted klt ks;
  jb_ends : exists mid, ks = j_lo j :: mid ++ [rq_hi (j_q j)];
  jb_len : length ks <= MAX_PIVOTS;
  jb_gens : forall i i' lo hi lo' hi', cell ks i lo hi -> cell ks i' lo' hi' -> rq_gens (j_q j) i = rq_gens (j_q j) i' -> i = i';
  jb_out : branch_ok out;
  jb_keys : forall e, In e out -> kle (j_lo j) (KUser (fst e)) /\ klt (KUser (fst e)) (rq_hi (j_q j));
  jb_fps : rq_fps (j_q j) = map (fun e => hash (fst e)) out;
  jb_gen_cell : forall k v i lo hi, active V j k v -> cell ks i lo hi -> v_gen v = rq_gens (j_q j) i -> kle lo k /\ klt k hi;
  jb_pgen : forall k v i lo hi, active V j k v -> cell ks i lo hi -> rq_gens (j_q j) i < v_pgen v;
  jb_bound_lo : bound V (rq_height (j_q j)) (j_lo j);
  jb_bound_hi : bound V (rq_height (j_q j)) (rq_hi (j_q j))
}.

(** The cell of a view is one of those the job started with *)
Definition known (j : job) (ks : list key) (v : view) : Prop :=
  exists i, cell ks i (v_lo v) (v_hi v) /\ v_gen v = rq_gens (j_q j) i.
Definition replaced_at (j : job) (ks : list key) (out : branch) (v : view) : Prop :=
  forall b, vbundle (rq_bno (j_q j)) v = Some b -> (exists fls, b = [AS true [out] fls]) /\ known j ks v.
Definition pending_at (j : job) (ks : list key) (out : branch) (full : bool) (k : key) (v : view) : Prop :=
  match vbundle (rq_bno (j_q j)) v with
  | Some b => out_ok k full b out /\ known j ks v /\ (full = true -> rq_height (j_q j) = 0 /\ v_bno v = rq_bno (j_q j) /\ v_whole v = [])
  | None => no_out k out
  end.
Definition counted (j : job) (ks : list key) (out : branch) : Prop :=
  forall i lo hi, cell ks i lo hi -> rq_out (j_q j) i = count lo hi out.

Definition phase_ok (V : vw) (j : job) (ks : list key) (out : branch) (full : bool) : Prop :=
  let q := j_q j in
  kle (j_lo j) (rq_lo q) /\ klt (rq_lo q) (rq_hi q) /\ bound V (rq_height q) (rq_lo q) /\
  match j_ph j with
  | Replace o any =>
      o = match out with [] => None | _ => Some out end /\
      (forall i lo hi, cell ks i lo hi -> (klt lo (rq_lo q) -> rq_out q i = count lo hi out) /\ (kle (rq_lo q) lo -> rq_out q i = 0)) /\
      (forall k v, active V j k v -> (kle (rq_lo q) k -> pending_at j ks out full k v) /\ (klt k (rq_lo q) -> replaced_at j ks out v))
  | Build => counted j ks out /\ (forall k v, active V j k v -> replaced_at j ks out v)
  | Install s =>
      counted j ks out /\ (forall k v, active V j k v -> replaced_at j ks out v) /\
      kle (j_lo j) (sc_lo s) /\ klt (sc_lo s) (sc_hi s) /\ kle (sc_hi s) (rq_hi q) /\
      bound V (rq_height q) (sc_lo s) /\ bound V (rq_height q) (sc_hi s) /\
      (forall k v b, active V j k v -> kle (sc_lo s) k -> klt k (sc_hi s) -> vbundle (rq_bno q) v = Some b ->
         v_bno v = rq_bno q /\
         sc_new s (generation_to_pos q (v_gen v)) = filt_add (v_filt v) (slice q (generation_to_pos q (v_gen v))) (length (v_whole v)))
  end.
Definition job_ok (V : vw) (H next : nat) (j : job) : Prop :=
  exists ks out full, job_base V H next j ks out /\ phase_ok V j ks out full.

(** Two jobs for the same bundle have no key in common *)
Definition excl (j j' : job) : Prop :=
  rq_height (j_q j) <> rq_height (j_q j') \/ rq_bno (j_q j) <> rq_bno (j_q j') \/
  kle (rq_hi (j_q j)) (j_lo j') \/ kle (rq_hi (j_q j')) (j_lo j) \/
  (rq_height (j_q j) = 0 /\ rq_id (j_q j) <> rq_id (j_q j')).
Lemma excl_sym : forall j j', excl j j' -> excl j' j.
Proof. unfold excl. intros j j' H. destruct H as [H|[H|[H|[H|[H1 H2]]]]]; auto 6. destruct (Nat.eq_dec (rq_height (j_q j)) (rq_height (j_q j'))); [|auto]. right. right. right. right. split; [congruence | auto]. Qed.

Record inv (st : state) : Prop := {
  i_wf : swf st;
  i_mts : Forall branch_ok (st_mts st);
  i_ok : forall h k v, h <= height_of st -> views st h (KUser k) = Some v -> view_ok k v;
  i_ids : forall h k v, h <= height_of st -> klt k KPosInf -> views st h k = Some v -> v_id v < st_next st;
  i_jobs : Forall (job_ok (views st) (height_of st) (st_next st)) (st_jobs st);
  i_excl : ForallOrdPairs excl (st_jobs st)
}.

(** ** What other steps may do to the views of a job *)

Definition keeps (j : job) (k : key) (v v' : view) : Prop :=
  v_pgen v <= v_pgen v' /\ (v_gen v' = v_gen v \/ v_pgen v <= v_gen v') /\
  ((vbundle (rq_bno (j_q j)) v' = None /\
    (vbundle (rq_bno (j_q j)) v = None \/ match j_ph j with Replace _ _ => klt k (rq_lo (j_q j)) | _ => True end)) \/
   (vbundle (rq_bno (j_q j)) v' = vbundle (rq_bno (j_q j)) v /\ v_lo v' = v_lo v /\ v_hi v' = v_hi v /\ v_gen v' = v_gen v /\
    (v_bno v = rq_bno (j_q j) -> v_bno v' = v_bno v /\ v_whole v' = v_whole v /\ v_filt v' = v_filt v))).

Lemma keeps_refl : forall j k v, keeps j k v v.
Proof. intros. repeat split; auto. right. repeat split; auto. Qed.

Lemma bound_keep : forall V V' h c, bound V h c ->
  (forall k v', V' h k = Some v' -> klt k KPosInf -> exists v, V h k = Some v /\ kle (v_nlo v) (v_nlo v') /\ kle (v_nhi v') (v_nhi v)) ->
  bound V' h c.
Proof.
  intros V V' h c B H k v' E Hk H1 H2. destruct (H k v' E Hk) as (v & Ev & L1 & L2). apply (B k v Ev Hk); ord TO.
Qed.

Theorem job_keep : forall V V' H H' next next' j, job_ok V H next j -> H <= H' -> next <= next' ->
  (forall k v', V' (rq_height (j_q j)) k = Some v' -> klt k KPosInf ->
     exists v, V (rq_height (j_q j)) k = Some v /\ kle (v_nlo v) (v_nlo v') /\ kle (v_nhi v') (v_nhi v) /\
       (rq_height (j_q j) = 0 -> v_id v' = v_id v \/ next <= v_id v') /\
       ((rq_height (j_q j) = 0 -> v_id v' = rq_id (j_q j)) -> kle (j_lo j) k -> klt k (rq_hi (j_q j)) -> keeps j k v v')) ->
  job_ok V' H' next' j.
Proof.
  intros V V' H H' next next' j (ks & out & full & B & P) LH Ln Hv. exists ks, out, full.
  assert (Bd : forall c, bound V (rq_height (j_q j)) c -> bound V' (rq_height (j_q j)) c).
  { intros c Hc. eapply bound_keep; [exact Hc|]. intros k v' E Hk. destruct (Hv k v' E Hk) as (v & Ev & L1 & L2 & _). eauto. }
  assert (Ac : forall k v', active V' j k v' -> exists v, active V j k v /\ keeps j k v v').
  { intros k v' (A1 & A2 & A3 & A4). assert (Hk : klt k KPosInf) by (destruct B as [_ _ _ [_ T] _ _ _ _ _ _ _ _ _ _ _]; ord TO).
    destruct (Hv k v' A3 Hk) as (v & Ev & _ & _ & Hid & Hkp). exists v. split; [|apply Hkp; auto].
    repeat split; auto. intro Z. destruct (Hid Z) as [Q|Q]; [rewrite <- Q; auto|].
    rewrite (A4 Z) in Q. pose proof (jb_id _ _ _ _ _ _ B). lia. }
  split.
  - destruct B. constructor; auto; try lia.
    + intros k v' i lo hi A Hc Eg. destruct (Ac k v' A) as (v & Av & (K1 & [K2|K2] & _)).
      * apply (jb_gen_cell0 k v i lo hi Av Hc). congruence.
      * pose proof (jb_pgen0 k v i lo hi Av Hc). lia.
    + intros k v' i lo hi A Hc. destruct (Ac k v' A) as (v & Av & (K1 & _ & _)). pose proof (jb_pgen0 k v i lo hi Av Hc). lia.
  - unfold phase_ok in *. destruct P as (P1 & P2 & P3 & P4). split; [exact P1|]. split; [exact P2|]. split; [apply Bd; exact P3|].
    assert (Rp : forall k v v', keeps j k v v' -> replaced_at j ks out v -> replaced_at j ks out v').
    { intros k v v' (_ & _ & [[K3 _]|(K3 & K4 & K5 & K6 & _)]) R b Eb; [congruence|]. rewrite K3 in Eb. destruct (R b Eb) as (R1 & i & R2 & R3).
      split; [exact R1|]. exists i. rewrite K4, K5, K6. auto. }
    destruct (j_ph j) as [o any| |s] eqn:Eph.
    + destruct P4 as (Q1 & Q2 & Q3). split; [exact Q1|]. split; [exact Q2|]. intros k v' A. destruct (Ac k v' A) as (v & Av & Kp).
      destruct (Q3 k v Av) as [Q4 Q5]. split; [|intro L; eapply Rp; eauto].
      intro L. specialize (Q4 L). unfold pending_at in *. destruct Kp as (_ & _ & [[K3 K3']|(K3 & K4 & K5 & K6 & K7)]).
      * rewrite K3. rewrite Eph in K3'. destruct K3' as [K3'|K3']; [|exfalso; ord TO]. rewrite K3' in Q4. exact Q4.
      * rewrite K3. destruct (vbundle (rq_bno (j_q j)) v) as [b|]; [|exact Q4]. destruct Q4 as (R1 & (i & R2 & R3) & R4).
        split; [exact R1|]. split; [exists i; rewrite K4, K5, K6; auto|]. intro Fl. destruct (R4 Fl) as (R5 & R6 & R7). destruct (K7 R6) as (K8 & K9 & _).
        split; [exact R5|]. rewrite K8, K9. auto.
    + destruct P4 as [Q1 Q2]. split; [exact Q1|]. intros k v' A. destruct (Ac k v' A) as (v & Av & Kp). eapply Rp; eauto.
    + destruct P4 as (Q1 & Q2 & Q3 & Q4 & Q5 & Q6 & Q7 & Q8). split; [exact Q1|]. split; [|split; [exact Q3|split; [exact Q4|split; [exact Q5|split; [apply Bd; exact Q6|split; [apply Bd; exact Q7|]]]]]].
      * intros k v' A. destruct (Ac k v' A) as (v & Av & Kp). eapply Rp; eauto.
      * intros k v' b A L1 L2 Eb. destruct (Ac k v' A) as (v & Av & Kp). destruct Kp as (_ & _ & [[K3 _]|(K3 & K4 & K5 & K6 & K7)]); [congruence|].
        rewrite K3 in Eb. destruct (Q8 k v b Av L1 L2 Eb) as [R1 R2]. destruct (K7 R1) as (K8 & K9 & K10). rewrite K6, K8, K9, K10. auto.
Qed.

(** ** The bundle of a job in changed views *)

Lemma vb_push : forall bno l v, v_bno v < MAX_BUNDLES -> bno < MAX_BUNDLES -> length (v_bns v) < MAX_BUNDLES -> bno <> v_end v ->
  vbundle bno (v_push l v) = vbundle bno v.
Proof.
  intros bno l v L1 L2 L3 N. unfold vbundle, v_push, v_with, v_end in *. cbn [v_bns v_bno].
  set (j := csub MAX_BUNDLES bno (v_bno v)) in *.
  assert (Ej : bno = cadd MAX_BUNDLES (v_bno v) j /\ j < MAX_BUNDLES).
  { unfold j. Transparent csub cadd. unfold csub, cadd. Opaque csub cadd. split; [|apply Nat.mod_upper_bound; lia].
    rewrite Nat.add_mod_idemp_r by lia. replace (v_bno v + (bno + MAX_BUNDLES - v_bno v)) with (bno + 1 * MAX_BUNDLES) by lia. rewrite Nat.mod_add by lia. symmetry. apply Nat.mod_small. exact L2. }
  destruct Ej as [Ej Lj]. clearbody j. destruct (lt_eq_lt_dec j (length (v_bns v))) as [[Q|Q]|Q].
  - apply nth_error_app1. exact Q.
  - subst j. contradiction.
  - rewrite nth_error_app2 by lia. destruct (j - length (v_bns v)) as [|[|z]] eqn:Z; [lia| |]; cbn [nth_error].
    + symmetry. apply nth_error_None. lia.
    + symmetry. apply nth_error_None. lia.
Qed.
Lemma vb_nil : forall bno v, v_bns v = [] -> vbundle bno v = None.
Proof. intros bno v E. unfold vbundle. rewrite E. destruct (csub _ _ _); reflexivity. Qed.
Lemma nth_error_set_same : forall {A} i (x : A) l, i < length l -> nth_error (set_nth i x l) i = Some x.
Proof. intros A i x l L. unfold set_nth. rewrite nth_error_app2; rewrite firstn_length, Nat.min_l by lia; [|lia]. rewrite Nat.sub_diag. reflexivity. Qed.
Lemma nth_error_set_other : forall {A} i i' (x : A) l, i < length l -> i' <> i -> nth_error (set_nth i x l) i' = nth_error l i'.
Proof.
  intros A i. unfold set_nth. induction i as [|i IH]; intros i' x l L N; destruct l as [|a l]; cbn [length] in L; try lia.
  - destruct i' as [|i']; [contradiction|]. reflexivity.
  - destruct i' as [|i']; [reflexivity|]. cbn [firstn app nth_error]. apply IH; lia.
Qed.
Lemma csub_inj : forall m a b s, a < m -> b < m -> s < m -> csub m a s = csub m b s -> a = b.
Proof.
  intros m a b s La Lb Ls. Transparent csub cadd. unfold csub. Opaque csub cadd. intro E.
  assert (G : forall x, x < m -> (x + m - s) mod m = if s <=? x then x - s else x + m - s).
  { intros x Lx. destruct (Nat.leb_spec s x); [|apply Nat.mod_small; lia]. replace (x + m - s) with (x - s + 1 * m) by lia. rewrite Nat.mod_add by lia. apply Nat.mod_small. lia. }
  rewrite !G in E by auto. destruct (Nat.leb_spec s a), (Nat.leb_spec s b); lia.
Qed.
Lemma vb_set : forall bno bno' x v, bno < MAX_BUNDLES -> bno' < MAX_BUNDLES -> v_bno v < MAX_BUNDLES -> vbundle bno' v <> None ->
  vbundle bno (v_set (csub MAX_BUNDLES bno' (v_bno v)) x v) = if bno =? bno' then Some x else vbundle bno v.
Proof.
  intros bno bno' x v L1 L2 L3 N. unfold vbundle in *. apply nth_error_Some in N. unfold v_set, v_with. cbn [v_bns v_bno].
  destruct (Nat.eqb_spec bno bno') as [->|Z].
  - apply nth_error_set_same. exact N.
  - apply nth_error_set_other; [exact N|]. intro Q. apply Z. revert Q. apply csub_inj; auto.
Qed.

End Inv.
