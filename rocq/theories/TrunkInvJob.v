(** * The invariant under the steps of compaction jobs *)

From Coq Require Import List Arith NArith ZArith Lia Bool Sorted.
From Verif Require Import Base Spec Spec_Merge DataProofs Search.
From Verif Require Import TrunkNode TrunkRing TrunkRep TrunkOps TrunkReset TrunkFlush TrunkClear TrunkReplace TrunkSplit.
From Verif Require Import TrunkAlpha TrunkKeys TrunkView TrunkTree TrunkShape TrunkLookup TrunkEffects TrunkInstall TrunkSplitEff TrunkInv TrunkInvMem TrunkInvNode TrunkInvFlush TrunkInvSplit TrunkInvCompact.
Import ListNotations.
Local Open Scope nat_scope.

Set Default Proof Using "All".
Section Job.
Variables (M mp : nat) (cfg : data_config) (hash : bytes -> N).
Hypothesis TO : total_order (key_compare cfg).
Hypothesis LM : lawful_merge cfg.
Hypothesis Hmp : mp <= MAX_PIVOTS.
Hypothesis M0 : 0 < M.
Local Notation klt := (klt cfg).
Local Notation kle := (kle cfg).
Local Notation nwf := (nwf M mp cfg).
Local Notation twf := (twf M mp cfg).
Local Notation nview := (nview M cfg).
Local Notation view_at := (view_at M cfg).
Local Notation branch_ok := (branch_ok cfg).
Local Notation view_ok := (view_ok cfg hash).
Local Notation views := (views M cfg).
Local Notation swf := (swf M mp cfg).
Local Notation content := (content M cfg).
Local Notation job_ok := (job_ok cfg hash).
Local Notation job_base := (job_base cfg hash).
Local Notation inv := (inv M mp cfg hash).
Local Notation exec := (exec M mp cfg hash).
Local Notation bound := (bound cfg).
Local Notation count := (count cfg).
Local Notation excl := (excl cfg).
Local Notation local := (local M mp cfg).

Local Notation phase_ok := (phase_ok cfg).

(** ** Replacing one job *)

Definition alike (j j2 : job) : Prop :=
  j_lo j2 = j_lo j /\ rq_hi (j_q j2) = rq_hi (j_q j) /\ rq_height (j_q j2) = rq_height (j_q j) /\ rq_bno (j_q j2) = rq_bno (j_q j) /\ rq_id (j_q j2) = rq_id (j_q j).
Lemma alike_excl : forall j j2 j', alike j j2 -> excl j j' -> excl j2 j'.
Proof. intros j j2 j' (E1 & E2 & E3 & E4 & E5). unfold TrunkInv.excl. rewrite E1, E2, E3, E4, E5. auto. Qed.

Lemma fop_mid : forall X Y (j : job), ForallOrdPairs excl (X ++ j :: Y) ->
  Forall (fun j' => excl j' j) X /\ Forall (excl j) Y /\ ForallOrdPairs excl (X ++ Y).
Proof.
  induction X as [|x X IH]; intros Y j F; cbn in F; inversion F as [|? ? F1 F2]; subst.
  - split; [constructor|]. split; assumption.
  - destruct (IH Y j F2) as (I1 & I2 & I3). apply Forall_app in F1. destruct F1 as [F1 F3]. inversion F3; subst.
    split; [constructor; assumption|]. split; [assumption|]. cbn. constructor; [apply Forall_app; auto | assumption].
Qed.
Lemma fop_put : forall X Y (j : job), Forall (fun j' => excl j' j) X -> Forall (excl j) Y -> ForallOrdPairs excl (X ++ Y) -> ForallOrdPairs excl (X ++ j :: Y).
Proof.
  induction X as [|x X IH]; intros Y j F1 F2 F3; cbn in *; [constructor; auto|]. inversion F3 as [|? ? G1 G2]; subst. inversion F1; subst. constructor.
  - apply Forall_app in G1. apply Forall_app. split; [apply G1|]. constructor; [assumption | apply G1].
  - apply IH; auto.
Qed.

Lemma set_job_spec : forall i j o js, nth_error js i = Some j -> exists X Y, js = X ++ j :: Y /\
  set_job i o js = X ++ (match o with Some j2 => [j2] | None => [] end) ++ Y.
Proof.
  intros i j o js E. destruct (nth_error_split _ _ E) as (X & Y & Ej & L). exists X, Y. split; [exact Ej|]. unfold set_job. rewrite Ej, <- L.
  rewrite firstn_app, firstn_all, Nat.sub_diag. cbn [firstn]. rewrite app_nil_r. do 2 f_equal.
  replace (S (length X)) with (length (X ++ [j])) by (rewrite app_length; cbn; lia). change (X ++ j :: Y) with (X ++ [j] ++ Y). rewrite app_assoc.
  rewrite skipn_app, skipn_all, Nat.sub_diag. reflexivity.
Qed.

(** The jobs after a step of one of them: it may go away or be replaced *)
Lemma jobs_set : forall st i j o (P : job -> Prop), inv st -> nth_error (st_jobs st) i = Some j ->
  (forall j', In j' (st_jobs st) -> job_ok (views st) (height_of st) (st_next st) j' -> excl j j' -> P j') ->
  match o with Some j2 => alike j j2 /\ P j2 | None => True end ->
  Forall P (set_job i o (st_jobs st)) /\ ForallOrdPairs excl (set_job i o (st_jobs st)).
Proof.
  intros st i j o P Hi Ej Ho Ho2. destruct (set_job_spec i j o _ Ej) as (X & Y & E1 & E2). rewrite E2.
  pose proof (i_excl _ _ _ _ _ Hi) as Fx. pose proof (i_jobs _ _ _ _ _ Hi) as Fj. rewrite E1 in Fx, Fj.
  destruct (fop_mid X Y j Fx) as (Q1 & Q2 & Q3). apply Forall_app in Fj. destruct Fj as [J1 J2]. inversion J2 as [|? ? J3 J4]; subst.
  rewrite Forall_forall in Q1, Q2, J1, J4.
  assert (PX : Forall P X). { rewrite Forall_forall. intros j' I. apply Ho; auto; [rewrite E1; apply in_or_app; auto|]. apply (excl_sym M mp cfg hash TO LM). auto. }
  assert (PY : Forall P Y). { rewrite Forall_forall. intros j' I. apply Ho; auto. rewrite E1. apply in_or_app. right. right. exact I. }
  destruct o as [j2|]; cbn [app].
  - destruct Ho2 as [Al Pj]. split; [apply Forall_app; auto|]. apply fop_put; auto; rewrite Forall_forall.
    + intros j' I. apply (excl_sym M mp cfg hash TO LM). apply (alike_excl j); auto. apply (excl_sym M mp cfg hash TO LM). auto.
    + intros j' I. apply (alike_excl j); auto.
  - split; [apply Forall_app; auto | exact Q3].
Qed.

(** ** A job at a node *)

Lemma job_node : forall st j c, inv st -> rq_height (j_q j) <= height_of st -> klt c KPosInf -> bound (views st) (rq_height (j_q j)) c ->
  klt c (rq_hi (j_q j)) -> bound (views st) (rq_height (j_q j)) (rq_hi (j_q j)) -> 
  exists n A, node_at cfg (height_of st - rq_height (j_q j)) c (st_tree st) = Some n /\ nwf (rq_height (j_q j)) n A /\ A = alpha M n /\
    kle (an_lo A) c /\ kle c (an_lo A) /\ klt c (an_hi A) /\ kle (an_hi A) (rq_hi (j_q j)) /\
    (forall k, kle (an_lo A) k -> klt k (an_hi A) -> views st (rq_height (j_q j)) k = nview n k).
Proof.
  intros st j c Hi Lh Hc Bc Lc Bh. pose proof (i_wf _ _ _ _ _ Hi) as T.
  destruct (node_view M mp cfg hash TO LM st (rq_height (j_q j)) c T Lh Hc) as (n & A & En & W & R1 & R2 & R3 & Vn & R4).
  assert (Q : A = alpha M n) by (symmetry; apply alpha_eq; [apply (w_rep _ _ _ _ _ _ W) | apply (w_aok _ _ _ _ _ _ W)]).
  exists n, A. split; [exact En|]. split; [exact W|]. split; [exact Q|]. split; [exact R1|].
  destruct (nview_facts M mp cfg hash TO LM _ n A c W R1 R2) as (v & Ev & Fv & N1 & N2 & _). rewrite <- Vn in Ev by auto.
  split; [|split; [exact R2|split; [|exact Vn]]].
  - destruct (kle_lt_dec cfg TO c (an_lo A)) as [L|L]; [exact L|]. exfalso. apply (Bc c v Ev Hc); rewrite ?N1, ?N2; auto.
  - destruct (kle_lt_dec cfg TO (an_hi A) (rq_hi (j_q j))) as [L|L]; [exact L|]. exfalso. apply (Bh c v Ev Hc); rewrite ?N1, ?N2; auto. ord TO.
Qed.

Lemma local_back : forall st st' h lo hi e k v', swf st -> local st st' h lo hi -> e <= height_of st -> klt k KPosInf -> views st' e k = Some v' ->
  exists v, views st e k = Some v /\ v_id v' = v_id v /\ v_nlo v' = v_nlo v /\ v_nhi v' = v_nhi v /\ v_pgen v' = v_pgen v /\ v_lo v' = v_lo v /\ v_hi v' = v_hi v /\ v_gen v' = v_gen v /\
    (e <> h \/ klt k lo \/ kle hi k -> v' = v).
Proof.
  intros st st' h lo hi e k v' T Lc Le Hk Ev.
  assert (Same : views st' e k = views st e k -> exists v, views st e k = Some v /\ v_id v' = v_id v /\ v_nlo v' = v_nlo v /\ v_nhi v' = v_nhi v /\ v_pgen v' = v_pgen v /\ v_lo v' = v_lo v /\ v_hi v' = v_hi v /\ v_gen v' = v_gen v /\
    (e <> h \/ klt k lo \/ kle hi k -> v' = v)).
  { intro Q. exists v'. rewrite <- Q, Ev. repeat split; reflexivity. }
  destruct (Nat.eq_dec e h) as [Q|N]; [|apply Same; apply (lc_other _ _ _ _ _ _ _ _ Lc); auto]. subst e.
  assert (Dec : (klt k lo \/ kle hi k) \/ (kle lo k /\ klt k hi)) by (destruct (kle_lt_dec cfg TO lo k); [destruct (kle_lt_dec cfg TO hi k)|]; auto).
  destruct Dec as [O|[I1 I2]]; [apply Same; apply (lc_out _ _ _ _ _ _ _ _ Lc); auto|].
  destruct (lc_in _ _ _ _ _ _ _ _ Lc k I1 I2) as (v & b & w & bs & f & E1 & E2). exists v. rewrite E1. assert (v' = v_with v b w bs f) by congruence. subst v'. cbn.
  repeat split; auto. intros [Q|[Q|Q]]; exfalso; [congruence | ord TO | ord TO].
Qed.
Lemma local_bound : forall st st' h lo hi e c, swf st -> local st st' h lo hi -> e <= height_of st -> bound (views st) e c -> bound (views st') e c.
Proof.
  intros st st' h lo hi e c T Lc Le B k v Ev Hk Q1 Q2. destruct (local_back st st' h lo hi e k v T Lc Le Hk Ev) as (w & Ew & _ & N1 & N2 & _). apply (B k w Ew Hk); congruence.
Qed.
Lemma base_top : forall V H nx j ks out k, job_base V H nx j ks out -> klt k (rq_hi (j_q j)) -> klt k KPosInf.
Proof. intros V H nx j ks out k B L. pose proof (jb_top _ _ _ _ _ _ _ _ B) as [_ Q]. ord TO. Qed.

Lemma base_local : forall st st' h lo hi j j2 ks out, swf st -> local st st' h lo hi -> job_base (views st) (height_of st) (st_next st) j ks out ->
  alike j j2 -> rq_gens (j_q j2) = rq_gens (j_q j) -> rq_fps (j_q j2) = rq_fps (j_q j) ->
  job_base (views st') (height_of st') (st_next st) j2 ks out.
Proof.
  intros st st' h lo hi j j2 ks out T Lc B (E1 & E2 & E3 & E4 & E5) E6 E7. rewrite (lc_height _ _ _ _ _ _ _ _ Lc).
  assert (Tp : forall k, klt k (rq_hi (j_q j)) -> klt k KPosInf) by (intro k; eapply base_top; exact B).
  pose proof (jb_height _ _ _ _ _ _ _ _ B) as Lh.
  destruct B as [b1 b2 b3 b4 b5 b6 b7 b8 b9 b10 b11 b12 b13 b14 b15]. constructor; rewrite ?E1, ?E2, ?E3, ?E4, ?E5, ?E6, ?E7; auto.
  - intros k v i a b (A1 & A2 & A3 & A4) Ce Eg. rewrite E1 in A1; rewrite E2 in A2; rewrite E3 in A3, A4; rewrite E5 in A4. destruct (local_back st st' h lo hi _ k v T Lc Lh (Tp k A2) A3) as (w & Ew & W1 & W2 & W3 & W4 & W5 & W6 & W7 & _).
    apply (b12 k w i a b); auto; [|congruence]. split; [exact A1|]. split; [exact A2|]. split; [exact Ew|]. intro Z. rewrite <- W1. auto.
  - intros k v i a b (A1 & A2 & A3 & A4) Ce. rewrite E1 in A1; rewrite E2 in A2; rewrite E3 in A3, A4; rewrite E5 in A4. destruct (local_back st st' h lo hi _ k v T Lc Lh (Tp k A2) A3) as (w & Ew & W1 & W2 & W3 & W4 & W5 & W6 & W7 & _).
    rewrite W4. apply (b13 k w i a b); auto. split; [exact A1|]. split; [exact A2|]. split; [exact Ew|]. intro Z. rewrite <- W1. auto.
  - eapply local_bound; eauto.
  - eapply local_bound; eauto.
Qed.

Definition keepb (bno : nat) (v v' : view) : Prop :=
  (vbundle bno v' = None /\ vbundle bno v = None) \/
  (vbundle bno v' = vbundle bno v /\ (v_bno v = bno -> v_bno v' = v_bno v /\ v_whole v' = v_whole v /\ v_filt v' = v_filt v)).

(** A step of job [j] that changes the node [n] to [n'] *)
Lemma job_commit : forall st i j c n n' A A' t' o, inv st -> nth_error (st_jobs st) i = Some j -> let h := rq_height (j_q j) in
  h <= height_of st -> klt c KPosInf -> node_at cfg (height_of st - h) c (st_tree st) = Some n -> A = alpha M n -> 
  nwf h n' A' -> akeys A' = akeys A -> kle (j_lo j) (an_lo A) -> kle (an_hi A) (rq_hi (j_q j)) ->
  put_node cfg (height_of st - h) c n' (st_tree st) = Some t' ->
  (h = 0 -> n_id n = rq_id (j_q j)) ->
  (forall k, kle (an_lo A) k -> klt k (an_hi A) -> exists v b w bs f, nview n k = Some v /\ nview n' k = Some (v_with v b w bs f) /\
     (forall bno, bno < MAX_BUNDLES -> bno <> rq_bno (j_q j) -> keepb bno v (v_with v b w bs f)) /\
     (forall u, k = KUser u -> view_ok u v -> view_ok u (v_with v b w bs f)) /\
     (forall u x, k = KUser u -> (h = 0 -> x = None) -> replay cfg u (key_messages u (v_branches (v_with v b w bs f))) x = replay cfg u (key_messages u (v_branches v)) x)) ->
  let st' := St t' (st_next st) (st_mts st) (set_job i o (st_jobs st)) in
  (local st st' h (an_lo A) (an_hi A) -> match o with Some j2 => alike j j2 /\ job_ok (views st') (height_of st') (st_next st) j2 | None => True end) ->
  inv st' /\ forall x, content st' x = content st x.
Proof.
  intros st i j c n n' A A' t' o Hi Ej h Lh Hc En EA W' Ek Lj Uj Ep Hid Hv st' Ho. pose proof (i_wf _ _ _ _ _ Hi) as T. subst A. set (A := alpha M n) in *.
  destruct (put_local M mp cfg hash TO LM Hmp M0 st h c n n' A' t' T Lh Hc En W' Ek Ep) as (W & R1 & R2 & R3 & R4 & Vn & Hst).
  destruct (Hst st' eq_refl) as (EH & T' & V1 & V2 & V3 & _). destruct (akeys_ends A A' Ek) as (Ea & Eb & _). rewrite Ea, Eb in *.
  assert (Lc : local st st' h (an_lo A) (an_hi A)).
  { constructor; auto. intros k C1 C2. destruct (Hv k C1 C2) as (v & b & w & bs & f & E1 & E2 & _). exists v, b, w, bs, f. rewrite Vn, V3 by auto. auto. }
  specialize (Ho Lc).
  assert (VV : forall k v v', kle (an_lo A) k -> klt k (an_hi A) -> views st h k = Some v -> views st' h k = Some v' ->
     (forall bno, bno < MAX_BUNDLES -> bno <> rq_bno (j_q j) -> keepb bno v v') /\ (forall u, k = KUser u -> view_ok u v -> view_ok u v') /\
     (forall u x, k = KUser u -> (h = 0 -> x = None) -> replay cfg u (key_messages u (v_branches v')) x = replay cfg u (key_messages u (v_branches v)) x)).
  { intros k v v' C1 C2 E1 E2. destruct (Hv k C1 C2) as (w & b & wh & bs & f & F1 & F2 & F3). rewrite Vn in E1 by auto. rewrite V3 in E2 by auto.
    assert (w = v) by congruence. subst w. assert (v' = v_with v b wh bs f) by congruence. subst v'. exact F3. }
  split.
  - destruct (jobs_set st i j o (job_ok (views st') (height_of st') (st_next st')) Hi Ej) as [J1 J2].
    + intros j' I Jo Ex. eapply (local_job M mp cfg hash TO LM Hmp M0 st st' h _ _ _ j' Lc Jo); [apply le_n|].
      intros k v v' C1 C2 E1 E2 Eh (A1 & A2 & A3 & A4). destruct (VV k v v' C1 C2 E1 E2) as (Kp & _ & _).
      assert (Lb : rq_bno (j_q j') < MAX_BUNDLES) by (destruct Jo as (ks & out & full & B & _); apply (jb_bno _ _ _ _ _ _ _ _ B)).
      destruct (Nat.eq_dec (rq_bno (j_q j')) (rq_bno (j_q j))) as [Eb2|Nb].
      * exfalso. destruct Ex as [Q|[Q|[Q|[Q|[Q1 Q2]]]]]; [exact (Q Eh) | congruence | ord TO | ord TO |].
        assert (Z : h = 0) by exact Q1. rewrite Vn in E1 by auto. destruct (nview_facts M mp cfg hash TO LM _ n A k W C1 C2) as (w & Ew & _ & _ & _ & Iw & _).
        assert (w = v) by congruence. subst w. apply Q2. rewrite <- Hid by exact Z. rewrite <- A4 by (rewrite <- Eh; exact Z). congruence.
      * destruct (Kp _ Lb Nb) as [[K1 K2]|K]; [left; auto | right; exact K].
    + exact Ho.
    + apply (local_inv M mp cfg hash TO LM Hmp M0 st st' h (an_lo A) (an_hi A) Hi Lc eq_refl); auto.
      * exact (i_mts _ _ _ _ _ Hi).
      * intros k v v' C1 C2 E1 E2. destruct (VV _ v v' C1 C2 E1 E2) as (_ & Q & _). apply Q. reflexivity.
  - intro x. apply (content_one M mp cfg hash TO LM Hmp M0 st st' x h EH eq_refl Lh).
    + intros e Le Ne. apply V1; auto. apply klt_pos_inf.
    + intros y Hy.
      assert (Dec : (klt (KUser x) (an_lo A) \/ kle (an_hi A) (KUser x)) \/ (kle (an_lo A) (KUser x) /\ klt (KUser x) (an_hi A))).
      { destruct (kle_lt_dec cfg TO (an_lo A) (KUser x)); [destruct (kle_lt_dec cfg TO (an_hi A) (KUser x))|]; auto. }
      destruct Dec as [O|[I1 I2]]; [rewrite V2; auto; apply klt_pos_inf|].
      destruct (Hv _ I1 I2) as (v & b & w & bs & f & E1 & E2 & _ & _ & Q). rewrite Vn, V3, E1, E2 by auto. cbn [vmsgs]. apply Q; auto.
Qed.

(** A step of job [j] that changes no node *)
Lemma job_quiet : forall st i j o, inv st -> nth_error (st_jobs st) i = Some j ->
  match o with Some j2 => alike j j2 /\ job_ok (views st) (height_of st) (st_next st) j2 | None => True end ->
  let st' := St (st_tree st) (st_next st) (st_mts st) (set_job i o (st_jobs st)) in inv st' /\ forall x, content st' x = content st x.
Proof.
  intros st i j o Hi Ej Ho st'. split; [|reflexivity].
  destruct (jobs_set st i j o (job_ok (views st) (height_of st) (st_next st)) Hi Ej) as [J1 J2]; auto.
  constructor; try apply Hi; [exact J1 | exact J2].
Qed.

(** Storing a node back unchanged *)
Lemma put_same : forall st d c n t', swf st -> d <= height_of st -> klt c KPosInf -> node_at cfg d c (st_tree st) = Some n -> put_node cfg d c n (st_tree st) = Some t' -> t' = st_tree st.
Proof.
  intros st d c n t' _ _ _ En Ep. unfold node_at in En. unfold put_node in Ep. destruct (subtree_at cfg d c (st_tree st)) as [s|] eqn:Es; [|discriminate].
  injection En as <-. destruct s as [n ks]. cbn [t_node t_kids] in Ep. revert Ep Es. generalize (st_tree st) as t. clear. revert c t'.
  induction d as [|d IH]; intros c t' t Ep Es; cbn [put_at subtree_at] in *; [congruence|].
  destruct t as [m kids]. cbn [t_node t_kids] in *. destruct (route cfg m c) as [i|]; [|discriminate]. destruct (nth_error kids i) as [x|] eqn:Ex; [|discriminate].
  destruct (put_at cfg d c (Tr n ks) x) as [x'|] eqn:Ex'; [|discriminate]. injection Ep as <-. rewrite (IH _ _ _ Ex' Es). f_equal.
  clear - Ex. revert i Ex. induction kids as [|y r IH]; intros [|i] Ex; try discriminate; cbn in *; [congruence|]. f_equal. apply IH. exact Ex.
Qed.

End Job.
