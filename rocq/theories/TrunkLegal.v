(** * Runs of the trunk: the content of the tree follows the writes

    [guard] says when a step is within the conditions under which the code is
    correct.  Each condition that the code itself does not establish is the
    subject of a refutation in Prop_Trunk.v. *)

From Coq Require Import List Arith NArith ZArith Lia Bool Sorted.
From Verif Require Import Base Spec Spec_Merge DataProofs Search.
From Verif Require Import TrunkNode TrunkRing TrunkRep TrunkOps TrunkReset TrunkFlush TrunkClear TrunkReplace TrunkSplit.
From Verif Require Import TrunkAlpha TrunkKeys TrunkView TrunkTree TrunkShape TrunkLookup TrunkEffects TrunkInstall TrunkSplitEff TrunkInv TrunkInvMem TrunkInvNode TrunkInvFlush TrunkInvSplit TrunkInvCompact TrunkInvJob TrunkInvReplace TrunkInvBuild.
Import ListNotations.
Local Open Scope nat_scope.

Section Guard.
Variables (M : nat) (cfg : data_config).

Definition ltb (a b : key) : bool := (data_key_compare cfg a b <? 0)%Z.
Definition leb (a b : key) : bool := (data_key_compare cfg a b <=? 0)%Z.

(** Room in the ring of subbundle filters (TRUNK_MAX_SUBBUNDLE_FILTERS, never checked
    in trunk.c) *)
Definition room_b (n : node) (extra : nat) : bool := csub MAX_SB_FILTERS (n_efl n) (n_sfl n) + extra <? MAX_SB_FILTERS.
(** No compaction outstanding for bundle [bno] of the node *)
Definition other_b (n : node) (bno : nat) (j : job) : bool :=
  negb (rq_height (j_q j) =? n_height n) || negb (rq_bno (j_q j) =? bno) ||
  leb (rq_hi (j_q j)) (min_key n) || leb (max_key n) (j_lo j) || ((n_height n =? 0) && negb (n_id n =? rq_id (j_q j))).
(** No compaction of a bundle live for the pivot is still to replace it in the node *)
Definition settled_b (n : node) (p : pivot) (lo hi : key) (j : job) : bool :=
  negb (rq_height (j_q j) =? n_height n) ||
  match j_ph j with Replace _ _ => false | _ => true end ||
  negb (bundle_live_for_pivot n (rq_bno (j_q j)) p) || leb hi (rq_lo (j_q j)) || leb (rq_hi (j_q j)) lo.

Fixpoint ascending_b (l : list key) : bool :=
  match l with
  | a :: ((b :: _) as r) => ltb a b && ascending_b r
  | _ => true
  end.

(** The pivot and the child that a step is about *)
Definition on_child (st : state) (d : nat) (target : key) (f : node -> pivot -> tree -> bool) : bool :=
  match subtree_at cfg d target (st_tree st) with
  | Some (Tr n kids) =>
      match route cfg n target with
      | Some i => match get_pivot n i, nth_error kids i with Some p, Some c => f n p c | _, _ => true end
      | None => true
      end
  | None => true
  end.

Definition guard (st : state) (s : step) : bool :=
  match s with
  | Insert _ _ | Rotate | GrowRoot | BuildStep _ | InstallStep _ => true
  | Incorporate =>
      let n := t_node (st_tree st) in room_b n 1 && forallb (other_b n (n_ebn n)) (st_jobs st)
  | Flush d target =>
      (d <? height_of st) && ltb target KPosInf &&
      on_child st d target (fun n p c =>
        match nview M cfg n target with
        | Some v => room_b (t_node c) (length (fls_of (v_rebundled v)))
        | None => true
        end &&
        forallb (other_b (t_node c) (n_ebn (t_node c))) (st_jobs st) &&
        forallb (settled_b n p (min_key (t_node c)) (max_key (t_node c))) (st_jobs st))
  | SplitLeaf d target ks =>
      (d <? height_of st) && ltb target KPosInf &&
      on_child st d target (fun n p c =>
        (pv_sbn p =? n_ebn n) && negb (n_sbr (t_node c) =? n_ebr (t_node c)) &&
        ascending_b (min_key (t_node c) :: map KUser ks ++ [max_key (t_node c)]))
  | SplitIndex d target =>
      (S d <? height_of st) && ltb target KPosInf &&
      on_child st d target (fun n p c => (pv_sbn p =? n_ebn n) && (2 <=? num_children (t_node c)))
  | Compact d target bno =>
      (d <=? height_of st) && ltb target KPosInf && (bno <? MAX_BUNDLES) &&
      match node_at cfg d target (st_tree st) with
      | Some n => forallb (other_b n bno) (st_jobs st)
      | None => true
      end
  | ReplaceStep i =>
      match nth_error (st_jobs st) i with
      | Some j =>
          match j_ph j, node_at cfg (height_of st - rq_height (j_q j)) (rq_lo (j_q j)) (st_tree st) with
          | Replace None _, Some n => negb (bundle_live n (rq_bno (j_q j))) || (cadd MAX_BUNDLES (rq_bno (j_q j)) 1 =? n_ebn n)
          | _, _ => true
          end
      | None => true
      end
  end.
End Guard.

(** The writes of a run *)
Definition writes (l : list step) : list (bytes * message) :=
  flat_map (fun s => match s with Insert k m => [(k, m)] | _ => [] end) l.
(** Every step of the run is within the guard *)
Fixpoint guarded (M mp : nat) (cfg : data_config) (hash : bytes -> N) (st : state) (l : list step) : bool :=
  match l with
  | [] => true
  | s :: r => guard M cfg st s && match exec M mp cfg hash st s with Some st' => guarded M mp cfg hash st' r | None => true end
  end.
(** The ranges of the leaves, left to right *)
Fixpoint leaf_ranges (ht : nat) (t : tree) : list (key * key) :=
  match ht with
  | O => [(min_key (t_node t), max_key (t_node t))]
  | S h => flat_map (leaf_ranges h) (t_kids t)
  end.

Set Default Proof Using "All".
Section Legal.
Variables (M mp : nat) (cfg : data_config) (hash : bytes -> N).
Hypothesis TO : total_order (key_compare cfg).
Hypothesis LM : lawful_merge cfg.
Hypothesis Hmp : mp <= MAX_PIVOTS.
Hypothesis M0 : 0 < M.
Local Notation klt := (klt cfg).
Local Notation kle := (kle cfg).
Local Notation nwf := (nwf M mp cfg).
Local Notation twf := (twf M mp cfg).
Local Notation nview := (nview M cfg).
Local Notation view_at := (view_at M cfg).
Local Notation branch_ok := (branch_ok cfg).
Local Notation view_ok := (view_ok cfg hash).
Local Notation views := (views M cfg).
Local Notation swf := (swf M mp cfg).
Local Notation content := (content M cfg).
Local Notation job_ok := (job_ok cfg hash).
Local Notation job_base := (job_base cfg hash).
Local Notation inv := (inv M mp cfg hash).
Local Notation exec := (exec M mp cfg hash).
Local Notation bound := (bound cfg).
Local Notation count := (count cfg).
Local Notation excl := (excl cfg).
Local Notation local := (local M mp cfg).

Lemma ltb_iff : forall a b, ltb cfg a b = true <-> klt a b.
Proof. intros. unfold ltb, TrunkKeys.klt. apply Z.ltb_lt. Qed.
Lemma leb_iff : forall a b, leb cfg a b = true <-> kle a b.
Proof. intros. unfold leb, TrunkKeys.kle. apply Z.leb_le. Qed.
Lemma ascending_b_ok : forall l, ascending_b cfg l = true -> StronglySorted klt l.
Proof.
  intros l H. apply Sorted_StronglySorted; [intros a b c H1 H2; ord TO|].
  induction l as [|a [|b r] IH]; [constructor | constructor; constructor |]. cbn [ascending_b] in H. apply andb_true_iff in H. destruct H as [H1 H2]. apply ltb_iff in H1.
  constructor; [apply IH; exact H2 | constructor; exact H1].
Qed.
Lemma other_ok : forall n bno js, forallb (other_b cfg n bno) js = true ->
  Forall (fun j => rq_height (j_q j) = n_height n -> rq_bno (j_q j) = bno ->
                   kle (rq_hi (j_q j)) (min_key n) \/ kle (max_key n) (j_lo j) \/ (n_height n = 0 /\ n_id n <> rq_id (j_q j))) js.
Proof.
  intros n bno js H. rewrite forallb_forall in H. rewrite Forall_forall. intros j I E1 E2. specialize (H j I). unfold other_b in H.
  rewrite E1, E2, !Nat.eqb_refl in H. cbn [negb orb] in H. rewrite !orb_true_iff, !leb_iff, andb_true_iff in H. destruct H as [[H|H]|[H1 H2]]; auto.
  right. right. split; [apply Nat.eqb_eq; exact H1|]. apply negb_true_iff in H2. apply Nat.eqb_neq. exact H2.
Qed.
Lemma settled_ok : forall n p lo hi js, forallb (settled_b cfg n p lo hi) js = true -> pivot_settled cfg js (n_height n) n p lo hi.
Proof.
  intros n p lo hi js H. rewrite forallb_forall in H. unfold pivot_settled. rewrite Forall_forall. intros j I E1 E2 E3. specialize (H j I). unfold settled_b in H.
  rewrite E1, Nat.eqb_refl, E3 in H. cbn [negb orb] in H. destruct (j_ph j); [|contradiction|contradiction]. cbn [orb] in H. rewrite orb_true_iff, !leb_iff in H. exact H.
Qed.

(** ** The first state *)

Hypothesis Hmp2 : 2 <= mp.
Lemma first_nwf : forall id h, nwf h (first_node id h) (alpha M (first_node id h)) /\ akeys (alpha M (first_node id h)) = [KNegInf; KPosInf].
Proof.
  intros id h. assert (CW : forall m, cwalk m 0 0 = []). { intro m. unfold cwalk. Transparent csub. unfold csub. Opaque csub. cbn. destruct m; [reflexivity|]. rewrite Nat.sub_0_r, Nat.mod_same by lia. reflexivity. }
  assert (C0 : forall m, csub m 0 0 = 0). { intro m. Transparent csub. unfold csub. Opaque csub. cbn. destruct m; [reflexivity|]. rewrite Nat.sub_0_r, Nat.mod_same by lia. reflexivity. }
  assert (D0 : forall m, cadd m 0 0 = 0). { intro m. Transparent cadd. unfold cadd. Opaque cadd. cbn. destruct m; [reflexivity|]. apply Nat.mod_0_l. lia. }
  assert (EA : alpha M (first_node id h) = AN [] [] [AP KNegInf 0 0 0 []] KPosInf).
  { unfold alpha, first_node. cbn [n_sbr n_sfrac n_sbn n_ebn n_br n_bn]. rewrite !CW. cbn. unfold alpha_piv. cbn. rewrite !C0. reflexivity. }
  assert (MB : 0 < MAX_BUNDLES) by (vm_compute; lia). assert (MS : 0 < MAX_SUBBUNDLES) by (vm_compute; lia). assert (MF : 0 < MAX_SB_FILTERS) by (vm_compute; lia).
  rewrite EA. split; [|reflexivity]. constructor.
  - constructor; cbn; rewrite ?D0; auto; try (intros i x E; destruct i; discriminate).
    exists [PV KNegInf 0 0 0 []], (PV KPosInf 0 0 0 []). split; [reflexivity|]. split; [reflexivity|]. constructor; [|constructor]. unfold piv_rep. cbn. rewrite !D0. repeat split; reflexivity.
  - constructor; cbn; auto. + constructor; [|constructor]. left. split; [reflexivity | cbn; lia]. + discriminate.
  - reflexivity.
  - cbn. repeat constructor.
  - cbn. repeat constructor. intros [].
  - cbn. repeat constructor.
  - cbn. lia.
  - intros _. exists (AP KNegInf 0 0 0 []). repeat split; reflexivity.
Qed.

Lemma first_alpha : forall id h, an_whole (alpha M (first_node id h)) = [] /\ an_bns (alpha M (first_node id h)) = [] /\ Forall (fun a => ap_filt a = []) (an_piv (alpha M (first_node id h))).
Proof.
  intros id h. destruct (first_nwf id h) as [W _]. assert (CW : forall m, cwalk m 0 0 = []).
  { intro m. unfold cwalk. Transparent csub. unfold csub. Opaque csub. cbn. destruct m; [reflexivity|]. rewrite Nat.sub_0_r, Nat.mod_same by lia. reflexivity. }
  unfold alpha, first_node. cbn [n_sbr n_sfrac n_sbn n_ebn n_br n_bn an_whole an_bns an_piv]. rewrite !CW. split; [reflexivity|]. split; [reflexivity|]. repeat constructor.
Qed.
Lemma init_swf : swf init.
Proof.
  unfold TrunkInv.swf, height_of, init. cbn [st_tree t_node n_height first_node]. change (n_height (first_node 1 1)) with 1.
  destruct (first_nwf 1 1) as [W1 K1]. destruct (first_nwf 2 0) as [W2 K2].
  cbn [TrunkShape.twf t_node t_kids]. split; [exact W1|]. split; [rewrite an_lo_eq, K1; reflexivity|].
  split; [destruct (rep_min_max M _ _ (w_rep _ _ _ _ _ _ W1)) as [_ Q]; rewrite <- Q; reflexivity|]. rewrite K1. cbn [pairs]. constructor; [|constructor].
  cbn [fst snd t_node t_kids]. split; [exact W2|]. split; [rewrite an_lo_eq, K2; reflexivity|].
  split; [destruct (rep_min_max M _ _ (w_rep _ _ _ _ _ _ W2)) as [_ Q]; rewrite <- Q; reflexivity | reflexivity].
Qed.
Lemma init_views : forall h k v, h <= height_of init -> klt k KPosInf -> views init h k = Some v -> v_whole v = [] /\ v_bns v = [] /\ v_filt v = [] /\ v_id v < 3.
Proof.
  intros h k v Lh Hk Ev. destruct (node_view M mp cfg hash TO LM init h k init_swf Lh Hk) as (n & A & En & W & R1 & R2 & R3 & Vn & R4). rewrite Vn in Ev by auto.
  assert (Nn : exists id h', n = first_node id h' /\ id < 3).
  { unfold node_at in En. destruct (subtree_at cfg (height_of init - h) k (st_tree init)) as [s|] eqn:Es; [|discriminate]. injection En as <-. revert Es.
    assert (Q : height_of init - h = 0 \/ height_of init - h = 1) by (change (height_of init) with 1; lia). destruct Q as [-> | ->]; cbn [subtree_at st_tree init].
    - intro Q. injection Q as <-. exists 1, 1. split; [reflexivity | lia].
    - cbn [t_node t_kids]. destruct (route cfg (first_node 1 1) k) as [[|i]|]; [|destruct i; discriminate|discriminate]. cbn [nth_error]. intro Q. injection Q as <-. exists 2, 0. split; [reflexivity | lia]. }
  destruct Nn as (id & h' & -> & Li). destruct (nview_at M mp cfg TO _ _ A k W R1 R2) as (i & p & b & _ & Ep & _ & Ev' & _). assert (v = view_of (first_node id h') A p b) by congruence. subst v.
  assert (EA : A = alpha M (first_node id h')) by (symmetry; apply alpha_eq; [apply (w_rep _ _ _ _ _ _ W) | apply (w_aok _ _ _ _ _ _ W)]). subst A.
  destruct (first_alpha id h') as (E1 & E2 & E3). cbn [view_of v_whole v_bns v_filt v_id]. rewrite E1, E2, !skipn_nil. rewrite Forall_forall in E3. rewrite (E3 p (nth_error_In _ _ Ep)). auto.
Qed.

Theorem init_inv : inv init /\ forall x, content init x = None.
Proof.
  split.
  - constructor.
    + apply init_swf.
    + repeat constructor.
    + intros h k v Lh Ev. destruct (init_views h _ v Lh (klt_pos_inf cfg k) Ev) as (E1 & E2 & E3 & _). unfold TrunkView.view_ok, v_branches. rewrite E1, E2, E3. cbn.
      split; [|split; constructor]. split; [intros x w [] | intros w br Q; destruct w; discriminate].
    + intros h k v Lh Hk Ev. apply (init_views h k v Lh Hk Ev).
    + constructor.
    + constructor.
  - intro x. rewrite (content_eq M mp cfg hash TO LM Hmp M0). unfold msgs_of. change (height_of init) with 1. cbn [seq map concat].
    assert (Z : forall h, h <= 1 -> vmsgs x (views init h (KUser x)) = []).
    { intros h Lh. destruct (views init h (KUser x)) as [v|] eqn:Ev; [|reflexivity]. destruct (init_views h _ v Lh (klt_pos_inf cfg x) Ev) as (E1 & E2 & _). cbn [vmsgs]. unfold v_branches. rewrite E1, E2. reflexivity. }
    rewrite !Z by lia. reflexivity.
Qed.

(** ** Steps and runs *)

Theorem exec_inv : forall st s st', inv st -> guard M cfg st s = true -> (forall k m, s = Insert k m -> msg_allowed cfg m) -> exec st s = Some st' ->
  inv st' /\ forall x, content st' x = replay cfg x (source_messages x (writes [s])) (content st x).
Proof.
  intros st s st' Hi G Hm E. destruct s as [k m| | |d target|d target ks|d target| |d target bno|i|i|i]; cbn [guard] in G.
  - destruct (insert_step M mp cfg hash TO LM Hmp M0 st st' k m Hi (Hm k m eq_refl) E) as [I1 C]. split; [exact I1|]. intro x. rewrite C. cbn. destruct (bytes_eq_dec x k); reflexivity.
  - apply (rotate_step M mp cfg hash TO LM Hmp M0 st st' Hi E).
  - apply andb_true_iff in G. destruct G as [G1 G2]. apply (incorporate_step M mp cfg hash TO LM Hmp M0 st st' Hi); auto.
    + unfold room_b in G1. apply Nat.ltb_lt in G1. exact G1.
    + apply (other_ok _ _ _ G2).
  - rewrite !andb_true_iff in G. destruct G as [[G1 G2] G3]. apply Nat.ltb_lt in G1. apply ltb_iff in G2.
    apply (flush_step M mp cfg hash TO LM Hmp M0 st st' d target Hi); [|exact E]. split; [exact G1|]. split; [exact G2|].
    intros n kids i p c v E1 E2 E3 E4 E5. unfold on_child in G3. rewrite E1, E2, E3, E4, E5, !andb_true_iff in G3. destruct G3 as [[G3 G4] G5]. split; [|split].
    + unfold room_b in G3. apply Nat.ltb_lt in G3. exact G3.
    + apply (other_ok _ _ _ G4).
    + apply settled_ok. exact G5.
  - rewrite !andb_true_iff in G. destruct G as [[G1 G2] G3]. apply Nat.ltb_lt in G1. apply ltb_iff in G2.
    apply (split_leaf_step M mp cfg hash TO LM Hmp M0 st st' d target ks Hi); [|exact E]. split; [exact G1|]. split; [exact G2|].
    intros n kids i p c E1 E2 E3 E4. unfold on_child in G3. rewrite E1, E2, E3, E4, !andb_true_iff in G3. destruct G3 as [[G3 G4] G5]. split; [apply Nat.eqb_eq; exact G3|].
    split; [apply negb_true_iff in G4; apply Nat.eqb_neq; exact G4|]. apply ascending_b_ok. exact G5.
  - rewrite !andb_true_iff in G. destruct G as [[G1 G2] G3]. apply Nat.ltb_lt in G1. apply ltb_iff in G2.
    apply (split_index_step M mp cfg hash TO LM Hmp M0 st st' d target Hi); [|exact E]. split; [exact G1|]. split; [exact G2|].
    intros n kids i p c E1 E2 E3 E4. unfold on_child in G3. rewrite E1, E2, E3, E4, !andb_true_iff in G3. destruct G3 as [G3 G4]. split; [apply Nat.eqb_eq; exact G3 | apply Nat.leb_le; exact G4].
  - apply (grow_step M mp cfg hash TO LM Hmp M0 st st' Hi E).
  - rewrite !andb_true_iff in G. destruct G as [[[G1 G2] G3] G4]. apply Nat.leb_le in G1. apply ltb_iff in G2. apply Nat.ltb_lt in G3.
    apply (compact_step M mp cfg hash TO LM Hmp M0 st st' d target bno Hi); [|exact E]. split; [exact G1|]. split; [exact G2|]. split; [exact G3|].
    intros n En. rewrite En in G4. apply (other_ok _ _ _ G4).
  - apply (replace_step_inv M mp cfg hash TO LM Hmp M0 st i st' Hi); [|exact E]. intros j any n Ej Eph En El. rewrite Ej, Eph, En, El in G. cbn [negb orb] in G. apply Nat.eqb_eq. exact G.
  - apply (build_step_inv M mp cfg hash TO LM Hmp M0 st i st' Hi E).
  - apply (install_step_inv M mp cfg hash TO LM Hmp M0 st i st' Hi E).
Qed.

Theorem run_inv : forall l st st', inv st -> guarded M mp cfg hash st l = true -> Forall (fun e => msg_allowed cfg (snd e)) (writes l) -> run M mp cfg hash st l = Some st' ->
  inv st' /\ forall x, content st' x = replay cfg x (source_messages x (writes l)) (content st x).
Proof.
  induction l as [|s l IH]; intros st st' Hi G Hm E; cbn [run] in E; [injection E as <-; auto|].
  cbn [guarded] in G. apply andb_true_iff in G. destruct G as [G1 G2]. destruct (exec st s) as [st1|] eqn:E1; [|discriminate].
  assert (Ew : writes (s :: l) = writes [s] ++ writes l) by (unfold writes; cbn [flat_map]; rewrite app_nil_r; reflexivity). rewrite Ew in *. apply Forall_app in Hm. destruct Hm as [Hm1 Hm2].
  destruct (exec_inv st s st1 Hi G1) as [I1 C1]; auto; [intros k m ->; cbn in Hm1; inversion Hm1; assumption|].
  destruct (IH st1 st' I1 G2 Hm2 E) as [I2 C2]. split; [exact I2|]. intro x. rewrite C2, C1, (source_app M mp cfg hash TO LM Hmp M0), (replay_app cfg). reflexivity.
Qed.

Theorem reach_inv : forall l st, guarded M mp cfg hash init l = true -> Forall (fun e => msg_allowed cfg (snd e)) (writes l) -> run M mp cfg hash init l = Some st ->
  inv st /\ forall x, content st x = replay cfg x (source_messages x (writes l)) None.
Proof.
  intros l st G Hm E. destruct init_inv as [I0 C0]. destruct (run_inv l init st I0 G Hm E) as [I1 C1]. split; [exact I1|]. intro x. rewrite C1, C0. reflexivity.
Qed.

(** ** Lookups *)

Theorem lookup_content : forall st k, inv st -> exists r, lookup M cfg hash st k = Some r /\ (forall m, r = Some m -> m_class m = MInsert) /\ option_map m_data r = content st k.
Proof.
  intros st k Hi. pose proof (i_wf _ _ _ _ _ Hi) as T. apply (lookup_ok M mp cfg hash TO LM st k T (i_mts _ _ _ _ _ Hi)).
  intros d Ld. destruct (view_at d (KUser k) (st_tree st)) as [v|] eqn:Ev.
  - pose proof (i_ok _ _ _ _ _ Hi (height_of st - d) k v ltac:(lia)) as Q. unfold TrunkInv.views in Q. replace (height_of st - (height_of st - d)) with d in Q by lia. exists v. split; [reflexivity | exact (Q Ev)].
  - destruct (views_some M mp cfg hash TO LM st (height_of st - d) (KUser k) T ltac:(lia) (klt_pos_inf cfg k)) as (v & Ev' & _). unfold TrunkInv.views in Ev'. replace (height_of st - (height_of st - d)) with d in Ev' by lia. congruence.
Qed.

(** ** Leaves *)

Lemma pairs_glue : forall (l : list key) x m, pairs (l ++ x :: m) = pairs (l ++ [x]) ++ pairs (x :: m).
Proof. induction l as [|a l IH]; intros x m; [reflexivity|]. destruct l as [|b l]; [reflexivity|]. cbn [app pairs]. f_equal. apply (IH x m). Qed.
Lemma sorted_glue : forall l x m, StronglySorted klt (l ++ [x]) -> StronglySorted klt (x :: m) -> StronglySorted klt (l ++ x :: m).
Proof.
  induction l as [|a l IH]; intros x m H1 H2; [exact H2|]. cbn [app] in *. apply StronglySorted_inv in H1. destruct H1 as [H1 Hf]. constructor; [apply IH; auto|].
  rewrite Forall_app in Hf. destruct Hf as [Hf Hx]. inversion Hx as [|? ? Hx' _]; subst. apply Forall_app. split; [exact Hf|]. constructor; [exact Hx'|].
  apply StronglySorted_inv in H2. destruct H2 as [_ H2]. rewrite Forall_forall in *. intros y Iy. specialize (H2 y Iy). ord TO.
Qed.
Lemma leaf_chain : forall ht t lo hi, twf ht t lo hi -> exists mid, leaf_ranges ht t = pairs (lo :: mid ++ [hi]) /\ StronglySorted klt (lo :: mid ++ [hi]).
Proof.
  induction ht as [|ht IH]; intros t lo hi T.
  - pose proof (twf_nwf _ _ _ _ _ _ _ T) as (W & El & Eh). destruct (rep_min_max M _ _ (w_rep _ _ _ _ _ _ W)) as [Q1 Q2]. exists []. cbn [leaf_ranges]. rewrite Q1, Q2, El, Eh. split; [reflexivity|].
    assert (L : klt lo hi).
    { destruct (an_piv (alpha M (t_node t))) as [|a r] eqn:Ea; [elim (ok_children _ _ (w_aok _ _ _ _ _ _ W)); exact Ea|].
      assert (Ei : exists b, In (ap_key a, b) (pairs (akeys (alpha M (t_node t))))).
      { unfold akeys. rewrite Ea. cbn [map app]. destruct (map ap_key r); cbn; eauto. }
      destruct Ei as (b & Ib). destruct (cell_in_range cfg TO _ _ _ (w_sorted _ _ _ _ _ _ W) Ib) as (B1 & B2 & B3). rewrite El, Eh in *. ord TO. } repeat constructor. exact L.
  - pose proof (twf_nwf _ _ _ _ _ _ _ T) as (W & El & Eh). destruct T as (_ & _ & _ & F). cbn [leaf_ranges]. pose proof (w_sorted _ _ _ _ _ _ W) as Hs.
    assert (Ends : exists r, akeys (alpha M (t_node t)) = lo :: r /\ last (lo :: r) hi = hi /\ r <> []).
    { rewrite an_lo_eq in El. pose proof (akeys_hi (alpha M (t_node t))) as Q. pose proof (akeys_length (alpha M (t_node t))) as Ln. pose proof (ok_children _ _ (w_aok _ _ _ _ _ _ W)) as Nc.
      destruct (akeys (alpha M (t_node t))) as [|x r] eqn:Ea; [cbn in Ln; lia|]. cbn in El. subst x. exists r. split; [reflexivity|]. split.
      - unfold akeys in Ea. rewrite <- Ea. rewrite Eh. apply last_last.
      - intro Z. subst r. cbn [length] in Ln. apply Nc. apply length_zero_iff_nil. lia. }
    destruct Ends as (r & Ea & Lr & Nr). rewrite Ea in F, Hs. clear - IH F Hs Lr Nr TO LM Hmp M0 Hmp2 hash. revert lo Hs F Lr. generalize (t_kids t) as kids. intros kids.
    revert kids. induction r as [|b r IHr]; intros kids lo Hs F Lr; [congruence|]. cbn [pairs] in F.
    inversion F as [|c ab kids' ps Tc F']; subst. cbn [fst snd] in Tc. destruct (IH c lo b Tc) as (mid & E1 & S1). cbn [flat_map]. rewrite E1. apply StronglySorted_inv in Hs. destruct Hs as [Hs Hf].
    destruct r as [|b2 r].
    + cbn in F'. inversion F'; subst. cbn in Lr. subst b. exists mid. cbn [flat_map]. rewrite app_nil_r. auto.
    + destruct (IHr ltac:(discriminate) kids' b Hs F') as (mid2 & E2 & S2); [exact Lr|].
      exists (mid ++ b :: mid2). rewrite E2.
      replace (lo :: (mid ++ b :: mid2) ++ [hi]) with ((lo :: mid) ++ b :: (mid2 ++ [hi])) by (cbn [app]; rewrite <- app_assoc; reflexivity). split.
      * rewrite (pairs_glue (lo :: mid) b (mid2 ++ [hi])). reflexivity.
      * apply sorted_glue; assumption.
Qed.

(** A key is in the range of one leaf, the one it is routed to *)
Theorem leaf_unique : forall st k, inv st -> klt k KPosInf ->
  exists i lo hi t, nth_error (leaf_ranges (height_of st) (st_tree st)) i = Some (lo, hi) /\ kle lo k /\ klt k hi /\
    subtree_at cfg (height_of st) k (st_tree st) = Some t /\ min_key (t_node t) = lo /\ max_key (t_node t) = hi /\
    forall i' lo' hi', nth_error (leaf_ranges (height_of st) (st_tree st)) i' = Some (lo', hi') -> kle lo' k -> klt k hi' -> i' = i.
Proof.
  intros st k Hi Hk. pose proof (i_wf _ _ _ _ _ Hi) as T. destruct (leaf_chain _ _ _ _ T) as (mid & E & Hs). rewrite E.
  destruct (subtree_ok M mp cfg TO (height_of st) _ _ _ _ k T (kle_neg_inf cfg k) Hk (le_n _)) as (t & a & b & Es & Tt & R1 & R2 & R3 & R4).
  rewrite Nat.sub_diag in Tt. pose proof (twf_nwf _ _ _ _ _ _ _ Tt) as (W & El & Eh). destruct (rep_min_max M _ _ (w_rep _ _ _ _ _ _ W)) as [Q1 Q2].
  assert (Iab : In (a, b) (leaf_ranges (height_of st) (st_tree st))).
  { clear - Es Tt El Eh Q1 Q2 T TO LM Hmp M0 Hmp2 hash. revert Es. generalize (height_of st) as ht. generalize (st_tree st) as t0. intros t0 ht. revert t0.
    induction ht as [|ht IH]; intros t0 Es; cbn [subtree_at leaf_ranges] in *; [injection Es as ->; left; congruence|].
    destruct (route cfg (t_node t0) k) as [i|]; [|discriminate]. destruct (nth_error (t_kids t0) i) as [c|] eqn:Ec; [|discriminate].
    apply in_flat_map. exists c. split; [eapply nth_error_In; eauto | apply IH; exact Es]. }
  rewrite E in Iab. destruct (In_nth_error _ _ Iab) as (i & Ei). exists i, a, b, t. split; [exact Ei|]. split; [exact R2|]. split; [exact R3|]. split; [exact Es|].
  split; [congruence|]. split; [congruence|]. intros i' lo' hi' Ei' K1 K2. eapply (cell_unique cfg TO _ i' i _ _ _ _ k Hs Ei' Ei); auto.
Qed.


End Legal.
