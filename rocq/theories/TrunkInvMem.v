(** * The invariant under the steps of the memtables and the root *)

From Coq Require Import List Arith NArith ZArith Lia Bool Sorted.
From Verif Require Import Base Spec Spec_Merge DataProofs Search.
From Verif Require Import TrunkNode TrunkRing TrunkRep TrunkOps TrunkReset TrunkFlush TrunkClear TrunkReplace TrunkSplit.
From Verif Require Import TrunkAlpha TrunkKeys TrunkView TrunkTree TrunkShape TrunkLookup TrunkEffects TrunkInstall TrunkSplitEff TrunkInv.
Import ListNotations.

Set Default Proof Using "All".
Section Mem.
Variables (M mp : nat) (cfg : data_config) (hash : bytes -> N).
Hypothesis TO : total_order (key_compare cfg).
Hypothesis LM : lawful_merge cfg.
Hypothesis Hmp : mp <= MAX_PIVOTS.
Hypothesis M0 : 0 < M.
Local Notation klt := (klt cfg).
Local Notation kle := (kle cfg).
Local Notation nwf := (nwf M mp cfg).
Local Notation twf := (twf M mp cfg).
Local Notation nview := (nview M cfg).
Local Notation view_at := (view_at M cfg).
Local Notation branch_ok := (branch_ok cfg).
Local Notation view_ok := (view_ok cfg hash).
Local Notation views := (views M cfg).
Local Notation swf := (swf M mp cfg).
Local Notation content := (content M cfg).
Local Notation job_ok := (job_ok cfg hash).
Local Notation job_base := (job_base cfg hash).
Local Notation inv := (inv M mp cfg hash).
Local Notation exec := (exec M mp cfg hash).
Local Notation bound := (bound cfg).
Local Notation count := (count cfg).
Local Notation excl := (excl cfg).

(** ** Contents *)

Definition msgs_of (V : vw) (H : nat) (k : bytes) : list message :=
  concat (map (fun h => vmsgs k (V h (KUser k))) (seq 0 (S H))).
Lemma content_eq : forall st k,
  content st k = replay cfg k (msgs_of (views st) (height_of st) k ++ key_messages k (rev (st_mts st))) None.
Proof. reflexivity. Qed.

Lemma msgs_split : forall V H h k, h <= H ->
  msgs_of V H k = concat (map (fun h => vmsgs k (V h (KUser k))) (seq 0 h)) ++ vmsgs k (V h (KUser k)) ++
                  concat (map (fun h => vmsgs k (V h (KUser k))) (seq (S h) (H - h))).
Proof.
  intros V H h k L. unfold msgs_of. replace (S H) with (h + S (H - h)) by lia. rewrite seq_app, map_app, concat_app. reflexivity.
Qed.
Lemma msgs_ext : forall (V V' : vw) k l, (forall h, In h l -> V' h (KUser k) = V h (KUser k)) ->
  concat (map (fun h => vmsgs k (V' h (KUser k))) l) = concat (map (fun h => vmsgs k (V h (KUser k))) l).
Proof. intros V V' k l H. f_equal. apply map_ext_in. intros h I. rewrite H by exact I. reflexivity. Qed.

(** One height changes *)
Lemma content_one : forall st st' k h, height_of st' = height_of st -> st_mts st' = st_mts st -> h <= height_of st ->
  (forall e, e <= height_of st -> e <> h -> views st' e (KUser k) = views st e (KUser k)) ->
  (forall x, (h = 0 -> x = None) ->
     replay cfg k (vmsgs k (views st' h (KUser k))) x = replay cfg k (vmsgs k (views st h (KUser k))) x) ->
  content st' k = content st k.
Proof.
  intros st st' k h EH Em L He Hr. rewrite !content_eq, EH, Em. rewrite !(msgs_split _ _ h) by exact L.
  rewrite (msgs_ext (views st) (views st') k (seq 0 h)) by (intros e I; apply in_seq in I; apply He; lia).
  rewrite (msgs_ext (views st) (views st') k (seq (S h) (height_of st - h))) by (intros e I; apply in_seq in I; apply He; lia).
  rewrite <- !app_assoc. set (X := concat _). set (Y := concat _ ++ _). rewrite !(replay_app cfg). rewrite Hr; [reflexivity|].
  intros ->. unfold X. reflexivity.
Qed.
(** Messages move from a height to the one below *)
Lemma content_flush : forall st st' k h, height_of st' = height_of st -> st_mts st' = st_mts st -> S h <= height_of st ->
  (forall e, e <= height_of st -> e <> h -> e <> S h -> views st' e (KUser k) = views st e (KUser k)) ->
  vmsgs k (views st' h (KUser k)) ++ vmsgs k (views st' (S h) (KUser k)) =
  vmsgs k (views st h (KUser k)) ++ vmsgs k (views st (S h) (KUser k)) ->
  content st' k = content st k.
Proof.
  intros st st' k h EH Em L He Hr. rewrite !content_eq, EH, Em. f_equal. f_equal.
  rewrite !(msgs_split _ _ h) by lia. replace (height_of st - h) with (S (height_of st - S h)) by lia.
  cbn [seq map concat]. rewrite !(app_assoc (vmsgs k _)). rewrite Hr.
  rewrite (msgs_ext (views st) (views st') k (seq 0 h)) by (intros e I; apply in_seq in I; apply He; lia).
  rewrite (msgs_ext (views st) (views st') k (seq (S (S h)) (height_of st - S h))) by (intros e I; apply in_seq in I; apply He; lia).
  reflexivity.
Qed.

(** ** Inserts *)

Definition allowed (m : message) := msg_allowed cfg m.

Lemma mt_insert_spec : forall k m b b', branch_ok b -> msg_allowed cfg m -> mt_insert cfg k m b = Some b' ->
  branch_ok b' /\ (forall x, In x (map fst b') -> x = k \/ In x (map fst b)) /\
  forall x v, replay cfg x (source_messages x b') v =
              (if bytes_eq_dec x k then apply_msg cfg x m (replay cfg x (source_messages x b) v) else replay cfg x (source_messages x b) v).
Proof.
  intros k m b. induction b as [|[k1 m1] r IH]; intros b' B Hm E; cbn [mt_insert] in E.
  - injection E as <-. split; [|split].
    + split; [repeat constructor|]. constructor; [exact Hm|constructor].
    + intros x [<-|[]]. left. reflexivity.
    + intros x v. cbn. destruct (bytes_eq_dec x k); reflexivity.
  - cbv zeta in E. destruct B as [Ba Bf]. pose proof (StronglySorted_inv Ba) as [Ba' Bh]. inversion Bf as [|? ? Bf1 Bf2]; subst.
    pose proof (to_eq _ TO) as Teq. pose proof (to_antisym _ TO) as Tas. pose proof (to_trans _ TO) as Ttr.
    destruct (Z.ltb_spec (key_compare cfg k k1) 0) as [L|L].
    + injection E as <-. split; [|split].
      * split; [|constructor; auto]. constructor; [exact Ba|]. constructor; [exact L|].
        rewrite Forall_forall in *. intros y Iy. specialize (Bh y Iy). cbn in *. eapply Ttr; eauto.
      * intros x [<-|I]; auto.
      * intros x v. cbn [source_messages]. destruct (bytes_eq_dec x k) as [->|N]; [|reflexivity].
        assert (Z0 : source_messages k ((k1, m1) :: r) = []).
        { apply source_messages_none. intros [I|I]; cbn in *.
          - subst k1. assert (key_compare cfg k k = 0%Z) by (apply Teq; reflexivity). lia.
          - apply in_map_iff in I. destruct I as ([y my] & Ey & Iy). cbn in Ey. subst y. rewrite Forall_forall in Bh. specialize (Bh _ Iy). cbn in Bh.
            pose proof (Ttr _ _ _ L Bh). assert (key_compare cfg k k = 0%Z) by (apply Teq; reflexivity). lia. }
        cbn [source_messages] in Z0. rewrite Z0. reflexivity.
    + destruct (Z.eqb_spec (key_compare cfg k k1) 0) as [Q|Q].
      * apply Teq in Q. subst k1. destruct (data_merge_tuples cfg k m1 m) as [y|] eqn:Ey; [|discriminate]. injection E as <-.
        assert (Nk : source_messages k r = []) by (apply source_messages_none; apply (ascending_head cfg TO k m1 r Ba)).
        split; [|split].
        -- split; [constructor; auto|]. constructor; [|exact Bf2]. exact (data_merge_allowed cfg k m1 m y Hm Ey).
        -- intros x [<-|I]; cbn; auto.
        -- intros x v. cbn [source_messages]. destruct (bytes_eq_dec x k) as [->|N]; [|reflexivity]. rewrite Nk. cbn.
           exact (data_merge_meaning cfg k m1 m y v LM Ey).
      * destruct (mt_insert cfg k m r) as [r'|] eqn:Er; [|discriminate]. injection E as <-.
        destruct (IH r' (conj Ba' Bf2) Hm eq_refl) as ((Ra & Rf) & Hin & Hrep).
        assert (Gt : (key_compare cfg k1 k < 0)%Z) by (apply Tas; lia).
        split; [|split].
        -- split; [|constructor; auto]. constructor; [exact Ra|]. rewrite Forall_forall in *. intros [y my] Iy. cbn.
           destruct (Hin y (in_map fst _ _ Iy)) as [->|I]; [exact Gt|]. apply in_map_iff in I. destruct I as ([y' my'] & E1 & I). cbn in E1. subst y'.
           exact (Bh _ I).
        -- intros x [<-|I]; cbn; auto. destruct (Hin x I); auto.
        -- intros x v. cbn [source_messages]. destruct (bytes_eq_dec x k1) as [->|N].
           ++ destruct (bytes_eq_dec k1 k) as [->|N']; [assert (key_compare cfg k k = 0%Z) by (apply Teq; reflexivity); lia|].
              assert (Nk : source_messages k1 r = []) by (apply source_messages_none; apply (ascending_head cfg TO k1 m1 r Ba)).
              rewrite Nk. cbn [replay fold_left]. assert (G := Hrep k1 (apply_msg cfg k1 m1 v)). destruct (bytes_eq_dec k1 k); [contradiction|].
              rewrite Nk in G. cbn in G. exact G.
           ++ apply Hrep.
Qed.

(** The state with other memtables *)
Lemma inv_mts : forall t nx mts mts' js, inv (St t nx mts js) -> Forall branch_ok mts' -> inv (St t nx mts' js).
Proof. intros t nx mts mts' js Hi F. destruct Hi as [H1 H2 H3 H4 H5 H6]. constructor; auto. Qed.

Theorem insert_step : forall st st' k m, inv st -> msg_allowed cfg m -> exec st (Insert k m) = Some st' ->
  inv st' /\ forall x, content st' x = if bytes_eq_dec x k then apply_msg cfg x m (content st x) else content st x.
Proof.
  intros [t nx mts js] st' k m Hi Hm E. cbn [TrunkTree.exec st_mts st_tree st_next st_jobs] in E. destruct mts as [|b r]; [discriminate|].
  destruct (mt_insert cfg k m b) as [b'|] eqn:Eb; [|discriminate]. injection E as <-.
  pose proof (i_mts _ _ _ _ _ Hi) as F. cbn [st_mts] in F. inversion F as [|? ? F1 F2]; subst.
  destruct (mt_insert_spec k m b b' F1 Hm Eb) as (B' & _ & Hr). split; [eapply inv_mts; [exact Hi|]; constructor; auto|].
  intro x. unfold TrunkInv.content. cbn [st_tree st_mts rev]. change (height_of {| st_tree := t; st_next := nx; st_mts := b' :: r; st_jobs := js |}) with (n_height (t_node t)).
  change (height_of {| st_tree := t; st_next := nx; st_mts := b :: r; st_jobs := js |}) with (n_height (t_node t)).
  rewrite !key_messages_app, !key_messages_one, !app_assoc, !(replay_app cfg), Hr. reflexivity.
Qed.

Theorem rotate_step : forall st st', inv st -> exec st Rotate = Some st' -> inv st' /\ forall x, content st' x = content st x.
Proof.
  intros [t nx mts js] st' Hi E. cbn [TrunkTree.exec st_mts st_tree st_next st_jobs] in E. injection E as <-. split.
  - eapply inv_mts; [exact Hi|]. constructor; [split; constructor | exact (i_mts _ _ _ _ _ Hi)].
  - intro x. unfold TrunkInv.content. cbn [st_tree st_mts rev]. unfold height_of. cbn [st_tree].
    rewrite key_messages_app. cbn. rewrite app_nil_r. reflexivity.
Qed.

(** ** The root grows *)

Lemma views_height : forall st h k, views st h k = view_at (height_of st - h) k (st_tree st).
Proof. reflexivity. Qed.

Lemma new_root_nwf : forall ht n A, nwf ht n A -> nwf (S ht) (new_root n) empty_anode.
Proof.
  intros ht n A W. pose proof (w_pgen _ _ _ _ _ _ W) as G. pose proof (ok_children _ _ (w_aok _ _ _ _ _ _ W)) as NE.
  destruct (an_piv A) as [|p r] eqn:Ep; [contradiction|]. inversion G as [|? ? G1 _]; subst.
  constructor.
  - apply new_root_rep. exact M0.
  - apply aok_empty. exact M0.
  - cbn. rewrite (w_height _ _ _ _ _ _ W). reflexivity.
  - unfold akeys. cbn. constructor; [repeat constructor|]. constructor; [|constructor]. reflexivity.
  - cbn. repeat constructor. intros [].
  - cbn. constructor; [cbn; lia|constructor].
  - pose proof (w_count _ _ _ _ _ _ W) as Lc. pose proof (ok_children _ _ (w_aok _ _ _ _ _ _ W)). destruct (an_piv A); [contradiction|]. cbn in *. lia.
  - discriminate.
Qed.

(** The jobs of a state whose views are the same *)
Lemma jobs_same : forall V V' H H' nx js, Forall (job_ok V H nx) js -> H <= H' ->
  (forall h k, h <= H -> klt k KPosInf -> V' h k = V h k) -> Forall (job_ok V' H' nx) js.
Proof.
  intros V V' H H' nx js F L Hv. eapply Forall_impl; [|exact F]. intros j J. eapply (job_keep M mp cfg hash TO LM); eauto.
  intros k v' E Hk. destruct J as (ks & out & full & B & _). pose proof (jb_height _ _ _ _ _ _ _ _ B) as Lh.
  rewrite Hv in E by auto. exists v'. split; [exact E|]. split; [apply (kle_refl M mp cfg hash TO LM)|]. split; [apply (kle_refl M mp cfg hash TO LM)|].
  split; [auto|]. intros. apply (keeps_refl M mp cfg hash TO LM).
Qed.

Theorem grow_step : forall st st', inv st -> exec st GrowRoot = Some st' -> inv st' /\ forall x, content st' x = content st x.
Proof.
  intros [t nx mts js] st' Hi E. cbn [TrunkTree.exec st_mts st_tree st_next st_jobs] in E. injection E as <-.
  set (st := {| st_tree := t; st_next := nx; st_mts := mts; st_jobs := js |}) in *.
  set (st' := {| st_tree := Tr (new_root (t_node t)) [t]; st_next := nx; st_mts := mts; st_jobs := js |}).
  destruct Hi as [H1 H2 H3 H4 H5 H6]. unfold TrunkInv.swf in H1. cbn [st_tree st] in H1.
  pose proof (twf_nwf _ _ _ _ _ _ _ H1) as (W & Ea & Eb). pose proof (new_root_nwf _ _ _ W) as W'.
  assert (Al : alpha M (new_root (t_node t)) = empty_anode) by (apply alpha_eq; [apply (w_rep _ _ _ _ _ _ W') | apply (w_aok _ _ _ _ _ _ W')]).
  assert (EH : height_of st' = S (height_of st)) by reflexivity.
  assert (T' : swf st').
  { unfold TrunkInv.swf. rewrite EH. cbn [TrunkShape.twf st' st_tree t_node t_kids]. cbv zeta. rewrite Al. split; [exact W'|]. split; [reflexivity|]. split; [reflexivity|].
    constructor; [|constructor]. cbn [fst snd]. exact H1. }
  assert (Vs : forall h k, h <= height_of st -> klt k KPosInf -> views st' h k = views st h k).
  { intros h k L Hk. unfold TrunkInv.views. rewrite EH. replace (S (height_of st) - h) with (S (height_of st - h)) by lia.
    unfold TrunkInv.swf in T'. rewrite EH in T'.
    destruct (child_at M mp cfg TO _ _ _ _ k T' (kle_neg_inf cfg k) Hk) as (i & c & a & b & Er & Ec & _).
    rewrite (view_down M mp cfg (height_of st) (st_tree st') _ _ k i c T' Er Ec). cbn [st' st_tree t_kids] in Ec.
    destruct i as [|i]; [|destruct i; discriminate]. injection Ec as <-. reflexivity. }
  assert (Vt : forall k, klt k KPosInf -> exists v, views st' (S (height_of st)) k = Some v /\ v_id v = n_id (t_node t) /\ v_whole v = [] /\ v_bns v = [] /\ v_filt v = []).
  { intros k Hk. unfold TrunkInv.views. rewrite EH, Nat.sub_diag. unfold TrunkShape.view_at. cbn [subtree_at st' st_tree t_node].
    exists (view_of (new_root (t_node t)) empty_anode (AP KNegInf 0 0 0 []) KPosInf). split; [|repeat split; reflexivity].
    apply (nview_char M mp cfg TO _ _ _ k 0 _ _ W'); [reflexivity | reflexivity | apply kle_neg_inf | exact Hk]. }
  split; [constructor|].
  - exact T'.
  - exact H2.
  - intros h k v L Ev. destruct (Nat.eq_dec h (S (height_of st))) as [->|N].
    + destruct (Vt (KUser k) (klt_pos_inf cfg k)) as (v0 & Ev0 & _ & Z1 & Z2 & Z3). assert (v0 = v) by congruence. subst v0.
      unfold TrunkView.view_ok. rewrite Z1, Z2, Z3. split; [|split].
      * split; [intros x y []|]. intros y br Ey. destruct y; discriminate.
      * constructor.
      * unfold v_branches. rewrite Z1, Z2. constructor.
    + rewrite EH in L. rewrite Vs in Ev by (try apply klt_pos_inf; lia). apply (H3 h k v); [lia | exact Ev].
  - intros h k v L Hk Ev. change (st_next st') with (st_next st). destruct (Nat.eq_dec h (S (height_of st))) as [->|N].
    + destruct (Vt k Hk) as (v0 & Ev0 & Eid & _). assert (v0 = v) by congruence. subst v0. rewrite Eid.
      destruct (node_view M mp cfg hash TO LM st (height_of st) k H1 (le_n _) Hk) as (n & A & En & Wn & Hl & Hh & _ & Hv & _).
      unfold node_at in En. rewrite Nat.sub_diag in En. cbn [subtree_at st st_tree] in En. injection En as <-.
      destruct (nview_facts M mp cfg hash TO LM _ _ _ k Wn Hl Hh) as (w & Ew & _ & _ & _ & Ei & _). rewrite <- Ei. apply (H4 (height_of st) k w (le_n _) Hk). rewrite Hv; auto.
    + rewrite EH in L. rewrite Vs in Ev by (auto; lia). apply (H4 h k v); [lia | exact Hk | exact Ev].
  - change (st_next st') with (st_next st). change (st_jobs st') with (st_jobs st). eapply jobs_same; [exact H5 | rewrite EH; lia | exact Vs].
  - exact H6.
  - intro x. rewrite !content_eq, EH. change (st_mts st') with (st_mts st). f_equal. f_equal.
    rewrite (msgs_split (views st') (S (height_of st)) (S (height_of st))) by lia. rewrite Nat.sub_diag.
    change (seq (S (S (height_of st))) 0) with (@nil nat). change (concat (map (fun h : nat => vmsgs x (views st' h (KUser x))) [])) with (@nil message). rewrite app_nil_r.
    destruct (Vt (KUser x) (klt_pos_inf cfg x)) as (v0 & Ev0 & _ & Z1 & Z2 & _). rewrite Ev0.
    assert (Z : vmsgs x (Some v0) = []) by (unfold vmsgs, v_branches; rewrite Z1, Z2; reflexivity). rewrite Z, app_nil_r. unfold msgs_of. apply msgs_ext. intros h I. apply in_seq in I. apply Vs; [lia | apply klt_pos_inf].
Qed.

(** ** The start of a job *)

Lemma gens_of_spec : forall ht n A i p, nwf ht n A -> nth_error (an_piv A) i = Some p -> gens_of n i = ap_gen p.
Proof.
  intros ht n A i p W E. destruct (r_piv _ _ _ (w_rep _ _ _ _ _ _ W)) as (ps & last & E1 & _ & F).
  unfold gens_of, children_pivots, num_children. rewrite E1, app_length. cbn [length].
  replace (length ps + 1 - 1) with (length ps) by lia. rewrite firstn_app, Nat.sub_diag, firstn_all. cbn [firstn]. rewrite app_nil_r.
  destruct (Forall2_nth _ _ _ F i p E) as (q & Eq & (_ & Q & _)). rewrite Eq. exact Q.
Qed.
Lemma counts_of_keys : forall b ps i lo hi, nth_error (map pv_key ps) i = Some lo -> nth_error (map pv_key ps) (S i) = Some hi ->
  counts_of cfg b ps i = count lo hi b.
Proof.
  intros b ps. induction ps as [|p r IH]; intros i lo hi E1 E2; [destruct i; discriminate|].
  destruct r as [|p' r]; [destruct i as [|i]; [discriminate | destruct i; discriminate]|].
  destruct i as [|i].
  - cbn in E1, E2. injection E1 as <-. injection E2 as <-. reflexivity.
  - change (counts_of cfg b (p :: p' :: r) (S i)) with (counts_of cfg b (p' :: r) i). apply IH; assumption.
Qed.
Lemma counts_of_spec : forall ht n A b i lo hi, nwf ht n A -> cell (akeys A) i lo hi -> counts_of cfg b (n_piv n) i = count lo hi b.
Proof.
  intros ht n A b i lo hi W E. destruct (r_piv _ _ _ (w_rep _ _ _ _ _ _ W)) as (ps & last & E1 & E2 & F).
  assert (Ek : map pv_key (n_piv n) = akeys A).
  { rewrite E1, map_app. unfold akeys. cbn [map]. rewrite E2. f_equal. clear - F. induction F as [|x y l l' H F IH]; [reflexivity|]. cbn. destruct H as (H & _). congruence. }
  unfold cell in E. apply pairs_nth in E. rewrite <- Ek in E. destruct E. apply counts_of_keys; auto.
Qed.

Lemma nwf_lt : forall ht n A, nwf ht n A -> klt (an_lo A) (an_hi A).
Proof.
  intros ht n A W. pose proof (w_sorted _ _ _ _ _ _ W) as Hs. unfold akeys, an_lo in *. pose proof (ok_children _ _ (w_aok _ _ _ _ _ _ W)) as NE.
  destruct (an_piv A) as [|p r]; [contradiction|]. cbn [map app] in Hs. apply StronglySorted_inv in Hs. destruct Hs as [_ F]. rewrite Forall_forall in F.
  apply F. apply in_or_app. right. left. reflexivity.
Qed.

(** A node's key range is a union of node ranges *)
Lemma node_bounds : forall st h n A, swf st -> h <= height_of st -> nwf h n A -> kle (an_hi A) KPosInf ->
  (forall k, kle (an_lo A) k -> klt k (an_hi A) -> views st h k = nview n k) ->
  bound (views st) h (an_lo A) /\ bound (views st) h (an_hi A).
Proof.
  intros st h n A T L W Htop Hv. pose proof (nwf_lt _ _ _ W) as Lt.
  assert (G : forall k v c, views st h k = Some v -> klt k KPosInf -> kle (v_nlo v) c -> klt c (v_nhi v) -> kle (an_lo A) c -> klt c (an_hi A) ->
    v_nlo v = an_lo A /\ v_nhi v = an_hi A).
  { intros k v c Ev Hk C1 C2 C3 C4. destruct (views_node M mp cfg hash TO LM st h k c v T L Hk Ev C1 C2) as (v' & Ev' & _ & N1 & N2 & _).
    rewrite Hv in Ev' by auto. destruct (nview_facts M mp cfg hash TO LM h n A c W C3 C4) as (w & Ew & _ & N3 & N4 & _). assert (w = v') by congruence. subst w. split; congruence. }
  assert (K0 := kle_refl M mp cfg hash TO LM (an_lo A)). split; intros k v Ev Hk C1 C2.
  - destruct (G k v (an_lo A) Ev Hk) as [Q _]; auto; [ord TO|]. rewrite Q in C1. ord TO.
  - pose proof (kle_pos_inf cfg (v_nhi v)) as Tp. destruct (kle_lt_dec cfg TO (v_nlo v) (an_lo A)) as [C|C].
    + destruct (G k v (an_lo A) Ev Hk) as [_ Q]; auto; [ord TO|]. rewrite Q in C2. ord TO.
    + destruct (G k v (v_nlo v) Ev Hk) as [Q _]; auto; [apply (kle_refl M mp cfg hash TO LM) | ord TO | ord TO |]. rewrite Q in C. ord TO.
Qed.

Lemma start_base : forall st h n A j out, swf st -> h <= height_of st -> nwf h n A -> kle (an_hi A) KPosInf ->
  (forall k, kle (an_lo A) k -> klt k (an_hi A) -> views st h k = nview n k) -> n_id n < st_next st ->
  j_lo j = min_key n -> rq_hi (j_q j) = max_key n -> rq_id (j_q j) = n_id n -> rq_height (j_q j) = n_height n ->
  rq_bno (j_q j) < MAX_BUNDLES -> rq_gens (j_q j) = gens_of n -> rq_fps (j_q j) = map (fun e => hash (fst e)) out ->
  branch_ok out -> (forall e, In e out -> kle (an_lo A) (KUser (fst e)) /\ klt (KUser (fst e)) (an_hi A)) ->
  job_base (views st) (height_of st) (st_next st) j (akeys A) out.
Proof.
  intros st h n A j out T L W Htop Hv Hid Jlo Jhi Jid Jh Jb Jg Jf Bo Ko.
  destruct (rep_min_max _ _ _ (w_rep _ _ _ _ _ _ W)) as [Emin Emax]. rewrite Emin in Jlo. rewrite Emax in Jhi. rewrite (w_height _ _ _ _ _ _ W) in Jh.
  destruct (node_bounds st h n A T L W Htop Hv) as [B1 B2]. pose proof (nwf_lt _ _ _ W) as Lt.
  assert (Hc : forall i lo hi, cell (akeys A) i lo hi -> exists p, nth_error (an_piv A) i = Some p /\ lo = ap_key p /\ gens_of n i = ap_gen p).
  { intros i lo hi E. unfold cell in E. pose proof E as E'. apply pairs_nth in E'. destruct E' as [E1 E2].
    assert (Li : i < length (an_piv A)). { assert (Q : nth_error (akeys A) (S i) <> None) by congruence. apply nth_error_Some in Q. rename Q into E3. unfold akeys in E3. rewrite app_length, map_length in E3. cbn in E3. lia. }
    unfold akeys in E1. rewrite nth_error_app1 in E1 by (rewrite map_length; exact Li). rewrite nth_error_map in E1.
    destruct (nth_error (an_piv A) i) as [p|] eqn:Ep; [|discriminate]. injection E1 as <-. exists p. repeat split; auto. eapply gens_of_spec; eauto. }
  assert (Hact : forall k v, active cfg (views st) j k v -> kle (an_lo A) k /\ klt k (an_hi A) /\ nview n k = Some v).
  { intros k v (A1 & A2 & A3 & _). rewrite Jlo in A1. rewrite Jhi in A2. rewrite Jh, Hv in A3 by auto. auto. }
  constructor.
  - rewrite Jh. exact L.
  - rewrite Jid. exact Hid.
  - exact Jb.
  - rewrite Jlo, Jhi. split; [ord TO | exact Htop].
  - exact (w_sorted _ _ _ _ _ _ W).
  - rewrite Jlo, Jhi. unfold akeys, an_lo. pose proof (ok_children _ _ (w_aok _ _ _ _ _ _ W)) as NE. destruct (an_piv A) as [|p r]; [contradiction|].
    exists (map ap_key r). reflexivity.
  - pose proof (w_count _ _ _ _ _ _ W). unfold akeys. rewrite app_length, map_length. cbn. lia.
  - intros i i' lo hi lo' hi' E1 E2 Eg. rewrite Jg in Eg. destruct (Hc _ _ _ E1) as (p & Ep & _ & G1). destruct (Hc _ _ _ E2) as (p' & Ep' & _ & G2).
    pose proof (w_gens _ _ _ _ _ _ W) as G. rewrite NoDup_nth_error in G. apply G.
    + rewrite map_length. apply nth_error_Some. congruence.
    + rewrite !nth_error_map, Ep, Ep'. cbn. congruence.
  - exact Bo.
  - rewrite Jlo, Jhi. exact Ko.
  - exact Jf.
  - intros k v i lo hi Av E Eg. destruct (Hact k v Av) as (A1 & A2 & Ev). rewrite Jg in Eg. destruct (Hc _ _ _ E) as (p & Ep & -> & G1).
    destruct (nview_at M mp cfg TO h n A k W A1 A2) as (i' & p' & b' & _ & Ep' & Ei' & Ev' & Hp & Hb).
    assert (v = view_of n A p' b') by congruence. subst v. cbn [view_of v_gen] in Eg.
    assert (i = i').
    { pose proof (w_gens _ _ _ _ _ _ W) as G. rewrite NoDup_nth_error in G. apply G.
      - rewrite map_length. apply nth_error_Some. congruence.
      - rewrite !nth_error_map, Ep, Ep'. cbn. congruence. }
    subst i'. unfold cell in E. rewrite E in Ei'. injection Ei' as E1 E2. rewrite E1, E2. auto.
  - intros k v i lo hi Av E. destruct (Hact k v Av) as (A1 & A2 & Ev). rewrite Jg. destruct (Hc _ _ _ E) as (p & Ep & _ & ->).
    destruct (nview_facts M mp cfg hash TO LM h n A k W A1 A2) as (w & Ew & _ & _ & _ & _ & Epg). assert (w = v) by congruence. subst w. rewrite Epg.
    pose proof (w_pgen _ _ _ _ _ _ W) as G. rewrite Forall_forall in G. apply G. eapply nth_error_In; eauto.
  - rewrite Jh, Jlo. exact B1.
  - rewrite Jh, Jhi. exact B2.
Qed.

(** The views of the node are known to the job *)
Lemma start_known : forall h n A j k v, nwf h n A -> rq_gens (j_q j) = gens_of n -> kle (an_lo A) k -> klt k (an_hi A) -> nview n k = Some v ->
  known j (akeys A) v.
Proof.
  intros h n A j k v W Jg A1 A2 Ev. destruct (nview_at M mp cfg TO h n A k W A1 A2) as (i & p & b & _ & Ep & Ei & Ev' & Hp & Hb).
  assert (v = view_of n A p b) by congruence. subst v. exists i. cbn [view_of v_lo v_hi v_gen]. split; [exact Ei|]. rewrite Jg. symmetry. eapply gens_of_spec; eauto.
Qed.

Lemma excl_snoc : forall js j, ForallOrdPairs excl js -> Forall (fun j' => excl j' j) js -> ForallOrdPairs excl (js ++ [j]).
Proof.
  intros js j F G. induction F as [|x l H F IH]; cbn; [repeat constructor|]. inversion G; subst. constructor; [|auto].
  apply Forall_app. split; [exact H|]. constructor; auto.
Qed.

End Mem.
