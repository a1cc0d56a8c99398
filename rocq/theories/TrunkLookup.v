(** * Lookup in the trunk

    A lookup replays the messages of the views of its key, lowest height first,
    and then those of the memtables. *)

From Coq Require Import List Arith NArith ZArith Lia Bool Sorted.
From Verif Require Import Base Spec Spec_Merge DataProofs Search.
From Verif Require Import TrunkNode TrunkRing TrunkRep TrunkReset TrunkFlush TrunkAlpha TrunkKeys TrunkView TrunkTree TrunkShape.
Import ListNotations.

Section Lookup.
Variables (M mp : nat) (cfg : data_config) (hash : bytes -> N).
Hypothesis TO : total_order (key_compare cfg).
Hypothesis LM : lawful_merge cfg.
Local Notation klt := (klt cfg).
Local Notation kle := (kle cfg).
Local Notation view_at := (view_at M cfg).
Local Notation twf := (twf M mp cfg).
Local Notation step_ok := (step_ok cfg).

Definition vmsgs (k : bytes) (o : option view) : list message :=
  match o with Some v => key_messages k (v_branches v) | None => [] end.
(** The messages of the trunk for a key, oldest first *)
Definition tree_msgs (ht : nat) (t : tree) (k : bytes) : list message :=
  concat (map (fun h => vmsgs k (view_at (ht - h) (KUser k) t)) (seq 0 (S ht))).

Definition down_msgs (ht : nat) (t : tree) (k : bytes) : list message :=
  concat (map (fun d => vmsgs k (view_at d (KUser k) t)) (rev (seq 0 (S ht)))).
Lemma tree_msgs_down : forall ht t k, tree_msgs ht t k = down_msgs ht t k.
Proof.
  intros. unfold tree_msgs, down_msgs. rewrite rev_seq, map_map. f_equal. apply map_ext. intro i. do 3 f_equal. lia.
Qed.

Lemma seq_S_map : forall n, rev (seq 0 (S n)) = map S (rev (seq 0 n)) ++ [0].
Proof. intros. simpl. rewrite <- seq_shift, map_rev. reflexivity. Qed.

Lemma view_down : forall ht t lo hi k i c, twf (S ht) t lo hi -> route cfg (t_node t) k = Some i -> nth_error (t_kids t) i = Some c ->
  forall d, view_at (S d) k t = view_at d k c.
Proof. intros ht t lo hi k i c T Er Ec d. unfold TrunkShape.view_at. cbn [subtree_at]. rewrite Er, Ec. reflexivity. Qed.

Definition ok_at (k : bytes) (o : option view) : Prop := exists v, o = Some v /\ view_ok cfg hash k v.

Theorem tree_lookup_ok : forall k ht t lo hi a, twf ht t lo hi -> kle lo (KUser k) -> klt (KUser k) hi ->
  (forall d, d <= ht -> ok_at k (view_at d (KUser k) t)) -> acc_allowed cfg a ->
  step_ok k (down_msgs ht t k) a (tree_lookup M cfg hash ht t k a).
Proof.
  intros k ht. induction ht as [|ht IH]; intros t lo hi a T Hl Hh V Ha.
  - pose proof (twf_nwf _ _ _ _ _ _ _ T) as (W & Q1 & Q2). cbn [tree_lookup].
    destruct (w_leaf _ _ _ _ _ _ W eq_refl) as (a0 & Ea & O1 & O2).
    destruct (nview_at M mp cfg TO 0 _ _ (KUser k) W) as (i & p & b & Er & Ep & Ei & Ev & H1 & H2);
      [rewrite Q1; exact Hl | rewrite Q2; exact Hh |].
    assert (i = 0) by (rewrite Ea in Ep; destruct i as [|[|i]]; [reflexivity | discriminate | discriminate]). subst i.
    destruct (get_pivot_rep M _ _ 0 p (w_rep _ _ _ _ _ _ W) Ep) as (pv & Eg & Hp). rewrite Eg.
    destruct (V 0 (le_n _)) as (v & Ev' & Vo). unfold TrunkShape.view_at in Ev'. cbn [subtree_at] in Ev'. rewrite Ev in Ev'. injection Ev' as <-.
    unfold down_msgs. cbn [seq rev app map concat]. rewrite app_nil_r. unfold TrunkShape.view_at at 1. cbn [subtree_at]. rewrite Ev. cbn [vmsgs].
    eapply pivot_lookup_ok; eauto; try apply W. eapply nth_error_In; eauto.
  - pose proof (twf_nwf _ _ _ _ _ _ _ T) as (W & Q1 & Q2). cbn [tree_lookup].
    destruct (child_at M mp cfg TO _ _ _ _ (KUser k) T Hl Hh) as (i & c & x & y & Er & Ec & Ei & Tc & H1 & H2).
    destruct (nview_at M mp cfg TO _ _ _ (KUser k) W) as (i' & p & b & Er' & Ep & Ei' & Ev & H3 & H4);
      [rewrite Q1; exact Hl | rewrite Q2; exact Hh |].
    assert (i' = i) by congruence. subst i'. rewrite Er, Ec.
    destruct (get_pivot_rep M _ _ i p (w_rep _ _ _ _ _ _ W) Ep) as (pv & Eg & Hp). rewrite Eg.
    destruct (V 0 ltac:(lia)) as (v & Ev' & Vo). unfold TrunkShape.view_at in Ev'. cbn [subtree_at] in Ev'. rewrite Ev in Ev'. injection Ev' as <-.
    assert (E : down_msgs (S ht) t k = down_msgs ht c k ++ vmsgs k (nview M cfg (t_node t) (KUser k))).
    { unfold down_msgs. rewrite (seq_S_map (S ht)), map_app, concat_app, map_map. f_equal.
      - f_equal. apply map_ext. intro d. rewrite (view_down ht t lo hi (KUser k) i c T Er Ec). reflexivity.
      - cbn [map concat]. rewrite app_nil_r. reflexivity. }
    rewrite E, Ev. cbn [vmsgs].
    assert (G : step_ok k (key_messages k (v_branches (view_of (t_node t) (alpha M (t_node t)) p b))) a (pivot_lookup M cfg hash (t_node t) pv k a)).
    { eapply pivot_lookup_ok; eauto; try apply W. eapply nth_error_In; eauto. }
    pose proof G as (a1 & go & Ea & Ha1 & _ & _). rewrite Ea in *. destruct go.
    + eapply step_ok_seq; [exact G|]. eapply IH; eauto. intros d Ld. rewrite <- (view_down ht t lo hi (KUser k) i c T Er Ec). apply V. lia.
    + eapply step_ok_stop; [exact G | reflexivity].
Qed.

Lemma mts_lookup_ok : forall k mts a, Forall (branch_ok cfg) mts -> acc_allowed cfg a ->
  step_ok k (key_messages k (rev mts)) a (mts_lookup cfg mts k a).
Proof.
  intros k mts. induction mts as [|b r IH]; intros a F Ha; [apply step_ok_nil; exact Ha|].
  inversion F as [|? ? Hb Hr]; subst. cbn [mts_lookup rev]. rewrite key_messages_app, key_messages_one.
  destruct (lookup_and_merge_ok cfg TO LM k b a Hb Ha) as (a1 & found & -> & H1 & H2).
  destruct (acc_definitive a1) eqn:Q.
  - eapply step_ok_stop; [|reflexivity]. exists a1, false. repeat split; auto.
  - eapply step_ok_seq with (a1 := a1).
    + exists a1, true. repeat split; auto. discriminate.
    + apply IH; auto.
Qed.

Lemma finish_ok : forall k a go, acc_allowed cfg a -> (go = false -> acc_definitive a = true) ->
  exists r, finish cfg k (a, go) = Some r /\
    (forall m, r = Some m -> m_class m = MInsert) /\ option_map m_data r = upto cfg k a None.
Proof.
  intros k a go Ha Hd. unfold finish.
  assert (G : forall m, is_definitive m = true -> exists r,
    (match m_class m with MDelete => Some None | _ => Some (Some m) end) = Some r /\
    (forall x, r = Some x -> m_class x = MInsert) /\ option_map m_data r = value_of m).
  { intros m Dm. unfold is_definitive, value_of in *. destruct (m_class m) eqn:C; try discriminate.
    - exists (Some m). repeat split; auto. intros x [= <-]. exact C.
    - exists None. repeat split; auto. discriminate. }
  destruct a as [m|].
  - simpl in *. destruct go.
    + destruct (data_merge_final_defined cfg k m Ha) as (m' & E). rewrite E.
      destruct (data_merge_final_meaning cfg k m m' LM E) as [D1 D2]. destruct (G m' D1) as (r & Er & G1 & G2).
      exists r. split; [exact Er|]. rewrite G2. auto.
    + specialize (Hd eq_refl). destruct (G m Hd) as (r & Er & G1 & G2). exists r. split; [exact Er|]. rewrite apply_definitive by exact Hd. auto.
  - destruct go; [|discriminate Hd; reflexivity]. exists None. repeat split; auto. discriminate.
Qed.

Theorem lookup_ok : forall st k, twf (height_of st) (st_tree st) KNegInf KPosInf ->
  Forall (branch_ok cfg) (st_mts st) ->
  (forall d, d <= height_of st -> ok_at k (view_at d (KUser k) (st_tree st))) ->
  exists r, lookup M cfg hash st k = Some r /\ (forall m, r = Some m -> m_class m = MInsert) /\
    option_map m_data r =
    replay cfg k (tree_msgs (height_of st) (st_tree st) k ++ key_messages k (rev (st_mts st))) None.
Proof.
  intros st k T B V. unfold lookup.
  destruct (mts_lookup_ok k (st_mts st) None B I) as (a & go & E & Ha & Hu & Hd). rewrite E.
  rewrite (replay_app cfg), tree_msgs_down. destruct go.
  - destruct (tree_lookup_ok k (height_of st) (st_tree st) KNegInf KPosInf a T) as (a1 & g1 & E1 & Ha1 & Hu1 & Hd1); auto.
    + apply kle_neg_inf.
    + apply klt_pos_inf.
    + rewrite E1. destruct (finish_ok k a1 g1 Ha1 Hd1) as (r & -> & F1 & F2). exists r. repeat split; auto.
      rewrite F2, Hu1. rewrite Hu. reflexivity.
  - destruct (finish_ok k a false Ha Hd) as (r & -> & F1 & F2). exists r. repeat split; auto.
    rewrite F2. transitivity (upto cfg k a (replay cfg k (down_msgs (height_of st) (st_tree st) k) None)); [apply upto_definitive; auto | apply Hu].
Qed.

End Lookup.
