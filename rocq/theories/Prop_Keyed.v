(** * C25: range references keep the data they cover

    Any layout of extents, any family of ranges, any number of threads and any
    interleaving of them (/repo/src/mini_allocator.c:788-985, 1046-1233). *)

From Coq Require Import List NArith ZArith Arith Bool Lia Permutation.
From Verif Require Import Base Spec Witness Count Mini Keyed KeyedProofs.
Import ListNotations.

(** ** The keys of an extent, read off the metadata

    The entries of one batch are in the order in which its extents were filled.
    An extent holds keys from its own entry's key (the first extent of the
    batch: from anywhere below) up to the key of the next entry of the batch
    (the last extent: anything above). *)
Definition extent_span (c : kcfg) (e : nat) (lo hi : key) : Prop :=
  exists i j en en',
    i < j /\ nth_error (concat (k_pages c)) i = Some en /\ nth_error (concat (k_pages c)) j = Some en' /\
    me_batch en = me_batch en' /\ me_ext en = Some e /\
    (forall m em, i < m < j -> nth_error (concat (k_pages c)) m = Some em -> me_batch em <> me_batch en) /\
    ((lo = KNegInf /\ forall m em, m < i -> nth_error (concat (k_pages c)) m = Some em -> me_batch em <> me_batch en) \/
     (lo = me_key en /\ exists m em, m < i /\ nth_error (concat (k_pages c)) m = Some em /\ me_batch em = me_batch en)) /\
    ((me_ext en' = None /\ hi = KPosInf) \/ (me_ext en' <> None /\ hi = me_key en')).

(** [r] has a key that may be in the extent. *)
Definition overlaps (c : kcfg) (r : range) (e : nat) : Prop :=
  exists lo hi x, extent_span c e lo hi /\ inside (k_d c) x (lo, hi) /\ inside (k_d c) x r.

(** What is assumed of a branch that was built. *)
Record branch_ok (c : kcfg) (root : nat) : Prop := {
  bo_order : total_order (key_compare (k_d c));
  bo_layout : layout_ok (k_d c) (concat (k_pages c)) root;
  bo_metas : NoDup (k_metas c);
  bo_head : k_metas c <> [];
  bo_apart : forall e, In e (k_metas c) -> ~ recorded_ext c e
}.

Lemma span_iff : forall c root e lo hi, branch_ok c root ->
  extent_span c e lo hi <-> exists i, span (concat (k_pages c)) i = Some (e, lo, hi).
Proof.
  intros c root e lo hi [TO LO _ _ _]. set (L := concat (k_pages c)). split.
  - intros (i & j & en & en' & H1 & H2 & H3 & H4 & H5 & H6 & H7 & H8). exists j. unfold span. fold L in H2, H3, H6, H7. rewrite H3.
    assert (E : lastb L (me_batch en') j = Some i).
    { apply (lastb_is _ _ _ _ en); auto. rewrite <- H4. exact H6. }
    rewrite E, H2, H5. f_equal. f_equal; [f_equal|].
    + destruct H7 as [[-> X]|[-> (m & em & X1 & X2 & X3)]].
      * assert (N : lastb L (me_batch en') i = None) by (apply lastb_none; rewrite <- H4; exact X). now rewrite N.
      * destruct (lastb L (me_batch en') i) eqn:N; [reflexivity|]. exfalso. rewrite lastb_none in N. apply (N m em); auto. congruence.
    + destruct H8 as [[X ->]|[X ->]]; [now rewrite X|]. destruct (me_ext en'); [reflexivity | congruence].
  - intros [j H]. unfold span in H. destruct (nth_error L j) as [en'|] eqn:G; [|discriminate].
    destruct (lastb L (me_batch en') j) as [i|] eqn:E; [|discriminate].
    destruct (nth_error L i) as [en|] eqn:G0; [|discriminate]. destruct (me_ext en) as [x|] eqn:X; [|discriminate].
    inversion H; subst x. clear H. apply lastb_some in E. destruct E as (E1 & (en0 & E2 & E3) & E4).
    assert (en0 = en) by congruence. subst en0.
    exists i, j, en, en'. fold L. repeat split; auto.
    + rewrite E3. exact E4.
    + destruct (lastb L (me_batch en') i) as [k|] eqn:N.
      * right. split; auto. apply lastb_some in N. destruct N as (N1 & (em & N2 & N3) & _). exists k, em. repeat split; auto. congruence.
      * left. split; auto. rewrite lastb_none in N. rewrite E3. exact N.
    + destruct (me_ext en'); [right | left]; split; auto; discriminate.
Qed.

Lemma overlaps_hit : forall c root r e, branch_ok c root -> proper (k_d c) r ->
  overlaps c r e <-> exists i, hit (k_d c) (concat (k_pages c)) r i = Some e.
Proof.
  intros c root r e B P. pose proof B as [TO LO _ _ _]. split.
  - intros (lo & hi & x & H1 & [H2 H3] & [H4 H5]). rewrite (span_iff _ _ _ _ _ B) in H1. destruct H1 as [i H1]. exists i.
    unfold hit. rewrite H1. cbn in H2, H3.
    assert (M : meets (k_d c) lo hi r = true); [|now rewrite M]. apply meets_iff. split; eapply (kle_trans _ TO); eauto.
  - intros [i H]. apply hit_span in H. destruct H as (lo & hi & H & M). pose proof (span_ordered _ _ _ LO _ _ _ _ H) as O.
    apply meets_iff in M. destruct M as [M1 M2].
    assert (S : extent_span c e lo hi) by (apply (span_iff _ _ _ _ _ B); eauto).
    destruct (kle_total _ TO lo (fst r)).
    + exists lo, hi, (fst r). repeat split; auto. apply (kle_refl _ TO).
    + exists lo, hi, lo. repeat split; auto. apply (kle_refl _ TO).
Qed.

(** ** The theorems *)

(** Taking or dropping a reference on a range touches exactly the extents that
    the range overlaps, each once. *)
Theorem C25_visits : forall c root r, branch_ok c root -> proper (k_d c) r ->
  (forall e, In (Some e) (keyed_for_each c r) <-> overlaps c r e) /\
  ~ In None (keyed_for_each c r) /\ NoDup (keyed_for_each c r).
Proof.
  intros c root r B P. pose proof B as [TO LO _ _ _]. unfold keyed_for_each. rewrite (for_each_hits _ TO _ _ LO r P).
  set (L := concat (k_pages c)). split; [|split].
  - intro e. rewrite (overlaps_hit c root r e B P). rewrite in_flat_map. split.
    + intros (i & _ & H). exists i. fold L. destruct (hit (k_d c) L r i); cbn in H; intuition congruence.
    + intros [i H]. exists i. fold L in H. rewrite H. split; [|now left]. apply in_seq. pose proof (hit_lt _ _ _ _ _ H). lia.
  - rewrite in_flat_map. intros (i & _ & H). destruct (hit (k_d c) L r i); cbn in H; intuition discriminate.
  - generalize 0. generalize (length L). induction n as [|n IH]; intro s; cbn [seq flat_map]; [constructor|].
    destruct (hit (k_d c) L r s) as [e|] eqn:E; [|apply IH]. cbn. constructor; [|apply IH].
    rewrite in_flat_map. intros (i & I & H). apply in_seq in I. destruct (hit (k_d c) L r i) as [e'|] eqn:E'; [|exact H]. destruct H as [H|[]].
    inversion H; subst e'. pose proof (hit_uniq _ _ _ LO _ _ _ _ _ E E'). lia.
Qed.

(** While a range is referenced, whatever else is taken or dropped, none of
    the extents it overlaps is freed, nor any extent of the metadata. *)
Theorem C25_keeps : forall c root s r e, branch_ok c root -> kreach c s -> In r (ks_out s) ->
  overlaps c r e \/ In e (k_metas c) -> ks_live s e = true /\ (2 <= ks_refs s e)%N.
Proof.
  intros c root s r e B R H O. pose proof B as [TO LO MN ME MD]. pose proof (kinv_reach c root TO LO MN ME MD s R) as K.
  destruct O as [O|O].
  - apply (overlaps_hit c root r e B) in O; [|exact (a_out _ _ (k_A _ _ _ K) _ H)]. destruct O as [i O].
    eapply out_live; eauto.
  - apply (meta_live c root s K); auto. left. intros E. rewrite E in H. exact H.
Qed.

(** The same while a range query blocks the dropping of references. *)
Theorem C25_blocked : forall c root s r e, branch_ok c root -> kreach c s -> In r (ks_blk s) ->
  overlaps c r e \/ In e (k_metas c) -> ks_live s e = true /\ (2 <= ks_refs s e)%N.
Proof.
  intros c root s r e B R H O. pose proof B as [TO LO MN ME MD]. pose proof (kinv_reach c root TO LO MN ME MD s R) as K.
  destruct O as [O|O].
  - apply (overlaps_hit c root r e B) in O; [|now apply (e_hand _ _ (k_E _ _ _ K) _ H)]. destruct O as [i O].
    eapply blk_live; eauto.
  - apply (meta_live c root s K); auto. right. intros E. rewrite E in H. exact H.
Qed.

(** When every reference has been dropped and the calls have returned, all
    extents of the branch and of its metadata have been freed. *)
Theorem C25_all_freed : forall c root s, branch_ok c root -> kreach c s -> ks_out s = [] -> (forall t, ks_pcs s t = KOut) ->
  forall e, recorded_ext c e \/ In e (k_metas c) -> ks_live s e = false.
Proof.
  intros c root s B R Ho Hq e He. pose proof B as [TO LO MN ME MD]. pose proof (kinv_reach c root TO LO MN ME MD s R) as K.
  destruct (all_freed c root s K Ho Hq) as (_ & _ & X1 & X2). destruct He; auto.
Qed.

(** An extent is freed at most once: a step that changes whether it is live
    frees it. *)
Theorem C25_freed_once : forall c root s t s' e, branch_ok c root -> kreach c s -> kstep c s t = KStep s' ->
  ks_live s' e <> ks_live s e -> ks_live s e = true /\ ks_live s' e = false.
Proof.
  intros c root s t s' e B R. pose proof B as [TO LO MN ME MD]. apply (free_once c root TO LO). exact (kinv_reach c root TO LO MN ME MD s R).
Qed.

(** No assertion fails unless some extent has 253 references beyond the first
    (the count is one byte). *)
Theorem C25_abort_only_full : forall c root s t, branch_ok c root -> kreach c s -> kstep c s t = KAbort ->
  exists e, recorded_ext c e /\ ks_live s e = true /\ ks_refs s e = 255%N.
Proof.
  intros c root s t B R. pose proof B as [TO LO MN ME MD]. apply (no_abort c root TO LO). exact (kinv_reach c root TO LO MN ME MD s R).
Qed.

(** No deadlock: when no query blocks, some thread that is in a call can go on. *)
Theorem C25_progress : forall c root s, branch_ok c root -> kreach c s -> ks_blk s = [] -> (exists t, ks_pcs s t <> KOut) ->
  exists t, t < k_n c /\ kstep c s t <> KBlocked.
Proof.
  intros c root s B R. pose proof B as [TO LO MN ME MD]. apply (progress c root). exact (kinv_reach c root TO LO MN ME MD s R).
Qed.

(** ** A branch with three data extents, two pages of metadata, two threads *)

Definition kx_cfg : kcfg :=
  Kcfg append_cfg
    [[Ment (Some 10) 0 (KUser [1%N]); Ment (Some 12) 1 (KUser [1%N])];
     [Ment (Some 11) 0 (KUser [5%N]); Ment None 0 KPosInf; Ment None 1 KPosInf]]
    [1; 2] 2.

Ltac entry i H :=
  destruct i as [|[|[|[|[|i]]]]]; [ | | | | |destruct i; discriminate]; cbn in H; inversion H; subst; clear H.

Example kx_ok : branch_ok kx_cfg 12.
Proof.
  constructor.
  - exact lex_compare_total.
  - constructor.
    + intros i j en en' H1 H2 Hlt B. entry i H1; cbn; try discriminate; exfalso; entry j H2; cbn in *; try lia; discriminate.
    + intros i j en en' H1 H2 Hlt B X. entry i H1; entry j H2; cbn in *; try lia; try discriminate; try congruence; vm_compute; discriminate.
    + intros i j en en' e H1 H2 X Y. entry i H1; entry j H2; cbn in *; congruence.
    + intros i en H X. entry i H; cbn in X; try congruence.
      * exists 3, (Ment None 0 KPosInf). repeat split; auto.
      * exists 4, (Ment None 1 KPosInf). repeat split; auto.
      * exists 3, (Ment None 0 KPosInf). repeat split; auto.
    + exists 1, 4, (Ment (Some 12) 1 (KUser [1%N])), (Ment None 1 KPosInf). repeat split; auto.
      intros k ek H B. entry k H; cbn in *; auto; discriminate.
  - repeat constructor; cbn; intuition discriminate.
  - discriminate.
  - intros e [<-|[<-|[]]] H; cbn in H; intuition discriminate.
Qed.

Fixpoint krun (c : kcfg) (s : kst) (ts : list nat) : option kst :=
  match ts with
  | [] => Some s
  | t :: ts' => match kstep c s t with KStep s' => krun c s' ts' | _ => None end
  end.
Lemma krun_reach : forall c ts s s', kreach c s -> Forall (fun t => t < k_n c) ts -> krun c s ts = Some s' -> kreach c s'.
Proof.
  induction ts as [|t ts IH]; intros s s' R F H; cbn in H; [congruence|]. inversion F; subst.
  destruct (kstep c s t) as [| |s1] eqn:E; try discriminate. apply (IH s1); auto. eapply kr_step; eauto.
Qed.

Definition kx_low : range := (KNegInf, KUser [2%N]).
Definition kx_s0 : kst := Kst (fun _ => 2%N) (fun _ => false) (fun _ => KOut) [everything] [] (fun _ => true) false.
Definition get (o : option kst) : kst := match o with Some s => s | None => kx_s0 end.
(** thread 0 references the low keys, thread 1 then drops everything *)
Definition kx_s1 : kst := get (krun kx_cfg (set_pc kx_s0 0 (KInc kx_low 0 0 walk0)) (repeat 0 7)).
Definition kx_s2 : kst := get (krun kx_cfg (set_pc (set_out kx_s1 [kx_low]) 1 (KWait everything)) (repeat 1 14)).
(** and thread 0 drops the low keys *)
Definition kx_s3 : kst := get (krun kx_cfg (set_pc (set_out kx_s2 []) 0 (KWait kx_low)) (repeat 0 18)).

Lemma kx_r0 : kreach kx_cfg kx_s0.
Proof. apply (kr_init kx_cfg (fun _ => 2%N)); intros; reflexivity. Qed.
Lemma kx_r1 : kreach kx_cfg kx_s1.
Proof.
  apply (krun_reach kx_cfg (repeat 0 7) (set_pc kx_s0 0 (KInc kx_low 0 0 walk0))).
  - apply kr_inc; [exact kx_r0 | cbn; lia | reflexivity | vm_compute; discriminate|].
    intros x _. exists everything. split; [now left|]. split; [apply kle_neg | apply kle_pos].
  - repeat constructor.
  - vm_compute. reflexivity.
Qed.
Lemma kx_r2 : kreach kx_cfg kx_s2.
Proof.
  apply (krun_reach kx_cfg (repeat 1 14) (set_pc (set_out kx_s1 [kx_low]) 1 (KWait everything))).
  - apply (kr_dec kx_cfg kx_s1 1 everything [kx_low] []); [exact kx_r1 | cbn; lia | vm_compute; reflexivity | vm_compute; reflexivity|].
    intros u r' j i w H. exfalso. destruct u as [|[|u]]; vm_compute in H; discriminate.
  - repeat constructor.
  - vm_compute. reflexivity.
Qed.
Lemma kx_r3 : kreach kx_cfg kx_s3.
Proof.
  apply (krun_reach kx_cfg (repeat 0 18) (set_pc (set_out kx_s2 []) 0 (KWait kx_low))).
  - apply (kr_dec kx_cfg kx_s2 0 kx_low [] []); [exact kx_r2 | cbn; lia | vm_compute; reflexivity | vm_compute; reflexivity|].
    intros u r' j i w H. exfalso. destruct u as [|[|u]]; vm_compute in H; discriminate.
  - repeat constructor.
  - vm_compute. reflexivity.
Qed.

(** After the first drop only the extent without low keys is free ... *)
Example kx_mid : kreach kx_cfg kx_s2 /\ ks_out kx_s2 = [kx_low] /\
  map (ks_live kx_s2) [10; 11; 12; 1; 2] = [true; false; true; true; true] /\
  overlaps kx_cfg kx_low 10 /\ ~ overlaps kx_cfg kx_low 11.
Proof.
  pose proof kx_ok as B. split; [exact kx_r2|]. split; [vm_compute; reflexivity|]. split; [vm_compute; reflexivity|].
  destruct (C25_visits kx_cfg 12 kx_low B ltac:(vm_compute; discriminate)) as (V & _).
  split; [apply V; vm_compute; auto|]. rewrite <- V. vm_compute. intuition discriminate.
Qed.
(** ... and after the second all of it. *)
Example kx_end : kreach kx_cfg kx_s3 /\ ks_out kx_s3 = [] /\ ks_pcs kx_s3 0 = KOut /\ ks_pcs kx_s3 1 = KOut /\
  map (ks_live kx_s3) [10; 11; 12; 1; 2] = [false; false; false; false; false].
Proof. split; [exact kx_r3|]. vm_compute. auto 6. Qed.

Print Assumptions C25_visits.
Print Assumptions C25_keeps.
Print Assumptions C25_blocked.
Print Assumptions C25_all_freed.
Print Assumptions C25_freed_once.
Print Assumptions C25_abort_only_full.
Print Assumptions C25_progress.
