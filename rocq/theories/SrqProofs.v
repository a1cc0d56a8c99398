(** * Proofs about the space reclamation queue *)

From Coq Require Import List Arith NArith Bool Lia.
From Verif Require Import Srq.
Import ListNotations.

Lemma fupd_eq : forall A (f : nat -> A) i v, fupd f i v i = v.
Proof. intros. unfold fupd. now rewrite Nat.eqb_refl. Qed.
Lemma fupd_neq : forall A (f : nat -> A) i j v, j <> i -> fupd f i v j = f j.
Proof. intros. unfold fupd. destruct (Nat.eqb_spec j i); congruence. Qed.

(** The entry reachable through a handle. *)
Definition srq_get (q : srq) (h : nat) : option srq_data :=
  match srq_index q h with Some p => Some (srq_heap q p) | None => None end.

(** Index and heap agree, except possibly for the stale handle [ex]. *)
Record live_ok (cap : nat) (ex : option nat) (q : srq) : Prop := {
  lo_cap : srq_num q <= cap;
  lo_heap : forall p, p < srq_num q ->
      sd_idx (srq_heap q p) < cap /\ srq_index q (sd_idx (srq_heap q p)) = Some p
      /\ ex <> Some (sd_idx (srq_heap q p));
  lo_index : forall h p, srq_index q h = Some p -> ex <> Some h ->
      h < cap /\ p < srq_num q /\ sd_idx (srq_heap q p) = h
}.

Definition prio (q : srq) (p : nat) : N := sd_priority (srq_heap q p).

Definition ok_at (q : srq) (p : nat) : Prop := (prio q p <= prio q (srq_parent p))%N.

(** Heap order everywhere. *)
Definition ordered (q : srq) : Prop := forall p, 0 < p < srq_num q -> ok_at q p.

Definition skip_ok (q : srq) (pos : nat) : Prop :=
  forall c, 0 < pos -> 0 < c < srq_num q -> srq_parent c = pos ->
            (prio q c <= prio q (srq_parent pos))%N.

(** Order except around [pos]. *)
Definition ord_hole (q : srq) (pos : nat) : Prop :=
  (forall p, 0 < p < srq_num q -> p <> pos -> srq_parent p <> pos -> ok_at q p) /\ skip_ok q pos.
(** Order except between [pos] and its parent. *)
Definition ord_up (q : srq) (pos : nat) : Prop :=
  (forall p, 0 < p < srq_num q -> p <> pos -> ok_at q p) /\ skip_ok q pos.
(** Order except between [pos] and its children. *)
Definition ord_down (q : srq) (pos : nat) : Prop :=
  (forall p, 0 < p < srq_num q -> srq_parent p <> pos -> ok_at q p) /\ skip_ok q pos.

Lemma parent_lt : forall p, 0 < p -> srq_parent p < p.
Proof.
  intros. unfold srq_parent. apply Nat.div_lt_upper_bound; lia.
Qed.

Lemma parent_cases : forall p, 0 < p ->
  p = srq_lchild (srq_parent p) \/ p = srq_rchild (srq_parent p).
Proof.
  intros. unfold srq_parent, srq_lchild, srq_rchild.
  pose proof (Nat.div_mod (p - 1) 2 ltac:(lia)).
  pose proof (Nat.mod_upper_bound (p - 1) 2 ltac:(lia)). lia.
Qed.

Lemma parent_l : forall p, srq_parent (srq_lchild p) = p.
Proof.
  intros. unfold srq_parent, srq_lchild. replace (2 * p + 1 - 1) with (p * 2) by lia.
  apply Nat.div_mul. lia.
Qed.
Lemma parent_r : forall p, srq_parent (srq_rchild p) = p.
Proof.
  intros. unfold srq_parent, srq_rchild. replace (2 * p + 2 - 1) with (1 + p * 2) by lia.
  rewrite Nat.div_add by lia. reflexivity.
Qed.

(** ** swap *)

Lemma swap_num : forall q l r, srq_num (srq_swap q l r) = srq_num q.
Proof. reflexivity. Qed.

Lemma swap_heap : forall q l r p,
  srq_heap (srq_swap q l r) p =
  if Nat.eqb p r then srq_heap q l else if Nat.eqb p l then srq_heap q r else srq_heap q p.
Proof. reflexivity. Qed.

Lemma swap_prio : forall q l r p,
  prio (srq_swap q l r) p =
  if Nat.eqb p r then prio q l else if Nat.eqb p l then prio q r else prio q p.
Proof.
  intros. unfold prio. rewrite swap_heap.
  destruct (Nat.eqb p r); auto. destruct (Nat.eqb p l); auto.
Qed.

Lemma swap_index : forall q l r h, l <> r ->
  srq_index (srq_swap q l r) h =
  if Nat.eqb h (sd_idx (srq_heap q l)) then Some r
  else if Nat.eqb h (sd_idx (srq_heap q r)) then Some l else srq_index q h.
Proof.
  intros. unfold srq_swap, srq_update_index, set_heap; simpl.
  rewrite fupd_eq.
  replace (fupd (fupd (srq_heap q) l (srq_heap q r)) r (srq_heap q l) l) with (srq_heap q r).
  - reflexivity.
  - rewrite fupd_neq by auto. now rewrite fupd_eq.
Qed.

Lemma swap_live : forall cap ex q l r, l <> r -> l < srq_num q -> r < srq_num q ->
  live_ok cap ex q -> live_ok cap ex (srq_swap q l r).
Proof.
  intros cap ex q l r Hne Hl Hr [C H I].
  pose proof (H l Hl) as [Hl1 [Hl2 Hl3]]. pose proof (H r Hr) as [Hr1 [Hr2 Hr3]].
  assert (D: sd_idx (srq_heap q l) <> sd_idx (srq_heap q r)) by congruence.
  constructor.
  - exact C.
  - intros p Hp. rewrite swap_num in Hp. rewrite swap_heap, swap_index by auto.
    destruct (Nat.eqb_spec p r); subst.
    + rewrite Nat.eqb_refl. auto.
    + destruct (Nat.eqb_spec p l); subst.
      * destruct (Nat.eqb_spec (sd_idx (srq_heap q r)) (sd_idx (srq_heap q l))); try congruence.
        rewrite Nat.eqb_refl. auto.
      * pose proof (H p Hp) as [P1 [P2 P3]].
        destruct (Nat.eqb_spec (sd_idx (srq_heap q p)) (sd_idx (srq_heap q l))); try congruence.
        destruct (Nat.eqb_spec (sd_idx (srq_heap q p)) (sd_idx (srq_heap q r))); try congruence.
        auto.
  - intros h p. rewrite swap_num, swap_heap, swap_index by auto. intros E X.
    destruct (Nat.eqb_spec h (sd_idx (srq_heap q l))).
    + inversion E; subst. rewrite Nat.eqb_refl. auto.
    + destruct (Nat.eqb_spec h (sd_idx (srq_heap q r))).
      * inversion E; subst. destruct (Nat.eqb_spec p r); try congruence.
        rewrite Nat.eqb_refl. auto.
      * destruct (I h p E X) as [I1 [I2 I3]].
        destruct (Nat.eqb_spec p r); try congruence.
        destruct (Nat.eqb_spec p l); try congruence. auto.
Qed.

Lemma swap_get : forall cap ex q l r h, l <> r -> l < srq_num q -> r < srq_num q ->
  live_ok cap ex q -> ex <> Some h -> srq_get (srq_swap q l r) h = srq_get q h.
Proof.
  intros cap ex q l r h Hne Hl Hr [C H I] X. unfold srq_get.
  pose proof (H l Hl) as [Hl1 [Hl2 Hl3]]. pose proof (H r Hr) as [Hr1 [Hr2 Hr3]].
  rewrite swap_index by auto.
  destruct (Nat.eqb_spec h (sd_idx (srq_heap q l))); subst.
  - rewrite Hl2, swap_heap, Nat.eqb_refl. auto.
  - destruct (Nat.eqb_spec h (sd_idx (srq_heap q r))); subst.
    + rewrite Hr2, swap_heap, Nat.eqb_refl.
      destruct (Nat.eqb_spec l r); congruence.
    + destruct (srq_index q h) eqn:E; auto. rewrite swap_heap.
      destruct (I h n1 E X) as [I1 [I2 I3]].
      destruct (Nat.eqb_spec n1 r); try congruence.
      destruct (Nat.eqb_spec n1 l); try congruence.
Qed.

(** ** rebalance_up *)

Lemma has_priority_spec : forall q l r, srq_has_priority q l r = true <-> (prio q r < prio q l)%N.
Proof. intros. unfold srq_has_priority, prio. apply N.ltb_lt. Qed.
Lemma has_priority_false : forall q l r, srq_has_priority q l r = false <-> (prio q l <= prio q r)%N.
Proof. intros. unfold srq_has_priority, prio. apply N.ltb_ge. Qed.

Record same_content (cap : nat) (ex : option nat) (q q' : srq) : Prop := {
  sc_live : live_ok cap ex q';
  sc_num : srq_num q' = srq_num q;
  sc_get : forall h, ex <> Some h -> srq_get q' h = srq_get q h;
  sc_hand : srq_hand q' = srq_hand q;
  sc_ex : forall h, ex = Some h -> srq_index q' h = srq_index q h
}.

Lemma same_refl : forall cap ex q, live_ok cap ex q -> same_content cap ex q q.
Proof. constructor; auto. Qed.

Lemma same_trans : forall cap ex a b c,
  same_content cap ex a b -> same_content cap ex b c -> same_content cap ex a c.
Proof.
  intros cap ex a b c [A1 A2 A3 A4 A5] [B1 B2 B3 B4 B5]. constructor; auto; try congruence.
  - intros. rewrite B3; auto.
  - intros. rewrite B5; auto.
Qed.

Lemma same_swap : forall cap ex q l r, l <> r -> l < srq_num q -> r < srq_num q ->
  live_ok cap ex q -> same_content cap ex q (srq_swap q l r).
Proof.
  intros. constructor; auto.
  - now apply swap_live.
  - intros. eapply swap_get; eauto.
  - intros h E. rewrite swap_index by auto. destruct H2 as [C L I].
    pose proof (L l H0) as [? [? L3]]. pose proof (L r H1) as [? [? L4]].
    destruct (Nat.eqb_spec h (sd_idx (srq_heap q l))); try congruence.
    destruct (Nat.eqb_spec h (sd_idx (srq_heap q r))); try congruence.
Qed.

Lemma swap_up_order : forall q pos, 0 < pos < srq_num q ->
  (forall p, 0 < p < srq_num q -> p <> pos -> srq_parent p <> pos -> ok_at q p) ->
  skip_ok q pos ->
  (prio q (srq_parent pos) < prio q pos)%N ->
  ord_up (srq_swap q (srq_parent pos) pos) (srq_parent pos).
Proof.
  intros q pos Hp H S HP. pose proof (parent_lt pos ltac:(lia)) as PL.
  split.
  - intros p Hr Hne. rewrite swap_num in Hr. unfold ok_at. rewrite !swap_prio.
    pose proof (parent_lt p ltac:(lia)) as PLp.
    destruct (Nat.eqb_spec p pos); subst.
    + destruct (Nat.eqb_spec (srq_parent pos) pos); try lia.
      rewrite Nat.eqb_refl. lia.
    + destruct (Nat.eqb_spec p (srq_parent pos)); try lia.
      destruct (Nat.eqb_spec (srq_parent p) pos).
      * apply (S p); auto; lia.
      * destruct (Nat.eqb_spec (srq_parent p) (srq_parent pos)).
        { specialize (H p Hr n n1). unfold ok_at in H. rewrite e in H. lia. }
        { apply H; auto. }
  - intros c Hpp Hc Hpc. rewrite swap_num in Hc. rewrite !swap_prio.
    pose proof (parent_lt (srq_parent pos) ltac:(lia)).
    pose proof (parent_lt c ltac:(lia)).
    destruct (Nat.eqb_spec (srq_parent (srq_parent pos)) pos); try lia.
    destruct (Nat.eqb_spec (srq_parent (srq_parent pos)) (srq_parent pos)); try lia.
    assert (OK: ok_at q (srq_parent pos)) by (apply H; lia).
    unfold ok_at in OK.
    destruct (Nat.eqb_spec c pos); [lia|].
    destruct (Nat.eqb_spec c (srq_parent pos)); [lia|].
    assert (OKc: ok_at q c) by (apply H; try lia; rewrite Hpc; lia).
    unfold ok_at in OKc. rewrite Hpc in OKc. lia.
Qed.

Lemma rebalance_up_spec : forall fuel cap ex q pos,
  pos < fuel -> pos < srq_num q -> live_ok cap ex q -> ord_up q pos ->
  exists q', srq_rebalance_up fuel q pos = Some q' /\ same_content cap ex q q' /\ ordered q'.
Proof.
  induction fuel; intros cap ex q pos Hf Hn L O; [lia|]. simpl.
  destruct (Nat.eqb_spec pos 0); simpl.
  - exists q. split; [auto|]. split; [now apply same_refl|].
    intros p Hp. apply (proj1 O); lia.
  - destruct (srq_has_priority q pos (srq_parent pos)) eqn:E.
    + apply has_priority_spec in E. pose proof (parent_lt pos ltac:(lia)).
      assert (SC: same_content cap ex q (srq_swap q (srq_parent pos) pos))
        by (apply same_swap; auto; lia).
      destruct (IHfuel cap ex (srq_swap q (srq_parent pos) pos) (srq_parent pos))
        as [q' [E1 [E2 E3]]].
      * lia.
      * rewrite swap_num; lia.
      * apply SC.
      * apply swap_up_order; auto; [lia|intros; now apply O|apply O].
      * exists q'. split; [auto|]. split; auto. eapply same_trans; eauto.
    + apply has_priority_false in E. exists q. split; [auto|]. split; [now apply same_refl|].
      intros p Hp. destruct (Nat.eq_dec p pos); [subst; exact E|].
      apply (proj1 O); auto.
Qed.

Lemma ordered_down : forall q pos, ordered q -> ord_down q pos.
Proof.
  intros q pos O. split; [intros; now apply O|].
  intros c Hp Hc E.
  pose proof (O c Hc) as O1. unfold ok_at in O1. rewrite E in O1.
  pose proof (parent_lt c ltac:(lia)).
  pose proof (O pos ltac:(lia)) as O2. unfold ok_at in O2. lia.
Qed.

Lemma rebalance_up_hole : forall cap ex q pos,
  pos < srq_num q -> live_ok cap ex q -> ord_hole q pos ->
  exists q', srq_rebalance_up (S pos) q pos = Some q' /\ same_content cap ex q q' /\ ord_down q' pos.
Proof.
  intros cap ex q pos Hn L [O S]. cbn [srq_rebalance_up].
  destruct (Nat.eqb_spec pos 0); simpl.
  - exists q. split; [auto|]. split; [now apply same_refl|]. split; auto.
    intros p Hp Hne. apply O; lia.
  - destruct (srq_has_priority q pos (srq_parent pos)) eqn:E.
    + apply has_priority_spec in E. pose proof (parent_lt pos ltac:(lia)).
      assert (SC: same_content cap ex q (srq_swap q (srq_parent pos) pos))
        by (apply same_swap; auto; lia).
      destruct (rebalance_up_spec pos cap ex (srq_swap q (srq_parent pos) pos) (srq_parent pos))
        as [q' [E1 [E2 E3]]].
      * lia.
      * rewrite swap_num; lia.
      * apply SC.
      * apply swap_up_order; auto; lia.
      * exists q'. split; [auto|]. split; [eapply same_trans; eauto|]. now apply ordered_down.
    + apply has_priority_false in E. exists q. split; [auto|]. split; [now apply same_refl|].
      split; auto.
      intros p Hp Hne. destruct (Nat.eq_dec p pos); [subst; exact E|]. apply O; auto.
Qed.

(** ** rebalance_down *)

Lemma swap_down_order : forall q pos c, 0 < c < srq_num q -> srq_parent c = pos ->
  ord_down q pos ->
  (prio q pos < prio q c)%N ->
  (forall c', 0 < c' < srq_num q -> srq_parent c' = pos -> (prio q c' <= prio q c)%N) ->
  ord_down (srq_swap q pos c) c.
Proof.
  intros q pos c Hc Hpc [O S] HP M. pose proof (parent_lt c ltac:(lia)) as PL. rewrite Hpc in PL.
  split.
  - intros p Hr Hne. rewrite swap_num in Hr. unfold ok_at. rewrite !swap_prio.
    pose proof (parent_lt p ltac:(lia)) as PLp.
    destruct (Nat.eqb_spec (srq_parent p) c); [congruence|].
    destruct (Nat.eqb_spec p c); subst.
    + rewrite Nat.eqb_refl. lia.
    + destruct (Nat.eqb_spec p (srq_parent c)).
      * subst p. destruct (Nat.eqb_spec (srq_parent (srq_parent c)) (srq_parent c)); try lia.
        apply S; auto; lia.
      * destruct (Nat.eqb_spec (srq_parent p) (srq_parent c)).
        { apply M; auto. }
        { apply O; auto. }
  - intros d Hcp Hd Hpd. rewrite swap_num in Hd. rewrite !swap_prio, Hpc.
    pose proof (parent_lt d ltac:(lia)).
    destruct (Nat.eqb_spec pos c); try lia. rewrite Nat.eqb_refl.
    destruct (Nat.eqb_spec d c); try lia.
    destruct (Nat.eqb_spec d pos); try lia.
    assert (OKd: ok_at q d) by (apply O; lia).
    unfold ok_at in OKd. rewrite Hpd in OKd. lia.
Qed.

Lemma rebalance_down_spec : forall fuel cap ex q pos,
  pos < fuel + pos -> srq_num q <= fuel + pos -> live_ok cap ex q ->
  ord_down q pos ->
  exists q', srq_rebalance_down fuel q pos = Some q' /\ same_content cap ex q q' /\ ordered q'.
Proof.
  induction fuel; intros cap ex q pos Hf Hn L O; [lia|]. simpl srq_rebalance_down.
  assert (PC: forall c, 0 < c -> srq_parent c = pos -> c = srq_lchild pos \/ c = srq_rchild pos).
  { intros c Hc E. rewrite <- E. now apply parent_cases. }
  assert (LC: srq_lchild pos = 2 * pos + 1) by reflexivity.
  assert (RC: srq_rchild pos = 2 * pos + 2) by reflexivity.
  assert (GO: forall c, 0 < c < srq_num q -> srq_parent c = pos -> pos < c ->
     (prio q pos < prio q c)%N ->
     (forall c', 0 < c' < srq_num q -> srq_parent c' = pos -> (prio q c' <= prio q c)%N) ->
     exists q', srq_rebalance_down fuel (srq_swap q pos c) c = Some q' /\
                same_content cap ex q q' /\ ordered q').
  { intros c Hc Epc Hlt HP M.
    assert (SC: same_content cap ex q (srq_swap q pos c)) by (apply same_swap; auto; lia).
    destruct (Nat.eq_dec fuel 0) as [->|Hfz]; [simpl in Hn; lia|].
    destruct (IHfuel cap ex (srq_swap q pos c) c) as [q' [E1 [E2 E3]]].
    - lia.
    - rewrite swap_num. lia.
    - apply SC.
    - apply swap_down_order; auto.
    - exists q'. split; auto. split; auto. eapply same_trans; eauto. }
  destruct ((srq_lchild pos <? srq_num q) && srq_has_priority q (srq_lchild pos) pos ||
            (srq_rchild pos <? srq_num q) && srq_has_priority q (srq_rchild pos) pos) eqn:G.
  - destruct ((srq_num q <=? srq_rchild pos) || srq_has_priority q (srq_lchild pos) (srq_rchild pos)) eqn:C.
    + assert (LB: srq_lchild pos < srq_num q).
      { apply orb_true_iff in G. rewrite !andb_true_iff, !Nat.ltb_lt in G. lia. }
      apply GO; try lia.
      * apply parent_l.
      * apply orb_true_iff in G. rewrite !andb_true_iff, !Nat.ltb_lt, !has_priority_spec in G.
        apply orb_true_iff in C. rewrite Nat.leb_le, has_priority_spec in C.
        destruct G as [[_ G]|[G1 G2]]; [exact G|]. destruct C; lia.
      * intros c' Hc' Epc. destruct (PC c' ltac:(lia) Epc); subst c'; [lia|].
        apply orb_true_iff in C. rewrite Nat.leb_le, has_priority_spec in C. destruct C; lia.
    + apply orb_false_iff in C. rewrite Nat.leb_gt, has_priority_false in C. destruct C as [C1 C2].
      apply GO; try lia.
      * apply parent_r.
      * apply orb_true_iff in G. rewrite !andb_true_iff, !Nat.ltb_lt, !has_priority_spec in G.
        destruct G as [[_ G]|[_ G]]; lia.
      * intros c' Hc' Epc. destruct (PC c' ltac:(lia) Epc); subst c'; lia.
  - exists q. split; auto. split; [now apply same_refl|].
    apply orb_false_iff in G. destruct G as [G1 G2].
    intros p Hp. destruct (Nat.eq_dec (srq_parent p) pos) as [E|E]; [|now apply O].
    unfold ok_at. rewrite E.
    destruct (PC p ltac:(lia) E); subst p.
    + apply andb_false_iff in G1. rewrite Nat.ltb_ge, has_priority_false in G1. destruct G1; lia.
    + apply andb_false_iff in G2. rewrite Nat.ltb_ge, has_priority_false in G2. destruct G2; lia.
Qed.

(** ** whole operations *)

Record wf (cap : nat) (q : srq) : Prop := {
  wf_live : live_ok cap None q;
  wf_ord : ordered q;
  wf_hand : srq_hand q < cap
}.

Lemma live_ok_any : forall cap q h,
  live_ok cap None q -> srq_index q h = None -> live_ok cap (Some h) q.
Proof.
  intros cap q h [C H I] E. constructor; auto.
  - intros p Hp. destruct (H p Hp) as [H1 [H2 H3]]. repeat split; auto. congruence.
  - intros. apply I; auto. discriminate.
Qed.

(** Pigeonhole: if the heap is not full, some handle is available. *)
Lemma exists_available : forall cap q, live_ok cap None q -> srq_num q < cap ->
  exists h, h < cap /\ srq_index q h = None.
Proof.
  intros cap q [C H I] Hlt.
  assert (DEC: forall h, {srq_index q h <> None} + {~ srq_index q h <> None}).
  { intros h. destruct (srq_index q h); [left; discriminate|right; congruence]. }
  destruct (Forall_Exists_dec (fun h => srq_index q h <> None) DEC (seq 0 cap)) as [F|F].
  - exfalso.
    assert (length (map (fun h => match srq_index q h with Some p => p | None => 0 end) (seq 0 cap))
            <= length (seq 0 (srq_num q))).
    { apply NoDup_incl_length.
      - assert (G: forall l, NoDup l -> (forall x, In x l -> srq_index q x <> None) ->
           NoDup (map (fun h => match srq_index q h with Some p => p | None => 0 end) l)).
        { induction l; simpl; intros N A; constructor; inversion N; subst.
          - rewrite in_map_iff. intros [y [E Y]].
            pose proof (A a (or_introl eq_refl)). pose proof (A y (or_intror Y)).
            destruct (srq_index q a) eqn:Ea; [|congruence].
            destruct (srq_index q y) eqn:Ey; [|congruence]. subst.
            destruct (I a n Ea ltac:(discriminate)) as [_ [_ Z1]].
            destruct (I y n Ey ltac:(discriminate)) as [_ [_ Z2]]. congruence.
          - apply IHl; auto. }
        apply G; [apply seq_NoDup|]. intros x Hx. rewrite Forall_forall in F. now apply F.
      - intros x. rewrite in_map_iff. intros [h [E Hh]]. rewrite Forall_forall in F.
        specialize (F h Hh). destruct (srq_index q h) eqn:Eh; [|congruence]. subst.
        destruct (I h x Eh ltac:(discriminate)) as [_ [Z1 _]]. apply in_seq. lia. }
    rewrite map_length, !seq_length in H0. lia.
  - apply Exists_exists in F. destruct F as [h [Hh E]]. exists h.
    apply in_seq in Hh. split; [lia|]. destruct (srq_index q h); auto. exfalso; apply E; discriminate.
Qed.

Lemma get_new_index_spec : forall cap fuel q d,
  srq_hand q < cap -> 0 < fuel -> d < fuel ->
  srq_index q ((srq_hand q + d) mod cap) = None ->
  exists h, srq_get_new_index cap fuel q = Some (set_hand q h, h) /\ h < cap /\ srq_index q h = None.
Proof.
  intros cap. induction fuel; intros q d Hh H0 Hd E; [lia|]. simpl.
  destruct (srq_index q (srq_hand q)) eqn:Ei.
  - destruct d.
    + rewrite Nat.add_0_r, Nat.mod_small in E by lia. congruence.
    + destruct (IHfuel (set_hand q ((srq_hand q + 1) mod cap)) d) as [h [E1 [E2 E3]]]; simpl.
      * apply Nat.mod_upper_bound. lia.
      * lia.
      * lia.
      * rewrite Nat.add_mod_idemp_l by lia. replace (srq_hand q + 1 + d) with (srq_hand q + S d) by lia. auto.
      * exists h. split; [rewrite E1; reflexivity|auto].
  - exists (srq_hand q). split; auto. destruct q; reflexivity.
Qed.

Lemma init_wf : forall cap, 0 < cap -> wf cap srq_init.
Proof.
  intros. constructor; simpl; auto.
  - constructor; simpl; try lia. discriminate.
  - intros p Hp. simpl in Hp. lia.
Qed.

Lemma get_set_hand : forall q h x, srq_get (set_hand q h) x = srq_get q x.
Proof. reflexivity. Qed.

Lemma insert_spec : forall cap q addr gen pr, wf cap q -> srq_num q < cap ->
  exists q' h, srq_insert cap q addr gen pr = Some (q', h) /\ wf cap q' /\ h < cap /\
    srq_get q h = None /\ srq_get q' h = Some (SrqData addr gen pr h) /\
    (forall h', h' <> h -> srq_get q' h' = srq_get q h') /\
    srq_num q' = S (srq_num q).
Proof.
  intros cap q addr gen pr W Hlt. destruct W as [L O Hh]. unfold srq_insert.
  destruct (Nat.eqb_spec (srq_num q) cap); [lia|].
  destruct (exists_available cap q L Hlt) as [a [Ha Ea]].
  destruct (get_new_index_spec cap cap q ((a + cap - srq_hand q) mod cap)) as [h [E1 [E2 E3]]].
  - auto.
  - lia.
  - apply Nat.mod_upper_bound; lia.
  - rewrite Nat.add_mod_idemp_r by lia.
    replace (srq_hand q + (a + cap - srq_hand q)) with (a + 1 * cap) by lia.
    rewrite Nat.mod_add by lia. rewrite Nat.mod_small by lia. auto.
  - rewrite E1.
    set (q4 := set_index (set_heap (set_num (set_hand q h) (srq_num (set_hand q h) + 1))
             (srq_num (set_hand q h)) (SrqData addr gen pr h)) h (Some (srq_num (set_hand q h)))).
    assert (N4: srq_num q4 = S (srq_num q)) by (simpl; lia).
    assert (HP: forall p, p < srq_num q -> srq_heap q4 p = srq_heap q p).
    { intros. simpl. apply fupd_neq. lia. }
    assert (HN: srq_heap q4 (srq_num q) = SrqData addr gen pr h) by (simpl; apply fupd_eq).
    assert (HI: forall x, x <> h -> srq_index q4 x = srq_index q x).
    { intros. simpl. now apply fupd_neq. }
    assert (HIh: srq_index q4 h = Some (srq_num q)) by (simpl; apply fupd_eq).
    destruct L as [C H I].
    assert (L4: live_ok cap None q4).
    { constructor.
      - lia.
      - intros p Hp. destruct (Nat.eq_dec p (srq_num q)).
        + subst p. rewrite HN. simpl sd_idx. repeat split; auto. discriminate.
        + rewrite HP by lia. destruct (H p ltac:(lia)) as [H1 [H2 H3]].
          repeat split; auto; try discriminate. rewrite HI; auto. congruence.
      - intros x p Ex _. destruct (Nat.eq_dec x h).
        + subst x. rewrite HIh in Ex. inversion Ex; subst. rewrite HN. repeat split; auto; lia.
        + rewrite HI in Ex by auto. destruct (I x p Ex ltac:(discriminate)) as [I1 [I2 I3]].
          rewrite HP by lia. repeat split; auto; lia. }
    assert (O4: ord_up q4 (srq_num q)).
    { split.
      - intros p Hp Hne. unfold ok_at, prio. pose proof (parent_lt p ltac:(lia)).
        rewrite !HP by lia. apply O. lia.
      - intros c Hp Hc E. pose proof (parent_lt c ltac:(lia)). lia. }
    change (srq_num (set_hand q h)) with (srq_num q).
    destruct (rebalance_up_spec (S (srq_num q)) cap None q4 (srq_num q)) as [q5 [F1 [F2 F3]]];
      auto; try lia.
    fold q4. change (srq_num (set_hand q h)) with (srq_num q) in *.
    rewrite F1. exists q5, h. split; [auto|]. destruct F2 as [S1 S2 S3 S4 S5].
    split; [constructor; auto; rewrite S4; auto|].
    split; [auto|]. split; [unfold srq_get; now rewrite E3|].
    split; [rewrite S3 by discriminate; unfold srq_get; rewrite HIh, HN; reflexivity|].
    split; [|lia]. intros h' Hne. rewrite S3 by discriminate. unfold srq_get. rewrite HI by auto.
    destruct (srq_index q h') eqn:Eh; auto. destruct (I h' n0 Eh ltac:(discriminate)) as [_ [I2 _]].
    now rewrite HP.
Qed.

Lemma insert_full : forall cap q a g p, srq_num q = cap -> srq_insert cap q a g p = None.
Proof. intros. unfold srq_insert. now rewrite H, Nat.eqb_refl. Qed.

(** Root of an ordered heap is maximal. *)
Lemma root_max : forall q, ordered q -> forall p, p < srq_num q -> (prio q p <= prio q 0)%N.
Proof.
  intros q O p. induction p as [p IH] using lt_wf_ind. intros Hp.
  destruct (Nat.eq_dec p 0); [subst; lia|].
  pose proof (parent_lt p ltac:(lia)). pose proof (O p ltac:(lia)) as O1. unfold ok_at in O1.
  specialize (IH (srq_parent p) ltac:(lia) ltac:(lia)). lia.
Qed.

(** Removing position [pos] by moving the tail there; the removed handle [h]
    may or may not have been cleared before. *)
Lemma move_tail_spec : forall cap q pos h,
  wf cap q -> pos < srq_num q -> sd_idx (srq_heap q pos) = h ->
  let q1 := srq_move_tail_to_pos q pos in
  live_ok cap (Some h) q1 /\ srq_num q1 = srq_num q - 1 /\ srq_hand q1 = srq_hand q /\
  (forall x, x <> h -> srq_get q1 x = srq_get q x) /\
  (pos < srq_num q1 -> ord_hole q1 pos) /\
  (pos = srq_num q1 -> ordered q1).
Proof.
  intros cap q pos h W Hpos Eh q1. destruct W as [L O Hh]. destruct L as [C H I].
  assert (N1: srq_num q1 = srq_num q - 1).
  { unfold q1, srq_move_tail_to_pos. simpl. destruct (Nat.eqb (srq_num q - 1) 0); reflexivity. }
  set (t := srq_num q - 1) in *.
  assert (HPOS: t <> 0 -> srq_heap q1 pos = srq_heap q t).
  { intros. unfold q1, srq_move_tail_to_pos. simpl. fold t.
    destruct (Nat.eqb_spec t 0); [lia|]. simpl. apply fupd_eq. }
  assert (HOTH: forall p, p <> pos -> srq_heap q1 p = srq_heap q p).
  { intros. unfold q1, srq_move_tail_to_pos. simpl. fold t.
    destruct (Nat.eqb_spec t 0); [reflexivity|]. simpl. now apply fupd_neq. }
  assert (IDX: forall x, x <> sd_idx (srq_heap q t) -> srq_index q1 x = srq_index q x).
  { intros. unfold q1, srq_move_tail_to_pos. simpl. fold t.
    destruct (Nat.eqb_spec t 0); [reflexivity|]. simpl. rewrite fupd_eq. now apply fupd_neq. }
  assert (IDT: t <> 0 -> srq_index q1 (sd_idx (srq_heap q t)) = Some pos).
  { intros. unfold q1, srq_move_tail_to_pos. simpl. fold t.
    destruct (Nat.eqb_spec t 0); [lia|]. simpl. rewrite fupd_eq. apply fupd_eq. }
  destruct (H pos Hpos) as [P1 [P2 _]]. rewrite Eh in P1, P2.
  destruct (H t ltac:(unfold t; lia)) as [T1 [T2 _]].
  assert (DIFF: forall p, p < srq_num q -> p <> pos -> sd_idx (srq_heap q p) <> h).
  { intros p Hp Hne E. destruct (H p Hp) as [_ [X _]]. rewrite E in X. congruence. }
  split; [|split; [exact N1|split]].
  - constructor.
    + lia.
    + rewrite N1. intros p Hp. destruct (Nat.eq_dec p pos).
      * subst p. rewrite HPOS by lia. split; [auto|]. split; [apply IDT; lia|].
        intros E. inversion E. apply (DIFF t); try (unfold t; lia). auto.
      * rewrite HOTH by auto. destruct (H p ltac:(unfold t in *; lia)) as [X1 [X2 X3]].
        split; auto. split.
        { rewrite IDX; auto. intros E. rewrite E in X2. rewrite T2 in X2. inversion X2. lia. }
        intros E. inversion E. apply (DIFF p); auto. unfold t in Hp; lia.
    + intros x p Ex X. assert (x <> h) by congruence.
      destruct (Nat.eq_dec x (sd_idx (srq_heap q t))).
      * assert (pos <> t) by (intros ->; congruence).
        subst x. rewrite IDT in Ex by (unfold t in *; lia). inversion Ex; subst p.
        split; [auto|]. split; [unfold t in *; lia|]. rewrite HPOS; auto. unfold t in *; lia.
      * rewrite IDX in Ex by auto. destruct (I x p Ex ltac:(discriminate)) as [I1 [I2 I3]].
        assert (p <> t) by congruence. assert (p <> pos) by congruence.
        split; [auto|]. split; [unfold t in *; lia|]. rewrite HOTH; auto.
  - unfold q1, srq_move_tail_to_pos. simpl. destruct (Nat.eqb (srq_num q - 1) 0); reflexivity.
  - split; [|split].
    + intros x Hx. unfold srq_get. destruct (Nat.eq_dec x (sd_idx (srq_heap q t))).
      * subst x. assert (pos <> t) by (intros ->; congruence).
        rewrite IDT, T2 by (unfold t in *; lia). rewrite HPOS by (unfold t in *; lia). reflexivity.
      * rewrite IDX by auto. destruct (srq_index q x) eqn:Ex; auto.
        destruct (I x n0 Ex ltac:(discriminate)) as [I1 [I2 I3]].
        rewrite HOTH; auto. congruence.
    + rewrite N1. intros Hp. split.
      * rewrite N1. intros p Hr Hn1 Hn2. unfold ok_at, prio. rewrite !HOTH by auto.
        apply O. unfold t in *; lia.
      * unfold skip_ok. rewrite N1. intros c Hp0 Hc E. unfold prio.
        pose proof (parent_lt c ltac:(lia)). pose proof (parent_lt pos ltac:(lia)).
        rewrite !HOTH by lia.
        pose proof (O c ltac:(unfold t in *; lia)) as O1. unfold ok_at, prio in O1. rewrite E in O1.
        pose proof (O pos ltac:(lia)) as O2. unfold ok_at, prio in O2. lia.
    + rewrite N1. intros Hp p Hr. rewrite N1 in Hr. unfold ok_at, prio.
      pose proof (parent_lt p ltac:(lia)). rewrite !HOTH by lia. apply O. unfold t in *; lia.
Qed.

Lemma clear_handle : forall cap q h, live_ok cap (Some h) q -> ordered q -> srq_hand q < cap ->
  wf cap (set_index q h None) /\ srq_get (set_index q h None) h = None /\
  (forall x, x <> h -> srq_get (set_index q h None) x = srq_get q x).
Proof.
  intros cap q h [C H I] O Hh. split; [|split].
  - constructor; auto. constructor; simpl; auto.
    + intros p Hp. destruct (H p Hp) as [H1 [H2 H3]]. repeat split; auto; try discriminate.
      rewrite fupd_neq by congruence. auto.
    + intros x p Ex _. destruct (Nat.eq_dec x h).
      * subst. rewrite fupd_eq in Ex. discriminate.
      * rewrite fupd_neq in Ex by auto. apply I; congruence.
  - unfold srq_get. simpl. now rewrite fupd_eq.
  - intros. unfold srq_get. simpl. now rewrite fupd_neq.
Qed.

Lemma get_live : forall cap q h d, wf cap q -> srq_get q h = Some d ->
  exists p, p < srq_num q /\ srq_index q h = Some p /\ srq_heap q p = d /\ sd_idx d = h /\ h < cap.
Proof.
  intros cap q h d [L O Hh] E. destruct L as [C H I]. unfold srq_get in E.
  destruct (srq_index q h) eqn:Ei; inversion E; subst.
  destruct (I h n Ei ltac:(discriminate)) as [I1 [I2 I3]]. exists n. auto.
Qed.

Lemma extract_spec : forall cap q, wf cap q ->
  exists q' r, srq_extract_max q = Some (q', r) /\ wf cap q' /\
   match r with
   | None => (forall h, srq_get q h = None) /\ q' = q
   | Some d => srq_get q (sd_idx d) = Some d /\
               (forall h e, srq_get q h = Some e -> (sd_priority e <= sd_priority d)%N) /\
               srq_get q' (sd_idx d) = None /\
               (forall h, h <> sd_idx d -> srq_get q' h = srq_get q h)
   end.
Proof.
  intros cap q W. unfold srq_extract_max.
  destruct (Nat.eqb_spec (srq_num q) 0).
  - exists q, None. split; [auto|]. split; [auto|]. split; [|auto].
    intros h. destruct (srq_get q h) eqn:E; auto.
    destruct (get_live cap q h _ W E) as [p [Hp _]]. lia.
  - set (h := sd_idx (srq_heap q 0)).
    pose proof W as [L O Hh]. pose proof L as [C H I].
    destruct (H 0 ltac:(lia)) as [Z1 [Z2 _]]. fold h in Z1, Z2.
    (* clearing the index first commutes with moving the tail *)
    assert (Comm: let q2 := srq_move_tail_to_pos (set_index q h None) 0 in
       live_ok cap (Some h) q2 /\ srq_num q2 = srq_num q - 1 /\ srq_hand q2 = srq_hand q /\
       srq_index q2 h = None /\
       (forall x, x <> h -> srq_get q2 x = srq_get q x) /\ ord_down q2 0).
    { destruct (move_tail_spec cap q 0 h W ltac:(lia) eq_refl) as [M1 [M2 [M3 [M4 [M5 M6]]]]].
      set (q1 := srq_move_tail_to_pos q 0) in *.
      intros q2.
      assert (T: srq_num q - 1 <> 0 -> sd_idx (srq_heap q (srq_num q - 1)) <> h).
      { intros X E. destruct (H (srq_num q - 1) ltac:(lia)) as [_ [Y _]].
        rewrite E in Y. rewrite Z2 in Y. inversion Y. lia. }
      assert (EH: srq_heap q2 = srq_heap q1).
      { unfold q2, q1, srq_move_tail_to_pos. simpl. destruct (Nat.eqb (srq_num q - 1) 0); reflexivity. }
      assert (EN: srq_num q2 = srq_num q1).
      { unfold q2, q1, srq_move_tail_to_pos. simpl. destruct (Nat.eqb (srq_num q - 1) 0); reflexivity. }
      assert (EHD: srq_hand q2 = srq_hand q1).
      { unfold q2, q1, srq_move_tail_to_pos. simpl. destruct (Nat.eqb (srq_num q - 1) 0); reflexivity. }
      assert (EI: forall x, x <> h -> srq_index q2 x = srq_index q1 x).
      { intros x Hx. unfold q2, q1, srq_move_tail_to_pos. simpl.
        destruct (Nat.eqb (srq_num q - 1) 0); simpl; [now rewrite fupd_neq|].
        rewrite !fupd_eq. unfold fupd at 1 3. destruct (Nat.eqb_spec x (sd_idx (srq_heap q (srq_num q - 1)))); auto.
        now rewrite fupd_neq. }
      assert (EIh: srq_index q2 h = None).
      { unfold q2, srq_move_tail_to_pos. simpl.
        destruct (Nat.eqb_spec (srq_num q - 1) 0); simpl; [now rewrite fupd_eq|].
        rewrite !fupd_eq. rewrite fupd_neq by (intros X; symmetry in X; revert X; now apply T). apply fupd_eq. }
      split; [|split; [lia|split; [congruence|split; [exact EIh|split]]]].
      - destruct M1 as [A B D]. constructor.
        + lia.
        + rewrite EN. intros p Hp. rewrite EH. destruct (B p Hp) as [B1 [B2 B3]].
          repeat split; auto. rewrite EI by congruence. auto.
        + rewrite EN, EH. intros x p Ex X. rewrite EI in Ex by congruence. now apply D.
      - intros x Hx. rewrite <- M4 by auto. unfold srq_get. rewrite EI by auto. now rewrite EH.
      - destruct (Nat.eq_dec 0 (srq_num q1)) as [E0|E0].
        + apply ordered_down. intros p Hp. rewrite EN in Hp. lia.
        + destruct (M5 ltac:(lia)) as [MA MB]. split.
          * intros p Hp Hne. rewrite EN in Hp. unfold ok_at, prio. rewrite EH.
            apply MA; lia.
          * intros c Hc. lia. }
    destruct Comm as [A1 [A2 [A3 [A4 [A5 A6]]]]].
    set (q2 := srq_move_tail_to_pos (set_index q h None) 0) in *.
    destruct (rebalance_down_spec (S (srq_num q2)) cap (Some h) q2 0) as [q3 [R1 [R2 R3]]];
      auto; try lia.
    change (sd_idx (srq_heap q 0)) with h. fold q2. rewrite R1.
    exists q3, (Some (srq_heap q 0)). split; [auto|]. destruct R2 as [S1 S2 S3 S4 S5].
    fold h.
    assert (I3: srq_index q3 h = None) by (rewrite S5 by auto; auto).
    split; [|split; [|split; [|split]]].
    + constructor; auto; [|lia]. destruct S1 as [B1 B2 B3]. constructor; auto.
      * intros p Hp. destruct (B2 p Hp) as [X1 [X2 X3]]. repeat split; auto. discriminate.
      * intros x p Ex _. apply B3; auto. congruence.
    + unfold srq_get. now rewrite Z2.
    + intros x e Ex. destruct (get_live cap q x e W Ex) as [p [P1 [P2 [P3 _]]]].
      subst e. apply root_max; auto.
    + unfold srq_get. now rewrite I3.
    + intros x Hx. rewrite S3 by congruence. auto.
Qed.

Lemma delete_spec : forall cap q h d, wf cap q -> srq_get q h = Some d ->
  exists q', srq_delete q h = Some (q', d) /\ wf cap q' /\ srq_get q' h = None /\
             (forall x, x <> h -> srq_get q' x = srq_get q x).
Proof.
  intros cap q h d W E. destruct (get_live cap q h d W E) as [pos [Hp [Hi [Hd [Hx Hc]]]]].
  unfold srq_delete. rewrite Hi.
  assert (EI: sd_idx (srq_heap q pos) = h) by congruence.
  destruct (move_tail_spec cap q pos h W Hp EI) as [M1 [M2 [M3 [M4 [M5 M6]]]]].
  set (q1 := srq_move_tail_to_pos q pos) in *. destruct W as [L O Hh].
  destruct (Nat.eqb_spec pos (srq_num q1)) as [Ez|Ez].
  - destruct (clear_handle cap q1 h M1 (M6 Ez) ltac:(lia)) as [K1 [K2 K3]].
    exists (set_index q1 h None). rewrite Hd. split; [auto|]. split; [exact K1|]. split; [exact K2|].
    intros x Hne. rewrite K3 by auto. auto.
  - destruct (rebalance_up_hole cap (Some h) q1 pos) as [q2 [U1 [U2 U3]]]; auto; try lia.
    { apply M5. lia. }
    rewrite U1. destruct U2 as [S1 S2 S3 S4 S5].
    destruct (rebalance_down_spec (S (srq_num q2)) cap (Some h) q2 pos) as [q3 [R1 [R2 R3]]];
      auto; try lia.
    rewrite R1. destruct R2 as [T1 T2 T3 T4 T5].
    destruct (clear_handle cap q3 h T1 R3 ltac:(lia)) as [K1 [K2 K3]].
    exists (set_index q3 h None). rewrite Hd. split; [auto|]. split; [exact K1|]. split; [exact K2|].
    intros x Hne. rewrite K3, T3, S3, M4; auto; congruence.
Qed.

Lemma update_spec : forall cap q h d pr, wf cap q -> srq_get q h = Some d ->
  exists q', srq_update q h pr = Some q' /\ wf cap q' /\
    srq_get q' h = Some (SrqData (sd_addr d) (sd_generation d) (pr mod 2 ^ 32)%N h) /\
    (forall x, x <> h -> srq_get q' x = srq_get q x).
Proof.
  intros cap q h d pr W E. destruct (get_live cap q h d W E) as [pos [Hp [Hi [Hd [Hx Hc]]]]].
  unfold srq_update. rewrite Hi, Hd.
  set (e := SrqData (sd_addr d) (sd_generation d) (pr mod 2 ^ 32)%N (sd_idx d)).
  set (q1 := set_heap q pos e). destruct W as [L O Hh]. destruct L as [C H I].
  assert (HPOS: srq_heap q1 pos = e) by (simpl; apply fupd_eq).
  assert (HOTH: forall p, p <> pos -> srq_heap q1 p = srq_heap q p)
    by (intros; simpl; now apply fupd_neq).
  assert (ID: forall p, sd_idx (srq_heap q1 p) = sd_idx (srq_heap q p)).
  { intros p. destruct (Nat.eq_dec p pos); [subst p; rewrite HPOS, Hd; reflexivity|now rewrite HOTH]. }
  assert (L1: live_ok cap None q1).
  { constructor; auto.
    - intros p Hpp. rewrite ID. now apply H.
    - intros x p Ex X. rewrite ID. now apply I. }
  assert (O1: ord_hole q1 pos).
  { split.
    - intros p Hr Hn1 Hn2. unfold ok_at, prio. rewrite !HOTH by auto. now apply O.
    - intros c Hp0 Hcc Ec. simpl in Hcc. unfold prio. pose proof (parent_lt c ltac:(lia)).
      pose proof (parent_lt pos ltac:(lia)). rewrite !HOTH by lia.
      pose proof (O c Hcc) as Q1. unfold ok_at, prio in Q1. rewrite Ec in Q1.
      pose proof (O pos ltac:(lia)) as Q2. unfold ok_at, prio in Q2. lia. }
  destruct (rebalance_up_hole cap None q1 pos) as [q2 [U1 [U2 U3]]]; auto.
  rewrite U1. destruct U2 as [S1 S2 S3 S4 S5].
  destruct (rebalance_down_spec (S (srq_num q2)) cap None q2 pos) as [q3 [R1 [R2 R3]]];
    auto; try lia.
  rewrite R1. destruct R2 as [T1 T2 T3 T4 T5]. exists q3. split; auto.
  split; [constructor; auto; simpl in S4; lia|]. split.
  - rewrite T3, S3 by discriminate. unfold srq_get. simpl. rewrite Hi, fupd_eq.
    unfold e. now rewrite Hx.
  - intros x Hne. rewrite T3, S3 by discriminate. unfold srq_get. simpl.
    destruct (srq_index q x) eqn:Ex; auto. rewrite fupd_neq; auto.
    destruct (I x n Ex ltac:(discriminate)) as [_ [_ I3]]. congruence.
Qed.
