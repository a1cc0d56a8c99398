(** * C43: the asynchronous lookup in the trunk

    /repo/src/trunk.c:7033-7597, against the synchronous lookup of TrunkTree.v.
    The sequence of outcomes of the requests for pages is arbitrary except as far
    as the root is concerned; the refutations at the end say why. *)

From Coq Require Import List Arith NArith ZArith Lia Bool.
From Verif Require Import Base Spec Spec_Merge Witness Search Merge TrunkNode TrunkTree TrunkKeys TrunkInv TrunkInvMem TrunkLegal Prop_Trunk.
From Verif Require Import Async AsyncSpec AsyncProofs AsyncTrunk.
Import ListNotations.
Local Open Scope nat_scope.

Section Async.
Variables (M mp : nat) (cfg : data_config) (hash : bytes -> N) (bh : branch -> nat).
Hypothesis TO : total_order (key_compare cfg).
Hypothesis LM : lawful_merge cfg.
Hypothesis Hmp : mp <= MAX_PIVOTS.
Hypothesis M0 : 0 < M.
Hypothesis Hmp2 : 2 <= mp.

(** A database that has been written to in any way, with background work at any
    stage *)
Definition reached (l : list step) (st : state) : Prop :=
  run M mp cfg hash init l = Some st /\ guarded M mp cfg hash init l = true /\
  Forall (fun e => msg_allowed cfg (snd e)) (writes l).
Lemma reached_sync : forall l st k, reached l st -> exists a, lookup M cfg hash st k = Some a.
Proof using TO LM Hmp M0 Hmp2.
  intros l st k (R & G & A). destruct (reach_inv M mp cfg hash TO LM Hmp M0 Hmp2 l st G A R) as [I _].
  destruct (lookup_content M mp cfg hash TO LM Hmp M0 Hmp2 st k I) as (a & E & _). exists a. exact E.
Qed.
Lemma reached_root : forall l st k n a0 o, reached l st -> fit M cfg hash k (height_of st) (st_tree st) = true ->
  (forall j, j < n -> o j = Busy) -> o n = Got ->
  (forall fuel x, lookup_async M cfg hash bh st k a0 fuel o = Some x -> x = again M cfg hash st k n 0 None) /\
  (fair o -> exists fuel, lookup_async M cfg hash bh st k a0 fuel o = Some (again M cfg hash st k n 0 None)).
Proof using TO LM Hmp M0 Hmp2.
  intros l st k n a0 o (R & G & A) F Hb Hg. destruct (reach_inv M mp cfg hash TO LM Hmp M0 Hmp2 l st G A R) as [I _].
  apply (async_root M mp cfg hash bh st k TO (i_wf _ _ _ _ _ I) F n a0 o Hb Hg).
Qed.

(** Full statement: whatever the outcomes of the requests, the lookup ends with the
    result of the synchronous lookup and holds nothing.  Missing: the requests for
    the root (here it is there at once), and [fit]. *)
Theorem C43_async_is_sync_partial : forall l st k a0 o fuel x,
  reached l st -> fit M cfg hash k (height_of st) (st_tree st) = true -> o 0 = Got ->
  lookup_async M cfg hash bh st k a0 fuel o = Some x ->
  exists a, lookup M cfg hash st k = Some a /\ x = Some (a, 0, 0).
Proof using TO LM Hmp M0 Hmp2.
  intros l st k a0 o fuel x R F Hg H. destruct (reached_sync l st k R) as [a E]. exists a. split; [exact E|].
  destruct (reached_root l st k 0 a0 o R F ltac:(intros; lia) Hg) as [H1 _]. rewrite (H1 _ _ H), again_once, E. reflexivity.
Qed.
(** It ends, if requests are not refused for ever; and it reports what has been
    written. *)
Theorem C43_async_ends_partial : forall l st k a0 o,
  reached l st -> fit M cfg hash k (height_of st) (st_tree st) = true -> o 0 = Got -> fair o ->
  exists fuel a, lookup_async M cfg hash bh st k a0 fuel o = Some (Some (a, 0, 0)) /\
    lookup M cfg hash st k = Some a /\ reports (Some a) (dictionary cfg (writes l) k).
Proof using TO LM Hmp M0 Hmp2.
  intros l st k a0 o R F Hg Fo. destruct (reached_sync l st k R) as [a E].
  destruct (reached_root l st k 0 a0 o R F ltac:(intros; lia) Hg) as [_ H2]. destruct (H2 Fo) as [fuel H]. exists fuel, a.
  rewrite H, again_once, E. split; [reflexivity|]. split; [reflexivity|]. destruct R as (R & G & A). rewrite <- E.
  apply (C01_lookup_follows_history_partial M mp cfg hash TO LM Hmp M0 Hmp2 l st k R G A).
Qed.

(** The newest memtable has an insert or a delete of the key: no request is made at
    all, so any outcomes will do. *)
Theorem C43_async_in_memtable : forall st k b r m a0 o fuel,
  st_mts st = b :: r -> find_tuple cfg b k = Some m -> m_class m <> MUpdate ->
  lookup_async M cfg hash bh st k a0 (3 + fuel) o = Some (option_map (fun a => (a, 0, 0)) (lookup M cfg hash st k)) /\
  lookup M cfg hash st k = Some (match m_class m with MDelete => None | _ => Some m end).
Proof using.
  intros st k b r m a0 o fuel E Hm Hc.
  assert (D : is_definitive m = true) by (unfold is_definitive; destruct (m_class m); congruence).
  assert (L : mts_lookup cfg (st_mts st) k None = Some (Some m, false)).
  { rewrite E. cbn [mts_lookup]. unfold lookup_and_merge. rewrite Hm. cbn [acc_definitive]. rewrite D. reflexivity. }
  unfold lookup. rewrite L. rewrite start_same. cbn [Nat.add drive]. unfold turn at 1, mem_turn.
  cbn [c_state c_acc set_mt c_mt]. rewrite L. cbn. destruct (m_class m); split; reflexivity.
Qed.

(** The root is not to be had [n] times: if the key is in no memtable the result is
    right, but the memtables' lock is held [n] times over. *)
Theorem C43_busy_root_leaks_partial : forall l st k n a0 o,
  reached l st -> fit M cfg hash k (height_of st) (st_tree st) = true ->
  Forall (fun b => forall e, In e b -> key_compare cfg (fst e) k <> 0%Z) (st_mts st) ->
  (forall j, j < n -> o j = Busy) -> o n = Got ->
  exists a, lookup M cfg hash st k = Some a /\
    (forall fuel x, lookup_async M cfg hash bh st k a0 fuel o = Some x -> x = Some (a, n, 0)) /\
    (fair o -> exists fuel, lookup_async M cfg hash bh st k a0 fuel o = Some (Some (a, n, 0))).
Proof using TO LM Hmp M0 Hmp2.
  intros l st k n a0 o R F Ab Hb Hg. destruct (reached_sync l st k R) as [a E]. exists a. split; [exact E|].
  assert (Ab' : Forall (fun b => find_tuple cfg b k = None) (st_mts st)).
  { eapply Forall_impl; [|exact Ab]. intros b Hn. unfold find_tuple. destruct (find _ b) as [e|] eqn:Ef; auto.
    apply find_some in Ef. destruct Ef as [I Ee]. apply Z.eqb_eq in Ee. exfalso. exact (Hn e I Ee). }
  destruct (reached_root l st k n a0 o R F Hb Hg) as [H1 H2].
  rewrite (again_absent M cfg hash st k Ab' n 0), E, Nat.add_0_r in H1, H2. cbn [option_map] in H1, H2. auto.
Qed.

(** The root has to be read from disk: the process dies. *)
Theorem C43_root_from_disk_refuted : forall st k n a0 o fuel,
  Forall (fun b => forall e, In e b -> key_compare cfg (fst e) k <> 0%Z) (st_mts st) ->
  (forall j, j < n -> o j = Busy) -> o n = Started ->
  lookup_async M cfg hash bh st k a0 (S (S n) + fuel) o = Some None.
Proof using.
  intros st k n a0 o fuel Ab Hb Hg. apply root_io_dead; auto.
  eapply Forall_impl; [|exact Ab]. intros b Hn. unfold find_tuple. destruct (find _ b) as [e|] eqn:Ef; auto.
  apply find_some in Ef. destruct Ef as [I Ee]. apply Z.eqb_eq in Ee. exfalso. exact (Hn e I Ee).
Qed.

End Async.

(** ** A run of ten leaves and height 2, with a compaction under way *)

Definition pattern (i : nat) : ev := match i mod 3 with 0 => Got | 1 => Busy | _ => Started end.
Lemma pattern_fair : fair pattern.
Proof.
  intro i. exists (3 * i). split; [lia|]. unfold pattern. rewrite Nat.mul_comm, Nat.mod_mul by lia. discriminate.
Qed.
Definition bh0 (b : branch) : nat := length b.
Definition both (l : list step) (k : nat) (o : nat -> ev) : option (bool * option acc * option (option (acc * nat * nat))) :=
  match run1 l with
  | Some st => Some (fit 64 append_cfg hb [N.of_nat k] (height_of st) (st_tree st),
                     lookup 64 append_cfg hb st [N.of_nat k],
                     lookup_async 64 append_cfg hb bh0 st [N.of_nat k] None 300 o)
  | None => None
  end.
Definition val (l : list N) : acc := Some (Msg MInsert l).
Example C43_mixed : guarded1 mixed = true /\
  map (fun k => both mixed k pattern) [1; 6; 7] =
  map (fun a => Some (true, Some a, Some (Some (a, 0, 0)))) [val [100; 200]%N; val [100%N]; None].
Proof. vm_compute. split; reflexivity. Qed.
Example C43_mixed_all : forall st k, run1 mixed = Some st -> fit 64 append_cfg hb k (height_of st) (st_tree st) = true ->
  exists fuel a, lookup_async 64 append_cfg hb bh0 st k None fuel pattern = Some (Some (a, 0, 0)) /\
    lookup 64 append_cfg hb st k = Some a /\ reports (Some a) (dictionary append_cfg (writes mixed) k).
Proof.
  assert (G : guarded 64 14 append_cfg hb init mixed = true) by (vm_compute; reflexivity).
  assert (H20 : 14 <= MAX_PIVOTS) by (apply Nat.leb_le; vm_compute; reflexivity).
  revert G. generalize mixed as l. intros l G st k R F.
  apply (C43_async_ends_partial 64 14 append_cfg hb bh0 lex_compare_total append_cfg_lawful H20 ltac:(lia) ltac:(lia) l st k None pattern); auto.
  - repeat split; auto. apply Forall_forall. intros. apply append_cfg_allowed.
  - apply pattern_fair.
Qed.

(** ** What goes wrong *)

(** trunk.c:7172-7199 leaves the state at async_state_lookup_memtable while the root
    is asked for.  If another thread has the root locked, the next call looks the
    key up in the memtables again, into the same accumulator: an update is merged
    twice.  And the lock on the memtables' generation is taken twice and released
    once. *)
Definition busy_once (i : nat) : ev := match i with 0 => Busy | _ => Got end.
Definition updated : list step := setup ++ [upd 1 200].
Theorem C43_busy_root_merges_twice_refuted : guarded1 updated = true /\
  both updated 1 (fun _ => Got) = Some (true, Some (val [100; 200]%N), Some (Some (val [100; 200]%N, 0, 0))) /\
  both updated 1 busy_once = Some (true, Some (val [100; 200]%N), Some (Some (val [100; 200; 200]%N, 1, 0))).
Proof. vm_compute. repeat split; reflexivity. Qed.

(** 7064: the callback then takes the root for a child and moves to
    async_state_unget_parent_trunk_node_reentrant with no parent. *)
Theorem C43_root_from_disk_example : guarded1 mixed = true /\
  both mixed 1 (fun i => match i with 0 => Started | _ => Got end) = Some (true, Some (val [100; 200]%N), Some None).
Proof. vm_compute. split; reflexivity. Qed.

(** 7280-7281: a subbundle that came with a flush but has no tuples for the pivot's
    range has an empty filter, which the synchronous lookup takes for "not found".
    The asynchronous one asserts that it has an address.  A leaf from 3 on has been
    sent a branch with the key 1 only. *)
Definition two_leaves : list step := map (fun i => ins i 100) (seq 1 4) ++
  [Rotate; Incorporate; BuildStep 0; InstallStep 0; Flush 0 KNegInf; SplitLeaf 0 KNegInf [[3%N]]].
Definition empty_filter : list step :=
  two_leaves ++ [ins 1 7; Rotate; Incorporate; BuildStep 0; InstallStep 0; Flush 0 (KUser [3%N])].
Theorem C43_empty_filter_refuted : guarded1 empty_filter = true /\
  both empty_filter 3 (fun _ => Got) = Some (false, Some (val [100%N]), Some None).
Proof. vm_compute. split; reflexivity. Qed.

(** 7372-7374: the branch number is taken modulo the size of the array and then
    overwritten with the plain sum.  After 32 rounds the index node has its
    branches at the last and the first place of the array; a key of the second is
    looked for beyond the end. *)
Definition one_memtable (i : nat) : list step := [ins i 7; Rotate; Incorporate; BuildStep 0; InstallStep 0].
Definition to_leaf (b : nat) : list step :=
  [Flush 0 KNegInf; Flush 1 KNegInf; Compact 2 KNegInf b; ReplaceStep 0; BuildStep 0; InstallStep 0].
Definition wrapped : list step :=
  [GrowRoot] ++ one_memtable 1 ++ to_leaf 0 ++
  flat_map (fun i => one_memtable 1 ++ one_memtable 2 ++ to_leaf (S i mod 12)) (seq 0 31) ++
  one_memtable 1 ++ one_memtable 2 ++ [Flush 0 KNegInf].
Theorem C43_wrapped_branch_refuted : guarded1 wrapped = true /\
  both wrapped 1 (fun _ => Got) = Some (true, Some (val [7%N]), Some (Some (val [7%N], 0, 0))) /\
  both wrapped 2 (fun _ => Got) = Some (false, Some (val [7%N]), Some None).
Proof. vm_compute. repeat split; reflexivity. Qed.

Print Assumptions C43_async_is_sync_partial.
Print Assumptions C43_async_ends_partial.
Print Assumptions C43_async_in_memtable.
Print Assumptions C43_busy_root_leaks_partial.
Print Assumptions C43_root_from_disk_refuted.
Print Assumptions C43_root_from_disk_example.
Print Assumptions C43_busy_root_merges_twice_refuted.
Print Assumptions C43_empty_filter_refuted.
Print Assumptions C43_wrapped_branch_refuted.
