(** * C01, C02, C16, C17, C18: the trunk as a dictionary

    /repo/src/trunk.c.  The model of the trunk is TrunkNode.v and TrunkTree.v.
    A run is a sequence of writes and background steps in any order; [guarded]
    (TrunkLegal.v) says when each step is within the conditions that the
    invariant needs.  The conditions which the code does not establish are the
    subject of the refutations at the end. *)

From Coq Require Import List Arith NArith ZArith Lia Bool.
From Verif Require Import Base Spec Spec_Merge Witness Search Merge TrunkNode TrunkTree TrunkKeys TrunkInv TrunkInvMem TrunkLegal.
Import ListNotations.
Local Open Scope nat_scope.

(** ** The dictionary a database is compared with *)

(** One write changes one key. *)
Definition written (cfg : data_config) (d : bytes -> option bytes) (e : bytes * message) : bytes -> option bytes :=
  fun x => if bytes_eq_dec x (fst e) then apply_msg cfg x (snd e) (d x) else d x.
(** The dictionary after the writes, oldest first *)
Definition dictionary (cfg : data_config) (ws : list (bytes * message)) : bytes -> option bytes :=
  fold_left (written cfg) ws (fun _ => None).

(** What splinterdb_lookup reports (C30): the value if the lookup found one *)
Definition reports (r : option acc) (v : option bytes) : Prop :=
  exists a, r = Some a /\ (forall m, a = Some m -> m_class m = MInsert) /\ option_map m_data a = v.

Lemma dictionary_replay : forall cfg ws x, dictionary cfg ws x = replay cfg x (source_messages x ws) None.
Proof.
  intros cfg ws x. unfold dictionary.
  enough (H : forall d v, d x = v -> fold_left (written cfg) ws d x = replay cfg x (source_messages x ws) v) by (apply H; reflexivity).
  induction ws as [|[k m] ws IH]; intros d v E; [exact E|]. cbn [fold_left]. cbn [source_messages].
  destruct (bytes_eq_dec x k) as [->|N].
  - unfold replay. cbn [fold_left]. apply IH. unfold written. cbn [fst snd]. destruct (bytes_eq_dec k k); [rewrite E; reflexivity | congruence].
  - apply IH. unfold written. cbn [fst]. destruct (bytes_eq_dec x k); [congruence | exact E].
Qed.

Section Trunk.
Variables (M mp : nat) (cfg : data_config) (hash : bytes -> N).
Hypothesis TO : total_order (key_compare cfg).
Hypothesis LM : lawful_merge cfg.
Hypothesis Hmp : mp <= MAX_PIVOTS.
Hypothesis M0 : 0 < M.
Hypothesis Hmp2 : 2 <= mp.

(** ** C01 *)

(** Full statement: the same without [guarded] (refuted below). *)
Theorem C01_lookup_follows_history_partial : forall l st k,
  run M mp cfg hash init l = Some st ->
  guarded M mp cfg hash init l = true ->
  Forall (fun e => msg_allowed cfg (snd e)) (writes l) ->
  reports (lookup M cfg hash st k) (dictionary cfg (writes l) k).
Proof using TO LM Hmp M0 Hmp2.
  intros l st k R G A. destruct (reach_inv M mp cfg hash TO LM Hmp M0 Hmp2 l st G A R) as [I C].
  destruct (lookup_content M mp cfg hash TO LM Hmp M0 Hmp2 st k I) as (r & E1 & E2 & E3). exists r. rewrite dictionary_replay, <- C. auto.
Qed.

(** Background work alone never changes what is looked up: any run continued by
    any run without writes. *)
Theorem C01_background_invisible_partial : forall l l' st st' k,
  run M mp cfg hash init l = Some st -> run M mp cfg hash st l' = Some st' ->
  guarded M mp cfg hash init l = true -> guarded M mp cfg hash st l' = true ->
  Forall (fun e => msg_allowed cfg (snd e)) (writes l) -> writes l' = [] ->
  exists v, reports (lookup M cfg hash st k) v /\ reports (lookup M cfg hash st' k) v.
Proof using TO LM Hmp M0 Hmp2.
  intros l l' st st' k R R' G G' A W. destruct (reach_inv M mp cfg hash TO LM Hmp M0 Hmp2 l st G A R) as [I C].
  destruct (run_inv M mp cfg hash TO LM Hmp M0 Hmp2 l' st st' I G') as [I' C']; [rewrite W; constructor | exact R'|].
  destruct (lookup_content M mp cfg hash TO LM Hmp M0 Hmp2 st k I) as (r & E1 & E2 & E3). destruct (lookup_content M mp cfg hash TO LM Hmp M0 Hmp2 st' k I') as (r' & E1' & E2' & E3').
  exists (content M cfg st k). split; [exists r; auto|]. exists r'. split; [auto|]. split; [auto|]. rewrite E3', C', W. reflexivity.
Qed.

(** ** C02 *)

(** A write and all the background work done around it *)
Theorem C02_other_keys_undisturbed_partial : forall l l' st st' k k',
  run M mp cfg hash init l = Some st -> run M mp cfg hash st l' = Some st' ->
  guarded M mp cfg hash init l = true -> guarded M mp cfg hash st l' = true ->
  Forall (fun e => msg_allowed cfg (snd e)) (writes l ++ writes l') ->
  Forall (fun e => fst e = k) (writes l') -> key_compare cfg k k' <> 0%Z ->
  exists v, reports (lookup M cfg hash st k') v /\ reports (lookup M cfg hash st' k') v.
Proof using TO LM Hmp M0 Hmp2.
  intros l l' st st' k k' R R' G G' A W N. apply Forall_app in A. destruct A as [A A'].
  destruct (reach_inv M mp cfg hash TO LM Hmp M0 Hmp2 l st G A R) as [I C]. destruct (run_inv M mp cfg hash TO LM Hmp M0 Hmp2 l' st st' I G' A' R') as [I' C'].
  assert (Z : source_messages k' (writes l') = []).
  { assert (k <> k') by (intros ->; apply N; apply (to_eq _ TO); reflexivity). clear - W H.
    induction (writes l') as [|[a m] r IH]; [reflexivity|]. inversion W as [|? ? E W']; subst. cbn [source_messages fst] in *. destruct (bytes_eq_dec k' a); [congruence | apply IH; exact W']. }
  destruct (lookup_content M mp cfg hash TO LM Hmp M0 Hmp2 st k' I) as (r & E1 & E2 & E3). destruct (lookup_content M mp cfg hash TO LM Hmp M0 Hmp2 st' k' I') as (r' & E1' & E2' & E3').
  exists (content M cfg st k'). split; [exists r; auto|]. exists r'. split; [auto|]. split; [auto|]. rewrite E3', C', Z. reflexivity.
Qed.

(** ** C16, C17, C18: one step *)

Lemma step_invisible : forall l st s st', run M mp cfg hash init l = Some st -> guarded M mp cfg hash init l = true ->
  Forall (fun e => msg_allowed cfg (snd e)) (writes l) -> guard M cfg st s = true -> exec M mp cfg hash st s = Some st' -> writes [s] = [] ->
  inv M mp cfg hash st' /\ forall k, exists v, reports (lookup M cfg hash st k) v /\ reports (lookup M cfg hash st' k) v.
Proof using TO LM Hmp M0 Hmp2.
  intros l st s st' R G A Gs E W. destruct (reach_inv M mp cfg hash TO LM Hmp M0 Hmp2 l st G A R) as [I C].
  destruct (exec_inv M mp cfg hash TO LM Hmp M0 Hmp2 st s st' I Gs) as [I' C']; [intros k m ->; discriminate | exact E|]. split; [exact I'|]. intro k.
  destruct (lookup_content M mp cfg hash TO LM Hmp M0 Hmp2 st k I) as (r & E1 & E2 & E3). destruct (lookup_content M mp cfg hash TO LM Hmp M0 Hmp2 st' k I') as (r' & E1' & E2' & E3').
  exists (content M cfg st k). split; [exists r; auto|]. exists r'. split; [auto|]. split; [auto|]. rewrite E3', C', W. reflexivity.
Qed.

Theorem C16_flush_preserves_partial : forall l st d target st' k,
  run M mp cfg hash init l = Some st -> guarded M mp cfg hash init l = true ->
  Forall (fun e => msg_allowed cfg (snd e)) (writes l) ->
  guard M cfg st (Flush d target) = true -> exec M mp cfg hash st (Flush d target) = Some st' ->
  exists v, reports (lookup M cfg hash st k) v /\ reports (lookup M cfg hash st' k) v.
Proof using TO LM Hmp M0 Hmp2. intros. eapply step_invisible; eauto. Qed.

(** Every step of a compaction: the merge, the replacement in one node, the
    filters. *)
Theorem C17_compaction_preserves_partial : forall l st s st' k,
  run M mp cfg hash init l = Some st -> guarded M mp cfg hash init l = true ->
  Forall (fun e => msg_allowed cfg (snd e)) (writes l) ->
  match s with Compact _ _ _ | ReplaceStep _ | BuildStep _ | InstallStep _ => True | _ => False end ->
  guard M cfg st s = true -> exec M mp cfg hash st s = Some st' ->
  exists v, reports (lookup M cfg hash st k) v /\ reports (lookup M cfg hash st' k) v.
Proof using TO LM Hmp M0 Hmp2. intros l st s st' k R G A Hs Gs E. eapply step_invisible; eauto. destruct s; try reflexivity; contradiction. Qed.

(** A split also leaves every key in the range of exactly one leaf, the one to
    which it is routed. *)
Theorem C18_split_preserves_partial : forall l st s st' k,
  run M mp cfg hash init l = Some st -> guarded M mp cfg hash init l = true ->
  Forall (fun e => msg_allowed cfg (snd e)) (writes l) ->
  match s with SplitLeaf _ _ _ | SplitIndex _ _ | GrowRoot => True | _ => False end ->
  guard M cfg st s = true -> exec M mp cfg hash st s = Some st' ->
  (exists v, reports (lookup M cfg hash st k) v /\ reports (lookup M cfg hash st' k) v) /\
  exists i lo hi t, nth_error (leaf_ranges (height_of st') (st_tree st')) i = Some (lo, hi) /\
    (data_key_compare cfg lo (KUser k) <= 0)%Z /\ (data_key_compare cfg (KUser k) hi < 0)%Z /\
    subtree_at cfg (height_of st') (KUser k) (st_tree st') = Some t /\ min_key (t_node t) = lo /\ max_key (t_node t) = hi /\
    forall i' lo' hi', nth_error (leaf_ranges (height_of st') (st_tree st')) i' = Some (lo', hi') ->
      (data_key_compare cfg lo' (KUser k) <= 0)%Z -> (data_key_compare cfg (KUser k) hi' < 0)%Z -> i' = i.
Proof using TO LM Hmp M0 Hmp2.
  intros l st s st' k R G A Hs Gs E. destruct (step_invisible l st s st' R G A Gs E) as [I H]; [destruct s; try reflexivity; contradiction|].
  split; [apply H|]. exact (leaf_unique M mp cfg hash TO LM Hmp M0 Hmp2 st' (KUser k) I (klt_pos_inf cfg k)).
Qed.
End Trunk.

(** ** Runs that meet the hypotheses *)

(** A hash that keeps the keys apart *)
Definition hb (b : bytes) : N := fold_left (fun a x => (a * 256 + x)%N) b 1%N.
Definition ins (k v : nat) : step := Insert [N.of_nat k] (Msg MInsert [N.of_nat v]).
Definition upd (k v : nat) : step := Insert [N.of_nat k] (Msg MUpdate [N.of_nat v]).
Definition del (k : nat) : step := Insert [N.of_nat k] (Msg MDelete []).
Definition run1 := run 64 14 append_cfg hb init.
Definition guarded1 := guarded 64 14 append_cfg hb init.
(** What lookups of the keys [1..n] find *)
Definition found (n : nat) (l : list step) : option (list (option (list N))) :=
  match run1 l with
  | Some st => Some (map (fun k => match lookup 64 append_cfg hb st [N.of_nat k] with
                                   | Some (Some m) => Some (m_data m)
                                   | _ => None
                                   end) (seq 1 n))
  | None => None
  end.

(** Ten leaves under two index nodes *)
Definition setup : list step :=
  map (fun i => ins i 100) (seq 1 10) ++
  [Rotate; Incorporate; BuildStep 0; InstallStep 0; Flush 0 KNegInf;
   SplitLeaf 0 KNegInf (map (fun i => [N.of_nat i]) (seq 2 9)); GrowRoot; SplitIndex 0 KNegInf].
(** Updates and a delete in a second memtable, flushed, compacted, flushed again
    while the filters are being built *)
Definition second (ws : list step) : list step :=
  ws ++ [Rotate; Incorporate; BuildStep 0; InstallStep 0; Flush 0 KNegInf; Compact 1 KNegInf 1].
Definition mixed : list step := setup ++ second (map (fun i => upd i 200) (seq 1 5) ++ [del 7]) ++ [ReplaceStep 0; BuildStep 0; Flush 1 KNegInf].

Example mixed_run : guarded1 mixed = true /\
  found 11 mixed = Some (repeat (Some [100; 200]%N) 5 ++ [Some [100%N]; None; Some [100%N]; Some [100%N]; Some [100%N]; None]) /\
  match run1 mixed with
  | Some st => height_of st = 2 /\ length (leaf_ranges 2 (st_tree st)) = 10 /\ length (st_jobs st) = 1
  | None => False
  end.
Proof. vm_compute. repeat split; reflexivity. Qed.
Example mixed_dictionary :
  map (dictionary append_cfg (writes mixed)) (map (fun k => [N.of_nat k]) (seq 1 11)) =
  repeat (Some [100; 200]%N) 5 ++ [Some [100%N]; None; Some [100%N]; Some [100%N]; Some [100%N]; None].
Proof. vm_compute. reflexivity. Qed.
Example mixed_reports : forall st k, run 64 14 append_cfg hb init mixed = Some st ->
  reports (lookup 64 append_cfg hb st k) (dictionary append_cfg (writes mixed) k).
Proof.
  assert (G : guarded 64 14 append_cfg hb init mixed = true) by (vm_compute; reflexivity).
  assert (H20 : 14 <= MAX_PIVOTS) by (apply Nat.leb_le; vm_compute; reflexivity).
  revert G. generalize mixed as l. intros l G st k R.
  apply (C01_lookup_follows_history_partial 64 14 append_cfg hb lex_compare_total append_cfg_lawful H20 ltac:(lia) ltac:(lia) l st k R G).
  apply Forall_forall. intros. apply append_cfg_allowed.
Qed.
(** The steps of C16, C17 and C18 in the middle of that run *)
Example mixed_steps : forall n s, In (n, s) [(14, Flush 0 KNegInf); (16, GrowRoot); (17, SplitIndex 0 KNegInf); (28, Flush 0 KNegInf); (29, Compact 1 KNegInf 1); (30, ReplaceStep 0); (31, BuildStep 0); (32, Flush 1 KNegInf)] ->
  nth_error mixed n = Some s /\
  match run1 (firstn n mixed) with
  | Some st => guard 64 append_cfg st s = true /\ exec 64 14 append_cfg hb st s <> None
  | None => False
  end.
Proof.
  intros n s H. repeat (destruct H as [H|H]; [injection H as <- <-; split; [vm_compute; reflexivity | vm_compute; split; [reflexivity | discriminate]]|]). destruct H.
Qed.

(** ** Refutations: what the conditions in [guard] keep out

    Each run below is within the conditions up to the marked step, all the writes
    are allowed, and the configuration is lawful. *)

(** 4083-4100, 4102-4157: the fingerprints of the pivots are taken from the
    output of the compaction at offsets that count only the pivots for which the
    bundle was still live when it was replaced.  A flush between the merge and the
    replacement makes the offsets wrong: the filters get the fingerprints of other
    keys, and lookups miss the newest values. *)
Definition offset_before : list step := setup ++ second (map (fun i => ins i 200) (seq 1 10)).
Definition offset_after : list step := offset_before ++ [Flush 1 KNegInf; ReplaceStep 0; BuildStep 0; InstallStep 0].
Theorem C17_flush_during_compaction_refuted :
  guarded1 offset_before = true /\ writes offset_after = writes offset_before /\
  found 10 offset_before = Some (repeat (Some [200%N]) 10) /\
  found 10 offset_after = Some (Some [200%N] :: repeat (Some [100%N]) 4 ++ repeat (Some [200%N]) 5).
Proof. vm_compute. repeat split; reflexivity. Qed.

Theorem C01_lookup_follows_history_refuted :
  ~ forall l st k, run1 l = Some st -> Forall (fun e => msg_allowed append_cfg (snd e)) (writes l) ->
      reports (lookup 64 append_cfg hb st k) (dictionary append_cfg (writes l) k).
Proof.
  intro H. destruct (run1 offset_after) as [st|] eqn:R; [|vm_compute in R; discriminate].
  specialize (H offset_after st [2%N] R). destruct H as (a & E & _ & V); [apply Forall_forall; intros; apply append_cfg_allowed|].
  assert (F : match run1 offset_after with Some s => lookup 64 append_cfg hb s [2%N] | None => None end = Some (Some (Msg MInsert [100%N]))) by (vm_compute; reflexivity).
  rewrite R, E in F. injection F as ->. vm_compute in V. discriminate.
Qed.

(** One memtable with the given writes, flushed to the only leaf *)
Definition down (ws : list step) : list step := ws ++ [Rotate; Incorporate; BuildStep 0; InstallStep 0; Flush 0 KNegInf].

(** 2990-3023, 3047-3066: a bundle whose tuples all vanish is removed and the
    filters behind it move down, but the filter numbers in the subbundles behind
    it stay: those are then looked up in the wrong filters. *)
Definition three : list step := down [del 1] ++ down [ins 2 20] ++ down [ins 3 30].
Theorem C17_empty_compaction_refuted :
  guarded1 (three ++ [Compact 1 KNegInf 0]) = true /\
  found 3 (three ++ [Compact 1 KNegInf 0]) = Some [None; Some [20%N]; Some [30%N]] /\
  found 3 (three ++ [Compact 1 KNegInf 0; ReplaceStep 0]) = Some [None; None; Some [30%N]].
Proof. vm_compute. repeat split; reflexivity. Qed.

(** The bundles behind it get new numbers, but the compactions outstanding for
    them keep the old ones: the output of one bundle replaces another. *)
Theorem C17_renumbered_bundles_refuted :
  guarded1 (three ++ [Compact 1 KNegInf 0; Compact 1 KNegInf 1]) = true /\
  found 3 (three ++ [Compact 1 KNegInf 0; Compact 1 KNegInf 1]) = Some [None; Some [20%N]; Some [30%N]] /\
  found 3 (three ++ [Compact 1 KNegInf 0; Compact 1 KNegInf 1; ReplaceStep 0; ReplaceStep 0]) = Some [None; None; None].
Proof. vm_compute. repeat split; reflexivity. Qed.
(** With the last one the assertion at 5404 fails. *)
Theorem C29_renumbered_bundles_abort_refuted :
  exists st, run1 (three ++ [Compact 1 KNegInf 0; Compact 1 KNegInf 2; ReplaceStep 0]) = Some st /\
    length (st_jobs st) = 1 /\ exec 64 14 append_cfg hb st (ReplaceStep 0) = None.
Proof.
  destruct (run1 (three ++ [Compact 1 KNegInf 0; Compact 1 KNegInf 2; ReplaceStep 0])) as [st|] eqn:R; [|vm_compute in R; discriminate].
  exists st. split; [reflexivity|]. vm_compute in R. injection R as <-. vm_compute. split; reflexivity.
Qed.

(** The ring of subbundle filters has 24 places and nothing checks that they
    suffice: a compacted bundle is one subbundle with many filters, so the
    branches may be few.  A flush overwrites the oldest filters and lookups no
    longer find what they cover. *)
Definition mem (k : nat) : list step := [ins k 7; Rotate; Incorporate].
Definition round (a i : nat) : list step := flat_map mem (seq a 11) ++ Flush 0 KNegInf :: repeat (BuildStep i) 11.
Definition compacted (a i : nat) : list step := round a i ++ [Compact 1 KNegInf i; ReplaceStep i].
Definition overrun : list step := compacted 1 0 ++ compacted 12 1 ++ flat_map mem (seq 23 11).
Theorem C16_filter_ring_overrun_refuted :
  guarded1 overrun = true /\ found 33 overrun = Some (repeat (Some [7%N]) 33) /\
  found 33 (overrun ++ [Flush 0 KNegInf]) = Some (repeat None 9 ++ repeat (Some [7%N]) 24).
Proof. vm_compute. repeat split; reflexivity. Qed.

(** 2206-2218: a node has room for 11 bundles.  Incorporating one more memtable
    before the filters of the first are built stops the process, however few
    branches the root has (2742-2748 looks only at those). *)
Theorem C29_twelfth_incorporation_aborts_refuted :
  exists st, run1 (flat_map mem (seq 1 11) ++ [ins 12 7; Rotate]) = Some st /\
    guarded1 (flat_map mem (seq 1 11) ++ [ins 12 7; Rotate]) = true /\
    csub 64 (n_ebr (t_node (st_tree st))) (n_sbr (t_node (st_tree st))) + 1 + 1 < 64 /\
    exec 64 14 append_cfg hb st Incorporate = None.
Proof.
  destruct (run1 (flat_map mem (seq 1 11) ++ [ins 12 7; Rotate])) as [st|] eqn:R; [|vm_compute in R; discriminate].
  exists st. split; [reflexivity|]. split; [vm_compute; reflexivity|]. vm_compute in R. injection R as <-. split; [apply Nat.ltb_lt; vm_compute; reflexivity | vm_compute; reflexivity].
Qed.

(** Bundle numbers are reused after twelve: a compaction that is outstanding
    while its node takes and flushes twelve more bundles replaces the wrong one. *)
Definition reuse_round (ws : list step) (i : nat) : list step := ws ++ [Rotate; Incorporate; BuildStep i; InstallStep i; Flush 0 KNegInf].
Definition reuse_lower (i b : nat) : list step := [Flush 1 KNegInf; Compact 2 KNegInf b; ReplaceStep i; BuildStep i; InstallStep i].
Definition reuse : list step :=
  GrowRoot :: reuse_round [ins 1 1] 0 ++ Compact 1 KNegInf 0 :: reuse_lower 1 0 ++
  flat_map (fun i => reuse_round [ins (1 + i) 7] 1 ++ reuse_lower 1 i) (seq 1 11) ++ reuse_round [ins 1 2] 1.
Theorem C17_reused_bundle_number_refuted :
  found 12 reuse = Some (Some [2%N] :: repeat (Some [7%N]) 11) /\
  found 12 (reuse ++ [ReplaceStep 0]) = Some (Some [1%N] :: repeat (Some [7%N]) 11).
Proof. vm_compute. repeat split; reflexivity. Qed.

Print Assumptions C01_lookup_follows_history_partial.
Print Assumptions C01_background_invisible_partial.
Print Assumptions C02_other_keys_undisturbed_partial.
Print Assumptions C16_flush_preserves_partial.
Print Assumptions C17_compaction_preserves_partial.
Print Assumptions C18_split_preserves_partial.
Print Assumptions C17_flush_during_compaction_refuted.
Print Assumptions C01_lookup_follows_history_refuted.
Print Assumptions C17_empty_compaction_refuted.
Print Assumptions C17_renumbered_bundles_refuted.
Print Assumptions C29_renumbered_bundles_abort_refuted.
Print Assumptions C16_filter_ring_overrun_refuted.
Print Assumptions C29_twelfth_incorporation_aborts_refuted.
Print Assumptions C17_reused_bundle_number_refuted.
