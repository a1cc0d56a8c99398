(** * C04, C05, C33: iterators over the whole database

    /repo/src/splinterdb.c:656-774 and /repo/src/trunk.c:6148-6555.  The model is
    Range.v on top of the trunk (TrunkTree.v) and the merge iterator (Merge.v).
    What an iterator should show is in RangeSpec.v. *)

From Coq Require Import List Arith NArith ZArith Lia Bool.
From Verif Require Import Base Spec Spec_Merge Witness Search Merge Prop_Merge TrunkNode TrunkRing TrunkTree TrunkKeys TrunkInv TrunkInvMem TrunkLegal Prop_Trunk.
From Verif Require Import Range RangeSpec RangeProofs.
Import ListNotations.
Local Open Scope nat_scope.

Section Range.
Variables (M mp : nat) (cfg : data_config) (hash : bytes -> N).
Hypothesis TO : total_order (key_compare cfg).
Hypothesis LM : lawful_merge cfg.
Hypothesis Hmp : mp <= MAX_PIVOTS.
Hypothesis M0 : 0 < M.
Hypothesis Hmp2 : 2 <= mp.

(** [st'] comes from [st] by background work alone. *)
Definition quiet (st st' : state) : Prop :=
  exists l, run M mp cfg hash st l = Some st' /\ guarded M mp cfg hash st l = true /\ writes l = [].

Lemma quiet_content : forall l st st', run M mp cfg hash init l = Some st -> guarded M mp cfg hash init l = true ->
  Forall (fun e => msg_allowed cfg (snd e)) (writes l) -> quiet st st' ->
  inv M mp cfg hash st' /\ forall u, content M cfg st' u = dictionary cfg (writes l) u.
Proof using TO LM Hmp M0 Hmp2.
  intros l st st' R G A (l' & R' & G' & W). destruct (reach_inv M mp cfg hash TO LM Hmp M0 Hmp2 l st G A R) as [I C].
  destruct (run_inv M mp cfg hash TO LM Hmp M0 Hmp2 l' st st' I G') as [I' C']; [rewrite W; constructor | exact R'|].
  split; [exact I'|]. intro u. rewrite C', W, dictionary_replay, <- C. reflexivity.
Qed.
Lemma quiet_refl : forall st, quiet st st.
Proof using. intro st. exists []. repeat split. Qed.

(** ** C04 *)

(** Full statement: the same without [guarded] and [fits], and with writes between
    the calls.

    An iterator started at any key (or at the beginning) after any run shows the
    live keys from there on with the values of the dictionary, which lookups return
    too: after as many calls of next as there are smaller ones, whatever background
    work comes between the calls, it is valid and at that key, and behind the last
    one it is not valid. *)
Theorem C04_iterator_exact_partial : forall l st start,
  run M mp cfg hash init l = Some st -> guarded M mp cfg hash init l = true ->
  Forall (fun e => msg_allowed cfg (snd e)) (writes l) -> fits M cfg st ->
  exists r L, iter_init M cfg st start = Some r /\
    lists cfg (dictionary cfg (writes l)) (from_start cfg start) L /\
    (forall k v, In (k, v) L -> reports (lookup M cfg hash st k) (Some v)) /\
    forall sts, Forall (fun st' => quiet st st' /\ fits M cfg st') sts -> length sts <= length L ->
      exists r', iter_nexts M cfg sts r = Some r' /\
        match nth_error L (length sts) with
        | Some (k, v) => iter_valid r' = true /\ iter_get r' = (Some k, Some v)
        | None => iter_valid r' = false
        end.
Proof using TO LM Hmp M0 Hmp2.
  intros l st start R G A F. destruct (quiet_content l st st R G A (quiet_refl st)) as [I C].
  set (s := match start with None => KNegInf | Some k => KUser k end).
  destruct (range_init_ok M mp cfg hash TO LM Hmp M0 Hmp2 st KNegInf KPosInf s I F (kle_neg_inf cfg s)) as (r & L & E & _ & _ & HL & HS).
  { subst s. destruct start; unfold klt; cbn; lia. }
  exists r, L. split; [exact E|]. split; [|split].
  - eapply lists_ext; eauto. intro k. subst s. destruct start as [x|]; unfold from_start, kle, klt; cbn.
    + pose proof (to_antisym _ TO k x). split; [intros [? _]; lia | intros; split; lia].
    + split; [auto|]. intros _. split; lia.
  - intros k v Ik. destruct HL as [_ HL]. apply HL in Ik. destruct Ik as [Ik _]. rewrite <- Ik, C. exact (C01_lookup_follows_history_partial M mp cfg hash TO LM Hmp M0 Hmp2 l st k R G A).
  - intros sts Hq Ll. destruct (nexts_ok M mp cfg hash TO LM Hmp M0 Hmp2 _ sts r L HS Ll) as (r' & E' & S').
    { rewrite Forall_forall in Hq |- *. intros st' Is. destruct (Hq st' Is) as [Q Q2]. destruct (quiet_content l st st' R G A Q) as [I' C']. split; [exact I'|]. split; [exact Q2|]. intro u. rewrite C, C'. reflexivity. }
    exists r'. split; [exact E'|]. destruct (nth_error L (length sts)) as [[k v]|] eqn:En.
    + destruct (nth_error_split L _ En) as (a & b & -> & La). rewrite <- La, skipn_app, skipn_all, Nat.sub_diag in S'. cbn [app skipn] in S'.
      destruct (shows_cons M mp cfg hash TO LM Hmp M0 Hmp2 _ _ _ _ _ S') as (C1 & C2 & C3 & _). unfold iter_valid, iter_get. rewrite C1, C2, C3. split; reflexivity.
    + apply nth_error_None in En. rewrite skipn_all2 in S' by exact En. unfold iter_valid. rewrite (shows_nil M mp cfg hash TO LM Hmp M0 Hmp2 _ _ S'). reflexivity.
Qed.

(** trunk_range gives its function the first [n] of them. *)
Theorem C04_trunk_range_exact_partial : forall l st sts start n,
  run M mp cfg hash init l = Some st -> guarded M mp cfg hash init l = true ->
  Forall (fun e => msg_allowed cfg (snd e)) (writes l) ->
  (forall i, quiet st (sts i) /\ fits M cfg (sts i)) ->
  exists L, lists cfg (dictionary cfg (writes l)) (from_start cfg start) L /\
    trunk_range M cfg sts (match start with None => KNegInf | Some k => KUser k end) n = Some (seen (values (firstn n L))).
Proof using TO LM Hmp M0 Hmp2.
  intros l st sts start n R G A H. set (s := match start with None => KNegInf | Some k => KUser k end).
  assert (HC : forall i, inv M mp cfg hash (sts i) /\ fits M cfg (sts i) /\ forall u, content M cfg (sts i) u = dictionary cfg (writes l) u).
  { intro i. destruct (H i) as [Q F]. destruct (quiet_content l st (sts i) R G A Q). auto. }
  destruct (HC 0) as (I & F & C).
  destruct (range_init_ok M mp cfg hash TO LM Hmp M0 Hmp2 (sts 0) s KPosInf s I F) as (r & L & E & _ & _ & HL & HS).
  { ord TO. } { subst s. destruct start; unfold klt; cbn; lia. }
  exists L. split.
  - eapply lists_ext; eauto. intro k. subst s. destruct start as [x|]; unfold from_start, kle, klt; cbn.
    + pose proof (to_antisym _ TO k x). split; [intros [? _]; lia | intros; split; lia].
    + split; [auto|]. intros _. split; lia.
  - unfold trunk_range. rewrite E. apply (loop_ok M mp cfg hash TO LM Hmp M0 Hmp2 (content M cfg (sts 0))); [exact HS|].
    intro j. destruct (HC j) as (I' & F' & C'). split; [exact I'|]. split; [exact F'|]. intro u. rewrite C, C'. reflexivity.
Qed.

Lemma csub_below : forall a b, csub M a b < M.
Proof using M0. intros. Local Transparent csub. unfold csub. apply Nat.mod_upper_bound. intros ->. inversion M0. Qed.
(** [fits] holds when the tree is low and the nodes hold few branches. *)
Lemma on_path_le : forall ht t k, on_path M cfg ht t k <= S ht * (M - 1).
Proof using M0.
  clear Hmp Hmp2. induction ht as [|ht IH]; intros t k; cbn [on_path].
  - pose proof (csub_below (n_ebr (t_node t)) (n_sbr (t_node t))). lia.
  - destruct (route cfg (t_node t) k) as [i|]; [|apply Nat.le_0_l]. destruct (get_pivot (t_node t) i) as [p|]; [|apply Nat.le_0_l]. destruct (nth_error (t_kids t) i) as [c|]; [|apply Nat.le_0_l].
    pose proof (csub_below (n_ebr (t_node t)) (pv_sbr p)). specialize (IH c k). change (S (S ht) * (M - 1)) with ((M - 1) + S ht * (M - 1)). lia.
Qed.
Lemma fits_small : forall st, length (st_mts st) + S (height_of st) * (M - 1) <= 256 -> fits M cfg st.
Proof using M0. clear Hmp Hmp2. intros st H k _. pose proof (on_path_le (height_of st) (st_tree st) k). lia. Qed.

End Range.

(** ** Runs that meet the hypotheses *)

(** The run of C01 with ten leaves, and more writes in a memtable *)
Definition spread : list step := mixed ++ [upd 3 44; del 9; ins 11 55; ins 7 77].
Definition state_of (l : list step) (st : state) : Prop := run 64 14 append_cfg hb init l = Some st.
Example spread_guarded : guarded1 spread = true.
Proof. vm_compute. reflexivity. Qed.
Definition small (st : state) : bool := length (st_mts st) + S (height_of st) * 63 <=? 256.
Lemma small_fits : forall st, small st = true -> fits 64 append_cfg st.
Proof. intros st H. apply fits_small; [lia|]. apply Nat.leb_le. exact H. Qed.
Lemma state_small : forall l, option_map small (run 64 14 append_cfg hb init l) = Some true -> forall st, state_of l st -> fits 64 append_cfg st.
Proof. intros l H st R. unfold state_of in R. rewrite R in H. injection H as H. apply small_fits. exact H. Qed.
Example spread_fits : forall st, state_of spread st -> fits 64 append_cfg st.
Proof. apply state_small. vm_compute. reflexivity. Qed.
(** What an iterator gives, step by step, with the state unchanged *)
Fixpoint walk (n : nat) (st : state) (r : rit) : list (option bytes * option bytes) :=
  match n with
  | O => []
  | S n' => if iter_valid r then iter_get r :: match iter_next 64 append_cfg st r with Some r' => walk n' st r' | None => [] end else []
  end.
Definition listed (l : list step) (start : option bytes) : option (list (option bytes * option bytes)) :=
  match run1 l with
  | Some st => option_map (walk 100 st) (iter_init 64 append_cfg st start)
  | None => None
  end.
Definition at_ (k : nat) (v : list nat) : option bytes * option bytes := (Some [N.of_nat k], Some (map N.of_nat v)).
Example spread_walk :
  listed spread None = Some ([at_ 1 [100; 200]; at_ 2 [100; 200]; at_ 3 [100; 200; 44]; at_ 4 [100; 200]; at_ 5 [100; 200]; at_ 6 [100]; at_ 7 [77]; at_ 8 [100]; at_ 10 [100]; at_ 11 [55]]) /\
  listed spread (Some [5; 9]%N) = Some ([at_ 6 [100]; at_ 7 [77]; at_ 8 [100]; at_ 10 [100]; at_ 11 [55]]) /\
  listed spread (Some [12%N]) = Some [].
Proof. vm_compute. repeat split; reflexivity. Qed.
(** Background work that may come between two calls: a memtable is incorporated
    and flushed, a leaf is split *)
Definition meanwhile : list step := [Rotate; Incorporate; BuildStep 1; InstallStep 1; Flush 0 KNegInf].
Lemma state_quiet : forall l l', writes l' = [] ->
  option_map (fun st => (guarded 64 14 append_cfg hb st l',
    option_map (fun st' => (small st', length (concat (st_mts st')) =? length (concat (st_mts st)))) (run 64 14 append_cfg hb st l'))) (run 64 14 append_cfg hb init l) = Some (true, Some (true, false)) ->
  forall st, state_of l st -> exists st', quiet 64 14 append_cfg hb st st' /\ fits 64 append_cfg st' /\ st_mts st' <> st_mts st.
Proof.
  intros l l' W H st R. unfold state_of in R. rewrite R in H. cbn [option_map] in H. injection H as H1 H2. destruct (run 64 14 append_cfg hb st l') as [st'|] eqn:E; [|discriminate].
  cbn [option_map] in H2. injection H2 as H2 H3. exists st'. split; [exists l'; repeat split; assumption|]. split; [apply small_fits; exact H2|]. intro C. rewrite C, Nat.eqb_refl in H3. discriminate.
Qed.
Example spread_quiet : forall st, state_of spread st -> exists st', quiet 64 14 append_cfg hb st st' /\ fits 64 append_cfg st' /\ st_mts st' <> st_mts st.
Proof. apply (state_quiet spread meanwhile); vm_compute; reflexivity. Qed.
Example spread_exact : forall st start, state_of spread st -> exists r L, iter_init 64 append_cfg st start = Some r /\
  lists append_cfg (dictionary append_cfg (writes spread)) (from_start append_cfg start) L /\
  forall sts, Forall (fun st' => quiet 64 14 append_cfg hb st st' /\ fits 64 append_cfg st') sts -> length sts <= length L -> exists r', iter_nexts 64 append_cfg sts r = Some r'.
Proof.
  pose proof spread_guarded as G. pose proof spread_fits as F. assert (H20 : 14 <= MAX_PIVOTS) by (apply Nat.leb_le; vm_compute; reflexivity).
  revert G F. generalize spread as l. intros l G F st start R.
  destruct (C04_iterator_exact_partial 64 14 append_cfg hb lex_compare_total append_cfg_lawful H20 ltac:(lia) ltac:(lia) l st start R G) as (r & L & E & HL & _ & H).
  - apply Forall_forall. intros. apply append_cfg_allowed.
  - apply F. exact R.
  - exists r, L. split; [exact E|]. split; [exact HL|]. intros sts Hq Hl. destruct (H sts Hq Hl) as (r' & E' & _). eauto.
Qed.

(** ** C05, C33: stepping back

    All the runs below are within the conditions. *)

Definition start_at (l : list step) (k : nat) : option rit :=
  match run1 l with Some st => iter_init 64 append_cfg st (Some [N.of_nat k]) | None => None end.
Definition next_in (l : list step) (r : option rit) : option rit :=
  match run1 l, r with Some st, Some r => iter_next 64 append_cfg st r | _, _ => None end.
Definition prev_in (l : list step) (r : option rit) : option rit :=
  match run1 l, r with Some st, Some r => iter_prev 64 append_cfg st r | _, _ => None end.
Definition seen_at (r : option rit) : option (bool * (option bytes * option bytes)) := option_map (fun r => (iter_valid r, iter_get r)) r.

(** 6456-6512, 6318-6345, merge.c:464-532: at the boundary of two leaves the
    previous leaf is entered with each source at its greatest key; the merge takes
    the smallest of them.  Keys 1, 2 and 4 are in a branch, 3 in the memtable, 6 in
    the next leaf: stepping back from 6 skips 4. *)
Definition back_two : list step := down (map (fun i => ins i 100) [1; 2; 4; 6]) ++ [SplitLeaf 0 KNegInf [[5%N]]; ins 3 100].
Theorem C05_stepping_back_skips_keys_refuted :
  guarded1 back_two = true /\
  listed back_two None = Some [at_ 1 [100]; at_ 2 [100]; at_ 3 [100]; at_ 4 [100]; at_ 6 [100]] /\
  seen_at (start_at back_two 6) = Some (true, at_ 6 [100]) /\
  seen_at (prev_in back_two (start_at back_two 6)) = Some (true, at_ 3 [100]) /\
  seen_at (prev_in back_two (prev_in back_two (start_at back_two 6))) = Some (true, at_ 2 [100]).
Proof. vm_compute. repeat split; reflexivity. Qed.

(** 6361-6365, 6410: behind the last key, can_prev is that of the merge in the last
    leaf.  If that leaf has become empty the way back is closed. *)
Definition back_empty : list step :=
  down (map (fun i => ins i 100) [1; 2; 5]) ++ down [del 5] ++ [SplitLeaf 0 KNegInf [[5%N]]; Compact 1 (KUser [5%N]) 2; ReplaceStep 0].
Theorem C05_no_way_back_refuted :
  guarded1 back_empty = true /\ listed back_empty None = Some [at_ 1 [100]; at_ 2 [100]] /\
  seen_at (start_at back_empty 2) = Some (true, at_ 2 [100]) /\
  option_map r_can_prev (next_in back_empty (start_at back_empty 2)) = Some false /\
  prev_in back_empty (next_in back_empty (start_at back_empty 2)) = None.
Proof. vm_compute. repeat split; reflexivity. Qed.

(** 6380-6384: and before the first key can_next is that of the merge in the first
    leaf.  After a step back from the first key there is no way to it. *)
Definition front_deleted : list step := down (map (fun i => ins i 100) [1; 6; 7]) ++ [SplitLeaf 0 KNegInf [[5%N]]; del 1].
Theorem C33_prev_then_next_refuted :
  guarded1 front_deleted = true /\ listed front_deleted None = Some [at_ 6 [100]; at_ 7 [100]] /\
  seen_at (start_at front_deleted 6) = Some (true, at_ 6 [100]) /\
  option_map (fun r => (iter_valid r, r_can_prev r, r_can_next r)) (prev_in front_deleted (start_at front_deleted 6)) = Some (false, false, false) /\
  next_in front_deleted (prev_in front_deleted (start_at front_deleted 6)) = None.
Proof. vm_compute. repeat split; reflexivity. Qed.

Print Assumptions C04_iterator_exact_partial.
Print Assumptions C04_trunk_range_exact_partial.
Print Assumptions C05_stepping_back_skips_keys_refuted.
Print Assumptions C05_no_way_back_refuted.
Print Assumptions C33_prev_then_next_refuted.
