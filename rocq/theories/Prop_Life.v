(** * Properties of creating, opening and closing: C42, C27, C26, C47 *)

From Coq Require Import List NArith Arith Bool Lia.
From Verif Require Import Config Life LifeSpec LifeProofs LifeHistory.
Import ListNotations.

(** ** Examples used below *)

Definition conf0 : uconf :=
  UConf (Some 10%N) 1048576 (30 * 131072) (DConf 24 true true true true) 0 0 0 0 0 false None 1 2 0 0 0 false 0 0 0 0 0 0.
Definition req (op : bool) : request := Request conf0 false false op.
Definition blank : disk := Disk None (fun _ => None) (fun _ => 0%N) (fun _ => 0%N).
Definition mk : activity := Activity (fun im => Image (i_refs im) (i_pages im) 1000 1 1) [] 5.
Definition keep : activity := Activity (fun im => im) [] 7.
(** work that allocates extent 9, seen by the close *)
Definition grow : activity :=
  Activity (fun im => Image (fun e => if N.eqb e 9 then 2%N else i_refs im e) (i_pages im) (i_root im) (i_next im) (i_tail im)) [] 6.

Lemma conf0_ok : exists k, init_config conf0 = Ok k /\ sizes_fit k = true /\ k_disk_extents k = 30%N.
Proof. eexists. split; [vm_compute; reflexivity|]. vm_compute. split; reflexivity. Qed.

(** ** C42 *)

(** A failed call gave back everything, in reverse order of the parts, and used
    nothing it did not hold; unless it failed in one of the places below. *)
Theorem C42_released : forall q d act fails p es,
  run (create_or_open q d act) fails = (Ret (Bad p), es) ->
  ~ In p [PIoStat; PIoFallocate; PTaskGroup; PTrunk] ->
  held_after es = Some [].
Proof.
  intros q d act fails p es R N1.
  pose proof (wp_run rule2 _ _ _ _ _ _ _ _ (create_or_open_spec q d act fails 0) R) as (n & H).
  rewrite rule2_fold in H. cbn [fst snd call_end] in H. unfold held_after.
  destruct p; cbn [leaky] in H; try exact H; exfalso; apply N1; cbn; tauto.
Qed.
Print Assumptions C42_released.

(** In these places it never does. *)
Theorem C42_places_refuted : forall q d act fails p es,
  run (create_or_open q d act) fails = (Ret (Bad p), es) ->
  In p [PIoStat; PIoFallocate; PTaskGroup; PTrunk] ->
  held_after es = None.
Proof.
  intros q d act fails p es R I1.
  pose proof (wp_run rule2 _ _ _ _ _ _ _ _ (create_or_open_spec q d act fails 0) R) as (n & H).
  rewrite rule2_fold in H. cbn [fst snd call_end] in H. unfold held_after.
  destruct I1 as [<- | [<- | [<- | [<- | []]]]]; exact H.
Qed.
Print Assumptions C42_places_refuted.

(** Closing gives back everything that creating or opening acquired. *)
Theorem C42_close : forall q d act fails slot im es act' fails' im' es' k slot' im0,
  run (create_or_open q d act) fails = (Ret (Good slot im), es) -> In (Acq RReg) es -> init_config (q_conf q) = Ok k ->
  run (close q k slot' im0 act') fails' = (Ret im', es') ->
  held_after es <> None /\ held_after (es ++ es') = Some [].
Proof.
  intros q d act fails slot im es act' fails' im' es' k slot' im0 R I1 C R'.
  pose proof (wp_run rule2 _ _ _ _ _ _ _ _ (create_or_open_spec q d act fails 0) R) as (n & H).
  cbn [call_end] in H. destruct H as (k' & reg & C' & H). rewrite C in C'. injection C' as <-.
  rewrite rule2_fold in H. cbn [fst snd orb] in H. unfold after_reg in H.
  assert (E : existsb registers es = true) by (apply existsb_exists; exists (Acq RReg); split; [exact I1|reflexivity]).
  rewrite E in H. injection H as H Ereg. subst reg. unfold up_held in H at 1. rewrite tasks_reg in H.
  unfold held_after. rewrite H. split; [discriminate|]. rewrite fold_left_app, H.
  pose proof (wp_run rule2 _ _ _ _ _ _ _ _ (close_spec q k slot' im0 act' fails' 0 true) R') as (n' & H').
  rewrite rule2_fold in H'. cbn [fst snd] in H'. exact (f_equal fst H').
Qed.
Print Assumptions C42_close.

(** What is left over, ignoring the order *)
Definition left_over (es : list event) : list resource :=
  fold_left (fun held e => match e with Acq r => r :: held | Rel r => without r held | _ => held end) es [].

(** The file stays open when fstat or fallocate fails. *)
Theorem C42_descriptor_refuted : exists fails es, run (create_or_open (req false) blank mk) fails = (Ret (Bad PIoStat), es) /\ left_over es = [RFd].
Proof. exists (fun n => n =? 2). eexists. split; [reflexivity|]. vm_compute. reflexivity. Qed.
Print Assumptions C42_descriptor_refuted.

(** If a background thread cannot be made, the lock and condition variable of its
    group are used and destroyed after they were destroyed. *)
Theorem C42_group_refuted : exists fails es, run (create_or_open (req false) blank mk) fails = (Ret (Bad PTaskGroup), es) /\
  exists a b, es = a ++ Use (RCond 1) :: b /\ ~ In (RCond 1) (left_over a).
Proof.
  exists (fun n => n =? 8). eexists. split; [vm_compute; reflexivity|].
  eexists [_; _; _; _; _; _; _; _; _], _. split; [reflexivity|]. vm_compute. intuition discriminate.
Qed.
Print Assumptions C42_group_refuted.

(** If this thread cannot be registered the call carries on and then needs what
    registering would have provided. *)
Theorem C42_register_refuted : exists fails es slot im, run (create_or_open (req false) blank mk) fails = (Ret (Good slot im), es) /\
  ~ In (Acq RReg) es /\ In (Use RReg) es /\ held_after es = None.
Proof.
  exists (fun n => n =? 6). eexists _, _, _. split; [reflexivity|]. vm_compute. intuition discriminate.
Qed.
Print Assumptions C42_register_refuted.

(** An open that is refused leaves the lock of the space reclamation queue, in memory it frees. *)
Theorem C42_queue_refuted : exists d es, run (create_or_open (req true) d mk) never = (Ret (Bad PTrunk), es) /\ left_over es = [RSrq].
Proof. exists (Disk (Some new_ids) (fun _ => None) (fun _ => 0%N) (fun _ => 0%N)). eexists. split; [reflexivity|]. vm_compute. reflexivity. Qed.
Print Assumptions C42_queue_refuted.

(** A failure in the middle of setting up the cache, and creating and closing *)
Example failed_cache : exists fails es, run (create_or_open (req false) blank mk) fails = (Ret (Bad PCache), es) /\ length es = 34.
Proof. exists (fun n => n =? 17). eexists. split; [reflexivity|]. vm_compute. reflexivity. Qed.

(** ** C27 *)

(** An open is accepted only if the last thing that wrote the super block, whole,
    was a close: whatever was done to the device before, in whatever order, and
    wherever calls died.  It serves what that close recorded. *)
Theorem C27_only_closed : forall d0 h d q act fails slot im es,
  d_meta d0 = None -> d_super d0 0 = None -> history d0 h (World d None) -> q_open q = true ->
  run (create_or_open q d act) fails = (Ret (Good slot im), es) ->
  exists s, last_super h = Some (OpClose, Some s) /\
    im = act_image act (Image (d_refs d) (d_pages d) (s_root s) (s_next s) (s_tail s)).
Proof.
  intros d0 h d q act fails slot im es B1 B2 H O R. pose proof (history_inv _ _ _ B1 H) as [(A & U) M _]. cbn [w_disk] in *.
  apply run_call_writes in R. rewrite O in R. destruct R as (ids & s & E1 & E2 & E3 & E4 & E5 & _).
  destruct M as [M | M]; rewrite M in E1; [discriminate|]. injection E1 as <-. injection E2 as <-. rewrite E3 in A.
  destruct (last_super h) as [[o v]|]; [|congruence]. subst v. exists s. split; [|exact E5].
  specialize (U o s eq_refl). unfold mountable in E4. apply andb_true_iff in E4 as (E4 & _). apply andb_true_iff in E4 as (E4 & _).
  rewrite E4 in U. destruct o; cbn in U; try discriminate. reflexivity.
Qed.
Print Assumptions C27_only_closed.

(** Otherwise, with a readable meta page, it is refused with an error and the device
    is as it was. *)
Theorem C27_refused : forall d0 h d q act k,
  d_meta d0 = None -> d_super d0 0 = None -> history d0 h (World d None) -> q_open q = true ->
  init_config (q_conf q) = Ok k -> sizes_fit k = true -> d_meta d <> None ->
  (forall s, last_super h <> Some (OpClose, Some s)) ->
  exists es, run (create_or_open q d act) never = (Ret (Bad PTrunk), es) /\
    forall d', d' = disk_after d (writes_of es) ->
      d_meta d' = d_meta d /\ (forall k, d_super d' k = d_super d k) /\ (forall e, d_refs d' e = d_refs d e) /\ (forall a, d_pages d' a = d_pages d a).
Proof.
  intros d0 h d q act k B1 B2 H O C F M NC.
  pose proof (history_inv _ _ _ B1 H) as [_ M' _]. cbn [w_disk] in M'. destruct M' as [M' | M']; [contradiction|].
  destruct (open_runs q d act k new_ids 0 C F O M' eq_refl) as (es & R).
  assert (E : match d_super d 0 with
         | Some s => if mountable s then Good 0 (act_image act (Image (d_refs d) (d_pages d) (s_root s) (s_next s) (s_tail s))) else Bad PTrunk
         | None => Bad PTrunk
         end = Bad PTrunk).
  { destruct (d_super d 0) as [s|]; [|reflexivity]. destruct (mountable s); [|reflexivity]. exfalso.
    destruct (C27_only_closed d0 h d q act never _ _ es B1 B2 H O R) as (s' & L & _). exact (NC s' L). }
  rewrite E in R. exists es. split; [exact R|]. intros d' ->. apply run_call_writes in R. rewrite O in R.
  destruct R as [-> | ->]; repeat split.
Qed.
Print Assumptions C27_refused.

(** ** C26 *)

(** After a close, and any number of attempts to open that got no further than
    the reference counts, an open serves the database that was closed... *)
Theorem C26_reopen : forall d0 hs h ws im d q act fails slot im' es,
  d_meta d0 = None -> history d0 (hs ++ Label OpClose ws None Accepted (Some im) :: h) (World d None) -> Forall inert hs ->
  q_open q = true -> run (create_or_open q d act) fails = (Ret (Good slot im'), es) ->
  exists im0, same_image im0 im /\ im' = act_image act im0.
Proof.
  intros d0 hs h ws im d q act fails slot im' es B H F O R. destruct (inert_holds _ _ _ _ _ _ B F H) as (now & _ & K1 & K2 & K3 & K4).
  cbn [w_disk] in *. apply run_call_writes in R. rewrite O in R. destruct R as (ids & s & E1 & E2 & E3 & _ & E5 & _).
  rewrite K3 in E1. injection E1 as <-. injection E2 as <-. rewrite K4 in E3. injection E3 as <-.
  eexists. split; [|exact E5]. repeat split; assumption.
Qed.
Print Assumptions C26_reopen.

(** ... and it is accepted. *)
Theorem C26_accepted : forall d0 hs h ws im d q act k,
  d_meta d0 = None -> history d0 (hs ++ Label OpClose ws None Accepted (Some im) :: h) (World d None) -> Forall inert hs ->
  q_open q = true -> init_config (q_conf q) = Ok k -> sizes_fit k = true -> i_root im <> 0%N ->
  (forall s, last_write ws = Some s -> s_time s <> 0%N) ->
  exists im' es, run (create_or_open q d act) never = (Ret (Good 0 im'), es).
Proof.
  intros d0 hs h ws im d q act k B H F O C SF NR NT. destruct (inert_holds _ _ _ _ _ _ B F H) as (now & LW & K1 & K2 & K3 & K4).
  cbn [w_disk] in *. specialize (NT _ LW). cbn [s_time] in NT.
  destruct (open_runs q d act k new_ids 0 C SF O K3 eq_refl) as (es & R). rewrite K4 in R.
  unfold mountable in R. cbn [s_unmounted s_time s_root] in R.
  assert (T : N.ltb 0 now = true) by (apply N.ltb_lt; lia). assert (Z : N.eqb (i_root im) 0 = false) by (apply N.eqb_neq; exact NR).
  rewrite T, Z in R. eexists _, es. exact R.
Qed.
Print Assumptions C26_accepted.

(** *** Histories used below *)

Definition im_made : image := act_image mk (Image (new_refs 30) (d_pages blank) 0 0 0).
Definition im_grown : image := act_image grow im_made.
Definition d_made : disk := Disk (Some new_ids) (set_super (d_super blank) 0 (Some (Super 1000 1 1 5 false))) (d_refs blank) (d_pages blank).
Definition d_closed : disk :=
  Disk (Some new_ids) (set_super (d_super d_made) 0 (Some (Super 1000 1 1 6 true))) (i_refs im_grown) (d_pages blank).

Definition l_made : label := Label OpCreate [WMeta new_ids; WSuper 0 (Super 1000 1 1 5 false)] None Accepted None.

Lemma h_created : exists k, init_config conf0 = Ok k /\ sizes_fit k = true /\ history blank [l_made] (World d_made (Some (req false, k, 0, im_made))).
Proof.
  destruct conf0_ok as (k & C & F & E). destruct (create_runs (req false) blank mk k C F eq_refl) as (es & R). rewrite E in R.
  exists k. split; [exact C|]. split; [exact F|].
  assert (W : writes_of es = [WMeta new_ids; WSuper 0 (Super 1000 1 1 5 false)]).
  { pose proof R as R'. apply run_call_writes in R'. cbn [q_open req] in R'. destruct R' as (_ & ->). reflexivity. }
  eapply h_step; [apply h_start|]. pose proof (ws_accept blank (req false) k mk never _ _ es C R) as S1. rewrite W in S1. exact S1.
Qed.

Lemma h_closed : exists h ws, history blank (Label OpClose ws None Accepted (Some im_grown) :: h) (World d_closed None) /\
  last_write ws = Some (Super 1000 1 1 6 true).
Proof.
  destruct h_created as (k & C & F & H).
  destruct (close_runs (req false) k 0 im_made grow) as (es' & R). eexists _, _.
  assert (W : writes_of es' = [WSuper 0 (Super 1000 1 1 6 true); WRefs (i_refs im_grown)]).
  { apply run_close_writes in R as (im' & tl & -> & [X | (_ & ->)] & _ & ->); [discriminate|]. reflexivity. }
  split.
  - eapply h_step; [exact H|]. change d_closed with (disk_after d_made [WSuper 0 (Super 1000 1 1 6 true); WRefs (i_refs im_grown)]).
    rewrite <- W. exact (ws_close d_made (req false) k 0 im_made grow never im_grown es' R (fun a => eq_refl)).
  - rewrite W. reflexivity.
Qed.

(** Created, closed, and opened again *)
Example reopened : exists h ws es, history blank (Label OpClose ws None Accepted (Some im_grown) :: h) (World d_closed None) /\
  run (create_or_open (req true) d_closed keep) never = (Ret (Good 0 (act_image keep (Image (d_refs d_closed) (d_pages d_closed) 1000 1 1))), es) /\
  i_refs im_grown 9 = 2%N.
Proof.
  destruct h_closed as (h & ws & H & _). destruct conf0_ok as (k & C & F & E).
  destruct (open_runs (req true) d_closed keep k new_ids 0 C F eq_refl eq_refl eq_refl) as (es & R).
  exists h, ws, es. split; [exact H|]. split; [exact R|reflexivity].
Qed.

(** Created, and the process died: refused *)
Example refused : exists h d es, history blank h (World d None) /\ d_meta d <> None /\ (forall s, last_super h <> Some (OpClose, Some s)) /\
  run (create_or_open (req true) d keep) never = (Ret (Bad PTrunk), es).
Proof.
  destruct h_created as (k & C & F & H).
  destruct (open_runs (req true) d_made keep k new_ids 0 C F eq_refl eq_refl eq_refl) as (es' & R).
  eexists _, d_made, es'. split.
  { eapply h_step; [exact H|]. apply (ws_die d_made _ [] None d_made 0 0). exact (di_between d_made [WPage 0 0] 0). }
  split; [discriminate|]. split; [|exact R]. intros s. cbn. discriminate.
Qed.

(** *** Where the claims fail *)

(** The super block that says "closed" is written before the reference counts.  If
    the process dies in between, the next open is accepted with the counts of
    before: here extent 9 was in use at the close and counts as free. *)
Theorem C27_counts_refuted : exists h k im imc d1 es ws d im' es',
  history blank h (World d1 (Some (req false, k, 0, im))) /\
  run (close (req false) k 0 im grow) never = (Ret imc, es) /\
  died_in d1 (writes_of es) ws None d /\
  run (create_or_open (req true) d keep) never = (Ret (Good 0 im'), es') /\
  i_refs imc 9 = 2%N /\ i_refs im' 9 = 0%N.
Proof.
  destruct h_created as (k & C & F & H). destruct (close_runs (req false) k 0 im_made grow) as (es & R).
  assert (W : writes_of es = [WSuper 0 (Super 1000 1 1 6 true); WRefs (i_refs im_grown)]).
  { pose proof R as R'. apply run_close_writes in R' as (im' & tl & -> & [X | (_ & ->)] & _ & ->); [discriminate|]. reflexivity. }
  remember (Disk (Some new_ids) (set_super (d_super d_made) 0 (Some (Super 1000 1 1 6 true))) (d_refs blank) (d_pages blank)) as d eqn:ED.
  assert (M : d_meta d = Some new_ids) by (subst d; reflexivity).
  destruct (open_runs (req true) d keep k new_ids 0 C F eq_refl M eq_refl) as (es' & R').
  subst d. eexists _, k, im_made, im_grown, d_made, es, _, _, _, es'. split; [exact H|]. split; [exact R|]. split.
  - rewrite W. exact (di_between d_made _ 1).
  - split; [exact R'|]. split; reflexivity.
Qed.
Print Assumptions C27_counts_refuted.

(** A create that fails on a device with a closed database, here for lack of memory
    for the cache, overwrites the stored reference counts.  A later open is accepted. *)
Theorem C27_failed_create_refuted : exists h l d es' fails es im',
  history blank (l :: h) (World d_closed None) /\ l_op l = OpClose /\ l_image l = Some im_grown /\
  run (create_or_open (req false) d_closed mk) fails = (Ret (Bad PCache), es) /\ d = disk_after d_closed (writes_of es) /\
  run (create_or_open (req true) d keep) never = (Ret (Good 0 im'), es') /\
  i_refs im_grown 9 = 2%N /\ i_refs im' 9 = 0%N.
Proof.
  destruct h_closed as (h & ws & H & _). destruct conf0_ok as (k & C & F & E).
  remember (run (create_or_open (req false) d_closed mk) (fun n => n =? 17)) as r eqn:ER. destruct r as [o es].
  assert (Eo : o = Ret (Bad PCache)) by (apply (f_equal fst) in ER; cbn [fst] in ER; rewrite ER; vm_compute; reflexivity).
  assert (W : writes_of es = [WRefs (new_refs 30)]) by (apply (f_equal snd) in ER; cbn [snd] in ER; rewrite ER; reflexivity).
  subst o. remember (disk_after d_closed (writes_of es)) as d eqn:ED. rewrite W in ED.
  assert (M : d_meta d = Some new_ids) by (subst d; reflexivity).
  destruct (open_runs (req true) d keep k new_ids 0 C F eq_refl M eq_refl) as (es' & R').
  eexists h, _, d, es', (fun n => n =? 17), es, _. split; [exact H|]. split; [reflexivity|]. split; [reflexivity|].
  split; [symmetry; exact ER|]. split; [rewrite W; exact ED|]. subst d. split; [exact R'|]. split; vm_compute; reflexivity.
Qed.
Print Assumptions C27_failed_create_refuted.

(** Likewise a create that dies after it wrote some pages: the old database is
    served, with the new pages in it. *)
Theorem C27_dead_create_refuted : exists h l d im' es' act es,
  history blank (l :: h) (World d_closed None) /\ l_image l = Some im_grown /\
  run (create_or_open (req false) d_closed act) never = (Ret (Good 0 (act_image act (Image (new_refs 30) (d_pages d_closed) 0 0 0))), es) /\
  died_in d_closed (writes_of es) [WPage 3 8] None d /\
  run (create_or_open (req true) d keep) never = (Ret (Good 0 im'), es') /\
  i_pages im_grown 3 = 0%N /\ i_pages im' 3 = 8%N.
Proof.
  destruct h_closed as (h & ws & H & _). destruct conf0_ok as (k & C & F & E).
  remember (Activity (act_image mk) [(3, 8)%N] 5) as act eqn:EA.
  destruct (create_runs (req false) d_closed act k C F eq_refl) as (es & R). rewrite E in R.
  assert (W : exists tl, writes_of es = WPage 3 8 :: tl).
  { pose proof R as R'. apply run_call_writes in R'. cbn [q_open req] in R'. destruct R' as (_ & ->). subst act. eexists. reflexivity. }
  destruct W as (tl & W). remember (disk_after d_closed [WPage 3 8]) as d eqn:ED.
  assert (M : d_meta d = Some new_ids) by (subst d; reflexivity).
  destruct (open_runs (req true) d keep k new_ids 0 C F eq_refl M eq_refl) as (es' & R').
  eexists h, _, d, _, es', act, es. split; [exact H|]. split; [reflexivity|]. split; [exact R|]. split.
  - rewrite W, ED. exact (di_between d_closed (WPage 3 8 :: tl) 1).
  - subst d. split; [exact R'|]. split; reflexivity.
Qed.
Print Assumptions C27_dead_create_refuted.

(** A damaged meta page stops the process instead of giving an error: for any
    device without a readable one no open returns a database or a complaint about it. *)
Theorem C27_meta_refuted : (forall q d act fails o es, q_open q = true -> d_meta d = None -> run (create_or_open q d act) fails = (o, es) ->
    (forall slot im, o <> Ret (Good slot im))) /\
  exists es, run (create_or_open (req true) blank keep) never = (Died, es).
Proof.
  split.
  - intros q d act fails o es O M R slot im ->. apply run_call_writes in R. rewrite O in R. destruct R as (ids & s & E & _). congruence.
  - eexists. vm_compute. reflexivity.
Qed.
Print Assumptions C27_meta_refuted.

(** ** C47 *)

(** Registering and removing databases *)
Inductive slots : list N -> (N -> option nat) -> Prop :=
| sl_new : slots (repeat 0%N MAX_ROOT_IDS) (fun _ => None)
| sl_take : forall ids m id k ids', slots ids m -> id <> 0%N -> m id = None -> take_slot ids id = Some (k, ids') ->
    slots ids' (fun x => if N.eqb x id then Some k else m x)
| sl_drop : forall ids m id ids', slots ids m -> id <> 0%N -> drop_slot ids id = Some ids' ->
    slots ids' (fun x => if N.eqb x id then None else m x).

Lemma find_id_some : forall ids id s k, find_id ids id s = Some k -> s <= k /\ nth_error ids (k - s) = Some id.
Proof.
  induction ids as [|x ids IH]; intros id s k H; [discriminate|]. cbn in H. destruct (N.eqb_spec x id) as [->|NE].
  - injection H as <-. split; [lia|]. rewrite Nat.sub_diag. reflexivity.
  - apply IH in H as (L & E). split; [lia|]. replace (k - s) with (S (k - S s)) by lia. exact E.
Qed.

Lemma find_id_none : forall ids id s, find_id ids id s = None <-> ~ In id ids.
Proof.
  induction ids as [|x ids IH]; intros id s; cbn; [tauto|]. destruct (N.eqb_spec x id) as [->|NE].
  - split; [discriminate|tauto].
  - rewrite IH. split; [intros H [X | X]; [congruence|contradiction]|tauto].
Qed.

(** the table holds exactly the registered ids, once each *)
Definition table_ok (ids : list N) (m : N -> option nat) : Prop :=
  length ids = MAX_ROOT_IDS /\ forall id k, id <> 0%N -> (m id = Some k <-> nth_error ids k = Some id).

Lemma nth_set : forall A (l : list A) k (v : A) i, k < length l ->
  nth_error (firstn k l ++ v :: skipn (S k) l) i = if i =? k then Some v else nth_error l i.
Proof.
  intros A l. induction l as [|a l IH]; intros k v i H; [cbn in H; lia|]. destruct k as [|k]; cbn [firstn skipn app].
  - destruct i; reflexivity.
  - destruct i as [|i]; [reflexivity|]. cbn [nth_error]. rewrite IH by (cbn in H; lia). reflexivity.
Qed.

Lemma len_set : forall A (l : list A) k (v : A), k < length l -> length (firstn k l ++ v :: skipn (S k) l) = length l.
Proof. intros A l k v H. rewrite app_length, firstn_length. cbn [length]. rewrite skipn_length. lia. Qed.

Lemma slots_ok : forall ids m, slots ids m -> table_ok ids m.
Proof.
  intros ids m H. induction H as [|ids m id k ids' H IH NZ NM T|ids m id ids' H IH NZ T].
  - split; [reflexivity|]. intros id k NZ. split; [discriminate|]. intros E. apply nth_error_In, repeat_spec in E. contradiction.
  - destruct IH as (L & IH). unfold take_slot in T. destruct (find_id ids 0 0) as [j|] eqn:F; [|discriminate]. injection T as <- <-.
    apply find_id_some in F as (_ & F). rewrite Nat.sub_0_r in F.
    assert (LJ : j < length ids) by (apply nth_error_Some; congruence).
    split; [rewrite len_set; assumption|]. intros x i NX. rewrite nth_set by exact LJ. destruct (N.eqb_spec x id) as [->|NE].
    + destruct (Nat.eqb_spec i j) as [->|NJ]; [split; reflexivity|]. split; [intros E; injection E as ->; contradiction|].
      intros E. apply (IH id i NZ) in E. congruence.
    + destruct (Nat.eqb_spec i j) as [->|NJ].
      * rewrite (IH x j NX), F. split; intros E; injection E as E; congruence.
      * apply IH, NX.
  - destruct IH as (L & IH). unfold drop_slot in T. destruct (find_id ids id 0) as [j|] eqn:F; [|discriminate]. injection T as <-.
    apply find_id_some in F as (_ & F). rewrite Nat.sub_0_r in F.
    assert (LJ : j < length ids) by (apply nth_error_Some; congruence).
    split; [rewrite len_set; assumption|]. intros x i NX. rewrite nth_set by exact LJ. destruct (N.eqb_spec x id) as [->|NE].
    + destruct (Nat.eqb_spec i j) as [->|NJ]; [split; [discriminate|intros E; injection E as E; congruence]|].
      split; [discriminate|]. intros E. apply (IH id i NZ) in E. apply (IH id j NZ) in F. congruence.
    + destruct (Nat.eqb_spec i j) as [->|NJ].
      * rewrite (IH x j NX), F. split; intros E; injection E as E; congruence.
      * apply IH, NX.
Qed.

(** After any registering and removing: looking up an id finds what registering
    gave it, or nothing if it is not registered. *)
Theorem C47_found : forall ids m id, slots ids m -> id <> 0%N -> find_id ids id 0 = m id.
Proof.
  intros ids m id H NZ. destruct (slots_ok _ _ H) as (_ & T). destruct (find_id ids id 0) as [k|] eqn:F.
  - apply find_id_some in F as (_ & F). rewrite Nat.sub_0_r in F. symmetry. apply T; assumption.
  - apply find_id_none in F. destruct (m id) as [k|] eqn:E; [|reflexivity]. exfalso. apply F. apply (T id k NZ) in E. exact (nth_error_In _ _ E).
Qed.
Print Assumptions C47_found.

(** Different databases have super blocks at different pages, all within the first
    extent and after the meta page, for any geometry that the allocator accepts
    (rc_allocator.c:240-241). *)
Theorem C47_addresses : forall ids m a b ka kb page extent, slots ids m -> a <> 0%N -> b <> 0%N -> a <> b ->
  m a = Some ka -> m b = Some kb -> (0 < page)%N -> (31 * page <= extent)%N ->
  super_addr page ka <> super_addr page kb /\ (page <= super_addr page ka)%N /\ (super_addr page ka + page <= extent)%N /\
  N.modulo (super_addr page ka) page = 0%N.
Proof.
  intros ids m a b ka kb page extent H NA NB NE EA EB P X. destruct (slots_ok _ _ H) as (L & T).
  apply (T a ka NA) in EA. apply (T b kb NB) in EB.
  assert (LA : ka < 30) by (change 30 with MAX_ROOT_IDS; rewrite <- L; apply nth_error_Some; congruence).
  assert (ND : ka <> kb) by (intros ->; congruence). unfold super_addr.
  split; [intros E; apply N.mul_cancel_r in E; [|lia]; lia|]. split; [nia|]. split; [|apply N.mod_mul; lia].
  assert ((1 + N.of_nat ka) * page + page = (2 + N.of_nat ka) * page)%N by nia.
  assert ((2 + N.of_nat ka) * page <= 31 * page)%N by (apply N.mul_le_mono_r; lia). lia.
Qed.
Print Assumptions C47_addresses.

(** Registering succeeds exactly when some slot is free. *)
Theorem C47_capacity : forall ids m id, slots ids m -> id <> 0%N ->
  ((exists r, take_slot ids id = Some r) <-> exists k, k < 30 /\ forall x, x <> 0%N -> m x <> Some k).
Proof.
  intros ids m id H NZ. destruct (slots_ok _ _ H) as (L & T). unfold take_slot. split.
  - intros (r & E). destruct (find_id ids 0 0) as [k|] eqn:F; [|discriminate]. apply find_id_some in F as (_ & F). rewrite Nat.sub_0_r in F.
    exists k. split; [change 30 with MAX_ROOT_IDS; rewrite <- L; apply nth_error_Some; congruence|].
    intros x NX E'. apply (T x k NX) in E'. congruence.
  - intros (k & LK & E). destruct (find_id ids 0 0) as [j|] eqn:F; [eexists; reflexivity|]. exfalso. apply find_id_none in F.
    destruct (nth_error ids k) as [x|] eqn:NT.
    + destruct (N.eq_dec x 0) as [->|NX]; [exact (F (nth_error_In _ _ NT))|]. apply (E x NX). apply (T x k NX). exact NT.
    + apply nth_error_None in NT. rewrite L in NT. unfold MAX_ROOT_IDS in NT. lia.
Qed.
Print Assumptions C47_capacity.

(** Three registered, the first removed, its slot taken by a fourth *)
Example slots_reused : exists ids m, slots ids m /\ m 5%N = Some 0 /\ m 3%N = Some 1 /\ m 4%N = Some 2 /\ m 2%N = None.
Proof.
  eexists _, _. split.
  - eapply (sl_take _ _ 5); [|discriminate| |].
    + eapply (sl_drop _ _ 2); [|discriminate|].
      * eapply (sl_take _ _ 4); [eapply (sl_take _ _ 3); [eapply (sl_take _ _ 2); [apply sl_new|discriminate|reflexivity|reflexivity]|discriminate|reflexivity|reflexivity]|discriminate|reflexivity|reflexivity].
      * reflexivity.
    + reflexivity.
    + reflexivity.
  - repeat split.
Qed.

(** Registering does not look whether the id is there: an id registered twice is in
    two slots, and removing it leaves it registered. *)
Theorem C47_twice_refuted : exists ids ids1 ids2 ids3 k1 k2, slots ids (fun _ => None) /\ take_slot ids 7 = Some (k1, ids1) /\
  take_slot ids1 7 = Some (k2, ids2) /\ k1 <> k2 /\ drop_slot ids2 7 = Some ids3 /\ find_id ids3 7 0 = Some k2.
Proof.
  eexists _, _, _, _, _, _. split; [apply sl_new|]. split; [reflexivity|]. split; [reflexivity|]. split; [discriminate|]. split; reflexivity.
Qed.
Print Assumptions C47_twice_refuted.
