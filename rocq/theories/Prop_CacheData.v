(** C49: what is written to a page is what is read from it, through eviction and
    back, and what the device has once the cache calls the page clean or is flushed. *)
From Coq Require Import List Arith Bool Lia.
From Verif Require Import Cache CacheSpec CacheLocal CacheProofs CacheClean CacheMap
  CacheData CacheDataSpec CacheDataProofs CacheFlush Prop_Cache.
Import ListNotations.
Local Open Scope nat_scope.

(** Whoever has page [a] sees in it what was last written to it, by whomever, or
    what the device had at the start. *)
Theorem C49_read : forall psz ts m0 d0 d pr i a e o v, dkept psz ts m0 d0 d pr ->
  has (base d) i a e -> o < psz -> pr a o = Some v -> mem d e o = v.
Proof.
  intros psz ts m0 d0 d pr i a e o v K H O P. destruct (dkept_J _ _ _ _ _ _ K) as [B I].
  destruct (C22_held _ _ _ _ _ B H) as (L & _ & _ & LD). eapply (j_mem _ _ _ I); eauto.
Qed.
Print Assumptions C49_read.

(** A page that is not in the cache, or is in it clean and not being modified, is
    on the device as it was last written. *)
Definition at_rest (d : dstate) (a : nat) : Prop :=
  forall e, lkp (base d) a = Some e ->
    cl (st (ents (base d) e)) = true /\ forall i, ~ locks (base d) i a.

Theorem C49_device : forall psz ts m0 d0 d pr a o v, dkept psz ts m0 d0 d pr ->
  at_rest d a -> o < psz -> pr a o = Some v -> disk d a o = v.
Proof.
  intros psz ts m0 d0 d pr a o v K R O P. destruct (dkept_J _ _ _ _ _ _ K) as [B I].
  apply (j_disk _ _ _ I _ _ _ O P). intros e L. destruct (R _ L) as [C N]. right. split; [exact C|].
  intros j t b Hj W. exfalso.
  assert (HB : has (base d) j b e) by (exists (Locked b); split; [exists t; exact Hj|reflexivity]).
  destruct (C22_held _ _ _ _ _ B HB) as (LB & DB & _).
  assert (b = a).
  { destruct (m_found _ (kept_Inv3 _ _ B) _ _ L) as [X|(k & tk & f & X)]; [congruence|].
    destruct (C22_held _ _ _ _ _ B HB) as (_ & _ & _ & LD).
    pose proof (o_load _ _ (i_ok1 _ (kept_Inv _ _ B) _ _ _ _ X) eq_refl). intuition congruence. }
  subst b. apply (N j). exists e, (Locked a). split; [exists t; exact Hj|reflexivity].
Qed.
Print Assumptions C49_device.

(** So when the cache lets go of a page, by eviction, the device has it. *)
Theorem C49_evicted : forall psz ts m0 d0 d pr a o v, dkept psz ts m0 d0 d pr ->
  lkp (base d) a = None -> o < psz -> pr a o = Some v -> disk d a o = v.
Proof. intros. eapply C49_device; eauto. intros e L. congruence. Qed.
Print Assumptions C49_evicted.

(** cache_flush, called when no call of the cache is in progress, comes to an end
    without a failed assertion; it leaves the promises and the cached pages as they
    are; and the device then has every page of the entries it went through, and every
    page that is not cached, as last written. *)
Theorem C49_flush : forall psz ts m0 d0 d pr i t es, dkept psz ts m0 d0 d pr ->
  resting (base d) -> nth_error (ags (base d)) i = Some (t, Idle) ->
  exists d' pr', flush psz i es d = Some d' /\ dkept psz ts m0 d0 d' pr' /\
    resting (base d') /\ (forall a o, pr' a o = pr a o) /\ lkp (base d') = lkp (base d) /\
    forall a o v, (forall e, lkp (base d) a = Some e -> In e es) -> o < psz ->
      pr a o = Some v -> disk d' a o = v.
Proof.
  intros psz ts m0 d0 d pr i t es K R Hi.
  destruct (flush_ok _ _ _ _ _ _ es _ _ K R Hi) as (d' & pr' & F & K' & E & R' & L & W & _).
  exists d', pr'. repeat split; auto. intros a o v C O P. rewrite <- E in P.
  eapply C49_device; eauto. intros e LE. rewrite L in LE. specialize (W e (C e LE)).
  split; [|intros j (e2 & p & [tj X] & _); specialize (R' _ _ _ X); discriminate].
  apply orb_true_iff in W as [W|W]; [|exact W].
  pose proof (dkept_kept _ _ _ _ _ _ K') as B. rewrite <- L in LE.
  destruct (m_found _ (kept_Inv3 _ _ B) _ _ LE) as [X|(k & tk & f & X)]; [|specialize (R' _ _ _ X); discriminate].
  pose proof (i_fr _ (kept_Inv _ _ B) _ W). congruence.
Qed.
Print Assumptions C49_flush.

(** ** Runs. *)
Definition M0 (e o : nat) := 100 + e.
Definition D0 (a o : nat) := 10 * a + o.
Definition D5 := dinit T5 M0 D0.
Definition P5 : promise := fun a o => Some (D0 a o).
Definition lift (l : list (nat * cmd)) : list (nat * dcmd) := map (fun x => (fst x, Base (snd x))) l.
Definition xfers (i : nat) := [(i, Xfer 1); (i, Xfer 0)].
(** As in [Prop_Cache], for pages of two words. *)
Definition d_load (i a e : nat) :=
  lift ([(i, SGet a); (i, Go A0); (i, SPick e)] ++ go i 5) ++ xfers i ++ lift (go i 1).
Definition d_get i a := lift (r_get i a).
Definition d_lock i := lift (r_lock i).
Definition d_mark i := lift [(i, Go A1)].
Definition d_put i o v : list (nat * dcmd) := [(i, Put o v)].
(** Unlocks, unclaims and gives back. *)
Definition d_rel i := lift (go i 5).
Definition d_evict i e := lift (r_pass i e ++ r_evict i e).
(** Writes the page in entry [e], found by the batch; its accessed flag is clear. *)
Definition d_write i e := lift [(i, SWb e true); (i, Go A0)] ++
  [(i, Prep); (i, Prep)] ++ xfers i ++ lift (go i 2).

Lemma drun_ex l (chk : dstate -> promise -> bool) :
  match drun 2 all_rules D5 P5 l with Some (d, pr) => chk d pr | None => false end = true ->
  exists d pr, dkept 2 T5 M0 D0 d pr /\ chk d pr = true.
Proof.
  intros H. destruct (drun 2 all_rules D5 P5 l) as [[d pr]|] eqn:E; [|discriminate].
  exists d, pr. split; [|exact H]. exact (drun_kept 2 T5 M0 D0 l D5 P5 d pr (dk_init _ _ _ _) E).
Qed.

(** Agent 0 has changed a word of page 7 and marked it; the page was written,
    evicted, and loaded into another entry; agent 1 has it there. *)
Definition d_change i o v := d_lock i ++ d_put i o v ++ d_mark i ++ d_rel i.
Definition read_run :=
  lift [(0, SAcq 0); (1, SAcq 1)] ++ d_load 0 7 0 ++ d_change 0 1 5 ++
  lift (r_pass 0 0) ++ d_write 3 0 ++ lift (r_evict 0 0).
Definition bopt (x : option nat) (v : nat) := match x with Some w => w =? v | None => false end.
Definition is_none (x : option nat) := match x with None => true | _ => false end.
Definition at_pc (d : dstate) (i e : nat) (p : lpc -> bool) :=
  match nth_error (ags (base d)) i with
  | Some (_, On e' q) => (e' =? e) && p q
  | _ => false
  end.
Definition is_held a p := match p with Held b => b =? a | _ => false end.


Lemma bopt_ok x v : bopt x v = true -> x = Some v.
Proof. destruct x; cbn; intros H; [apply Nat.eqb_eq in H; congruence|discriminate]. Qed.
Lemma is_none_ok x : is_none x = true -> x = None.
Proof. destruct x; [discriminate|reflexivity]. Qed.
Lemma at_pc_has d i e a : at_pc d i e (is_held a) = true -> has (base d) i a e.
Proof.
  unfold at_pc. destruct (nth_error _ i) as [[t x]|] eqn:H; [|discriminate].
  destruct x as [| | |e' p]; try discriminate. intros C. apply andb_true_iff in C as [A B].
  apply Nat.eqb_eq in A. subst e'. destruct p; try discriminate. exists (Held a0).
  split; [exists t; exact H|]. apply Nat.eqb_eq in B. exact B.
Qed.

Example C49_read_ex : exists d pr, dkept 2 T5 M0 D0 d pr /\ has (base d) 1 7 64 /\
  pr 7 1 = Some 5 /\ pr 7 0 = Some 70 /\ mem d 64 1 = 5.
Proof.
  destruct (drun_ex (read_run ++ d_load 1 7 64)
    (fun d pr => at_pc d 1 64 (is_held 7) && bopt (pr 7 1) 5 && bopt (pr 7 0) 70 && (mem d 64 1 =? 5)))
    as (d & pr & K & C); [vm_compute; reflexivity|].
  exists d, pr. split; [exact K|]. apply andb_true_iff in C as [C C4]. apply andb_true_iff in C as [C C3].
  apply andb_true_iff in C as [C1 C2]. apply Nat.eqb_eq in C4.
  split; [apply at_pc_has; exact C1|]. repeat split; auto using bopt_ok.
Qed.

(** The page is not cached and the device has what was written. *)
Example C49_evicted_ex : exists d pr, dkept 2 T5 M0 D0 d pr /\ lkp (base d) 7 = None /\
  pr 7 1 = Some 5 /\ disk d 7 1 = 5 /\ D0 7 1 = 71.
Proof.
  destruct (drun_ex read_run
    (fun d pr => is_none (lkp (base d) 7) && bopt (pr 7 1) 5 && (disk d 7 1 =? 5)))
    as (d & pr & K & C); [vm_compute; reflexivity|].
  exists d, pr. split; [exact K|]. apply andb_true_iff in C as [C C3]. apply andb_true_iff in C as [C1 C2].
  apply Nat.eqb_eq in C3. repeat split; auto using bopt_ok, is_none_ok.
Qed.

(** The page is cached, clean and read by agent 1. *)
Example C49_device_ex : exists d pr, dkept 2 T5 M0 D0 d pr /\ lkp (base d) 7 = Some 64 /\
  at_rest d 7 /\ pr 7 1 = Some 5.
Proof.
  destruct (drun_ex (read_run ++ d_load 1 7 64)
    (fun d pr => bopt (lkp (base d) 7) 64 && cl (st (ents (base d) 64)) && bopt (pr 7 1) 5 &&
       forallb (fun x => match x with On _ (Locked _) => false | _ => true end) (places (base d))))
    as (d & pr & K & C); [vm_compute; reflexivity|].
  exists d, pr. split; [exact K|]. apply andb_true_iff in C as [C C4]. apply andb_true_iff in C as [C C3].
  apply andb_true_iff in C as [C1 C2]. apply bopt_ok in C1. split; [exact C1|]. split; [|auto using bopt_ok].
  intros e L. assert (e = 64) by congruence. subst e. split; [exact C2|].
  intros i (e & p & [t H] & P). rewrite forallb_forall in C4.
  assert (X : In (On e p) (places (base d))) by (unfold places; change (On e p) with (snd (t, On e p)); apply in_map; eapply nth_error_In; eauto).
  specialize (C4 _ X). destruct p; cbn in *; try contradiction; discriminate.
Qed.

(** A dirty page, and nobody uses the cache: flushing entries 0 to 3 by agent 2. *)
Definition restingb (d : dstate) :=
  forallb (fun x => match x with Idle => true | _ => false end) (places (base d)).
Lemma restingb_ok d : restingb d = true -> resting (base d).
Proof.
  intros R j t x H. unfold restingb in R. rewrite forallb_forall in R.
  assert (X : In x (places (base d))) by (unfold places; change x with (snd (t, x)); apply in_map; eapply nth_error_In; eauto).
  specialize (R _ X). destruct x; [reflexivity|discriminate..].
Qed.
Example C49_flush_ex : exists d pr, dkept 2 T5 M0 D0 d pr /\ resting (base d) /\
  nth_error (ags (base d)) 2 = Some (2, Idle) /\
  lkp (base d) 7 = Some 0 /\ pr 7 1 = Some 5 /\ disk d 7 1 = 71 /\
  (exists d', flush 2 2 (seq 0 4) d = Some d' /\ disk d' 7 1 = 5).
Proof.
  destruct (drun_ex (lift [(0, SAcq 0)] ++ d_load 0 7 0 ++ d_change 0 1 5)
    (fun d pr => restingb d && bopt (lkp (base d) 7) 0 && bopt (pr 7 1) 5 && (disk d 7 1 =? 71) &&
       match nth_error (ags (base d)) 2 with Some (t, Idle) => t =? 2 | _ => false end &&
       match flush 2 2 (seq 0 4) d with Some d' => disk d' 7 1 =? 5 | None => false end))
    as (d & pr & K & C); [vm_compute; reflexivity|].
  exists d, pr. split; [exact K|]. apply andb_true_iff in C as [C C6]. apply andb_true_iff in C as [C C5].
  apply andb_true_iff in C as [C C4]. apply andb_true_iff in C as [C C3]. apply andb_true_iff in C as [C1 C2].
  split; [apply restingb_ok; exact C1|].
  split; [destruct (nth_error _ 2) as [[t x]|]; [|discriminate]; destruct x; try discriminate; apply Nat.eqb_eq in C5; congruence|].
  apply Nat.eqb_eq in C4. split; [auto using bopt_ok|]. split; [auto using bopt_ok|]. split; [exact C4|].
  destruct (flush 2 2 (seq 0 4) d) as [d'|]; [|discriminate]. exists d'. split; [reflexivity|apply Nat.eqb_eq; exact C6].
Qed.

(** ** Runs that break the property. *)
Lemma dwhile_ex l ok (P : dstate -> nat -> dcmd -> Prop) (chk : dstate -> promise -> bool) :
  (forall d i c, ok d i c = true -> P d i c) ->
  match drun 2 ok D5 P5 l with Some (d, pr) => chk d pr | None => false end = true ->
  exists d pr, dwhile 2 T5 M0 D0 P d pr /\ chk d pr = true.
Proof.
  intros O H. destruct (drun 2 ok D5 P5 l) as [[d pr]|] eqn:E; [|discriminate].
  exists d, pr. split; [|exact H].
  exact (drun_while 2 T5 M0 D0 ok P l O D5 P5 d pr (dr_init _ _ _ _ _) E).
Qed.

(** Only the caller's rules: entries may be reused at any moment. *)
Definition by_rules (d : dstate) (i : nat) (c : dcmd) : Prop := rules d i c /\ unlock_rule d i c.
Definition by_rulesb (d : dstate) (i : nat) (c : dcmd) : bool := rulesb d i c && unlockb d i c.
Lemma by_rulesb_ok d i c : by_rulesb d i c = true -> by_rules d i c.
Proof. intros H. apply andb_true_iff in H as [A B]. split; [apply rulesb_ok; exact A|apply unlockb_ok; exact B]. Qed.

(** The batch writeback looks at the pages around the one it found (1356, 1369),
    remembers their entries, and sets the writeback flag later.  Here page 7's
    entry was given to page 8 in between; page 7 is in entry 64.  The writeback
    flag is set for page 8's entry; but the buffer is looked up again (1391), and with
    it the entry that the end of the I/O marks (1281), and they are page 7's: while
    agent 2 has page 7 write locked and has marked it dirty, it becomes clean.  It is
    then evicted, and what agent 2 wrote is lost; and page 8's entry keeps the writeback
    flag though nobody is writing it. *)
Definition d_alloc i a e := lift (r_alloc i a e).
Definition near_run :=
  lift [(0, SAcq 0); (2, SAcq 1)] ++
  d_load 0 7 0 ++ lift (r_unget 0) ++
  [(1, Near 7 false)] ++                     (* finds entry 0 *)
  d_evict 0 0 ++
  d_alloc 0 8 0 ++ d_put 0 0 8 ++ lift (go 0 6) ++ lift (r_pass 0 0) ++
  lift [(1, Go A0)] ++                       (* sets the flag in entry 0 *)
  d_load 2 7 64 ++ d_lock 2 ++
  [(1, Prep)] ++ xfers 1 ++
  d_put 2 1 9 ++ d_mark 2 ++
  lift (go 1 2) ++                           (* makes entry 64 clean *)
  d_rel 2 ++ d_evict 2 64.
Theorem C49_neighbour_refuted : exists d pr, dwhile 2 T5 M0 D0 by_rules d pr /\
  resting (base d) /\ lkp (base d) 7 = None /\ pr 7 1 = Some 9 /\ disk d 7 1 = 71 /\
  lkp (base d) 8 = Some 0 /\ wb (st (ents (base d) 0)) = true.
Proof.
  destruct (dwhile_ex near_run by_rulesb by_rules
    (fun d pr => restingb d && is_none (lkp (base d) 7) && bopt (pr 7 1) 9 && (disk d 7 1 =? 71) &&
       bopt (lkp (base d) 8) 0 && wb (st (ents (base d) 0))) by_rulesb_ok)
    as (d & pr & K & C); [vm_compute; reflexivity|].
  exists d, pr. split; [exact K|]. apply andb_true_iff in C as [C C6]. apply andb_true_iff in C as [C C5].
  apply andb_true_iff in C as [C C4]. apply andb_true_iff in C as [C C3]. apply andb_true_iff in C as [C1 C2].
  apply Nat.eqb_eq in C4. repeat split; auto using bopt_ok, is_none_ok, restingb_ok.
Qed.
Print Assumptions C49_neighbour_refuted.

(** If page 7 is in no entry when the buffer is looked up, the code takes the entry
    numbered "unmapped" (722), outside the array. *)
Definition gone_run :=
  lift [(0, SAcq 0)] ++
  d_load 0 7 0 ++ lift (r_unget 0) ++
  [(1, Near 7 false)] ++
  d_evict 0 0 ++
  d_alloc 0 8 0 ++ d_put 0 0 8 ++ lift (go 0 6) ++ lift (r_pass 0 0) ++
  lift [(1, Go A0)].
Theorem C49_unmapped_refuted : exists d pr, dwhile 2 T5 M0 D0 by_rules d pr /\
  at_entry (base d) 1 0 W1 /\ x_addr (exts d 1) = Some 7 /\ lkp (base d) 7 = None /\
  dstep 2 d 1 Prep = None.
Proof.
  destruct (dwhile_ex gone_run by_rulesb by_rules
    (fun d pr => at_pc d 1 0 (fun p => match p with W1 => true | _ => false end) &&
       bopt (x_addr (exts d 1)) 7 && is_none (lkp (base d) 7) &&
       match dstep 2 d 1 Prep with None => true | Some _ => false end) by_rulesb_ok)
    as (d & pr & K & C); [vm_compute; reflexivity|].
  exists d, pr. split; [exact K|]. apply andb_true_iff in C as [C C4]. apply andb_true_iff in C as [C C3].
  apply andb_true_iff in C as [C1 C2].
  split; [|split; [auto using bopt_ok|split; [auto using is_none_ok|destruct (dstep 2 d 1 Prep); [discriminate|reflexivity]]]].
  unfold at_pc in C1. destruct (nth_error _ 1) as [[t x]|] eqn:H; [|discriminate].
  destruct x as [| | |e' p]; try discriminate. apply andb_true_iff in C1 as [A B].
  apply Nat.eqb_eq in A. subst e'. destruct p; try discriminate. exists t. exact H.
Qed.
Print Assumptions C49_unmapped_refuted.

(** cache_page_sync reads the page's address (2700) before it sets the writeback
    flag (2704).  trunk.c calls it for a page it has given back (956-957): its entry
    may have been given to another page by then.  Here page 8's words are written to
    page 7's address, and page 8 becomes clean; both pages are lost. *)
Definition sync_run :=
  lift [(0, SAcq 0)] ++
  d_load 0 7 0 ++ lift (r_unget 0) ++
  lift [(1, SSync 0)] ++                     (* reads address 7 *)
  d_evict 0 0 ++
  d_alloc 0 8 0 ++ d_put 0 0 33 ++ d_put 0 1 34 ++ lift (go 0 6) ++ lift (r_pass 0 0) ++
  lift [(1, Go A0)] ++ xfers 1 ++ lift (go 1 2) ++
  lift (r_evict 0 0).
Theorem C49_sync_refuted : exists d pr, dwhile 2 T5 M0 D0 by_rules d pr /\
  resting (base d) /\ lkp (base d) 7 = None /\ lkp (base d) 8 = None /\
  pr 7 0 = Some 70 /\ disk d 7 0 = 33 /\ pr 8 0 = Some 33 /\ disk d 8 0 = 80.
Proof.
  destruct (dwhile_ex sync_run by_rulesb by_rules
    (fun d pr => restingb d && is_none (lkp (base d) 7) && is_none (lkp (base d) 8) && bopt (pr 7 0) 70 &&
       (disk d 7 0 =? 33) && bopt (pr 8 0) 33 && (disk d 8 0 =? 80)) by_rulesb_ok)
    as (d & pr & K & C); [vm_compute; reflexivity|].
  exists d, pr. split; [exact K|]. apply andb_true_iff in C as [C C7]. apply andb_true_iff in C as [C C6]. apply andb_true_iff in C as [C C5].
  apply andb_true_iff in C as [C C4]. apply andb_true_iff in C as [C C3]. apply andb_true_iff in C as [C1 C2].
  apply Nat.eqb_eq in C5. apply Nat.eqb_eq in C7. repeat split; auto using bopt_ok, is_none_ok, restingb_ok.
Qed.
Print Assumptions C49_sync_refuted.

(** Callers that do not mark what they write. *)
Definition unmarked (d : dstate) (i : nat) (c : dcmd) : Prop := rules d i c /\ no_reuse d i.
Definition unmarkedb (d : dstate) (i : nat) (c : dcmd) : bool := rulesb d i c && reuseb d i.
Lemma unmarkedb_ok d i c : unmarkedb d i c = true -> unmarked d i c.
Proof. intros H. apply andb_true_iff in H as [A B]. split; [apply rulesb_ok; exact A|apply reuseb_ok; exact B]. Qed.

(** shard_log_write (shard_log.c 216-279) gets, claims, locks, writes and unlocks
    the page of its thread without cache_mark_dirty.  The page is dirty from its
    allocation on, but once a cleaner has written it, later log entries are neither
    written back nor synced: here word 1, and the page_sync of the page (256), made
    while agent 0 still has it, finds it clean. *)
Definition log_start :=
  lift [(0, SAcq 0)] ++ d_alloc 0 7 0 ++ d_put 0 0 21 ++ d_put 0 1 0 ++ lift (go 0 6) ++
  lift (r_pass 0 0) ++ d_write 3 0 ++                        (* a cleaner *)
  lift ([(0, SGet 7)] ++ go 0 9) ++ d_lock 0 ++ d_put 0 1 22.
Definition log_sync :=
  log_start ++ lift (go 0 2 ++ [(1, SSync 0)] ++ go 1 3) ++ lift (go 0 3).
Theorem C49_log_refuted : exists d pr, dwhile 2 T5 M0 D0 unmarked d pr /\
  resting (base d) /\ pr 7 1 = Some 22 /\ disk d 7 1 = 0 /\ cl (st (ents (base d) 0)) = true.
Proof.
  destruct (dwhile_ex log_sync unmarkedb unmarked
    (fun d pr => restingb d && bopt (pr 7 1) 22 && (disk d 7 1 =? 0) && cl (st (ents (base d) 0))) unmarkedb_ok)
    as (d & pr & K & C); [vm_compute; reflexivity|].
  exists d, pr. split; [exact K|]. apply andb_true_iff in C as [C C4]. apply andb_true_iff in C as [C C3].
  apply andb_true_iff in C as [C1 C2].
  apply Nat.eqb_eq in C3. repeat split; auto using bopt_ok, is_none_ok, restingb_ok.
Qed.
Print Assumptions C49_log_refuted.
