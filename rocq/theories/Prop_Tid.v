(** * C34: thread ids are unique

    Any number of operating-system threads, any interleaving of
    registrations, deregistrations and thread creations, any number [W] of
    bitmask words (the code has W = 1, MAX_THREADS = 64). *)

From Coq Require Import List NArith Arith Bool Lia.
From Verif Require Import Count Tid TidProofs.
Import ListNotations.

(** The id a thread is using, or is in the middle of taking or returning. *)
Definition uses_id (s : ts) (p t : nat) : Prop :=
  ts_own s p = Some t \/
  match ts_pcs s p with
  | TRel _ u | TMax _ u | TMaxCas _ u _ | TGot _ u | TStart u
  | TDAcq u | TDCheck u | TDRead u | TDCas u _ => u = t
  | _ => False
  end.

Lemma using_slot : forall s p t, uses_id s p t <-> exists b, holds (ts_own s) (ts_pcs s) (p, b) = Some t.
Proof.
  intros s p t. unfold uses_id, holds. cbn. split.
  - intros [H|H]; [exists true; assumption|]. exists false. destruct (ts_pcs s p); cbn; try tauto; congruence.
  - intros [[] H]; [auto|]. right. destruct (ts_pcs s p); cbn in H; try discriminate; congruence.
Qed.

(** Two threads never use the same id, not even while one of them is still
    registering, being created, or deregistering. *)
Theorem C34_unique : forall W main s p q t,
  t_reach W main s -> uses_id s p t -> uses_id s q t -> p = q.
Proof.
  intros W main s p q t R Hp Hq. apply t_reach_inv in R.
  apply using_slot in Hp. apply using_slot in Hq. destruct Hp as [a Hp], Hq as [b Hq].
  pose proof (hi_uniq _ _ _ (ti_hold _ _ R) _ _ _ Hp Hq) as X. congruence.
Qed.

(** Ids are below the maximum, and the published high-water mark covers every
    registered thread. *)
Theorem C34_bounded : forall W main s p t,
  t_reach W main s -> ts_own s p = Some t -> t < 64 * W /\ t <= ts_max s.
Proof.
  intros W main s p t R H. apply t_reach_inv in R. split.
  - apply (hi_busy _ _ _ (ti_hold _ _ R) (p, true) t). exact H.
  - apply (ti_own_max _ _ R p t H).
Qed.

(** A registration (or thread creation) that gives up does so with every id
    in use at that moment. *)
Theorem C34_fails_only_when_full : forall W main s p q t,
  t_reach W main s -> ts_pcs s p = TRelFail q -> t < 64 * W -> exists u, uses_id s u t.
Proof.
  intros W main s p q t R Hp Ht. apply t_reach_inv in R.
  pose proof (ti_pc _ _ R p) as K. rewrite Hp in K. cbn [pc_ok] in K.
  assert (Hw : t / 64 < W) by (apply Nat.div_lt_upper_bound; lia).
  specialize (K (t / 64) Hw). unfold ffsl in K.
  pose proof (ffs_from_none _ _ _ K (t mod 64)) as F.
  pose proof (Nat.mod_upper_bound t 64 ltac:(lia)) as Hm. specialize (F ltac:(lia)).
  destruct (hi_held _ _ _ (ti_hold _ _ R) t Ht F) as [[u b] Hu].
  exists u. apply using_slot. now exists b.
Qed.

(** Nothing aborts, whatever the interleaving. *)
Theorem C34_no_abort : forall W main s p r,
  t_reach W main s -> t_legal s p r -> t_step W s p r <> TAbort.
Proof. intros. apply t_step_no_abort; [eapply t_reach_inv; eauto | assumption]. Qed.

(** A scratch area is only ever attached to an id somebody is using. *)
Theorem C34_scratch_owned : forall W main s t,
  t_reach W main s -> ts_scratch s t = true -> exists p, uses_id s p t.
Proof.
  intros W main s t R H. apply t_reach_inv in R.
  destruct (ti_scratch _ _ R t H) as [p [Hp|Hp]]; exists p; [now left|].
  right. now rewrite Hp.
Qed.

(** Reuse: whenever some id is not in use and the id lock is free, a thread
    that registers and runs on its own gets one of the ids not in use
    (memory permitting), whoever used it before. *)
Fixpoint solo (W : nat) (s : ts) (p : nat) (rs : list t_req) : t_res :=
  match rs with
  | [] => TNext s
  | r :: rs => match t_step W s p r with TAbort => TAbort | TNext s' => solo W s' p rs end
  end.
Definition go := RGo true true true.

Lemma solo_app : forall W rs1 rs2 s p s1, solo W s p rs1 = TNext s1 ->
  solo W s p (rs1 ++ rs2) = solo W s1 p rs2.
Proof.
  induction rs1; intros rs2 s p s1 H; cbn in *; [congruence|].
  destruct (t_step W s p a); [discriminate|]. auto.
Qed.

Lemma solo_scan : forall W s p q n i,
  ts_pcs s p = TScan q i -> n + i = W ->
  (exists j, i <= j < W /\ ffsl (ts_bits s j) <> None) ->
  exists k s' j pos, solo W s p (repeat go k) = TNext s' /\ j < W /\
    ffsl (ts_bits s j) = Some pos /\ ts_pcs s' p = TCas q j (ts_bits s j) pos /\
    ts_bits s' = ts_bits s /\ ts_own s' = ts_own s /\ ts_scratch s' = ts_scratch s.
Proof.
  intros W s p q n. revert s. induction n; intros s i Hp Hn [j [Hj Hf]]; [lia|].
  destruct (ffsl (ts_bits s i)) as [pos|] eqn:E.
  - exists 1, (goto s p (TCas q i (ts_bits s i) pos)), i, pos. cbn [repeat solo]. unfold t_step. rewrite Hp.
    destruct (Nat.ltb_spec i W); [|lia]. rewrite E. repeat split; auto. cbn. now rewrite upd_same.
  - destruct (IHn (goto s p (TScan q (S i))) (S i)) as (k & s' & j' & pos & H1 & H2 & H3 & H4 & H5 & H6 & H7).
    + cbn. now rewrite upd_same.
    + lia.
    + exists j. split; [|assumption]. destruct (Nat.eq_dec j i) as [->|]; [congruence|lia].
    + exists (S k), s', j', pos. cbn [repeat solo]. unfold t_step at 1. rewrite Hp.
      destruct (Nat.ltb_spec i W); [|lia]. rewrite E. repeat split; auto.
Qed.

Theorem C34_reuse : forall W main s p sz t,
  t_reach W main s -> ts_pcs s p = TIdle -> ts_own s p = None -> ts_lock s = false ->
  t < 64 * W -> (forall u, ~ uses_id s u t) ->
  exists k s' t', solo W s p (RRegister sz :: repeat go k) = TNext s' /\
    ts_pcs s' p = TIdle /\ ts_own s' p = Some t' /\ t' < 64 * W /\ (forall u, ~ uses_id s u t') /\
    ts_lock s' = false /\ ts_scratch s' t' = sz.
Proof.
  intros W main s p sz t R Hi Ho Hl Ht Hfree. apply t_reach_inv in R.
  assert (Hft : is_free (ts_bits s) t = true).
  { destruct (is_free (ts_bits s) t) eqn:E; [reflexivity|]. exfalso.
    destruct (hi_held _ _ _ (ti_hold _ _ R) t Ht E) as [[u b] Hu]. apply (Hfree u), using_slot. now exists b. }
  assert (Hw : t / 64 < W) by (apply Nat.div_lt_upper_bound; lia).
  pose proof (Nat.mod_upper_bound t 64 ltac:(lia)) as Hm.
  remember (Ts true (ts_bits s) (ts_max s) (ts_scratch s) (ts_own s)
               (upd (upd (ts_pcs s) p (TAcq (ForSelf sz))) p (TScan (ForSelf sz) 0)) (ts_live s)) as s1 eqn:E1.
  assert (S1 : solo W s p [RRegister sz; go] = TNext s1).
  { cbn [solo]. unfold t_step at 1. rewrite Hi, Ho. unfold t_step. cbn [ts_pcs goto]. rewrite upd_same.
    cbn [ts_lock goto]. rewrite Hl. rewrite E1. reflexivity. }
  destruct (solo_scan W s1 p (ForSelf sz) W 0) as (k & s2 & j & pos & H1 & H2 & H3 & H4 & H5 & H6 & H7).
  { subst s1. cbn. now rewrite upd_same. }
  { lia. }
  { exists (t / 64). split; [lia|]. subst s1. cbn [ts_bits]. intro X. unfold ffsl in X.
    pose proof (ffs_from_none _ _ _ X (t mod 64) ltac:(lia)) as Y. unfold is_free in Hft. congruence. }
  rewrite E1 in H3, H4, H5, H6, H7. cbn [ts_bits ts_own ts_scratch] in *.
  unfold ffsl in H3. apply ffs_from_some in H3. destruct H3 as [Hp1 Hp2].
  assert (Hpos : pos < 64) by lia.
  remember (pos + j * 64) as t' eqn:Et'.
  assert (Hlt' : t' < 64 * W) by nia.
  assert (Hf' : is_free (ts_bits s) t' = true).
  { unfold is_free. rewrite Et'. destruct (tid_split pos j Hpos) as [-> ->]. assumption. }
  assert (Hun : forall u, ~ uses_id s u t').
  { intros u Hu. apply using_slot in Hu. destruct Hu as [b Hu].
    destruct (hi_busy _ _ _ (ti_hold _ _ R) _ _ Hu). congruence. }
  assert (Hscr : ts_scratch s t' = false).
  { destruct (ts_scratch s t') eqn:E; [|reflexivity]. exfalso.
    destruct (ti_scratch _ _ R t' E) as [q [Hq|Hq]]; apply (Hun q); [now left|]. right. now rewrite Hq. }
  (* the remaining steps: cas, unlock, high-water mark, finish *)
  assert (Fin : exists m s', solo W s2 p (repeat go m) = TNext s' /\ ts_pcs s' p = TIdle /\
     ts_own s' p = Some t' /\ ts_lock s' = false /\ ts_scratch s' t' = sz).
  { destruct (Nat.ltb (ts_max s2) t') eqn:Emx.
    - exists 5. cbn [repeat solo]. unfold t_step at 1. rewrite H4, H5, N.eqb_refl.
      unfold t_step at 1. cbn [ts_pcs]. rewrite upd_same.
      unfold t_step at 1. cbn [ts_pcs]. rewrite upd_same. cbn [ts_max]. rewrite <- Et', Emx.
      unfold t_step at 1, goto. cbn [ts_pcs]. rewrite upd_same. cbn [ts_max]. rewrite Nat.eqb_refl.
      unfold t_step, go. cbn [ts_pcs]. rewrite upd_same. cbn [ts_scratch]. rewrite H7, Hscr.
      destruct (Nat.ltb_spec t' (64 * W)); [|lia]. cbn [negb]. rewrite andb_false_r.
      eexists. split; [reflexivity|]. cbn. rewrite !upd_same. auto.
    - exists 4. cbn [repeat solo]. unfold t_step at 1. rewrite H4, H5, N.eqb_refl.
      unfold t_step at 1. cbn [ts_pcs]. rewrite upd_same.
      unfold t_step at 1. cbn [ts_pcs]. rewrite upd_same. cbn [ts_max]. rewrite <- Et', Emx.
      unfold t_step, go, goto. cbn [ts_pcs]. rewrite upd_same. cbn [ts_scratch]. rewrite H7, Hscr.
      destruct (Nat.ltb_spec t' (64 * W)); [|lia]. cbn [negb]. rewrite andb_false_r.
      eexists. split; [reflexivity|]. cbn. rewrite !upd_same. auto. }
  destruct Fin as (m & s' & F1 & F2 & F3 & F4 & F5).
  exists (1 + k + m), s', t'. repeat split; auto.
  replace (RRegister sz :: repeat go (1 + k + m)) with ([RRegister sz; go] ++ repeat go k ++ repeat go m)
    by (cbn; rewrite <- repeat_app; reflexivity).
  rewrite (solo_app _ _ _ _ _ _ S1), (solo_app _ _ _ _ _ _ H1). assumption.
Qed.

(** The id lock is never left behind: once no thread is inside an id
    allocation or release, it is free (so the premise of [C34_reuse] holds
    again after every call, successful or not). *)
Definition inside (c : t_pc) : Prop :=
  match c with
  | TScan _ _ | TCas _ _ _ _ | TRelFail _ | TRel _ _ | TDCheck _ | TDRead _ | TDCas _ _ | TDRel => True
  | _ => False
  end.
Theorem C34_lock_released : forall W main s,
  t_reach W main s -> (forall p, ~ inside (ts_pcs s p)) -> ts_lock s = false.
Proof.
  intros W main s R H. destruct (ts_lock s) eqn:E; [|reflexivity]. exfalso.
  destruct (lock_has_owner W main s R E) as [p Hp]. apply (H p). destruct (ts_pcs s p); cbn in *; try discriminate; exact I.
Qed.

(** ** Non-vacuity *)

Definition regs (p : nat) : list (nat * t_req) := (p, RRegister true) :: repeat (p, go) 7.
Definition dereg (p : nat) : list (nat * t_req) := (p, RDeregister) :: repeat (p, go) 5.
Fixpoint sched (W : nat) (s : ts) (l : list (nat * t_req)) : t_res :=
  match l with
  | [] => TNext s
  | (p, r) :: l => match t_step W s p r with TAbort => TAbort | TNext s' => sched W s' l end
  end.

(* Main registers, creates two threads, the first ends, and its id is given
   to the next thread created. *)
Example tid_reuse :
  match sched 1 (ts_init 0)
     (regs 0 ++ ((0, RCreate true 1) :: repeat (0, go) 7) ++ [(1, go)]
      ++ ((0, RCreate false 2) :: repeat (0, go) 7) ++ [(2, go)]
      ++ dereg 1 ++ ((0, RCreate true 3) :: repeat (0, go) 7) ++ [(3, go)]) with
  | TNext s => (map (ts_own s) [0;1;2;3], ts_max s, map (ts_scratch s) [0;1;2])
               = ([Some 0; None; Some 2; Some 1], 2, [true; true; false])
  | TAbort => False
  end.
Proof. vm_compute. reflexivity. Qed.

(* The 65th concurrent registration reaches the failure exit. *)
Fixpoint children (n : nat) : list (nat * t_req) :=
  match n with O => [] | S n => children n ++ (0, RCreate false (S n)) :: repeat (0, go) 7 end.
Example tid_full :
  match sched 1 (ts_init 0) (regs 0 ++ children 63 ++ [(0, RCreate false 64); (0, go); (0, go); (0, go)]) with
  | TNext s => ts_pcs s 0 = TRelFail (ForChild false 64)
  | TAbort => False
  end.
Proof. vm_compute. reflexivity. Qed.

Print Assumptions C34_unique.
Print Assumptions C34_bounded.
Print Assumptions C34_fails_only_when_full.
Print Assumptions C34_no_abort.
Print Assumptions C34_scratch_owned.
Print Assumptions C34_reuse.
Print Assumptions C34_lock_released.
