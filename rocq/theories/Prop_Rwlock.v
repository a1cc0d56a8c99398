(** * C21: the distributed reader/writer lock excludes

    Every interleaving of any number of threads (below MAX_THREADS, which is
    itself arbitrary) that follow the lock's state machine. *)

From Coq Require Import List NArith Arith Bool Lia.
From Verif Require Import Count Rwlock RwlockProofs.
Import ListNotations.

(** A thread holds the shared lock from the return of get (or of unclaim)
    until unget or a successful try_claim gives it up. *)
Definition holds_shared (s : rw) (t : nat) : Prop :=
  match rw_pcs s t with PShared | PUnget | PClaimTas => True | _ => False end.

(** The claim, from the moment try_claim has won it. *)
Definition holds_claim (s : rw) (t : nat) : Prop :=
  match rw_pcs s t with
  | PClaimDec | PClaimed | PLockTas | PLockWait _ | PExcl | PUnlock | PUnclaimInc => True
  | _ => False
  end.

(** The exclusive lock, from the return of lock until unlock's store. *)
Definition holds_exclusive (s : rw) (t : nat) : Prop :=
  match rw_pcs s t with PExcl | PUnlock => True | _ => False end.

Definition reachable (mt : nat) (s : rw) : Prop :=
  exists sched, sched_ok mt sched /\ rw_run mt rw_init sched = Next s.

Lemma reachable_inv : forall mt s, reachable mt s -> rw_inv mt s.
Proof.
  intros mt s (sched & Hs & Hr).
  destruct (rw_run_inv mt sched rw_init Hs (rw_init_inv mt)) as (s' & H & I). congruence.
Qed.

(** No thread reads while another writes; nobody both reads and writes. *)
Theorem C21_readers_excluded : forall mt s t u,
  reachable mt s -> u < mt -> holds_exclusive s t -> ~ holds_shared s u.
Proof.
  intros mt s t u R Hu Ht Hs. apply reachable_inv in R.
  assert (X : reading (rw_pcs s u) = false).
  { apply (ri_excl mt s R t u); [|assumption]. unfold holds_exclusive in Ht.
    destruct (rw_pcs s t); tauto. }
  unfold holds_shared in Hs. destruct (rw_pcs s u); cbn in X; try discriminate; tauto.
Qed.

(** At most one thread claims, hence at most one writes. *)
Theorem C21_one_claim : forall mt s t u,
  reachable mt s -> holds_claim s t -> holds_claim s u -> t = u.
Proof.
  intros mt s t u R Ht Hu. apply reachable_inv in R.
  apply (ri_claim2 mt s R); unfold holds_claim in *;
    [destruct (rw_pcs s t) | destruct (rw_pcs s u)]; tauto.
Qed.

Theorem C21_exclusive_is_claim : forall mt s t u,
  reachable mt s -> holds_exclusive s t -> holds_claim s u -> t = u.
Proof.
  intros mt s t u R Ht Hu. apply (C21_one_claim mt s t u R); [|assumption].
  unfold holds_exclusive, holds_claim in *. destruct (rw_pcs s t); tauto.
Qed.

(** No assertion of the lock fails: in particular the uint8 read counters
    never leave {0, 1} and a lock is never taken twice. *)
Theorem C21_no_abort : forall mt sched, sched_ok mt sched -> rw_run mt rw_init sched <> Abort.
Proof.
  intros mt sched H. destruct (rw_run_inv mt sched rw_init H (rw_init_inv mt)) as (s & E & _).
  congruence.
Qed.

(** The lock can always be obtained once the other threads leave: a claimer
    that runs alone while every other thread is idle ends up with the
    exclusive lock after at most [mt + 2] steps. *)
Theorem C21_lock_progress : forall mt s t,
  reachable mt s -> t < mt -> rw_pcs s t = PClaimed ->
  (forall u, u <> t -> rw_pcs s u = PIdle) ->
  exists s', rw_run mt s (repeat (t, RUp) (mt + 3)) = Next s' /\ holds_exclusive s' t.
Proof.
  intros mt s t R Ht Hp Hidle. apply reachable_inv in R.
  assert (Hz : forall u, rw_cnt s u = 0%N).
  { intro u. rewrite (ri_cnt mt s R). destruct (Nat.eq_dec u t) as [->|].
    - now rewrite Hp. - now rewrite Hidle. }
  assert (Hcl : rw_claim s = true) by (apply (ri_claim1 mt s R t); now rewrite Hp).
  assert (Hlk : rw_lock s = false).
  { destruct (rw_lock s) eqn:E; [|reflexivity]. destruct (ri_lock2 mt s R E) as [u Hu].
    destruct (Nat.eq_dec u t) as [->|]; [rewrite Hp in Hu | rewrite Hidle in Hu by assumption]; discriminate. }
  assert (W : forall k s1, (forall u, rw_cnt s1 u = 0%N) -> k <= mt ->
            rw_pcs s1 t = PLockWait (mt - k) ->
            exists s', rw_run mt s1 (repeat (t, RUp) (S k)) = Next s' /\ holds_exclusive s' t).
  { induction k; intros s1 Hc Hk Hpc.
    - rewrite Nat.sub_0_r in Hpc. cbn [repeat rw_run]. unfold rw_step. rewrite Hpc, Nat.ltb_irrefl.
      eexists; split; [reflexivity|]. unfold holds_exclusive; cbn. now rewrite upd_same.
    - change (repeat (t, RUp) (S (S k))) with ((t, RUp) :: repeat (t, RUp) (S k)).
      cbn [rw_run]. unfold rw_step at 1. rewrite Hpc.
      replace (Nat.ltb (mt - S k) mt) with true by (symmetry; apply Nat.ltb_lt; lia).
      rewrite Hc. cbn [N.eqb]. apply IHk; [exact Hc | lia |]. cbn. rewrite upd_same.
      f_equal. lia. }
  replace (mt + 3) with (S (S (S mt))) by lia.
  change (repeat (t, RUp) (S (S (S mt)))) with ((t, RUp) :: (t, RUp) :: repeat (t, RUp) (S mt)).
  cbn [rw_run]. unfold rw_step at 1. rewrite Hp, Hcl.
  unfold rw_step at 1. cbn [rw_set rw_pcs rw_lock]. rewrite upd_same, Hlk.
  apply W; [exact Hz | lia |]. cbn. rewrite upd_same. f_equal; lia.
Qed.

(** Non-vacuity: two readers together; then one of them claims, waits for the
    other, and writes. *)
Definition get_sched (t : nat) := [(t, RUp); (t, RUp); (t, RUp); (t, RUp)].
Example C21_two_readers :
  exists s, rw_run 3 rw_init (get_sched 0 ++ get_sched 2) = Next s
            /\ holds_shared s 0 /\ holds_shared s 2.
Proof. eexists. split; [reflexivity|]. split; exact I. Qed.
Example C21_writer :
  match rw_run 3 rw_init
              (get_sched 0 ++ get_sched 2
               ++ repeat (0, RUp) 8            (* claim, lock, stuck on reader 2 *)
               ++ [(2, RDown); (2, RDown)]     (* reader 2 leaves *)
               ++ repeat (0, RUp) 2) with
  | Next s => rw_pcs s 0 = PExcl | Abort => False end.
Proof. vm_compute. reflexivity. Qed.
Example C21_claim_fails :
  exists s, rw_run 3 rw_init
              (get_sched 0 ++ get_sched 2 ++ [(0, RUp); (0, RUp); (0, RUp); (2, RUp); (2, RUp)]) = Next s
            /\ rw_pcs s 0 = PClaimed /\ rw_pcs s 2 = PUnget.
Proof. eexists. repeat split. Qed.

Print Assumptions C21_readers_excluded.
Print Assumptions C21_one_claim.
Print Assumptions C21_exclusive_is_claim.
Print Assumptions C21_no_abort.
Print Assumptions C21_lock_progress.
