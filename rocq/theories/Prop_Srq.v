(** * C37: the space reclamation queue returns the most urgent item *)

From Coq Require Import List Arith NArith Bool Lia.
From Verif Require Import Srq SrqProofs.
Import ListNotations.

(** ** Specification: a map from handles to items with a priority *)

Record item := Item { it_addr : N; it_gen : N; it_prio : N }.

Inductive sop := SInsert (i : item) | SExtract | SDelete (h : nat) | SUpdate (h : nat) (p : N).
Inductive sres := RHandle (h : nat) | RItem (h : nat) (i : item) | RNone | RDone.

Definition items := nat -> option item.

(** Priorities passed to update are 32-bit numbers. *)
Inductive spec_step (cap : nat) : items -> sop -> sres -> items -> Prop :=
| sp_insert : forall m m' i h,
    h < cap -> m h = None -> m' h = Some i -> (forall x, x <> h -> m' x = m x) ->
    spec_step cap m (SInsert i) (RHandle h) m'
| sp_extract_none : forall m, (forall h, m h = None) -> spec_step cap m SExtract RNone m
| sp_extract : forall m m' h i,
    m h = Some i -> (forall x j, m x = Some j -> (it_prio j <= it_prio i)%N) ->
    m' h = None -> (forall x, x <> h -> m' x = m x) ->
    spec_step cap m SExtract (RItem h i) m'
| sp_delete : forall m m' h i,
    m h = Some i -> m' h = None -> (forall x, x <> h -> m' x = m x) ->
    spec_step cap m (SDelete h) (RItem h i) m'
| sp_update : forall m m' h i p,
    m h = Some i -> m' h = Some (Item (it_addr i) (it_gen i) (p mod 2 ^ 32)%N) ->
    (forall x, x <> h -> m' x = m x) ->
    spec_step cap m (SUpdate h p) RDone m'.

Inductive spec_run (cap : nat) : items -> list sop -> list sres -> items -> Prop :=
| sr_nil : forall m, spec_run cap m [] [] m
| sr_cons : forall m m' m'' o os r rs,
    spec_step cap m o r m' -> spec_run cap m' os rs m'' ->
    spec_run cap m (o :: os) (r :: rs) m''.

(** ** The code *)

Definition item_of (d : srq_data) : item := Item (sd_addr d) (sd_generation d) (sd_priority d).

Definition code_step (cap : nat) (q : srq) (o : sop) : option (srq * sres) :=
  match o with
  | SInsert i =>
      match srq_insert cap q (it_addr i) (it_gen i) (it_prio i) with
      | Some (q', h) => Some (q', RHandle h)
      | None => None
      end
  | SExtract =>
      match srq_extract_max q with
      | Some (q', Some d) => Some (q', RItem (sd_idx d) (item_of d))
      | Some (q', None) => Some (q', RNone)
      | None => None
      end
  | SDelete h =>
      match srq_delete q h with
      | Some (q', d) => Some (q', RItem h (item_of d))
      | None => None
      end
  | SUpdate h p =>
      match srq_update q h p with
      | Some q' => Some (q', RDone)
      | None => None
      end
  end.

Fixpoint code_run (cap : nat) (q : srq) (os : list sop) : option (srq * list sres) :=
  match os with
  | [] => Some (q, [])
  | o :: os' =>
      match code_step cap q o with
      | Some (q1, r) =>
          match code_run cap q1 os' with
          | Some (q2, rs) => Some (q2, r :: rs)
          | None => None
          end
      | None => None
      end
  end.

Definition sim (q : srq) (m : items) : Prop := forall h, m h = option_map item_of (srq_get q h).

Definition items_of (q : srq) : items := fun h => option_map item_of (srq_get q h).

Lemma step_sim : forall cap q o q' r, wf cap q -> code_step cap q o = Some (q', r) ->
  wf cap q' /\ spec_step cap (items_of q) o r (items_of q').
Proof.
  intros cap q o q' r W E. unfold items_of. destruct o as [i| |h|h p]; simpl in E.
  - destruct (Nat.eq_dec (srq_num q) cap) as [F|F]; [rewrite insert_full in E by auto; discriminate|].
    assert (srq_num q < cap) by (destruct W as [[C _ _] _ _]; lia).
    destruct (insert_spec cap q (it_addr i) (it_gen i) (it_prio i) W H)
      as [q1 [h [E1 [W1 [Hh [G0 [G1 [G2 _]]]]]]]].
    rewrite E1 in E. inversion E; subst. split; auto.
    constructor; auto.
    + now rewrite G0.
    + rewrite G1. destruct i; reflexivity.
    + intros x Hx. now rewrite G2.
  - destruct (extract_spec cap q W) as [q1 [r1 [E1 [W1 S]]]]. rewrite E1 in E.
    destruct r1 as [d|]; inversion E; subst; split; auto.
    + destruct S as [S1 [S2 [S3 S4]]]. apply sp_extract.
      * now rewrite S1.
      * intros x j Hj. destruct (srq_get q x) eqn:Eg; inversion Hj; subst. simpl. eauto.
      * now rewrite S3.
      * intros x Hx. now rewrite S4.
    + destruct S as [S1 ->]. constructor. intros h. now rewrite S1.
  - destruct (srq_get q h) as [d|] eqn:Eg.
    + destruct (delete_spec cap q h d W Eg) as [q1 [E1 [W1 [S1 S2]]]].
      rewrite E1 in E. inversion E; subst. split; auto.
      econstructor; [now rewrite Eg|now rewrite S1|intros; now rewrite S2].
    + unfold srq_delete in E. unfold srq_get in Eg.
      destruct (srq_index q h); discriminate.
  - destruct (srq_get q h) as [d|] eqn:Eg.
    + destruct (update_spec cap q h d p W Eg) as [q1 [E1 [W1 [S1 S2]]]].
      rewrite E1 in E. inversion E; subst. split; auto.
      econstructor; [now rewrite Eg|now rewrite S1|intros; now rewrite S2].
    + unfold srq_update in E. unfold srq_get in Eg.
      destruct (srq_index q h); discriminate.
Qed.

Lemma run_sim : forall cap os q q' rs, wf cap q -> code_run cap q os = Some (q', rs) ->
  wf cap q' /\ spec_run cap (items_of q) os rs (items_of q').
Proof.
  intros cap. induction os as [|o os IH]; simpl; intros q q' rs W E.
  - inversion E; subst. split; auto. constructor.
  - destruct (code_step cap q o) as [[q1 r]|] eqn:E1; [|discriminate].
    destruct (code_run cap q1 os) as [[q2 rs2]|] eqn:E2; [|discriminate].
    inversion E; subst. destruct (step_sim _ _ _ _ _ W E1) as [W1 S1].
    destruct (IH _ _ _ W1 E2) as [W2 S2]. split; auto. econstructor; eauto.
Qed.

(** Every sequence of queue operations behaves like the handle map. *)
Theorem C37_queue_refines_priority_map :
  forall cap os q rs, 0 < cap -> code_run cap srq_init os = Some (q, rs) ->
    spec_run cap (fun _ => None) os rs (items_of q).
Proof.
  intros cap os q rs Hc E. exact (proj2 (run_sim cap os srq_init q rs (init_wf cap Hc) E)).
Qed.

(** In every reachable state, extraction always succeeds, deletion and update
    succeed on live handles, and insertion succeeds if some handle is free. *)
Lemma free_not_full : forall cap q h, wf cap q -> h < cap -> srq_get q h = None -> srq_num q < cap.
Proof.
  intros cap q h [L O Hh] Hlt E. destruct L as [C H I].
  destruct (Nat.eq_dec (srq_num q) cap) as [F|F]; [|lia]. exfalso.
  assert (length (h :: map (fun p => sd_idx (srq_heap q p)) (seq 0 cap)) <= length (seq 0 cap)).
  { apply NoDup_incl_length.
    - constructor.
      + rewrite in_map_iff. intros [p [Ep Hp]]. apply in_seq in Hp.
        destruct (H p ltac:(lia)) as [_ [H2 _]]. rewrite Ep in H2.
        unfold srq_get in E. rewrite H2 in E. discriminate.
      + assert (G: forall l, NoDup l -> (forall p, In p l -> p < srq_num q) ->
           NoDup (map (fun p => sd_idx (srq_heap q p)) l)).
        { induction l; simpl; intros N A; constructor; inversion N; subst.
          - rewrite in_map_iff. intros [p [Ep Hp]].
            destruct (H p (A p (or_intror Hp))) as [_ [X _]].
            destruct (H a (A a (or_introl eq_refl))) as [_ [Y _]]. congruence.
          - auto. }
        apply G; [apply seq_NoDup|]. intros p Hp. apply in_seq in Hp. lia.
    - intros x [<-|Hx]; [apply in_seq; lia|]. apply in_map_iff in Hx.
      destruct Hx as [p [<- Hp]]. apply in_seq in Hp.
      destruct (H p ltac:(lia)) as [X _]. apply in_seq. lia. }
  simpl in H0. rewrite map_length, seq_length in H0. lia.
Qed.

Theorem C37_queue_never_stuck :
  forall cap os q rs, 0 < cap -> code_run cap srq_init os = Some (q, rs) ->
    code_step cap q SExtract <> None /\
    (forall h i p, items_of q h = Some i ->
        code_step cap q (SDelete h) <> None /\ code_step cap q (SUpdate h p) <> None) /\
    (forall i h, h < cap -> items_of q h = None -> code_step cap q (SInsert i) <> None).
Proof.
  intros cap os q rs Hc E. pose proof (proj1 (run_sim cap os srq_init q rs (init_wf cap Hc) E)) as W.
  split; [|split].
  - destruct (extract_spec cap q W) as [q1 [[d|] [E1 _]]]; simpl; rewrite E1; discriminate.
  - intros h i p Hi. unfold items_of in Hi. destruct (srq_get q h) as [d|] eqn:Eg; [|discriminate].
    destruct (delete_spec cap q h d W Eg) as [q1 [E1 _]].
    destruct (update_spec cap q h d p W Eg) as [q2 [E2 _]].
    simpl. rewrite E1, E2. split; discriminate.
  - intros i h Hh Hi. unfold items_of in Hi. destruct (srq_get q h) as [d|] eqn:Eg; [discriminate|].
    pose proof (free_not_full cap q h W Hh Eg).
    destruct (insert_spec cap q (it_addr i) (it_gen i) (it_prio i) W H) as [q1 [x [E1 _]]].
    simpl. rewrite E1. discriminate.
Qed.

(** The queue is not faithful for 64-bit priorities: srq_update takes a
    uint32, so raising an item's priority to 2^32 makes it the least urgent. *)
Theorem C37_update_priority_64bit_refuted :
  option_map snd (code_run 64 srq_init
      [SInsert (Item 10 0 5); SInsert (Item 20 0 3); SUpdate 0 (2 ^ 32); SExtract])
  = Some [RHandle 0; RHandle 1; RDone; RItem 1 (Item 20 0 3)].
Proof. vm_compute. reflexivity. Qed.

Example C37_example :
  option_map snd (code_run 64 srq_init
    [SInsert (Item 1 0 5); SInsert (Item 2 0 9); SInsert (Item 3 0 7); SUpdate 0 8; SDelete 1;
     SExtract; SExtract; SExtract]) =
  Some [RHandle 0; RHandle 1; RHandle 2; RDone; RItem 1 (Item 2 0 9);
        RItem 0 (Item 1 0 8); RItem 2 (Item 3 0 7); RNone].
Proof. vm_compute. reflexivity. Qed.

Print Assumptions C37_queue_refines_priority_map.
Print Assumptions C37_queue_never_stuck.
Print Assumptions C37_update_priority_64bit_refuted.
