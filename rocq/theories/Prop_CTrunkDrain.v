(** C55, the part that holds: what a compaction of the trunk waits for before it gives up
    branches. *)
From Coq Require Import List Arith Bool Lia.
Import ListNotations.
From Verif Require Import CTrunk CTrunkSpec CTrunkInv CTrunkDrain CTrunkPath CTrunkWay.
Local Open Scope nat_scope.

(** [leads g r k a], in [CTrunkWay]: the path of [k] from page [r] has page [a]. *)

(** When a step gives up branch [b] for key [k], there is a node that has it, and no
    lookup, whatever root it came from, is there. *)
Theorem C55_nobody_at_the_node : forall n tr s i c s' l b k, runs (init n) tr s -> step s i c = Some (s', l) ->
  fr s b k = false -> fr s' b k = true ->
  exists a p, slot k (pvs (mem s a)) = Some p /\ In b (bs p) /\ forall j u, nth_error (ths s) j = Some u -> ~ In a (reads u).
Proof. exact trunk_drains. Qed.
Print Assumptions C55_nobody_at_the_node.

(** The node is on the path of the key from the root the compaction replaced ([R i]: the
    root thread [i] took last), which is not the root any more.  And those lookups under way
    that took this same root do not come to the node any more, until they return,
    however the run goes on. *)
Theorem C55_same_root : forall n tr s R i c s1 l b k, gruns n tr s R -> step s i c = Some (s1, l) ->
  fr s b k = false -> fr s1 b k = true ->
  exists a p, slot k (pvs (mem s a)) = Some p /\ In b (bs p) /\ leads (mem s) (R i) k a /\ R i <> root s /\
    forall j u, nth_error (ths s) j = Some u -> reads u <> [] -> R j = R i ->
    forall tr' s' u', runs s tr' s' -> (forall z, ~ In (j, Called z) tr') -> nth_error (ths s') j = Some u' -> ~ In a (reads u').
Proof.
  intros n tr s R i c s1 l b k G E F F'.
  destruct (trunk_past_for_good _ _ _ _ _ _ _ _ _ _ G E F F') as (a & p & Sp & Hb & Ra & NR & P).
  exists a, p. split; auto. split; auto. split; [|auto]. clear - Ra. induction Ra; [constructor|econstructor; eauto].
Qed.
Print Assumptions C55_same_root.

(** No lookup that takes a root there has been since this compaction switched in its own
    ([N i]), the root of now among them, nor one that others are about to switch in, can come
    to the node, whatever its key: the node is on no path from these roots. *)
Theorem C55_newer_roots : forall n tr s R N i c s1 l b k, hruns n tr s R N -> step s i c = Some (s1, l) ->
  fr s b k = false -> fr s1 b k = true ->
  exists a p, slot k (pvs (mem s a)) = Some p /\ In b (bs p) /\ leads (mem s) (R i) k a /\ In (root s) (N i) /\
    forall r, In r (N i) \/ (exists j d own, nth_error (ths s) j = Some (I2 d r own)) \/ (exists j o old, nth_error (ths s) j = Some (P2 o r old)) ->
    forall kx, ~ leads (mem s) r kx a.
Proof.
  intros n tr s R N i c s1 l b k H E F F'. destruct (trunk_newer _ _ _ _ _ _ _ _ _ _ _ H E F F') as (a & p & Sp & Hb & Ra & NR & P).
  exists a, p. split; auto. split; auto. split; [clear - Ra; induction Ra; [constructor|econstructor; eauto]|]. split; auto.
  intros r T kx. apply P. destruct T as [T|[(j & d & own & Hj)|(j & o & old & Hj)]]; [left; auto|right|right]; exists j; eexists; split; eauto.
Qed.
Print Assumptions C55_newer_roots.

(** From then on, however the run goes on, the only lookups that come to the node are those
    under way by then that took a root older than the one the compaction replaced: what
    C55 asks, but for these. *)
Theorem C55_only_older_roots : forall n tr s R N i c s1 l b k, hruns n tr s R N -> step s i c = Some (s1, l) ->
  fr s b k = false -> fr s1 b k = true ->
  exists a p, slot k (pvs (mem s a)) = Some p /\ In b (bs p) /\ leads (mem s) (R i) k a /\ R i <> root s /\
    forall tr' s' j u', runs s tr' s' -> nth_error (ths s') j = Some u' -> In a (reads u') ->
      exists u, nth_error (ths s) j = Some u /\ reads u <> [] /\ ~ In (R j) (N i) /\ R j <> R i /\ forall z, ~ In (j, Called z) tr'.
Proof.
  intros n tr s R N i c s1 l b k H E F F'. destruct (trunk_newer_for_good _ _ _ _ _ _ _ _ _ _ _ H E F F') as (a & p & Sp & Hb & Ra & NR & P).
  exists a, p. split; auto. split; auto. split; [clear - Ra; induction Ra; [constructor|econstructor; eauto]|]. split; auto.
Qed.
Print Assumptions C55_only_older_roots.

(** ** A run: the lookup has left the root for the leaf; the compaction, which waited for
    it at the root, gives up the branch the lookup has read. *)
Fixpoint gexec (s : state) (R : nat -> nat) (l : list (nat * cmd)) : option (state * (nat -> nat)) :=
  match l with
  | [] => Some (s, R)
  | (i, c) :: r => match step s i c with Some (s', _) => gexec s' (took s i R) r | None => None end
  end.
Lemma gexec_gruns : forall l n tr s R s' R', gruns n tr s R -> gexec s R l = Some (s', R') -> exists tr', gruns n tr' s' R'.
Proof.
  induction l as [|[i c] l IH]; cbn [gexec]; intros n tr s R s' R' G E.
  - injection E as <- <-. eauto.
  - destruct (step s i c) as [[s1 e]|] eqn:S; [|discriminate]. eapply IH; [|exact E]. econstructor; eauto.
Qed.
Definition gos (i n : nat) : list (nat * cmd) := repeat (i, Go (AGo [])) n.
Definition sched5 : list (nat * cmd) :=
  (0, Do (CInc [(5, [7])])) :: gos 0 3 ++ [(1, Do (CGet 5))] ++ gos 1 2 ++ [(2, Do (CMerge 5 1 None [0]))] ++ gos 2 6.
Definition view (x : option (state * (nat -> nat))) :=
  match x with Some (s, R) => Some (ths s, root s, map R [1; 2], fr s 0 5, match step s 2 (Go (AGo [])) with Some _ => true | None => false end) | None => None end.

(** It waits, ... *)
Example ctrunk_drain_waits : view (gexec (init 3) (fun _ => 0) sched5) =
  Some ([Idle; G2 5 2 0 []; K1 (Rq 5 1 None [0] 1) 3 None 2], 3, [2; 2], false, false).
Proof. reflexivity. Qed.
(** ... and then gives the branch up, with the lookup, of the same root, at the leaf. *)
Example ctrunk_drain_ex : exists tr s R s1 l,
  gruns 3 tr s R /\ step s 2 (Go (AGo [])) = Some (s1, l) /\ fr s 0 5 = false /\ fr s1 0 5 = true /\
  nth_error (ths s) 1 = Some (G2 5 1 0 [7]) /\ R 1 = 2 /\ R 2 = 2 /\ root s = 3.
Proof.
  pose (f := fun x : state * (nat -> nat) => let (s, R) := x in
     (fr s 0 5, match step s 2 (Go (AGo [])) with Some (s1, _) => fr s1 0 5 | None => false end, nth_error (ths s) 1, (R 1, R 2, root s))).
  assert (E : option_map f (gexec (init 3) (fun _ => 0) (sched5 ++ gos 1 3 ++ gos 2 1)) =
     Some (false, true, Some (G2 5 1 0 [7]), (2, 2, 3))) by (vm_compute; reflexivity).
  destruct (gexec (init 3) (fun _ => 0) (sched5 ++ gos 1 3 ++ gos 2 1)) as [[s R]|] eqn:X; [|discriminate].
  destruct (gexec_gruns _ _ _ _ _ _ _ (g_stop 3) X) as (tr & G). cbn [option_map f] in E. injection E as E1 E2 E3 E4 E5 E6.
  destruct (step s 2 (Go (AGo []))) as [[s1 l]|] eqn:S; [|discriminate].
  exists tr, s, R, s1, l. auto 10.
Qed.

(** For [C55_newer_roots]: an incorporation switches in root 6 after the compaction has
    switched in 4, another one has made 7; the compaction gives up the branch of leaf 3. *)
Fixpoint hexec (s : state) (R : nat -> nat) (N : nat -> list nat) (l : list (nat * cmd)) : option (state * (nat -> nat) * (nat -> list nat)) :=
  match l with
  | [] => Some (s, R, N)
  | (i, c) :: r => match step s i c with Some (s', _) => hexec s' (took s i R) (turn s s' i N) r | None => None end
  end.
Lemma hexec_hruns : forall l n tr s R N s' R' N', hruns n tr s R N -> hexec s R N l = Some (s', R', N') -> exists tr', hruns n tr' s' R' N'.
Proof.
  induction l as [|[i c] l IH]; cbn [hexec]; intros n tr s R N s' R' N' G E.
  - injection E as <- <- <-. eauto.
  - destruct (step s i c) as [[s1 e]|] eqn:S; [|discriminate]. eapply IH; [|exact E]. econstructor; eauto.
Qed.
Lemma hexec_runs : forall l s R N s' R' N', hexec s R N l = Some (s', R', N') -> exists tr, runs s tr s'.
Proof.
  assert (X : forall l s0 tr0 s R N s' R' N', runs s0 tr0 s -> hexec s R N l = Some (s', R', N') -> exists tr, runs s0 tr s').
  { induction l as [|[i c] l IH]; cbn [hexec]; intros s0 tr0 s R N s' R' N' G E.
    - injection E as <- <- <-. eauto.
    - destruct (step s i c) as [[s1 e]|] eqn:S; [|discriminate]. eapply IH; [|exact E]. econstructor; eauto. }
  intros l s R N s' R' N'. eapply X. constructor.
Qed.
Definition sched9 : list (nat * cmd) :=
  (0, Do (CInc [(5, [7])])) :: gos 0 2 ++ [(0, Go (AFlush 2 0 []))] ++ gos 0 1 ++ [(2, Do (CMerge 5 0 None [0]))] ++ gos 2 10 ++
  (0, Do (CInc [(6, [8])])) :: gos 0 3 ++ (1, Do (CInc [(7, [9])])) :: gos 1 2.
Example ctrunk_newer_ex : exists tr s R N s1 l own,
  hruns 3 tr s R N /\ step s 2 (Go (AGo [])) = Some (s1, l) /\ fr s 0 5 = false /\ fr s1 0 5 = true /\
  R 2 = 2 /\ root s = 6 /\ N 2 = [6; 4] /\ nth_error (ths s) 1 = Some (I2 [(7, [9])] 7 own).
Proof.
  pose (f := fun x : state * (nat -> nat) * (nat -> list nat) => let '(s, R, N) := x in
     (fr s 0 5, match step s 2 (Go (AGo [])) with Some (s1, _) => fr s1 0 5 | None => false end, (R 2, root s, N 2), nth_error (ths s) 1)).
  assert (E : option_map f (hexec (init 3) (fun _ => 0) (fun _ => []) sched9) =
     Some (false, true, (2, 6, [6; 4]), Some (I2 [(7, [9])] 7 [7]))) by (vm_compute; reflexivity).
  destruct (hexec (init 3) (fun _ => 0) (fun _ => []) sched9) as [[[s R] N]|] eqn:X; [|discriminate].
  destruct (hexec_hruns _ _ _ _ _ _ _ _ _ (h_stop 3) X) as (tr & G). cbn [option_map f] in E. injection E as E1 E2 E3 E4 E5 E6.
  destruct (step s 2 (Go (AGo []))) as [[s1 l]|] eqn:S; [|discriminate].
  exists tr, s, R, N, s1, l, [7]. auto 12.
Qed.

(** And a lookup (thread 1) that [C55_only_older_roots] leaves: it took root 2, then an
    incorporation switched in root 4, which has leaf 3 too; a compaction (thread 2) replaces
    4, gives up the branch of leaf 3, and the lookup comes there. *)
Definition sched10 : list (nat * cmd) :=
  (0, Do (CInc [(5, [7])])) :: gos 0 2 ++ [(0, Go (AFlush 2 0 []))] ++ gos 0 1 ++ (1, Do (CGet 5)) :: gos 1 2 ++
  (0, Do (CInc [(6, [8])])) :: gos 0 3 ++ (2, Do (CMerge 5 0 None [0])) :: gos 2 10.
Example ctrunk_older_ex : exists tr s R N s1 l tr' s',
  hruns 3 tr s R N /\ step s 2 (Go (AGo [])) = Some (s1, l) /\ fr s 0 5 = false /\ fr s1 0 5 = true /\
  R 1 = 2 /\ R 2 = 4 /\ N 2 = [5] /\ runs s tr' s' /\ fr s' 0 5 = true /\ nth_error (ths s') 1 = Some (G2 5 3 0 []) /\
  slot 5 (pvs (mem s' 3)) = Some (Pv 0 0 [0]).
Proof.
  pose (f := fun x : state * (nat -> nat) * (nat -> list nat) => let '(s, R, N) := x in
     (fr s 0 5, match step s 2 (Go (AGo [])) with Some (s1, _) => fr s1 0 5 | None => false end, (R 1, R 2, N 2))).
  pose (g := fun x : state * (nat -> nat) * (nat -> list nat) => let '(s, R, N) := x in
     (fr s 0 5, nth_error (ths s) 1, slot 5 (pvs (mem s 3)))).
  assert (E : option_map f (hexec (init 3) (fun _ => 0) (fun _ => []) sched10) = Some (false, true, (2, 4, [5]))) by (vm_compute; reflexivity).
  assert (E' : match hexec (init 3) (fun _ => 0) (fun _ => []) sched10 with
     | Some (s, R, N) => option_map g (hexec s R N (gos 2 1 ++ gos 1 2)) | None => None end =
     Some (true, Some (G2 5 3 0 []), Some (Pv 0 0 [0]))) by (vm_compute; reflexivity).
  destruct (hexec (init 3) (fun _ => 0) (fun _ => []) sched10) as [[[s R] N]|] eqn:X; [|discriminate].
  destruct (hexec_hruns _ _ _ _ _ _ _ _ _ (h_stop 3) X) as (tr & G). cbn [option_map f] in E. injection E as E1 E2 E3 E4 E5.
  destruct (hexec s R N (gos 2 1 ++ gos 1 2)) as [[[s' R'] N']|] eqn:Y; [|discriminate]. cbn [option_map g] in E'. injection E' as F1 F2 F3.
  destruct (hexec_runs _ _ _ _ _ _ _ Y) as (tr' & G').
  destruct (step s 2 (Go (AGo []))) as [[s1 l]|] eqn:S; [|discriminate].
  exists tr, s, R, N, s1, l, tr', s'. repeat (split; [assumption|]). assumption.
Qed.
