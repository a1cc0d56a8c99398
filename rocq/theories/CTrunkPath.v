(** The lookups a compaction waits for: those that have the root it replaced.  When it
    gives up branches, these are past the node that had them. *)
From Coq Require Import List Arith Bool Lia.
Import ListNotations.
From Verif Require Import CTrunk CTrunkSpec CTrunkInv CTrunkOps CTrunkProofs CTrunkSteps CTrunkLin CTrunkLive CTrunkDrain.
Local Open Scope nat_scope.

(** Runs, with the root each thread took last. *)
Definition took (s : state) (i : nat) (R : nat -> nat) : nat -> nat :=
  match nth_error (ths s) i with Some (G1 _) | Some (P1 _) => upd R i (root s) | _ => R end.
Inductive gruns (n : nat) : list event -> state -> (nat -> nat) -> Prop :=
| g_stop : gruns n [] (init n) (fun _ => 0)
| g_more : forall tr s R i c s' l, gruns n tr s R -> step s i c = Some (s', l) -> gruns n (tr ++ seen i l) s' (took s i R).

Lemma gruns_runs : forall n tr s R, gruns n tr s R -> runs (init n) tr s.
Proof. induction 1; [constructor|econstructor; eauto]. Qed.
Lemma runs_gruns : forall n tr s, runs (init n) tr s -> exists R, gruns n tr s R.
Proof.
  intros n tr s R. remember (init n) as s0 eqn:E0. induction R as [s1|s1 tr s' i c s'' l R IH St].
  - subst s1. eexists. constructor.
  - destruct (IH E0) as (G & HG). eexists. econstructor; eauto.
Qed.

(** Pages nobody will change any more. *)
Definition fz (s : state) (a : nat) : Prop :=
  a < nx s /\ forall i t, nth_error (ths s) i = Some t -> ~ In a (mine t) /\ ~ In a (priv t).

Lemma flush_mem : forall s p i cs s', flush s p i cs = Some s' ->
  nx s <= nx s' /\ root s' = root s /\ forall a, a < nx s -> a <> p -> mem s' a = mem s a.
Proof.
  intros s p i cs s' E. unfold flush in E. destruct (nth_error (pvs (mem s p)) i); [|discriminate]. destruct (ht (mem s p) =? 0); [discriminate|].
  destruct (pieces (add_all (bs p0) (mem s (ch p0))) cs) as [ns|]; [|discriminate]. injection E as <-. cbn. split; [lia|]. split; auto.
  intros a Ha Z. rewrite upd_other by auto. apply store_old. auto.
Qed.
Lemma grow_mem : forall s p cs s', grow s p cs = Some s' ->
  nx s < nx s' /\ root s' = root s /\ forall a, a < nx s -> mem s' a = mem s a.
Proof.
  intros s p cs s' E. unfold grow in E. destruct (pieces (mem s p) cs) as [ns|]; [|discriminate]. injection E as <-. cbn. split; [lia|]. split; auto.
  intros a Ha. rewrite upd_other by lia. apply store_old. auto.
Qed.

Lemma go_fz : forall s i t x s' t' l, go s i t x = Some (s', t', l) ->
  nx s <= nx s' /\
  (forall a, a < nx s -> ~ In a (mine t) -> ~ In a (priv t) -> mem s' a = mem s a /\ ~ In a (mine t') /\ ~ In a (priv t')) /\
  (root s' = root s \/ In (root s') (mine t ++ priv t) \/ (exists c own, t = I2 c (root s') own)).
Proof.
  intros s i t x s' t' l E.
  unfold go, same_st in E. destruct t; try (destruct x; discriminate); destruct x; try discriminate.
  all: repeat match type of E with
    | (if ?b then _ else _) = _ => destruct b eqn:?
    | match slot ?x ?y with Some _ => _ | None => _ end = _ => destruct (slot x y) eqn:?
    | match nth_error ?x ?y with Some _ => _ | None => _ end = _ => destruct (nth_error x y) eqn:?
    | match ub ?x with Some _ => _ | None => _ end = _ => destruct (ub x) eqn:?
    end; try discriminate.
  all: try (injection E as <- <- <-; cbn; split; [lia|]; split; [intros b Hb M P; split; [auto|split; tauto]|solve [auto|right; right; eauto]]; fail).
  all: try (injection E as <- <- <-; cbn; split; [lia|]; split; [|auto]; intros b Hb M P; cbn in M, P;
     split; [|split; [intros [X|[]]; lia|tauto]]; rewrite ?upd_other by (try lia; intuition congruence); reflexivity).
  all: try (injection E as <- <- <-; cbn; split; [lia|]; split; [|auto]; intros b Hb M P; cbn in M, P;
     split; [|split; tauto]; rewrite ?upd_other by (try lia; intuition congruence); reflexivity).
  - injection E as <- <- <-; cbn; split; [lia|]; split; [|auto]. intros b Hb M P. split; [rewrite upd_other by lia; auto|split; [tauto|intros [X|[]]; lia]].
  - destruct (flush s p i0 cs) as [s1|] eqn:F; [|discriminate]. injection E as <- <- <-. destruct (flush_mem _ _ _ _ _ F) as (F1 & F2 & F3).
    match goal with H : _ && _ = true |- _ => apply andb_true_iff in H; destruct H as [I _]; apply isin_In in I end.
    cbn. split; auto. split; auto. intros b Hb M P. split; [apply F3; auto; congruence|]. split; auto.
    intros H. apply in_app_or in H. destruct H as [H|H]; [apply in_seq in H; lia|tauto].
  - destruct (grow s a cs) as [s1|] eqn:F; [|discriminate]. injection E as <- <- <-. destruct (grow_mem _ _ _ _ F) as (F1 & F2 & F3).
    cbn. split; [lia|]. split; auto. intros b Hb M P. split; [apply F3; auto|]. split; auto.
    intros H. apply in_app_or in H. destruct H as [H|H]; [apply in_seq in H; lia|tauto].
Qed.

Lemma start_mem : forall s c s' t', start s c = Some (s', t') ->
  mem s' = mem s /\ nx s' = nx s /\ root s' = root s /\ mine t' = [] /\ priv t' = [] /\ reads t' = [] /\
  match t' with G0 _ | P0 _ | I0 _ => True | _ => False end.
Proof.
  intros s c s' t' E. unfold start in E. destruct c; try (injection E as <- <-; cbn; tauto).
  destruct ((h <=? ht (mem s (root s))) && forallb (fun b => b <? nb s) seg); [|discriminate]. injection E as <- <-; cbn; tauto.
Qed.

Lemma step_fz : forall s i c s' l, step s i c = Some (s', l) -> forall a, fz s a -> fz s' a /\ mem s' a = mem s a.
Proof.
  intros s i c s' l E a [La F]. unfold step in E. destruct (nth_error (ths s) i) as [t|] eqn:Hi; [|discriminate].
  destruct (F i t Hi) as [Fm Fp].
  assert (X : forall s1 t1, nx s <= nx s1 -> mem s1 a = mem s a -> ~ In a (mine t1) -> ~ In a (priv t1) ->
     fz (set_ths s1 (put (ths s) i t1)) a /\ mem (set_ths s1 (put (ths s) i t1)) a = mem s a).
  { intros s1 t1 N M M1 P1. split; auto. split; [cbn; lia|]. intros j u Hj. cbn in Hj. rewrite (nth_put _ _ _ _ _ Hi) in Hj.
    destruct (j =? i); [injection Hj as <-; auto|eauto]. }
  destruct c as [c|x].
  - destruct t; try discriminate. destruct (start s c) as [[s1 t1]|] eqn:Es; [|discriminate]. injection E as <- <-.
    destruct (start_mem _ _ _ _ Es) as (A1 & A2 & _ & A3 & A4 & _). apply X; [lia|congruence|rewrite A3; auto|rewrite A4; auto].
  - destruct (go s i t x) as [[[s1 t1] l1]|] eqn:Eg; [|discriminate]. injection E as <- <-.
    destruct (go_fz _ _ _ _ _ _ _ Eg) as (A1 & A2 & _). destruct (A2 a La Fm Fp) as (A3 & A4 & A5). apply X; auto.
Qed.

Lemma fz_ef : forall s ef m f a, inv s ef m f -> fz s a -> mem s a = ef a.
Proof.
  intros s ef m f a V [_ F]. apply (v_mem _ _ _ _ V). intros i t Hi n E. destruct (F i t Hi) as [F1 _]. apply F1.
  destruct t; try discriminate. injection E as <- _. cbn. auto.
Qed.
Lemma read_fz : forall s ef m f j u a, inv s ef m f -> nth_error (ths s) j = Some u -> In a (reads u) -> fz s a.
Proof.
  intros s ef m f j u a V Hj H. split.
  - eapply (v_pg _ _ _ _ V); [exact Hj|]. unfold pages. rewrite !in_app_iff. auto.
  - intros i t Hi. destruct (Nat.eq_dec i j) as [->|Z].
    + rewrite Hi in Hj. injection Hj as <-. destruct t; cbn in H |- *; tauto.
    + split; intros Q.
      * eapply (v_ex _ _ _ _ V i j); eauto. apply in_or_app. auto.
      * destruct (v_priv _ _ _ _ V i t Hi) as [_ P]. eapply (P j u a); eauto. unfold pages. apply in_or_app. auto.
Qed.
(** The root, and children of frozen nodes, that can be had. *)
Lemma got_fz : forall s ef m f i t a, inv s ef m f -> nth_error (ths s) i = Some t -> can_get s i a = true ->
  mine t = [] -> priv t = [] -> a < nx s -> (forall j u, nth_error (ths s) j = Some u -> ~ In a (priv u)) -> fz s a.
Proof.
  intros s ef m f i t a V Hi G M P La NP. split; auto. intros j u Hj. split; [|eauto]. intros Q. destruct (Nat.eq_dec j i) as [->|Z].
  - rewrite Hi in Hj. injection Hj as <-. rewrite M in Q. auto.
  - exact (nobody_spec locks a _ i G j u Z Hj (mine_locks _ _ Q)).
Qed.

(** ** Paths through frozen nodes. *)
Inductive reach (s : state) (r k : nat) : nat -> Prop :=
| re_here : fz s r -> reach s r k r
| re_down : forall x p, reach s r k x -> slot k (pvs (mem s x)) = Some p -> ht (mem s x) <> 0 -> fz s (ch p) -> reach s r k (ch p).

Lemma reach_fz : forall s r k x, reach s r k x -> fz s x.
Proof. destruct 1; auto. Qed.
Lemma reach_step : forall s i c s' l, step s i c = Some (s', l) -> forall r k x, reach s r k x -> reach s' r k x.
Proof.
  intros s i c s' l E r k x H. induction H as [F|x p H IH S Z F].
  - constructor. eapply step_fz; eauto.
  - pose proof (step_fz _ _ _ _ _ E _ (reach_fz _ _ _ _ H)) as [_ M]. apply re_down with x; rewrite ?M; auto. eapply step_fz; eauto.
Qed.

Lemma kid_range : forall g nx nb n p k, wfn g nx nb n -> In p (pvs n) -> ht n <> 0 -> inr (g (ch p)) k ->
  slot k (pvs n) = Some p /\ inr n k.
Proof.
  intros g nx nb n p k (_ & _ & C) Hp Z [(l0 & E0 & L0) U0]. apply in_split in Hp. destruct Hp as (l & r & E).
  pose proof C as C0. rewrite E in C. apply chain_app in C. destruct C as [C1 C2]. cbn [chain] in C2. destruct C2 as (C3 & (_ & K) & C4).
  destruct (K Z) as (_ & _ & K3 & K4). rewrite E0 in K3. injection K3 as ->. rewrite K4 in U0.
  split; [rewrite E in *; eapply slot_here; eauto|]. split.
  - unfold lo. rewrite E. destruct l as [|q l]; cbn [app]; eexists; split; [reflexivity|auto|reflexivity|].
    cbn [nextk] in C1. pose proof (chain_before _ _ _ q C1 ltac:(left; auto)) as B. cbn [below] in B. apply Nat.ltb_lt in B. lia.
  - destruct r as [|q r]; cbn [nextk] in U0; auto. pose proof (chain_first _ _ _ _ C4) as B. eapply below_lt; eauto.
Qed.

Section At.
Variables (s : state) (ef : nat -> node) (m : table) (f : nat -> sthr).
Hypothesis V : inv s ef m f.

Lemma kid_fz : forall x p, fz s x -> In p (pvs (mem s x)) -> ht (mem s x) <> 0 -> fz s (ch p) ->
  S (ht (mem s (ch p))) = ht (mem s x) /\ forall k, inr (mem s (ch p)) k -> slot k (pvs (mem s x)) = Some p /\ inr (mem s x) k.
Proof.
  intros x p Fx Hp Z Fc. rewrite (fz_ef _ _ _ _ _ V Fx) in *. rewrite (fz_ef _ _ _ _ _ V Fc).
  pose proof (v_wf _ _ _ _ V x (proj1 Fx)) as W. split.
  - destruct W as (W1 & W2 & W3). destruct (chain_in _ _ _ _ W3 Hp) as (e & _ & K). apply K. auto.
  - intros k I. exact (kid_range _ _ _ _ _ _ W Hp Z I).
Qed.

Lemma reach_ht : forall r k x, reach s r k x -> ht (mem s x) <= ht (mem s r).
Proof.
  intros r k x H. induction H as [F|x p H IH S Z F]; auto.
  destruct (kid_fz x p (reach_fz _ _ _ _ H) (slot_in _ _ _ S) Z F) as [Q _]. lia.
Qed.

(** The paths to a node are the same for all keys of the node. *)
Lemma reach_key : forall r k a, reach s r k a -> forall k', inr (mem s a) k' -> reach s r k' a.
Proof.
  intros r k a H. induction H as [F|x p H IH S Z F]; intros k' I; [constructor; auto|].
  destruct (kid_fz x p (reach_fz _ _ _ _ H) (slot_in _ _ _ S) Z F) as [_ Q]. destruct (Q k' I) as [Q1 Q2].
  apply re_down with x; auto.
Qed.

Lemma reach_one : forall r k x y, reach s r k x -> reach s r k y -> ht (mem s x) = ht (mem s y) -> x = y.
Proof.
  intros r k x y H. revert y. induction H as [F|x p H IH S Z F]; intros y Hy E.
  - destruct Hy as [_|y p Hy S Z F']; auto.
    destruct (kid_fz y p (reach_fz _ _ _ _ Hy) (slot_in _ _ _ S) Z F') as [Q _]. pose proof (reach_ht _ _ _ Hy). lia.
  - destruct (kid_fz x p (reach_fz _ _ _ _ H) (slot_in _ _ _ S) Z F) as [Q _]. destruct Hy as [Fr|y q Hy S' Z' F'].
    + pose proof (reach_ht _ _ _ H). lia.
    + destruct (kid_fz y q (reach_fz _ _ _ _ Hy) (slot_in _ _ _ S') Z' F') as [Q' _].
      assert (x = y) by (apply IH; auto; lia). subst y. congruence.
Qed.
Lemma reach_up : forall r k x c, reach s r k x -> reach s r k c -> S (ht (mem s c)) = ht (mem s x) -> inr (mem s c) k -> inr (mem s x) k.
Proof.
  intros r k x c Hx Hc E I. destruct Hc as [F|y p Hy Sp Z F].
  - pose proof (reach_ht _ _ _ Hx). lia.
  - destruct (kid_fz y p (reach_fz _ _ _ _ Hy) (slot_in _ _ _ Sp) Z F) as [Q1 Q2].
    assert (x = y) by (eapply reach_one; eauto; lia). subst y. apply Q2. auto.
Qed.
End At.

(** ** Lookups and compactions under the same root. *)
Definition pdp (s : state) (r : nat) (t : pc) : Prop :=
  match t with
  | G2 k x _ _ => reach s r k x
  | G3 k x c _ => reach s r k x /\ reach s r k c /\ S (ht (mem s c)) = ht (mem s x)
  | P2 _ _ old => r = old /\ fz s old
  | P3 _ _ old | P4 _ _ old _ | K0 _ _ old => r = old /\ fz s old /\ old <> root s
  | K1 o _ _ a | K2 o _ a => reach s r (sk o) a /\ fz s r /\ r <> root s
  | _ => True
  end.
Definition at_ (t : pc) : option (nat * nat) := match t with G2 k x _ _ | G3 k x _ _ => Some (k, x) | _ => None end.
Definition bnd (t : pc) : option (nat * nat) := match t with K1 _ _ _ a => Some (a, 1) | K2 _ _ a => Some (a, 0) | _ => None end.

Record pd (s : state) (R : nat -> nat) : Prop := Pd {
  pd_own : forall i t, nth_error (ths s) i = Some t -> pdp s (R i) t;
  pd_two : forall i j t u a d k x, nth_error (ths s) i = Some t -> nth_error (ths s) j = Some u -> R i = R j ->
    bnd t = Some (a, d) -> at_ u = Some (k, x) -> inr (mem s a) k -> ht (mem s x) < ht (mem s a) + d }.

(** How a thread moves. *)
Definition how (s s' : state) (i : nat) (t t1 : pc) : Prop :=
  (at_ t1 = None /\ bnd t1 = None) \/
  (at_ t1 = at_ t /\ bnd t1 = None /\ at_ t <> None) \/
  (exists k, t = G1 k /\ t1 = G2 k (root s) 0 []) \/
  (exists k a c acc, t = G3 k a c acc /\ t1 = G2 k c 0 acc) \/
  (exists o e old, t = K0 o e old /\ t1 = K1 o e None old) \/
  (exists o e up a, t = K1 o e up a /\ t1 = K2 o e a /\ unread s i a = true) \/
  (exists o e a p, t = K2 o e a /\ t1 = K1 o e (Some a) (ch p) /\ slot (sk o) (pvs (mem s a)) = Some p /\ ht (mem s a) <> 0 /\ fz s (ch p)).

Lemma step_root : forall s ef m f i c s' l, inv s ef m f -> step s i c = Some (s', l) -> root s' = root s \/ ~ fz s (root s').
Proof.
  intros s ef m f i c s' l V E. unfold step in E. destruct (nth_error (ths s) i) as [t|] eqn:Hi; [|discriminate].
  destruct c as [c|x].
  - destruct t; try discriminate. destruct (start s c) as [[s1 t1]|] eqn:Es; [|discriminate]. injection E as <- <-.
    destruct (start_mem _ _ _ _ Es) as (_ & _ & A & _). cbn. auto.
  - destruct (go s i t x) as [[[s1 t1] l1]|] eqn:Eg; [|discriminate]. injection E as <- <-. cbn.
    destruct (go_fz _ _ _ _ _ _ _ Eg) as (_ & _ & [A|[A|(c & own & A)]]); auto; right; intros [_ F]; destruct (F i t Hi) as [F1 F2].
    + apply in_app_or in A. tauto.
    + apply F2. subst t. pose proof (v_pc _ _ _ _ V _ _ Hi) as P. cbn in P |- *. tauto.
Qed.

Lemma slot_kid : forall k n p, slot k (pvs n) = Some p -> ht n <> 0 -> In (ch p) (kids n).
Proof. intros k n p S Z. unfold kids. rewrite (proj2 (Nat.eqb_neq _ _) Z). apply in_map. eapply slot_in; eauto. Qed.

(** A child of a frozen node that is free. *)
Lemma kid_got : forall s ef m f T i t a k p, inv s ef m f -> tinv s T -> nth_error (ths s) i = Some t -> fz s a ->
  slot k (pvs (mem s a)) = Some p -> ht (mem s a) <> 0 -> can_get s i (ch p) = true -> ~ In (ch p) (mine t) -> fz s (ch p).
Proof.
  intros s ef m f T i t a k p V TI Hi Fa Sp Z G M. pose proof (slot_kid _ _ _ Sp Z) as K.
  split; [apply (t_kid _ _ TI a (ch p) (proj1 Fa) K)|]. intros j u Hj. split.
  - intros Q. destruct (Nat.eq_dec j i) as [->|Y]; [rewrite Hi in Hj; injection Hj as <-; auto|].
    exact (nobody_spec locks _ _ i G j u Y Hj (mine_locks _ _ Q)).
  - destruct (v_priv _ _ _ _ V j u Hj) as [[_ P] _]. rewrite (fz_ef _ _ _ _ _ V Fa) in K.
    apply (P a (ch p)); auto. apply Fa. apply (proj2 Fa j u Hj).
Qed.

Lemma own_pd : forall s ef m f T R i c s' l t, inv s ef m f -> tinv s T -> nth_error (ths s) i = Some t -> step s i c = Some (s', l) ->
  pdp s (R i) t -> exists t1, ths s' = put (ths s) i t1 /\ pdp s' (took s i R i) t1 /\ how s s' i t t1.
Proof.
  intros s ef m f T R i c s' l t V TI Hi E P.
  pose proof (step_fz _ _ _ _ _ E) as FZ. pose proof (reach_step _ _ _ _ _ E) as RE. pose proof (step_root _ _ _ _ _ _ _ _ V E) as RT.
  assert (NR : forall a, fz s a -> a <> root s -> a <> root s') by (intros a Fa Z Q; destruct RT as [Y|Y]; [congruence|apply Y; congruence]).
  assert (FR : mine t = [] -> priv t = [] -> can_get s i (root s) = true -> fz s (root s)).
  { intros M1 M2 G. eapply got_fz; eauto; [apply (v_root _ _ _ _ V)|]. intros j u Hj. apply (v_priv _ _ _ _ V j u Hj). }
  assert (TK : took s i R i = match t with G1 _ | P1 _ => root s | _ => R i end).
  { unfold took. rewrite Hi. destruct t; auto; apply upd_same. }
  rewrite TK. unfold step in E. rewrite Hi in E. destruct c as [c|x].
  - destruct t; try discriminate. destruct (start s c) as [[s1 t1]|] eqn:Es; [|discriminate]. injection E as <- <-.
    destruct (start_mem _ _ _ _ Es) as (_ & _ & _ & _ & _ & _ & A). exists t1. split; [reflexivity|].
    destruct t1; try contradiction; split; try exact Logic.I; left; split; reflexivity.
  - destruct (go s i t x) as [[[s1 t1] l1]|] eqn:Eg; [|discriminate]. injection E as <- <-. exists t1. split; [reflexivity|].
    unfold go, same_st in Eg. destruct t; try (destruct x; discriminate); destruct x; try discriminate;
    repeat match type of Eg with
    | (if ?b then _ else _) = _ => destruct b eqn:?
    | match ?x with Some _ => _ | None => _ end = _ => destruct x eqn:?
    end; try discriminate; injection Eg as <- <- <-.
    all: try (split; [exact Logic.I|left; split; reflexivity]; fail).
    all: unfold how; cbn [pdp at_ bnd] in *.
    + (* G1 *) split; [constructor; apply FZ; auto|]. right; right; left. eauto.
    + (* G2, stale *) split; [auto|]. right; left. repeat split; auto; discriminate.
    + split; [auto|]. right; left. repeat split; auto; discriminate.
    + (* G2 to G3 *) match goal with H : (_ =? 0) = false |- _ => apply Nat.eqb_neq in H end.
      assert (Fc : fz s (ch p)) by (eapply kid_got; eauto using reach_fz; cbn; tauto).
      pose proof (reach_fz _ _ _ _ P) as Fa.
      split; [split; [auto|]; split; [apply RE; econstructor; eauto|]|right; left; repeat split; auto; discriminate].
      rewrite (proj2 (FZ _ Fc)), (proj2 (FZ _ Fa)). eapply kid_fz; eauto. eapply slot_in; eauto.
    + (* G3 *) destruct P as (P1 & P2 & P3). split; [auto|]. right; right; right; left. eauto 8.
    + (* P1 *) split; [|left; auto]. split; auto. apply FZ. auto.
    + (* P2 *) destruct P as [P1 P2]. split; [|left; auto]. split; auto. split; [apply FZ; auto|]. cbn. intros Q. subst old.
      destruct (proj2 P2 i _ Hi) as [Y _]. apply Y. cbn. auto.
    + (* P3, down *) destruct P as (P1 & P2 & P3). split; [|left; auto]. split; auto. split; [apply FZ; auto|auto].
    + destruct P as (P1 & P2 & P3). split; [|left; auto]. split; auto. split; [apply FZ; auto|auto].
    + (* P4 *) destruct P as (P1 & P2 & P3). split; [|left; auto]. split; auto. split; [apply FZ; auto|auto].
    + (* K0 *) destruct P as (P1 & P2 & P3). subst old. split; [|right; right; right; right; left; eauto].
      split; [constructor; apply FZ; auto|]. split; [apply FZ; auto|auto].
    + (* K1 *) destruct P as (P1 & P2 & P3). split; [|right; right; right; right; right; left; eauto 8].
      split; [auto|]. split; [apply FZ; auto|auto].
    + (* K2, down *) destruct P as (P1 & P2 & P3). pose proof (reach_fz _ _ _ _ P1) as Fa.
      match goal with H : (_ <? _) = true |- _ => apply Nat.ltb_lt in H end.
      assert (Z : ht (mem s a) <> 0) by lia.
      assert (Fc : fz s (ch p)).
      { eapply kid_got; eauto. cbn. intros [Q|[]]. subst e. pose proof (t_pc _ _ TI _ _ Hi) as T1. cbn in T1.
        pose proof (t_kid _ _ TI a (ch p) (proj1 Fa) ltac:(eapply slot_kid; eauto)). lia. }
      split; [|right; right; right; right; right; right; exists o, e, a, p; auto].
      split; [apply RE; econstructor; eauto|]. split; [apply FZ; auto|auto].
Qed.

Lemma at_reach : forall s r u k x, pdp s r u -> at_ u = Some (k, x) -> reach s r k x.
Proof. intros s r u k x P A. destruct u; try discriminate; injection A as <- <-; cbn in P; tauto. Qed.
Lemma bnd_reach : forall s r t a d, pdp s r t -> bnd t = Some (a, d) -> (exists k, reach s r k a) /\ r <> root s /\ fz s r.
Proof. intros s r t a d P A. destruct t; try discriminate; injection A as <- <-; cbn in P; split; try tauto; exists (sk o); tauto. Qed.
Lemma at_reads : forall u k x, at_ u = Some (k, x) -> In x (reads u).
Proof. intros u k x A. destruct u; try discriminate; injection A as <- <-; cbn; auto. Qed.

Lemma step_pd : forall s ef m f T R i c s' l, inv s ef m f -> tinv s T -> pd s R -> step s i c = Some (s', l) -> pd s' (took s i R).
Proof.
  intros s ef m f T R i c s' l V TI [O W] E.
  destruct (nth_error (ths s) i) as [t|] eqn:Hi; [|unfold step in E; rewrite Hi in E; discriminate].
  destruct (own_pd _ _ _ _ _ R _ _ _ _ _ V TI Hi E (O i t Hi)) as (t1 & TH & P1 & HW).
  pose proof (step_fz _ _ _ _ _ E) as FZ. pose proof (reach_step _ _ _ _ _ E) as RE. pose proof (step_root _ _ _ _ _ _ _ _ V E) as RT.
  assert (NR : forall a, fz s a -> a <> root s -> a <> root s') by (intros a Fa Z Q; destruct RT as [Y|Y]; [congruence|apply Y; congruence]).
  assert (TO : forall j, j <> i -> took s i R j = R j).
  { intros j Z. unfold took. destruct (nth_error (ths s) i) as [[]|]; auto; apply upd_other; auto. }
  assert (TK : took s i R i = match t with G1 _ | P1 _ => root s | _ => R i end).
  { unfold took. rewrite Hi. destruct t; auto; apply upd_same. }
  constructor.
  - intros j u Hj. rewrite TH, (nth_put _ _ _ _ _ Hi) in Hj. destruct (Nat.eqb_spec j i) as [->|Z]; [injection Hj as <-; auto|].
    rewrite TO by auto. pose proof (O j u Hj) as P. destruct u; cbn [pdp] in *; auto.
    + destruct P as (Q1 & Q2 & Q3). repeat split; auto. rewrite (proj2 (FZ _ (reach_fz _ _ _ _ Q1))), (proj2 (FZ _ (reach_fz _ _ _ _ Q2))). auto.
    + destruct P as (Q1 & Q2). split; auto. apply FZ; auto.
    + destruct P as (Q1 & Q2 & Q3). split; auto. split; [apply FZ; auto|auto].
    + destruct P as (Q1 & Q2 & Q3). split; auto. split; [apply FZ; auto|auto].
    + destruct P as (Q1 & Q2 & Q3). split; auto. split; [apply FZ; auto|auto].
    + destruct P as (Q1 & Q2 & Q3). split; auto. split; [apply FZ; auto|auto].
    + destruct P as (Q1 & Q2 & Q3). split; auto. split; [apply FZ; auto|auto].
  - intros q j w u a d k x Hq Hj RR HB HA HI.
    rewrite TH, (nth_put _ _ _ _ _ Hi) in Hq. rewrite TH, (nth_put _ _ _ _ _ Hi) in Hj.
    destruct (Nat.eqb_spec q i) as [->|Zq]; destruct (Nat.eqb_spec j i) as [->|Zj].
    + rewrite Hq in Hj. injection Hj as <-. destruct w; discriminate.
    + (* the compaction moves *)
      injection Hq as <-. rewrite (TO j Zj) in RR.
      pose proof (at_reach _ _ _ _ _ (O j u Hj) HA) as Rx. pose proof (reach_fz _ _ _ _ Rx) as Fx. rewrite (proj2 (FZ _ Fx)).
      destruct HW as [[_ X]|[(_ & X & _)|[(k0 & -> & ->)|[(k0 & a0 & c0 & acc & -> & ->)|[(o & e & old & -> & ->)|[(o & e & up & b & -> & -> & U)|(o & e & b & p & -> & -> & Sp & Z & Fc)]]]]]];
        try discriminate; try congruence; injection HB as <- <-; rewrite TK in RR.
      * destruct (O i _ Hi) as (Q1 & Q2 & Q3). rewrite (proj2 (FZ _ Q2)). subst old. rewrite <- RR in Rx.
        pose proof (reach_ht _ _ _ _ V _ _ _ Rx). lia.
      * destruct (O i _ Hi) as (Q1 & Q2 & Q3). pose proof (reach_fz _ _ _ _ Q1) as Fb. rewrite (proj2 (FZ _ Fb)) in *.
        pose proof (W i j _ u b 1 k x Hi Hj RR eq_refl HA HI) as L.
        assert (ht (mem s x) <> ht (mem s b)); [|lia]. intros EQ. rewrite <- RR in Rx.
        pose proof (reach_one _ _ _ _ V _ _ _ _ Rx (reach_key _ _ _ _ V _ _ _ Q1 _ HI) EQ) as ->.
        exact (nobody_spec reads b _ i U j u Zj Hj (at_reads _ _ _ HA)).
      * destruct (O i _ Hi) as (Q1 & Q2 & Q3). pose proof (reach_fz _ _ _ _ Q1) as Fb. rewrite (proj2 (FZ _ Fc)) in *.
        destruct (kid_fz _ _ _ _ V b p Fb (slot_in _ _ _ Sp) Z Fc) as [H1 H2]. destruct (H2 k HI) as [_ H3].
        pose proof (W i j _ u b 0 k x Hi Hj RR eq_refl HA H3). lia.
    + (* the lookup moves *)
      injection Hj as <-. rewrite (TO q Zq) in RR.
      destruct (bnd_reach _ _ _ _ _ (O q w Hq) HB) as ((k1 & Ra) & N & Fr). pose proof (reach_fz _ _ _ _ Ra) as Fa. rewrite (proj2 (FZ _ Fa)) in *.
      destruct HW as [[X _]|[(X & _ & Y)|[(k0 & -> & ->)|[(k0 & a0 & c0 & acc & -> & ->)|[(o & e & old & -> & ->)|[(o & e & up & b & -> & -> & U)|(o & e & b & p & -> & -> & Sp & Z & Fc)]]]]]];
        try discriminate; try congruence.
      * rewrite X in HA. assert (TR : took s i R i = R i) by (rewrite TK; destruct t; auto; discriminate). rewrite TR in RR.
        rewrite (proj2 (FZ _ (reach_fz _ _ _ _ (at_reach _ _ _ _ _ (O i t Hi) HA)))). eapply (W q i); eauto.
      * rewrite TK in RR. destruct (O i _ Hi) as (Q1 & Q2 & Q3). injection HA as <- <-. rewrite (proj2 (FZ _ (reach_fz _ _ _ _ Q2))).
        pose proof (W q i w _ a d k0 a0 Hq Hi RR HB eq_refl HI). lia.
    + rewrite !TO in RR by auto. destruct (bnd_reach _ _ _ _ _ (O q w Hq) HB) as ((k1 & Ra) & N & Fr).
      rewrite (proj2 (FZ _ (reach_fz _ _ _ _ Ra))) in *. rewrite (proj2 (FZ _ (reach_fz _ _ _ _ (at_reach _ _ _ _ _ (O j u Hj) HA)))). eapply (W q j); eauto.
Qed.

Lemma gruns_pd : forall n tr s R, gruns n tr s R -> pd s R.
Proof.
  induction 1 as [|tr s R i c s' l G IH E].
  - constructor; intros i; intros; match goal with H : nth_error _ i = Some _ |- _ => apply nth_repeat_some in H end; subst; [exact Logic.I|discriminate].
  - destruct (runs_tick _ _ _ (gruns_runs _ _ _ _ G)) as (ef & m & f & T & V & TI). eapply step_pd; eauto.
Qed.

(** A step that gives up a branch: the lookups of its keys that took the root this
    compaction replaced are below the node that had the branch. *)
Theorem trunk_past : forall n tr s R i c s' l b k, gruns n tr s R -> step s i c = Some (s', l) ->
  fr s b k = false -> fr s' b k = true ->
  exists o e a p, nth_error (ths s) i = Some (K2 o e a) /\ slot k (pvs (mem s a)) = Some p /\ In b (bs p) /\ reach s (R i) k a /\ R i <> root s /\
    forall j u kx x, nth_error (ths s) j = Some u -> R j = R i -> at_ u = Some (kx, x) -> inr (mem s a) kx -> ht (mem s x) < ht (mem s a).
Proof.
  intros n tr s R i c s' l b k G E F F'. destruct (gives_up _ _ _ _ _ _ _ E F F') as (o & e & a & p & Hi & _ & Sp & Hb & U).
  destruct (runs_tick _ _ _ (gruns_runs _ _ _ _ G)) as (ef & m & f & T & V & TI). destruct (gruns_pd _ _ _ _ G) as [O W].
  exists o, e, a, p. split; auto. split; auto. split; auto. destruct (O i _ Hi) as (P1 & P2 & P3).
  assert (I : inr (mem s a) k).
  { rewrite (fz_ef _ _ _ _ _ V (reach_fz _ _ _ _ P1)) in *. destruct (v_wf _ _ _ _ V a (proj1 (reach_fz _ _ _ _ P1))) as (W1 & _ & W3).
    split; auto. unfold lo. destruct (pvs (ef a)) as [|q r] eqn:Eq; [discriminate|]. exists (pk q). split; auto.
    cbn [slot] in Sp. destruct (Nat.ltb_spec k (pk q)); [discriminate|auto]. }
  split; [eapply reach_key; eauto|]. split; auto. intros j u kx x Hj RR HA HI.
  pose proof (W i j _ u a 0 kx x Hi Hj ltac:(auto) eq_refl HA HI). lia.
Qed.

(** ** From then on. *)
Definition low (s : state) (h : nat) (k : nat) (t : pc) : Prop :=
  t = Idle \/ exists x, at_ t = Some (k, x) /\ ht (mem s x) <= h.

Lemma step_low : forall s ef m f T R i c s' l j u h k, inv s ef m f -> tinv s T -> pd s R -> step s i c = Some (s', l) ->
  (forall z, ~ In (j, Called z) (seen i l)) -> nth_error (ths s) j = Some u -> low s h k u ->
  exists u', nth_error (ths s') j = Some u' /\ low s' h k u'.
Proof.
  intros s ef m f T R i c s' l j u h k V TI D E N Hj L.
  pose proof (step_fz _ _ _ _ _ E) as FZ.
  destruct (nth_error (ths s) i) as [t|] eqn:Hi; [|unfold step in E; rewrite Hi in E; discriminate].
  destruct (own_pd _ _ _ _ _ R _ _ _ _ _ V TI Hi E (pd_own _ _ D i t Hi)) as (t1 & TH & P1 & HW).
  destruct (Nat.eq_dec j i) as [->|Z].
  - rewrite Hi in Hj. injection Hj as <-. exists t1. rewrite TH, (nth_put _ _ _ _ _ Hi), Nat.eqb_refl. split; auto.
    destruct L as [->|(x & A & B)].
    { unfold step in E. rewrite Hi in E. destruct c as [c|x]; [|destruct x; discriminate]. destruct (start s c) as [[s1 t2]|]; [|discriminate].
      injection E as <- <-. exfalso. eapply N. cbn. auto. }
    pose proof (at_reach _ _ _ _ _ (pd_own _ _ D i t Hi) A) as Rx. pose proof (reach_fz _ _ _ _ Rx) as Fx.
    destruct HW as [[X _]|[(X & _ & Y)|[(k0 & -> & ->)|[(k0 & a0 & c0 & acc & -> & ->)|[(o & e & old & -> & ->)|[(o & e & up & b & -> & -> & U)|(o & e & b & p & -> & -> & Sp & Z & Fc)]]]]]]; try discriminate.
    + (* the end *) left. clear P1 FZ. unfold step in E. rewrite Hi in E. destruct c as [c|y]; [destruct t; discriminate|].
      destruct (go s i t y) as [[[s1 t2] l1]|] eqn:Eg; [|discriminate]. injection E as <- <-. cbn [ths set_ths] in TH.
      assert (t2 = t1) as ->.
      { assert (Q : nth_error (put (ths s) i t2) i = nth_error (put (ths s) i t1) i) by congruence.
        rewrite !(nth_put _ _ _ _ _ Hi), Nat.eqb_refl in Q. congruence. }
      destruct t; try discriminate; destruct y; try discriminate; unfold go, same_st in Eg.
      * repeat match type of Eg with
        | (if ?b then _ else _) = _ => destruct b eqn:?
        | match ?x with Some _ => _ | None => _ end = _ => destruct x eqn:?
        end; try discriminate; injection Eg as <- <- <-; try discriminate; auto.
        exfalso. pose proof (v_pc _ _ _ _ V _ _ Hi) as PC. cbn [pcok] in PC. destruct PC as (_ & p & Sp & _).
        injection A as -> ->. rewrite (fz_ef _ _ _ _ _ V Fx) in *. congruence.
      * injection Eg as <- <- <-. discriminate.
    + right. exists x. rewrite X. split; auto. rewrite (proj2 (FZ _ Fx)). auto.
    + right. exists c0. injection A as -> ->. split; [auto|]. destruct (pd_own _ _ D i _ Hi) as (Q1 & Q2 & Q3).
      rewrite (proj2 (FZ _ (reach_fz _ _ _ _ Q2))). lia.
  - exists u. rewrite TH, (nth_put _ _ _ _ _ Hi), (proj2 (Nat.eqb_neq _ _) Z). split; auto.
    destruct L as [->|(x & A & B)]; [left; auto|right]. exists x. split; auto.
    rewrite (proj2 (FZ _ (reach_fz _ _ _ _ (at_reach _ _ _ _ _ (pd_own _ _ D j u Hj) A)))). auto.
Qed.

Lemma runs_low : forall n tr s R tr' s', gruns n tr s R -> runs s tr' s' -> forall j u h k a,
  (forall z, ~ In (j, Called z) tr') -> nth_error (ths s) j = Some u -> low s h k u -> fz s a ->
  exists u' R' trx, gruns n trx s' R' /\ nth_error (ths s') j = Some u' /\ low s' h k u' /\ fz s' a /\ mem s' a = mem s a.
Proof.
  intros n tr s R tr' s' G Q. induction Q as [s1|s1 tr1 s2 i c s3 l Q IH E]; intros j u h k a N Hj L F.
  - exists u, R, tr. auto.
  - destruct (IH G j u h k a) as (u' & R' & trx & G' & Hj' & L' & F' & M'); auto.
    { intros z H. apply (N z). apply in_or_app. auto. }
    destruct (runs_tick _ _ _ (gruns_runs _ _ _ _ G')) as (ef & m & f & T & V & TI).
    destruct (step_low s2 ef m f T R' i c s3 l j u' h k V TI (gruns_pd _ _ _ _ G') E) as (u2 & H2 & L2); auto.
    { intros z H. apply (N z). apply in_or_app. auto. }
    destruct (step_fz _ _ _ _ _ E a F') as [F2 M2].
    exists u2. eexists. eexists. split; [econstructor; eauto|]. split; auto. split; auto. split; auto. congruence.
Qed.

(** No lookup that took the same root comes to the node any more. *)
Lemma past_stays : forall n tr s R i k a, gruns n tr s R -> reach s (R i) k a ->
  (forall j u kx x, nth_error (ths s) j = Some u -> R j = R i -> at_ u = Some (kx, x) -> inr (mem s a) kx -> ht (mem s x) < ht (mem s a)) ->
  forall j u, nth_error (ths s) j = Some u -> reads u <> [] -> R j = R i ->
  forall tr' s' u', runs s tr' s' -> (forall z, ~ In (j, Called z) tr') -> nth_error (ths s') j = Some u' -> ~ In a (reads u').
Proof.
  intros n tr s R i k a G Ra P.
  intros j u Hj Hr RR tr' s' u' Q N Hj'. pose proof (reach_fz _ _ _ _ Ra) as Fa.
  destruct (at_ u) as [[kx x]|] eqn:A; [|exfalso; apply Hr; destruct u; try discriminate; reflexivity].
  destruct (runs_low _ _ _ _ _ _ G Q j u (ht (mem s x)) kx a N Hj) as (u2 & R2 & trx & G2 & H2 & L2 & F2 & M2); auto.
  { right. exists x. auto. }
  rewrite Hj' in H2. injection H2 as <-. destruct L2 as [->|(y & A2 & B2)]; [cbn; tauto|].
  destruct (runs_tick _ _ _ (gruns_runs _ _ _ _ G2)) as (ef & m & f & T & V & TI).
  pose proof (v_pc _ _ _ _ V _ _ Hj') as PC. pose proof (pd_own _ _ (gruns_pd _ _ _ _ G2) j u' Hj') as PO.
  assert (KEY : forall y', In y' (reads u') -> inr (mem s' y') kx /\ ht (mem s' y') <= ht (mem s' y)).
  { intros y' Hy. pose proof (read_fz _ _ _ _ _ _ _ V Hj' Hy) as Fy. rewrite (fz_ef _ _ _ _ _ V Fy). destruct u'; try discriminate; injection A2 as -> ->; cbn in Hy, PC.
    - destruct Hy as [<-|[]]. split; [tauto|]. rewrite (fz_ef _ _ _ _ _ V Fy). auto.
    - destruct PO as (O1 & O2 & O3). destruct Hy as [<-|[<-|[]]].
      + split; [|rewrite (fz_ef _ _ _ _ _ V Fy); auto].
        rewrite <- (fz_ef _ _ _ _ _ V Fy). eapply reach_up; eauto. rewrite (fz_ef _ _ _ _ _ V (reach_fz _ _ _ _ O2)). tauto.
      + split; [tauto|]. rewrite <- (fz_ef _ _ _ _ _ V Fy). lia. }
  intros Ha. destruct (KEY a Ha) as [K1 K2]. rewrite M2 in K1, K2.
  pose proof (P j u kx x Hj RR A K1). lia.
Qed.

Theorem trunk_past_for_good : forall n tr s R i c s1 l b k, gruns n tr s R -> step s i c = Some (s1, l) ->
  fr s b k = false -> fr s1 b k = true ->
  exists a p, slot k (pvs (mem s a)) = Some p /\ In b (bs p) /\ reach s (R i) k a /\ R i <> root s /\
    forall j u, nth_error (ths s) j = Some u -> reads u <> [] -> R j = R i ->
    forall tr' s' u', runs s tr' s' -> (forall z, ~ In (j, Called z) tr') -> nth_error (ths s') j = Some u' -> ~ In a (reads u').
Proof.
  intros n tr s R i c s1 l b k G E F F'. destruct (trunk_past _ _ _ _ _ _ _ _ _ _ G E F F') as (o & e & a & p & _ & Sp & Hb & Ra & NR & P).
  exists a, p. split; auto. split; auto. split; auto. split; auto. eapply past_stays; eauto.
Qed.
