(** Calls on the trunk end: while no call begins and no incorporation flushes or splits,
    every run is finite. *)
From Coq Require Import List Arith Bool Lia.
Import ListNotations.
From Verif Require Import CTrunk CTrunkSpec CTrunkInv CTrunkOps CTrunkProofs CTrunkSteps CTrunkLin CTrunkLive.
Local Open Scope nat_scope.

(** ** A compaction goes on to greater keys. *)
Definition hu (n : node) := (ht n, ub n).
Definition kpc (g : nat -> node) (t : pc) : Prop :=
  match t with
  | P4 o e _ n => hu n = hu (g e)
  | K0 o e _ | K1 o e _ _ | K2 o e _ | P6 o e => below (sk o) (ub (g e)) = true
  | _ => True
  end.
Definition kinv (s : state) : Prop := forall i t, nth_error (ths s) i = Some t -> kpc (mem s) t.

Lemma kpc_ext : forall g g' t, (forall a, In a (mine t) -> hu (g' a) = hu (g a)) -> kpc g t -> kpc g' t.
Proof.
  intros g g' t H. destruct t; cbn in *; auto; try (specialize (H e (or_introl eq_refl)); unfold hu in *; congruence).
Qed.

Lemma go_mem : forall s ef m f i t x s' t' l, inv s ef m f -> nth_error (ths s) i = Some t -> kpc (mem s) t ->
  go s i t x = Some (s', t', l) ->
  nx s <= nx s' /\ (forall a, a < nx s -> hu (mem s' a) = hu (mem s a)) /\ kpc (mem s') t' /\ ths s' = ths s.
Proof.
  intros s ef m f i t x s' t' l V Hi K E. pose proof (v_pc _ _ _ _ V _ _ Hi) as PC.
  assert (PG : forall a, In a (pages t ++ priv t) -> a < nx s) by (intros a Ha; eapply (v_pg _ _ _ _ V); eauto).
  assert (ST : forall t1, kpc (mem s) t1 -> nx s <= nx s /\ (forall a, a < nx s -> hu (mem s a) = hu (mem s a)) /\ kpc (mem s) t1 /\ ths s = ths s) by auto.
  unfold go, same_st in E. destruct t; try (destruct x; discriminate); destruct x; try discriminate.
  - injection E as <- <- <-. apply ST. exact Logic.I.
  - destruct (can_get s i (root s)); [|discriminate]. injection E as <- <- <-. apply ST. exact Logic.I.
  - destruct (slot k (pvs (mem s a))); [|injection E as <- <- <-; apply ST; exact Logic.I].
    destruct (nth_error (bs p) i0) as [b|].
    + destruct (fr s b k); injection E as <- <- <-; apply ST; exact Logic.I.
    + destruct (ht (mem s a) =? 0); [injection E as <- <- <-; apply ST; exact Logic.I|].
      destruct (can_get s i (ch p)); [|discriminate]. injection E as <- <- <-; apply ST; exact Logic.I.
  - injection E as <- <- <-. apply ST. exact Logic.I.
  - destruct (no_claim s); [|discriminate]. injection E as <- <- <-. apply ST. exact Logic.I.
  - destruct (can_get s i (root s)); [|discriminate]. injection E as <- <- <-. cbn. split; [lia|]. split; [|auto].
    intros a Ha. rewrite upd_other by lia. auto.
  - destruct (no_reader s); [|discriminate]. injection E as <- <- <-. cbn. auto.
  - (* P3 *) destruct (hh o <? ht (mem s e)).
    + destruct (slot (sk o) (pvs (mem s e))); [|injection E as <- <- <-; apply ST; exact Logic.I].
      destruct (can_get s i (ch p)); [|discriminate]. injection E as <- <- <-. cbn. split; [lia|]. split; [|auto].
      intros a Ha. destruct (Nat.eq_dec a e) as [->|Z]; [rewrite upd_same; reflexivity|]. rewrite !upd_other by lia. auto.
    + destruct (hh o =? ht (mem s e)); [|injection E as <- <- <-; apply ST; exact Logic.I].
      destruct ((ht (mem s e) =? 0) && negb (same (ub (mem s e)) (ek o))); injection E as <- <- <-; [apply ST; exact Logic.I|].
      cbn. split; [lia|]. split; [|split; [rewrite upd_same; reflexivity|auto]].
      intros a Ha. destruct (Nat.eq_dec a e) as [->|Z]; [rewrite upd_same; reflexivity|]. rewrite !upd_other by lia. auto.
  - (* P4 *) injection E as <- <- <-. cbn in K. cbn. split; [lia|]. split; [|split; [|auto]].
    + intros a Ha. destruct (Nat.eq_dec a e) as [->|Z]; [rewrite upd_same; exact K|]. rewrite !upd_other by lia. auto.
    + rewrite upd_same. cbn. cbn in PC. destruct PC as (_ & _ & _ & (_ & B) & _).
      assert (En : ef e = n) by (eapply (v_p4 _ _ _ _ V); eauto; reflexivity). rewrite <- En. exact B.
  - destruct (can_get s i old); [|discriminate]. injection E as <- <- <-. apply ST. exact K.
  - destruct (unread s i a); [|discriminate]. injection E as <- <- <-. apply ST. exact K.
  - destruct (hh o <? ht (mem s a)).
    + destruct (slot (sk o) (pvs (mem s a))); [|injection E as <- <- <-; apply ST; exact Logic.I].
      destruct (can_get s i (ch p)); [|discriminate]. injection E as <- <- <-. apply ST. exact K.
    + destruct (hh o =? ht (mem s a)); [|injection E as <- <- <-; apply ST; exact Logic.I].
      injection E as <- <- <-. cbn. auto.
  - destruct (ub (mem s e)) as [y|]; [destruct (below y (ek o))|]; injection E as <- <- <-; apply ST; exact Logic.I.
  - destruct (no_claim s); [|discriminate]. injection E as <- <- <-. apply ST. exact Logic.I.
  - destruct (can_get s i (root s)); [|discriminate]. injection E as <- <- <-. cbn. split; [lia|]. split; [|auto].
    intros a Ha. rewrite upd_other by lia. auto.
  - destruct (no_reader s); [|discriminate]. injection E as <- <- <-. cbn. auto.
  - (* flush *) destruct (isin p own) eqn:I; [|discriminate]. cbn [andb] in E.
    destruct (match nth_error (pvs (mem s p)) i0 with Some q => can_get s i (ch q) | None => false end); [|discriminate].
    unfold flush in E. destruct (nth_error (pvs (mem s p)) i0); [|discriminate]. destruct (ht (mem s p) =? 0); [discriminate|].
    destruct (pieces (add_all (bs p0) (mem s (ch p0))) cs) as [ns|]; [|discriminate]. injection E as <- <- <-. cbn [mem nx with_mem ths kpc].
    split; [lia|]. split; [|auto]. intros b Hb. destruct (Nat.eq_dec b p) as [->|Z]; [rewrite upd_same; reflexivity|].
    rewrite upd_other by auto. rewrite store_old by auto. auto.
  - unfold grow in E. destruct (pieces (mem s a) cs) as [ns|]; [|discriminate]. injection E as <- <- <-. cbn [mem nx with_mem ths kpc].
    split; [lia|]. split; [|auto]. intros b Hb. rewrite upd_other by lia. rewrite store_old by auto. auto.
Qed.

Lemma mine_page : forall s ef m f i t a, inv s ef m f -> nth_error (ths s) i = Some t -> In a (mine t) -> a < nx s.
Proof.
  intros s ef m f i t a V Hi H. eapply (v_pg _ _ _ _ V); [exact Hi|]. unfold pages. rewrite !in_app_iff. apply mine_locks in H. auto.
Qed.

Lemma step_k : forall s ef m f i c s' l, inv s ef m f -> kinv s -> step s i c = Some (s', l) -> kinv s'.
Proof.
  intros s ef m f i c s' l V K E. unfold step in E. destruct (nth_error (ths s) i) as [t|] eqn:Hi; [|discriminate].
  destruct c as [c|x].
  - destruct t; try discriminate. destruct (start s c) as [[s1 t1]|] eqn:Es; [|discriminate]. injection E as <- <-.
    assert (X : mem s1 = mem s /\ kpc (mem s) t1).
    { unfold start in Es. destruct c; try (injection Es as <- <-; cbn; auto; fail).
      destruct ((h <=? ht (mem s (root s))) && forallb (fun b => b <? nb s) seg); [|discriminate]. injection Es as <- <-. cbn. auto. }
    destruct X as [X1 X2]. intros j u Hj. cbn in Hj |- *. rewrite X1. rewrite (nth_put _ _ _ _ _ Hi) in Hj.
    destruct (j =? i); [injection Hj as <-; auto|eauto].
  - destruct (go s i t x) as [[[s1 t1] l1]|] eqn:Eg; [|discriminate]. injection E as <- <-.
    destruct (go_mem _ _ _ _ _ _ _ _ _ _ V Hi (K _ _ Hi) Eg) as (_ & G & K' & _).
    intros j u Hj. cbn in Hj |- *. rewrite (nth_put _ _ _ _ _ Hi) in Hj.
    destruct (j =? i); [injection Hj as <-; auto|]. eapply kpc_ext; [|eauto]. intros a Ha. apply G. eapply mine_page; eauto.
Qed.
Lemma runs_k : forall n tr s, runs (init n) tr s -> kinv s.
Proof.
  intros n tr s R. remember (init n) as s0 eqn:E0. induction R as [s1|s1 tr s' i c s'' l R IH St].
  - subst s1. intros i t H. apply nth_repeat_some in H. subst t. exact Logic.I.
  - subst s1. destruct (runs_ok _ _ _ R) as (ef & m & f & g & V & _). eapply step_k; eauto.
Qed.

(** ** How far a call has to go.  [H], [M]: the greatest height and key of a node. *)
Definition bounded (H M : nat) (s : state) : Prop :=
  forall a, a < nx s -> ht (mem s a) <= H /\ forall x, ub (mem s a) = Some x -> x <= M.
Definition stage (H : nat) (g : nat -> node) (t : pc) : nat :=
  match t with
  | P0 _ => 9 + 3 * H
  | P1 _ => 8 + 3 * H
  | P2 _ _ _ => 7 + 3 * H
  | P3 _ e _ => 6 + 2 * H + ht (g e)
  | P4 _ _ _ _ => 5 + 2 * H
  | K0 _ _ _ => 4 + 2 * H
  | K1 _ _ _ a => 3 + 2 * ht (g a)
  | K2 _ _ a => 2 + 2 * ht (g a)
  | P6 _ _ => 1
  | I0 _ => 3
  | I1 _ => 2
  | I2 _ _ _ => 1
  | _ => 0
  end.
Definition rounds (M : nat) (t : pc) : nat :=
  match t with
  | P0 o | P1 o | P2 o _ _ | P3 o _ _ | P4 o _ _ _ | K0 o _ _ | K1 o _ _ _ | K2 o _ _ | P6 o _ => S M - sk o
  | _ => 0
  end.
Definition work (H M : nat) (g : nat -> node) (t : pc) : nat := rounds M t * (9 + 3 * H) + stage H g t.
(** [L]: the greatest number of branches of a pivot. *)
Definition walk (H L : nat) (g : nat -> node) (t : pc) : nat :=
  match t with
  | G0 _ => H * (L + 3) + L + 3
  | G1 _ => H * (L + 3) + L + 2
  | G2 _ a j _ => ht (g a) * (L + 3) + (L - j) + 1
  | G3 _ _ c _ => ht (g c) * (L + 3) + L + 2
  | _ => 0
  end.
Fixpoint wsum (f : pc -> nat) (l : list pc) : nat := match l with [] => 0 | t :: r => f t + wsum f r end.

Lemma wsum_le : forall f f' l, (forall j u, nth_error l j = Some u -> f' u <= f u) -> wsum f' l <= wsum f l.
Proof.
  intros f f'. induction l as [|t l IH]; intros Hl; cbn; auto. pose proof (Hl 0 t eq_refl). assert (wsum f' l <= wsum f l); [|lia].
  apply IH. intros j u Hj. apply (Hl (S j)). auto.
Qed.
Lemma wsum_put_le : forall f f' l i t t', nth_error l i = Some t ->
  (forall j u, j <> i -> nth_error l j = Some u -> f' u <= f u) -> wsum f' (put l i t') + f t <= wsum f l + f' t'.
Proof.
  intros f f'. induction l as [|u l IH]; intros [|i] t t' Hi Ho; try discriminate; cbn in *.
  - injection Hi as ->. assert (wsum f' l <= wsum f l); [|lia]. apply wsum_le. intros j v Hj. apply (Ho (S j)); auto.
  - pose proof (Ho 0 u ltac:(auto) eq_refl). specialize (IH i t t' Hi). assert (wsum f' (put l i t') + f t <= wsum f l + f' t'); [|lia].
    apply IH. intros j v Z Hj. apply (Ho (S j)); auto.
Qed.

Lemma work_ext : forall H M g g' t, (forall a, In a (locks t) -> hu (g' a) = hu (g a)) -> work H M g' t = work H M g t.
Proof.
  intros H M g g' t E. unfold work. f_equal.
  assert (E' : forall a, In a (locks t) -> ht (g' a) = ht (g a)) by (intros a Ha; specialize (E a Ha); unfold hu in E; congruence).
  destruct t; cbn in *; auto; try (rewrite E' by auto; auto). destruct up; rewrite E' by (cbn; auto); auto.
Qed.

Lemma go_new : forall s ef m f T i t z s' t' l, inv s ef m f -> tinv s T -> nth_error (ths s) i = Some t ->
  go s i t (AGo z) = Some (s', t', l) ->
  nx s' = nx s \/ (nx s' = S (nx s) /\ exists b, b < nx s /\ hu (mem s' (nx s)) = hu (mem s b)).
Proof.
  intros s ef m f T i t z s' t' l V TI Hi E. destruct (v_root _ _ _ _ V) as (R1 & _).
  assert (PG : forall a, In a (pages t ++ priv t) -> a < nx s) by (intros a Ha; eapply (v_pg _ _ _ _ V); eauto).
  unfold go, same_st in E. destruct t; try discriminate;
    repeat match type of E with
    | (if ?b then _ else _) = _ => destruct b eqn:?
    | match ?x with Some _ => _ | None => _ end = _ => destruct x eqn:?
    end; try discriminate; injection E as <- <- <-; cbn; auto; right; split; auto.
  - exists (root s). split; auto. rewrite upd_same. auto.
  - match goal with X : slot _ _ = Some p |- _ => pose proof (slot_kid _ _ _ X) as SK end.
    match goal with X : (hh o <? _) = true |- _ => apply Nat.ltb_lt in X end.
    assert (Le : e < nx s) by (apply PG; cbn; auto).
    exists (ch p). split; [apply (t_kid _ _ TI e); auto; apply SK; lia|]. rewrite upd_other by lia. rewrite upd_same. auto.
  - exists (root s). split; auto. rewrite upd_same. auto.
Qed.

Lemma go_bounded : forall H M s ef m f T i t z s' t' l, inv s ef m f -> tinv s T -> nth_error (ths s) i = Some t -> kpc (mem s) t ->
  go s i t (AGo z) = Some (s', t', l) -> bounded H M s -> bounded H M s'.
Proof.
  intros H M s ef m f T i t z s' t' l V TI Hi K E B a Ha.
  destruct (go_mem _ _ _ _ _ _ _ _ _ _ V Hi K E) as (_ & G & _).
  assert (X : exists b, b < nx s /\ hu (mem s' a) = hu (mem s b)).
  { destruct (Nat.lt_ge_cases a (nx s)) as [L|L]; [exists a; auto|].
    destruct (go_new _ _ _ _ _ _ _ _ _ _ _ V TI Hi E) as [N|(N & X)]; [lia|]. replace a with (nx s) by lia. auto. }
  destruct X as (b & Hb & X). unfold hu in X. injection X as -> ->. apply B. auto.
Qed.

Definition looking (t : pc) : bool := match t with G0 _ | G1 _ | G2 _ _ _ _ | G3 _ _ _ _ => true | _ => false end.
Definition few (L : nat) (s : state) : Prop := forall a p, a < nx s -> In p (pvs (mem s a)) -> length (bs p) <= L.

Lemma round_less : forall M C k x a b, k < x -> x <= M -> a < C + b -> (S M - x) * C + a < (S M - k) * C + b.
Proof.
  intros M C k x a b H1 H2 H3. replace (S M - k) with (S (S M - x) + (x - k - 1)) by lia. rewrite Nat.mul_add_distr_r. cbn [Nat.mul].
  remember ((S M - x) * C) as y. remember ((x - k - 1) * C) as w. lia.
Qed.

Ltac gl := match goal with |- context [(S ?M - ?k) * (9 + 3 * ?H)] => generalize ((S M - k) * (9 + 3 * H)); intros; lia end.

Lemma go_less : forall H M s ef m f T i t z s' t' l, inv s ef m f -> tinv s T -> nth_error (ths s) i = Some t -> kpc (mem s) t ->
  go s i t (AGo z) = Some (s', t', l) -> t' <> Bad -> bounded H M s ->
  if looking t then mem s' = mem s /\ nx s' = nx s /\ work H M (mem s) t' = 0 /\
                    forall L, few L s -> walk H L (mem s) t' < walk H L (mem s) t
  else work H M (mem s') t' < work H M (mem s) t.
Proof.
  intros H M s ef m f T i t z s' t' l V TI Hi K E NB B. destruct (v_root _ _ _ _ V) as (R1 & _).
  assert (PG : forall a, In a (pages t ++ priv t) -> a < nx s) by (intros a Ha; eapply (v_pg _ _ _ _ V); eauto).
  assert (BH : forall a, a < nx s -> ht (mem s a) <= H) by (intros a Ha; apply B; auto).
  unfold go, same_st in E. destruct t; try discriminate; cbn [looking].
  - injection E as <- <- <-. cbn. split; auto. split; auto. split; auto. intros L _. lia.
  - destruct (can_get s i (root s)); [|discriminate]. injection E as <- <- <-. cbn. split; auto. split; auto. split; auto. intros L _.
    pose proof (Nat.mul_le_mono_r _ _ (L + 3) (BH _ R1)). lia.
  - assert (La : a < nx s) by (apply PG; cbn; auto).
    destruct (slot k (pvs (mem s a))) as [p|] eqn:Sp; [|injection E as <- <- <-; congruence].
    destruct (nth_error (bs p) i0) as [b|] eqn:Nb.
    + assert (X : mem s = mem s /\ nx s = nx s /\ forall acc', work H M (mem s) (G2 k a (S i0) acc') = 0 /\
        forall L, few L s -> walk H L (mem s) (G2 k a (S i0) acc') < walk H L (mem s) (G2 k a i0 acc)).
      { split; auto. split; auto. intros acc'. split; auto. intros L F. pose proof (F a p La (slot_in _ _ _ Sp)).
        assert (i0 < length (bs p)) by (apply nth_error_Some; congruence). cbn. lia. }
      destruct X as (X1 & X2 & X3). destruct (fr s b k); injection E as <- <- <-; split; auto.
    + destruct (Nat.eqb_spec (ht (mem s a)) 0) as [Z|Z].
      * injection E as <- <- <-. split; auto. split; auto. split; auto. intros L _. cbn. lia.
      * destruct (can_get s i (ch p)); [|discriminate]. injection E as <- <- <-. split; auto. split; auto. split; auto.
        intros L _. cbn. destruct (t_kid _ _ TI a (ch p) La (slot_kid _ _ _ Sp Z)) as (_ & _ & X).
        assert (Y : S (ht (mem s (ch p))) <= ht (mem s a)) by lia. apply (Nat.mul_le_mono_r _ _ (L + 3)) in Y. cbn in Y. lia.
  - injection E as <- <- <-. cbn. split; auto. split; auto. split; auto. intros L _. lia.
  - destruct (no_claim s); [|discriminate]. injection E as <- <- <-. unfold work. cbn [stage rounds]. lia.
  - destruct (can_get s i (root s)); [|discriminate]. injection E as <- <- <-. unfold work. cbn [stage rounds]. lia.
  - destruct (no_reader s); [|discriminate]. injection E as <- <- <-. unfold work. cbn [stage rounds mem with_root].
    pose proof (BH a ltac:(apply PG; cbn; auto)). lia.
  - (* P3 *) assert (Le : e < nx s) by (apply PG; cbn; auto). destruct (Nat.ltb_spec (hh o) (ht (mem s e))) as [L|L].
    + destruct (slot (sk o) (pvs (mem s e))) as [p|] eqn:Sp; [|injection E as <- <- <-; congruence].
      destruct (can_get s i (ch p)); [|discriminate]. injection E as <- <- <-. unfold work. cbn [stage rounds mem with_mem].
      rewrite upd_other by lia. rewrite upd_same. destruct (t_kid _ _ TI e (ch p) Le (slot_kid _ _ _ Sp ltac:(lia))) as (_ & _ & X). lia.
    + destruct (hh o =? ht (mem s e)); [|injection E as <- <- <-; congruence].
      destruct ((ht (mem s e) =? 0) && negb (same (ub (mem s e)) (ek o))); injection E as <- <- <-; unfold work; cbn [stage rounds]; gl.
  - injection E as <- <- <-. unfold work. cbn [stage rounds]. lia.
  - destruct (can_get s i old); [|discriminate]. injection E as <- <- <-. unfold work. cbn [stage rounds].
    pose proof (BH old ltac:(apply PG; cbn; auto)). lia.
  - destruct (unread s i a); [|discriminate]. injection E as <- <- <-. unfold work. cbn [stage rounds]. lia.
  - assert (La : a < nx s) by (apply PG; cbn; auto). destruct (Nat.ltb_spec (hh o) (ht (mem s a))) as [L|L].
    + destruct (slot (sk o) (pvs (mem s a))) as [p|] eqn:Sp; [|injection E as <- <- <-; congruence].
      destruct (can_get s i (ch p)); [|discriminate]. injection E as <- <- <-. unfold work. cbn [stage rounds].
      destruct (t_kid _ _ TI a (ch p) La (slot_kid _ _ _ Sp ltac:(lia))) as (_ & _ & X). lia.
    + destruct (hh o =? ht (mem s a)); [|injection E as <- <- <-; congruence]. injection E as <- <- <-. unfold work. cbn [stage rounds]. lia.
  - (* P6 *) assert (Le : e < nx s) by (apply PG; cbn; auto). cbn in K. destruct (ub (mem s e)) as [y|] eqn:U.
    + destruct (below y (ek o)); injection E as <- <- <-; unfold work; cbn [stage rounds sk]; [|gl].
      apply round_less; [apply Nat.ltb_lt; exact K| |lia]. apply (B e); auto.
    + injection E as <- <- <-; unfold work; cbn [stage rounds]; gl.
  - destruct (no_claim s); [|discriminate]. injection E as <- <- <-. unfold work. cbn [stage rounds]. lia.
  - destruct (can_get s i (root s)); [|discriminate]. injection E as <- <- <-. unfold work. cbn [stage rounds]. lia.
  - destruct (no_reader s); [|discriminate]. injection E as <- <- <-. unfold work. cbn [stage rounds]. lia.
Qed.

(** ** There are such bounds. *)
Lemma has_bound : forall (P : nat -> nat -> Prop) n, (forall a x y, P a x -> x <= y -> P a y) ->
  (forall a, a < n -> exists x, P a x) -> exists x, forall a, a < n -> P a x.
Proof.
  intros P n Mo. induction n as [|n IH]; intros Hx; [exists 0; lia|].
  destruct IH as (x & IH); [intros a Ha; apply Hx; lia|]. destruct (Hx n ltac:(lia)) as (y & Hy).
  exists (x + y). intros a Ha. destruct (Nat.eq_dec a n) as [->|Z]; [apply (Mo _ y); auto; lia|]. apply (Mo _ x); [apply IH; lia|lia].
Qed.
Lemma bounds : forall s, exists H M, bounded H M s.
Proof.
  intros s.
  destruct (has_bound (fun a h => ht (mem s a) <= h) (nx s)) as (H & HH); [intros; lia|intros a _; exists (ht (mem s a)); auto|].
  destruct (has_bound (fun a h => forall x, ub (mem s a) = Some x -> x <= h) (nx s)) as (M & HM).
  - intros a x y Ha Hl z Hz. specialize (Ha z Hz). lia.
  - intros a _. destruct (ub (mem s a)) as [x|]; [exists x; intros z [= <-]; auto|exists 0; discriminate].
  - exists H, M. intros a Ha. split; [apply HH; auto|apply HM; auto].
Qed.
Lemma fews : forall s, exists L, few L s.
Proof.
  intros s. destruct (has_bound (fun a h => forall p, In p (pvs (mem s a)) -> length (bs p) <= h) (nx s)) as (L & HL).
  - intros a x y Ha Hl p Hp. specialize (Ha p Hp). lia.
  - intros a _. induction (pvs (mem s a)) as [|p r (x & IH)]; [exists 0; intros p []|].
    exists (length (bs p) + x). intros q [<-|Hq]; [lia|]. specialize (IH q Hq). lia.
  - exists L. intros a p Ha Hp. eauto.
Qed.

(** ** Every run of steps that begin nothing is finite. *)
Definition goes (s' s : state) : Prop := exists i z l, step s i (Go (AGo z)) = Some (s', l).
Definition reached (s : state) : Prop := exists n tr, runs (init n) tr s.

Lemma reached_goes : forall s s', reached s -> goes s' s -> reached s'.
Proof. intros s s' (n & tr & R) (i & z & l & E). exists n, (tr ++ seen i l). econstructor; eauto. Qed.

Lemma locks_page : forall s ef m f i t a, inv s ef m f -> nth_error (ths s) i = Some t -> In a (locks t) -> a < nx s.
Proof. intros s ef m f i t a V Hi H. eapply (v_pg _ _ _ _ V); [exact Hi|]. unfold pages. rewrite !in_app_iff. auto. Qed.

(** A step does less work, or the same and a lookup walks on. *)
Lemma goes_less : forall H M s s', reached s -> goes s' s -> bounded H M s ->
  bounded H M s' /\
  (wsum (work H M (mem s')) (ths s') < wsum (work H M (mem s)) (ths s) \/
   (wsum (work H M (mem s')) (ths s') <= wsum (work H M (mem s)) (ths s) /\ mem s' = mem s /\ nx s' = nx s /\
    forall L, few L s -> wsum (walk H L (mem s')) (ths s') < wsum (walk H L (mem s)) (ths s))).
Proof.
  intros H M s s' RS GS B. pose proof (reached_goes _ _ RS GS) as (n' & tr' & R').
  destruct RS as (n & tr & R). destruct GS as (i & z & l & E).
  pose proof (trunk_no_bad _ _ _ R') as NB. pose proof (runs_k _ _ _ R) as K.
  destruct (runs_tick _ _ _ R) as (ef & m & f & T & V & TI).
  unfold step in E. destruct (nth_error (ths s) i) as [t|] eqn:Hi; [|discriminate].
  destruct (go s i t (AGo z)) as [[[s1 t1] l1]|] eqn:Eg; [|discriminate]. injection E as <- <-.
  destruct (go_mem _ _ _ _ _ _ _ _ _ _ V Hi (K _ _ Hi) Eg) as (G1 & G2 & _).
  assert (NB1 : t1 <> Bad).
  { intros ->. apply NB. cbn. eapply nth_error_In with (n := i). rewrite (nth_put _ _ _ _ _ Hi), Nat.eqb_refl. auto. }
  pose proof (go_bounded H M _ _ _ _ _ _ _ _ _ _ _ V TI Hi (K _ _ Hi) Eg B) as B'.
  pose proof (go_less H M _ _ _ _ _ _ _ _ _ _ _ V TI Hi (K _ _ Hi) Eg NB1 B) as LE.
  split; [exact B'|]. cbn [set_ths mem ths nx].
  assert (W : wsum (work H M (mem s1)) (put (ths s) i t1) + work H M (mem s) t <= wsum (work H M (mem s)) (ths s) + work H M (mem s1) t1).
  { apply wsum_put_le; auto. intros j u _ Hj. rewrite (work_ext H M (mem s) (mem s1)); auto.
    intros a Ha. apply G2. eapply locks_page; eauto. }
  destruct (looking t).
  - right. destruct LE as (M1 & M2 & M3 & M4). rewrite M1 in *. split; [lia|]. split; auto. split; auto. intros L F.
    pose proof (wsum_put_le (walk H L (mem s)) (walk H L (mem s)) _ _ _ t1 Hi ltac:(auto)). specialize (M4 L F). lia.
  - left. lia.
Qed.

Theorem trunk_ends : forall n tr s, runs (init n) tr s -> Acc goes s.
Proof.
  intros n tr s R. destruct (bounds s) as (H & M & B). assert (RS : reached s) by (exists n, tr; auto). clear n tr R.
  remember (wsum (work H M (mem s)) (ths s)) as w eqn:Ew. revert s Ew B RS.
  induction w as [w IHw] using lt_wf_ind. intros s Ew B RS.
  destruct (fews s) as (L & F). remember (wsum (walk H L (mem s)) (ths s)) as v eqn:Ev. revert s Ew B RS F Ev.
  induction v as [v IHv] using lt_wf_ind. intros s Ew B RS F Ev. constructor. intros s' GS.
  destruct (goes_less H M s s' RS GS B) as (B' & [Lt|(Le & M1 & M2 & Lt)]).
  - eapply IHw; [|reflexivity|exact B'|eapply reached_goes; eauto]. lia.
  - destruct (Nat.eq_dec (wsum (work H M (mem s')) (ths s')) w) as [Q|Q].
    + eapply IHv; [|symmetry; exact Q|exact B'|eapply reached_goes; eauto| |reflexivity].
      * specialize (Lt L F). lia.
      * unfold few. rewrite M1, M2. exact F.
    + eapply IHw; [|reflexivity|exact B'|eapply reached_goes; eauto]. lia.
Qed.

(** No run of such steps goes on for ever, ... *)
Lemma acc_finite : forall s, Acc goes s -> forall f : nat -> state, f 0 = s -> ~ (forall n, goes (f (S n)) (f n)).
Proof.
  induction 1 as [s _ IH]; intros f F0 Hf. apply (IH (f 1)) with (f := fun n => f (S n)); auto. rewrite <- F0. apply Hf.
Qed.

(** ... and it goes on until all calls have returned. *)
Lemma idle_dec : forall l : list pc, (forall t, In t l -> t = Idle) \/ exists i t, nth_error l i = Some t /\ t <> Idle.
Proof.
  induction l as [|t l IH]; [left; intros t []|]. destruct IH as [IH|(i & u & Hu & Z)]; [|right; exists (S i), u; auto].
  assert (D : t = Idle \/ t <> Idle) by (destruct t; auto; right; discriminate).
  destruct D as [->|Z]; [left; intros u [<-|Hu]; auto|right; exists 0, t; auto].
Qed.
Lemma runs_app : forall s tr s' tr' s'', runs s tr s' -> runs s' tr' s'' -> runs s (tr ++ tr') s''.
Proof.
  intros s tr s' tr' s'' R R'. induction R' as [s1|s1 tr1 s2 i c s3 l R1 IH St]; [rewrite app_nil_r; auto|].
  rewrite app_assoc. econstructor; eauto.
Qed.
Lemma go_no_call : forall s i z s' l c, step s i (Go (AGo z)) = Some (s', l) -> l <> Called c.
Proof.
  intros s i z s' l c E. unfold step in E. destruct (nth_error (ths s) i) as [t|]; [|discriminate].
  destruct (go s i t (AGo z)) as [[[s1 t1] l1]|] eqn:Eg; [|discriminate]. injection E as _ <-.
  unfold go, same_st in Eg. destruct t; try discriminate;
    repeat match type of Eg with
    | (if ?b then _ else _) = _ => destruct b
    | match ?x with Some _ => _ | None => _ end = _ => destruct x
    end; try discriminate; injection Eg as _ _ <-; discriminate.
Qed.
Theorem trunk_all_end : forall n tr s, runs (init n) tr s ->
  exists tr' s', runs s tr' s' /\ (forall t, In t (ths s') -> t = Idle) /\ (forall i c, ~ In (i, Called c) tr').
Proof.
  intros n tr s R. pose proof (trunk_ends _ _ _ R) as A. revert tr R. induction A as [s _ IH]; intros tr R.
  destruct (idle_dec (ths s)) as [D|(i & t & Hi & Z)]; [exists [], s; split; [constructor|auto]|].
  destruct (trunk_no_deadlock _ _ _ _ _ R Hi Z) as (j & s1 & l & E).
  destruct (IH s1 ltac:(exists j, [], l; auto) (tr ++ seen j l) ltac:(econstructor; eauto)) as (tr' & s' & R' & D & N).
  exists (seen j l ++ tr'), s'. split; [|split; auto].
  - apply (runs_app s (seen j l) s1); auto. change (seen j l) with ([] ++ seen j l). econstructor; [constructor|exact E].
  - intros k c H. apply in_app_or in H. destruct H as [H|H]; [|eapply N; eauto].
    pose proof (go_no_call _ _ _ _ _ c E) as X. destruct l; cbn in H; try tauto; destruct H as [H|[]]; congruence.
Qed.
