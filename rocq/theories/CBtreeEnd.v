(** From every state the calls in progress can all be brought to their end: the
    schedule. *)
From Coq Require Import List Arith Bool Lia Sorting.Sorted.
Import ListNotations.
From Verif Require Import CBtree CBtreeSpec CBtreeInv CBtreeSplit CBtreeProofs CBtreeLin CBtreeRest CBtreeLive CBtreeFin.
Local Open Scope nat_scope.

(** How far a call has to go. *)
Definition irank (g : nat -> node) (p : ipc) : nat :=
  let h a := 20 * height (g a) in
  match p with
  | I0 => 1
  | L4 _ _ | I4d _ => 2
  | L3 _ _ | I3 _ => 3
  | L2w _ _ | I2w _ => 4
  | L2 _ _ | I2 _ => 5
  | L1 _ _ => 6
  | B17 _ _ _ _ _ => 3 | B16 _ _ _ _ _ => 4 | B15 _ _ _ _ _ => 5 | B14 _ _ _ _ _ _ => 6 | B13 _ _ _ _ _ _ => 7
  | B12 _ _ _ _ _ _ _ => 8 | B11 _ _ _ _ _ _ _ _ => 9 | B10 _ _ _ _ _ _ _ _ => 10 | B9 _ _ _ _ _ _ _ _ => 11
  | B8 _ _ _ _ _ _ _ _ => 12 | B7 _ _ _ _ _ _ _ _ => 13 | B5 _ _ _ _ _ _ _ => 14 | B6 _ _ _ _ _ _ _ _ => 15
  | B4 _ _ _ _ _ _ _ => 15 | B3 _ _ _ _ _ _ _ => 16 | B2 _ _ _ _ => 17 | B1g _ _ _ => 18 | B1 _ _ _ _ _ => 19
  | I9 p _ _ => h p + 9
  | I8 p _ => h p + 10
  | A13 p _ => h p + 11
  | A7 _ c _ => h c + 12 | A6 _ _ c _ => h c + 13 | A5 _ _ c _ => h c + 14 | A4 _ _ c _ => h c + 15
  | A3 _ _ c _ => h c + 16 | A2 _ _ c _ => h c + 17 | A1 _ _ c _ => h c + 18
  | A12 c rc q j => (if j <? q then h c else h rc) + 12
  | A11 c rc q j => (if j <? q then h c else h rc) + 13
  | A10 c rc q j => (if j <? q then h c else h rc) + 14
  | A9 c _ _ _ => h c + 15
  | A8 _ c _ _ _ => h c + 16
  | I7r _ => h 0 + 11 | I7 _ => h 0 + 12 | I6w _ => h 0 + 13 | I6 _ => h 0 + 14 | I5 => h 0 + 15 | I4 => h 0 + 16
  | I1 => h 0 + 17
  end.
Definition rank (g : nat -> node) (t : thr) : nat :=
  match t with
  | Idle => 0
  | Ins _ _ p => irank g p
  | Fnd _ F0 => 1
  | Fnd _ (F4 _ _) => 2
  | Fnd _ (F1 a) => 3 * height (g a) + 3
  | Fnd _ (F2 a _) => 3 * height (g a) + 2
  | Fnd _ (F3 a c) => 3 * height (g c) + 4
  end.

Lemma rank_ext : forall g g' t, (forall a, In a (reads t) -> g' a = g a) -> rank g' t = rank g t.
Proof.
  intros g g' [|k v p|k p] E; cbn [rank reads] in *; auto.
  - destruct p; cbn [irank ireads] in *; auto; cbv zeta;
      try (rewrite !E by (cbn; auto); auto; fail);
      destruct (j <? q); rewrite !E by (cbn; auto); auto.
  - destruct p; cbn [rank reads] in *; rewrite ?E by (cbn; auto); auto.
Qed.

(** A step writes only pages that are locked and free of readers, and new ones. *)
Lemma writes : forall s i k v p x f fresh t' l, istep s i k v p x = Some (Next f fresh t' l) ->
  forall a, a < nxt s -> ~ In a (igrants p) -> f a = pg s a.
Proof.
  intros s i k v p x f fresh t' l E a La Na.
  destruct p; cbn [istep] in E; cbv zeta in E;
    repeat match type of E with
    | (if ?b then _ else _) = Some _ => destruct b eqn:?; try discriminate E
    | match ?b with Leaf _ _ _ => _ | Index _ _ => _ end = Some _ => destruct b eqn:?; try discriminate E
    | match ?b with Some _ => _ | None => _ end = Some _ => destruct b eqn:?; try discriminate E
    | (let (_, _) := ?b in _) = Some _ => destruct b
    end; injection E as <- _ _ _; auto; cbn [igrants ireads] in Na;
    try (rewrite ?Heqb in Na);
    try (match goal with n : option nat |- _ => destruct n end);
    repeat rewrite upd_other; auto; try (intros ->; apply Na; cbn; auto; fail); try lia;
    try (destruct (j <? q); intros ->; apply Na; cbn; auto; fail).
Qed.

Lemma nobody_put : forall f a l i t, nobody f a i (put l i t) = nobody f a i l.
Proof.
  induction l as [|y l IH]; intros [|i] t; cbn; auto. rewrite IH. auto.
Qed.

Lemma put_put : forall A (l : list A) i x y, put (put l i x) i y = put l i y.
Proof. induction l as [|z l IH]; intros [|i] x y; cbn; auto. rewrite IH. auto. Qed.

Lemma reads_nil : forall t, t = Idle \/ (exists k v, t = Ins k v I0) \/ (exists k, t = Fnd k F0) \/ started t.
Proof.
  unfold started. intros [|k v p|k p]; auto.
  - destruct p; eauto 6; right; right; right; cbn; try discriminate;
      repeat match goal with |- context [match ?n with Some _ => _ | None => _ end] => destruct n end;
      repeat match goal with |- context [if ?n then _ else _] => destruct n end; discriminate.
  - destruct p; eauto 6; right; right; right; cbn; discriminate.
Qed.

(** The outcome of a step of thread [i]: how its rank changes. *)
Section DEC.
Variables (s : state) (ef : nat -> node) (G : ghost) (B : nat -> nat) (m : table) (i : nat).
Hypothesis C : core s ef G B m.
Let T : tree ef G B m (nxt s) := c_tree _ _ _ _ _ C.

Lemma node_h : forall a h lo hi, G a = Some (h, lo, hi) -> height (ef a) = h.
Proof.
  intros a h lo hi Ga. destruct (ef a) as [es pv n|h' ps] eqn:Ea.
  - destruct (node_ok_leaf _ _ _ _ _ T _ _ _ _ _ _ _ Ga Ea) as (-> & _). auto.
  - destruct (node_ok_index _ _ _ _ _ T _ _ _ _ _ _ Ga Ea) as (h0 & -> & -> & _). auto.
Qed.
Lemma get_own : forall t a, nth_error (ths s) i = Some t -> (forall g b, pend g t b = None) ->
  can_get s i a = true -> a < nxt s -> ef a = pg s a.
Proof.
  intros t a Hi P Q La. apply (c_e2 _ _ _ _ _ C); auto. intros j u Hj.
  destruct (Nat.eq_dec j i) as [->|N]; [rewrite Hi in Hj; injection Hj as <-; auto|].
  destruct (pend (pg s) u a) eqn:E; auto. exfalso. apply pend_grants, grants_locks in E.
  eapply nobody_ok; eauto.
Qed.

Lemma fdec : forall k p f fresh t' l, nth_error (ths s) i = Some (Fnd k p) -> p <> F0 ->
  fstep s i k p = Some (Next f fresh t' l) ->
  f = pg s /\ rank (pg s) t' < rank (pg s) (Fnd k p) /\ (t' = Idle \/ started t').
Proof.
  intros k p f fresh t' l Hi N E. pose proof (c_tok _ _ _ _ _ C _ _ Hi) as K.
  assert (W : forall a, In a (reads (Fnd k p)) -> ef a = pg s a) by (intros; eapply own; eauto).
  destruct p as [|a|a ix|a c|a v]; [congruence| | | |]; cbn [fstep tok reads In] in *.
  - destruct (pg s a) as [es pv n|h ps] eqn:Ea; injection E as <- _ <- _; cbn [rank]; rewrite Ea; cbn [height];
      (split; [auto|split; [lia|right; cbn; discriminate]]).
  - destruct K as [(h & lo & hi & Ga & R) (h' & ps & Ea & ->)].
    destruct (node_ok_index _ _ _ _ _ T _ _ _ _ _ _ Ga Ea) as (h0 & -> & -> & NE & S & I & K).
    rewrite <- W in E by auto. rewrite Ea in E. cbn [pivots] in E.
    destruct (nth_error ps (slot k ps)) as [[pk c]|] eqn:N'; [|discriminate].
    destruct (can_get s i c) eqn:Q; [|discriminate]. injection E as <- _ <- _. split; auto.
    destruct (slot_kid _ _ _ _ _ _ _ _ _ K R S N') as (lo' & hi' & Gc & Rc & Bc).
    assert (Hc : height (pg s c) = h0).
    { rewrite <- (get_own _ c Hi); auto; [eapply node_h; eauto|eapply (t_lt _ _ _ _ _ T); eauto]. }
    cbn [rank]. rewrite <- (W a), Ea by auto. cbn [height]. split; [lia|]. right. cbn; discriminate.
  - injection E as <- _ <- _. split; auto. cbn [rank]. split; [lia|]. right. cbn; discriminate.
  - injection E as <- _ <- _. split; auto. cbn [rank]. split; [lia|]. auto.
Qed.

Ltac ifs E :=
  repeat match type of E with
  | (if ?b then _ else _) = Some _ => destruct b eqn:?; try discriminate E
  end.
Ltac fin := split; [try lia|try (intros _; first [left; reflexivity|right; cbn; discriminate])].

Lemma idec : forall k v p f fresh t' l, nth_error (ths s) i = Some (Ins k v p) -> p <> I0 ->
  (forall p0 ix c, p <> B1g p0 ix c) ->
  (forall p0 ix c rc q gl sp, p = B5 p0 ix c rc q gl sp -> nextp (pg s c) = None) ->
  istep s i k v p plain = Some (Next f fresh t' l) ->
  rank f t' < irank (pg s) p /\ ((forall a, can_claim s i a = true) -> t' = Idle \/ started t').
Proof.
  intros k v p f fresh t' l Hi N0 NG N5 E. pose proof (c_tok _ _ _ _ _ C _ _ Hi) as K.
  assert (W : forall a, In a (ireads p) -> ipend (pg s) k v p a = None -> ef a = pg s a).
  { intros a Ha Hp. eapply own; eauto. }
  assert (NC : forall b a, can_claim s i a = false -> (forall a, can_claim s i a = true) -> b = Idle \/ started b).
  { intros b a H X. rewrite X in H. discriminate. }
  destruct p; cbn [istep tok itok yes plain] in *; cbv zeta in E; try congruence;
    try (injection E as <- _ <- _; cbn [rank irank]; fin; fail).
  - (* I1 *) destruct (pg s 0) as [es pv n|h ps] eqn:E0; ifs E; injection E as <- _ <- _; cbn [rank irank]; rewrite ?E0; cbn [height]; fin; eauto.
  - (* I2w *) ifs E; injection E as <- _ <- _; cbn [rank irank]; fin.
  - (* I3 *) destruct (pg s 0) as [es pv n|h ps] eqn:E0; [|discriminate]. injection E as <- _ <- _. cbn [rank irank]. fin.
  - (* I5 *) destruct (pg s 0) as [es pv n|h ps] eqn:E0; [discriminate|]. ifs E; injection E as <- _ <- _; cbn [rank irank]; rewrite ?E0; cbn [height]; fin; eauto.
  - (* I6w *) ifs E; injection E as <- _ <- _; cbn [rank irank]; fin.
  - (* I7 *) destruct (pg s 0) as [es pv n|h ps] eqn:E0; [discriminate|]. injection E as <- _ <- _. cbn [rank irank]. rewrite upd_same, E0. cbn [height]. fin.
  - (* I8 *) destruct (nth_error (pivots (pg s p)) idx) as [[pk c]|]; [|discriminate]. ifs E. injection E as <- _ <- _. cbn [rank irank]. fin.
  - (* I9 *) destruct (par_kid _ _ _ _ _ _ _ _ _ T K) as (h0 & ph & plo & phi & lo & hi & Gp & Eph & Hp & Gc & Rc & Bc).
    rewrite W in Hp by (cbn; auto). pose proof (node_h _ _ _ _ Gc) as Hc. rewrite W in Hc by (cbn; auto).
    ifs E; injection E as <- _ <- _; cbn [rank irank]; rewrite ?Hp, ?Hc; fin; eauto.
  - (* A1 *) ifs E; injection E as <- _ <- _; cbn [rank irank]; fin; eauto.
  - ifs E; injection E as <- _ <- _; cbn [rank irank]; fin.
  - ifs E; injection E as <- _ <- _; cbn [rank irank]; fin.
  - (* A6 *) injection E as <- _ <- _; cbn [rank irank]. rewrite upd_same. cbn [height]. fin.
  - (* A9 *) injection E as <- _ <- _; cbn [rank irank]. destruct K as [NE _]. rewrite upd_same, upd_other by auto.
    cbn [height right_index]. destruct (j <? q); fin.
  - (* A10 *) injection E as <- _ <- _; cbn [rank irank]. split; [lia|]. intros _. right. cbn [started reads ireads]. unfold started. cbn [reads ireads]. destruct (j <? q); discriminate.
  - (* A11 *) injection E as <- _ <- _; cbn [rank irank].
    destruct K as [NE _]. rewrite upd_same, upd_other by auto. cbn [height left_index]. split; [destruct (j <? q); lia|].
    intros _. right. unfold started. cbn [reads ireads]. destruct (j <? q); discriminate.
  - (* A12 *) destruct (j <? q) eqn:Q; injection E as <- _ <- _; cbn [rank irank]; rewrite Q; fin.
  - ifs E; injection E as <- _ <- _; cbn [rank irank]; fin; eauto.
  - ifs E; injection E as <- _ <- _; cbn [rank irank]; fin; eauto.
  - destruct (pg s c) as [es pv n|h ps] eqn:E0; [|discriminate]. injection E as <- _ <- _. cbn [rank irank]. fin.
  - ifs E; injection E as <- _ <- _; cbn [rank irank]; fin; eauto.
  - ifs E; injection E as <- _ <- _; cbn [rank irank]; fin; eauto.
  - rewrite (N5 _ _ _ _ _ _ _ eq_refl) in E. injection E as <- _ <- _; cbn [rank irank]; fin; eauto.
  - ifs E; injection E as <- _ <- _; cbn [rank irank]; fin; eauto.
  - ifs E; injection E as <- _ <- _; cbn [rank irank]; fin; eauto.
  - injection E as <- _ <- _; cbn [rank irank]. destruct n; fin.
  - ifs E; injection E as <- _ <- _; cbn [rank irank]. destruct n; fin.
  - injection E as <- _ <- _; cbn [rank irank]. destruct n; fin.
  - injection E as <- _ <- _; cbn [rank irank]. destruct n; fin.
  - destruct n; injection E as <- _ <- _; cbn [rank irank]; fin.
Qed.
End DEC.

(** ** One thread goes on. *)
Definition cored (s : state) : Prop := exists ef G B m, core s ef G B m.

Lemma cored_step : forall s i c s' l, cored s -> step s i c = Some (s', l) -> cored s'.
Proof.
  intros s i c s' l (ef & G & B & m & C) E.
  destruct (step_ok _ _ _ _ _ _ _ _ _ C E) as (t & t' & ef' & G' & B' & m' & _ & _ & C' & _). exists ef', G', B', m'. auto.
Qed.

Lemma goes_cored : forall s tr s', goes s tr s' -> cored s -> cored s'.
Proof. induction 1; intros C; auto. apply IHgoes. eapply cored_step; eauto. Qed.
Lemma goes_app : forall s tr s', goes s tr s' -> forall tr' s'', goes s' tr' s'' -> goes s (tr ++ tr') s''.
Proof. induction 1; intros tr' s3 H1; auto. rewrite <- app_assoc. econstructor; eauto. Qed.
Lemma goes_one : forall s i x s' l, step s i (Go x) = Some (s', l) -> goes s (seen i l) s'.
Proof. intros. rewrite <- (app_nil_r (seen i l)). econstructor; eauto. constructor. Qed.

Definition keeps (s s' : state) (i : nat) (t' : thr) : Prop :=
  ths s' = put (ths s) i t' /\
  forall j u, j <> i -> nth_error (ths s) j = Some u -> rank (pg s') u = rank (pg s) u.

Lemma step_out : forall s i k v p f fresh t' l, nth_error (ths s) i = Some (Ins k v p) ->
  istep s i k v p plain = Some (Next f fresh t' l) ->
  step s i (Go plain) = Some (St f (if fresh then S (nxt s) else nxt s) (put (ths s) i t'), l).
Proof. intros s i k v p f fresh t' l Hi E. unfold step. rewrite Hi, E. auto. Qed.

Lemma keeps_step : forall s ef G B m i k v p f fresh t' l, core s ef G B m -> nth_error (ths s) i = Some (Ins k v p) ->
  istep s i k v p plain = Some (Next f fresh t' l) ->
  keeps s (St f (if fresh then S (nxt s) else nxt s) (put (ths s) i t')) i t'.
Proof.
  intros s ef G B m i k v p f fresh t' l C Hi E. split; auto. intros j u N Hj. apply rank_ext. cbn [pg].
  intros a Ha. eapply writes; eauto; [eapply (c_lt _ _ _ _ _ C); eauto|].
  intros X. eapply (c_x1 _ _ _ _ _ C i j); eauto.
Qed.

Lemma advance : forall s i t, cored s -> nth_error (ths s) i = Some t -> started t -> ~ blocked s i t ->
  exists tr s' t', goes s tr s' /\ keeps s s' i t' /\ rank (pg s') t' < rank (pg s) t /\
    ((forall a, can_claim s i a = true) -> t' = Idle \/ started t').
Proof.
  intros s i t (ef & G & B & m & C) Hi ST BL.
  assert (SOME : (forall k v p0 ix c, t <> Ins k v (B1g p0 ix c)) ->
            (forall k v p0 ix c rc q gl sp, t = Ins k v (B5 p0 ix c rc q gl sp) -> nextp (pg s c) = None) ->
            exists s' l, step s i (Go plain) = Some (s', l)).
  { intros N1 N5. destruct (step s i (Go plain)) as [[s' l]|] eqn:E; eauto. exfalso.
    destruct t as [|k v p|k p]; try (apply BL; exact E).
    - destruct p; try (apply BL; exact E).
      + eapply N1; reflexivity.
      + unfold step in E. rewrite Hi in E. cbn [istep] in E. rewrite (N5 _ _ _ _ _ _ _ _ _ eq_refl) in E. discriminate. }
  destruct t as [|k v p|k p]; [exfalso; apply ST; reflexivity| |].
  - destruct (match p with B1g _ _ _ => true | B5 _ _ c _ _ _ _ => negb (match nextp (pg s c) with None => true | _ => false end) | _ => false end) eqn:SP.
    + destruct p; try discriminate SP.
      * (* B1g *) cbn [blocked] in BL. destruct (can_get s i c) eqn:Q1; [|exfalso; auto]. destruct (can_claim s i c) eqn:Q2; [|exfalso; auto].
        set (s1 := St (pg s) (nxt s) (put (ths s) i (Ins k v (B1 p idx c [] true)))).
        assert (E1 : step s i (Go plain) = Some (s1, Tau)) by (unfold step; rewrite Hi; cbn [istep]; rewrite Q1; auto).
        assert (Hi1 : nth_error (ths s1) i = Some (Ins k v (B1 p idx c [] true))) by (cbn; rewrite nth_put, Nat.eqb_refl, Hi; auto).
        set (sp := getk k (entries (pg s c))).
        set (s2 := St (pg s) (nxt s) (put (ths s1) i (Ins k v (B2 p idx c sp)))).
        assert (E2 : step s1 i (Go plain) = Some (s2, Tau)).
        { unfold step. rewrite Hi1. cbn [istep]. unfold can_claim. cbn [ths s1]. rewrite nobody_put.
          unfold can_claim in Q2. rewrite Q2. auto. }
        exists (seen i Tau ++ seen i Tau), s2, (Ins k v (B2 p idx c sp)). split.
        { eapply g_more; [exact E1|]. eapply goes_one; exact E2. }
        split; [split; [cbn; apply put_put|intros; auto]|]. cbn [rank irank]. split; [lia|]. intros _. right. cbn. discriminate.
      * (* B5 *) destruct (nextp (pg s c)) as [n|] eqn:En; [|discriminate SP]. cbn [blocked] in BL. rewrite En in BL.
        destruct (can_get s i n) eqn:Q1; [|exfalso; auto]. destruct (can_claim s i n) eqn:Q2; [|exfalso; auto].
        set (s1 := St (pg s) (nxt s) (put (ths s) i (Ins k v (B6 p idx c rc q gl sp n)))).
        assert (E1 : step s i (Go plain) = Some (s1, Tau)) by (unfold step; rewrite Hi; cbn [istep]; rewrite En, Q1; auto).
        assert (Hi1 : nth_error (ths s1) i = Some (Ins k v (B6 p idx c rc q gl sp n))) by (cbn; rewrite nth_put, Nat.eqb_refl, Hi; auto).
        set (s2 := St (pg s) (nxt s) (put (ths s1) i (Ins k v (B7 p idx c rc q gl sp n)))).
        assert (E2 : step s1 i (Go plain) = Some (s2, Tau)).
        { unfold step. rewrite Hi1. cbn [istep]. unfold can_claim. cbn [ths s1]. rewrite nobody_put.
          unfold can_claim in Q2. rewrite Q2. auto. }
        exists (seen i Tau ++ seen i Tau), s2, (Ins k v (B7 p idx c rc q gl sp n)). split.
        { eapply g_more; [exact E1|]. eapply goes_one; exact E2. }
        split; [split; [cbn; apply put_put|intros; auto]|]. cbn [rank irank]. split; [lia|]. intros _. right. cbn. discriminate.
    + assert (N1 : forall k0 v0 p0 ix c, Ins k v p <> Ins k0 v0 (B1g p0 ix c)) by (intros k0 v0 p0 ix c [= _ _ ->]; discriminate).
      assert (N5 : forall k0 v0 p0 ix c rc q gl sp, Ins k v p = Ins k0 v0 (B5 p0 ix c rc q gl sp) -> nextp (pg s c) = None).
      { intros k0 v0 p0 ix c rc q gl sp [= _ _ ->]. destruct (nextp (pg s c)); [discriminate|auto]. }
      destruct (SOME N1 N5) as (s' & l & E). unfold step in E. rewrite Hi in E.
      destruct (istep s i k v p plain) as [[f fresh t' l']|] eqn:E1; [|discriminate].
      destruct (idec _ _ _ _ _ i C k v p f fresh t' l') as [D1 D2]; auto.
      * intros ->. apply ST. reflexivity.
      * intros p0 ix c ->. eapply N1; reflexivity.
      * intros p0 ix c rc q gl sp ->. eapply N5; reflexivity.
      * eexists _, _, t'. split; [eapply goes_one, step_out; eauto|]. split; [eapply keeps_step; eauto|]. cbn [pg]. auto.
  - destruct (SOME ltac:(discriminate) ltac:(discriminate)) as (s' & l & E). pose proof E as E'. unfold step in E. rewrite Hi in E.
    destruct (fstep s i k p) as [[f fresh t' l']|] eqn:E1; [|discriminate]. injection E as <- <-.
    destruct (fdec _ _ _ _ _ i C k p f fresh t' l') as (-> & D1 & D2); auto.
    + intros ->. apply ST. reflexivity.
    + eexists _, _, t'. split; [eapply goes_one; eauto|]. split; [split; auto|]. cbn [pg]. auto.
Qed.

(** ** All threads. *)
Fixpoint total (g : nat -> node) (l : list thr) : nat :=
  match l with [] => 0 | t :: r => rank g t + total g r end.
Definition busy (t : thr) : bool := match t with Idle => false | _ => true end.
Definition nbusy (l : list thr) : nat := length (filter busy l).

Lemma total_put : forall g g' l i t t', nth_error l i = Some t ->
  (forall j u, j <> i -> nth_error l j = Some u -> rank g' u = rank g u) ->
  rank g' t' < rank g t -> total g' (put l i t') < total g l.
Proof.
  intros g g'. induction l as [|y l IH]; intros [|i] t t' Hi E L; try discriminate; cbn in *.
  - injection Hi as ->. assert (total g' l = total g l); [|lia].
    assert (E' : forall j u, nth_error l j = Some u -> rank g' u = rank g u) by (intros j u; apply (E (S j)); lia).
    clear -E'. induction l as [|y l IH]; cbn; auto. rewrite IH; [|intros j u; apply (E' (S j))]. rewrite (E' 0); auto.
  - rewrite (E 0); auto. specialize (IH i t t' Hi). rewrite <- Nat.add_lt_mono_l. apply IH; auto.
    intros j u N. apply (E (S j)). lia.
Qed.
Lemma nbusy_put : forall l i t t', nth_error l i = Some t -> busy t = true -> nbusy (put l i t') <= nbusy l /\
  (t' = Idle -> nbusy (put l i t') < nbusy l).
Proof.
  unfold nbusy. induction l as [|y l IH]; intros [|i] t t' Hi Bt; try discriminate; cbn in *.
  - injection Hi as ->. rewrite Bt. cbn. split; [destruct (busy t'); cbn; lia|]. intros ->. cbn. lia.
  - destruct (IH i t t' Hi Bt) as [X Y]. destruct (busy y); cbn; (split; [lia|]); intros E; specialize (Y E); lia.
Qed.
Lemma started_busy : forall t, started t -> busy t = true.
Proof. intros [|k v p|k p] H; auto. Qed.

Lemma dec_blocked : forall s i t, blocked s i t \/ ~ blocked s i t.
Proof.
  intros s i t.
  assert (X : stuck s i \/ ~ stuck s i) by (unfold stuck; destruct (step s i (Go plain)); [right; discriminate|auto]).
  destruct t as [|k v p|k p]; auto. destruct p; auto; cbn [blocked].
  - destruct (can_get s i c && can_claim s i c); [right; discriminate|auto].
  - destruct (nextp (pg s c)) as [n|]; auto. destruct (can_get s i n && can_claim s i n); [right; discriminate|auto].
Qed.
Lemma dec_started : forall t, started t \/ reads t = [].
Proof. intros t. unfold started. destruct (reads t); auto. left. discriminate. Qed.

Lemma some_can : forall s, cored s ->
  (forall i t, nth_error (ths s) i = Some t -> reads t = []) \/
  (exists i t, nth_error (ths s) i = Some t /\ started t /\ ~ blocked s i t).
Proof.
  intros s (ef & G & B & m & C).
  assert (D : forall n, (forall i t, i < n -> nth_error (ths s) i = Some t -> started t -> blocked s i t) \/
               exists i t, nth_error (ths s) i = Some t /\ started t /\ ~ blocked s i t).
  { induction n as [|n [IH|IH]]; [left; intros; lia| |auto].
    destruct (nth_error (ths s) n) as [t|] eqn:Hn.
    - destruct (dec_started t) as [ST|NS].
      + destruct (dec_blocked s n t) as [BL|NB]; [|right; exists n, t; auto].
        left. intros j u L Hj S. destruct (Nat.eq_dec j n) as [->|N]; [congruence|]. apply IH; auto. lia.
      + left. intros j u L Hj S. destruct (Nat.eq_dec j n) as [->|N].
        * rewrite Hn in Hj. injection Hj as <-. exfalso. apply S. auto.
        * apply IH; auto. lia.
    - left. intros j u L Hj S. destruct (Nat.eq_dec j n) as [->|N]; [congruence|]. apply IH; auto. lia. }
  destruct (D (length (ths s))) as [ALL|X]; [|auto]. left. intros i t Hi.
  assert (ALL' : forall i t, nth_error (ths s) i = Some t -> started t -> blocked s i t).
  { intros j u Hj S. apply ALL; auto. apply nth_error_Some. congruence. }
  destruct (dec_started t) as [ST|]; auto. exfalso. eapply (none_started _ _ _ _ _ C ALL'); eauto.
Qed.

(** First all threads give up their pages or finish ... *)
Lemma to_start : forall n s, cored s -> total (pg s) (ths s) <= n ->
  exists tr s', goes s tr s' /\ nbusy (ths s') <= nbusy (ths s) /\
    forall i t, nth_error (ths s') i = Some t -> reads t = [].
Proof.
  induction n as [n IH] using lt_wf_ind. intros s C L. destruct (some_can s C) as [X|(i & t & Hi & ST & NB)].
  - exists [], s. split; [constructor|auto].
  - destruct (advance s i t C Hi ST NB) as (tr & s1 & t' & E & [K1 K2] & D & _).
    pose proof (goes_cored _ _ _ E C) as C1.
    assert (L1 : total (pg s1) (ths s1) < total (pg s) (ths s)) by (rewrite K1; eapply total_put; eauto).
    destruct (IH _ (Nat.lt_le_trans _ _ _ L1 L) s1 C1 (Nat.le_refl _)) as (tr' & s2 & E2 & N2 & R2).
    exists (tr ++ tr'), s2. split; [eapply goes_app; eauto|]. split; auto.
    destruct (nbusy_put _ _ _ t' Hi (started_busy _ ST)) as [Y _]. rewrite K1 in N2. lia.
Qed.

(** ... then one thread runs alone. *)
Lemma nobody_nil : forall f a l i, (forall j t, j <> i -> nth_error l j = Some t -> f t = []) -> nobody f a i l = true.
Proof.
  intros f a l i H. destruct (nobody f a i l) eqn:E; auto. exfalso.
  destruct (nobody_conv _ _ _ _ E) as (j & t & N & Hj & X). rewrite (H j t N Hj) in X. destruct X.
Qed.
Lemma none_nil : forall t, reads t = [] -> claims t = [] /\ locks t = [].
Proof.
  intros t H. split.
  - destruct (claims t) as [|a l] eqn:E; auto. assert (X : In a (reads t)) by (apply claims_reads; rewrite E; cbn; auto).
    rewrite H in X. destruct X.
  - destruct (locks t) as [|a l] eqn:E; auto. assert (X : In a (reads t)) by (apply claims_reads, locks_claims; rewrite E; cbn; auto).
    rewrite H in X. destruct X.
Qed.

Lemma alone : forall n s i t, cored s -> nth_error (ths s) i = Some t -> started t -> rank (pg s) t <= n ->
  (forall j u, j <> i -> nth_error (ths s) j = Some u -> reads u = []) ->
  exists tr s', goes s tr s' /\ ths s' = put (ths s) i Idle.
Proof.
  induction n as [n IH] using lt_wf_ind. intros s i t C Hi ST L O.
  assert (F : forall a, can_get s i a = true /\ can_claim s i a = true /\ unread s i a = true).
  { intros a. repeat split; apply nobody_nil; intros j u N Hj; specialize (O j u N Hj); auto; apply none_nil; auto. }
  assert (NB : ~ blocked s i t).
  { intros BL. destruct C as (ef & G & B & m & C).
    destruct (blocked_waits _ _ _ _ _ C i t Hi ST BL) as (w & a & h & lo & hi & _ & _ & Q).
    destruct (F a) as (F1 & F2 & F3). destruct w; cbn in Q; congruence. }
  destruct (advance s i t C Hi ST NB) as (tr & s1 & t' & E & [K1 K2] & D & NX).
  pose proof (goes_cored _ _ _ E C) as C1.
  destruct NX as [->|ST']; [intros; apply F| |].
  - exists tr, s1. auto.
  - destruct (IH _ (Nat.lt_le_trans _ _ _ D L) s1 i t' C1) as (tr' & s2 & E2 & K3); auto.
    + rewrite K1, nth_put, Nat.eqb_refl, Hi. auto.
    + intros j u N Hj. rewrite K1, nth_put in Hj. apply Nat.eqb_neq in N as N'. rewrite N' in Hj. eauto.
    + exists (tr ++ tr'), s2. split; [eapply goes_app; eauto|]. rewrite K3, K1. apply put_put.
Qed.

Lemma nbusy_zero : forall l, nbusy l = 0 -> forall i t, nth_error l i = Some t -> t = Idle.
Proof.
  unfold nbusy. intros l H i t Hi. apply nth_error_In in Hi. destruct t; auto; exfalso.
  - assert (X : In (Ins k m p) (filter busy l)) by (apply filter_In; auto). destruct (filter busy l); [auto|discriminate].
  - assert (X : In (Fnd k p) (filter busy l)) by (apply filter_In; auto). destruct (filter busy l); [auto|discriminate].
Qed.
Lemma nbusy_pos : forall l, 0 < nbusy l -> exists i t, nth_error l i = Some t /\ busy t = true.
Proof.
  unfold nbusy. intros l H. destruct (filter busy l) as [|t r] eqn:E; [cbn in H; lia|].
  assert (X : In t (filter busy l)) by (rewrite E; cbn; auto). apply filter_In in X. destruct X as [X Y].
  apply In_nth_error in X. destruct X as (i & Hi). eauto.
Qed.

Lemma all_end : forall n s, cored s -> nbusy (ths s) <= n -> exists tr s', goes s tr s' /\ at_rest s'.
Proof.
  induction n as [|n IH]; intros s C L.
  - exists [], s. split; [constructor|]. intros i t. apply nbusy_zero. lia.
  - destruct (to_start _ s C (Nat.le_refl _)) as (tr & s1 & E & N & R). pose proof (goes_cored _ _ _ E C) as C1.
    destruct (nbusy (ths s1)) as [|b] eqn:Eb.
    { exists tr, s1. split; auto. intros i t. apply nbusy_zero. auto. }
    destruct (nbusy_pos (ths s1)) as (i & t & Hi & Bt); [lia|].
    assert (F : forall a, can_get s1 i a = true).
    { intros a. apply nobody_nil. intros j u _ Hj. apply none_nil. eauto. }
    assert (X : exists t1, started t1 /\ step s1 i (Go plain) = Some (St (pg s1) (nxt s1) (put (ths s1) i t1), Tau)).
    { destruct (reads_nil t) as [->|[(k & v & ->)|[(k & ->)|ST]]].
      - discriminate.
      - exists (Ins k v I1). split; [cbn; discriminate|]. unfold step. rewrite Hi. cbn [istep]. rewrite F. auto.
      - exists (Fnd k (F1 0)). split; [cbn; discriminate|]. unfold step. rewrite Hi. cbn [fstep]. rewrite F. auto.
      - exfalso. apply ST. eauto. }
    destruct X as (t1 & ST & E1). pose proof (cored_step _ _ _ _ _ C1 E1) as C2.
    set (s2 := St (pg s1) (nxt s1) (put (ths s1) i t1)) in *.
    assert (Hi2 : nth_error (ths s2) i = Some t1) by (cbn; rewrite nth_put, Nat.eqb_refl, Hi; auto).
    destruct (alone _ s2 i t1 C2 Hi2 ST (Nat.le_refl _)) as (tr3 & s3 & E3 & K3).
    { intros j u Nj Hj. cbn in Hj. rewrite nth_put in Hj. apply Nat.eqb_neq in Nj. rewrite Nj in Hj. eauto. }
    pose proof (goes_cored _ _ _ E3 C2) as C3.
    destruct (IH s3 C3) as (tr4 & s4 & E4 & R4).
    { rewrite K3. cbn [ths s2]. rewrite put_put. destruct (nbusy_put _ _ _ Idle Hi Bt) as [_ Y]. specialize (Y eq_refl). lia. }
    exists (tr ++ seen i Tau ++ tr3 ++ tr4), s4. split; auto. eapply goes_app; eauto. eapply g_more; [exact E1|].
    eapply goes_app; eauto.
Qed.
