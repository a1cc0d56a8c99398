(** The locks of the tree are never in deadlock. *)
From Coq Require Import List Arith Bool Lia Sorting.Sorted.
Import ListNotations.
From Verif Require Import CBtree CBtreeSpec CBtreeInv CBtreeSplit CBtreeProofs CBtreeLin.
Local Open Scope nat_scope.

(** What a thread may have to wait for: [true]: a page another has locked; [false]: the
    readers of a page. *)
Definition waits (g : nat -> node) (t : thr) : option (bool * nat) :=
  match t with
  | Ins _ _ I0 | Fnd _ F0 => Some (true, 0)
  | Ins _ _ (I2w _) | Ins _ _ (I6w _) => Some (false, 0)
  | Ins _ _ (I8 p i) | Fnd _ (F2 p i) =>
      match nth_error (pivots (g p)) i with Some (_, c) => Some (true, c) | None => None end
  | Ins _ _ (A3 p _ _ _) | Ins _ _ (B4 p _ _ _ _ _ _) => Some (false, p)
  | Ins _ _ (A5 _ _ c _) | Ins _ _ (L2w c _) | Ins _ _ (B10 _ _ c _ _ _ _ _) => Some (false, c)
  | Ins _ _ (B1g _ _ c) => Some (true, c)
  | Ins _ _ (B5 _ _ c _ _ _ _) => match nextp (g c) with Some n => Some (true, n) | None => None end
  | Ins _ _ (B8 _ _ _ _ _ _ _ n) => Some (false, n)
  | _ => None
  end.

Definition plain : act := Act false 0 false.
Definition stuck (s : state) (i : nat) : Prop := step s i (Go plain) = None.

Section LIVE.
Variables (s : state) (ef : nat -> node) (G : ghost) (B : nat -> nat) (m : table).
Hypothesis C : core s ef G B m.
Let T : tree ef G B m (nxt s) := c_tree _ _ _ _ _ C.

Lemma own_w : forall i t a, nth_error (ths s) i = Some t -> In a (reads t) -> (forall g b, pend g t b = None) -> ef a = pg s a.
Proof. intros. eapply own; eauto. Qed.

(** A thread that cannot go on waits for a page of the tree another thread has. *)
Lemma stuck_waits : forall i t, nth_error (ths s) i = Some t -> t <> Idle -> stuck s i ->
  exists b a h lo hi, waits (pg s) t = Some (b, a) /\ G a = Some (h, lo, hi) /\
    if b then can_get s i a = false else unread s i a = false.
Proof.
  intros i t Hi NI ST. pose proof (c_tok _ _ _ _ _ C _ _ Hi) as K.
  assert (ST0 := ST). unfold stuck, plain, step in ST0. rewrite Hi in ST0.
  assert (R0 : exists h lo hi, G 0 = Some (h, lo, hi)).
  { destruct (t_root _ _ _ _ _ T) as (_ & h & G0 & _). eauto. }
  assert (W : forall a, In a (reads t) -> (forall g b, pend g t b = None) -> ef a = pg s a) by (intros; eapply own_w; eauto).
  assert (IN : forall k a, inp G B k a -> exists h lo hi, G a = Some (h, lo, hi)).
  { intros k a (h & lo & hi & X & _). eauto. }
  assert (KID : forall k p j c, par ef G B k p j c -> exists h lo hi, G c = Some (h, lo, hi)).
  { intros k p j c PA. destruct (par_kid _ _ _ _ _ _ _ _ _ T PA) as (h0 & ph & plo & phi & lo & hi & _ & _ & _ & Gc & _). eauto. }
  destruct t as [|k v p|k p]; [congruence| |].
  - assert (E : istep s i k v p (Act false 0 false) = None).
    { destruct (istep s i k v p (Act false 0 false)) as [[f fresh t' l]|]; [discriminate|auto]. }
    clear ST0. cbn [tok] in K. cbn [reads] in W.
    destruct p; cbn [istep itok yes] in *; cbv zeta in E; try discriminate E;
      try (destruct (can_claim _ _ _); discriminate E);
      try (destruct (can_get s i _) eqn:Q; [discriminate E|]);
      try (destruct (unread s i _) eqn:Q; [discriminate E|]).
    + destruct R0 as (h & lo & hi & G0). exists true, 0, h, lo, hi. auto.
    + exfalso. destruct (pg s 0); [destruct (can_claim _ _ _)|]; discriminate.
    + destruct R0 as (h & lo & hi & G0). exists false, 0, h, lo, hi. auto.
    + exfalso. destruct K as [_ (es & pv & n & E0 & _)]. rewrite W in E0 by (cbn; auto). rewrite E0 in E. discriminate.
    + exfalso. destruct K as (j & h & ps & E0 & _). rewrite W in E0 by (cbn; auto). rewrite E0 in E.
      destruct (find k ps); [discriminate|]. destruct (can_claim s i 0); discriminate.
    + destruct R0 as (h & lo & hi & G0). exists false, 0, h, lo, hi. auto.
    + exfalso. destruct K as (h & ps & E0 & _). rewrite W in E0 by (cbn; auto). rewrite E0 in E. discriminate.
    + destruct K as [Ip (h & ps & Ep & F)]. destruct (find_nth _ _ _ F) as (pk & c & N & _).
      rewrite <- W in E by (cbn; auto). rewrite Ep in E. cbn [pivots] in E. rewrite N in E.
      destruct (can_get s i c) eqn:Q; [discriminate|].
      assert (PA : par ef G B k p idx c) by (split; auto; exists h, ps, pk; auto).
      destruct (KID _ _ _ _ PA) as (h' & lo & hi & Gc). exists true, c, h', lo, hi.
      cbn [waits]. rewrite <- W by (cbn; auto). rewrite Ep. cbn [pivots]. rewrite N. auto.
    + exfalso. destruct (1 <? height (pg s p)); [|discriminate]. destruct (find k (pivots (pg s c))); [discriminate|].
      destruct (can_claim s i p); discriminate.
    + destruct K as [[Ip _] _]. destruct (IN _ _ Ip) as (h & lo & hi & Gp). exists false, p, h, lo, hi. auto.
    + destruct K as [PA _]. destruct (KID _ _ _ _ PA) as (h & lo & hi & Gp). exists false, c, h, lo, hi. auto.
    + exfalso. destruct (j <? q); discriminate.
    + destruct K as [Ip _]. destruct (IN _ _ Ip) as (h & lo & hi & Gp). exists false, c, h, lo, hi. auto.
    + exfalso. destruct K as [_ (es & pv & n & E0 & _)]. rewrite W in E0 by (cbn; auto). rewrite E0 in E. discriminate.
    + destruct K as [PA _]. destruct (KID _ _ _ _ PA) as (h & lo & hi & Gp). exists true, c, h, lo, hi. auto.
    + destruct K as [[Ip _] _]. destruct (IN _ _ Ip) as (h & lo & hi & Gp). exists false, p, h, lo, hi. auto.
    + destruct K as (PA & LS & PL & Grc). destruct LS as [(h0 & lo & hi & Gc & Rc & Bc) (es & pv & n & Ec & ->)].
      rewrite W in Ec by (cbn; auto). rewrite Ec in E. cbn [nextp] in E. destruct n as [n|]; [|discriminate].
      destruct (can_get s i n) eqn:Q; [discriminate|].
      rewrite <- W in Ec by (cbn; auto).
      destruct (node_ok_leaf _ _ _ _ _ T _ _ _ _ _ _ _ Gc Ec) as (_ & _ & _ & _ & Nx & _).
      destruct hi as [y|]; [|destruct Nx]. destruct Nx as (hb & Gn).
      exists true, n, 0, (Some y), hb. cbn [waits]. rewrite <- W by (cbn; auto). rewrite Ec. auto.
    + destruct K as [(PA & LS & PL & Grc) Nn]. destruct LS as [(h0 & lo & hi & Gc & Rc & Bc) (es & pv & n' & Ec & ->)].
      rewrite Ec in Nn. cbn in Nn. subst n'.
      destruct (node_ok_leaf _ _ _ _ _ T _ _ _ _ _ _ _ Gc Ec) as (_ & _ & _ & _ & Nx & _).
      destruct hi as [y|]; [|destruct Nx]. destruct Nx as (hb & Gn).
      exists false, n, 0, (Some y), hb. auto.
    + destruct K as [(PA & _) _]. destruct (KID _ _ _ _ PA) as (h & lo & hi & Gp). exists false, c, h, lo, hi. auto.
    + exfalso. destruct n; discriminate.
  - assert (E : fstep s i k p = None).
    { destruct (fstep s i k p) as [[f fresh t' l]|]; [discriminate|auto]. }
    clear ST0. destruct p; cbn [fstep tok] in *; cbv zeta in E; try discriminate E.
    + destruct (can_get s i 0) eqn:Q; [discriminate|]. destruct R0 as (h & lo & hi & G0). exists true, 0, h, lo, hi. auto.
    + destruct (pg s a); discriminate.
    + destruct K as [(h & lo & hi & Ga & R) (h' & ps & Ea & ->)].
      destruct (node_ok_index _ _ _ _ _ T _ _ _ _ _ _ Ga Ea) as (h0 & -> & _ & NE & S & I & K).
      rewrite <- W in E by (cbn; auto). rewrite Ea in E. cbn [pivots] in E.
      destruct (nth_error ps (slot k ps)) as [[pk c]|] eqn:N.
      * destruct (can_get s i c) eqn:Q; [discriminate|].
        destruct (slot_kid _ _ _ _ _ _ _ _ _ K R S N) as (lo' & hi' & Gc & Rc & _).
        exists true, c, h0, lo', hi'. cbn [waits]. rewrite <- W by (cbn; auto). rewrite Ea. cbn [pivots]. rewrite N. auto.
      * exfalso. unfold slot in N. destruct (find k ps) as [j|] eqn:F; cbn in N.
        -- apply find_nth in F. destruct F as (pk & c & F & _). congruence.
        -- destruct ps; [congruence|discriminate].
Qed.

Definition hgt (a : nat) : nat := match G a with Some (h, _, _) => h | None => 0 end.

(** A thread that has locked a page waits for one below it, or its readers. *)
Lemma locker_lt : forall j u a h lo hi b' a' h' lo' hi', nth_error (ths s) j = Some u -> In a (locks u) ->
  G a = Some (h, lo, hi) -> waits (pg s) u = Some (b', a') -> G a' = Some (h', lo', hi') ->
  2 * h' + (if b' then 1 else 0) < 2 * h + 1.
Proof.
  intros j u a h lo hi b' a' h' lo' hi' Hj Lk Ga Wu Ga'. pose proof (c_tok _ _ _ _ _ C _ _ Hj) as K.
  destruct u as [|k v p|k p]; [destruct Lk| |destruct Lk]. cbn [locks] in Lk.
  assert (PAR : forall k p ix c, par ef G B k p ix c -> exists hp hc x1 x2 x3 x4, G p = Some (hp, x1, x2) /\ G c = Some (hc, x3, x4) /\ hc < hp).
  { intros k0 p0 ix0 c0 PA. destruct (par_kid _ _ _ _ _ _ _ _ _ T PA) as (h0 & ph & plo & phi & lo0 & hi0 & X1 & X2 & _ & X3 & _).
    exists ph, h0, plo, phi, lo0, hi0. repeat split; auto. lia. }
  assert (LF : forall k c sp, leafsp ef G B k c sp -> exists x1 x2, G c = Some (0, x1, x2)).
  { intros k0 c0 sp0 [(h0 & lo0 & hi0 & Gc & _) (es & pv & nn & Ec & _)].
    destruct (node_ok_leaf _ _ _ _ _ T _ _ _ _ _ _ _ Gc Ec) as (-> & _). eauto. }
  destruct p; cbn [ilocks ireads tok itok waits] in *; try discriminate; try (destruct Lk; fail);
    try (injection Wu as <- <-).
  (* I2w, I6w *)
  1,2: destruct Lk as [<-|[]]; rewrite Ga in Ga'; injection Ga' as <- _ _; lia.
  - destruct Lk as [<-|[]]; rewrite Ga in Ga'; injection Ga' as <- _ _; lia.
  - destruct K as [PA _]. destruct (PAR _ _ _ _ PA) as (hp & hc & x1 & x2 & x3 & x4 & Gp & Gc & Lt).
    destruct Lk as [<-|[<-|[]]]; rewrite Ga in *; rewrite Ga' in *.
    + injection Gp as -> _ _. injection Gc as <- _ _. lia.
    + injection Gc as <- _ _. injection Ga' as <- _ _. lia.
  - destruct Lk as [<-|[]]; rewrite Ga in Ga'; injection Ga' as <- _ _; lia.
  - destruct K as (PA & LS & PL & Grc). destruct Lk as [<-|[<-|[]]]; [|congruence].
    rewrite Ga in Ga'; injection Ga' as <- _ _; lia.
  - destruct K as (PA & LS & PL & Grc).
    destruct (nextp (pg s c)) as [nn|] eqn:En; [|discriminate]. injection Wu as <- <-.
    destruct (LF _ _ _ LS) as (y1 & y2 & Gc). destruct LS as [_ (es & pv & n' & Ec & ->)].
    destruct (node_ok_leaf _ _ _ _ _ T _ _ _ _ _ _ _ Gc Ec) as (_ & _ & _ & _ & Nx & _).
    assert (Ecw : ef c = pg s c) by (eapply own_w; eauto; cbn; auto). rewrite <- Ecw, Ec in En. cbn in En. subst n'.
    destruct y2 as [y|]; [|destruct Nx]. destruct Nx as (hb & Gn). rewrite Ga' in Gn. injection Gn as -> _ _.
    destruct (PAR _ _ _ _ PA) as (hp & hc & x1 & x2 & x3 & x4 & Gp & Gc' & Lt).
    destruct Lk as [<-|[<-|[]]]; [|congruence]. rewrite Ga in Gp. injection Gp as -> _ _. lia.
  - destruct K as [(PA & LS & PL & Grc) Nn].
    destruct (PAR _ _ _ _ PA) as (hp & hc & x1 & x2 & x3 & x4 & Gp & Gc' & Lt).
    destruct (LF _ _ _ LS) as (y1 & y2 & Gc). destruct LS as [_ (es & pv & n' & Ec & ->)].
    destruct (node_ok_leaf _ _ _ _ _ T _ _ _ _ _ _ _ Gc Ec) as (_ & _ & _ & _ & Nx & _).
    rewrite Ec in Nn. cbn in Nn. subst n'.
    destruct y2 as [y|]; [|destruct Nx]. destruct Nx as (hb & Gn). rewrite Ga' in Gn. injection Gn as -> _ _.
    destruct Lk as [<-|[<-|[<-|[]]]]; [rewrite Ga in Gp; injection Gp as -> _ _; lia|congruence|lia].
  - destruct K as [(PA & LS & PL & Grc) Nn].
    destruct (PAR _ _ _ _ PA) as (hp & hc & x1 & x2 & x3 & x4 & Gp & Gc' & Lt).
    destruct (LF _ _ _ LS) as (y1 & y2 & Gc). rewrite Gc in Ga'. injection Ga' as <- _ _. lia.
Qed.

(** A thread with a reference to a page it does not claim waits for a page below. *)
Lemma reader_lt : forall j u a h lo hi b' a' h' lo' hi', nth_error (ths s) j = Some u -> In a (reads u) -> ~ In a (claims u) ->
  G a = Some (h, lo, hi) -> waits (pg s) u = Some (b', a') -> G a' = Some (h', lo', hi') -> b' = true /\ h' < h.
Proof.
  intros j u a h lo hi b' a' h' lo' hi' Hj Rd NC Ga Wu Ga'. pose proof (c_tok _ _ _ _ _ C _ _ Hj) as K.
  destruct u as [|k v p|k p]; [destruct Rd| |].
  - destruct p; cbn [waits reads ireads claims iclaims tok itok] in *; try discriminate; try tauto.
    + destruct Rd as [<-|[]]. destruct K as [Ip (hh & ps & Ep & F)].
      assert (Epw : ef p = pg s p) by (eapply own_w; eauto; cbn; auto). rewrite <- Epw, Ep in Wu. cbn [pivots] in Wu.
      destruct (nth_error ps idx) as [[pk c]|] eqn:N; [|discriminate]. injection Wu as <- <-. split; auto.
      assert (PA : par ef G B k p idx c) by (split; auto; exists hh, ps, pk; auto).
      destruct (par_kid _ _ _ _ _ _ _ _ _ T PA) as (h0 & ph & plo & phi & lo0 & hi0 & X1 & X2 & _ & X3 & _).
      rewrite Ga in X1. rewrite Ga' in X3. injection X1 as -> _ _. injection X3 as -> _ _. lia.
  - destruct p; cbn [waits reads tok] in *; try discriminate; try (destruct Rd; fail).
    destruct Rd as [<-|[]]. destruct K as [(h1 & lo1 & hi1 & Ga1 & R) (hh & ps & Ea & ->)].
    rewrite Ga in Ga1. injection Ga1 as <- <- <-.
    assert (Epw : ef a0 = pg s a0) by (eapply own_w; eauto; cbn; auto). rewrite <- Epw, Ea in Wu. cbn [pivots] in Wu.
    destruct (node_ok_index _ _ _ _ _ T _ _ _ _ _ _ Ga Ea) as (h0 & -> & _ & NE & S & I & K).
    destruct (nth_error ps (slot k ps)) as [[pk c]|] eqn:N; [|discriminate]. injection Wu as <- <-. split; auto.
    destruct (slot_kid _ _ _ _ _ _ _ _ _ K R S N) as (lo2 & hi2 & Gc & Rc & _).
    rewrite Ga' in Gc. injection Gc as -> _ _. lia.
Qed.

Lemma wait_claims : forall t a, waits (pg s) t = Some (false, a) -> In a (claims t).
Proof.
  intros t a Wt.
  destruct t as [|k v p|k p]; [discriminate| |].
  - destruct p; cbn [waits] in Wt; try discriminate;
      repeat match type of Wt with
      | match ?e with Some _ => _ | None => _ end = _ => destruct e; try discriminate
      | (let (_, _) := ?e in _) = _ => destruct e
      end; try discriminate; injection Wt as <-; cbn; auto. destruct n; cbn; auto.
  - destruct p; cbn [waits] in Wt; try discriminate;
      repeat match type of Wt with
      | match ?e with Some _ => _ | None => _ end = _ => destruct e; try discriminate
      | (let (_, _) := ?e in _) = _ => destruct e
      end; discriminate.
Qed.

Hypothesis ALL : forall i t, nth_error (ths s) i = Some t -> t <> Idle -> stuck s i.

Lemma never : forall n i t b a h lo hi, nth_error (ths s) i = Some t -> t <> Idle ->
  waits (pg s) t = Some (b, a) -> G a = Some (h, lo, hi) ->
  (if b then can_get s i a = false else unread s i a = false) ->
  2 * h + (if b then 1 else 0) <= n -> False.
Proof.
  induction n as [n IH] using lt_wf_ind. intros i t b a h lo hi Hi NI Wt Ga Q L.
  destruct b.
  - destruct (nobody_conv _ _ _ _ Q) as (j & u & Nj & Hj & Lk).
    assert (NU : u <> Idle) by (intros ->; destruct Lk).
    destruct (stuck_waits j u Hj NU (ALL _ _ Hj NU)) as (b' & a' & h' & lo' & hi' & Wu & Ga' & Q').
    assert (LT : 2 * h' + (if b' then 1 else 0) < 2 * h + 1) by (eapply locker_lt; eauto).
    eapply (IH (2 * h' + (if b' then 1 else 0))); eauto. lia.
  - destruct (nobody_conv _ _ _ _ Q) as (j & u & Nj & Hj & Rd).
    assert (NU : u <> Idle) by (intros ->; destruct Rd).
    destruct (stuck_waits j u Hj NU (ALL _ _ Hj NU)) as (b' & a' & h' & lo' & hi' & Wu & Ga' & Q').
    assert (CL : In a (claims t)) by (apply wait_claims; auto).
    assert (NC : ~ In a (claims u)) by (intros H; eapply (c_x2 _ _ _ _ _ C i j); eauto).
    assert (LT : b' = true /\ h' < h) by (eapply reader_lt; eauto).
    destruct LT as [-> LT]. eapply (IH (2 * h' + 1)); eauto. lia.
Qed.
End LIVE.

Theorem no_deadlock : forall n tr s i t, runs (init n) tr s -> nth_error (ths s) i = Some t -> t <> Idle ->
  exists j s' l, step s j (Go plain) = Some (s', l).
Proof.
  intros n tr s i t R Hi NI. destruct (sim_run n tr s R) as (ef & G & B & m & f & C & _ & _).
  destruct (existsb (fun j => match step s j (Go plain) with Some _ => true | None => false end) (seq 0 (length (ths s)))) eqn:E.
  - apply existsb_exists in E. destruct E as (j & _ & Ej). destruct (step s j (Go plain)) as [[s' l]|] eqn:S; [|discriminate]. eauto.
  - exfalso.
    assert (ALL : forall i t, nth_error (ths s) i = Some t -> t <> Idle -> stuck s i).
    { intros j u Hj _. unfold stuck. destruct (step s j (Go plain)) eqn:S; auto. exfalso.
      assert (X : existsb (fun j => match step s j (Go plain) with Some _ => true | None => false end) (seq 0 (length (ths s))) = true).
      { apply existsb_exists. exists j. rewrite S. split; auto. apply in_seq. split; [lia|]. apply nth_error_Some. congruence. }
      congruence. }
    destruct (stuck_waits _ _ _ _ _ C i t Hi NI (ALL _ _ Hi NI)) as (b & a & h & lo & hi & W & Ga & Q).
    eapply (never _ _ _ _ _ C ALL); eauto.
Qed.
