(** Scans and insertions never wait for each other for ever. *)
From Coq Require Import List Arith Bool Lia Sorting.Sorted.
Import ListNotations.
From Verif Require Import CBtree CBtreeSpec CBtreeInv CBtreeSplit CBtreeProofs CBtreeLin CBtreeRest CBtreeLive CScan CScanSpec
  CScanProofs.
Local Open Scope nat_scope.

(** A claim is had by one. *)
Definition apart (b : both) : Prop := forall i t j sc a,
  nth_error (ths (base b)) i = Some t -> nth_error (scs b) j = Some sc -> In a (claims t) -> ~ In a (sclaims sc).

Lemma apart_step : forall b c b' e, apart b -> bstep b c = Some (b', e) -> apart b'.
Proof.
  intros b [i c|j d lo hi|j z] b' e A E; cbn [bstep] in E.
  - destruct (tstep b i c) as [[b1 l]|] eqn:E1; [|discriminate]. injection E as <- <-. unfold tstep in E1.
    destruct (nth_error (ths (base b)) i) as [t|] eqn:Hi; [|discriminate].
    destruct (existsb (fun a => has sreads a (scs b)) (awaits t)); [discriminate|].
    destruct (step (base b) i c) as [[s' l']|] eqn:S; [|discriminate].
    destruct (nth_error (ths s') i) as [t'|] eqn:Hi'; [|discriminate].
    assert (P : exists t0, ths s' = put (ths (base b)) i t0).
    { unfold step in S. rewrite Hi in S. destruct (match t, c with
            | Idle, Do (CIns k m) => Some (Next (pg (base b)) false (Ins k m I0) (Called (CIns k m)))
            | Idle, Do (CFnd k) => Some (Next (pg (base b)) false (Fnd k F0) (Called (CFnd k)))
            | Ins k m p, Go x => istep (base b) i k m p x
            | Fnd k p, Go _ => fstep (base b) i k p
            | _, _ => None
            end) as [[f fresh u l0]|]; [|discriminate]. injection S as <- _. cbn. eauto. }
    destruct P as (t0 & P).
    destruct (clash t t' (scs b)) eqn:CL.
    + destruct c as [c|x]; [discriminate|]. destruct (refuse t x) as [t1|] eqn:R; [|discriminate]. injection E1 as <- <-.
      intros i' u j sc a Hu Hj Ha. cbn [ths base scs] in *. rewrite nth_put, Hi in Hu.
      destruct (i' =? i) eqn:Ei; [|eapply A; eauto]. injection Hu as <-. eapply A; eauto.
      destruct t as [|k v p|k p]; try discriminate R.
      destruct p; try discriminate R; cbn [refuse] in R; try (destruct (yes x)); injection R as <-; cbn [claims iclaims In] in *; tauto.
    + injection E1 as <- <-. intros i' u j sc a Hu Hj Ha. cbn [ths base scs] in *. rewrite P, nth_put, Hi in Hu.
      destruct (i' =? i) eqn:Ei; [|eapply A; eauto]. injection Hu as <-.
      rewrite P, nth_put, Nat.eqb_refl, Hi in Hi'. injection Hi' as <-.
      destruct (in_dec Nat.eq_dec a (claims t)) as [Hc|Hc]; [eapply A; eauto|]. intros Hs.
      assert (X : clash t t0 (scs b) = true); [|congruence]. apply existsb_exists. exists a. split; auto.
      apply andb_true_iff. split.
      * apply negb_true_iff. destruct (mem a (claims t)) eqn:M; auto. apply mem_in in M. contradiction.
      * apply existsb_exists. exists sc. split; [eapply nth_error_In; eauto|]. apply mem_in; auto.
  - destruct (nth_error (scs b) j) as [[|? ? ? ? ?]|] eqn:Hj; try discriminate. injection E as <- <-.
    intros i t j' sc a Hi Hs Ha. cbn [base scs] in *. rewrite nth_put, Hj in Hs.
    destruct (j' =? j); [|eapply A; eauto]. injection Hs as <-. intros [].
  - destruct (nth_error (scs b) j) as [[|d lo hi acc p]|] eqn:Hj; try discriminate.
    destruct (sstep (base b) (others (scs b) j) d lo hi acc p z) as [[sc l]|] eqn:E1; [|discriminate]. injection E as <- <-.
    intros i t j' sc' a Hi Hs Ha. cbn [base scs] in *. rewrite nth_put, Hj in Hs.
    destruct (j' =? j); [|eapply A; eauto]. injection Hs as <-. intros Hc.
    assert (D : In a (sclaims (On d lo hi acc p)) \/ free claims a (base b) = true).
    { destruct p; cbn [sstep] in E1; cbv zeta in E1;
        repeat match type of E1 with
               | context [match ?e with _ => _ end] => destruct e eqn:?; try discriminate
               end; injection E1 as <- <-; cbn [sclaims held In] in *; try tauto.
      right. destruct Hc as [<-|[]]. apply andb_true_iff in Heqb0. apply Heqb0. }
    destruct D as [D|D]; [eapply (A i t j); eauto|].
    unfold free in D. rewrite forallb_forall in D. specialize (D t (nth_error_In _ _ Hi)). apply negb_true_iff in D.
    apply mem_in in Ha. congruence.
Qed.

Lemma apart_runs : forall n k tr b, bruns (binit n k) tr b -> apart b.
Proof.
  intros n k tr b R. remember (binit n k) as b0 eqn:E0. induction R as [b|b tr b' c b'' e R IH E].
  - subst. intros i t j sc a Hi _ Ha. cbn in Hi. apply nth_error_In, repeat_spec in Hi. subst. destruct Ha.
  - eapply apart_step; eauto.
Qed.

(** New claims are refused where a scan has the page. *)
Lemma claims_step : forall s i c s' l t t', step s i c = Some (s', l) -> nth_error (ths s) i = Some t ->
  nth_error (ths s') i = Some t' -> forall a, In a (claims t') ->
  In a (claims t) \/ nxt s <= a \/ exists x t1, c = Go x /\ refuse t x = Some t1.
Proof.
  intros s i c s' l t t' E Hi Hi'. unfold step in E. rewrite Hi in E.
  destruct (match t, c with
            | Idle, Do (CIns k m) => Some (Next (pg s) false (Ins k m I0) (Called (CIns k m)))
            | Idle, Do (CFnd k) => Some (Next (pg s) false (Fnd k F0) (Called (CFnd k)))
            | Ins k m p, Go x => istep s i k m p x
            | Fnd k p, Go _ => fstep s i k p
            | _, _ => None
            end) as [[f fresh u l']|] eqn:E1; [|discriminate].
  injection E as <- <-. cbn [ths nxt] in *. rewrite nth_put, Nat.eqb_refl, Hi in Hi'. injection Hi' as <-.
  intros a Ha.
  destruct t as [|k v p|k p]; destruct c as [[k' v'|k']|x]; try discriminate.
  - injection E1 as <- <- <- <-. destruct Ha.
  - injection E1 as <- <- <- <-. destruct Ha.
  - destruct p; try (right; right; exists x; eexists; split; [reflexivity|]; cbn [refuse]; reflexivity);
    cbn [istep] in E1; cbv zeta in E1;
      repeat match type of E1 with
             | context [match ?e with _ => _ end] => destruct e eqn:?; try discriminate
             end;
      injection E1 as <- <- <- <-; cbn [claims iclaims ireads In] in *;
      repeat match goal with
             | H : context [if ?e then _ else _] |- _ => destruct e eqn:?; cbn [In] in *
             | H : context [match ?e with Some _ => _ | None => _ end] |- _ => destruct e eqn:?; cbn [In] in *
             end;
      try tauto; try lia.
    all: repeat match goal with H : ?e = _ |- context [if ?e then _ else _] => rewrite H end; try destruct n; cbn [In]; try tauto; try lia.
  - unfold fstep in E1. destruct p; cbv zeta in E1;
      repeat match type of E1 with
             | context [match ?e with _ => _ end] => destruct e eqn:?; try discriminate
             end; injection E1 as <- <- <- <-; destruct Ha.
Qed.

(** What a scan may have to wait for. *)
Definition swaits (g : nat -> node) (sc : scn) : option nat :=
  match sc with
  | On _ _ _ _ S0 | On _ _ _ _ (E0 _) => Some 0
  | On _ _ _ _ (S2 a i) | On _ _ _ _ (E2 _ a i) => match nth_error (pivots (g a)) i with Some (_, c) => Some c | None => None end
  | On _ _ _ _ (SN b _) | On _ _ _ _ (BN b _ _) => Some b
  | _ => None
  end.

Section LIVE.
Variables (b : both) (ef : nat -> node) (G : ghost) (B : nat -> nat) (m : table) (q : nat -> sst).
Hypothesis CO : core (base b) ef G B m.
Hypothesis AP : apart b.
Hypothesis SC : forall j, match nth_error (scs b) j with
              | Some sc => (forall a, In a (sreads sc) -> open (base b) a) /\ sok ef G sc (q j)
              | None => q j = SOff
              end.
Let T : tree ef G B m (nxt (base b)) := c_tree _ _ _ _ _ CO.

Definition tstuck (i : nat) : Prop := bstep b (BT i (Go plain)) = None.
Definition sstuck (j : nat) : Prop := bstep b (BG j false) = None.

(** A scan that cannot go on waits for a page of the tree a thread has locked, and the
    pages it has but has not claimed are above. *)
Lemma sstuck_waits : forall j sc, nth_error (scs b) j = Some sc -> sc <> Off -> sstuck j ->
  exists a h lo hi, G a = Some (h, lo, hi) /\ free locks a (base b) = false /\
    forall a', In a' (sreads sc) -> In a' (sclaims sc) \/ exists h' lo' hi', G a' = Some (h', lo', hi') /\ h < h'.
Proof.
  intros j sc Hj NO ST. unfold sstuck in ST. cbn [bstep] in ST. rewrite Hj in ST. destruct sc as [|d lo hi acc p]; [congruence|].
  destruct (sstep (base b) (others (scs b) j) d lo hi acc p false) as [[sc' l]|] eqn:E; [discriminate|]. clear ST.
  pose proof (SC j) as Sj. rewrite Hj in Sj. destruct Sj as [O [U (x & _ & P)]].
  assert (W : forall a, In a (sreads (On d lo hi acc p)) -> ef a = pg (base b) a) by (intros a Ha; eapply open_ef; eauto).
  destruct (t_root _ _ _ _ _ T) as (_ & h0 & G0 & _).
  destruct p as [|a|a ix|a c|c|w|w a|w a ix|w a c|c e|c ix e|n e|n e|c ix e|n a e|n a e|c]; cbn [sstep pok] in *; cbv zeta in E; try discriminate.
  - destruct (free locks 0 (base b)) eqn:F; [discriminate|]. exists 0, h0, None, None. split; [auto|]. split; [auto|]. intros a' [].
  - destruct (pg (base b) a); discriminate.
  - destruct P as (_ & (h & la & ua & Ga & H1 & H2) & h' & ps & Ea & ->). rewrite <- W in E by (cbn; auto). rewrite Ea in E. cbn [pivots] in E.
    destruct (node_ok_index _ _ _ _ _ T _ _ _ _ _ _ Ga Ea) as (h1 & -> & _ & NE & S & I & K).
    destruct (findo_kid G B (tgt d lo hi) h1 ps la ua a Ga K NE S H1 H2) as (pk & c & N & l' & u' & Gc & X1 & X2). rewrite N in E.
    destruct (free locks c (base b)) eqn:F; [discriminate|]. exists c, h1, l', u'. split; [auto|]. split; [auto|].
    cbn. intros a' [<-|[]]. right. exists (Datatypes.S h1), la, ua. auto.
  - destruct (free claims c (base b) && _); discriminate.
  - destruct (free locks 0 (base b)) eqn:F; [discriminate|]. exists 0, h0, None, None. split; [auto|]. split; [auto|]. cbn. auto.
  - destruct (pg (base b) a); discriminate.
  - destruct P as (_ & (h & la & ua & Ga & H1 & H2) & h' & ps & Ea & ->). rewrite <- W in E by (cbn; auto). rewrite Ea in E. cbn [pivots] in E.
    destruct (node_ok_index _ _ _ _ _ T _ _ _ _ _ _ Ga Ea) as (h1 & -> & _ & NE & S & I & K).
    destruct (findo_kid G B hi h1 ps la ua a Ga K NE S H1 H2) as (pk & c & N & l' & u' & Gc & X1 & X2). rewrite N in E.
    destruct (free locks c (base b)) eqn:F; [discriminate|]. exists c, h1, l', u'. split; [auto|]. split; [auto|].
    cbn. intros a' [<-|Ha]; auto. right. exists (Datatypes.S h1), la, ua. auto.
  - destruct d; discriminate.
  - exfalso. destruct P as (_ & y & _ & (lc & uc & Gc & Rc) & _ & PE & _). unfold endok in PE. destruct (c =? e_addr e); [discriminate|].
    destruct PE as (l' & u & Gc' & _). rewrite Gc in Gc'. injection Gc' as -> ->.
    pose proof (t_ok _ _ _ _ _ T _ _ _ _ Gc) as NK. rewrite <- W in E by (cbn; auto). destruct (ef c) as [es pv n|h ps] eqn:Ec.
    2:{ destruct NK as (hh & X & _). discriminate. }
    destruct NK as (_ & _ & _ & _ & Nx & _). cbn [nextp] in E. destruct n; [discriminate|]. destruct Nx.
  - destruct P as (_ & y & _ & (u & Gd) & _). destruct (free locks n (base b)) eqn:F; [discriminate|].
    exists n, 0, (Some y), u. split; [auto|]. split; [auto|]. intros a' [].
  - destruct ((n =? e_addr e) && _); discriminate.
  - exfalso. unfold last_leaf in E. destruct (prevp (pg (base b) c)); cbn [isnone orb] in E; [destruct (existsb _ _)|]; discriminate.
  - destruct P as (_ & y & z & _ & _ & (_ & la & ua & Ga & _) & _). destruct (free locks n (base b)) eqn:F; [discriminate|].
    exists n, 0, la, ua. split; [auto|]. split; [auto|]. intros a' [].
  - exfalso. destruct P as (_ & y & z & _ & (ub & Gb) & (_ & la & ua & Ga & P3) & _). rewrite <- W in E by (cbn; auto).
    pose proof (t_ok _ _ _ _ _ T _ _ _ _ Ga) as NK. destruct (ef n) as [es pv nx|h ps] eqn:En.
    2:{ destruct NK as (hh & X & _). discriminate. }
    destruct NK as (_ & _ & _ & _ & Nx & _ & HD). cbn [nextp entries] in E. destruct nx as [nx|].
    + destruct (nx =? a); [|discriminate]. destruct es; [|discriminate]. destruct ua; [|destruct Nx]. destruct HD. discriminate.
    + destruct ua; [destruct Nx|]. destruct (t_ne _ _ _ _ _ T _ _ _ _ Gb) as (k2 & K3 & K4).
      assert (n = a) as ->.
      { apply (t_uniq _ _ _ _ _ T n a 0 _ _ _ _ y Ga Gb); split; cbn in *; auto; [destruct la|destruct ub]; cbn in *; auto; lia. }
      rewrite Gb in Ga. injection Ga as <- _. lia.
Qed.

(** So does a thread, or it waits for the readers of one. *)
Lemma tstuck_waits : forall i t, nth_error (ths (base b)) i = Some t -> t <> Idle -> tstuck i ->
  exists w a h lo hi, waits (pg (base b)) t = Some (w, a) /\ G a = Some (h, lo, hi) /\
    if w then can_get (base b) i a = false else unread (base b) i a = false \/ has sreads a (scs b) = true.
Proof.
  intros i t Hi NI ST. unfold tstuck in ST. cbn [bstep] in ST. unfold tstep in ST. rewrite Hi in ST.
  destruct (existsb (fun a => has sreads a (scs b)) (awaits t)) eqn:HA.
  - clear ST. apply existsb_exists in HA. destruct HA as (a & Ha & Hs).
    assert (Wt : waits (pg (base b)) t = Some (false, a)).
    { destruct t as [|k v p|k p]; try destruct Ha. destruct p; cbn [awaits] in Ha; try (destruct Ha; fail); destruct Ha as [<-|[]]; reflexivity. }
    unfold has in Hs. apply existsb_exists in Hs. destruct Hs as (sc & Hsc & Hm).
    assert (GA : exists h lo hi, G a = Some (h, lo, hi)).
    { pose proof (c_tok _ _ _ _ _ CO _ _ Hi) as K.
      assert (IN : forall k a, inp G B k a -> exists h lo hi, G a = Some (h, lo, hi)).
      { intros k a0 (h & lo & hi & X & _). eauto. }
      assert (KID : forall k p j c, par ef G B k p j c -> exists h lo hi, G c = Some (h, lo, hi)).
      { intros k p j c PA. destruct (par_kid _ _ _ _ _ _ _ _ _ T PA) as (h0 & ph & plo & phi & lo & hi & _ & _ & _ & Gc & _). eauto. }
      destruct (t_root _ _ _ _ _ T) as (_ & h0 & G0 & _).
      destruct t as [|k v p|k p]; try destruct Ha. destruct p; cbn [awaits tok itok] in *; try (destruct Ha; fail); destruct Ha as [<-|[]]; eauto.
      - destruct K as [[Ip _] _]. eauto.
      - destruct K as [PA _]. eauto.
      - destruct K as [Ip _]. eauto.
      - destruct K as [[Ip _] _]. eauto.
      - destruct K as [(PA & LS & PL & Grc) Nn]. destruct LS as [(h1 & lo & hi & Gc & Rc & Bc) (es & pv & n' & Ec & ->)].
        rewrite Ec in Nn. cbn in Nn. subst n'.
        destruct (node_ok_leaf _ _ _ _ _ T _ _ _ _ _ _ _ Gc Ec) as (_ & _ & _ & _ & Nx & _).
        destruct hi as [y|]; [|destruct Nx]. destruct Nx as (hb & Gn). eauto.
      - destruct K as [(PA & _) _]. eauto. }
    destruct GA as (h & lo & hi & Ga). exists false, a, h, lo, hi. split; auto. split; auto. right.
    apply existsb_exists. eauto.
  - assert (ST' : stuck (base b) i).
    { unfold stuck. destruct (step (base b) i (Go plain)) as [[s' l]|] eqn:S; auto. exfalso.
      destruct (nth_error (ths s') i) as [t'|] eqn:Hi'.
      2:{ destruct (step_moved _ _ _ _ _ _ _ _ _ CO S) as (t0 & t1 & ef' & G' & B' & m' & H0 & Et & _).
          rewrite Et, nth_put, Nat.eqb_refl, Hi in Hi'. discriminate. }
      destruct (clash t t' (scs b)) eqn:CL; [|discriminate]. destruct (refuse t plain) as [t1|] eqn:R; [discriminate|].
      apply existsb_exists in CL. destruct CL as (a & Ha & Hc). apply andb_true_iff in Hc. destruct Hc as [Hc Hs].
      destruct (claims_step _ _ _ _ _ _ _ S Hi Hi' a Ha) as [X|[X|(x & t1 & [= <-] & X)]]; [| |congruence].
      - apply mem_in in X. rewrite X in Hc. discriminate.
      - apply existsb_exists in Hs. destruct Hs as (sc & Hsc & Hm). apply mem_in in Hm.
        apply In_nth_error in Hsc. destruct Hsc as (j & Hj). pose proof (SC j) as Sj. rewrite Hj in Sj. destruct Sj as [O _].
        assert (Y : In a (sreads sc)) by (destruct sc as [|? ? ? ? []]; cbn [sclaims sreads In] in *; tauto).
        destruct (O a Y) as [L _]. lia. }
    destruct (stuck_waits _ _ _ _ _ CO i t Hi NI ST') as (w & a & h & lo & hi & W & Ga & Q).
    exists w, a, h, lo, hi. split; auto. split; auto. destruct w; auto.
Qed.

Hypothesis ALLT : forall i t, nth_error (ths (base b)) i = Some t -> t <> Idle -> tstuck i.
Hypothesis ALLS : forall j sc, nth_error (scs b) j = Some sc -> sc <> Off -> sstuck j.

Lemma locked_never : forall n a h lo hi i t, 2 * h + 1 <= n -> G a = Some (h, lo, hi) ->
  nth_error (ths (base b)) i = Some t -> In a (locks t) -> False.
Proof.
  induction n as [n IH] using lt_wf_ind. intros a h lo hi i t L Ga Hi Lk.
  assert (NI : t <> Idle) by (intros ->; destruct Lk).
  destruct (tstuck_waits i t Hi NI (ALLT _ _ Hi NI)) as (w & a' & h' & lo' & hi' & Wt & Ga' & Q).
  pose proof (locker_lt _ _ _ _ _ CO _ _ _ _ _ _ _ _ _ _ _ Hi Lk Ga Wt Ga') as LT. destruct w.
  - destruct (nobody_conv _ _ _ _ Q) as (j & u & Nj & Hj & Lu). eapply (IH (2 * h' + 1)); eauto. lia.
  - pose proof (wait_claims _ _ _ Wt) as CL.
    destruct Q as [Q|Q].
    + destruct (nobody_conv _ _ _ _ Q) as (j & u & Nj & Hj & Rd).
      assert (NU : u <> Idle) by (intros ->; destruct Rd).
      destruct (tstuck_waits j u Hj NU (ALLT _ _ Hj NU)) as (w2 & a2 & h2 & lo2 & hi2 & Wu & Ga2 & Q2).
      assert (NC : ~ In a' (claims u)) by (intros H; eapply (c_x2 _ _ _ _ _ CO i j); eauto).
      destruct (reader_lt _ _ _ _ _ CO _ _ _ _ _ _ _ _ _ _ _ Hj Rd NC Ga' Wu Ga2) as [-> Lt].
      destruct (nobody_conv _ _ _ _ Q2) as (j3 & u3 & N3 & Hj3 & Lu). eapply (IH (2 * h2 + 1)); eauto. lia.
    + unfold has in Q. apply existsb_exists in Q. destruct Q as (sc & Hs & Hm). apply mem_in in Hm.
      apply In_nth_error in Hs. destruct Hs as (j & Hj).
      assert (NO : sc <> Off) by (intros ->; destruct Hm).
      destruct (sstuck_waits j sc Hj NO (ALLS _ _ Hj NO)) as (a2 & h2 & lo2 & hi2 & Ga2 & F & AB).
      destruct (AB a' Hm) as [X|(h3 & lo3 & hi3 & G3 & Lt)].
      * eapply (AP i t j sc a'); eauto.
      * rewrite Ga' in G3. injection G3 as <- _ _. unfold free in F.
        assert (X : exists u, In u (ths (base b)) /\ In a2 (locks u)).
        { clear -F. induction (ths (base b)) as [|u l IH]; cbn in F; [discriminate|]. destruct (mem a2 (locks u)) eqn:M.
          - exists u. split; [left; auto|]. apply mem_in; auto.
          - destruct (IH F) as (u' & X1 & X2). exists u'. split; [right; auto|auto]. }
        destruct X as (u & Hu & Lu). apply In_nth_error in Hu. destruct Hu as (j3 & Hj3). eapply (IH (2 * h2 + 1)); eauto. lia.
Qed.

Lemma nobody_at_work : (forall i t, nth_error (ths (base b)) i = Some t -> t = Idle) /\
  (forall j sc, nth_error (scs b) j = Some sc -> sc = Off).
Proof.
  assert (LK : forall a h lo hi, G a = Some (h, lo, hi) -> free locks a (base b) = true).
  { intros a h lo hi Ga. unfold free. apply forallb_forall. intros u Hu. apply negb_true_iff. destruct (mem a (locks u)) eqn:M; auto.
    apply mem_in in M. apply In_nth_error in Hu. destruct Hu as (i & Hi). exfalso. eapply locked_never; eauto. }
  assert (S0 : forall j sc, nth_error (scs b) j = Some sc -> sc = Off).
  { intros j sc Hj. destruct sc as [|d lo hi acc p]; auto. exfalso.
    destruct (sstuck_waits j _ Hj ltac:(discriminate) (ALLS _ _ Hj ltac:(discriminate))) as (a & h & lo' & hi' & Ga & F & _).
    rewrite (LK _ _ _ _ Ga) in F. discriminate. }
  split; auto. intros i t Hi. destruct (match t with Idle => true | _ => false end) eqn:NI; [destruct t; auto; discriminate|].
  exfalso. assert (NI' : t <> Idle) by (intros ->; discriminate).
  destruct (tstuck_waits i t Hi NI' (ALLT _ _ Hi NI')) as (w & a & h & lo & hi & Wt & Ga & Q). destruct w.
  - destruct (nobody_conv _ _ _ _ Q) as (j & u & Nj & Hj & Lu). eapply locked_never; eauto.
  - destruct Q as [Q|Q].
    + destruct (nobody_conv _ _ _ _ Q) as (j & u & Nj & Hj & Rd).
      assert (NU : u <> Idle) by (intros ->; destruct Rd).
      destruct (tstuck_waits j u Hj NU (ALLT _ _ Hj NU)) as (w2 & a2 & h2 & lo2 & hi2 & Wu & Ga2 & Q2).
      assert (NC : ~ In a (claims u)) by (intros H; eapply (c_x2 _ _ _ _ _ CO i j); eauto; eapply wait_claims; eauto).
      destruct (reader_lt _ _ _ _ _ CO _ _ _ _ _ _ _ _ _ _ _ Hj Rd NC Ga Wu Ga2) as [-> Lt].
      destruct (nobody_conv _ _ _ _ Q2) as (j3 & u3 & N3 & Hj3 & Lu). eapply locked_never; eauto.
    + unfold has in Q. apply existsb_exists in Q. destruct Q as (sc & Hs & Hm). apply mem_in in Hm.
      apply In_nth_error in Hs. destruct Hs as (j & Hj). rewrite (S0 _ _ Hj) in Hm. destruct Hm.
Qed.
End LIVE.

(** Some call or scan in progress can go on. *)
Theorem scan_no_deadlock : forall n k tr b, bruns (binit n k) tr b ->
  (exists i t, nth_error (ths (base b)) i = Some t /\ t <> Idle) \/ (exists j sc, nth_error (scs b) j = Some sc /\ sc <> Off) ->
  (exists i b' e, bstep b (BT i (Go plain)) = Some (b', e)) \/ (exists j b' e, bstep b (BG j false) = Some (b', e)).
Proof.
  intros n k tr b R D. destruct (explained_runs n k tr b R) as (m & f & q & (ef & G & B & CO & _ & _ & SC) & _).
  pose proof (apart_runs _ _ _ _ R) as AP.
  destruct (existsb (fun i => match bstep b (BT i (Go plain)) with Some _ => true | None => false end) (seq 0 (length (ths (base b))))) eqn:E1.
  { left. apply existsb_exists in E1. destruct E1 as (i & _ & Ei). exists i. destruct (bstep b (BT i (Go plain))) as [[b' e]|]; [eauto|discriminate]. }
  destruct (existsb (fun j => match bstep b (BG j false) with Some _ => true | None => false end) (seq 0 (length (scs b)))) eqn:E2.
  { right. apply existsb_exists in E2. destruct E2 as (i & _ & Ei). exists i. destruct (bstep b (BG i false)) as [[b' e]|]; [eauto|discriminate]. }
  exfalso.
  assert (N : forall (f : nat -> bool) l i, existsb f l = false -> In i l -> f i = false).
  { intros g l i H Hi. destruct (g i) eqn:Eg; auto. assert (X : existsb g l = true) by (apply existsb_exists; eauto). congruence. }
  assert (ALLT : forall i t, nth_error (ths (base b)) i = Some t -> t <> Idle -> tstuck b i).
  { intros i t Hi _. assert (Hn : In i (seq 0 (length (ths (base b))))) by (apply in_seq; split; [lia|]; apply nth_error_Some; congruence).
    pose proof (N _ _ _ E1 Hn) as X. cbv beta in X. unfold tstuck. destruct (bstep b (BT i (Go plain))); [discriminate|auto]. }
  assert (ALLS : forall j sc, nth_error (scs b) j = Some sc -> sc <> Off -> sstuck b j).
  { intros i t Hi _. assert (Hn : In i (seq 0 (length (scs b)))) by (apply in_seq; split; [lia|]; apply nth_error_Some; congruence).
    pose proof (N _ _ _ E2 Hn) as X. cbv beta in X. unfold sstuck. destruct (bstep b (BG i false)); [discriminate|auto]. }
  destruct (nobody_at_work b ef G B m q CO AP SC ALLT ALLS) as [X1 X2].
  destruct D as [(i & t & Hi & NI)|(j & sc & Hj & NO)]; [apply NI; eauto|apply NO; eauto].
Qed.
