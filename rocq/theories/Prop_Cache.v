(** C22: page locks exclude and pin. *)
From Coq Require Import List Arith Bool Lia.
From Verif Require Import Cache CacheSpec CacheLocal CacheProofs CacheClean CacheMap.
Import ListNotations.
Local Open Scope nat_scope.

Lemma has_verif a p : has_page a p -> verif p = Some a /\ heldty p = true /\ unset a p = false /\ hasref p = true.
Proof. destruct p; cbn; intros H; try contradiction; subst; auto. Qed.
Lemma locks_has a p : locks_page a p -> claims_page a p /\ lockA p = Some a.
Proof. destruct p; cbn; intros H; try contradiction; subst; auto. Qed.
Lemma claims_has a p : claims_page a p -> has_page a p /\ claimsb p = true.
Proof. destruct p; cbn; intros H; try contradiction; subst; auto. Qed.

(** Whoever has page [a] has it in the entry that the lookup table names; that
    entry is the page's, not free, and not being loaded. *)
Theorem C22_held : forall ts s i a e, kept ts s -> has s i a e ->
  lkp s a = Some e /\ da (ents s e) = Some a /\
  fr (st (ents s e)) = false /\ ld (st (ents s e)) = false.
Proof.
  intros ts s i a e K (p & [t H] & P). apply kept_Inv in K. apply has_verif in P as (V & HT & U & R).
  pose proof (i_ok1 _ K _ _ _ _ H) as O. destruct (o_ver _ _ O _ V) as [D F].
  repeat split; auto; [eapply settle; eauto|apply (o_held _ _ O HT)].
Qed.

(** So a page is in one place only. *)
Theorem C22_one_copy : forall ts s i j a e e', kept ts s ->
  has s i a e -> has s j a e' -> e = e'.
Proof.
  intros ts s i j a e e' K H1 H2.
  destruct (C22_held _ _ _ _ _ K H1) as [A _]. destruct (C22_held _ _ _ _ _ K H2) as [B _]. congruence.
Qed.

(** Runs in which agent [i] makes no step. *)
Inductive meanwhile (i : nat) : state -> state -> Prop :=
| m_refl s : meanwhile i s s
| m_step s s' j c s'' :
    meanwhile i s s' -> j <> i -> caller_rule s' j c -> no_race s' j ->
    step s' j c = Some s'' -> meanwhile i s s''.

Lemma step_other s j c s' i x : step s j c = Some s' -> j <> i ->
  nth_error (ags s) i = Some x -> nth_error (ags s') i = Some x.
Proof.
  intros H N X. unfold step in H. destruct (nth_error (ags s) j) as [[t y]|] eqn:Y; [|discriminate].
  assert (PUT : forall z, nth_error (put (ags s) j z) i = Some x).
  { intros z. rewrite (nth_put _ _ _ _ _ Y). rewrite (proj2 (Nat.eqb_neq i j)); auto. }
  destruct y as [|k|f|e p].
  - destruct c; try discriminate; bust;
      repeat match goal with X : context [match ?o with Some _ => _ | None => _ end] |- _ => destruct o end; bust;
      try discriminate; injection H as <-; cbn [ags move]; auto.
  - destruct (target k); [|discriminate]. destruct (lkp s n); [|destruct k]; injection H as <-; apply PUT.
  - destruct c; try discriminate. destruct (busy s (batch e)); [|discriminate].
    destruct ((n =? t) && others_free t j (ags s)); [|discriminate]. injection H as <-. apply PUT.
  - destruct c; try discriminate. destruct (lstep _ _ _ _ _) as [en' r]. injection H as <-. apply PUT.
Qed.

(** While a caller has a page, whatever the others do, the page stays where it
    is and what it is: it is not evicted, and the entry is not reused. *)
Theorem C22_stays : forall ts s s' i a e, kept ts s -> has s i a e -> meanwhile i s s' ->
  kept ts s' /\ has s' i a e /\
  lkp s' a = Some e /\ da (ents s' e) = Some a /\
  fr (st (ents s' e)) = false /\ ld (st (ents s' e)) = false.
Proof.
  intros ts s s' i a e K H M.
  assert (X : kept ts s' /\ has s' i a e).
  { induction M as [|s s1 j c s2 M IH N CR NR ST]; [auto|].
    destruct (IH K H) as [K1 (p & [t P1] & P2)]. split; [eapply k_step; eauto|].
    exists p. split; [|exact P2]. exists t. eapply step_other; eauto. }
  destruct X as [K' H']. repeat split; auto; eapply C22_held; eauto.
Qed.

(** A write-locked page has no other user. *)
Theorem C22_exclusive : forall ts s i j a e, kept ts s ->
  locks s i a -> has s j a e -> j = i.
Proof.
  intros ts s i j a e K (e1 & p & [t P] & L) H2.
  destruct (locks_has _ _ L) as [C LA]. destruct (claims_has _ _ C) as [HP _].
  assert (H1 : has s i a e1) by (exists p; split; [exists t|]; auto).
  pose proof (C22_one_copy _ _ _ _ _ _ _ K H1 H2) as <-.
  destruct H2 as (q & [t' Q] & HQ). destruct (Nat.eq_dec j i) as [|N]; [auto|exfalso].
  apply kept_Inv in K. apply has_verif in HQ as (V & _ & _ & R).
  pose proof (q_lock _ _ _ _ (i_ok2 _ K i j _ _ _ _ _ (not_eq_sym N) P Q) _ LA R) as S6.
  apply safe_verif in S6. congruence.
Qed.

(** At most one caller claims a page. *)
Theorem C22_one_claim : forall ts s i j a, kept ts s -> claims s i a -> claims s j a -> j = i.
Proof.
  intros ts s i j a K (e1 & p & [t P] & C1) (e2 & q & [t' Q] & C2).
  destruct (claims_has _ _ C1) as [H1 B1]. destruct (claims_has _ _ C2) as [H2 B2].
  assert (E : e1 = e2).
  { eapply (C22_one_copy ts s i j a); eauto; [exists p|exists q]; (split; [eexists|]; eauto). }
  subst e2. destruct (Nat.eq_dec j i) as [|N]; [auto|exfalso]. apply kept_Inv in K.
  pose proof (q_claim _ _ _ _ (i_ok2 _ K i j _ _ _ _ _ (not_eq_sym N) P Q) B1). congruence.
Qed.

(** A page whose contents are being written to disk is not write locked. *)
Definition writing (s : state) (e : nat) : Prop := exists j, at_entry s j e W1.
Theorem C22_writeback : forall ts s i a e, kept ts s ->
  has s i a e -> locks s i a -> ~ writing s e.
Proof.
  intros ts s i a e K H (e1 & p & [t P] & L) (j & t' & Q).
  destruct (locks_has _ _ L) as [C LA]. destruct (claims_has _ _ C) as [HP _].
  assert (H1 : has s i a e1) by (exists p; split; [exists t|]; auto).
  pose proof (C22_one_copy _ _ _ _ _ _ _ K H H1) as <-.
  apply kept_Inv2 in K. pose proof (k_wb _ K _ _ _ _ Q eq_refl) as A.
  assert (NW : nowb p = true) by (destruct p; cbn in L; try contradiction; reflexivity).
  rewrite (k_nowb _ K _ _ _ _ P NW) in A. discriminate.
Qed.

(** A page leaves the cache only when nobody has it, and in three ways: it is
    discarded; an asynchronous get gives up loading it; or it is evicted, and then
    it is not pinned and has no modification that was not written. *)
Theorem C22_leaves : forall ts s i c s' a e, kept ts s -> caller_rule s i c -> no_race s i ->
  step s i c = Some s' -> lkp s a = Some e -> lkp s' a <> Some e ->
  da (ents s e) = Some a /\ (forall j e', ~ has s j a e') /\
  ((exists t x, nth_error (ags s) i = Some (t, x) /\ (discarding a x = true \/ getting a x = true)) \/
   (pin (ents s e) = 0 /\ cl (st (ents s e)) = true /\ wb (st (ents s e)) = false)).
Proof.
  intros ts s i c s' a e K CR NR H L L'.
  pose proof (kept_Inv _ _ K) as I. pose proof (kept_Inv2 _ _ K) as I2.
  unfold step in H. destruct (nth_error (ags s) i) as [[t x]|] eqn:Hi; [|discriminate].
  destruct x as [|k|f|e0 p].
  - exfalso. destruct c; try discriminate; bust;
      repeat match goal with X : context [match ?o with Some _ => _ | None => _ end] |- _ => destruct o eqn:? end; bust;
      try discriminate; injection H as <-; cbn [lkp move] in L'; auto.
  - exfalso. destruct (target k); [|discriminate]. destruct (lkp s n) eqn:LN; [|destruct k]; injection H as <-; auto.
  - exfalso. destruct c; try discriminate. destruct (busy s (batch e0)); [|discriminate].
    destruct ((n =? t) && others_free t i (ags s)); [|discriminate]. injection H as <-. auto.
  - destruct c; try discriminate. destruct (lstep _ _ _ _ _) as [en' r] eqn:LS. injection H as <-.
    cbn [lkp] in L'. destruct (leff_keep _ _ _ _ _ _ _ I Hi L) as [X|(-> & _ & X)]; [contradiction|].
    pose proof (i_ok1 _ I _ _ _ _ Hi) as O.
    assert (V0 : verif p = Some a) by (destruct X as [->|[->| ->]]; reflexivity).
    split; [apply (o_ver _ _ O a V0)|]. split.
    { intros j e' Hj. destruct (C22_held _ _ _ _ _ K Hj) as (LE & _ & _ & LD).
      assert (e' = e0) by congruence. subst e'. destruct Hj as (q & [t' Q] & HQ).
      assert (N : i <> j).
      { intros <-. rewrite Hi in Q. injection Q as <- <-. destruct X as [->|[->| ->]]; contradiction. }
      apply has_verif in HQ as (V & _ & _ & R).
      pose proof (i_ok2 _ I i j _ _ _ _ _ N Hi Q) as O2.
      destruct X as [->|[->| ->]].
      - pose proof (q_clear _ _ _ _ O2 eq_refl R) as DQ. apply doomed_verif in DQ. congruence.
      - pose proof (q_clear _ _ _ _ O2 eq_refl R) as DQ. apply doomed_verif in DQ. congruence.
      - rewrite (o_load _ _ O eq_refl) in LD. discriminate. }
    destruct X as [->|[->| ->]].
    + right. split; [apply (o_pin _ _ O eq_refl)|]. split; [apply (k_clean _ I2 _ _ _ _ Hi eq_refl)|].
      apply (k_nowb _ I2 _ _ _ _ Hi eq_refl).
    + left. exists t, (On e0 (DMap a)). split; [reflexivity|]. left. apply Nat.eqb_refl.
    + left. exists t, (On e0 (NMap a)). split; [reflexivity|]. right. apply Nat.eqb_refl.
Qed.

(** cache_mark_dirty makes a page dirty, and a dirty page stays cached and dirty until
    a write of it completes, it is discarded, or an asynchronous get gives it up. *)
Definition dirty (s : state) (a e : nat) : Prop :=
  lkp s a = Some e /\ da (ents s e) = Some a /\ cl (st (ents s e)) = false.

Theorem C22_mark_dirty : forall ts s i a e s', kept ts s -> at_entry s i e (Locked a) ->
  step s i (Go A1) = Some s' -> dirty s' a e /\ at_entry s' i e (Locked a).
Proof.
  intros ts s i a e s' K [t H] ST.
  destruct (C22_held ts s i a e K) as (L & D & _ & _); [exists (Locked a); split; [exists t; exact H|reflexivity]|].
  unfold step in ST. rewrite H in ST. cbn [lstep leff wins] in ST. injection ST as <-.
  unfold dirty, at_entry. cbn [lkp ents ags]. unfold upd. rewrite Nat.eqb_refl. cbn.
  repeat split; auto. exists t. rewrite (nth_put _ _ _ _ _ H), Nat.eqb_refl. reflexivity.
Qed.

Theorem C22_dirty_stays : forall ts s i c s' a e, kept ts s -> caller_rule s i c -> no_race s i ->
  step s i c = Some s' -> dirty s a e ->
  dirty s' a e \/ at_entry s i e W1 \/
  (exists t x, nth_error (ags s) i = Some (t, x) /\ (discarding a x = true \/ getting a x = true)).
Proof.
  intros ts s i c s' a e K CR NR H (L & D & C).
  pose proof (kept_Inv _ _ K) as I. pose proof (kept_Inv2 _ _ K) as I2.
  assert (LK : lkp s' a = Some e \/ lkp s' a <> Some e).
  { destruct (lkp s' a) as [x|]; [destruct (Nat.eq_dec x e)|]; [left; congruence|right; congruence|right; discriminate]. }
  destruct LK as [LK|LK].
  2: { destruct (C22_leaves ts s i c s' a e K CR NR H L LK) as (_ & _ & [X|(_ & X & _)]); [auto|congruence]. }
  unfold dirty. rewrite LK. unfold step in H. destruct (nth_error (ags s) i) as [[t x]|] eqn:Hi; [|discriminate].
  destruct x as [|k|f|e0 p].
  - left. split; [reflexivity|]. destruct c; try discriminate; bust;
      repeat match goal with X : context [match ?o with Some _ => _ | None => _ end] |- _ => destruct o eqn:? end; bust;
      try discriminate; injection H as <-; auto.
  - left. split; [reflexivity|]. destruct (target k); [|discriminate].
    destruct (lkp s n) eqn:LN; [|destruct k]; injection H as <-; auto.
  - left. split; [reflexivity|]. destruct c; try discriminate. destruct (busy s (batch e0)); [|discriminate].
    destruct ((n =? t) && others_free t i (ags s)); [|discriminate]. injection H as <-. auto.
  - destruct c; try discriminate. destruct (lstep _ _ _ _ _) as [en' r] eqn:LS. injection H as <-.
    cbn [ents]. unfold upd. destruct (e =? e0) eqn:E; [|auto]. apply Nat.eqb_eq in E. subst e0.
    pose proof (i_ok1 _ I _ _ _ _ Hi) as O. pose proof (o_noda _ _ O) as O1.
    pose proof (o_ver _ _ O) as O2. pose proof (k_clean _ I2 _ _ _ _ Hi) as O3. pose proof (i_fr _ I e) as O4.
    clear - LS D C Hi O1 O2 O3 O4.
    assert (G : (da en' = Some a /\ cl (st en') = false) \/ p = W1 \/ p = DDa a \/ p = NDa a \/ p = PDa a).
    { destruct p; cbn [lstep] in LS; bust; try discriminate; apply res_pair in LS as [<- _];
        cbn [w_st w_da w_pin inc_ref dec_ref st da set_ac set_cl set_wb set_ld set_wl set_cm cl st_free st_alloc st_wb1 st_wb2 st_loading];
        auto;
        try (left; split; congruence);
        try (specialize (O1 eq_refl); destruct O1; congruence);
        try (specialize (O3 eq_refl); congruence);
        try (specialize (O2 _ eq_refl); destruct O2 as [O2 _]; rewrite D in O2; injection O2 as <-; auto).
      all: try (left; split; [congruence|assumption || reflexivity]). }
    destruct G as [G|[->|[->|[->| ->]]]]; [auto|right; left; exists t; exact Hi| | |];
      right; right; exists t; eexists; (split; [reflexivity|]); cbn; rewrite Nat.eqb_refl; auto.
Qed.

(** A page that no entry has and that nobody is loading is not found: the next get
    goes to load it.  So a page that was discarded or evicted can be had again. *)
Theorem C22_uncached : forall ts s i t a c s', kept ts s ->
  (forall e, da (ents s e) <> Some a) ->
  (forall j x, nth_error (ags s) j = Some x -> j <> i -> getting a (snd x) = false) ->
  nth_error (ags s) i = Some (t, Look (KGet a)) -> step s i c = Some s' ->
  nth_error (ags s') i = Some (t, Miss (FGet a)).
Proof.
  intros ts s i t a c s' K D G N E. pose proof (kept_Inv3 _ _ K) as M.
  unfold step in E. rewrite N in E. cbn [target] in E.
  destruct (lkp s a) as [e|] eqn:L.
  - exfalso. destruct (m_found _ M _ _ L) as [X|(j & tj & f & J)]; [exact (D e X)|].
    assert (NJ : j <> i) by (intros ->; rewrite N in J; discriminate J).
    specialize (G _ _ J NJ). cbn in G. rewrite Nat.eqb_refl, orb_true_r in G. discriminate.
  - injection E as <-. cbn [move ags]. rewrite (nth_put _ _ _ i _ N), Nat.eqb_refl. reflexivity.
Qed.

(** A get that finds an entry finds one that has the page, or is being given it. *)
Theorem C22_found : forall ts s i t a c s' e, kept ts s ->
  nth_error (ags s) i = Some (t, Look (KGet a)) -> step s i c = Some s' ->
  at_entry s' i e (RTest (KGet a)) ->
  da (ents s e) = Some a \/ exists j f, at_entry s j e (LAddr f a).
Proof.
  intros ts s i t a c s' e K N E [t' A]. pose proof (kept_Inv3 _ _ K) as M.
  unfold step in E. rewrite N in E. cbn [target] in E.
  destruct (lkp s a) as [e'|] eqn:L; injection E as <-; cbn [move ags] in A;
    rewrite (nth_put _ _ _ i _ N), Nat.eqb_refl in A; [|discriminate].
  injection A as _ ->. destruct (m_found _ M _ _ L) as [X|(j & tj & f & J)]; [auto|].
  right. exists j, f, tj. exact J.
Qed.

(** ** Runs that keep the rules. *)
Fixpoint go (i n : nat) : list (nat * cmd) :=
  match n with 0 => [] | S m => (i, Go A0) :: go i m end.

(** Agent [i] gets page [a], which is not cached, into the free entry [e]. *)
Definition r_load (i a e : nat) := [(i, SGet a); (i, Go A0); (i, SPick e)] ++ go i 6.
(** ... gets a page that is cached and loaded and was used of late. *)
Definition r_get (i a : nat) := [(i, SGet a)] ++ go i 8.
(** ... gives it back. *)
Definition r_unget (i : nat) := go i 3.
(** ... passes entry [e] with the clock hand: the first time the accessed flag is
    cleared, the second time the page is evicted. *)
Definition r_pass (i e : nat) := [(i, SEvict e)] ++ go i 4.
Definition r_evict (i e : nat) := [(i, SEvict e)] ++ go i 24.
(** ... claims and locks its page. *)
Definition r_lock (i : nat) := [(i, Go A1); (i, Go A1)] ++ go i 6.
Definition r_alloc (i a e : nat) := [(i, SAlloc a); (i, SPick e)] ++ go i 5.

Definition places (s : state) : list apc := map snd (ags s).
Definition T5 := [0; 1; 2; 3; 4].

Ltac run l :=
  let r := eval vm_compute in (steps (init T5) l) in
  match r with Some ?s => exists s end;
  split;
  [first [apply (krun_kept _ l (init T5)); [constructor|vm_compute; reflexivity]
         |apply (urun_ruled _ l (init T5)); [constructor|vm_compute; reflexivity]
         |apply (steps_reach _ l (init T5)); [constructor|vm_compute; reflexivity]]|].
Ltac here p := exists p; split; [eexists; vm_compute; reflexivity|reflexivity].

(** Two callers have page 7; a third has page 8. *)
Example C22_held_ex : exists s, kept T5 s /\ has s 0 7 0 /\ has s 1 7 0 /\ has s 2 8 64.
Proof.
  run ([(0, SAcq 0); (2, SAcq 1)] ++ r_load 0 7 0 ++ r_get 1 7 ++ r_load 2 8 64).
  split; [here (Held 7)|]. split; [here (Held 7)|here (Held 8)].
Qed.

(** Agent 0 has page 7 write locked; agent 1 counts a reference and must drop it;
    agent 2 waits; agent 3 has claimed another page. *)
Example C22_exclusive_ex : exists s, kept T5 s /\ locks s 0 7 /\ has s 0 7 0 /\
  at_entry s 1 0 (RWl (KGet 7) false) /\ at_entry s 2 0 (RTest (KGet 7)) /\
  claims s 3 8 /\ has s 3 8 64.
Proof.
  run ([(0, SAcq 0); (3, SAcq 1)] ++ r_load 0 7 0 ++ [(1, SGet 7)] ++ go 1 2 ++ r_lock 0 ++ go 1 2 ++
       [(2, SGet 7); (2, Go A0); (2, Go A1)] ++ r_load 3 8 64 ++ [(3, Go A1)]).
  split; [exists 0; here (Locked 7)|]. split; [here (Locked 7)|].
  split; [eexists; vm_compute; reflexivity|]. split; [eexists; vm_compute; reflexivity|].
  split; [exists 64; here (Claimed 8)|here (Claimed 8)].
Qed.

(** While agent 1 has page 7, agent 0's clock hand passes it four times and then
    agent 0 loads another page. *)
Lemma krun_meanwhile i l : forall s s', forallb (fun x => negb (fst x =? i)) l = true ->
  krun s l = Some s' -> meanwhile i s s'.
Proof.
  assert (G : forall l s0 s s', meanwhile i s0 s -> forallb (fun x => negb (fst x =? i)) l = true ->
    krun s l = Some s' -> meanwhile i s0 s').
  { clear l. induction l as [|[j c] l IH]; intros s0 s s' M F H; cbn in H; [congruence|].
    cbn [forallb fst] in F. apply andb_true_iff in F as [F1 F2].
    destruct (ruleb s j c && raceb s j) eqn:E; [|discriminate]. apply andb_true_iff in E as [E1 E2].
    destruct (step s j c) as [s1|] eqn:E3; [|discriminate].
    eapply IH; [|exact F2|exact H]. 
    apply (m_step i s0 s j c s1 M); [|apply ruleb_ok; auto|apply raceb_ok; auto|exact E3].
    apply negb_true_iff, Nat.eqb_neq in F1. exact F1. }
  intros s s' F H. eapply G; eauto. constructor.
Qed.
Example C22_stays_ex : exists s s', kept T5 s /\ has s 1 7 0 /\ meanwhile 1 s s' /\
  has s' 0 8 1 /\ ac (st (ents s 0)) = true /\ ac (st (ents s' 0)) = false.
Proof.
  set (l1 := [(0, SAcq 0)] ++ r_load 0 7 0 ++ r_get 1 7 ++ r_unget 0).
  set (l2 := r_pass 0 0 ++ [(0, SEvict 0)] ++ go 0 17 ++ r_load 0 8 1).
  destruct (krun (init T5) l1) as [s|] eqn:E1; [|vm_compute in E1; discriminate].
  exists s.
  destruct (krun s l2) as [s'|] eqn:E2.
  - exists s'. split; [eapply krun_kept; [constructor|exact E1]|].
    pose proof (krun_meanwhile 1 l2 _ _ eq_refl E2) as M.
    vm_compute in E1. injection E1 as <-. vm_compute in E2. injection E2 as <-.
    split; [here (Held 7)|]. split; [exact M|]. split; [here (Held 8)|]. split; vm_compute; reflexivity.
  - exfalso. vm_compute in E1. injection E1 as <-. vm_compute in E2. discriminate.
Qed.

(** The page of entry 0 is being written while agent 0 waits for the write lock. *)
Example C22_writeback_ex : exists s, kept T5 s /\ writing s 0 /\ at_entry s 0 0 (CWb 7) /\
  claims s 0 7.
Proof.
  run ([(0, SAcq 0)] ++ r_alloc 0 7 0 ++ go 0 2 ++ [(1, SWb 0 true); (1, Go A0); (0, Go A1); (0, Go A1); (0, Go A0)]).
  split; [exists 1; eexists; vm_compute; reflexivity|]. split; [eexists; vm_compute; reflexivity|].
  exists 0. here (CWb 7).
Qed.

(** The step with which eviction takes page 7 out of the lookup table. *)
Example C22_leaves_ex : exists s s', kept T5 s /\ step s 0 (Go A0) = Some s' /\
  caller_rule s 0 (Go A0) /\ no_race s 0 /\ lkp s 7 = Some 0 /\ lkp s' 7 = None.
Proof.
  set (l := [(0, SAcq 0)] ++ r_load 0 7 0 ++ r_unget 0 ++ r_pass 0 0 ++ [(0, SEvict 0)] ++ go 0 20).
  destruct (krun (init T5) l) as [s|] eqn:E1; [|vm_compute in E1; discriminate].
  pose proof (krun_kept T5 l _ _ (k_init _) E1) as K. vm_compute in E1. injection E1 as <-.
  eexists. eexists. split; [exact K|]. split; [vm_compute; reflexivity|].
  repeat split.
Qed.

(** A page that was allocated, marked dirty and given back is dirty. *)
Example C22_dirty_ex : exists s, kept T5 s /\ dirty s 7 0 /\ places s = [Idle; Idle; Idle; Idle; Idle].
Proof.
  run ([(0, SAcq 0)] ++ r_load 0 7 0 ++ r_lock 0 ++ [(0, Go A1)] ++ go 0 5).
  repeat split; vm_compute; reflexivity.
Qed.

(** Page 7 was loaded and discarded; agent 2 is about to look for it. *)
Example C22_uncached_ex : exists s, kept T5 s /\ da (ents s 0) = None /\
  nth_error (ags s) 2 = Some (2, Look (KGet 7)) /\ places s = [Idle; Idle; Look (KGet 7); Idle; Idle].
Proof.
  run ([(0, SAcq 0)] ++ r_load 0 7 0 ++ r_unget 0 ++ [(1, SDisc 7)] ++ go 1 21 ++ [(2, SGet 7)]).
  repeat split; vm_compute; reflexivity.
Qed.

(** ** Runs that break the property. *)

(** cache_prefetch writes the address into its entry (2950) before it competes for
    the lookup slot (2953), and when it loses, it frees the entry (2976-2977)
    though a getter with an old lookup result has found the address and waits
    for the load.  The getter then has page 7 in an entry that is free, or, here,
    is another page, write locked; and page 7 is also in entry 64. *)
Definition prefetch_run :=
  [(0, SAcq 0); (2, SAcq 1)] ++
  r_load 0 7 0 ++ r_unget 0 ++
  [(1, SGet 7); (1, Go A0)] ++              (* reads lookup: entry 0 *)
  r_pass 0 0 ++ r_evict 0 0 ++
  [(0, SPre 7); (0, Go A0); (0, SPick 0)] ++ go 0 3 ++   (* address set *)
  r_load 2 7 64 ++                          (* wins the lookup slot *)
  go 1 6 ++                                 (* finds the address, waits *)
  go 0 3 ++                                 (* prefetch loses, frees the entry *)
  go 1 1 ++
  go 0 7 ++                                 (* prefetch tries again: cached *)
  r_alloc 0 8 0.
Theorem C22_prefetch_refuted : exists s, ruled T5 s /\
  has s 1 7 0 /\ has s 2 7 64 /\ locks s 0 8 /\ has s 0 8 0.
Proof.
  run prefetch_run. split; [here (Held 7)|]. split; [here (Held 7)|].
  split; [exists 0; here (Locked 8)|here (Locked 8)].
Qed.

(** cache_get_async that is out of I/O requests frees its entry (2464-2475) though
    others have found the page in it. *)
Definition noreqs_run :=
  [(0, SAcq 0); (0, SAsync 7); (0, Go A0); (0, SPick 0)] ++ go 0 5 ++
  [(1, SGet 7)] ++ go 1 7 ++
  [(0, Go A1)] ++ go 0 4 ++ go 1 1 ++
  r_alloc 0 8 0.
Theorem C22_noreqs_refuted : exists s, ruled T5 s /\
  has s 1 7 0 /\ locks s 0 8 /\ has s 0 8 0.
Proof. run noreqs_run. split; [here (Held 7)|]. split; [exists 0; here (Locked 8)|here (Locked 8)]. Qed.

(** cache_evict (used by tests only) does not take the batch lock: it clears the claim
    flag of an entry that was reused meanwhile.  Two callers then claim page 8. *)
Definition evict_all_run :=
  [(0, SAcq 0); (2, SAcq 1)] ++
  r_load 0 9 0 ++ r_unget 0 ++ r_pass 0 0 ++
  [(1, SEvictAll 0)] ++ go 1 4 ++
  r_evict 0 0 ++
  [(0, SGet 7); (0, Go A0); (0, SPick 0)] ++ go 0 3 ++
  r_load 2 7 64 ++
  go 1 6 ++                                  (* claims the entry, sees the load *)
  go 0 3 ++ go 0 8 ++ r_unget 0 ++           (* loses, frees it, gets page 7 *)
  r_alloc 0 8 0 ++ go 0 1 ++                 (* unlocked, still claimed *)
  go 1 1 ++                                  (* clears the claim flag *)
  r_get 3 8 ++ [(3, Go A0); (3, Go A1)].
Theorem C22_evict_all_refuted : exists s, reach T5 s /\ claims s 0 8 /\ claims s 3 8.
Proof. run evict_all_run. split; exists 0; here (Claimed 8). Qed.

(** 256 references through one 8-bit counter look like none: the page is evicted
    under all of its users, and the entry given to another page. *)
Definition T300 := repeat 0 256 ++ [1].
Definition wrap_run :=
  [(256, SAcq 0)] ++ r_load 256 7 0 ++
  flat_map (fun i => r_get i 7) (seq 0 256) ++
  r_unget 256 ++ r_pass 256 0 ++ r_evict 256 0 ++ r_alloc 256 8 0.
Definition wrap_check (s : state) : bool :=
  forallb (fun i => match nth_error (ags s) i with
                    | Some (_, On 0 (Held 7)) => true | _ => false end) (seq 0 256) &&
  match nth_error (ags s) 256 with Some (_, On 0 (Locked 8)) => true | _ => false end &&
  match lkp s 7 with None => true | Some _ => false end.
Theorem C22_wrap_refuted : exists s, ruled T300 s /\
  (forall i, i < 256 -> has s i 7 0) /\ locks s 256 8 /\ has s 256 8 0 /\ lkp s 7 = None.
Proof.
  assert (C : match urun (init T300) wrap_run with Some s => wrap_check s | None => false end = true)
    by (vm_compute; reflexivity).
  remember (urun (init T300) wrap_run) as o eqn:E. destruct o as [s|]; [|discriminate].
  exists s. split; [apply (urun_ruled T300 wrap_run (init T300)); [constructor|symmetry; exact E]|].
  clear E. unfold wrap_check in C. apply andb_true_iff in C as [C C3]. apply andb_true_iff in C as [C1 C2].
  assert (A : exists t, nth_error (ags s) 256 = Some (t, On 0 (Locked 8))).
  { destruct (nth_error (ags s) 256) as [[t [| | |[|e] p]]|]; try discriminate; destruct p; try discriminate.
    do 9 (destruct a as [|a]; try discriminate). eauto. }
  split; [|split; [|split]].
  - intros i L. rewrite forallb_forall in C1. specialize (C1 i). rewrite in_seq in C1.
    specialize (C1 (conj (Nat.le_0_l i) L)). exists (Held 7). split; [|reflexivity].
    destruct (nth_error (ags s) i) as [[t [| | |[|e] p]]|] eqn:E; try discriminate; destruct p; try discriminate.
    do 8 (destruct a as [|a]; try discriminate). exists t. exact E.
  - exists 0, (Locked 8). split; [exact A|reflexivity].
  - exists (Locked 8). split; [exact A|reflexivity].
  - destruct (lkp s 7); [discriminate|reflexivity].
Qed.

(** try_page_discard resets the pin count (2051) after it has freed the entry
    (2048): a pin that the entry's next user sets in between is lost, and the
    pinned page can be evicted. *)
Definition pin_run1 :=
  [(0, SAcq 0)] ++ r_alloc 0 7 0 ++ go 0 6 ++
  [(1, SDisc 7)] ++ go 1 19 ++               (* the entry is free *)
  r_alloc 0 8 0 ++ [(0, Go A2)].             (* page 8 in it, pinned *)
Definition pin_run2 :=
  go 1 2 ++ go 0 6 ++ r_pass 0 0 ++ [(2, SWb 0 false)] ++ go 2 3 ++ r_evict 0 0.
Theorem C22_pin_refuted : exists s1 s2, ruled T5 s1 /\ locks s1 0 8 /\
  pin (ents s1 0) = 1 /\ lkp s1 8 = Some 0 /\
  urun s1 pin_run2 = Some s2 /\ lkp s2 8 = None.
Proof.
  destruct (urun (init T5) pin_run1) as [s|] eqn:E1; [|vm_compute in E1; discriminate].
  pose proof (urun_ruled T5 pin_run1 _ _ (u_init _) E1) as K. vm_compute in E1. injection E1 as <-.
  eexists. eexists. split; [exact K|]. split; [exists 0; here (Locked 8)|].
  split; [vm_compute; reflexivity|]. split; [vm_compute; reflexivity|].
  split; [vm_compute; reflexivity|]. vm_compute. reflexivity.
Qed.

(** cache_page_sync of a page that the cache is writing back already fails its
    assertion (2704-2705). *)
Definition sync_run :=
  [(0, SAcq 0)] ++ r_alloc 0 7 0 ++ go 0 6 ++
  [(1, SWb 0 true)] ++ go 1 2 ++ [(0, SSync 0)] ++ go 0 3.
Theorem C22_sync_refuted : exists s, kept T5 s /\ at_entry s 0 0 Boom.
Proof. run sync_run. eexists. vm_compute. reflexivity. Qed.

Print Assumptions C22_held.
Print Assumptions C22_one_copy.
Print Assumptions C22_stays.
Print Assumptions C22_exclusive.
Print Assumptions C22_one_claim.
Print Assumptions C22_writeback.
Print Assumptions C22_leaves.
Print Assumptions C22_mark_dirty.
Print Assumptions C22_dirty_stays.
Print Assumptions C22_prefetch_refuted.
Print Assumptions C22_uncached.
Print Assumptions C22_found.
Print Assumptions C22_noreqs_refuted.
Print Assumptions C22_evict_all_refuted.
Print Assumptions C22_wrap_refuted.
Print Assumptions C22_pin_refuted.
Print Assumptions C22_sync_refuted.
