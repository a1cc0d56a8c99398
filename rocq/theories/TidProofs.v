(** * Proofs about thread ids *)

From Coq Require Import List NArith Arith Bool Lia.
From Verif Require Import Count Tid.
Import ListNotations.

(** ** Bits *)

Lemma ffs_from_some : forall w f i k, ffs_from w i f = Some k -> i <= k < i + f /\ N.testbit w (N.of_nat k) = true.
Proof.
  induction f; intros i k H; cbn in H; [discriminate|].
  destruct (N.testbit w (N.of_nat i)) eqn:E.
  - injection H as <-. split; [lia|assumption].
  - apply IHf in H. split; [lia|tauto].
Qed.
Lemma ffs_from_none : forall w f i, ffs_from w i f = None -> forall k, i <= k < i + f -> N.testbit w (N.of_nat k) = false.
Proof.
  induction f; intros i H k Hk; cbn in H; [lia|].
  destruct (N.testbit w (N.of_nat i)) eqn:E; [discriminate|].
  destruct (Nat.eq_dec k i) as [->|]; [assumption|]. apply (IHf (S i)); [assumption|lia].
Qed.

Definition is_free (bits : nat -> N) (t : nat) : bool := N.testbit (bits (t / 64)) (N.of_nat (t mod 64)).

Lemma tid_split : forall pos i, pos < 64 -> (pos + i * 64) / 64 = i /\ (pos + i * 64) mod 64 = pos.
Proof.
  intros pos i H. split.
  - rewrite Nat.div_add by lia. rewrite Nat.div_small by lia. reflexivity.
  - rewrite Nat.mod_add by lia. now rewrite Nat.mod_small.
Qed.
Lemma tid_eq : forall t pos i, pos < 64 -> (t = pos + i * 64 <-> t / 64 = i /\ t mod 64 = pos).
Proof.
  intros t pos i H. split.
  - intros ->. now apply tid_split.
  - intros [A B]. rewrite (Nat.div_mod t 64) by lia. lia.
Qed.

Lemma free_clear : forall bits i pos t, pos < 64 ->
  is_free (upd bits i (N.clearbit (bits i) (N.of_nat pos))) t
  = if Nat.eqb t (pos + i * 64) then false else is_free bits t.
Proof.
  intros bits i pos t Hp. unfold is_free.
  destruct (Nat.eqb_spec t (pos + i * 64)) as [E|E].
  - apply (tid_eq t pos i Hp) in E. destruct E as [E1 E2]. rewrite E1, E2, upd_same. apply N.clearbit_eq.
  - destruct (Nat.eq_dec (t / 64) i) as [E1|E1].
    + rewrite E1, upd_same. apply N.clearbit_neq. intro X. apply E. apply (tid_eq t pos i Hp).
      split; [assumption|]. lia.
    + now rewrite upd_other.
Qed.
Lemma free_set : forall bits u t,
  is_free (upd bits (u / 64) (N.setbit (bits (u / 64)) (N.of_nat (u mod 64)))) t
  = if Nat.eqb t u then true else is_free bits t.
Proof.
  intros bits u t. unfold is_free.
  destruct (Nat.eqb_spec t u) as [->|E].
  - rewrite upd_same. apply N.setbit_eq.
  - destruct (Nat.eq_dec (t / 64) (u / 64)) as [E1|E1].
    + rewrite E1, upd_same. apply N.setbit_neq. intro X. apply E.
      rewrite (Nat.div_mod t 64), (Nat.div_mod u 64) by lia. lia.
    + now rewrite upd_other.
Qed.

(** ** Who holds which id *)

Definition slot := (nat * bool)%type.
Definition slot_dec : forall a b : slot, {a = b} + {a <> b}.
Proof. intros [a b] [c d]. destruct (Nat.eq_dec a c), (bool_dec b d); (left; congruence) || (right; congruence). Defined.

Record HI (M : nat) (hs : slot -> option nat) (fr : nat -> bool) : Prop := {
  hi_uniq : forall a b t, hs a = Some t -> hs b = Some t -> a = b;
  hi_busy : forall a t, hs a = Some t -> t < M /\ fr t = false;
  hi_held : forall t, t < M -> fr t = false -> exists a, hs a = Some t
}.

Lemma HI_ext : forall M hs hs' fr fr', (forall a, hs' a = hs a) -> (forall t, t < M -> fr' t = fr t) ->
  HI M hs fr -> HI M hs' fr'.
Proof.
  intros M hs hs' fr fr' E F [H1 H2 H3]. constructor.
  - intros a b t. rewrite !E. apply H1.
  - intros a t. rewrite E. intros X. destruct (H2 a t X). rewrite F by assumption. auto.
  - intros t Ht. rewrite F by assumption. intros X. destruct (H3 t Ht X) as [a Ha]. exists a. now rewrite E.
Qed.

Lemma HI_acquire : forall M hs hs' fr fr' a t, HI M hs fr -> hs a = None -> t < M -> fr t = true ->
  hs' a = Some t -> (forall b, b <> a -> hs' b = hs b) ->
  (forall u, u < M -> fr' u = if Nat.eqb u t then false else fr u) -> HI M hs' fr'.
Proof.
  intros M hs hs' fr fr' a t [H1 H2 H3] Ha Ht Hf Ha' Hb Hf'. constructor.
  - intros b c u Hu Hc. destruct (slot_dec b a) as [->|]; destruct (slot_dec c a) as [->|]; try reflexivity.
    + rewrite Ha' in Hu. injection Hu as <-. rewrite Hb in Hc by assumption. destruct (H2 c t Hc). congruence.
    + rewrite Ha' in Hc. injection Hc as <-. rewrite Hb in Hu by assumption. destruct (H2 b t Hu). congruence.
    + rewrite Hb in Hu, Hc by assumption. eapply H1; eauto.
  - intros b u Hu. destruct (slot_dec b a) as [->|].
    + rewrite Ha' in Hu. injection Hu as <-. split; [assumption|]. rewrite Hf' by assumption. now rewrite Nat.eqb_refl.
    + rewrite Hb in Hu by assumption. destruct (H2 b u Hu). split; [assumption|]. rewrite Hf' by assumption.
      destruct (Nat.eqb u t); auto.
  - intros u Hu X. rewrite Hf' in X by assumption. destruct (Nat.eqb_spec u t) as [->|].
    + eauto. + destruct (H3 u Hu X) as [b Hb']. exists b. rewrite Hb; [assumption|]. intros ->. congruence.
Qed.

Lemma HI_release : forall M hs hs' fr fr' a t, HI M hs fr -> hs a = Some t -> hs' a = None ->
  (forall b, b <> a -> hs' b = hs b) ->
  (forall u, u < M -> fr' u = if Nat.eqb u t then true else fr u) -> HI M hs' fr'.
Proof.
  intros M hs hs' fr fr' a t [H1 H2 H3] Ha Ha' Hb Hf'. constructor.
  - intros b c u Hu Hc. destruct (slot_dec b a) as [->|]; [congruence|].
    destruct (slot_dec c a) as [->|]; [congruence|].
    rewrite Hb in Hu, Hc by assumption. eapply H1; eauto.
  - intros b u Hu. destruct (slot_dec b a) as [->|]; [congruence|].
    rewrite Hb in Hu by assumption. destruct (H2 b u Hu). split; [assumption|]. rewrite Hf' by assumption.
    destruct (Nat.eqb_spec u t) as [->|]; [|assumption]. exfalso. apply n. eapply H1; eauto.
  - intros u Hu X. rewrite Hf' in X by assumption. destruct (Nat.eqb_spec u t) as [->|]; [discriminate|].
    destruct (H3 u Hu X) as [b Hb']. exists b. rewrite Hb; [assumption|]. intros ->. congruence.
Qed.

Lemma HI_transfer : forall M hs hs' fr fr' a b t, HI M hs fr -> a <> b -> hs a = Some t -> hs b = None ->
  hs' a = None -> hs' b = Some t -> (forall c, c <> a -> c <> b -> hs' c = hs c) ->
  (forall u, u < M -> fr' u = fr u) -> HI M hs' fr'.
Proof.
  intros M hs hs' fr fr' a b t [H1 H2 H3] Hab Ha Hb Ha' Hb' Hc Hf. constructor.
  - intros c d u X Y.
    destruct (slot_dec c a) as [->|]; [congruence|]. destruct (slot_dec d a) as [->|]; [congruence|].
    destruct (slot_dec c b) as [->|]; destruct (slot_dec d b) as [->|]; try reflexivity.
    + rewrite Hc in Y by assumption. rewrite Hb' in X. injection X as <-. exfalso. apply n0. eapply H1; eauto.
    + rewrite Hc in X by assumption. rewrite Hb' in Y. injection Y as <-. exfalso. apply n. eapply H1; eauto.
    + rewrite Hc in X, Y by assumption. eapply H1; eauto.
  - intros c u X. destruct (slot_dec c a) as [->|]; [congruence|]. destruct (slot_dec c b) as [->|].
    + rewrite Hb' in X. injection X as <-. destruct (H2 a t Ha). split; [assumption|]. now rewrite Hf.
    + rewrite Hc in X by assumption. destruct (H2 c u X). split; [assumption|]. now rewrite Hf.
  - intros u Hu X. rewrite Hf in X by assumption. destruct (H3 u Hu X) as [c Y].
    destruct (slot_dec c a) as [->|].
    + exists b. congruence.
    + exists c. rewrite Hc; auto. intros ->. congruence.
Qed.

(** ** The invariant *)

Definition pc_hold (c : t_pc) : option nat :=
  match c with
  | TRel _ t | TMax _ t | TMaxCas _ t _ | TGot _ t | TStart t
  | TDAcq t | TDCheck t | TDRead t | TDCas t _ => Some t
  | _ => None
  end.
Definition holds (own : nat -> option nat) (pcs : nat -> t_pc) (a : slot) : option nat :=
  if snd a then own (fst a) else pc_hold (pcs (fst a)).
Definition in_crit (c : t_pc) : bool :=
  match c with
  | TScan _ _ | TCas _ _ _ _ | TRelFail _ | TRel _ _ | TDCheck _ | TDRead _ | TDCas _ _ | TDRel => true
  | _ => false
  end.
Definition q_self (q : purpose) : bool := match q with ForSelf _ => true | _ => false end.
(** Positions of a thread that is about to obtain its own id. *)
Definition pc_self (c : t_pc) : bool :=
  match c with
  | TAcq q | TScan q _ | TCas q _ _ _ | TRelFail q | TRel q _ | TMax q _ | TMaxCas q _ _ | TGot q _ => q_self q
  | TStart _ => true
  | _ => false
  end.
(** Local facts of a position. *)
Definition pc_ok (W : nat) (bits : nat -> N) (mx : nat) (c : t_pc) : Prop :=
  match c with
  | TScan _ i => forall j, j < i -> ffsl (bits j) = None
  | TCas _ i old pos => i < W /\ old = bits i /\ ffsl old = Some pos
  | TRelFail _ => forall j, j < W -> ffsl (bits j) = None
  | TMaxCas _ t tmp => tmp < t
  | TGot _ t | TStart t => t <= mx
  | _ => True
  end.

Record t_inv (W : nat) (s : ts) : Prop := {
  ti_hold : HI (64 * W) (holds (ts_own s) (ts_pcs s)) (is_free (ts_bits s));
  ti_crit1 : forall p, in_crit (ts_pcs s p) = true -> ts_lock s = true;
  ti_crit2 : forall p q, in_crit (ts_pcs s p) = true -> in_crit (ts_pcs s q) = true -> p = q;
  ti_pc : forall p, pc_ok W (ts_bits s) (ts_max s) (ts_pcs s p);
  ti_own_max : forall p t, ts_own s p = Some t -> t <= ts_max s;
  ti_self : forall p, pc_self (ts_pcs s p) = true -> ts_own s p = None;
  ti_live : forall p, ts_live s p = false -> ts_pcs s p = TIdle /\ ts_own s p = None;
  ti_scratch : forall t, ts_scratch s t = true ->
     exists p, ts_own s p = Some t \/ ts_pcs s p = TStart t
}.

Lemma init_free : forall t, is_free (fun _ => (2 ^ 64 - 1)%N) t = true.
Proof.
  intro t. unfold is_free. replace (2 ^ 64 - 1)%N with (N.ones 64) by reflexivity.
  apply N.ones_spec_low. pose proof (Nat.mod_upper_bound t 64 ltac:(lia)). lia.
Qed.

Lemma ts_init_inv : forall W main, t_inv W (ts_init main).
Proof.
  intros W main. constructor; cbn; try discriminate; auto.
  - constructor.
    + intros [a b] c t H. unfold holds in H. cbn in H. destruct b; discriminate.
    + intros [a b] t H. unfold holds in H. cbn in H. destruct b; discriminate.
    + intros t _ H. exfalso. pose proof (init_free t) as F. change (is_free (fun _ => (2 ^ 64 - 1)%N) t = false) in H. rewrite F in H. discriminate.
Qed.

(** Steps that leave the ids and bits alone. *)
Lemma inv_goto : forall W s p c c' lk,
  t_inv W s -> ts_pcs s p = c -> pc_hold c' = pc_hold c -> ts_live s p = true ->
  pc_ok W (ts_bits s) (ts_max s) c' -> (forall t, c <> TStart t) ->
  (in_crit c' = true -> lk = true /\ (in_crit c = true \/ ts_lock s = false)) ->
  (lk = ts_lock s \/ (lk = false /\ in_crit c = true) \/ lk = true) ->
  (pc_self c' = true -> pc_self c = true \/ ts_own s p = None) ->
  t_inv W (Ts lk (ts_bits s) (ts_max s) (ts_scratch s) (ts_own s) (upd (ts_pcs s) p c') (ts_live s)).
Proof.
  intros W s p c c' lk I Hp Hh Hl Hok Hns Hc Hlk Hself. destruct I as [I1 I2 I3 I4 I5 I8 I6 I7].
  constructor; cbn [ts_lock ts_bits ts_max ts_scratch ts_own ts_pcs ts_live].
  - eapply HI_ext; [| |exact I1]; [|reflexivity]. intros [q b]. unfold holds; cbn. destruct b; [reflexivity|].
    destruct (Nat.eq_dec q p) as [->|]; [rewrite upd_same, Hp; assumption | now rewrite upd_other].
  - intros q. destruct (Nat.eq_dec q p) as [->|].
    + rewrite upd_same. intros X. apply Hc in X. tauto.
    + rewrite upd_other by assumption. intros X. pose proof (I2 q X) as L.
      destruct Hlk as [->|[[-> Y]| ->]]; auto. exfalso. apply n. apply I3; [assumption|]. now rewrite Hp.
  - intros q r. 
    assert (K : forall q, q <> p -> in_crit c' = true -> in_crit (ts_pcs s q) = true -> False).
    { intros q' Hq X Y. apply Hc in X. destruct X as [_ [X|X]].
      - apply Hq. apply I3; [assumption|]. now rewrite Hp. - rewrite (I2 q' Y) in X. discriminate. }
    destruct (Nat.eq_dec q p) as [->|]; destruct (Nat.eq_dec r p) as [->|]; auto;
      rewrite ?upd_same, ?upd_other by assumption; intros X Y.
    + exfalso. eapply K; eauto. + exfalso. eapply K; eauto. + now apply I3.
  - intros q. destruct (Nat.eq_dec q p) as [->|]; [rewrite upd_same; assumption | rewrite upd_other by assumption; apply I4].
  - assumption.
  - intros q. destruct (Nat.eq_dec q p) as [->|]; [rewrite upd_same | rewrite upd_other by assumption; apply I8].
    intros X. apply Hself in X. destruct X as [X|X]; [|assumption]. apply I8. now rewrite Hp.
  - intros q Hq. destruct (Nat.eq_dec q p) as [->|]; [congruence|]. rewrite upd_other by assumption. now apply I6.
  - intros t Ht. destruct (I7 t Ht) as [q [Hq|Hq]].
    + exists q. auto.
    + destruct (Nat.eq_dec q p) as [->|].
      * exfalso. apply (Hns t). congruence.
      * exists q. right. now rewrite upd_other.
Qed.

Lemma pc_ok_bits : forall W b b' mx c, in_crit c = false -> pc_ok W b mx c -> pc_ok W b' mx c.
Proof. intros W b b' mx c Hc H. destruct c; cbn in *; try discriminate; auto. Qed.
Lemma pc_ok_max : forall W b mx mx' c, mx <= mx' -> pc_ok W b mx c -> pc_ok W b mx' c.
Proof. intros W b mx mx' c Hm H. destruct c; cbn in *; auto; lia. Qed.


Ltac other p := let q := fresh "q" in intros q; destruct (Nat.eq_dec q p) as [->|];
  [rewrite ?upd_same | rewrite ?upd_other by assumption].

Theorem t_step_inv : forall W s p r s',
  t_inv W s -> t_legal s p r -> t_step W s p r = TNext s' -> t_inv W s'.
Proof.
  intros W s p r s' I [Hlive Hleg] H.
  pose proof I as [I1 I2 I3 I4 I5 I8 I6 I7].
  pose proof (I4 p) as Hok. pose proof (I8 p) as Hself.
  unfold t_step in H. destruct (ts_pcs s p) as [|q|q i|q i old pos|q|q tid|q tid|q tid tmp|q tid|tid|tid|tid|tid|tid tmp|] eqn:Ep;
    cbn [pc_ok] in Hok.
  - (* idle *)
    specialize (Hleg eq_refl). destruct r as [sz| |sz child|m1 m2 th].
    + rewrite Hleg in H. injection H as H; subst s'. unfold goto.
      eapply inv_goto; eauto; try reflexivity; try discriminate; try exact Logic.I.
    + destruct (ts_own s p) as [tid|] eqn:Eo; [|discriminate]. injection H as H; subst s'.
      constructor; cbn [ts_lock ts_bits ts_max ts_scratch ts_own ts_pcs ts_live].
      * eapply (HI_transfer _ _ _ _ _ (p, true) (p, false) tid I1); try discriminate; try reflexivity; unfold holds; cbn [fst snd].
        -- assumption. -- now rewrite Ep. -- now rewrite upd_same. -- now rewrite upd_same.
        -- intros [q b] A B. cbn. destruct b.
           ++ rewrite upd_other; [reflexivity|]. intros ->. congruence.
           ++ rewrite upd_other; [reflexivity|]. intros ->. congruence.
      * other p; [discriminate | apply I2].
      * intros q r. destruct (Nat.eq_dec q p) as [->|]; [rewrite upd_same; discriminate|].
        destruct (Nat.eq_dec r p) as [->|]; [rewrite upd_same; discriminate|]. rewrite !upd_other by assumption. apply I3.
      * other p; [exact Logic.I | apply I4].
      * other p; [discriminate | apply I5].
      * other p; [discriminate | apply I8].
      * other p; [congruence | apply I6].
      * intros t Ht. destruct (Nat.eq_dec t tid) as [->|]; [rewrite upd_same in Ht; discriminate|].
        rewrite upd_other in Ht by assumption. destruct (I7 t Ht) as [q [Hq|Hq]]; exists q.
        -- left. rewrite upd_other; [assumption|]. intros ->. congruence.
        -- right. rewrite upd_other; [assumption|]. intros ->. congruence.
    + injection H as H; subst s'. unfold goto. eapply inv_goto; eauto; try reflexivity; try discriminate; try exact Logic.I.
    + injection H as H; subst s'. exact I.
  - destruct (ts_lock s) eqn:El; injection H as H; subst s'; [exact I|].
    eapply inv_goto; eauto; try reflexivity; try discriminate.
    cbn. intros j Hj. lia.
  - destruct (Nat.ltb_spec i W).
    + destruct (ffsl (ts_bits s i)) as [pos|] eqn:Ef; injection H as H; subst s'; unfold goto;
        (eapply inv_goto; eauto; try reflexivity; try discriminate).
      * cbn. auto.
      * intros _. split; [apply (I2 p); now rewrite Ep | left; reflexivity].
      * cbn. intros j Hj. destruct (Nat.eq_dec j i) as [->|]; [assumption|]. apply Hok. lia.
      * intros _. split; [apply (I2 p); now rewrite Ep | left; reflexivity].
    + injection H as H; subst s'. unfold goto. eapply inv_goto; eauto; try reflexivity; try discriminate.
      * cbn. intros j Hj. apply Hok. lia.
      * intros _. split; [apply (I2 p); now rewrite Ep | left; reflexivity].
  - (* the compare-and-swap that takes the bit *)
    destruct (N.eqb_spec (ts_bits s i) old) as [Eo|]; [|discriminate]. injection H as H; subst s'.
    destruct Hok as (Hi & _ & Hf). unfold ffsl in Hf. apply ffs_from_some in Hf. destruct Hf as [Hpos Hbit].
    assert (Hpos' : pos < 64) by lia.
    constructor; cbn [ts_lock ts_bits ts_max ts_scratch ts_own ts_pcs ts_live].
    + eapply (HI_acquire _ _ _ _ _ (p, false) (pos + i * 64) I1); unfold holds; cbn [fst snd].
      * now rewrite Ep. * lia.
      * unfold is_free. destruct (tid_split pos i Hpos') as [-> ->]. now rewrite Eo.
      * now rewrite upd_same.
      * intros [q' b] Hq. cbn. destruct b; [reflexivity|]. rewrite upd_other; [reflexivity|]. intros ->. congruence.
      * intros u Hu. rewrite <- Eo. now apply free_clear.
    + other p; [intros _; apply (I2 p); now rewrite Ep | apply I2].
    + intros q' r'. destruct (Nat.eq_dec q' p) as [->|]; destruct (Nat.eq_dec r' p) as [->|]; auto;
        rewrite ?upd_same, ?upd_other by assumption; intros X Y; apply I3; auto; now rewrite Ep.
    + intros q'. destruct (Nat.eq_dec q' p) as [->|]; [rewrite upd_same; exact Logic.I | rewrite upd_other by assumption].
      apply (pc_ok_bits W (ts_bits s)); [|apply I4]. destruct (in_crit (ts_pcs s q')) eqn:Ec; [|reflexivity].
      exfalso. apply n. apply I3; [assumption|]. now rewrite Ep.
    + assumption.
    + other p; [exact Hself | apply I8].
    + other p; [congruence | apply I6].
    + intros t Ht. destruct (I7 t Ht) as [q' [Hq|Hq]]; exists q'; [auto|]. right. rewrite upd_other; [assumption|]. intros ->. congruence.
  - injection H as H; subst s'. eapply inv_goto; eauto; try reflexivity; try discriminate; try exact Logic.I.
  - injection H as H; subst s'. eapply inv_goto; eauto; try reflexivity; try discriminate; try exact Logic.I.
  - injection H as H; subst s'. unfold goto. destruct (Nat.ltb_spec (ts_max s) tid);
      (eapply inv_goto; eauto; try reflexivity; try discriminate).
  - (* max_tid *)
    destruct (Nat.eqb_spec (ts_max s) tmp) as [Em|].
    + injection H as H; subst s'.
      constructor; cbn [ts_lock ts_bits ts_max ts_scratch ts_own ts_pcs ts_live].
      * eapply HI_ext; [| |exact I1]; [|reflexivity]. intros [q' b]. unfold holds; cbn. destruct b; [reflexivity|].
        destruct (Nat.eq_dec q' p) as [->|]; [rewrite upd_same, Ep; reflexivity | now rewrite upd_other].
      * other p; [discriminate | apply I2].
      * intros q' r'. destruct (Nat.eq_dec q' p) as [->|]; [rewrite upd_same; discriminate|].
        destruct (Nat.eq_dec r' p) as [->|]; [rewrite upd_same; discriminate|]. rewrite !upd_other by assumption. apply I3.
      * intros q'. destruct (Nat.eq_dec q' p) as [->|]; [rewrite upd_same; cbn; lia | rewrite upd_other by assumption].
        apply (pc_ok_max W _ (ts_max s)); [lia | apply I4].
      * intros q' t Ht. apply I5 in Ht. lia.
      * other p; [exact Hself | apply I8].
      * other p; [congruence | apply I6].
      * intros t Ht. destruct (I7 t Ht) as [q' [Hq|Hq]]; exists q'; [auto|]. right. rewrite upd_other; [assumption|]. intros ->. congruence.
    + injection H as H; subst s'. unfold goto. eapply inv_goto; eauto; try reflexivity; try discriminate; try exact Logic.I.
  - (* got an id *)
    assert (Hmine : holds (ts_own s) (ts_pcs s) (p, false) = Some tid) by (unfold holds; cbn; now rewrite Ep).
    assert (Hnoscr : ts_scratch s tid = false).
    { destruct (ts_scratch s tid) eqn:Es; [|reflexivity]. exfalso. destruct (I7 tid Es) as [q' [Hq|Hq]].
      - assert (X : (q', true) = (p, false)) by (eapply (hi_uniq _ _ _ I1); [unfold holds; cbn; eassumption | exact Hmine]).
        discriminate.
      - assert (X : (q', false) = (p, false)) by (eapply (hi_uniq _ _ _ I1); [unfold holds; cbn; rewrite Hq; reflexivity | exact Hmine]).
        injection X as ->. congruence. }
    destruct q as [sz|sz child].
    + destruct r as [| | |m1 m2 th]; try (injection H as H; subst s'; exact I).
      rewrite Hnoscr in H. destruct (Nat.ltb_spec tid (64 * W)); cbn [negb] in H; [|discriminate].
      specialize (Hself eq_refl).
      destruct (sz && negb m1).
      * injection H as H; subst s'. unfold goto. eapply inv_goto; eauto; try reflexivity; try discriminate; try exact Logic.I.
      * injection H as H; subst s'.
        constructor; cbn [ts_lock ts_bits ts_max ts_scratch ts_own ts_pcs ts_live].
        -- eapply (HI_transfer _ _ _ _ _ (p, false) (p, true) tid I1); try discriminate; try reflexivity; unfold holds; cbn [fst snd].
           ++ now rewrite Ep. ++ assumption. ++ now rewrite upd_same. ++ now rewrite upd_same.
           ++ intros [q b] A B. cbn. destruct b; (rewrite upd_other; [reflexivity|]; intros ->; congruence).
        -- other p; [discriminate | apply I2].
        -- intros q' r'. destruct (Nat.eq_dec q' p) as [->|]; [rewrite upd_same; discriminate|].
           destruct (Nat.eq_dec r' p) as [->|]; [rewrite upd_same; discriminate|]. rewrite !upd_other by assumption. apply I3.
        -- other p; [exact Logic.I | apply I4].
        -- other p; [intros t Ht; injection Ht as <-; exact Hok | apply I5].
        -- other p; [discriminate | apply I8].
        -- other p; [congruence | apply I6].
        -- intros t Ht. destruct (Nat.eq_dec t tid) as [->|].
           ++ exists p. left. now rewrite upd_same.
           ++ rewrite upd_other in Ht by assumption. destruct (I7 t Ht) as [q' [Hq|Hq]]; exists q'.
              ** left. rewrite upd_other; [assumption|]. intros ->. congruence.
              ** right. rewrite upd_other; [assumption|]. intros ->. congruence.
    + destruct r as [| | |m1 m2 th]; try (injection H as H; subst s'; exact I).
      destruct (sz && negb m1).
      { injection H as H; subst s'. unfold goto. eapply inv_goto; eauto; try reflexivity; try discriminate; try exact Logic.I. }
      destruct (negb m2 || negb th || ts_live s child) eqn:Ef; injection H as H; subst s'.
      * assert (J : t_inv W (Ts (ts_lock s) (ts_bits s) (ts_max s) (ts_scratch s) (ts_own s)
                               (upd (ts_pcs s) p (TDAcq tid)) (ts_live s))).
        { eapply inv_goto; eauto; try reflexivity; try discriminate; try exact Logic.I. }
        destruct J as [J1 J2 J3 J4 J5 J8 J6 J7].
        constructor; cbn [ts_lock ts_bits ts_max ts_scratch ts_own ts_pcs ts_live] in *; try assumption.
        intros t Ht. apply J7. destruct (Nat.eq_dec t tid) as [->|]; [rewrite upd_same in Ht; discriminate|].
        now rewrite upd_other in Ht.
      * apply orb_false_iff in Ef. destruct Ef as [_ Ef].
        assert (Hcp : child <> p) by (intros ->; congruence).
        destruct (I6 child Ef) as [Hci Hco].
        constructor; cbn [ts_lock ts_bits ts_max ts_scratch ts_own ts_pcs ts_live].
        -- eapply (HI_transfer _ _ _ _ _ (p, false) (child, false) tid I1); try reflexivity; unfold holds; cbn [fst snd].
           ++ intros X. injection X as ->. congruence.
           ++ now rewrite Ep. ++ now rewrite Hci.
           ++ rewrite upd_other by congruence. now rewrite upd_same.
           ++ now rewrite upd_same.
           ++ intros [q b] A B. cbn. destruct b; [reflexivity|]. rewrite !upd_other; [reflexivity| |]; intros ->; congruence.
        -- other child; [discriminate|]. destruct (Nat.eq_dec q p) as [->|]; [rewrite upd_same; discriminate | rewrite upd_other by assumption; apply I2].
        -- intros q' r'. destruct (Nat.eq_dec q' child) as [->|]; [rewrite upd_same; discriminate|].
           destruct (Nat.eq_dec r' child) as [->|]; [rewrite upd_same; discriminate|]. rewrite !(upd_other _ child) by assumption.
           destruct (Nat.eq_dec q' p) as [->|]; [rewrite upd_same; discriminate|].
           destruct (Nat.eq_dec r' p) as [->|]; [rewrite upd_same; discriminate|]. rewrite !upd_other by assumption. apply I3.
        -- other child; [exact Hok|]. destruct (Nat.eq_dec q p) as [->|]; [rewrite upd_same; exact Logic.I | rewrite upd_other by assumption; apply I4].
        -- assumption.
        -- other child; [intros _; assumption|]. destruct (Nat.eq_dec q p) as [->|]; [rewrite upd_same; discriminate | rewrite upd_other by assumption; apply I8].
        -- other child; [discriminate|]. intros X. destruct (Nat.eq_dec q p) as [->|]; [congruence | rewrite upd_other by assumption; now apply I6].
        -- intros t Ht. destruct (Nat.eq_dec t tid) as [->|].
           ++ exists child. right. now rewrite upd_same.
           ++ rewrite upd_other in Ht by assumption. destruct (I7 t Ht) as [q' [Hq|Hq]]; exists q'; [auto|].
              right. rewrite !upd_other; [assumption| |]; intros ->; congruence.
  - (* a created thread starts *)
    destruct (Nat.ltb_spec tid (64 * W)); cbn [negb] in H; [|discriminate]. injection H as H; subst s'.
    specialize (Hself eq_refl).
    constructor; cbn [ts_lock ts_bits ts_max ts_scratch ts_own ts_pcs ts_live].
    + eapply (HI_transfer _ _ _ _ _ (p, false) (p, true) tid I1); try discriminate; try reflexivity; unfold holds; cbn [fst snd].
      * now rewrite Ep. * assumption. * now rewrite upd_same. * now rewrite upd_same.
      * intros [q b] A B. cbn. destruct b; (rewrite upd_other; [reflexivity|]; intros ->; congruence).
    + other p; [discriminate | apply I2].
    + intros q' r'. destruct (Nat.eq_dec q' p) as [->|]; [rewrite upd_same; discriminate|].
      destruct (Nat.eq_dec r' p) as [->|]; [rewrite upd_same; discriminate|]. rewrite !upd_other by assumption. apply I3.
    + other p; [exact Logic.I | apply I4].
    + other p; [intros t Ht; injection Ht as <-; exact Hok | apply I5].
    + other p; [discriminate | apply I8].
    + other p; [congruence | apply I6].
    + intros t Ht. destruct (I7 t Ht) as [q' [Hq|Hq]].
      * exists q'. left. rewrite upd_other; [assumption|]. intros ->. congruence.
      * destruct (Nat.eq_dec q' p) as [->|].
        -- exists p. left. rewrite upd_same. congruence.
        -- exists q'. right. now rewrite upd_other.
  - destruct (ts_lock s) eqn:El; injection H as H; subst s'; [exact I|].
    eapply inv_goto; eauto; try reflexivity; try discriminate; try exact Logic.I.
  - destruct (N.testbit _ _); [discriminate|]. injection H as H; subst s'. unfold goto.
    eapply inv_goto; eauto; try reflexivity; try discriminate; try exact Logic.I.
    intros _. split; [apply (I2 p); now rewrite Ep | left; reflexivity].
  - injection H as H; subst s'. unfold goto.
    eapply inv_goto; eauto; try reflexivity; try discriminate; try exact Logic.I.
    intros _. split; [apply (I2 p); now rewrite Ep | left; reflexivity].
  - (* the compare-and-swap that frees the bit *)
    destruct (N.eqb_spec (ts_bits s (tid / 64)) tmp) as [Eo|].
    + injection H as H; subst s'.
      constructor; cbn [ts_lock ts_bits ts_max ts_scratch ts_own ts_pcs ts_live].
      * eapply (HI_release _ _ _ _ _ (p, false) tid I1); unfold holds; cbn [fst snd].
        -- now rewrite Ep. -- now rewrite upd_same.
        -- intros [q' b] Hq. cbn. destruct b; [reflexivity|]. rewrite upd_other; [reflexivity|]. intros ->. congruence.
        -- intros u Hu. rewrite <- Eo. apply free_set.
      * other p; [intros _; apply (I2 p); now rewrite Ep | apply I2].
      * intros q' r'. destruct (Nat.eq_dec q' p) as [->|]; destruct (Nat.eq_dec r' p) as [->|]; auto;
          rewrite ?upd_same, ?upd_other by assumption; intros X Y; apply I3; auto; now rewrite Ep.
      * intros q'. destruct (Nat.eq_dec q' p) as [->|]; [rewrite upd_same; exact Logic.I | rewrite upd_other by assumption].
        apply (pc_ok_bits W (ts_bits s)); [|apply I4]. destruct (in_crit (ts_pcs s q')) eqn:Ec; [|reflexivity].
        exfalso. apply n. apply I3; [assumption|]. now rewrite Ep.
      * assumption.
      * other p; [discriminate | apply I8].
      * other p; [congruence | apply I6].
      * intros t Ht. destruct (I7 t Ht) as [q' [Hq|Hq]]; exists q'; [auto|]. right. rewrite upd_other; [assumption|]. intros ->. congruence.
    + injection H as H; subst s'. unfold goto.
      eapply inv_goto; eauto; try reflexivity; try discriminate; try exact Logic.I.
      intros _. split; [apply (I2 p); now rewrite Ep | left; reflexivity].
  - injection H as H; subst s'. eapply inv_goto; eauto; try reflexivity; try discriminate; try exact Logic.I.
Qed.

Theorem t_step_no_abort : forall W s p r, t_inv W s -> t_legal s p r -> t_step W s p r <> TAbort.
Proof.
  intros W s p r I [Hlive Hleg]. pose proof I as [I1 I2 I3 I4 I5 I8 I6 I7].
  pose proof (I4 p) as Hok.
  unfold t_step. destruct (ts_pcs s p) as [|q|q i|q i old pos|q|q tid|q tid|q tid tmp|q tid|tid|tid|tid|tid|tid tmp|] eqn:Ep;
    cbn [pc_ok] in Hok; try discriminate.
  - specialize (Hleg eq_refl). destruct r; try discriminate.
    + rewrite Hleg. discriminate. + destruct (ts_own s p); [discriminate|congruence].
  - destruct (ts_lock s); discriminate.
  - destruct (Nat.ltb i W); [destruct (ffsl _)|]; discriminate.
  - destruct Hok as (_ & -> & _). rewrite N.eqb_refl. discriminate.
  - destruct (Nat.eqb _ _); discriminate.
  - assert (Hmine : holds (ts_own s) (ts_pcs s) (p, false) = Some tid) by (unfold holds; cbn; now rewrite Ep).
    destruct q as [sz|sz child].
    + destruct r; try discriminate.
      assert (Hnoscr : ts_scratch s tid = false).
      { destruct (ts_scratch s tid) eqn:Es; [|reflexivity]. exfalso. destruct (I7 tid Es) as [q' [Hq|Hq]].
        - assert (X : (q', true) = (p, false)) by (eapply (hi_uniq _ _ _ I1); [unfold holds; cbn; eassumption | exact Hmine]).
          discriminate.
        - assert (X : (q', false) = (p, false)) by (eapply (hi_uniq _ _ _ I1); [unfold holds; cbn; rewrite Hq; reflexivity | exact Hmine]).
          injection X as ->. congruence. }
      rewrite Hnoscr. destruct (hi_busy _ _ _ I1 _ _ Hmine) as [Hlt _].
      destruct (Nat.ltb_spec tid (64 * W)); [|lia]. cbn [negb]. destruct (sz && negb mem1); discriminate.
    + destruct r; try discriminate. destruct (sz && negb mem1); [discriminate|]. destruct (_ || _); discriminate.
  - assert (Hmine : holds (ts_own s) (ts_pcs s) (p, false) = Some tid) by (unfold holds; cbn; now rewrite Ep).
    destruct (hi_busy _ _ _ I1 _ _ Hmine) as [Hlt _].
    destruct (Nat.ltb_spec tid (64 * W)); [|lia]. discriminate.
  - destruct (ts_lock s); discriminate.
  - assert (Hmine : holds (ts_own s) (ts_pcs s) (p, false) = Some tid) by (unfold holds; cbn; now rewrite Ep).
    destruct (hi_busy _ _ _ I1 _ _ Hmine) as [_ Hf]. unfold is_free in Hf. rewrite Hf. discriminate.
  - destruct (N.eqb _ _); discriminate.
Qed.

Lemma t_reach_inv : forall W main s, t_reach W main s -> t_inv W s.
Proof.
  induction 1; [apply ts_init_inv|]. eapply t_step_inv; eauto.
Qed.

(** The id lock is held only by a thread inside an allocation or release. *)
Lemma lock_has_owner : forall W main s, t_reach W main s -> ts_lock s = true ->
  exists p, in_crit (ts_pcs s p) = true.
Proof.
  induction 1 as [|s p r s' R IH Hleg Hstep]; [discriminate|].
  pose proof (t_reach_inv _ _ _ R) as I. intros HL.
  assert (Keep : forall c, ts_pcs s' = upd (ts_pcs s) p c -> ts_lock s = true ->
                   (in_crit c = false -> in_crit (ts_pcs s p) = false) -> exists q, in_crit (ts_pcs s' q) = true).
  { intros c E L K. destruct (IH L) as [q Hq]. destruct (Nat.eq_dec q p) as [->|].
    - exists p. rewrite E, upd_same. destruct (in_crit c) eqn:Ec; [reflexivity|]. rewrite K in Hq; [discriminate|reflexivity].
    - exists q. rewrite E, upd_other by assumption. assumption. }
  assert (New : forall c, ts_pcs s' = upd (ts_pcs s) p c -> in_crit c = true -> exists q, in_crit (ts_pcs s' q) = true).
  { intros c E K. exists p. now rewrite E, upd_same. }
  unfold t_step in Hstep.
  destruct (ts_pcs s p) as [|q|q i|q i old pos|q|q tid|q tid|q tid tmp|q tid|tid|tid|tid|tid|tid tmp|] eqn:Ep.
  - destruct r; [| | |injection Hstep as Hs; subst s'; auto].
    + destruct (ts_own s p); [discriminate|]. injection Hstep as Hs; subst s'. eapply Keep; [reflexivity|exact HL|auto].
    + destruct (ts_own s p); [|discriminate]. injection Hstep as Hs; subst s'. eapply Keep; [reflexivity|exact HL|auto].
    + injection Hstep as Hs; subst s'. eapply Keep; [reflexivity|exact HL|auto].
  - destruct (ts_lock s) eqn:L; injection Hstep as Hs; subst s'; [auto|]. eapply New; reflexivity.
  - destruct (Nat.ltb i W); [destruct (ffsl _)|]; injection Hstep as Hs; subst s'; eapply New; reflexivity.
  - destruct (N.eqb _ _); [|discriminate]. injection Hstep as Hs; subst s'. eapply New; reflexivity.
  - injection Hstep as Hs; subst s'; discriminate.
  - injection Hstep as Hs; subst s'; discriminate.
  - injection Hstep as Hs; subst s'. eapply Keep; [reflexivity|exact HL|auto].
  - destruct (Nat.eqb _ _); injection Hstep as Hs; subst s'; (eapply Keep; [reflexivity|exact HL|auto]).
  - destruct q as [sz|sz child].
    + destruct r; try (injection Hstep as Hs; subst s'; now auto).
      destruct (ts_scratch s tid); [discriminate|]. destruct (negb _); [discriminate|].
      destruct (sz && _); injection Hstep as Hs; subst s'; (eapply Keep; [reflexivity|exact HL|auto]).
    + destruct r; try (injection Hstep as Hs; subst s'; now auto).
      destruct (sz && _); [injection Hstep as Hs; subst s'; (eapply Keep; [reflexivity|exact HL|auto])|].
      destruct (negb mem2 || negb thr || ts_live s child) eqn:Ef;
        [injection Hstep as Hs; subst s'; (eapply Keep; [reflexivity|exact HL|auto])|].
      apply orb_false_iff in Ef. destruct Ef as [_ Ef].
      injection Hstep as Hs; subst s'. destruct (IH HL) as [x Hx]. exists x. cbn [ts_pcs].
      rewrite !upd_other; [assumption| |].
      * intros ->. rewrite Ep in Hx. discriminate.
      * intros ->. destruct (ti_live _ _ I child Ef) as [Y _]. rewrite Y in Hx. discriminate.
  - destruct (negb _); [discriminate|]. injection Hstep as Hs; subst s'. eapply Keep; [reflexivity|exact HL|auto].
  - destruct (ts_lock s) eqn:L; injection Hstep as Hs; subst s'; [auto|]. eapply New; reflexivity.
  - destruct (N.testbit _ _); [discriminate|]. injection Hstep as Hs; subst s'; eapply New; reflexivity.
  - injection Hstep as Hs; subst s'; eapply New; reflexivity.
  - destruct (N.eqb _ _); injection Hstep as Hs; subst s'; eapply New; reflexivity.
  - injection Hstep as Hs; subst s'; discriminate.
Qed.
