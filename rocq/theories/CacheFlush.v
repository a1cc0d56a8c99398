(** Every flag has an owner, so a cache that nobody uses holds only pages that can be
    written; clockcache_flush writes them all. *)
From Coq Require Import List Arith Bool Lia.
From Verif Require Import Cache CacheSpec CacheLocal CacheProofs CacheClean CacheMap
  CacheData CacheDataSpec CacheDataProofs.
Import ListNotations.
Local Open Scope nat_scope.

Definition owner (s : state) (e : nat) (f : lpc -> bool) : Prop :=
  exists j t p, nth_error (ags s) j = Some (t, On e p) /\ f p = true.

Record Inv4 (s : state) : Prop := {
  w_wb : forall e, wb (st (ents s e)) = true -> owner s e wbing;
  w_ld : forall e, ld (st (ents s e)) = true -> owner s e loaderb;
  w_wl : forall e, wl (st (ents s e)) = true -> owner s e writesb;
  w_cm : forall e, cm (st (ents s e)) = true -> owner s e claimsb;
  w_no : forall e, da (ents s e) = None -> fr (st (ents s e)) = true \/ owner s e noda
}.

Definition aft_is (f : lpc -> bool) (r : res) : bool :=
  match r with Stay p' => f p' | Leave _ => false end.

Section Access.
Context {t : nat} {en en' : entry} {p : lpc} {c : act} {won : bool} {r : res}.
Hypothesis H : lstep t en p c won = (en', r).

Ltac flg := repeat match goal with X : flags_eqb _ _ = true |- _ => apply flags_eqb_eq in X end.
Ltac acc := revert H; destruct p;
  repeat match goal with k : kind |- _ => destruct k | f : fkind |- _ => destruct f end; cbn [lstep after_read]; intros H'; bust; try discriminate;
  apply res_pair in H' as [HE HR]; subst en' r; flg;
  cbn [w_st w_da w_pin inc_ref dec_ref st da set_ac set_cl set_wb set_ld set_wl set_cm
         st_free st_alloc st_wb1 st_wb2 st_loading wb cl ld wl cm fr aft_is
         wbing loaderb writesb claimsb noda] in *;
  repeat match goal with X : st en = _ |- _ => rewrite X in * end;
  try discriminate; try (left; reflexivity); try (right; split; [assumption|reflexivity]); try congruence; auto.

Lemma own_wb : wb (st en') = true -> aft_is wbing r = true \/ (wb (st en) = true /\ wbing p = false).
Proof. intros F. acc. Qed.
Lemma own_ld : ld (st en') = true -> aft_is loaderb r = true \/ (ld (st en) = true /\ loaderb p = false).
Proof. intros F. acc. Qed.
Lemma own_wl : wl (st en') = true -> aft_is writesb r = true \/ (wl (st en) = true /\ writesb p = false).
Proof. intros F. acc. Qed.
Lemma own_cm : cm (st en') = true -> aft_is claimsb r = true \/ (cm (st en) = true /\ claimsb p = false).
Proof. intros F. acc. Qed.
Lemma own_no : da en' = None ->
  fr (st en') = true \/ aft_is noda r = true \/
  (da en = None /\ (fr (st en) = true -> fr (st en') = true) /\ noda p = false).
Proof.
  intros F. acc; right; right; (split; [assumption|split; [|reflexivity]]); auto;
   intros X; repeat match goal with Y : st en = _ |- _ => rewrite Y in * end; discriminate.
Qed.
End Access.

Lemma Inv4_step s i c s' : Inv4 s -> step s i c = Some s' -> Inv4 s'.
Proof.
  intros W H. destruct (nth_error (ags s) i) as [[t x]|] eqn:Hi.
  2:{ unfold step in H. rewrite Hi in H. discriminate. }
  destruct (step_cases _ _ _ _ _ _ H Hi) as [[O [x' (E & L & A & ST)]]|(e & p & c' & en' & r & -> & -> & LS & ->)].
  - assert (OW : forall e f, owner s e f -> owner s' e f).
    { intros e f (j & tj & p & Y & F). exists j, tj, p. split; [|exact F].
      rewrite A, (nth_put _ _ _ j _ Hi). destruct (j =? i) eqn:J; [|exact Y].
      apply Nat.eqb_eq in J. subst j. rewrite Hi in Y. injection Y as -> ->. destruct O. }
    constructor; rewrite E; intros e F.
    + apply OW, (w_wb _ W), F.
    + apply OW, (w_ld _ W), F.
    + apply OW, (w_wl _ W), F.
    + apply OW, (w_cm _ W), F.
    + destruct (w_no _ W e F); auto.
  - set (s' := St _ _ _ _).
    assert (NP : forall j, nth_error (ags s') j = if j =? i then Some (t, aft e r) else nth_error (ags s) j)
      by (intros j; apply (nth_put _ _ _ j _ Hi)).
    assert (OW : forall e2 f, owner s e2 f -> e2 <> e \/ f p = false -> owner s' e2 f).
    { intros e2 f (j & tj & q & Y & F) N. exists j, tj, q. split; [|exact F]. rewrite NP.
      destruct (j =? i) eqn:J; [|exact Y]. apply Nat.eqb_eq in J. subst j.
      rewrite Hi in Y. injection Y as -> -> ->. destruct N; congruence. }
    assert (ME : forall f, aft_is f r = true -> owner s' e f).
    { intros f F. destruct r as [p'|n]; [|discriminate]. exists i, t, p'. split; [|exact F].
      rewrite NP, Nat.eqb_refl. reflexivity. }
    constructor; intros e2; (destruct (Nat.eq_dec e2 e) as [->|N];
      [unfold s' at 1; cbn [ents]; rewrite upd_same|unfold s' at 1; cbn [ents]; rewrite (upd_other _ _ _ _ N)]); intros F.
    + destruct (own_wb LS F) as [X|[X1 X2]]; [apply ME, X|apply OW; [apply (w_wb _ W), X1|auto]].
    + apply OW; [apply (w_wb _ W), F|auto].
    + destruct (own_ld LS F) as [X|[X1 X2]]; [apply ME, X|apply OW; [apply (w_ld _ W), X1|auto]].
    + apply OW; [apply (w_ld _ W), F|auto].
    + destruct (own_wl LS F) as [X|[X1 X2]]; [apply ME, X|apply OW; [apply (w_wl _ W), X1|auto]].
    + apply OW; [apply (w_wl _ W), F|auto].
    + destruct (own_cm LS F) as [X|[X1 X2]]; [apply ME, X|apply OW; [apply (w_cm _ W), X1|auto]].
    + apply OW; [apply (w_cm _ W), F|auto].
    + cbn [s' ents]. rewrite upd_same. destruct (own_no LS F) as [X|[X|(X1 & X2 & X3)]]; [auto|right; apply ME, X|].
      destruct (w_no _ W e X1) as [Y|Y]; [left; auto|right; apply OW; auto].
    + cbn [s' ents]. rewrite (upd_other _ _ _ _ N). destruct (w_no _ W e2 F) as [Y|Y]; [auto|right; apply OW; auto].
Qed.

Lemma kept_Inv4 ts s : kept ts s -> Inv4 s.
Proof.
  induction 1 as [|s i c s' K IH CR NR H]; [|eapply Inv4_step; eauto].
  constructor; cbn; intros; try discriminate. left. reflexivity.
Qed.

(** ** A cache that nobody uses. *)
Definition resting (s : state) : Prop := forall j t x, nth_error (ags s) j = Some (t, x) -> x = Idle.

Lemma resting_none s e f : resting s -> ~ owner s e f.
Proof. intros R (j & t & p & Y & _). specialize (R _ _ _ Y). discriminate. Qed.

Lemma resting_entry ts s e : kept ts s -> resting s -> fr (st (ents s e)) = false ->
  (exists a, da (ents s e) = Some a /\ lkp s a = Some e) /\
  wb (st (ents s e)) = false /\ ld (st (ents s e)) = false /\ wl (st (ents s e)) = false /\ cm (st (ents s e)) = false.
Proof.
  intros K R F. pose proof (kept_Inv4 _ _ K) as W. pose proof (kept_Inv _ _ K) as I. repeat split.
  - destruct (da (ents s e)) as [a|] eqn:D.
    + exists a. split; [reflexivity|]. destruct (i_map _ I _ _ D) as [M|(j & t & p & Y & _)]; [exact M|].
      specialize (R _ _ _ Y). discriminate.
    + destruct (w_no _ W e D) as [X|X]; [congruence|destruct (resting_none _ _ _ R X)].
  - destruct (wb (st (ents s e))) eqn:X; [|reflexivity]. destruct (resting_none _ _ _ R (w_wb _ W _ X)).
  - destruct (ld (st (ents s e))) eqn:X; [|reflexivity]. destruct (resting_none _ _ _ R (w_ld _ W _ X)).
  - destruct (wl (st (ents s e))) eqn:X; [|reflexivity]. destruct (resting_none _ _ _ R (w_wl _ W _ X)).
  - destruct (cm (st (ents s e))) eqn:X; [|reflexivity]. destruct (resting_none _ _ _ R (w_cm _ W _ X)).
Qed.

(** ** Flushing one entry, stage by stage. *)
Section One.
Context (psz : nat) (ts : list nat) (m0 d0 : nat -> nat -> nat).
Context (dB : dstate) (prB : promise) (i t e : nat).

Record Stage (d : dstate) (pl : apc) (en : entry) (ph : nat) (ad : option nat) : Prop := {
  g_kept : exists pr, dkept psz ts m0 d0 d pr /\ forall a o, pr a o = prB a o;
  g_ags : forall j, nth_error (ags (base d)) j =
            if j =? i then Some (t, pl) else nth_error (ags (base dB)) j;
  g_lkp : lkp (base d) = lkp (base dB);
  g_en  : ents (base d) e = en;
  g_oth : forall e', e' <> e -> ents (base d) e' = ents (base dB) e';
  g_ph  : x_ph (exts d i) = ph;
  g_ad  : x_addr (exts d i) = ad
}.

Lemma g_me d pl en ph ad : Stage d pl en ph ad -> nth_error (ags (base d)) i = Some (t, pl).
Proof. intros G. rewrite (g_ags _ _ _ _ _ G), Nat.eqb_refl. reflexivity. Qed.

(** Taking a step that the rules allow. *)
Lemma g_take d pr c d' pl : dkept psz ts m0 d0 d pr -> (forall a o, pr a o = prB a o) ->
  nth_error (ags (base d)) i = Some (t, pl) ->
  rules d i c -> unlock_rule d i c -> no_reuse d i -> dstep psz d i c = Some d' ->
  (forall o v, c <> Put o v) -> (forall a, discarding a pl || allocating a pl = false) ->
  exists pr', dkept psz ts m0 d0 d' pr' /\ forall a o, pr' a o = prB a o.
Proof.
  intros K E Hi RL UR NU ST NP D. exists (promised d i c pr). split; [eapply dk_step; eauto|].
  intros a o. rewrite <- E. eapply pr_same; eauto.
Qed.

Lemma g_start d en ph ad : Stage d Idle en ph ad ->
  exists d', dstep psz d i (Base (SWb e true)) = Some d' /\ Stage d' (On e (W0 true)) en 0 None.
Proof.
  intros G. pose proof (g_me _ _ _ _ _ G) as Hi. destruct (g_kept _ _ _ _ _ G) as (pr & K & E).
  assert (ST : exists d', dstep psz d i (Base (SWb e true)) = Some d').
  { unfold dstep. rewrite Hi. cbn [io_over]. unfold step. rewrite Hi. eauto. }
  destruct ST as [d' ST]. exists d'. split; [exact ST|].
  assert (K' : exists pr', dkept psz ts m0 d0 d' pr' /\ forall a o, pr' a o = prB a o).
  { eapply g_take; eauto; try discriminate; try reflexivity.
    - cbn. split; [exact Logic.I|]. unfold no_race. rewrite Hi. exact Logic.I.
    - unfold unlock_rule; try rewrite Hi; exact Logic.I.
    - unfold no_reuse; try rewrite Hi; exact Logic.I. }
  unfold dstep in ST. rewrite Hi in ST. cbn [io_over] in ST. unfold step in ST. rewrite Hi in ST. injection ST as <-.
  constructor; cbn [base exts move ags lkp ents]; auto.
  - intros j. rewrite (nth_put _ _ _ j _ Hi), (g_ags _ _ _ _ _ G). destruct (j =? i); reflexivity.
  - apply (g_lkp _ _ _ _ _ G).
  - apply (g_en _ _ _ _ _ G).
  - apply (g_oth _ _ _ _ _ G).
  - rewrite upd_same. reflexivity.
  - rewrite upd_same. reflexivity.
Qed.

(** One access on the entry that moves between writeback's places. *)
Lemma g_go d p en ph ad en' r : Stage d (On e p) en ph ad ->
  (exists u, p = W0 u) \/ p = W0b \/ p = W1 \/ p = W2 -> lstep t en p A0 false = (en', r) ->
  (p = W1 -> ph = 2 /\ moved psz (exts d i) = true) ->
  ph = 0 \/ p = W1 \/ p = W2 ->
  exists d', dstep psz d i (Base (Go A0)) = Some d' /\ Stage d' (aft e r) en' ph ad.
Proof.
  intros G P LS IO PH. pose proof (g_me _ _ _ _ _ G) as Hi. destruct (g_kept _ _ _ _ _ G) as (pr & K & E).
  assert (WN : wins p (lkp (base d)) = false) by (destruct P as [[u ->]|[->|[->| ->]]]; reflexivity).
  assert (LE : leff e p false (lkp (base d)) = lkp (base d)) by (destruct P as [[u ->]|[->|[->| ->]]]; reflexivity).
  assert (IO' : io_over psz (exts d i) (On e p) = true).
  { destruct P as [[u ->]|[->|[->| ->]]]; try reflexivity. cbn [io_over].
    destruct (IO eq_refl) as [-> M]. rewrite (g_ph _ _ _ _ _ G), M. reflexivity. }
  assert (ST : dstep psz d i (Base (Go A0)) =
    Some (DSt (St (upd (ents (base d)) e en') (lkp (base d)) (busy (base d)) (put (ags (base d)) i (t, aft e r)))
              (mem d) (disk d) (upd (exts d) i (next_ext (base d) (On e p) (Go A0) (exts d i))))).
  { unfold dstep. rewrite Hi, IO'. unfold step. rewrite Hi, WN, (g_en _ _ _ _ _ G), LS, LE. reflexivity. }
  eexists. split; [exact ST|].
  assert (K' : exists pr', dkept psz ts m0 d0 (DSt (St (upd (ents (base d)) e en') (lkp (base d)) (busy (base d)) (put (ags (base d)) i (t, aft e r)))
              (mem d) (disk d) (upd (exts d) i (next_ext (base d) (On e p) (Go A0) (exts d i)))) pr' /\ forall a o, pr' a o = prB a o).
  { eapply g_take; eauto; try discriminate.
    - cbn. split; [exact Logic.I|]. unfold no_race. rewrite Hi. destruct P as [[u ->]|[->|[->| ->]]]; exact Logic.I.
    - unfold unlock_rule. rewrite Hi. destruct P as [[u ->]|[->|[->| ->]]]; exact Logic.I.
    - unfold no_reuse. rewrite Hi. pose proof (g_ph _ _ _ _ _ G) as GP.
      destruct P as [[u ->]|[->|[->| ->]]]; try exact Logic.I; intros _; left; destruct PH as [PH|[PH|PH]]; congruence.
    - intros a. destruct P as [[u ->]|[->|[->| ->]]]; reflexivity. }
  destruct (next_ext_ph (base d) (On e p) (Go A0) (exts d i) e p eq_refl) as (X1 & X2 & _).
  constructor; cbn [base exts ags lkp ents]; auto.
  - intros j. rewrite (nth_put _ _ _ j _ Hi), (g_ags _ _ _ _ _ G). destruct (j =? i); reflexivity.
  - apply (g_lkp _ _ _ _ _ G).
  - apply upd_same.
  - intros e' N. rewrite (upd_other _ _ _ _ N). apply (g_oth _ _ _ _ _ G). exact N.
  - rewrite upd_same, X1. apply (g_ph _ _ _ _ _ G).
  - rewrite upd_same, X2. apply (g_ad _ _ _ _ _ G).
Qed.

Lemma g_prep1 d en ad : Stage d (On e W1) en 0 ad ->
  exists d', dstep psz d i Prep = Some d' /\ Stage d' (On e W1) en 1 (da en).
Proof.
  intros G. pose proof (g_me _ _ _ _ _ G) as Hi. destruct (g_kept _ _ _ _ _ G) as (pr & K & E).
  assert (ST : dstep psz d i Prep = Some (DSt (base d) (mem d) (disk d)
     (upd (exts d) i (Ext 1 (da (ents (base d) e)) nothing (x_wrote (exts d i)) (x_marked (exts d i))))))
    by (unfold dstep; rewrite Hi, (g_ph _ _ _ _ _ G); reflexivity).
  eexists. split; [exact ST|].
  constructor; cbn [base exts].
  - eapply (g_take d pr Prep); eauto; try discriminate; try reflexivity.
    + unfold unlock_rule; try rewrite Hi; exact Logic.I.
    + unfold no_reuse; try rewrite Hi; exact Logic.I.
  - apply (g_ags _ _ _ _ _ G).
  - apply (g_lkp _ _ _ _ _ G).
  - apply (g_en _ _ _ _ _ G).
  - apply (g_oth _ _ _ _ _ G).
  - rewrite upd_same. reflexivity.
  - rewrite upd_same. cbn. rewrite (g_en _ _ _ _ _ G). reflexivity.
Qed.

Lemma g_prep2 d en a : Stage d (On e W1) en 1 (Some a) -> lkp (base dB) a = Some e ->
  exists d', dstep psz d i Prep = Some d' /\ Stage d' (On e W1) en 2 (Some a) /\ x_done (exts d' i) = nothing.
Proof.
  intros G L. pose proof (g_me _ _ _ _ _ G) as Hi. destruct (g_kept _ _ _ _ _ G) as (pr & K & E).
  assert (ST : dstep psz d i Prep = Some (DSt (base d) (mem d) (disk d)
     (upd (exts d) i (Ext 2 (Some a) nothing (x_wrote (exts d i)) (x_marked (exts d i)))))).
  { unfold dstep. rewrite Hi, (g_ph _ _ _ _ _ G), (g_ad _ _ _ _ _ G), (g_lkp _ _ _ _ _ G), L, (move_same _ _ _ _ Hi). reflexivity. }
  eexists. split; [exact ST|]. split; [|cbn [exts]; rewrite upd_same; reflexivity].
  constructor; cbn [base exts].
  - eapply g_take; eauto; try discriminate; try reflexivity.
    + unfold unlock_rule; try rewrite Hi; exact Logic.I.
    + unfold no_reuse; try rewrite Hi; exact Logic.I.
  - apply (g_ags _ _ _ _ _ G).
  - apply (g_lkp _ _ _ _ _ G).
  - apply (g_en _ _ _ _ _ G).
  - apply (g_oth _ _ _ _ _ G).
  - rewrite upd_same. reflexivity.
  - rewrite upd_same. reflexivity.
Qed.

Lemma g_xfer l : forall d en a, Stage d (On e W1) en 2 (Some a) -> (forall o, In o l -> o < psz) ->
  exists d', dsteps psz d i (map Xfer l) = Some d' /\ Stage d' (On e W1) en 2 (Some a) /\
    forall o, In o l \/ x_done (exts d i) o = true -> x_done (exts d' i) o = true.
Proof.
  induction l as [|o l IH]; intros d en a G B; cbn [map dsteps].
  { exists d. split; [reflexivity|split; [exact G|]]. intros o [[]|X]; exact X. }
  pose proof (g_me _ _ _ _ _ G) as Hi. destruct (g_kept _ _ _ _ _ G) as (pr & K & E).
  assert (ST : dstep psz d i (Xfer o) = Some (DSt (base d) (mem d) (set1 (disk d) a o (mem d e o)) (upd (exts d) i (did o (exts d i))))).
  { unfold dstep. rewrite Hi, (proj2 (Nat.ltb_lt _ _) (B o (or_introl eq_refl))), (g_ph _ _ _ _ _ G), (g_ad _ _ _ _ _ G). reflexivity. }
  rewrite ST.
  destruct (IH (DSt (base d) (mem d) (set1 (disk d) a o (mem d e o)) (upd (exts d) i (did o (exts d i)))) en a) as (d' & S' & G' & D').
  - constructor; cbn [base exts].
    + eapply g_take; eauto; try discriminate; try reflexivity.
      * unfold unlock_rule; try rewrite Hi; exact Logic.I.
      * unfold no_reuse; try rewrite Hi; exact Logic.I.
    + apply (g_ags _ _ _ _ _ G).
    + apply (g_lkp _ _ _ _ _ G).
    + apply (g_en _ _ _ _ _ G).
    + apply (g_oth _ _ _ _ _ G).
    + rewrite upd_same. apply (g_ph _ _ _ _ _ G).
    + rewrite upd_same. apply (g_ad _ _ _ _ _ G).
  - intros o' X. apply B. right. exact X.
  - exists d'. split; [exact S'|split; [exact G'|]]. intros o' X. apply D'. cbn [exts]. rewrite upd_same.
    cbn [did x_done]. unfold upd. destruct X as [[->|X]|X].
    + right. rewrite Nat.eqb_refl. reflexivity.
    + left. exact X.
    + right. rewrite X. destruct (o' =? o); reflexivity.
Qed.

Lemma dsteps_app l1 l2 d d' : dsteps psz d i l1 = Some d' ->
  dsteps psz d i (l1 ++ l2) = dsteps psz d' i l2.
Proof.
  revert d. induction l1 as [|c l1 IH]; intros d; cbn; [congruence|].
  destruct (dstep psz d i c); [apply IH|discriminate].
Qed.

(** The I/O, from the moment the writeback flag is set. *)
Lemma g_io d en a : Stage d (On e W1) en 0 None -> da en = Some a -> lkp (base dB) a = Some e ->
  exists d', dsteps psz d i ([Prep; Prep] ++ map Xfer (seq 0 psz) ++ [Base (Go A0); Base (Go A0)]) = Some d' /\
    Stage d' Idle (w_st (set_wb false (set_cl true (st en))) (w_st (set_cl true (st en)) en)) 2 (Some a).
Proof.
  intros G D L. destruct (g_prep1 _ _ _ G) as (d1 & S1 & G1). rewrite D in G1.
  destruct (g_prep2 _ _ _ G1 L) as (d2 & S2 & G2 & _).
  destruct (g_xfer (seq 0 psz) d2 en a G2) as (d3 & S3 & G3 & D3).
  { intros o X. apply in_seq in X. lia. }
  destruct (g_go d3 W1 en 2 (Some a) (w_st (set_cl true (st en)) en) (Stay W2) G3) as (d4 & S4 & G4); auto.
  { intros _. split; [reflexivity|]. apply forallb_forall. intros o X. apply D3. left. exact X. }
  destruct (g_go d4 W2 (w_st (set_cl true (st en)) en) 2 (Some a)
    (w_st (set_wb false (set_cl true (st en))) (w_st (set_cl true (st en)) en)) (Leave NIdle) G4) as (d5 & S5 & G5); auto.
  { discriminate. }
  exists d5. split; [|exact G5].
  cbn [app dsteps]. rewrite S1, S2. rewrite (dsteps_app _ _ _ _ S3). cbn [dsteps]. rewrite S4, S5. reflexivity.
Qed.
End One.

Lemma dkept_kept psz ts m0 d0 d pr : dkept psz ts m0 d0 d pr -> kept ts (base d).
Proof. intros K. apply (dkept_J _ _ _ _ _ _ K). Qed.

Definition washed (s : flags) : bool := fr s || cl s.

Lemma flush_one_ok psz ts m0 d0 d pr i t e :
  dkept psz ts m0 d0 d pr -> resting (base d) -> nth_error (ags (base d)) i = Some (t, Idle) ->
  exists d' pr', dsteps psz d i (flush_one psz e d) = Some d' /\ dkept psz ts m0 d0 d' pr' /\
    (forall a o, pr' a o = pr a o) /\ resting (base d') /\ nth_error (ags (base d')) i = Some (t, Idle) /\
    lkp (base d') = lkp (base d) /\ washed (st (ents (base d') e)) = true /\
    (forall e', e' <> e -> ents (base d') e' = ents (base d) e').
Proof.
  intros K R Hi.
  assert (G : Stage psz ts m0 d0 d pr i t e d Idle (ents (base d) e) (x_ph (exts d i)) (x_addr (exts d i))).
  { constructor; auto; [exists pr; auto|]. intros j. destruct (j =? i) eqn:J; [|reflexivity].
    apply Nat.eqb_eq in J. congruence. }
  assert (FIN : forall d' en ph ad, Stage psz ts m0 d0 d pr i t e d' Idle en ph ad -> washed (st en) = true ->
    exists pr', dkept psz ts m0 d0 d' pr' /\
    (forall a o, pr' a o = pr a o) /\ resting (base d') /\ nth_error (ags (base d')) i = Some (t, Idle) /\
    lkp (base d') = lkp (base d) /\ washed (st (ents (base d') e)) = true /\
    (forall e', e' <> e -> ents (base d') e' = ents (base d) e')).
  { intros d' en ph ad G' W. destruct (g_kept _ _ _ _ _ _ _ _ _ _ _ _ _ _ G') as (pr' & K' & E').
    exists pr'. repeat split; auto.
    - intros j tj x X. rewrite (g_ags _ _ _ _ _ _ _ _ _ _ _ _ _ _ G') in X. destruct (j =? i); [congruence|exact (R _ _ _ X)].
    - eapply g_me; eauto.
    - apply (g_lkp _ _ _ _ _ _ _ _ _ _ _ _ _ _ G').
    - rewrite (g_en _ _ _ _ _ _ _ _ _ _ _ _ _ _ G'). exact W.
    - apply (g_oth _ _ _ _ _ _ _ _ _ _ _ _ _ _ G'). }
  destruct (g_start _ _ _ _ _ _ _ _ _ _ _ _ _ G) as (d1 & S1 & G1).
  unfold flush_one. set (en := ents (base d) e) in *.
  destruct (flags_eqb (st en) st_clean1) eqn:C1.
  - apply flags_eqb_eq in C1.
    destruct (resting_entry ts (base d) e (dkept_kept _ _ _ _ _ _ K) R) as ((a & D & L) & _); [fold en; rewrite C1; reflexivity|].
    destruct (g_go _ _ _ _ _ _ _ _ _ d1 (W0 true) en 0 None (w_st st_wb1 en) (Stay W1) G1) as (d2 & S2 & G2); eauto; [|discriminate|].
    { cbn [lstep]. rewrite C1. reflexivity. }
    destruct (g_io _ _ _ _ _ _ _ _ _ d2 _ a G2 D L) as (d3 & S3 & G3).
    destruct (FIN _ _ _ _ G3) as (pr' & F); [reflexivity|]. exists d3, pr'. split; [|exact F].
    cbn [app dsteps]. rewrite S1, S2. exact S3.
  - assert (NX : lstep t en (W0 true) A0 false = (en, Stay W0b)) by (cbn [lstep]; rewrite C1; reflexivity).
    destruct (g_go _ _ _ _ _ _ _ _ _ d1 (W0 true) en 0 None en (Stay W0b) G1) as (d2 & S2 & G2); eauto; [discriminate|].
    cbn [aft] in G2. destruct (flags_eqb (st en) st_clean2) eqn:C2.
    + apply flags_eqb_eq in C2.
      destruct (resting_entry ts (base d) e (dkept_kept _ _ _ _ _ _ K) R) as ((a & D & L) & _); [fold en; rewrite C2; reflexivity|].
      destruct (g_go _ _ _ _ _ _ _ _ _ d2 W0b en 0 None (w_st st_wb2 en) (Stay W1) G2) as (d3 & S3 & G3); eauto; [|discriminate|].
      { cbn [lstep]. rewrite C2. reflexivity. }
      destruct (g_io _ _ _ _ _ _ _ _ _ d3 _ a G3 D L) as (d4 & S4 & G4).
      destruct (FIN _ _ _ _ G4) as (pr' & F); [reflexivity|]. exists d4, pr'. split; [|exact F].
      cbn [app dsteps]. rewrite S1, S2, S3. exact S4.
    + assert (NY : lstep t en W0b A0 false = (en, Leave NIdle)) by (cbn [lstep]; rewrite C2; reflexivity).
      destruct (g_go _ _ _ _ _ _ _ _ _ d2 W0b en 0 None en (Leave NIdle) G2) as (d3 & S3 & G3); eauto; [discriminate|].
      destruct (FIN _ _ _ _ G3) as (pr' & F).
      { unfold washed. destruct (fr (st en)) eqn:FR; [reflexivity|]. cbn [orb].
        destruct (resting_entry ts (base d) e (dkept_kept _ _ _ _ _ _ K) R FR) as (_ & X1 & X2 & X3 & X4). fold en in X1, X2, X3, X4.
        destruct (st en) as [f1 f2 f3 f4 f5 f6 f7]; cbn in *. subst.
        destruct f3; [reflexivity|]. destruct f2; discriminate. }
      exists d3, pr'. split; [|exact F]. cbn [app dsteps]. rewrite S1, S2, S3. reflexivity.
Qed.

Lemma flush_ok psz ts m0 d0 i t es : forall d pr,
  dkept psz ts m0 d0 d pr -> resting (base d) -> nth_error (ags (base d)) i = Some (t, Idle) ->
  exists d' pr', flush psz i es d = Some d' /\ dkept psz ts m0 d0 d' pr' /\
    (forall a o, pr' a o = pr a o) /\ resting (base d') /\
    lkp (base d') = lkp (base d) /\
    (forall e, In e es -> washed (st (ents (base d') e)) = true) /\
    (forall e, ~ In e es -> ents (base d') e = ents (base d) e).
Proof.
  induction es as [|e es IH]; intros d pr K R Hi; cbn [flush].
  { exists d, pr. repeat split; auto. }
  destruct (flush_one_ok _ _ _ _ _ _ _ _ e K R Hi) as (d1 & pr1 & S1 & K1 & E1 & R1 & H1 & L1 & W1 & O1).
  rewrite S1. destruct (IH _ _ K1 R1 H1) as (d2 & pr2 & S2 & K2 & E2 & R2 & L2 & W2 & O2).
  exists d2, pr2. repeat split; auto.
  - intros a o. rewrite E2. apply E1.
  - congruence.
  - intros e' X. destruct (in_dec Nat.eq_dec e' es) as [Y|N]; [apply W2; exact Y|].
    rewrite (O2 _ N). destruct X as [->|X]; [exact W1|contradiction].
  - intros e' N. rewrite O2, O1; auto; [intros ->; apply N; left; reflexivity|intros X; apply N; right; exact X].
Qed.
