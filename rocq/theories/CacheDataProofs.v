(** The contents of the pages: the invariant that ties buffers and device to what
    was promised, kept by every step. *)
From Coq Require Import List Arith Bool Lia.
From Verif Require Import Cache CacheSpec CacheLocal CacheProofs CacheClean CacheMap
  CacheData CacheDataSpec.
Import ListNotations.
Local Open Scope nat_scope.

(** The agent reads the page from the device. *)
Definition reading (a : nat) (p : lpc) : Prop := p = LRead a \/ p = LIo a \/ p = PIo a.

(** No agent has written to the page in entry [e] without marking it. *)
Definition nodebt (d : dstate) (e : nat) : Prop :=
  forall j t b, nth_error (ags (base d)) j = Some (t, On e (Locked b)) ->
    x_wrote (exts d j) = true -> x_marked (exts d j) = true.

Definition lde (d : dstate) (e : nat) := ld (st (ents (base d) e)).
Definition cle (d : dstate) (e : nat) := cl (st (ents (base d) e)).

(** The agent has made the page dirty and still has the write lock. *)
Definition soiled (x : ext) (p : lpc) : Prop :=
  match p with Locked _ => x_marked x = true | AAddr _ | AMap _ => True | _ => False end.

Record J (psz : nat) (d : dstate) (pr : promise) : Prop := {
  j_mem : forall a e o v, o < psz -> lkp (base d) a = Some e -> lde d e = false ->
    pr a o = Some v -> mem d e o = v;
  j_disk : forall a o v, o < psz -> pr a o = Some v ->
    (forall e, lkp (base d) a = Some e -> lde d e = true \/ (cle d e = true /\ nodebt d e)) ->
    disk d a o = v;
  j_mark : forall j t e p, nth_error (ags (base d)) j = Some (t, On e p) ->
    soiled (exts d j) p -> cle d e = false;
  j_none : forall j t e p a, nth_error (ags (base d)) j = Some (t, On e p) ->
    p = AMap a \/ p = DDa a -> lkp (base d) a = None /\ forall o, pr a o = None;
  j_wr : forall j t e p, nth_error (ags (base d)) j = Some (t, On e p) -> wbing p = true ->
    lde d e = false /\ (x_ph (exts d j) <> 0 -> x_addr (exts d j) = da (ents (base d) e));
  j_sent : forall j t e a o, nth_error (ags (base d)) j = Some (t, On e W1) ->
    x_ph (exts d j) = 2 -> x_addr (exts d j) = Some a -> x_done (exts d j) o = true ->
    disk d a o = mem d e o;
  j_got : forall j t e p a o, nth_error (ags (base d)) j = Some (t, On e p) -> reading a p ->
    x_done (exts d j) o = true -> mem d e o = disk d a o
}.

(** ** Small facts. *)
Lemma put_same {A} (l : list A) : forall i x, nth_error l i = Some x -> put l i x = l.
Proof.
  induction l as [|y l IH]; intros [|i] x H; cbn in *; try discriminate; [congruence|].
  rewrite (IH _ _ H). reflexivity.
Qed.

Lemma upd_same {A} (f : nat -> A) k v : upd f k v k = v.
Proof. unfold upd. rewrite Nat.eqb_refl. reflexivity. Qed.
Lemma upd_other {A} (f : nat -> A) k v j : j <> k -> upd f k v j = f j.
Proof. unfold upd. intros N. apply Nat.eqb_neq in N. rewrite N. reflexivity. Qed.

Lemma set1_same m k o v : set1 m k o v k o = v.
Proof. unfold set1. rewrite !Nat.eqb_refl. reflexivity. Qed.
Lemma set1_key m k o v k' o' : k' <> k -> set1 m k o v k' o' = m k' o'.
Proof. unfold set1. intros N. apply Nat.eqb_neq in N. rewrite N. reflexivity. Qed.
Lemma set1_word m k o v k' o' : o' <> o -> set1 m k o v k' o' = m k' o'.
Proof. unfold set1. intros N. apply Nat.eqb_neq in N. rewrite N, andb_false_r. reflexivity. Qed.

Lemma unset_nowb a p : unset a p = true -> nowb p = true.
Proof. destruct p; cbn; intros H; try discriminate; reflexivity. Qed.

(** An entry in writeback is in the lookup table. *)
Lemma wr_map s j t e p a : Inv s -> Inv2 s ->
  nth_error (ags s) j = Some (t, On e p) -> wbing p = true -> da (ents s e) = Some a ->
  lkp s a = Some e.
Proof.
  intros I I2 H W D. destruct (i_map _ I _ _ D) as [M|(i & ti & q & Q & U)]; [exact M|].
  pose proof (k_wb _ I2 _ _ _ _ H W). pose proof (k_nowb _ I2 _ _ _ _ Q (unset_nowb _ _ U)). congruence.
Qed.

(** A slot names an entry with the address unless the entry is being loaded. *)
Lemma slot_da s a e : Inv s -> Inv3 s -> lkp s a = Some e -> ld (st (ents s e)) = false ->
  da (ents s e) = Some a.
Proof.
  intros I I3 L D. destruct (m_found _ I3 _ _ L) as [X|(i & t & f & X)]; [exact X|].
  pose proof (o_load _ _ (i_ok1 _ I _ _ _ _ X) eq_refl). congruence.
Qed.

(** While an agent loads page [a] into [e], whatever slot names [e] is that of [a]. *)
Lemma slot_loader s i t e p a b : Inv s -> Inv3 s -> nth_error (ags s) i = Some (t, On e p) ->
  loaderb p = true -> verif p = Some b -> lkp s a = Some e -> a = b.
Proof.
  intros I I3 H LD V L. destruct (o_ver _ _ (i_ok1 _ I _ _ _ _ H) _ V) as [D _].
  destruct (m_found _ I3 _ _ L) as [X|(j & tj & f & X)]; [congruence|].
  destruct (Nat.eq_dec i j) as [->|N].
  - rewrite H in X. injection X as -> ->. discriminate.
  - pose proof (q_load _ _ _ _ (i_ok2 _ I i j _ _ _ _ _ N H X) LD). discriminate.
Qed.

(** An entry without an address that somebody owns is in no slot. *)
Lemma slot_noda s i t e p a : Inv s -> Inv3 s -> nth_error (ags s) i = Some (t, On e p) ->
  noda p = true -> lkp s a = Some e -> exists f b, p = LAddr f b.
Proof.
  intros I I3 H ND L. destruct (o_noda _ _ (i_ok1 _ I _ _ _ _ H) ND) as [D _].
  destruct (m_found _ I3 _ _ L) as [X|(j & tj & f & X)]; [congruence|].
  destruct (Nat.eq_dec i j) as [->|N].
  - rewrite H in X. injection X as -> ->. eauto.
  - exfalso. pose proof (i_ok2 _ I i j _ _ _ _ _ N H X) as O2.
    pose proof (i_ok2 _ I j i _ _ _ _ _ (not_eq_sym N) X H) as O3.
    pose proof (o_load _ _ (i_ok1 _ I _ _ _ _ X) eq_refl) as LD.
    pose proof (q_load _ _ _ _ O3 eq_refl) as L3.
    pose proof (o_held _ _ (i_ok1 _ I _ _ _ _ H)) as HD.
    destruct p; cbn in *; try discriminate; specialize (HD eq_refl); congruence.
Qed.

(** ** The steps of [Cache]. *)
Definition off_step (s s' : state) (i t : nat) (x' : apc) : Prop :=
  ents s' = ents s /\ lkp s' = lkp s /\ ags s' = put (ags s) i (t, x') /\
  forall e p, x' = On e p -> start p = true.

Lemma step_cases s i c s' t x : step s i c = Some s' -> nth_error (ags s) i = Some (t, x) ->
  (offp x /\ exists x', off_step s s' i t x') \/
  (exists e p c' en' r, x = On e p /\ c = Go c' /\
     lstep t (ents s e) p c' (wins p (lkp s)) = (en', r) /\
     s' = St (upd (ents s) e en') (leff e p (wins p (lkp s)) (lkp s)) (busy s)
             (put (ags s) i (t, aft e r))).
Proof.
  intros H Hi. unfold step in H. rewrite Hi in H.
  assert (MV : forall x', (forall e p, x' = On e p -> start p = true) ->
    exists x'', off_step s (move s i t x') i t x'').
  { intros x' ST. exists x'. repeat split; auto. }
  destruct x as [|k|f|e p].
  - left. split; [exact Logic.I|].
    assert (BS : forall b v, exists x'', off_step s (St (ents s) (lkp s) (upd (busy s) b v) (ags s)) i t x'').
    { intros b v. exists Idle. repeat split; auto; [cbn; symmetry; apply put_same; exact Hi|discriminate]. }
    destruct c; try discriminate; bust;
      repeat match goal with X : context [match ?o with Some _ => _ | None => _ end] |- _ => destruct o end; bust;
      try discriminate; injection H as <-; auto; apply MV; intros ? ? E; try discriminate E;
      injection E as <- <-; reflexivity.
  - left. split; [exact Logic.I|]. destruct (target k); [|discriminate]. destruct (lkp s n).
    + injection H as <-. apply MV. intros ? ? E. injection E as <- <-. reflexivity.
    + destruct k; injection H as <-; apply MV; discriminate.
  - left. split; [exact Logic.I|]. destruct c; try discriminate. destruct (busy s (batch e)); [|discriminate].
    destruct ((n =? t) && others_free t i (ags s)); [|discriminate].
    injection H as <-. apply MV. intros ? ? E. injection E as <- <-. reflexivity.
  - right. destruct c; try discriminate.
    destruct (lstep t (ents s e) p c (wins p (lkp s))) as [en' r] eqn:LS.
    injection H as <-. exists e, p, c, en', r. auto.
Qed.

Lemma pr_base d i c pr t x a o v : nth_error (ags (base d)) i = Some (t, x) ->
  promised d i (Base c) pr a o = Some v ->
  pr a o = Some v /\ discarding a x = false /\ allocating a x = false.
Proof.
  intros H. unfold promised. rewrite H.
  destruct (discarding a x || allocating a x) eqn:E; [discriminate|].
  apply orb_false_iff in E as [E1 E2]. auto.
Qed.
Lemma pr_base_none d i c pr t x a o : nth_error (ags (base d)) i = Some (t, x) ->
  pr a o = None -> promised d i (Base c) pr a o = None.
Proof.
  intros H P. unfold promised. rewrite H.
  destruct (discarding a x || allocating a x); [reflexivity|exact P].
Qed.
Lemma pr_base_gone d i c pr t x a o : nth_error (ags (base d)) i = Some (t, x) ->
  discarding a x = true \/ allocating a x = true -> promised d i (Base c) pr a o = None.
Proof.
  intros H P. unfold promised. rewrite H.
  destruct P as [-> | ->]; rewrite ?orb_true_r; reflexivity.
Qed.

(** ** What one access does to an entry. *)
Section Access.
Context {t : nat} {en en' : entry} {p : lpc} {c : act} {won : bool} {r : res}.
Hypothesis H : lstep t en p c won = (en', r).

Ltac flg := repeat match goal with X : flags_eqb _ _ = true |- _ => apply flags_eqb_eq in X end.
Ltac acc := revert H; destruct p; cbn [lstep]; intros H'; bust; try discriminate;
  apply res_pair in H' as [HE HR]; subst en' r; flg;
  cbn [w_st w_da w_pin inc_ref dec_ref st da set_ac set_cl set_wb set_ld set_wl set_cm
         st_free st_alloc st_wb1 st_wb2 st_loading wb cl ld] in *.

Lemma acc_loaded : (heldty p = true -> ld (st en) = false) ->
  ld (st en) = true -> ld (st en') = false ->
  (exists b, reading b p) \/ (noda p = true /\ forall f b, p <> LAddr f b).
Proof.
  intros HD L L'. unfold reading.
  acc; try congruence; eauto 6; try (right; split; [reflexivity|discriminate]);
    try (specialize (HD eq_refl); congruence);
    repeat match goal with X : st en = _ |- _ => rewrite X in * end; discriminate.
Qed.
Lemma acc_loading : ld (st en) = false -> ld (st en') = true -> exists f, p = FSet f.
Proof. intros L L'. acc; try congruence; eauto. Qed.
Lemma acc_clean : cl (st en) = false -> cl (st en') = true -> p = W1 \/ exists f, p = FSet f.
Proof. intros L L'. acc; try congruence; eauto. Qed.
Lemma acc_da : da en' <> da en -> nowb p = true.
Proof. intros D. acc; try congruence; reflexivity. Qed.
Lemma acc_wr p' : r = Stay p' -> wbing p' = true ->
  (wbing p = true /\ ld (st en') = ld (st en) /\ da en' = da en) \/
  (ld (st en') = false /\ da en' = da en /\
   (((exists u, p = W0 u) \/ p = S0) /\ flags_eqb (st en) st_clean1 = true \/
    (p = W0b \/ p = S0b) /\ flags_eqb (st en) st_clean2 = true)).
Proof.
  intros E W. revert H. rewrite E.
  destruct p; cbn [lstep]; intros H'; bust; try discriminate; apply res_pair in H' as [HE HR];
    try discriminate HR; injection HR as <-; try discriminate W; subst en'; try (left; repeat split; reflexivity);
    right; (split; [reflexivity|split; [reflexivity|]]);
    try (left; split; [left; eexists; reflexivity|assumption]);
    try (left; split; [right; reflexivity|assumption]);
    right; split; auto.
Qed.
Lemma acc_locked p' a : r = Stay p' -> p' = Locked a ->
  p = AMap a /\ en' = en \/ (exists n, p = CScan n a) \/
  p = Locked a /\ (c = A1 /\ cl (st en') = false \/ c <> A1 /\ cl (st en') = cl (st en)).
Proof.
  intros E ->. revert H. rewrite E.
  destruct p; cbn [lstep]; intros H'; bust; try discriminate; apply res_pair in H' as [HE HR];
    try discriminate HR; try (injection HR as <-); subst en'; cbn; eauto 10.
  right. right. split; [reflexivity|]. right. split; [discriminate|reflexivity].
Qed.
Lemma acc_alloc p' a : r = Stay p' -> p' = AAddr a \/ p' = AMap a ->
  cl (st en') = false \/ p = AAddr a /\ cl (st en') = cl (st en).
Proof.
  intros E X. revert H. rewrite E.
  destruct p; cbn [lstep]; intros H'; bust; try discriminate; apply res_pair in H' as [HE HR];
    try discriminate HR; try (injection HR as <-); subst en'; destruct X as [X|X]; try discriminate X; cbn; auto.
  injection X as ->. auto.
Qed.
Lemma acc_amap p' a : r = Stay p' -> p' = AMap a -> p = AAddr a.
Proof.
  intros E ->. revert H. rewrite E.
  destruct p; cbn [lstep]; intros H'; bust; try discriminate; apply res_pair in H' as [HE HR];
    try discriminate HR; try (injection HR as <-); auto.
  all: try (destruct k; discriminate HR).
Qed.
Lemma acc_dda p' a : r = Stay p' -> p' = DDa a -> p = DMap a.
Proof.
  intros E ->. revert H. rewrite E.
  destruct p; cbn [lstep]; intros H'; bust; try discriminate; apply res_pair in H' as [HE HR];
    try discriminate HR; try (injection HR as <-); auto.
  all: try (destruct k; discriminate HR).
Qed.
End Access.

Lemma wbing_cases p : wbing p = true -> p = W1 \/ p = W2.
Proof. destruct p; cbn; auto; discriminate. Qed.
Lemma next_ext_ph s x c y e p : x = On e p ->
  x_ph (next_ext s x c y) = x_ph y /\ x_addr (next_ext s x c y) = x_addr y /\
  x_done (next_ext s x c y) = nothing.
Proof.
  intros ->. unfold next_ext. destruct p; auto; destruct c; auto. destruct c; auto.
Qed.
Lemma reading_facts a p : reading a p -> loaderb p = true /\ verif p = Some a /\ unset a p = false.
Proof. intros [->|[-> | ->]]; repeat split. Qed.
Lemma slot_reading s j t e p a : Inv s -> nth_error (ags s) j = Some (t, On e p) -> reading a p ->
  lkp s a = Some e.
Proof.
  intros I H R. destruct (reading_facts _ _ R) as (L & V & U). eapply settle; eauto.
Qed.

Section OnStep.
Context {psz : nat} {d : dstate} {pr : promise} {i t e : nat} {p : lpc} {c : act}
        {en' : entry} {r : res}.
Let s := base d.
Hypothesis I : Inv s.
Hypothesis I2 : Inv2 s.
Hypothesis I3 : Inv3 s.
Hypothesis K : J psz d pr.
Hypothesis Hi : nth_error (ags s) i = Some (t, On e p).
Hypothesis IO : io_over psz (exts d i) (On e p) = true.
Hypothesis UR : unlock_rule d i (Base (Go c)).
Hypothesis NU : no_reuse d i.
Let won := wins p (lkp s).
Hypothesis H : lstep t (ents s e) p c won = (en', r).
Let s' := St (upd (ents s) e en') (leff e p won (lkp s)) (busy s)
             (put (ags s) i (t, aft e r)).
Hypothesis I' : Inv s'.
Let x' := next_ext s (On e p) (Go c) (exts d i).
Let d' := DSt s' (mem d) (disk d) (upd (exts d) i x').
Let pr' := promised d i (Base (Go c)) pr.

Lemma np j : nth_error (ags s') j = if j =? i then Some (t, aft e r) else nth_error (ags s) j.
Proof. cbn [s' ags]. apply (nth_put _ _ _ j _ Hi). Qed.

Lemma np_cases j tj e2 q : nth_error (ags s') j = Some (tj, On e2 q) ->
  (j = i /\ tj = t /\ e2 = e /\ r = Stay q) \/
  (j <> i /\ nth_error (ags s) j = Some (tj, On e2 q) /\ exts d' j = exts d j).
Proof.
  rewrite np. destruct (j =? i) eqn:E.
  - apply Nat.eqb_eq in E. intros X. left. injection X as <- X.
    destruct r as [p'|n]; cbn in X; [injection X as -> ->; auto|destruct n; discriminate].
  - apply Nat.eqb_neq in E. intros X. right. repeat split; auto. cbn [d' exts]. apply upd_other. exact E.
Qed.

Lemma own_ext : exts d' i = x'.
Proof. cbn [d' exts]. apply upd_same. Qed.

Lemma ent2 e2 : e2 <> e -> ents s' e2 = ents s e2.
Proof. intros N. cbn [s' ents]. apply upd_other. exact N. Qed.
Lemma ent1 : ents s' e = en'.
Proof. cbn [s' ents]. apply upd_same. Qed.

Lemma pr'_cases a o v : pr' a o = Some v ->
  pr a o = Some v /\ ldiscarding a p = false /\ lallocating a p = false.
Proof. intros P. apply (pr_base _ _ _ _ _ _ _ _ _ Hi P). Qed.

Lemma mem_on a e2 o v : o < psz -> lkp s' a = Some e2 -> lde d' e2 = false ->
  pr' a o = Some v -> mem d e2 o = v.
Proof.
  intros B L D P. apply pr'_cases in P as (P & NDI & NA).
  pose proof (i_ok1 _ I _ _ _ _ Hi) as P1.
  cbn [s' lkp] in L. unfold lde in D. cbn [d' base] in D.
  destruct (leff_cases e p won (lkp s) a) as [X|[[X1 X2]|[(X1 & X2 & X3)|[X1 X2]]]].
  - rewrite X in L. destruct (ld (st (ents s e2))) eqn:LD.
    + assert (e2 = e) as -> by (destruct (Nat.eq_dec e2 e) as [|N]; [assumption|rewrite (ent2 _ N) in D; congruence]).
      rewrite ent1 in D.
      destruct (acc_loaded H (o_held _ _ P1) LD D) as [[b R]|[ND NL]].
      * assert (E : a = b) by (destruct (reading_facts _ _ R) as (R1 & R2 & _); exact (slot_loader s i t e p a b I I3 Hi R1 R2 L)).
        subst b.
        assert (DN : x_done (exts d i) o = true).
        { destruct R as [R|[R|R]]; rewrite R in IO; cbn [io_over] in IO; unfold moved in IO;
            rewrite forallb_forall in IO; apply IO, in_seq; lia. }
        rewrite (j_got _ _ _ K _ _ _ _ _ _ Hi R DN).
        apply (j_disk _ _ _ K a o v B P). intros e3 L3. left.
        assert (e3 = e) by (fold s in L3; congruence). subst e3. exact LD.
      * destruct (slot_noda _ _ _ _ _ _ I I3 Hi ND L) as (f & b & E). destruct (NL _ _ E).
    + exact (j_mem _ _ _ K a e2 o v B L LD P).
  - congruence.
  - assert (e2 = e) by congruence. subst e2. rewrite ent1 in D. exfalso.
    assert (LP : loaderb p = true) by (destruct X3 as [[f ->]| ->]; reflexivity).
    pose proof (o_load _ _ P1 LP) as LD.
    destruct (acc_loaded H (o_held _ _ P1) LD D) as [[b R]|[ND NL]].
    + destruct R as [R|[R|R]]; destruct X3 as [[f X3]|X3]; congruence.
    + pose proof H as H1. rewrite X2 in H1.
      destruct X3 as [[f X3]|X3]; rewrite X3 in H1, ND; cbn in H1, ND; [|discriminate].
      injection H1 as H1 _. congruence.
  - rewrite X2 in NA. cbn in NA. rewrite Nat.eqb_refl in NA. discriminate.
Qed.

Lemma disk_on a o v : o < psz -> pr' a o = Some v ->
  (forall e2, lkp s' a = Some e2 -> lde d' e2 = true \/ (cle d' e2 = true /\ nodebt d' e2)) ->
  disk d a o = v.
Proof.
  intros B P C. apply pr'_cases in P as (P & NDI & NA).
  pose proof (i_ok1 _ I _ _ _ _ Hi) as P1.
  assert (OLD : forall e2, nodebt d' e2 -> nodebt d e2 \/ (e2 = e /\ exists b, p = Locked b)).
  { intros e2 N. destruct (Nat.eq_dec e2 e) as [->|NE].
    - assert (DEC : (exists b, p = Locked b) \/ forall b, p <> Locked b)
        by (clear; destruct p; eauto; right; discriminate).
      destruct DEC as [DEC|DEC]; [right; auto|left]. intros j tj b X W.
      assert (NJ : j <> i) by (intros ->; fold s in X; rewrite Hi in X; injection X as _ X; exact (DEC _ X)).
      specialize (N j tj b). cbn [d' base exts] in N. rewrite np, (proj2 (Nat.eqb_neq j i) NJ), (upd_other _ _ _ _ NJ) in N; auto.
    - left. intros j tj b X W.
      assert (NJ : j <> i) by (intros ->; fold s in X; rewrite Hi in X; congruence).
      specialize (N j tj b). cbn [d' base exts] in N. rewrite np, (proj2 (Nat.eqb_neq j i) NJ), (upd_other _ _ _ _ NJ) in N; auto. }
  destruct (lkp s a) as [e2|] eqn:L.
  2:{ apply (j_disk _ _ _ K a o v B P). intros e3 L3. fold s in L3. congruence. }
  cbn [s' lkp] in C.
  destruct (leff_cases e p won (lkp s) a) as [X|[[X1 X2]|[(X1 & X2 & X3)|[X1 X2]]]].
  - rewrite X in C. specialize (C e2 L). unfold lde, cle in C. cbn [d' base] in C.
    destruct (Nat.eq_dec e2 e) as [->|NE].
    + rewrite ent1 in C. destruct (ld (st (ents s e))) eqn:LD.
      { apply (j_disk _ _ _ K a o v B P). intros e3 L3. left. assert (e3 = e) by (fold s in L3; congruence). subst e3. exact LD. }
      assert (FS : forall f, p <> FSet f).
      { intros f E. destruct (slot_noda _ _ _ _ _ a I I3 Hi) as (f' & b & E'); [rewrite E; reflexivity|exact L|congruence]. }
      destruct C as [C|[C N]]; [destruct (acc_loading H LD C) as [f E]; destruct (FS _ E)|].
      destruct (cl (st (ents s e))) eqn:CL.
      * apply (j_disk _ _ _ K a o v B P). intros e3 L3. assert (e3 = e) by (fold s in L3; congruence). subst e3. right. split; [exact CL|].
        destruct (OLD _ N) as [O|[_ [b E]]]; [exact O|].
        intros j tj b' X' W. destruct (Nat.eq_dec j i) as [->|NJ].
        -- unfold unlock_rule in UR. fold s in UR. rewrite Hi, E in UR. destruct c; [exact (UR W)| |].
           ++ pose proof H as H1. rewrite E in H1. cbn in H1. injection H1 as <- _. cbn in C. discriminate.
           ++ specialize (N i t b). cbn [d' base exts] in N. rewrite np, Nat.eqb_refl, upd_same in N.
              pose proof H as H1. rewrite E in H1. cbn [lstep] in H1. apply res_pair in H1 as [_ <-].
              subst x'. rewrite E in N. cbn [next_ext x_wrote x_marked aft] in N. apply N; auto.
        -- specialize (N j tj b'). cbn [d' base exts] in N. rewrite np, (proj2 (Nat.eqb_neq j i) NJ), (upd_other _ _ _ _ NJ) in N. auto.
      * destruct (acc_clean H CL C) as [E|[f E]]; [|destruct (FS _ E)].
        pose proof IO as IO1. rewrite E in IO1. cbn [io_over] in IO1. apply andb_true_iff in IO1 as [PH MV].
        apply Nat.eqb_eq in PH. unfold moved in MV. rewrite forallb_forall in MV.
        assert (DN : x_done (exts d i) o = true) by (apply MV, in_seq; lia).
        pose proof Hi as Hi1. rewrite E in Hi1.
        destruct (j_wr _ _ _ K _ _ _ _ Hi1 eq_refl) as [_ AD].
        rewrite PH in AD. specialize (AD ltac:(discriminate)).
        fold s in AD. rewrite (slot_da _ _ _ I I3 L LD) in AD.
        rewrite (j_sent _ _ _ K _ _ _ _ _ Hi1 PH AD DN).
        exact (j_mem _ _ _ K a e o v B L LD P).
    + rewrite (ent2 _ NE) in C. apply (j_disk _ _ _ K a o v B P). intros e3 L3.
      assert (e3 = e2) by (fold s in L3; congruence). subst e3.
      destruct C as [C|[C N]]; [left; exact C|right]. split; [exact C|].
      destruct (OLD _ N) as [O|[O _]]; [exact O|congruence].
  - apply (j_disk _ _ _ K a o v B P). intros e3 L3. assert (e3 = e2) by (fold s in L3; congruence). subst e3.
    assert (ES : p = EMapW a \/ p = NMap a -> e2 = e).
    { intros ES. assert (lkp s a = Some e); [|congruence].
      destruct ES as [ES|ES]; rewrite ES in Hi; eapply settle; eauto; reflexivity. }
    destruct X2 as [X2|[X2|X2]].
    + rewrite (ES (or_introl X2)). right. rewrite X2 in Hi.
      split; [apply (k_clean _ I2 _ _ _ _ Hi eq_refl)|].
      intros j tj b X W. exfalso. destruct (Nat.eq_dec i j) as [<-|NJ]; [fold s in X; congruence|].
      pose proof (q_claim _ _ _ _ (i_ok2 _ I i j _ _ _ _ _ NJ Hi X) eq_refl). discriminate.
    + rewrite X2 in NDI. cbn in NDI. rewrite Nat.eqb_refl in NDI. discriminate.
    + rewrite (ES (or_intror X2)). left. rewrite X2 in Hi, P1. apply (o_load _ _ P1 eq_refl).
  - exfalso. unfold won in X2. destruct X3 as [[f X3]|X3]; rewrite X3 in X2; cbn in X2; rewrite L in X2; discriminate.
  - rewrite X2 in NA. cbn in NA. rewrite Nat.eqb_refl in NA. discriminate.
Qed.

Lemma mark_on j tj e2 q : nth_error (ags s') j = Some (tj, On e2 q) -> soiled (exts d' j) q ->
  cle d' e2 = false.
Proof.
  intros X S. unfold cle. cbn [d' base].
  destruct (np_cases _ _ _ _ X) as [(-> & -> & -> & R)|(NJ & Y & EX)].
  - rewrite ent1. rewrite own_ext in S. pose proof (j_mark _ _ _ K _ _ _ _ Hi) as M. unfold cle in M. fold s in M.
    destruct q; cbn [soiled] in S; try contradiction.
    + destruct (acc_locked H _ _ R eq_refl) as [[E ->]|[[n E]|[E [[C1 C2]|[C1 C2]]]]].
      * apply M. rewrite E. exact Logic.I.
      * subst x'. rewrite E in S. cbn in S. discriminate.
      * exact C2.
      * rewrite C2. apply M. rewrite E. subst x'. rewrite E in S. cbn [next_ext] in S.
        destruct c; [|congruence|]; exact S.
    + destruct (acc_alloc H _ _ R (or_introl eq_refl)) as [C|[E C]]; [exact C|].
      rewrite C. apply M. rewrite E. exact Logic.I.
    + destruct (acc_alloc H _ _ R (or_intror eq_refl)) as [C|[E C]]; [exact C|].
      rewrite C. apply M. rewrite E. exact Logic.I.
  - rewrite EX in S. pose proof (j_mark _ _ _ K _ _ _ _ Y S) as M. unfold cle in M. fold s in M.
    destruct (Nat.eq_dec e2 e) as [->|NE]; [|rewrite (ent2 _ NE); exact M].
    rewrite ent1. destruct (cl (st en')) eqn:C; [|reflexivity]. exfalso.
    assert (NW : nowb q = true /\ claimsb q = true) by (destruct q; cbn in S |- *; try contradiction; auto).
    destruct (acc_clean H M C) as [E|[f E]].
    + pose proof Hi as Hi1. rewrite E in Hi1.
      pose proof (k_wb _ I2 _ _ _ _ Hi1 eq_refl). pose proof (k_nowb _ I2 _ _ _ _ Y (proj1 NW)). congruence.
    + pose proof Hi as Hi1. rewrite E in Hi1.
      pose proof (q_claim _ _ _ _ (i_ok2 _ I i j _ _ _ _ _ (not_eq_sym NJ) Hi1 Y) eq_refl). destruct NW; congruence.
Qed.

Lemma none_on j tj e2 q a : nth_error (ags s') j = Some (tj, On e2 q) -> q = AMap a \/ q = DDa a ->
  lkp s' a = None /\ forall o, pr' a o = None.
Proof.
  intros X Q. destruct (np_cases _ _ _ _ X) as [(-> & -> & -> & R)|(NJ & Y & EX)].
  - destruct Q as [Q|Q].
    + pose proof (acc_amap H _ _ R Q) as E. split.
      * apply (i_all _ I' _ _ _ a X). rewrite Q. cbn. apply Nat.eqb_refl.
      * intros o. eapply pr_base_gone; [exact Hi|]. right. rewrite E. cbn. apply Nat.eqb_refl.
    + pose proof (acc_dda H _ _ R Q) as E. split.
      * cbn [s' lkp]. rewrite E. cbn [leff]. apply upd_same.
      * intros o. eapply pr_base_gone; [exact Hi|]. left. rewrite E. cbn. apply Nat.eqb_refl.
  - destruct (j_none _ _ _ K _ _ _ _ _ Y Q) as [N P]. fold s in N. split.
    + cbn [s' lkp].
      destruct (leff_cases e p won (lkp s) a) as [Z|[[Z1 Z2]|[(Z1 & Z2 & Z3)|[Z1 Z2]]]]; [congruence|exact Z1| |]; exfalso.
      * assert (G : getting a (On e p) = true)
          by (cbn [getting]; destruct Z3 as [[f ->]| ->]; cbn; rewrite Nat.eqb_refl, ?orb_true_r; reflexivity).
        destruct Q as [-> | ->].
        -- destruct (i_all _ I _ _ _ a Y) as [_ QT]; [cbn; apply Nat.eqb_refl|].
           specialize (QT _ _ _ (not_eq_sym NJ) Hi). cbv beta in QT. rewrite G in QT. discriminate.
        -- pose proof (i_dis _ I _ _ _ a Y) as QT. cbn in QT. specialize (QT (Nat.eqb_refl a) _ _ _ (not_eq_sym NJ) Hi).
           cbv beta in QT. rewrite G in QT. discriminate.
      * pose proof Hi as Hi1. rewrite Z2 in Hi1.
        destruct (i_all _ I _ _ _ a Hi1) as [_ QT]; [cbn; apply Nat.eqb_refl|].
        specialize (QT _ _ _ NJ Y). cbv beta in QT. destruct Q as [-> | ->]; cbn in QT; rewrite Nat.eqb_refl, ?orb_true_r in QT; discriminate.
    + intros o. eapply pr_base_none; eauto.
Qed.

Lemma wr_on j tj e2 q : nth_error (ags s') j = Some (tj, On e2 q) -> wbing q = true ->
  lde d' e2 = false /\ (x_ph (exts d' j) <> 0 -> x_addr (exts d' j) = da (ents s' e2)).
Proof.
  intros X W. unfold lde. cbn [d' base].
  destruct (np_cases _ _ _ _ X) as [(-> & -> & -> & R)|(NJ & Y & EX)].
  - fold d'. rewrite own_ext, ent1.
    destruct (next_ext_ph s (On e p) (Go c) (exts d i) e p eq_refl) as (E1 & E2 & _).
    fold x' in E1, E2. rewrite E1, E2.
    destruct (acc_wr H _ R W) as [(W0 & L & D)|(L & D & C)].
    + rewrite L, D. exact (j_wr _ _ _ K _ _ _ _ Hi W0).
    + split; [exact L|]. rewrite D. intros PH. unfold no_reuse in NU. fold s in NU. rewrite Hi in NU.
      destruct C as [[[[u C1]|C1] C2]|[[C1|C1] C2]]; rewrite C1 in NU; destruct (NU C2); congruence.
  - fold d'. rewrite EX. destruct (j_wr _ _ _ K _ _ _ _ Y W) as [L D]. unfold lde in L. fold s in L, D.
    destruct (Nat.eq_dec e2 e) as [->|NE]; [|rewrite (ent2 _ NE); auto].
    rewrite ent1. pose proof (k_wb _ I2 _ _ _ _ Y W) as WB. split.
    + destruct (ld (st en')) eqn:L'; [|reflexivity]. exfalso.
      destruct (acc_loading H L L') as [f E]. pose proof Hi as Hi1. rewrite E in Hi1.
      pose proof (k_nowb _ I2 _ _ _ _ Hi1 eq_refl). congruence.
    + intros PH. rewrite (D PH).
      assert (DD : da en' = da (ents s e) \/ da en' <> da (ents s e))
        by (destruct (da en'), (da (ents s e)); try (right; congruence); auto;
            destruct (Nat.eq_dec n n0); [left|right]; congruence).
      destruct DD as [DD|DD]; [congruence|]. exfalso.
      pose proof (k_nowb _ I2 _ _ _ _ Hi (acc_da H DD)). congruence.
Qed.

Lemma J_on : J psz d' pr'.
Proof.
  constructor.
  - exact mem_on.
  - exact disk_on.
  - exact mark_on.
  - exact none_on.
  - exact wr_on.
  - intros j tj e2 a o X. destruct (np_cases _ _ _ _ X) as [(-> & -> & -> & R)|(NJ & Y & EX)].
    + rewrite own_ext. destruct (next_ext_ph s (On e p) (Go c) (exts d i) e p eq_refl) as (_ & _ & E).
      fold x' in E. rewrite E. discriminate.
    + rewrite EX. exact (j_sent _ _ _ K _ _ _ _ _ Y).
  - intros j tj e2 q a o X R. destruct (np_cases _ _ _ _ X) as [(-> & -> & -> & _)|(NJ & Y & EX)].
    + rewrite own_ext. destruct (next_ext_ph s (On e p) (Go c) (exts d i) e p eq_refl) as (_ & _ & E).
      fold x' in E. rewrite E. discriminate.
    + rewrite EX. exact (j_got _ _ _ K _ _ _ _ _ _ Y R).
Qed.
End OnStep.

(** ** The other steps. *)
Lemma start_none p : start p = true ->
  wbing p = false /\ (forall x, ~ soiled x p) /\ (forall a, p <> AMap a) /\ (forall a, p <> DDa a) /\
  p <> W1 /\ (forall a, ~ reading a p) /\ forall a, p <> Locked a.
Proof.
  unfold reading. destruct p; cbn; try discriminate; intros _; repeat split; try discriminate; auto;
    intros a [X|[X|X]]; discriminate.
Qed.

Lemma J_off psz d pr pr' i t x x' s' y :
  J psz d pr -> nth_error (ags (base d)) i = Some (t, x) -> offp x ->
  off_step (base d) s' i t x' -> (forall a o, pr' a o = pr a o \/ pr' a o = None) ->
  J psz (DSt s' (mem d) (disk d) (upd (exts d) i y)) pr'.
Proof.
  intros K Hi O (E & L & A & ST) PR.
  assert (PR' : forall a o v, pr' a o = Some v -> pr a o = Some v)
    by (intros a o v P; destruct (PR a o); congruence).
  assert (NP : forall j tj e p, nth_error (ags s') j = Some (tj, On e p) ->
    start p = true \/ (j <> i /\ nth_error (ags (base d)) j = Some (tj, On e p) /\ upd (exts d) i y j = exts d j)).
  { intros j tj e p X. rewrite A, (nth_put _ _ _ j _ Hi) in X. destruct (j =? i) eqn:J.
    - left. injection X as _ X. eapply ST; eauto.
    - right. apply Nat.eqb_neq in J. repeat split; auto. apply upd_other. exact J. }
  assert (ND : forall e, nodebt (DSt s' (mem d) (disk d) (upd (exts d) i y)) e -> nodebt d e).
  { intros e N j tj b X. assert (NJ : j <> i) by (intros ->; rewrite Hi in X; injection X as _ ->; destruct O).
    specialize (N j tj b). cbn [base exts] in N.
    rewrite A, (nth_put _ _ _ j _ Hi), (proj2 (Nat.eqb_neq j i) NJ), (upd_other _ _ _ _ NJ) in N. auto. }
  constructor; unfold lde, cle; cbn [base mem disk exts]; rewrite ?E, ?L.
  - intros a e o v B X D P. eapply (j_mem _ _ _ K a e o v B X D). auto.
  - intros a o v B P C. eapply (j_disk _ _ _ K a o v B (PR' _ _ _ P)).
    intros e X. destruct (C e X) as [C1|[C1 C2]]; [left; exact C1|right; split; [exact C1|auto]].
  - intros j tj e p X S. destruct (NP _ _ _ _ X) as [Q|(NJ & Y & EX)].
    + destruct (start_none _ Q) as (_ & Q1 & _). destruct (Q1 _ S).
    + rewrite EX in S. exact (j_mark _ _ _ K _ _ _ _ Y S).
  - intros j tj e p a X Q. destruct (NP _ _ _ _ X) as [Q0|(NJ & Y & EX)].
    + destruct (start_none _ Q0) as (_ & _ & Q1 & Q2 & _). destruct Q as [Q|Q]; [destruct (Q1 _ Q)|destruct (Q2 _ Q)].
    + destruct (j_none _ _ _ K _ _ _ _ _ Y Q) as [N P]. split; [exact N|].
      intros o. destruct (PR a o) as [Z|Z]; [rewrite Z; apply P|exact Z].
  - intros j tj e p X W. destruct (NP _ _ _ _ X) as [Q|(NJ & Y & EX)].
    + destruct (start_none _ Q) as (Q1 & _). congruence.
    + rewrite EX. exact (j_wr _ _ _ K _ _ _ _ Y W).
  - intros j tj e a o X. destruct (NP _ _ _ _ X) as [Q|(NJ & Y & EX)]; [discriminate|].
    rewrite EX. exact (j_sent _ _ _ K _ _ _ _ _ Y).
  - intros j tj e p a o X R. destruct (NP _ _ _ _ X) as [Q|(NJ & Y & EX)].
    + destruct (start_none _ Q) as (_ & _ & _ & _ & _ & Q1 & _). destruct (Q1 _ R).
    + rewrite EX. exact (j_got _ _ _ K _ _ _ _ _ _ Y R).
Qed.

Lemma pr_plain d i c pr t x : nth_error (ags (base d)) i = Some (t, x) ->
  (forall o v, c <> Put o v) ->
  forall a o, promised d i c pr a o = pr a o \/ promised d i c pr a o = None.
Proof.
  intros H N a o. unfold promised. rewrite H. destruct (_ || _); [auto|].
  left. destruct c; auto. destruct (N o0 v); reflexivity.
Qed.
Lemma pr_same d i c pr t x : nth_error (ags (base d)) i = Some (t, x) ->
  (forall o v, c <> Put o v) -> (forall a, discarding a x || allocating a x = false) ->
  forall a o, promised d i c pr a o = pr a o.
Proof.
  intros H N D a o. unfold promised. rewrite H, D. destruct c; auto. destruct (N o0 v); reflexivity.
Qed.

(** Steps that leave the locks alone. *)
Section Still.
Context {psz : nat} {ts : list nat} {d : dstate} {pr : promise} {i t e : nat} {p : lpc}.
Let s := base d.
Hypothesis I : Inv s.
Hypothesis I2 : Inv2 s.
Hypothesis I3 : Inv3 s.
Hypothesis K : J psz d pr.
Hypothesis Hi : nth_error (ags s) i = Some (t, On e p).

(** What an agent remembers changes, no more. *)
Lemma J_ext y pr' : (forall a o, pr' a o = pr a o) ->
  x_wrote y = x_wrote (exts d i) -> x_marked y = x_marked (exts d i) ->
  (wbing p = true -> x_ph y <> 0 -> x_addr y = da (ents s e)) ->
  (forall o, x_done y o = false) ->
  J psz (DSt s (mem d) (disk d) (upd (exts d) i y)) pr'.
Proof.
  intros PR W M AD DN.
  assert (EX : forall j, x_wrote (upd (exts d) i y j) = x_wrote (exts d j) /\ x_marked (upd (exts d) i y j) = x_marked (exts d j)).
  { intros j. destruct (Nat.eq_dec j i) as [->|N]; [rewrite upd_same|rewrite (upd_other _ _ _ _ N)]; auto. }
  constructor; unfold lde, cle; cbn [base mem disk exts].
  - intros a e2 o v B L D P. rewrite PR in P. exact (j_mem _ _ _ K a e2 o v B L D P).
  - intros a o v B P C. rewrite PR in P. apply (j_disk _ _ _ K a o v B P).
    intros e2 L. destruct (C e2 L) as [C1|[C1 C2]]; [left; exact C1|right; split; [exact C1|]].
    intros j tj b X. specialize (C2 j tj b X). cbn [exts] in C2. destruct (EX j) as [E1 E2]. rewrite E1, E2 in C2. exact C2.
  - intros j tj e2 q X S. apply (j_mark _ _ _ K _ _ _ _ X).
    destruct q; cbn in *; auto. rewrite <- (proj2 (EX j)). exact S.
  - intros j tj e2 q a X Q. destruct (j_none _ _ _ K _ _ _ _ _ X Q) as [N P]. split; [exact N|].
    intros o. rewrite PR. apply P.
  - intros j tj e2 q X WB. destruct (j_wr _ _ _ K _ _ _ _ X WB) as [L D]. split; [exact L|].
    destruct (Nat.eq_dec j i) as [->|N]; [rewrite upd_same|rewrite (upd_other _ _ _ _ N); exact D].
    fold s in X. rewrite Hi in X. injection X as <- <- <-. apply AD. exact WB.
  - intros j tj e2 a o X. destruct (Nat.eq_dec j i) as [->|N].
    + rewrite upd_same, DN. discriminate.
    + rewrite (upd_other _ _ _ _ N). exact (j_sent _ _ _ K _ _ _ _ _ X).
  - intros j tj e2 q a o X R. destruct (Nat.eq_dec j i) as [->|N].
    + rewrite upd_same, DN. discriminate.
    + rewrite (upd_other _ _ _ _ N). exact (j_got _ _ _ K _ _ _ _ _ _ X R).
Qed.

(** A word goes to the device. *)
Lemma J_write a o pr' : (forall a o, pr' a o = pr a o) -> o < psz -> p = W1 ->
  x_ph (exts d i) = 2 -> x_addr (exts d i) = Some a ->
  J psz (DSt s (mem d) (set1 (disk d) a o (mem d e o)) (upd (exts d) i (did o (exts d i)))) pr'.
Proof.
  intros PR B0 EP PH AD. rewrite EP in Hi.
  destruct (j_wr _ _ _ K _ _ _ _ Hi eq_refl) as [LD DA]. specialize (DA ltac:(congruence)). fold s in DA.
  rewrite AD in DA. symmetry in DA.
  pose proof (wr_map _ _ _ _ _ _ I I2 Hi eq_refl DA) as LK.
  pose proof (k_wb _ I2 _ _ _ _ Hi eq_refl) as WB.
  assert (EX : forall j, x_wrote (upd (exts d) i (did o (exts d i)) j) = x_wrote (exts d j) /\
                         x_marked (upd (exts d) i (did o (exts d i)) j) = x_marked (exts d j) /\
                         x_ph (upd (exts d) i (did o (exts d i)) j) = x_ph (exts d j) /\
                         x_addr (upd (exts d) i (did o (exts d i)) j) = x_addr (exts d j)).
  { intros j. destruct (Nat.eq_dec j i) as [->|N]; [rewrite upd_same|rewrite (upd_other _ _ _ _ N)]; auto. }
  constructor; unfold lde, cle; cbn [base mem disk exts].
  - intros a2 e2 o2 v B L D P. rewrite PR in P. exact (j_mem _ _ _ K a2 e2 o2 v B L D P).
  - intros a2 o2 v B P C. rewrite PR in P.
    assert (C' : forall e2, lkp s a2 = Some e2 -> lde d e2 = true \/ (cle d e2 = true /\ nodebt d e2)).
    { intros e2 L. destruct (C e2 L) as [C1|[C1 C2]]; [left; exact C1|right; split; [exact C1|]].
      intros j tj b X. specialize (C2 j tj b X). cbn [exts] in C2. destruct (EX j) as (E1 & E2 & _). rewrite E1, E2 in C2. exact C2. }
    destruct (Nat.eq_dec a2 a) as [->|NA]; [|rewrite (set1_key _ _ _ _ _ _ NA); apply (j_disk _ _ _ K a2 o2 v B P C')].
    destruct (Nat.eq_dec o2 o) as [->|NO]; [|rewrite (set1_word _ _ _ _ _ _ NO); apply (j_disk _ _ _ K a o2 v B P C')].
    rewrite set1_same. exact (j_mem _ _ _ K a e o v B LK LD P).
  - intros j tj e2 q X S. apply (j_mark _ _ _ K _ _ _ _ X).
    destruct q; cbn in *; auto. rewrite <- (proj1 (proj2 (EX j))). exact S.
  - intros j tj e2 q a2 X Q. destruct (j_none _ _ _ K _ _ _ _ _ X Q) as [N P]. split; [exact N|].
    intros o2. rewrite PR. apply P.
  - intros j tj e2 q X W. destruct (EX j) as (_ & _ & -> & ->). exact (j_wr _ _ _ K _ _ _ _ X W).
  - intros j tj e2 a2 o2 X. destruct (EX j) as (_ & _ & -> & ->). intros P2 A2 D2.
    destruct (j_wr _ _ _ K _ _ _ _ X eq_refl) as [_ DA2]. specialize (DA2 ltac:(congruence)). fold s in DA2.
    rewrite A2 in DA2. symmetry in DA2. pose proof (wr_map _ _ _ _ _ _ I I2 X eq_refl DA2) as LK2.
    destruct (Nat.eq_dec j i) as [->|N].
    + fold s in X. rewrite Hi in X. injection X as <- <-. assert (a2 = a) by congruence. subst a2.
      destruct (Nat.eq_dec o2 o) as [->|NO]; [apply set1_same|].
      rewrite (set1_word _ _ _ _ _ _ NO). rewrite upd_same in D2. cbn [did x_done] in D2.
      rewrite (upd_other _ _ _ _ NO) in D2. exact (j_sent _ _ _ K _ _ _ _ _ Hi PH AD D2).
    + rewrite (upd_other _ _ _ _ N) in D2.
      assert (NA : a2 <> a).
      { intros ->. assert (e2 = e) by congruence. subst e2.
        pose proof (k_one _ I2 i j _ _ _ _ _ (not_eq_sym N) Hi X eq_refl). discriminate. }
      rewrite (set1_key _ _ _ _ _ _ NA). exact (j_sent _ _ _ K _ _ _ _ _ X P2 A2 D2).
  - intros j tj e2 q a2 o2 X R D2.
    assert (N : j <> i). { intros ->. fold s in X. rewrite Hi in X. injection X as <- <- <-. destruct R as [R|[R|R]]; discriminate. }
    rewrite (upd_other _ _ _ _ N) in D2.
    pose proof (slot_reading _ _ _ _ _ _ I X R) as LK2.
    assert (NA : a2 <> a).
    { intros ->. assert (e2 = e) by congruence. subst e2. destruct (reading_facts _ _ R) as (RL & _).
      assert (NW : nowb q = true) by (destruct q; cbn in RL |- *; try discriminate; reflexivity).
      pose proof (k_nowb _ I2 _ _ _ _ X NW). congruence. }
    rewrite (set1_key _ _ _ _ _ _ NA). exact (j_got _ _ _ K _ _ _ _ _ _ X R D2).
Qed.

(** A word comes from the device. *)
Lemma J_read a o pr' : (forall a o, pr' a o = pr a o) -> reading a p ->
  J psz (DSt s (set1 (mem d) e o (disk d a o)) (disk d) (upd (exts d) i (did o (exts d i)))) pr'.
Proof.
  intros PR R. destruct (reading_facts _ _ R) as (RL & RV & _).
  pose proof (o_load _ _ (i_ok1 _ I _ _ _ _ Hi) RL) as LD.
  assert (NWI : nowb p = true) by (destruct R as [-> |[-> | ->]]; reflexivity).
  pose proof (k_nowb _ I2 _ _ _ _ Hi NWI) as NWB.
  assert (EX : forall j, x_wrote (upd (exts d) i (did o (exts d i)) j) = x_wrote (exts d j) /\
                         x_marked (upd (exts d) i (did o (exts d i)) j) = x_marked (exts d j) /\
                         x_ph (upd (exts d) i (did o (exts d i)) j) = x_ph (exts d j) /\
                         x_addr (upd (exts d) i (did o (exts d i)) j) = x_addr (exts d j)).
  { intros j. destruct (Nat.eq_dec j i) as [->|N]; [rewrite upd_same|rewrite (upd_other _ _ _ _ N)]; auto. }
  constructor; unfold lde, cle; cbn [base mem disk exts].
  - intros a2 e2 o2 v B L D P. rewrite PR in P.
    assert (NE : e2 <> e) by (intros ->; fold s in D; congruence).
    rewrite (set1_key _ _ _ _ _ _ NE). exact (j_mem _ _ _ K a2 e2 o2 v B L D P).
  - intros a2 o2 v B P C. rewrite PR in P. apply (j_disk _ _ _ K a2 o2 v B P).
    intros e2 L. destruct (C e2 L) as [C1|[C1 C2]]; [left; exact C1|right; split; [exact C1|]].
    intros j tj b X. specialize (C2 j tj b X). cbn [exts] in C2. destruct (EX j) as (E1 & E2 & _). rewrite E1, E2 in C2. exact C2.
  - intros j tj e2 q X S. apply (j_mark _ _ _ K _ _ _ _ X).
    destruct q; cbn in *; auto. rewrite <- (proj1 (proj2 (EX j))). exact S.
  - intros j tj e2 q a2 X Q. destruct (j_none _ _ _ K _ _ _ _ _ X Q) as [N P]. split; [exact N|].
    intros o2. rewrite PR. apply P.
  - intros j tj e2 q X W. destruct (EX j) as (_ & _ & -> & ->). exact (j_wr _ _ _ K _ _ _ _ X W).
  - intros j tj e2 a2 o2 X. destruct (EX j) as (_ & _ & -> & ->). intros P2 A2 D2.
    assert (NE : e2 <> e) by (intros ->; pose proof (k_wb _ I2 _ _ _ _ X eq_refl); congruence).
    assert (N : j <> i) by (intros ->; fold s in X; rewrite Hi in X; congruence).
    rewrite (upd_other _ _ _ _ N) in D2. rewrite (set1_key _ _ _ _ _ _ NE). exact (j_sent _ _ _ K _ _ _ _ _ X P2 A2 D2).
  - intros j tj e2 q a2 o2 X R2 D2. destruct (Nat.eq_dec j i) as [->|N].
    + fold s in X. rewrite Hi in X. injection X as <- <- <-.
      destruct (reading_facts _ _ R2) as (_ & RV2 & _). assert (a2 = a) by congruence. subst a2.
      destruct (Nat.eq_dec o2 o) as [->|NO]; [apply set1_same|].
      rewrite (set1_word _ _ _ _ _ _ NO). rewrite upd_same in D2. cbn [did x_done] in D2.
      rewrite (upd_other _ _ _ _ NO) in D2. exact (j_got _ _ _ K _ _ _ _ _ _ Hi R D2).
    + rewrite (upd_other _ _ _ _ N) in D2.
      assert (NE : e2 <> e).
      { intros ->. destruct (reading_facts _ _ R2) as (RL2 & _).
        pose proof (q_load _ _ _ _ (i_ok2 _ I i j _ _ _ _ _ (not_eq_sym N) Hi X) RL). congruence. }
      rewrite (set1_key _ _ _ _ _ _ NE). exact (j_got _ _ _ K _ _ _ _ _ _ X R2 D2).
Qed.

(** A caller writes a word. *)
Lemma J_put a o v : p = Locked a ->
  J psz (DSt s (set1 (mem d) e o v) (disk d)
           (upd (exts d) i (Ext (x_ph (exts d i)) (x_addr (exts d i)) (x_done (exts d i)) true (x_marked (exts d i)))))
    (promised d i (Put o v) pr).
Proof.
  intros EP. rewrite EP in Hi. pose proof (i_ok1 _ I _ _ _ _ Hi) as P1.
  pose proof (o_held _ _ P1 eq_refl) as LD. destruct (o_ver _ _ P1 a eq_refl) as [DA _].
  pose proof (settle _ _ _ _ _ a I Hi eq_refl (or_introl eq_refl) eq_refl) as LK.
  pose proof (k_nowb _ I2 _ _ _ _ Hi eq_refl) as NWB.
  set (y := Ext _ _ _ _ _).
  assert (PR : forall a2 o2, promised d i (Put o v) pr a2 o2 = if (a2 =? a) && (o2 =? o) then Some v else pr a2 o2).
  { intros a2 o2. unfold promised. fold s. rewrite Hi. reflexivity. }
  assert (EX : forall j, x_marked (upd (exts d) i y j) = x_marked (exts d j) /\
                         x_ph (upd (exts d) i y j) = x_ph (exts d j) /\
                         x_addr (upd (exts d) i y j) = x_addr (exts d j) /\ x_done (upd (exts d) i y j) = x_done (exts d j)).
  { intros j. destruct (Nat.eq_dec j i) as [->|N]; [rewrite upd_same|rewrite (upd_other _ _ _ _ N)]; auto. }
  constructor; unfold lde, cle; cbn [base mem disk exts].
  - intros a2 e2 o2 w B L D P. rewrite PR in P.
    destruct (Nat.eq_dec e2 e) as [->|NE].
    + pose proof (slot_da _ _ _ I I3 L D) as DA2. assert (a2 = a) by congruence. subst a2.
      rewrite Nat.eqb_refl in P. cbn [andb] in P. unfold set1. rewrite Nat.eqb_refl. cbn [andb].
      destruct (o2 =? o); [congruence|]. exact (j_mem _ _ _ K a e o2 w B L D P).
    + rewrite (set1_key _ _ _ _ _ _ NE).
      destruct (a2 =? a) eqn:EA; [apply Nat.eqb_eq in EA; subst a2; congruence|].
      exact (j_mem _ _ _ K a2 e2 o2 w B L D P).
  - intros a2 o2 w B P C. rewrite PR in P. destruct (Nat.eq_dec a2 a) as [->|NA].
    + exfalso. destruct (C e LK) as [C1|[C1 C2]]; [fold s in C1; congruence|].
      specialize (C2 i t a). cbn [base exts] in C2. rewrite upd_same in C2. specialize (C2 Hi eq_refl).
      pose proof (j_mark _ _ _ K _ _ _ _ Hi C2) as M. unfold cle in M. fold s in M. congruence.
    + rewrite (proj2 (Nat.eqb_neq a2 a) NA) in P. cbn [andb] in P. apply (j_disk _ _ _ K a2 o2 w B P).
      intros e2 L. destruct (C e2 L) as [C1|[C1 C2]]; [left; exact C1|right; split; [exact C1|]].
      intros j tj b X W. specialize (C2 j tj b X). cbn [exts] in C2. rewrite (proj1 (EX j)) in C2. apply C2.
      destruct (Nat.eq_dec j i) as [->|N]; [rewrite upd_same; reflexivity|rewrite (upd_other _ _ _ _ N); exact W].
  - intros j tj e2 q X S. apply (j_mark _ _ _ K _ _ _ _ X).
    destruct q; cbn in *; auto. rewrite <- (proj1 (EX j)). exact S.
  - intros j tj e2 q a2 X Q. destruct (j_none _ _ _ K _ _ _ _ _ X Q) as [N P]. split; [exact N|].
    intros o2. rewrite PR. destruct (a2 =? a) eqn:EA; [apply Nat.eqb_eq in EA; subst a2; fold s in N; congruence|]. apply P.
  - intros j tj e2 q X W. destruct (EX j) as (_ & -> & -> & _). exact (j_wr _ _ _ K _ _ _ _ X W).
  - intros j tj e2 a2 o2 X. destruct (EX j) as (_ & -> & -> & ->). intros P2 A2 D2.
    assert (NE : e2 <> e) by (intros ->; pose proof (k_wb _ I2 _ _ _ _ X eq_refl); congruence).
    rewrite (set1_key _ _ _ _ _ _ NE). exact (j_sent _ _ _ K _ _ _ _ _ X P2 A2 D2).
  - intros j tj e2 q a2 o2 X R. destruct (EX j) as (_ & _ & _ & ->). intros D2.
    assert (NE : e2 <> e).
    { intros ->. destruct (reading_facts _ _ R) as (RL & _).
      pose proof (o_load _ _ (i_ok1 _ I _ _ _ _ X) RL). congruence. }
    rewrite (set1_key _ _ _ _ _ _ NE). exact (j_got _ _ _ K _ _ _ _ _ _ X R D2).
Qed.
End Still.

(** ** All steps. *)
Lemma move_same s i t x : nth_error (ags s) i = Some (t, x) -> move s i t x = s.
Proof. intros H. unfold move. rewrite (put_same _ _ _ H). destruct s; reflexivity. Qed.

Lemma J_step psz ts d pr i c d' :
  kept ts (base d) -> J psz d pr -> rules d i c -> unlock_rule d i c -> no_reuse d i ->
  dstep psz d i c = Some d' -> kept ts (base d') /\ J psz d' (promised d i c pr).
Proof.
  intros KB K RL UR NU H.
  pose proof (kept_Inv _ _ KB) as I. pose proof (kept_Inv2 _ _ KB) as I2. pose proof (kept_Inv3 _ _ KB) as I3.
  unfold dstep in H. destruct (nth_error (ags (base d)) i) as [[t x]|] eqn:Hi; [|discriminate].
  destruct c as [c|a u| |o|o v].
  - destruct (io_over psz (exts d i) x) eqn:IO; [|discriminate].
    destruct (step (base d) i c) as [s'|] eqn:ST; [|discriminate]. injection H as <-.
    destruct RL as [RL1 RL2].
    assert (KB' : kept ts s') by (eapply k_step; eauto). split; [exact KB'|].
    destruct (step_cases _ _ _ _ _ _ ST Hi) as [[O [x' OS]]|(e & p & c' & en' & r & -> & -> & LS & ->)].
    + eapply J_off; eauto. eapply pr_plain; eauto. discriminate.
    + apply (J_on I I2 I3 K Hi IO UR NU LS). apply kept_Inv in KB'. exact KB'.
  - destruct x; try discriminate. destruct (lkp (base d) a) as [e|] eqn:L; [|discriminate]. injection H as <-.
    cbn [base]. split.
    + apply (k_step ts (base d) i (SWb e u)); [exact KB|exact Logic.I| |].
      * unfold no_race. rewrite Hi. exact Logic.I.
      * unfold step. rewrite Hi. reflexivity.
    + eapply (J_off _ _ _ _ _ _ _ (On e (W0 u))); eauto; [|eapply pr_plain; eauto; discriminate].
      repeat split. intros e2 p E. injection E as <- <-. reflexivity.
  - destruct x as [|k|f|e p]; try discriminate. destruct p; try discriminate.
    destruct (x_ph (exts d i)) as [|[|n]] eqn:PH; [| |discriminate].
    + injection H as <-. split; [exact KB|].
      apply (J_ext K Hi); auto.
      intros a o. eapply pr_same; eauto; try discriminate; intros; reflexivity.
    + destruct (x_addr (exts d i)) as [a|] eqn:AD; [|discriminate].
      destruct (lkp (base d) a) as [e'|] eqn:L; [|discriminate]. injection H as <-. cbn [base].
      destruct (j_wr _ _ _ K _ _ _ _ Hi eq_refl) as [_ DA]. specialize (DA ltac:(congruence)).
      rewrite AD in DA. symmetry in DA. pose proof (wr_map _ _ _ _ _ _ I I2 Hi eq_refl DA) as LK.
      assert (e' = e) by congruence. subst e'. rewrite (move_same _ _ _ _ Hi). split; [exact KB|].
      apply (J_ext K Hi); auto.
      intros b o. eapply pr_same; eauto; try discriminate; intros; reflexivity.
  - destruct (o <? psz) eqn:B; [|discriminate]. apply Nat.ltb_lt in B.
    destruct x as [|k|f|e p]; try discriminate.
    destruct p; try discriminate.
    1-3: injection H as <-; (split; [exact KB|]); apply (J_read I I2 K Hi); [|unfold reading; auto];
         intros b o'; eapply pr_same; eauto; try discriminate; intros; reflexivity.
    destruct (x_ph (exts d i)) as [|[|[|n]]] eqn:PH; try discriminate.
    destruct (x_addr (exts d i)) as [a|] eqn:AD; [|discriminate]. injection H as <-. split; [exact KB|].
    apply (J_write I I2 K Hi); auto. intros b o'. eapply pr_same; eauto; try discriminate; intros; reflexivity.
  - destruct (o <? psz); [|discriminate]. destruct x as [|k|f|e p]; try discriminate.
    destruct p; try discriminate. injection H as <-. split; [exact KB|].
    eapply (J_put I I2 I3 K Hi). reflexivity.
Qed.

Lemma J_init psz ts m0 d0 : J psz (dinit ts m0 d0) (fun a o => Some (d0 a o)).
Proof.
  assert (Z : forall i t e p, nth_error (ags (init ts)) i <> Some (t, On e p)).
  { intros i t e p H. cbn in H. apply nth_error_In in H. apply in_map_iff in H as (y & Y & _). congruence. }
  constructor; cbn [dinit base mem disk exts]; intros; try (exfalso; eapply Z; eauto; fail); [discriminate|congruence].
Qed.

Theorem dkept_J psz ts m0 d0 d pr : dkept psz ts m0 d0 d pr -> kept ts (base d) /\ J psz d pr.
Proof.
  induction 1 as [|d pr i c d' K [IH1 IH2] RL UR NU H].
  - split; [constructor|apply J_init].
  - eapply J_step; eauto.
Qed.
