(** The invariant of the whole cache, and its preservation by every step of a
    run that keeps the rules. *)
From Coq Require Import List Arith Bool Lia.
From Verif Require Import Cache CacheSpec CacheLocal.
Import ListNotations.
Local Open Scope nat_scope.

(** ** Lists of agents. *)
Lemma nth_put {A} (l : list A) i x j y :
  nth_error l i = Some y ->
  nth_error (put l i x) j = if j =? i then Some x else nth_error l j.
Proof.
  revert i j. induction l as [|z l IH]; intros [|i] [|j] H; cbn in *; try discriminate; auto.
Qed.

Lemma put_length {A} (l : list A) i x : length (put l i x) = length l.
Proof. revert i. induction l; intros [|i]; cbn; auto. Qed.

Definition w (e k : nat) (x : nat * apc) : nat :=
  match snd x with
  | On e' p => if (e' =? e) && hasref p && (slot (fst x) =? k) then 1 else 0
  | _ => 0
  end.

Fixpoint cnt (e k : nat) (l : list (nat * apc)) : nat :=
  match l with [] => 0 | x :: r => w e k x + cnt e k r end.

Lemma cnt_put e k l i x y :
  nth_error l i = Some x -> cnt e k (put l i y) + w e k x = cnt e k l + w e k y.
Proof.
  revert i. induction l as [|z l IH]; intros [|i] H; cbn in *; try discriminate.
  - injection H as ->. lia.
  - specialize (IH _ H). lia.
Qed.

Lemma cnt_ge e k l i x : nth_error l i = Some x -> w e k x <= cnt e k l.
Proof.
  revert i. induction l as [|z l IH]; intros [|i] H; cbn in *; try discriminate.
  - injection H as ->. lia.
  - specialize (IH _ H). lia.
Qed.

Lemma cnt_ge2 e k l i j x y :
  i <> j -> nth_error l i = Some x -> nth_error l j = Some y ->
  w e k x + w e k y <= cnt e k l.
Proof.
  revert i j. induction l as [|z l IH]; intros [|i] [|j] N H1 H2; cbn in *;
    try discriminate; try congruence.
  - injection H1 as ->. pose proof (cnt_ge e k _ _ _ H2). lia.
  - injection H2 as ->. pose proof (cnt_ge e k _ _ _ H1). lia.
  - assert (i <> j) by lia. specialize (IH _ _ H H1 H2). lia.
Qed.

Lemma others_free_spec t i l :
  others_free t i l = true ->
  forall j x, j <> i -> nth_error l j = Some (t, x) -> atok x = false.
Proof.
  revert i. induction l as [|[t0 a] l IH]; intros i H j x N E; cbn [nth_error] in *.
  - destruct j; discriminate.
  - destruct i as [|i]; cbn in H; [rename H into H2|apply andb_true_iff in H as [H1 H2]].
    + destruct j as [|j]; [congruence|]. cbn in E.
      rewrite forallb_forall in H2. apply nth_error_In in E. specialize (H2 _ E).
      cbn in H2. rewrite Nat.eqb_refl in H2. destruct (atok x); [discriminate|reflexivity].
    + destruct j as [|j]; cbn in E.
      * injection E as -> ->. rewrite Nat.eqb_refl in H1.
        destruct (atok x); [discriminate|reflexivity].
      * apply (IH i H2 j x); [lia|exact E].
Qed.

(** ** The invariant. *)
Definition unset (a : nat) (p : lpc) : bool :=
  match p with
  | PLook b | PDa b | NDa b | EDa b | DDa b | AMap b => b =? a
  | _ => false
  end.

Definition quiet (s : state) (i : nat) (f : apc -> bool) : Prop :=
  forall j t x, j <> i -> nth_error (ags s) j = Some (t, x) -> f x = false.

Record Inv (s : state) : Prop := {
  i_ok1 : forall i t e p, nth_error (ags s) i = Some (t, On e p) -> ok1 (ents s e) p;
  i_ok2 : forall i j t t' e p q, i <> j ->
    nth_error (ags s) i = Some (t, On e p) -> nth_error (ags s) j = Some (t', On e q) ->
    ok2 t p t' q;
  i_rc : forall e k, rc (ents s e) k = cnt e k (ags s) /\ rc (ents s e) k <= 255;
  i_fr : forall e, fr (st (ents s e)) = true -> da (ents s e) = None;
  i_busy : forall i t e p, nth_error (ags s) i = Some (t, On e p) -> tok p = true ->
    busy s (batch e) = Some t;
  i_seq : forall i j t t' x y, i <> j ->
    nth_error (ags s) i = Some (t, x) -> nth_error (ags s) j = Some (t', y) ->
    atok x = true -> atok y = true -> t <> t';
  i_map : forall e a, da (ents s e) = Some a ->
    lkp s a = Some e \/
    exists i t p, nth_error (ags s) i = Some (t, On e p) /\ unset a p = true;
  i_addr : forall i t e f a, nth_error (ags s) i = Some (t, On e (LAddr f a)) ->
    lkp s a = Some e;
  i_all : forall i t x a, nth_error (ags s) i = Some (t, x) -> allocating a x = true ->
    lkp s a = None /\
    quiet s i (fun y => getting a y || discarding a y || allocating a y);
  i_dis : forall i t x a, nth_error (ags s) i = Some (t, x) -> discarding a x = true ->
    quiet s i (fun y => getting a y || discarding a y)
}.

(** ** Facts of one access. *)
Lemma tok_mono t en p c won en' p' :
  lstep t en p c won = (en', Stay p') -> tok p' = true -> tok p = true.
Proof.
  intros H T. destruct p; stp H; cbn in *; try discriminate; try reflexivity; auto;
    try (destruct k; auto; discriminate).
Qed.

Definition aft (e : nat) (r : res) : apc :=
  match r with Stay p' => On e p' | Leave n => after n end.

Ltac stpr H :=
  cbn [lstep] in H; bust; try discriminate; apply res_pair in H as [? <-].

Lemma getting_mono t en p c won en' r e a :
  lstep t en p c won = (en', r) -> getting a (aft e r) = true -> lgetting a p = true.
Proof.
  intros H T.
  destruct p;
    repeat match goal with
    | k : kind |- _ => destruct k
    | f : fkind |- _ => destruct f
    | n : next |- _ => destruct n
    end;
    repeat match goal with b : bool |- _ => destruct b end;
    stpr H; cbn in *; try discriminate; rewrite ?T, ?orb_true_r; auto;
    try (apply orb_true_iff in T as [T|T]; rewrite ?T, ?orb_true_r; auto; fail);
    contradiction.
Qed.

Lemma discarding_mono t en p c won en' r e a :
  okpc p ->
  lstep t en p c won = (en', r) -> discarding a (aft e r) = true -> ldiscarding a p = true.
Proof.
  intros OP H T.
  destruct p;
    repeat match goal with
    | k : kind |- _ => destruct k
    | f : fkind |- _ => destruct f
    | n : next |- _ => destruct n
    end;
    repeat match goal with b : bool |- _ => destruct b end;
    stpr H; cbn in *; try discriminate; rewrite ?T, ?orb_true_r; auto;
    try (apply orb_true_iff in T as [T|T]; rewrite ?T, ?orb_true_r; auto; fail);
    destruct OP as [OP|OP]; discriminate OP.
Qed.

Lemma allocating_mono t en p c won en' r e a :
  lstep t en p c won = (en', r) -> allocating a (aft e r) = true -> lallocating a p = true.
Proof.
  intros H T.
  destruct p;
    repeat match goal with
    | k : kind |- _ => destruct k
    | f : fkind |- _ => destruct f
    | n : next |- _ => destruct n
    end;
    repeat match goal with b : bool |- _ => destruct b end;
    stpr H; cbn in *; try discriminate; rewrite ?T, ?orb_true_r; auto;
    try (apply orb_true_iff in T as [T|T]; rewrite ?T, ?orb_true_r; auto; fail);
    contradiction.
Qed.

Lemma fr_step t en p c won en' r :
  ok1 en p -> (fr (st en) = true -> da en = None) ->
  lstep t en p c won = (en', r) -> fr (st en') = true -> da en' = None.
Proof.
  intros P HF H. pose proof (o_noda _ _ P) as N. clear P.
  destruct p; cbn [lstep] in H; bust; try discriminate;
    apply res_pair in H as [<- _]; cbn in *; auto; try discriminate; try congruence;
    intros F;
    repeat match goal with E : flags_eqb _ _ = true |- _ => apply flags_eqb_eq in E; rewrite E in *; cbn in * end;
    try (specialize (HF F); congruence); try discriminate;
    destruct N as [N1 N2]; auto; congruence.
Qed.

Definition hr (r : res) : bool := match r with Stay p' => hasref p' | Leave _ => false end.
Definition b1 (b : bool) : nat := if b then 1 else 0.

Lemma rc_step t en p c won en' r k :
  okpc p ->
  match p with RInc _ | FInc _ => rc en (slot t) < 255 | _ => True end ->
  (hasref p = true -> 1 <= rc en (slot t) <= 255) ->
  lstep t en p c won = (en', r) ->
  rc en' k + b1 (hasref p && (slot t =? k)) = rc en k + b1 (hr r && (slot t =? k)).
Proof.
  intros OP LT GE H.
  assert (INC : rc en (slot t) < 255 ->
          rc (inc_ref t en) k = rc en k + b1 (slot t =? k)).
  { intros L. unfold inc_ref, upd. cbn [rc]. rewrite (Nat.eqb_sym k).
    destruct (slot t =? k) eqn:E; cbn [b1]; [|lia]. apply Nat.eqb_eq in E. subst k.
    unfold rcmod. rewrite Nat.mod_small; lia. }
  assert (DEC : 1 <= rc en (slot t) <= 255 ->
          rc (dec_ref t en) k + b1 (slot t =? k) = rc en k).
  { intros L. unfold dec_ref, upd. cbn [rc]. rewrite (Nat.eqb_sym k).
    destruct (slot t =? k) eqn:E; cbn [b1]; [|lia]. apply Nat.eqb_eq in E. subst k.
    unfold rcmod. replace (rc en (slot t) + (256 - 1)) with (rc en (slot t) - 1 + 1 * 256) by lia.
    rewrite Nat.mod_add by discriminate. rewrite Nat.mod_small; lia. }
  destruct p;
    repeat match goal with
    | k : kind |- _ => destruct k
    | f : fkind |- _ => destruct f
    end;
    try contradiction;
    cbn [lstep] in H; bust; try discriminate; apply res_pair in H as [<- <-];
    cbn [hr hasref after_read andb b1] in *; try reflexivity;
    try (rewrite INC by exact LT; lia);
    try (specialize (DEC (GE eq_refl)); lia);
    destruct (_ =? k); cbn; lia.
Qed.

(** ** Moving an agent that is not on an entry. *)
Definition start (p : lpc) : bool :=
  match p with RTest _ | E0 | W0 _ | S0 | FCas _ => true | _ => false end.

Lemma start_ok1 en p : start p = true -> ok1 en p.
Proof. destruct p; cbn; try discriminate; intros _; constructor; cbn; intros; auto; discriminate. Qed.

Lemma start_ok2 t p t' q : start p = true -> ok2 t p t' q /\ ok2 t' q t p.
Proof.
  destruct p; cbn; try discriminate; intros _;
    (split; constructor; cbn; intros; auto; discriminate).
Qed.

Lemma start_noref p : start p = true -> hasref p = false.
Proof. destruct p; cbn; congruence. Qed.

Definition offp (x : apc) : Prop := match x with On _ _ => False | _ => True end.

Lemma Inv_move s i t x x' :
  Inv s -> nth_error (ags s) i = Some (t, x) -> offp x ->
  (forall e p, x' = On e p -> start p = true) ->
  (forall e p, x' = On e p -> tok p = true ->
     busy s (batch e) = Some t /\ others_free t i (ags s) = true) ->
  (forall a, getting a x' = true ->
     getting a x = true \/ quiet s i (fun y => discarding a y || allocating a y)) ->
  (forall a, discarding a x' = true ->
     discarding a x = true \/
     quiet s i (fun y => getting a y || discarding a y || allocating a y)) ->
  (forall a, allocating a x' = true ->
     allocating a x = true \/
     quiet s i (fun y => getting a y || discarding a y || allocating a y) /\ lkp s a = None) ->
  Inv (move s i t x').
Proof.
  intros I E OFF ST TK GT DS AL.
  assert (NP : forall j, nth_error (put (ags s) i (t, x')) j
                         = if j =? i then Some (t, x') else nth_error (ags s) j).
  { intros j. eapply nth_put; eauto. }
  assert (OLD : forall j tj e p, nth_error (ags s) j = Some (tj, On e p) -> j <> i).
  { intros j tj e p H ->. rewrite E in H. injection H as _ ->. destruct OFF. }
  constructor; unfold move, quiet; cbn [ents lkp busy ags].
  - intros j tj e p H. rewrite NP in H. destruct (j =? i) eqn:J; cbv iota in H.
    + injection H as -> ->. apply start_ok1. eapply ST; eauto.
    + eapply i_ok1; eauto.
  - intros j k tj tk e p q N H1 H2. rewrite NP in H1, H2.
    destruct (j =? i) eqn:J1, (k =? i) eqn:J2; cbv iota in H1, H2.
    + apply Nat.eqb_eq in J1, J2. congruence.
    + injection H1 as -> ->. apply (start_ok2 tj p tk q). eapply ST; eauto.
    + injection H2 as -> ->. apply (start_ok2 tk q tj p). eapply ST; eauto.
    + eapply (i_ok2 _ I j k); eauto.
  - intros e k. destruct (i_rc _ I e k) as [R1 R2]. split; [|exact R2].
    rewrite R1.
    pose proof (cnt_put e k _ _ _ (t, x') E) as C.
    assert (w e k (t, x) = 0) as W1 by (destruct x; [reflexivity..|destruct OFF]).
    assert (w e k (t, x') = 0) as W2.
    { destruct x'; try reflexivity. unfold w. cbn [snd].
      rewrite (start_noref p); [|eapply ST; reflexivity].
      rewrite andb_false_r. reflexivity. }
    lia.
  - apply (i_fr _ I).
  - intros j tj e p H T. rewrite NP in H. destruct (j =? i) eqn:J; cbv iota in H.
    + injection H as -> ->. eapply TK; eauto.
    + eapply i_busy; eauto.
  - assert (ONE : forall k tk y, k <> i -> nth_error (ags s) k = Some (tk, y) ->
               atok x' = true -> atok y = true -> t <> tk).
    { intros k tk y N H T1 T2 ->. destruct x' as [| | |e p]; try discriminate.
      destruct (TK e p eq_refl T1) as [_ OF].
      rewrite (others_free_spec _ _ _ OF _ _ N H) in T2. discriminate. }
    intros j k tj tk y z N H1 H2 T1 T2. rewrite NP in H1, H2.
    destruct (j =? i) eqn:J1, (k =? i) eqn:J2; cbv iota in H1, H2.
    + apply Nat.eqb_eq in J1, J2. congruence.
    + injection H1 as <- <-. apply Nat.eqb_neq in J2. eapply ONE; eauto.
    + injection H2 as <- <-. apply Nat.eqb_neq in J1. intros ->. eapply (ONE j); eauto.
    + eapply (i_seq _ I j k); eauto.
  - intros e a D. destruct (i_map _ I e a D) as [M|(j & tj & p & M & U)]; [left; exact M|].
    right. exists j, tj, p. split; [|exact U]. rewrite NP.
    rewrite (proj2 (Nat.eqb_neq j i)); [exact M|]. eapply OLD; eauto.
  - intros j tj e f a H. rewrite NP in H. destruct (j =? i) eqn:J; cbv iota in H.
    + injection H as -> ->. specialize (ST _ _ eq_refl). discriminate.
    + eapply i_addr; eauto.
  - intros j tj y a H A. rewrite NP in H. destruct (j =? i) eqn:J; cbv iota in H.
    + apply Nat.eqb_eq in J. subst j. injection H as <- <-.
      assert (OLDQ : lkp s a = None /\
        quiet s i (fun y => getting a y || discarding a y || allocating a y)).
      { destruct (AL a A) as [A'|[A1 A2]]; [eapply i_all; eauto|auto]. }
      destruct OLDQ as [L Qt]. split; [exact L|].
      intros k tk z N K. rewrite NP in K. rewrite (proj2 (Nat.eqb_neq k i) N) in K.
      eapply Qt; eauto.
    + apply Nat.eqb_neq in J. destruct (i_all _ I j tj y a H A) as [L Qt].
      split; [exact L|]. intros k tk z N K. rewrite NP in K.
      destruct (k =? i) eqn:J2; cbv iota in K; [|eapply Qt; eauto].
      injection K as <- <-. pose proof (Qt i t x (not_eq_sym J) E) as Q0. cbn in Q0.
      apply orb_false_iff in Q0 as [Q0 Q3]. apply orb_false_iff in Q0 as [Q1 Q2].
      destruct (getting a x') eqn:G1.
      { destruct (GT a G1) as [G2|G2]; [congruence|].
        specialize (G2 j tj y J H). cbn in G2. rewrite A, orb_true_r in G2. discriminate. }
      destruct (discarding a x') eqn:G2.
      { destruct (DS a G2) as [G3|G3]; [congruence|].
        specialize (G3 j tj y J H). cbn in G3. rewrite A, orb_true_r in G3. discriminate. }
      destruct (allocating a x') eqn:G3.
      { destruct (AL a G3) as [G4|[G4 _]]; [congruence|].
        specialize (G4 j tj y J H). cbn in G4. rewrite A, orb_true_r in G4. discriminate. }
      reflexivity.
  - intros j tj y a H A. rewrite NP in H. destruct (j =? i) eqn:J; cbv iota in H.
    + apply Nat.eqb_eq in J. subst j. injection H as <- <-.
      assert (Qt : quiet s i (fun y => getting a y || discarding a y)).
      { destruct (DS a A) as [A'|A1]; [eapply i_dis; eauto|].
        intros k tk z N K. specialize (A1 k tk z N K). cbn in A1.
        apply orb_false_iff in A1 as [A1 _]. exact A1. }
      intros k tk z N K. rewrite NP in K. rewrite (proj2 (Nat.eqb_neq k i) N) in K.
      eapply Qt; eauto.
    + apply Nat.eqb_neq in J. pose proof (i_dis _ I j tj y a H A) as Qt.
      intros k tk z N K. rewrite NP in K.
      destruct (k =? i) eqn:J2; cbv iota in K; [|eapply Qt; eauto].
      injection K as <- <-. pose proof (Qt i t x (not_eq_sym J) E) as Q0. cbn in Q0.
      apply orb_false_iff in Q0 as [Q1 Q2].
      destruct (getting a x') eqn:G1.
      { destruct (GT a G1) as [G2|G2]; [congruence|].
        specialize (G2 j tj y J H). cbn in G2. rewrite A in G2. discriminate. }
      destruct (discarding a x') eqn:G2.
      { destruct (DS a G2) as [G3|G3]; [congruence|].
        specialize (G3 j tj y J H). cbn in G3. rewrite A, orb_true_r in G3. discriminate. }
      reflexivity.
Qed.

(** ** A step on an entry. *)
Lemma settle s j t e q a :
  Inv s -> nth_error (ags s) j = Some (t, On e q) -> verif q = Some a ->
  heldty q = true \/ loaderb q = true -> unset a q = false -> lkp s a = Some e.
Proof.
  intros I H V HL U. pose proof (i_ok1 _ I _ _ _ _ H) as Q1.
  destruct (o_ver _ _ Q1 _ V) as [D _].
  destruct (i_map _ I e a D) as [M|(i & ti & p & M & UP)]; [exact M|exfalso].
  assert (N : i <> j) by congruence.
  pose proof (i_ok1 _ I _ _ _ _ M) as P1.
  pose proof (i_ok2 _ I _ _ _ _ _ _ _ N M H) as PQ.
  pose proof (i_ok2 _ I _ _ _ _ _ _ _ (not_eq_sym N) H M) as QP.
  assert (PC : loaderb p = true \/ (heldty p = true /\ (cleared p = true \/ lockA p = Some a))).
  { destruct p; cbn in UP |- *; try discriminate; auto.
    apply Nat.eqb_eq in UP. subst. auto. }
  destruct HL as [HL|HL].
  - pose proof (o_held _ _ Q1 HL) as LD.
    destruct PC as [PC|[PC1 PC]].
    + apply (o_load _ _ P1) in PC. congruence.
    + assert (R : hasref q = true).
      { destruct q; cbn in V, HL |- *; try discriminate; reflexivity. }
      destruct PC as [PC|PC].
      * apply (q_clear _ _ _ _ PQ PC) in R. apply doomed_verif in R. congruence.
      * apply (q_lock _ _ _ _ PQ _ PC) in R. apply safe_verif in R. congruence.
  - pose proof (o_load _ _ Q1 HL) as LD.
    destruct PC as [PC|[PC1 PC]].
    + rewrite (q_load _ _ _ _ PQ PC) in HL. discriminate.
    + apply (o_held _ _ P1) in PC1. congruence.
Qed.

Lemma guard_of s i j t t' e p q :
  Inv s -> i <> j ->
  nth_error (ags s) i = Some (t, On e p) -> nth_error (ags s) j = Some (t', On e q) ->
  no_race s i -> guard (ents s e) t p t' q.
Proof.
  intros I N Hi Hj NR. constructor.
  - intros T. destruct (tok q) eqn:TQ; [exfalso|reflexivity].
    apply (i_seq _ I i j t t' _ _ N Hi Hj); auto.
    pose proof (i_busy _ I _ _ _ _ Hi T) as B1.
    pose proof (i_busy _ I _ _ _ _ Hj TQ) as B2. congruence.
  - intros n L Rp Rq E. destruct (i_rc _ I e n) as [R _].
    pose proof (cnt_ge2 e n _ _ _ _ _ N Hi Hj) as C.
    unfold w in C. cbn [fst snd] in C. rewrite Nat.eqb_refl, Rp, Rq in C.
    rewrite (proj2 (Nat.eqb_eq (slot t') n) E) in C. cbn [andb] in C.
    rewrite (Nat.eqb_sym (slot t)) in C. destruct (n =? slot t); lia.
  - intros a A. destruct (i_all _ I i t (On e p) a Hi A) as [_ Qt].
    specialize (Qt j t' _ (not_eq_sym N) Hj). cbn in Qt.
    apply orb_false_iff in Qt as [Qt _]. apply orb_false_iff in Qt. exact Qt.
  - intros a A. destruct (ldiscarding a q) eqn:D; [|reflexivity].
    pose proof (i_dis _ I j t' (On e q) a Hj D) as Qt.
    specialize (Qt i t _ N Hi). cbn in Qt. rewrite A in Qt. discriminate.
  - unfold no_race in NR. rewrite Hi in NR.
    destruct p; try exact Logic.I;
      specialize (NR j t' _ (not_eq_sym N) Hj); cbn in NR |- *;
      rewrite Nat.eqb_refl in NR; exact NR.
Qed.

Lemma leff_cases e p won lk a :
  leff e p won lk a = lk a \/
  (leff e p won lk a = None /\ (p = EMapW a \/ p = DMap a \/ p = NMap a)) \/
  (leff e p won lk a = Some e /\ won = true /\ ((exists f, p = LLook f a) \/ p = PLook a)) \/
  (leff e p won lk a = Some e /\ p = AMap a).
Proof.
  destruct p; cbn [leff]; auto; unfold upd; try (destruct won; auto);
    (destruct (a =? _) eqn:E; auto); apply Nat.eqb_eq in E; subst;
    eauto 8.
Qed.

Lemma wins_none p lk a :
  wins p lk = true -> (exists f, p = LLook f a) \/ p = PLook a -> lk a = None.
Proof.
  intros W [[f ->]| ->]; cbn in W; destruct (lk a); congruence.
Qed.

(** The lookup slot of a page that some settled entry has does not change. *)
Lemma leff_keep s i t e p e2 a :
  Inv s -> nth_error (ags s) i = Some (t, On e p) -> lkp s a = Some e2 ->
  leff e p (wins p (lkp s)) (lkp s) a = Some e2 \/
  (e2 = e /\ leff e p (wins p (lkp s)) (lkp s) a = None /\
   (p = EMapW a \/ p = DMap a \/ p = NMap a)).
Proof.
  intros I H L.
  destruct (leff_cases e p (wins p (lkp s)) (lkp s) a) as [K|[[K1 K2]|[(K1 & K2 & K3)|[K1 K2]]]].
  - left. congruence.
  - right. split; [|auto].
    assert (lkp s a = Some e) as X; [|congruence].
    destruct K2 as [->|[->| ->]]; (apply (settle _ _ _ _ _ _ I H); [reflexivity|cbn; auto|reflexivity]).
  - rewrite (wins_none _ _ _ K2 K3) in L. discriminate.
  - subst p. destruct (i_all _ I i t (On e (AMap a)) a H) as [X _]; [apply Nat.eqb_refl|congruence].
Qed.

Section OnStep.
Context {s : state} {i t e : nat} {p : lpc} {c : act} {en' : entry} {r : res}.
Hypothesis I : Inv s.
Hypothesis Hi : nth_error (ags s) i = Some (t, On e p).
Hypothesis NR : no_race s i.
Let won := wins p (lkp s).
Hypothesis H : lstep t (ents s e) p c won = (en', r).
Let s' := St (upd (ents s) e en') (leff e p won (lkp s)) (busy s)
             (put (ags s) i (t, aft e r)).

Lemma np j : nth_error (ags s') j = if j =? i then Some (t, aft e r) else nth_error (ags s) j.
Proof. cbn [s' ags]. eapply nth_put; eauto. Qed.

Lemma new_i j tj x : j <> i -> nth_error (ags s') j = Some (tj, x) -> nth_error (ags s) j = Some (tj, x).
Proof. intros N K. rewrite np in K. rewrite (proj2 (Nat.eqb_neq j i) N) in K. exact K. Qed.

Lemma at_i tj x : nth_error (ags s') i = Some (tj, x) -> tj = t /\ x = aft e r.
Proof. intros K. rewrite np, Nat.eqb_refl in K. split; congruence. Qed.

Lemma aft_on e2 p2 : On e2 p2 = aft e r -> e2 = e /\ r = Stay p2.
Proof. destruct r as [p'|n]; cbn; [|destruct n; discriminate]. intros K; injection K as -> ->; auto. Qed.

Lemma on_ok1 j tj e2 q : nth_error (ags s') j = Some (tj, On e2 q) -> ok1 (ents s' e2) q.
Proof.
  intros K. cbn [s' ents]. unfold upd. destruct (Nat.eq_dec j i) as [->|N].
  - apply at_i in K as [-> K]. apply aft_on in K as [-> K]. rewrite Nat.eqb_refl.
    rewrite K in H. eapply own; eauto; [eapply i_ok1; eauto|apply (i_fr _ I)].
  - apply new_i in K; [|exact N]. destruct (e2 =? e) eqn:E2.
    + apply Nat.eqb_eq in E2. subst e2.
      eapply (other t _ p c won en' r tj); try exact H.
      * eapply i_ok1; eauto.
      * eapply i_ok1; eauto.
      * eapply (i_ok2 _ I i j); eauto.
      * eapply (i_ok2 _ I j i); eauto.
      * eapply (guard_of s i j); eauto.
      * apply (i_fr _ I).
    + eapply i_ok1; eauto.
Qed.

Lemma on_pair j tj q p' : j <> i -> nth_error (ags s) j = Some (tj, On e q) -> r = Stay p' ->
  ok2 t p' tj q /\ ok2 tj q t p'.
Proof.
  intros N K E. rewrite E in H. eapply (@pair_ok t (ents s e) p c won en' p' tj q); try exact H.
  - eapply i_ok1; eauto.
  - eapply i_ok1; eauto.
  - eapply (i_ok2 _ I i j); eauto.
  - eapply (i_ok2 _ I j i); eauto.
  - eapply (guard_of s i j); eauto.
Qed.

Lemma on_ok2 j k tj tk e2 q u : j <> k ->
  nth_error (ags s') j = Some (tj, On e2 q) -> nth_error (ags s') k = Some (tk, On e2 u) ->
  ok2 tj q tk u.
Proof.
  intros N K1 K2. destruct (Nat.eq_dec j i) as [->|N1], (Nat.eq_dec k i) as [->|N2].
  - congruence.
  - apply at_i in K1 as [-> K1]. apply aft_on in K1 as [-> K1]. apply new_i in K2; [|exact N2].
    eapply on_pair; eauto.
  - apply at_i in K2 as [-> K2]. apply aft_on in K2 as [-> K2]. apply new_i in K1; [|exact N1].
    eapply on_pair; eauto.
  - apply new_i in K1; [|exact N1]. apply new_i in K2; [|exact N2].
    eapply (i_ok2 _ I j k); eauto.
Qed.

Lemma on_rc e2 k : rc (ents s' e2) k = cnt e2 k (ags s') /\ rc (ents s' e2) k <= 255.
Proof.
  destruct (i_rc _ I e2 k) as [R1 R2].
  pose proof (cnt_put e2 k _ _ _ (t, aft e r) Hi) as C. cbn [s' ents ags]. unfold upd.
  destruct (e2 =? e) eqn:E2.
  - apply Nat.eqb_eq in E2. subst e2.
    assert (W1 : w e k (t, On e p) = b1 (hasref p && (slot t =? k))).
    { unfold w, b1. cbn [fst snd]. rewrite Nat.eqb_refl. reflexivity. }
    assert (W2 : w e k (t, aft e r) = b1 (hr r && (slot t =? k))).
    { unfold w, b1. cbn [fst snd]. destruct r as [p'|n]; cbn [aft hr].
      - rewrite Nat.eqb_refl. reflexivity.
      - destruct n; reflexivity. }
    assert (RS : rc en' k + b1 (hasref p && (slot t =? k))
                 = rc (ents s e) k + b1 (hr r && (slot t =? k))).
    { eapply rc_step; [|..|exact H].
      - eapply o_pc, i_ok1; eauto.
      - unfold no_race in NR. rewrite Hi in NR. destruct p; auto.
      - intros R. destruct (i_rc _ I e (slot t)) as [S1 S2]. split; [|exact S2].
        rewrite S1. pose proof (cnt_ge e (slot t) _ _ _ Hi) as C1. unfold w in C1.
        cbn [fst snd] in C1. rewrite !Nat.eqb_refl, R in C1. exact C1. }
    rewrite W1, W2 in C.
    split; [lia|].
    (* the bound *)
    destruct (slot t =? k) eqn:SK.
    + apply Nat.eqb_eq in SK. subst k. unfold b1 in RS. rewrite !andb_true_r in RS.
      destruct (hasref p) eqn:HP.
      * destruct (hr r); lia.
      * destruct (hr r) eqn:HR; [|lia].
        assert (rc (ents s e) (slot t) < 255); [|lia].
        unfold no_race in NR. rewrite Hi in NR.
        clear - NR H HP HR. destruct r as [p'|n]; [|discriminate]. cbn [hr] in HR.
        destruct p; stp H; cbn in *; try discriminate; auto.
        all: destruct f; discriminate.
    + rewrite !andb_false_r in RS. cbn in RS. lia.
  - assert (W1 : w e2 k (t, On e p) = 0).
    { unfold w. cbn [fst snd]. rewrite (Nat.eqb_sym e), E2. reflexivity. }
    assert (W2 : w e2 k (t, aft e r) = 0).
    { unfold w. cbn [fst snd]. destruct r as [p'|n]; cbn [aft].
      - rewrite (Nat.eqb_sym e), E2. reflexivity.
      - destruct n; reflexivity. }
    split; lia.
Qed.

Lemma aft_tok : atok (aft e r) = true -> tok p = true.
Proof.
  destruct r as [p'|n] eqn:E; cbn; [|destruct n; discriminate]. eapply tok_mono; eauto.
Qed.

Lemma on_map e2 a : da (ents s' e2) = Some a ->
  lkp s' a = Some e2 \/
  exists j tj q, nth_error (ags s') j = Some (tj, On e2 q) /\ unset a q = true.
Proof.
  cbn [s' ents lkp]. unfold upd. destruct (e2 =? e) eqn:E2.
  - apply Nat.eqb_eq in E2. subst e2. intros D.
    assert (WIT : forall p', r = Stay p' -> unset a p' = true ->
      exists j tj q, nth_error (ags s') j = Some (tj, On e q) /\ unset a q = true).
    { intros p' E U. exists i, t, p'. split; [|exact U]. rewrite np, Nat.eqb_refl, E. reflexivity. }
    assert (NEW : (exists f, p = LLook f a \/ p = LAddr f a) \/ p = PAddr a \/ p = AAddr a \/ da (ents s e) = Some a).
    { clear - H D. destruct p; cbn [lstep] in H; bust; try discriminate;
        apply res_pair in H as [<- _]; cbn in D; try discriminate; eauto 8.
      all: try (right; right; right; congruence).
      all: injection D as ->; eauto 8. }
    destruct NEW as [[f [E|E]]|[E|[E|D0]]].
    + (* LLook: the address cannot be there *)
      exfalso. pose proof (i_ok1 _ I _ _ _ _ Hi) as P1. rewrite E in P1.
      destruct (o_noda _ _ P1 eq_refl) as [N1 _].
      clear - H E N1 D. rewrite E in H. cbn [lstep] in H. bust;
        apply res_pair in H as [<- _]; congruence.
    + left. pose proof Hi as Hi'. rewrite E in Hi'. apply (i_addr _ I) in Hi'.
      rewrite E. exact Hi'.
    + right. apply (WIT (PLook a)); [|apply Nat.eqb_refl].
      rewrite E in H. cbn in H. congruence.
    + right. apply (WIT (AMap a)); [|apply Nat.eqb_refl].
      rewrite E in H. cbn in H. congruence.
    + destruct (i_map _ I e a D0) as [M|(j & tj & q & M & U)].
      * destruct (leff_keep _ _ _ _ _ _ _ I Hi M) as [K|(_ & _ & K)]; [left; exact K|right].
        destruct K as [->|[->| ->]]; cbn in H.
        -- apply (WIT (EDa a)); [congruence|apply Nat.eqb_refl].
        -- apply (WIT (DDa a)); [congruence|apply Nat.eqb_refl].
        -- apply (WIT (NDa a)); [congruence|apply Nat.eqb_refl].
      * destruct (Nat.eq_dec j i) as [->|N].
        -- rewrite Hi in M. injection M as <- <-.
           clear - H U D WIT. subst won.
           destruct p; cbn in U; try discriminate; apply Nat.eqb_eq in U; subst;
             cbn [lstep] in H; apply res_pair in H as [HE HR]; subst en'; cbn in D; try discriminate.
           ++ left. cbn [leff]. unfold upd. rewrite Nat.eqb_refl. reflexivity.
           ++ cbn [leff wins] in *. destruct (lkp s a).
              ** right. apply (WIT (PDa a)); [congruence|apply Nat.eqb_refl].
              ** left. unfold upd. rewrite Nat.eqb_refl. reflexivity.
        -- right. exists j, tj, q. split; [|exact U]. rewrite np.
           rewrite (proj2 (Nat.eqb_neq j i) N). exact M.
  - intros D. apply Nat.eqb_neq in E2.
    destruct (i_map _ I e2 a D) as [M|(j & tj & q & M & U)].
    + destruct (leff_keep _ _ _ _ _ _ _ I Hi M) as [K|(K & _)]; [left; exact K|congruence].
    + right. exists j, tj, q. split; [|exact U]. rewrite np.
      assert (N : j <> i) by congruence.
      rewrite (proj2 (Nat.eqb_neq j i) N). exact M.
Qed.

Lemma on_addr j tj e2 f a : nth_error (ags s') j = Some (tj, On e2 (LAddr f a)) ->
  lkp s' a = Some e2.
Proof.
  intros K. cbn [s' lkp]. destruct (Nat.eq_dec j i) as [->|N].
  - apply at_i in K as [-> K]. apply aft_on in K as [-> K]. rewrite K in H.
    clear - H. subst won. destruct p; stp H.
    subst. cbn [leff].
    unfold upd. rewrite Nat.eqb_refl. reflexivity.
  - apply new_i in K; [|exact N]. pose proof (i_addr _ I _ _ _ _ _ K) as L.
    destruct (leff_keep _ _ _ _ _ _ _ I Hi L) as [X|(-> & _ & X)]; [exact X|exfalso].
    pose proof (guard_of _ _ _ _ _ _ _ _ I (not_eq_sym N) Hi K NR) as G.
    destruct X as [->|[->| ->]].
    + pose proof (g_tok _ _ _ _ _ G eq_refl). discriminate.
    + pose proof (o_held _ _ (i_ok1 _ I _ _ _ _ Hi) eq_refl) as X1.
      pose proof (o_load _ _ (i_ok1 _ I _ _ _ _ K) eq_refl) as X2. congruence.
    + pose proof (g_tok _ _ _ _ _ G eq_refl). discriminate.
Qed.

Lemma on_mentions a :
  getting a (On e p) = false -> getting a (aft e r) = false.
Proof.
  intros X. destruct (getting a (aft e r)) eqn:E; [|reflexivity].
  pose proof (getting_mono _ _ _ _ _ _ _ _ _ H E). cbn in X. congruence.
Qed.
Lemma on_discards a :
  discarding a (On e p) = false -> discarding a (aft e r) = false.
Proof.
  intros X. destruct (discarding a (aft e r)) eqn:E; [|reflexivity].
  pose proof (discarding_mono _ _ _ _ _ _ _ _ _ (o_pc _ _ (i_ok1 _ I _ _ _ _ Hi)) H E).
  cbn in X. congruence.
Qed.
Lemma on_allocs a :
  allocating a (On e p) = false -> allocating a (aft e r) = false.
Proof.
  intros X. destruct (allocating a (aft e r)) eqn:E; [|reflexivity].
  pose proof (allocating_mono _ _ _ _ _ _ _ _ _ H E). cbn in X. congruence.
Qed.

Lemma on_all j tj x a : nth_error (ags s') j = Some (tj, x) -> allocating a x = true ->
  lkp s' a = None /\ quiet s' j (fun y => getting a y || discarding a y || allocating a y).
Proof.
  intros K A. destruct (Nat.eq_dec j i) as [->|N].
  - apply at_i in K as [-> ->].
    assert (A0 : allocating a (On e p) = true).
    { destruct (allocating a (On e p)) eqn:E; [reflexivity|]. rewrite (on_allocs _ E) in A. discriminate. }
    destruct (i_all _ I _ _ _ _ Hi A0) as [L Qt]. split.
    + cbn [s' lkp]. destruct (leff_cases e p won (lkp s) a) as [Z|[[Z _]|[(Z1 & Z2 & Z3)|[Z1 Z2]]]];
        [congruence|exact Z| |].
      * exfalso. destruct Z3 as [[f Z3]|Z3]; rewrite Z3 in A0; discriminate.
      * exfalso. rewrite Z2 in H. cbn in H. injection H as _ <-. discriminate.
    + intros k tk y N K. apply new_i in K; [|exact N]. eapply Qt; eauto.
  - apply new_i in K; [|exact N]. destruct (i_all _ I _ _ _ _ K A) as [L Qt].
    pose proof (Qt i t _ (not_eq_sym N) Hi) as X. cbn beta in X.
    apply orb_false_iff in X as [X X3]. apply orb_false_iff in X as [X1 X2]. split.
    + cbn [s' lkp]. destruct (leff_cases e p won (lkp s) a) as [Z|[[Z _]|[(Z1 & Z2 & Z3)|[Z1 Z2]]]];
        [congruence|exact Z| |].
      * exfalso. destruct Z3 as [[f Z3]|Z3]; rewrite Z3 in X1; cbn in X1;
          rewrite Nat.eqb_refl, ?orb_true_r in X1; discriminate.
      * exfalso. rewrite Z2 in X3; cbn in X3; rewrite Nat.eqb_refl in X3; discriminate.
    + intros k tk y M K2. destruct (Nat.eq_dec k i) as [->|N2].
      * apply at_i in K2 as [-> ->].
        rewrite on_mentions, on_discards, on_allocs; auto.
      * apply new_i in K2; [|exact N2]. eapply Qt; eauto.
Qed.

Lemma on_dis j tj x a : nth_error (ags s') j = Some (tj, x) -> discarding a x = true ->
  quiet s' j (fun y => getting a y || discarding a y).
Proof.
  intros K A. destruct (Nat.eq_dec j i) as [->|N].
  - apply at_i in K as [-> ->].
    assert (A0 : discarding a (On e p) = true).
    { destruct (discarding a (On e p)) eqn:E; [reflexivity|]. rewrite (on_discards _ E) in A. discriminate. }
    pose proof (i_dis _ I _ _ _ _ Hi A0) as Qt.
    intros k tk y N K. apply new_i in K; [|exact N]. eapply Qt; eauto.
  - apply new_i in K; [|exact N]. pose proof (i_dis _ I _ _ _ _ K A) as Qt.
    pose proof (Qt i t _ (not_eq_sym N) Hi) as X. cbn beta in X.
    apply orb_false_iff in X as [X1 X2].
    intros k tk y M K2. destruct (Nat.eq_dec k i) as [->|N2].
    * apply at_i in K2 as [-> ->]. rewrite on_mentions, on_discards; auto.
    * apply new_i in K2; [|exact N2]. eapply Qt; eauto.
Qed.

Lemma Inv_on : Inv s'.
Proof.
  constructor.
  - apply on_ok1.
  - apply on_ok2.
  - apply on_rc.
  - intros e2. cbn [s' ents]. unfold upd. destruct (e2 =? e); [|apply (i_fr _ I)].
    eapply fr_step; eauto; [eapply i_ok1; eauto|apply (i_fr _ I)].
  - intros j tj e2 q K T. cbn [s' busy]. destruct (Nat.eq_dec j i) as [->|N].
    + apply at_i in K as [-> K]. pose proof aft_tok as AT. rewrite <- K in AT.
      apply aft_on in K as [-> K]. eapply i_busy; eauto.
    + apply new_i in K; [|exact N]. eapply i_busy; eauto.
  - intros j k tj tk x y N K1 K2 T1 T2.
    destruct (Nat.eq_dec j i) as [->|N1], (Nat.eq_dec k i) as [->|N2].
    + congruence.
    + apply at_i in K1 as [-> ->]. apply new_i in K2; [|exact N2].
      eapply (i_seq _ I i k); eauto. apply aft_tok. exact T1.
    + apply at_i in K2 as [-> ->]. apply new_i in K1; [|exact N1].
      eapply (i_seq _ I j i); eauto. apply aft_tok. exact T2.
    + apply new_i in K1; [|exact N1]. apply new_i in K2; [|exact N2].
      eapply (i_seq _ I j k); eauto.
  - apply on_map.
  - apply on_addr.
  - apply on_all.
  - apply on_dis.
Qed.
End OnStep.

(** ** The batch locks. *)
Lemma Inv_busy s b v :
  Inv s ->
  (forall i t e p, nth_error (ags s) i = Some (t, On e p) -> tok p = true -> batch e <> b) ->
  Inv (St (ents s) (lkp s) (upd (busy s) b v) (ags s)).
Proof.
  intros I H. destruct I. constructor; auto.
  intros i t e p K T. cbn [busy ags] in *. unfold upd.
  rewrite (proj2 (Nat.eqb_neq (batch e) b)); eauto.
Qed.

Lemma Inv_init ts : Inv (init ts).
Proof.
  assert (Z : forall i t x, nth_error (ags (init ts)) i = Some (t, x) -> x = Idle).
  { intros i t x H. cbn in H. apply nth_error_In in H. apply in_map_iff in H as (y & Y & _). congruence. }
  assert (C : forall e k l, cnt e k (map (fun t => (t, Idle)) l) = 0).
  { intros e k l. induction l; cbn; auto. }
  constructor; intros; cbn [init ents da st fr en0 rc] in *;
    repeat match goal with K : nth_error _ _ = Some (_, ?x) |- _ =>
      lazymatch x with Idle => fail | _ => let E := fresh in pose proof (Z _ _ _ K) as E; try discriminate E; subst x end
    end; try discriminate; auto.
  unfold init. cbn [ags]. rewrite C. split; lia.
Qed.

Lemma none_quiet s i f : none_but s i f -> quiet s i f.
Proof. exact (fun x => x). Qed.

Lemma Inv_step s i c s' :
  Inv s -> caller_rule s i c -> no_race s i -> step s i c = Some s' -> Inv s'.
Proof.
  intros I CR NR H. unfold step in H.
  destruct (nth_error (ags s) i) as [[t x]|] eqn:Hi; [|discriminate].
  destruct x as [|k|f|e p].
  - destruct c as [c|a|a|a|a|a|e|e|e u|e|b|b|e]; try discriminate; cbn [caller_rule] in CR.
    + injection H as <-. eapply (Inv_move s i t); eauto; cbn; try discriminate; try exact Logic.I.
      intros a0 E. right. apply Nat.eqb_eq in E. subst. exact CR.
    + injection H as <-. eapply (Inv_move s i t); eauto; cbn; try discriminate; try exact Logic.I.
      intros a0 E. right. apply Nat.eqb_eq in E. subst. exact CR.
    + injection H as <-. eapply (Inv_move s i t); eauto; cbn; try discriminate; try exact Logic.I.
      intros a0 E. right. apply Nat.eqb_eq in E. subst. exact CR.
    + injection H as <-. eapply (Inv_move s i t); eauto; cbn; try discriminate; try exact Logic.I.
      intros a0 E. right. apply Nat.eqb_eq in E. subst. exact CR.
    + injection H as <-. eapply (Inv_move s i t); eauto; cbn; try discriminate; try exact Logic.I.
      intros a0 E. right. apply Nat.eqb_eq in E. subst. exact CR.
    + destruct (busy s (batch e)) as [t'|] eqn:B; [|discriminate].
      destruct ((t' =? t) && others_free t i (ags s)) eqn:E; [|discriminate].
      apply andb_true_iff in E as [E1 E2]. apply Nat.eqb_eq in E1. subst t'.
      injection H as <-. eapply (Inv_move s i t); eauto; cbn; try discriminate; try exact Logic.I.
      * intros e0 p E. injection E as <- <-. reflexivity.
      * intros e0 p E _. injection E as <- <-. auto.
    + contradiction.
    + injection H as <-. eapply (Inv_move s i t); eauto; cbn; try discriminate; try exact Logic.I.
      * intros e0 p E. injection E as <- <-. reflexivity.
      * intros e0 p E T. injection E as <- <-. discriminate.
    + injection H as <-. eapply (Inv_move s i t); eauto; cbn; try discriminate; try exact Logic.I.
      * intros e0 p E. injection E as <- <-. reflexivity.
      * intros e0 p E T. injection E as <- <-. discriminate.
    + destruct (busy s b) eqn:B; [discriminate|]. injection H as <-.
      apply Inv_busy; [exact I|]. intros j tj e p K T E. subst b.
      rewrite (i_busy _ I _ _ _ _ K T) in B. discriminate.
    + destruct (busy s b) as [t'|] eqn:B; [|discriminate].
      destruct ((t' =? t) && others_free t i (ags s)) eqn:E; [|discriminate].
      apply andb_true_iff in E as [E1 E2]. apply Nat.eqb_eq in E1. subst t'.
      injection H as <-. apply Inv_busy; [exact I|]. intros j tj e p K T E. subst b.
      pose proof (i_busy _ I _ _ _ _ K T) as B2. rewrite B in B2. injection B2 as <-.
      destruct (Nat.eq_dec j i) as [->|N]; [congruence|].
      pose proof (others_free_spec _ _ _ E2 _ _ N K) as X. cbn in X. congruence.
  - destruct (target k) as [a|] eqn:T; [|discriminate].
    destruct (lkp s a) as [e|] eqn:L.
    + injection H as <-. eapply (Inv_move s i t); eauto; cbn; try discriminate; try exact Logic.I; auto.
      * intros e0 p E. injection E as <- <-. reflexivity.
      * intros e0 p E TK. injection E as <- <-. destruct k; discriminate.
    + destruct k; cbn in T; try discriminate; injection H as <-;
        (eapply (Inv_move s i t); eauto; cbn; try discriminate; try exact Logic.I; auto).
  - destruct c as [c|a|a|a|a|a|e|e|e u|e|b|b|e]; try discriminate.
    destruct (busy s (batch e)) as [t'|] eqn:B; [|discriminate].
    destruct ((t' =? t) && others_free t i (ags s)) eqn:E; [|discriminate].
    apply andb_true_iff in E as [E1 E2]. apply Nat.eqb_eq in E1. subst t'.
    injection H as <-. eapply (Inv_move s i t); eauto; cbn; try discriminate; try exact Logic.I; auto.
    * intros e0 p E. injection E as <- <-. reflexivity.
    * intros e0 p E _. injection E as <- <-. auto.
  - destruct c; try discriminate.
    destruct (lstep t (ents s e) p c (wins p (lkp s))) as [en' r] eqn:LS.
    injection H as <-. exact (Inv_on I Hi NR LS).
Qed.

Lemma kept_Inv ts s : kept ts s -> Inv s.
Proof.
  induction 1 as [|s i c s' K IH CR NR H]; [apply Inv_init|eapply Inv_step; eauto].
Qed.
