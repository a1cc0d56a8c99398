(** Invariants of one cache entry: what an agent's place says about the entry
    ([ok1]) and about the other agents on the same entry ([ok2]), and their
    preservation by every access. *)
From Coq Require Import List Arith Bool Lia.
From Verif Require Import Cache CacheSpec.
Import ListNotations.
Local Open Scope nat_scope.

(** The agent's reference is counted. *)
Definition hasref (p : lpc) : bool :=
  match p with
  | RFree _ | RWl _ _ | RAcc _ | RAccSet _ | RDec _ | GAddr _ _ | GLoad _
  | GLoadA _ | Held _ | UAcc _ | UAccSet _ | Claimed _ | CWb _ | CScan _ _
  | Locked _ | EClaim | ELoad | EWset | EWb | EScan _ | EStat | EPin | EMap
  | EMapW _ | EDa _ | EStore | EUnwl | EUncl | DLoad _ | DAddr _ | DClaim _
  | DWset _ | DWb _ | DScan _ _ | DMap _ | DDa _ | DStore | DPin
  | LLook _ _ | LDec _ | LAddr _ _ | LRead _ | NReq _ | LIo _ | NMap _ | NDa _
  | XFree | AAddr _ | AMap _ => true
  | FSet (FPre _) => false
  | FSet _ => true
  | _ => false
  end.

(** It owns the claim flag / the write lock flag / the loading flag. *)
Definition claimsb (p : lpc) : bool :=
  match p with
  | Claimed _ | CWb _ | CScan _ _ | Locked _ | ELoad | EWset | EWb | EScan _
  | EStat | EPin | EMap | EMapW _ | EDa _ | EStore | EUnwl | EUncl | DWset _
  | DWb _ | DScan _ _ | DMap _ | DDa _ | DStore | FInc _ | FSet _ | AAddr _
  | AMap _ => true
  | _ => false
  end.
Definition writesb (p : lpc) : bool :=
  match p with
  | CWb _ | CScan _ _ | Locked _ | EWb | EScan _ | EStat | EPin | EMap | EMapW _
  | EDa _ | EStore | EUnwl | DWb _ | DScan _ _ | DMap _ | DDa _ | DStore
  | FInc _ | FSet _ | AAddr _ | AMap _ => true
  | _ => false
  end.
Definition loaderb (p : lpc) : bool :=
  match p with
  | LLook _ _ | LDec _ | LFree _ | LAddr _ _ | LRead _ | NReq _ | LIo _ | NMap _
  | NDa _ | XFree | PAddr _ | PLook _ | PIo _ | PDa _ | PFree _ => true
  | _ => false
  end.

(** The address it knows the entry to have. *)
Definition verif (p : lpc) : option nat :=
  match p with
  | GLoad a | GLoadA a | Held a | UAcc a | UAccSet a | Claimed a | CWb a
  | CScan _ a | Locked a | EMapW a | EDa a | DClaim a | DWset a | DWb a
  | DScan _ a | DMap a | DDa a | LRead a | NReq a | LIo a | NMap a | NDa a
  | AMap a | PLook a | PIo a | PDa a => Some a
  | _ => None
  end.

(** It knows the entry to have no address. *)
Definition noda (p : lpc) : bool :=
  match p with
  | EStore | DStore | FInc _ | FSet _ | LLook _ _ | LDec _ | LFree _ | LAddr _ _
  | XFree | AAddr _ | PAddr _ | PFree _ => true
  | _ => false
  end.

Definition nofree (p : lpc) : bool :=
  match p with EPin | EMap => true | _ => false end.
Definition pin0 (p : lpc) : bool :=
  match p with EMap | EMapW _ | EDa _ | EStore => true | _ => false end.

(** It knows the entry not to be loading. *)
Definition heldty (p : lpc) : bool :=
  match p with
  | Held _ | UAcc _ | UAccSet _ | Claimed _ | CWb _ | CScan _ _ | Locked _
  | EWset | EWb | EScan _ | EStat | EPin | EMap | EMapW _ | EDa _ | EStore
  | EUnwl | DClaim _ | DWset _ | DWb _ | DScan _ _ | DMap _ | DDa _ | DStore
  | FInc _ | FSet _ | AAddr _ | AMap _ => true
  | _ => false
  end.

(** It is about to give up or has given up. *)
Definition doomed (p : lpc) : bool :=
  match p with RFree _ | RWl _ _ | RDec _ | DPin => true | _ => false end.

(** It has scanned the counters below this one / all of them. *)
Definition scanb (p : lpc) : option nat :=
  match p with CScan n _ | EScan n | DScan n _ => Some n | _ => None end.
Definition cleared (p : lpc) : bool :=
  match p with
  | EStat | EPin | EMap | EMapW _ | EDa _ | EStore | DMap _ | DDa _ | DStore => true
  | _ => false
  end.
Definition lockA (p : lpc) : option nat :=
  match p with Locked a | AMap a => Some a | _ => None end.

(** It will not get page [a] from the entry. *)
Definition safe6 (a : nat) (p : lpc) : bool :=
  doomed p ||
  match p with
  | RAcc k | RAccSet k =>
      match k with
      | KGet b | KAsync b | KDisc b => negb (b =? a)
      | KPre _ => true
      | KEvict => false
      end
  | GAddr _ b | DLoad b | DAddr b => negb (b =? a)
  | _ => false
  end.

Definition okpc (p : lpc) : Prop :=
  match p with
  | RAcc KEvict | RAccSet KEvict | FInc (FPre _) => False
  | GAddr k b => k = KGet b \/ k = KAsync b
  | _ => True
  end.

Definition okda (en : entry) (p : lpc) : Prop :=
  match p with DAddr a => da en = Some a -> ld (st en) = false | _ => True end.

Record ok1 (en : entry) (p : lpc) : Prop := Ok1 {
  o_pc    : okpc p;
  o_claim : claimsb p = true -> cm (st en) = true;
  o_write : writesb p = true -> wl (st en) = true;
  o_load  : loaderb p = true -> ld (st en) = true;
  o_ver   : forall a, verif p = Some a -> da en = Some a /\ fr (st en) = false;
  o_noda  : noda p = true -> da en = None /\ fr (st en) = false;
  o_nofr  : nofree p = true -> fr (st en) = false;
  o_pin   : pin0 p = true -> pin en = 0;
  o_held  : heldty p = true -> ld (st en) = false;
  o_da    : okda en p
}.

Record ok2 (t : nat) (p : lpc) (t' : nat) (q : lpc) : Prop := Ok2 {
  q_claim : claimsb p = true -> claimsb q = false;
  q_load  : loaderb p = true -> loaderb q = false;
  q_scan  : forall n, scanb p = Some n -> hasref q = true -> slot t' < n -> doomed q = true;
  q_clear : cleared p = true -> hasref q = true -> doomed q = true;
  q_lock  : forall a, lockA p = Some a -> hasref q = true -> safe6 a q = true;
  q_abort : loaderb p = true -> tok p = true -> claimsb q = false
}.

(** ** How the classes relate. *)
Lemma writes_claims p : writesb p = true -> claimsb p = true.
Proof. destruct p; cbn; congruence. Qed.
Lemma scan_writes p n : scanb p = Some n -> writesb p = true.
Proof. destruct p; cbn; congruence. Qed.
Lemma cleared_writes p : cleared p = true -> writesb p = true.
Proof. destruct p; cbn; congruence. Qed.
Lemma lock_writes p a : lockA p = Some a -> writesb p = true.
Proof. destruct p; cbn; congruence. Qed.
Lemma lock_verif p a : lockA p = Some a -> verif p = Some a.
Proof. destruct p; cbn; congruence. Qed.
Lemma heldty_cases p :
  heldty p = true -> claimsb p = true \/ tok p = true \/ exists a, verif p = Some a.
Proof. destruct p; cbn; try congruence; eauto. Qed.
Lemma noda_cases p :
  noda p = true -> claimsb p = true \/ (tok p = true /\ loaderb p = true).
Proof. destruct p; cbn; try congruence; eauto. Qed.
Lemma noda_tok p : noda p = true -> tok p = true \/ p = DStore.
Proof. destruct p; cbn; try congruence; eauto. Qed.
Lemma verif_noref p a : verif p = Some a -> hasref p = true \/ loaderb p = true.
Proof. destruct p; cbn; try congruence; eauto. Qed.
Lemma doomed_verif p : doomed p = true -> verif p = None.
Proof. destruct p; cbn; congruence. Qed.
Lemma safe_verif a p : safe6 a p = true -> verif p = None.
Proof. destruct p; cbn; congruence. Qed.
Lemma doomed_safe a p : doomed p = true -> safe6 a p = true.
Proof. unfold safe6. intros ->. reflexivity. Qed.
Lemma verif_found p a e :
  verif p = Some a ->
  found e (On e p) = true \/ loaderb p = true \/ claimsb p = true.
Proof.
  intros H. destruct p; cbn in *; rewrite ?Nat.eqb_refl; try discriminate; eauto.
Qed.
Lemma pin0_claims p : pin0 p = true -> claimsb p = true.
Proof. destruct p; cbn; congruence. Qed.
Lemma nofree_claims p : nofree p = true -> claimsb p = true /\ tok p = true /\ cleared p = true /\ heldty p = true.
Proof. destruct p; cbn; try congruence; auto. Qed.
Lemma cleared_held p : cleared p = true -> heldty p = true.
Proof. destruct p; cbn; congruence. Qed.

Lemma flags_eqb_eq x y : flags_eqb x y = true -> x = y.
Proof.
  destruct x, y. unfold flags_eqb. cbn.
  rewrite !andb_true_iff, !eqb_true_iff. intuition congruence.
Qed.

(** What the rest of the state guarantees when [p] steps beside [q]. *)
Record guard (en : entry) (t : nat) (p : lpc) (t' : nat) (q : lpc) : Prop := Guard {
  g_tok : tok p = true -> tok q = false;
  g_cnt : forall n, rc en n <= (if n =? slot t then 1 else 0) ->
          hasref p = true -> hasref q = true -> slot t' <> n;
  g_all : forall a, lallocating a p = true ->
          lgetting a q = false /\ ldiscarding a q = false;
  g_get : forall a, lgetting a p = true -> ldiscarding a q = false;
  g_found : match p with
            | NDa _ | PDa _ => found 0 (On 0 q) = false
            | _ => True
            end
}.

Ltac bust :=
  repeat match goal with
  | H : context [if ?b then _ else _] |- _ => destruct b eqn:?
  | H : context [match ?c with A0 => _ | A1 => _ | A2 => _ end] |- _ => destruct c eqn:?
  | H : context [match ?k with KGet _ => _ | KAsync _ => _ | KDisc _ => _ | KPre _ => _ | KEvict => _ end] |- _ => destruct k eqn:?
  | H : context [match ?f with FGet _ => _ | FAsync _ => _ | FAlloc _ => _ | FPre _ => _ end] |- _ => destruct f eqn:?
  | H : context [after_read ?k] |- _ => is_var k; destruct k; cbn [after_read] in H
  | H : context [match da ?e with Some _ => _ | None => _ end] |- _ => destruct (da e) eqn:?
  end.

Lemma res_pair (a b : entry) (x y : res) : (a, x) = (b, y) -> a = b /\ x = y.
Proof. intros H; split; congruence. Qed.

(** ** The stepping agent. *)
Lemma own t en p c won en' p' :
  ok1 en p -> (fr (st en) = true -> da en = None) ->
  lstep t en p c won = (en', Stay p') -> ok1 en' p'.
Proof.
  intros [O1 O2 O3 O4 O5 O6 O7 O8 O9 O10] HF H.
  destruct p; cbn [lstep] in H; bust; try discriminate;
    apply res_pair in H as [<- H2]; try discriminate; injection H2 as <-;
    repeat match goal with
    | E : flags_eqb _ _ = true |- _ => apply flags_eqb_eq in E
    | E : _ && _ = true |- _ => apply andb_true_iff in E as [? ?]
    | E : (_ =? _) = true |- _ => apply Nat.eqb_eq in E; subst
    end;
    constructor; cbn in *; intros;
    repeat match goal with
    | E : st _ = _ |- _ => rewrite E in *; cbn in *
    | E : Some _ = Some _ |- _ => injection E as <-
    end;
    try discriminate; auto; try congruence;
    try (destruct (O5 _ eq_refl); split; congruence);
    try (destruct O6; auto; split; congruence);
    try solve [intuition congruence];
    (destruct (fr (st en)); [specialize (HF eq_refl); discriminate | auto]).
Qed.

(** ** The others' view of the entry. *)
Lemma okda_other t en p c won en' r t' q :
  ok1 en p -> ok1 en q -> guard en t p t' q ->
  lstep t en p c won = (en', r) -> okda en' q.
Proof.
  intros [O1 O2 O3 O4 O5 O6 O7 O8 O9 O10] Q G H.
  destruct q; try exact Logic.I.
  cbn [okda]. pose proof (o_da _ _ Q) as D. cbn [okda] in D.
  destruct p; cbn [lstep] in H; bust; try discriminate;
    apply res_pair in H as [<- _]; cbn in *; auto; try discriminate;
    intros E;
    try (destruct O6; [reflexivity|]; congruence);
    try (destruct (O5 _ eq_refl); congruence);
    try (apply D; congruence); try (specialize (D ltac:(congruence)); congruence);
    injection E as ->;
    try (pose proof (g_get _ _ _ _ _ G a) as W; cbn in W; rewrite Nat.eqb_refl, ?orb_true_r in W;
         discriminate (W eq_refl));
    try (pose proof (g_all _ _ _ _ _ G a) as W; cbn in W; rewrite Nat.eqb_refl in W;
         destruct (W eq_refl) as [_ W2]; cbn in W2; congruence).
Qed.

Lemma other t en p c won en' r t' q :
  ok1 en p -> ok1 en q -> ok2 t p t' q -> ok2 t' q t p -> guard en t p t' q ->
  (fr (st en) = true -> da en = None) ->
  lstep t en p c won = (en', r) -> ok1 en' q.
Proof.
  intros P Q PQ QP G HF H.
  pose proof (okda_other _ _ _ _ _ _ _ _ _ P Q G H) as OD.
  constructor; [apply (o_pc _ _ Q)| | | | | | | | |exact OD].
  - (* claim *)
    intros C. pose proof (o_claim _ _ Q C) as C1.
    pose proof (q_claim _ _ _ _ PQ) as X. pose proof (q_abort _ _ _ _ PQ) as Y.
    destruct p; cbn [lstep] in H; bust; try discriminate;
      apply res_pair in H as [<- _]; cbn in *; auto; try congruence;
      repeat match goal with E : flags_eqb _ _ = true |- _ => apply flags_eqb_eq in E; rewrite E in *; cbn in * end;
      try congruence; try (rewrite X in C by reflexivity; discriminate);
      try (rewrite Y in C by reflexivity; discriminate).
  - (* write *)
    intros C. pose proof (o_write _ _ Q C) as C1. apply writes_claims in C.
    pose proof (q_claim _ _ _ _ PQ) as X. pose proof (q_abort _ _ _ _ PQ) as Y.
    destruct p; cbn [lstep] in H; bust; try discriminate;
      apply res_pair in H as [<- _]; cbn in *; auto; try congruence;
      repeat match goal with E : flags_eqb _ _ = true |- _ => apply flags_eqb_eq in E; rewrite E in *; cbn in * end;
      try congruence; try (rewrite X in C by reflexivity; discriminate);
      try (rewrite Y in C by reflexivity; discriminate).
  - (* load *)
    intros C. pose proof (o_load _ _ Q C) as C1.
    pose proof (q_load _ _ _ _ PQ) as X. pose proof (o_held _ _ P) as Y.
    destruct p; cbn [lstep] in H; bust; try discriminate;
      apply res_pair in H as [<- _]; cbn in *; auto; try congruence;
      repeat match goal with E : flags_eqb _ _ = true |- _ => apply flags_eqb_eq in E; rewrite E in *; cbn in * end;
      try congruence; try (rewrite X in C by reflexivity; discriminate);
      try (rewrite Y in C1 by reflexivity; discriminate).
  - (* verif *)
    intros a V. destruct (o_ver _ _ Q a V) as [V1 V2].
    pose proof (o_noda _ _ P) as X.
    assert (CL : cleared p = true -> False).
    { intros C. pose proof (o_held _ _ P (cleared_held _ C)) as L.
      destruct (verif_noref _ _ V) as [R|R].
      - apply (q_clear _ _ _ _ PQ C), doomed_verif in R. congruence.
      - apply (o_load _ _ Q) in R. congruence. }
    assert (FD : forall e b, p = NDa b \/ p = PDa b -> found e (On e q) = false -> False).
    { intros e b E F. destruct (verif_found _ _ e V) as [K|[K|K]]; [congruence| |].
      - destruct E as [-> | ->]; rewrite (q_load _ _ _ _ PQ) in K by reflexivity; discriminate.
      - destruct E as [-> | ->]; rewrite (q_abort _ _ _ _ PQ) in K by reflexivity; discriminate. }
    pose proof (g_found _ _ _ _ _ G) as GF.
    destruct p; cbn [lstep] in H; bust; try discriminate;
      apply res_pair in H as [<- _]; cbn in *; auto; try congruence;
      repeat match goal with E : flags_eqb _ _ = true |- _ => apply flags_eqb_eq in E; rewrite E in *; cbn in * end;
      try congruence; auto; try (split; congruence);
      try (exfalso; apply CL; reflexivity);
      try (destruct X as [X1 X2]; [reflexivity|congruence]);
      try (exfalso; eapply (FD 0); eauto; fail).
  - (* noda *)
    intros V. destruct (o_noda _ _ Q V) as [V1 V2].
    pose proof (o_ver _ _ P) as X.
    assert (CT : tok p = true -> claimsb p = true \/ loaderb p = true -> False).
    { intros T Z. destruct (noda_tok _ V) as [T2|T2].
      - rewrite (g_tok _ _ _ _ _ G T) in T2. discriminate.
      - subst q. destruct Z as [Z|Z].
        + apply (q_claim _ _ _ _ PQ) in Z. discriminate.
        + pose proof (q_abort _ _ _ _ PQ Z T). discriminate. }
    assert (CD : p = DStore \/ (exists a, p = DDa a) -> False).
    { intros Z. destruct (noda_cases _ V) as [C|[C1 C2]].
      - assert (claimsb p = true) as C3 by (destruct Z as [-> | [a ->]]; reflexivity).
        apply (q_claim _ _ _ _ PQ) in C3. congruence.
      - pose proof (q_abort _ _ _ _ QP C2 C1) as K.
        destruct Z as [-> | [a ->]]; discriminate. }
    destruct p; cbn [lstep] in H; bust; try discriminate;
      apply res_pair in H as [<- _]; cbn in *; auto; try congruence;
      repeat match goal with E : flags_eqb _ _ = true |- _ => apply flags_eqb_eq in E; rewrite E in *; cbn in * end;
      try congruence; auto; try (split; congruence);
      try (exfalso; apply CT; auto; fail);
      try (exfalso; apply CD; eauto; fail).
  - (* nofree *)
    intros V. pose proof (o_nofr _ _ Q V) as V1.
    destruct (nofree_claims _ V) as (C1 & C2 & C3 & C4).
    pose proof (q_claim _ _ _ _ PQ) as X. pose proof (g_tok _ _ _ _ _ G) as Y.
    destruct p; cbn [lstep] in H; bust; try discriminate;
      apply res_pair in H as [<- _]; cbn in *; auto; try congruence;
      repeat match goal with E : flags_eqb _ _ = true |- _ => apply flags_eqb_eq in E; rewrite E in *; cbn in * end;
      try congruence;
      try (rewrite X in C1 by reflexivity; discriminate);
      try (rewrite Y in C2 by reflexivity; discriminate).
  - (* pin *)
    intros V. pose proof (o_pin _ _ Q V) as V1. apply pin0_claims in V.
    pose proof (q_claim _ _ _ _ PQ) as X.
    destruct p; cbn [lstep] in H; bust; try discriminate;
      apply res_pair in H as [<- _]; cbn in *; auto; try congruence;
      try (rewrite X in V by reflexivity; discriminate).
  - (* held *)
    intros V. pose proof (o_held _ _ Q V) as V1.
    pose proof (q_claim _ _ _ _ PQ) as X. pose proof (o_noda _ _ P) as Y.
    pose proof (g_tok _ _ _ _ _ G) as Z.
    destruct p; cbn [lstep] in H; bust; try discriminate;
      apply res_pair in H as [<- _]; cbn in *; auto; try congruence;
      repeat match goal with E : flags_eqb _ _ = true |- _ => apply flags_eqb_eq in E; rewrite E in *; cbn in * end;
      try congruence;
      destruct (heldty_cases _ V) as [K|[K|[a' K]]];
      try (rewrite X in K by reflexivity; discriminate);
      try (rewrite Z in K by reflexivity; discriminate);
      try (destruct (o_ver _ _ Q _ K); destruct Y; [reflexivity|congruence]).
Qed.

(** ** The pair. *)
Lemma safe_cases a q :
  okpc q -> hasref q = true -> tok q = false -> claimsb q = false ->
  verif q = None -> lgetting a q = false -> ldiscarding a q = false ->
  safe6 a q = true.
Proof.
  destruct q; try destruct k; try destruct f; cbn; intros; try discriminate;
    try contradiction; try reflexivity;
    repeat match goal with
    | H : _ || _ = false |- _ => apply orb_false_iff in H as [? ?]
    | H : (_ =? _) = false |- _ => rewrite H
    end; reflexivity.
Qed.

Ltac stp H :=
  cbn [lstep] in H; bust; try discriminate;
  let H2 := fresh "H2" in
  apply res_pair in H as [? H2]; try discriminate; injection H2 as <-;
  repeat match goal with
  | E : flags_eqb _ _ = true |- _ => apply flags_eqb_eq in E
  | E : _ && _ = true |- _ => apply andb_true_iff in E as [? ?]
  | E : _ || _ = false |- _ => apply orb_false_iff in E as [? ?]
  end.

Lemma slot_lt t : slot t < width.
Proof. apply Nat.mod_upper_bound. discriminate. Qed.

Section Pair.
Context {t : nat} {en : entry} {p : lpc} {c : act} {won : bool} {en' : entry} {p' : lpc}
        {t' : nat} {q : lpc}.
Hypothesis P : ok1 en p.
Hypothesis Q : ok1 en q.
Hypothesis PQ : ok2 t p t' q.
Hypothesis QP : ok2 t' q t p.
Hypothesis G : guard en t p t' q.
Hypothesis HF : fr (st en) = true -> da en = None.
Hypothesis H : lstep t en p c won = (en', Stay p').

Lemma pair_claim : claimsb p' = true -> claimsb q = false.
Proof.
  pose proof (q_claim _ _ _ _ PQ) as X. pose proof (o_claim _ _ Q) as Y.
  intros C. destruct (claimsb q) eqn:CQ; [|reflexivity]. specialize (Y eq_refl).
  clear P Q PQ QP G HF.
  destruct p; stp H; cbn in *; try discriminate; try (apply X; reflexivity);
    try congruence.
  all: match goal with E : st en = _ |- _ => rewrite E in Y; discriminate end.
Qed.

Lemma pair_load : loaderb p' = true -> loaderb q = false.
Proof.
  pose proof (q_load _ _ _ _ PQ) as X. pose proof (o_load _ _ Q) as Y.
  pose proof (o_held _ _ P) as Z.
  intros C. destruct (loaderb q) eqn:CQ; [|reflexivity]. specialize (Y eq_refl).
  clear P Q PQ QP G HF.
  destruct p; stp H; cbn in *; try discriminate; try (apply X; reflexivity);
    try congruence.
  all: rewrite Z in Y by reflexivity; discriminate.
Qed.

Lemma pair_scan n :
  scanb p' = Some n -> hasref q = true -> slot t' < n -> doomed q = true.
Proof.
  intros S R L. pose proof (q_scan _ _ _ _ PQ) as X. pose proof (g_cnt _ _ _ _ _ G) as Y.
  clear P Q PQ QP G HF.
  destruct p; stp H; cbn [scanb hasref] in *; try discriminate; injection S as <-; try lia;
    try (eapply X; eauto; fail);
    match goal with
    | E : (rc en ?m <=? _) = true |- _ =>
        apply Nat.leb_le in E;
        assert (W : rc en m <= if m =? slot t then 1 else 0)
          by (match goal with B : (m =? slot t) = _ |- _ => rewrite B end; exact E);
        specialize (Y m W eq_refl R);
        eapply X; eauto; lia
    end.
Qed.

Lemma pair_clear : cleared p' = true -> hasref q = true -> doomed q = true.
Proof.
  intros S R. pose proof (q_scan _ _ _ _ PQ) as X. pose proof (q_clear _ _ _ _ PQ) as Y.
  pose proof (slot_lt t') as L.
  clear P Q PQ QP G HF.
  destruct p; stp H; cbn [scanb hasref cleared] in *; try discriminate;
    try (apply Y; auto; fail);
    match goal with
    | E : (_ <? _) = false |- _ => apply Nat.ltb_ge in E; eapply X; eauto; lia
    end.
Qed.

Lemma pair_lock a : lockA p' = Some a -> hasref q = true -> safe6 a q = true.
Proof.
  intros S R. pose proof (q_scan _ _ _ _ PQ) as X. pose proof (q_lock _ _ _ _ PQ) as Y.
  pose proof (slot_lt t') as L. pose proof (g_all _ _ _ _ _ G) as Z.
  pose proof (g_tok _ _ _ _ _ G) as T. pose proof (q_claim _ _ _ _ PQ) as C.
  pose proof (o_noda _ _ P) as N. pose proof (o_ver _ _ Q) as V.
  pose proof (o_pc _ _ Q) as OP.
  clear P Q PQ QP G HF.
  destruct p; stp H;
    cbn [scanb hasref lockA lallocating tok claimsb noda] in *;
    try discriminate; try (eapply Y; eauto; fail);
    try (match goal with
    | E : (_ <? _) = false |- _ =>
        apply Nat.ltb_ge in E; apply doomed_safe; eapply X; eauto; lia
    end).
  injection S as <-. destruct (Z a0) as [Z1 Z2]; [apply Nat.eqb_refl|].
  destruct N as [N1 N2]; [reflexivity|].
  apply safe_cases; auto.
  destruct (verif q); [|reflexivity]. destruct (V _ eq_refl). congruence.
Qed.

Lemma pair_abort : loaderb p' = true -> tok p' = true -> claimsb q = false.
Proof.
  intros S R. pose proof (q_abort _ _ _ _ PQ) as X. pose proof (q_claim _ _ _ _ PQ) as Y.
  clear P Q PQ QP G HF.
  destruct p; stp H; cbn in *; try discriminate; auto.
Qed.

Lemma riap_held : hasref p' = true ->
  (hasref p = true -> doomed p = true) -> writesb q = true -> doomed p' = true.
Proof.
  intros R D W. pose proof (o_write _ _ Q W) as WL. apply writes_claims in W.
  pose proof (q_claim _ _ _ _ QP W) as C.
  clear P Q PQ QP G HF.
  destruct p; stp H; cbn in *; try discriminate; auto;
    try (discriminate D; reflexivity); congruence.
Qed.

Lemma riap_lock a : lockA q = Some a -> hasref p' = true -> safe6 a p' = true.
Proof.
  intros L R. pose proof (q_lock _ _ _ _ QP _ L) as D.
  pose proof (o_write _ _ Q (lock_writes _ _ L)) as WL.
  pose proof (q_claim _ _ _ _ QP (writes_claims _ (lock_writes _ _ L))) as C.
  destruct (o_ver _ _ Q _ (lock_verif _ _ L)) as [V _].
  clear P Q PQ QP G HF.
  destruct p; stp H; cbn in *; try discriminate; auto;
    try (discriminate D; reflexivity); try congruence;
    exfalso; specialize (D eq_refl);
    repeat match goal with
    | E : (_ =? _) = true |- _ => apply Nat.eqb_eq in E; subst
    end;
    injection V as ->; rewrite Nat.eqb_refl in D; discriminate.
Qed.

Lemma riap_abort : loaderb q = true -> tok q = true -> claimsb p' = false.
Proof.
  intros L T. pose proof (q_abort _ _ _ _ QP L T) as D.
  pose proof (o_load _ _ Q L) as LD. pose proof (o_held _ _ P) as X.
  pose proof (g_tok _ _ _ _ _ G) as Y.
  destruct (claimsb p') eqn:CP; [|reflexivity]. exfalso.
  clear P Q PQ QP G HF.
  destruct p; stp H; cbn in *; try discriminate;
    try (rewrite X in LD by reflexivity; discriminate);
    try (rewrite Y in T by reflexivity; discriminate); congruence.
Qed.

Theorem pair_ok : ok2 t p' t' q /\ ok2 t' q t p'.
Proof.
  split; constructor.
  - apply pair_claim.
  - apply pair_load.
  - apply pair_scan.
  - apply pair_clear.
  - apply pair_lock.
  - apply pair_abort.
  - intros C. destruct (claimsb p') eqn:E; [|reflexivity]. rewrite (pair_claim E) in C. discriminate.
  - intros C. destruct (loaderb p') eqn:E; [|reflexivity]. rewrite (pair_load E) in C. discriminate.
  - intros n S R L. apply riap_held; [exact R| |eapply scan_writes; eauto].
    intros R2. eapply (q_scan _ _ _ _ QP); eauto.
  - intros S R. apply riap_held; [exact R| |eapply cleared_writes; eauto].
    intros R2. eapply (q_clear _ _ _ _ QP); eauto.
  - apply riap_lock.
  - apply riap_abort.
Qed.
End Pair.
