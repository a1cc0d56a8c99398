(** The invariant is kept by every step, and every call acts at one instant. *)
From Coq Require Import List Arith Bool Lia Sorting.Sorted.
Import ListNotations.
From Verif Require Import CBtree CBtreeSpec CBtreeInv CBtreeSplit.
Local Open Scope nat_scope.

(** ** Threads. *)

(** The pages a thread has locked, with no reader left. *)
Definition igrants (p : ipc) : list nat :=
  match p with
  | I3 _ | I4 | I4d _ | I7 _ | I7r _ => [0]
  | A4 p _ _ _ | A5 p _ _ _ => [p]
  | A6 p _ c _ => [p; c]
  | A7 _ _ _ | A8 _ _ _ _ _ | A9 _ _ _ _ | A10 _ _ _ _ | A11 _ _ _ _ | A12 _ _ _ _ | A13 _ _ => ireads p
  | L3 c _ | L4 c _ => [c]
  | B3 _ _ _ rc _ _ _ | B4 _ _ _ rc _ _ _ => [rc]
  | B5 p _ _ rc _ _ _ | B6 p _ _ rc _ _ _ _ | B7 p _ _ rc _ _ _ _ | B8 p _ _ rc _ _ _ _ => [p; rc]
  | B9 p _ _ rc _ _ _ n | B10 p _ _ rc _ _ _ n => match n with Some n => [p; rc; n] | None => [p; rc] end
  | B11 _ _ _ _ _ _ _ _ | B12 _ _ _ _ _ _ _ | B13 _ _ _ _ _ _ | B14 _ _ _ _ _ _
  | B15 _ _ _ _ _ | B16 _ _ _ _ _ | B17 _ _ _ _ _ => ireads p
  | _ => []
  end.
Definition grants (t : thr) : list nat := match t with Ins _ _ p => igrants p | _ => [] end.

(** What pages will hold once the split a thread is in is over. *)
Definition ipend (g : nat -> node) (k m : nat) (p : ipc) (a : nat) : option node :=
  match p with
  | A8 _ c rc q _ | A9 c rc q _ =>
      if a =? c then Some (left_index q (g c)) else if a =? rc then Some (right_index q (g c)) else None
  | A10 c _ q _ | A11 c _ q _ => if a =? c then Some (left_index q (g c)) else None
  | B12 _ c rc q gl sp n | B13 c rc q gl sp n =>
      if a =? c then Some (left_leaf k m q gl sp rc (g c))
      else if a =? rc then Some (right_leaf k m q gl sp c (g c))
      else match n with Some n => if a =? n then Some (with_prev rc (g n)) else None | None => None end
  | B14 c rc q gl sp _ | B15 c rc q gl sp =>
      if a =? c then Some (left_leaf k m q gl sp rc (g c))
      else if a =? rc then Some (right_leaf k m q gl sp c (g c)) else None
  | B16 c rc q gl sp | B17 c rc q gl sp =>
      if a =? c then Some (left_leaf k m q gl sp rc (g c)) else None
  | _ => None
  end.
Definition pend (g : nat -> node) (t : thr) (a : nat) : option node :=
  match t with Ins k m p => ipend g k m p a | _ => None end.

Lemma grants_locks : forall t a, In a (grants t) -> In a (locks t).
Proof.
  intros [|k m p|k p] a; cbn [grants locks]; auto.
  destruct p; cbn [igrants ilocks ireads]; auto; cbn [In];
    repeat match goal with |- context [match ?n with Some _ => _ | None => _ end] => destruct n; cbn [In] end; tauto.
Qed.
Lemma locks_claims : forall t a, In a (locks t) -> In a (claims t).
Proof.
  intros [|k m p|k p] a; cbn [claims locks]; auto.
  destruct p; cbn [iclaims ilocks ireads]; auto; cbn [In];
    repeat match goal with |- context [match ?n with Some _ => _ | None => _ end] => destruct n; cbn [In] end; tauto.
Qed.
Lemma claims_reads : forall t a, In a (claims t) -> In a (reads t).
Proof.
  intros [|k m p|k p] a; cbn [claims reads]; [tauto| |intros []].
  destruct p; cbn [iclaims ilocks ireads]; auto; cbn [In]; tauto.
Qed.
Lemma grants_reads : forall t a, In a (grants t) -> In a (reads t).
Proof. intros. apply claims_reads, locks_claims, grants_locks; auto. Qed.

Lemma pend_grants : forall g t a n, pend g t a = Some n -> In a (grants t).
Proof.
  intros g [|k m p|k p] a n; cbn [pend grants]; try discriminate.
  destruct p; cbn [ipend igrants ireads]; try discriminate;
    try (match goal with n : option nat |- _ => destruct n end);
    repeat match goal with |- context [if ?x =? ?y then _ else _] =>
      let E := fresh in destruct (x =? y) eqn:E; [apply Nat.eqb_eq in E; subst|apply Nat.eqb_neq in E] end;
    try discriminate; intros _;
    repeat match goal with
    | |- context [if ?n <? ?q then _ else _] => destruct (n <? q) end; cbn [In]; tauto.
Qed.

Lemma pend_ext : forall g g' t a, (forall b, In b (grants t) -> g' b = g b) -> pend g' t a = pend g t a.
Proof.
  intros g g' [|k m p|k p] a H; cbn [pend]; auto. cbn [grants] in H.
  destruct p; cbn [ipend igrants ireads] in *; auto;
    try (match goal with n : option nat |- _ => destruct n end);
    try (rewrite (H c) by (repeat match goal with
      |- context [if ?n <? ?q then _ else _] => destruct (n <? q) end; cbn [In]; auto));
    auto.
  - rewrite (H n) by (cbn [In]; auto). auto.
  - rewrite (H n) by (cbn [In]; auto). auto.
Qed.

(** What a thread relies on. *)
Section TOK.
Variables (ef : nat -> node) (G : ghost) (B : nat -> nat).

Definition inq (k a : nat) := exists h lo hi, G a = Some (h, lo, hi) /\ inr lo hi k.
Definition inp (k a : nat) := exists h lo hi, G a = Some (h, lo, hi) /\ inr lo hi k /\ B a <= k.
Definition idx (k a : nat) (j : option nat) := exists h ps, ef a = Index h ps /\ find k ps = j.
Definition par (k p i c : nat) :=
  inp k p /\ exists h ps pk, ef p = Index h ps /\ find k ps = Some i /\ nth_error ps i = Some (pk, c).
Definition leafsp (k c : nat) (sp : list nat) :=
  inp k c /\ exists es pv n, ef c = Leaf es pv n /\ sp = getk k es.
Definition split (k p i c rc q : nat) (gl : bool) (sp : list nat) :=
  par k p i c /\ leafsp k c sp /\ plan_ok k q gl (entries (ef c)) = true /\ G rc = None.
Definition halves (k c rc q j : nat) :=
  c <> rc /\ if j <? q then inp k c /\ idx k c (Some j) else inp k rc /\ idx k rc (Some (j - q)).

Definition itok (k : nat) (p : ipc) : Prop :=
  match p with
  | I0 | I1 | I4d _ | L4 _ _ => True
  | I2 sp | I2w sp | I3 sp => leafsp k 0 sp
  | I4 | I5 => exists j, idx k 0 j
  | I6 j | I6w j | I7 j => idx k 0 j
  | I7r i => inp k 0 /\ idx k 0 (Some i)
  | I8 p i | A13 p i => inp k p /\ idx k p (Some i)
  | I9 p i c => par k p i c
  | A1 p i c j | A2 p i c j | A3 p i c j | A4 p i c j | A5 p i c j | A6 p i c j => par k p i c /\ idx k c j
  | A7 _ c i => inp k c /\ idx k c (Some i)
  | A8 _ c rc q j | A9 c rc q j | A10 c rc q j | A11 c rc q j | A12 c rc q j => halves k c rc q j
  | L1 c sp | L2 c sp | L2w c sp | L3 c sp => leafsp k c sp
  | B1 p i c sp reb => par k p i c /\ height (ef p) = 1 /\ (reb = false -> leafsp k c sp)
  | B1g p i c => par k p i c /\ height (ef p) = 1
  | B2 p i c sp => par k p i c /\ leafsp k c sp
  | B3 p i c rc q gl sp | B4 p i c rc q gl sp | B5 p i c rc q gl sp => split k p i c rc q gl sp
  | B6 p i c rc q gl sp n | B7 p i c rc q gl sp n | B8 p i c rc q gl sp n =>
      split k p i c rc q gl sp /\ nextp (ef c) = Some n
  | B9 p i c rc q gl sp n | B10 p i c rc q gl sp n | B11 p i c rc q gl sp n =>
      split k p i c rc q gl sp /\ nextp (ef c) = n
  | B12 _ c rc _ _ _ n | B13 c rc _ _ _ n | B14 c rc _ _ _ n =>
      c <> rc /\ match n with Some n => n <> c /\ n <> rc | None => True end
  | B15 c rc _ _ _ | B16 c rc _ _ _ | B17 c rc _ _ _ => c <> rc
  end.
Definition tok (t : thr) : Prop :=
  match t with
  | Idle => True
  | Ins k _ p => itok k p
  | Fnd k F0 | Fnd k (F4 _ _) => True
  | Fnd k (F1 a) => inq k a
  | Fnd k (F2 a i) => inq k a /\ exists h ps, ef a = Index h ps /\ i = slot k ps
  | Fnd k (F3 _ c) => inq k c
  end.
End TOK.

Section EXT.
Variables (ef ef' : nat -> node) (G G' : ghost) (B B' : nat -> nat) (t : thr).
Hypothesis E : forall a, In a (reads t) -> ef' a = ef a /\ G' a = G a /\ B' a <= B a.

Lemma inp_ext : forall k a, In a (reads t) -> inp G B k a -> inp G' B' k a.
Proof.
  intros k a H (h & lo & hi & H1 & H2 & H3). destruct (E a H) as (E1 & E2 & E3).
  exists h, lo, hi. rewrite E2. repeat split; auto; try apply H2. lia.
Qed.
Lemma inq_ext : forall k a, In a (reads t) -> inq G k a -> inq G' k a.
Proof. intros k a H (h & lo & hi & H1 & H2). destruct (E a H) as (E1 & E2 & E3). exists h, lo, hi. rewrite E2. auto. Qed.
Lemma idx_ext : forall k a j, In a (reads t) -> idx ef k a j -> idx ef' k a j.
Proof. intros k a j H (h & ps & H1 & H2). destruct (E a H) as (E1 & E2 & E3). exists h, ps. rewrite E1. auto. Qed.
Lemma par_ext : forall k p i c, In p (reads t) -> par ef G B k p i c -> par ef' G' B' k p i c.
Proof.
  intros k p i c H [H1 (h & ps & pk & H2)]. split; [apply inp_ext; auto|].
  destruct (E p H) as (E1 & E2 & E3). exists h, ps, pk. rewrite E1. auto.
Qed.
Lemma leafsp_ext : forall k c sp, In c (reads t) -> leafsp ef G B k c sp -> leafsp ef' G' B' k c sp.
Proof.
  intros k c sp H [H1 (es & pv & n & H2)]. split; [apply inp_ext; auto|].
  destruct (E c H) as (E1 & E2 & E3). exists es, pv, n. rewrite E1. auto.
Qed.
Lemma split_ext : forall k p i c rc q gl sp, In p (reads t) -> In c (reads t) -> In rc (reads t) ->
  split ef G B k p i c rc q gl sp -> split ef' G' B' k p i c rc q gl sp.
Proof.
  intros k p i c rc q gl sp H1 H2 H3 (S1 & S2 & S3 & S4). split; [apply par_ext; auto|].
  split; [apply leafsp_ext; auto|]. destruct (E c H2) as (-> & _). destruct (E rc H3) as (_ & -> & _). auto.
Qed.
Lemma halves_ext : forall k c rc q j, (if j <? q then In c (reads t) else In rc (reads t)) ->
  halves ef G B k c rc q j -> halves ef' G' B' k c rc q j.
Proof.
  intros k c rc q j H [H1 H2]. split; auto. destruct (j <? q); destruct H2; split; try apply inp_ext; try apply idx_ext; auto.
Qed.

End EXT.

Lemma tok_ext : forall ef ef' G G' B B' t,
  (forall a, In a (reads t) -> ef' a = ef a /\ G' a = G a /\ B' a <= B a) ->
  tok ef G B t -> tok ef' G' B' t.
Proof.
  intros ef ef' G G' B B' t E.
  pose proof (inp_ext ef ef' G G' B B' t E) as X1. pose proof (inq_ext ef ef' G G' B B' t E) as X2.
  pose proof (idx_ext ef ef' G G' B B' t E) as X3. pose proof (par_ext ef ef' G G' B B' t E) as X4.
  pose proof (leafsp_ext ef ef' G G' B B' t E) as X5. pose proof (split_ext ef ef' G G' B B' t E) as X6.
  pose proof (halves_ext ef ef' G G' B B' t E) as X7.
  assert (X8 : forall a, In a (reads t) -> ef' a = ef a) by (intros; apply E; auto).
  destruct t as [|k m p|k p]; cbn [tok reads] in *; auto.
  - destruct p; cbn [itok ireads] in *; auto;
      try (match goal with n : option nat |- _ => destruct n end);
      try (apply X7; destruct (j <? q); cbn [In]; auto; fail);
      try (intros H; apply X5; cbn [In]; auto; fail);
      try (intros H; apply X4; cbn [In]; auto; fail);
      try (intros H; apply X6; cbn [In]; auto; fail);
      try (intros H; apply X3; cbn [In]; auto; fail);
      try (intros [j H]; exists j; apply X3; cbn [In]; auto; fail);
      try (intros [H1 H2]; split; [apply X1|apply X3]; cbn [In]; auto; fail);
      try (intros [H1 H2]; split; [apply X4|apply X3]; cbn [In]; auto; fail);
      try (intros [H1 H2]; split; [apply X4|apply X5]; cbn [In]; auto; fail);
      try (intros [H1 H2]; split; [apply X6|rewrite X8]; cbn [In]; auto; fail).
    + intros (H1 & H2 & H3). split; [apply X4; cbn; auto|]. split; [rewrite X8; cbn; auto|]. intros H. apply X5; cbn; auto.
    + intros (H1 & H2). split; [apply X4; cbn; auto|]. rewrite X8; cbn; auto.
  - destruct p; cbn [tok reads In] in *; auto.
    intros [H1 (h & ps & H2 & H3)]. split; auto. exists h, ps. rewrite X8; auto.
Qed.

(** ** Lists of threads. *)
Lemma nth_put : forall A (l : list A) i x j, nth_error (put l i x) j =
  if j =? i then match nth_error l i with Some _ => Some x | None => None end else nth_error l j.
Proof.
  induction l as [|y l IH]; intros [|i] x [|j]; cbn; auto.
  destruct (j =? i); auto.
Qed.

Lemma mem_in : forall a l, mem a l = true <-> In a l.
Proof.
  intros a l. unfold mem. rewrite existsb_exists. split.
  - intros (x & H & E). apply Nat.eqb_eq in E. subst. auto.
  - intros H. exists a. split; auto. apply Nat.eqb_refl.
Qed.

Lemma nobody_ok : forall f a l i, nobody f a i l = true ->
  forall j t, j <> i -> nth_error l j = Some t -> ~ In a (f t).
Proof.
  induction l as [|x l IH]; intros [|i] H [|j] t N E; cbn in *; try discriminate; try lia.
  - rewrite forallb_forall in H. apply nth_error_In in E. apply H in E. intros Hi. apply mem_in in Hi. rewrite Hi in E. discriminate.
  - injection E as ->. apply andb_prop in H. destruct H as [H _]. intros Hi. apply mem_in in Hi. rewrite Hi in H. discriminate.
  - apply andb_prop in H. destruct H as [_ H]. apply (IH i H j t); auto.
Qed.

Lemma nobody_conv : forall f a l i, nobody f a i l = false ->
  exists j t, j <> i /\ nth_error l j = Some t /\ In a (f t).
Proof.
  induction l as [|x l IH]; intros [|i] H; cbn in *; try discriminate.
  - assert (exists t, In t l /\ mem a (f t) = true) as (t & Ht & Hm).
    { clear IH. induction l as [|y l IH]; cbn in *; [discriminate|]. destruct (mem a (f y)) eqn:E; cbn in H; eauto.
      destruct (IH H) as (t & H1 & H2). eauto. }
    apply In_nth_error in Ht. destruct Ht as (j & Hj). exists (S j), t. repeat split; auto. apply mem_in. auto.
  - destruct (mem a (f x)) eqn:E; cbn in H.
    + exists 0, x. repeat split; auto. apply mem_in; auto.
    + destruct (IH i H) as (j & t & H1 & H2 & H3). exists (S j), t. repeat split; auto.
Qed.

(** ** The invariant. *)
Record core (s : state) (ef : nat -> node) (G : ghost) (B : nat -> nat) (m : table) : Prop := {
  c_x1 : forall i j t u a, i <> j -> nth_error (ths s) i = Some t -> nth_error (ths s) j = Some u ->
           In a (grants t) -> ~ In a (reads u);
  c_x2 : forall i j t u a, i <> j -> nth_error (ths s) i = Some t -> nth_error (ths s) j = Some u ->
           In a (claims t) -> ~ In a (claims u);
  c_lt : forall i t a, nth_error (ths s) i = Some t -> In a (reads t) -> a < nxt s;
  c_e1 : forall i t a n, nth_error (ths s) i = Some t -> pend (pg s) t a = Some n -> ef a = n;
  c_e2 : forall a, a < nxt s -> (forall i t, nth_error (ths s) i = Some t -> pend (pg s) t a = None) ->
           ef a = pg s a;
  c_tree : tree ef G B m (nxt s);
  c_tok : forall i t, nth_error (ths s) i = Some t -> tok ef G B t
}.

(** A page a thread reads and has no split pending on holds what it should. *)
Lemma own : forall s ef G B m i t a, core s ef G B m -> nth_error (ths s) i = Some t ->
  In a (reads t) -> pend (pg s) t a = None -> ef a = pg s a.
Proof.
  intros s ef G B m i t a C Hi R P. apply (c_e2 _ _ _ _ _ C).
  - eapply (c_lt _ _ _ _ _ C); eauto.
  - intros j u Hj. destruct (Nat.eq_dec j i) as [->|N]; [congruence|].
    destruct (pend (pg s) u a) eqn:E; auto. exfalso. apply pend_grants in E.
    eapply (c_x1 _ _ _ _ _ C j i u t a); eauto.
Qed.

(** What a step of a thread leaves alone: the pages it has not locked; and every leaf but
    the root keeps its lower bound. *)
Definition frame (s : state) (t : thr) (ef : nat -> node) (G : ghost) (f : nat -> node) (ef' : nat -> node) (G' : ghost) : Prop :=
  (forall a, a < nxt s -> ~ In a (grants t) -> f a = pg s a /\ ef' a = ef a /\ G' a = G a) /\
  (forall a l hi, a <> 0 -> G a = Some (0, l, hi) -> exists hi', G' a = Some (0, l, hi')).
Definition moved (s : state) (t : thr) (ef : nat -> node) (G : ghost) (s' : state) (ef' : nat -> node) (G' : ghost)
  (B' : nat -> nat) (m' : table) : Prop :=
  core s' ef' G' B' m' /\ frame s t ef G (pg s') ef' G'.

Lemma core_step : forall s ef G B m i t t' pg' ef' G' B' m' nx',
  core s ef G B m -> nth_error (ths s) i = Some t ->
  nxt s <= nx' ->
  (forall a, In a (reads t') -> In a (reads t) \/ (can_get s i a = true /\ a < nxt s) \/ (nxt s <= a /\ a < nx')) ->
  (forall a, In a (claims t') -> In a (claims t) \/ can_claim s i a = true \/ nxt s <= a) ->
  (forall a, In a (grants t') -> In a (grants t) \/ unread s i a = true \/ nxt s <= a) ->
  (forall a, a < nxt s -> ~ In a (grants t) -> pg' a = pg s a /\ ef' a = ef a /\ G' a = G a) ->
  (forall a, a < nxt s -> ~ In a (grants t) -> B' a <= B a) ->
  (forall a n, pend pg' t' a = Some n -> ef' a = n) ->
  (forall a, a < nx' -> In a (grants t) \/ nxt s <= a -> pend pg' t' a = None -> ef' a = pg' a) ->
  tree ef' G' B' m' nx' -> tok ef' G' B' t' ->
  (forall a l hi, In a (grants t) -> a <> 0 -> G a = Some (0, l, hi) -> exists hi', G' a = Some (0, l, hi')) ->
  moved s t ef G (St pg' nx' (put (ths s) i t')) ef' G' B' m'.
Proof.
  intros s ef G B m i t t' pg' ef' G' B' m' nx' C Hi L HR HC HG HP HB HE1 HE2 HT HK HL.
  split; [|split; [exact HP|]].
  2:{ intros a x hi N0 Ga. destruct (in_dec Nat.eq_dec a (grants t)) as [Hg|Hg]; [eauto|].
      destruct (HP a) as (_ & _ & ->); eauto. eapply (t_lt _ _ _ _ _ (c_tree _ _ _ _ _ C)); eauto. }
  assert (others : forall j u, j <> i -> nth_error (ths s) j = Some u -> forall a, In a (reads u) ->
            a < nxt s /\ ~ In a (grants t)).
  { intros j u Nj Hj a Ha. split; [eapply (c_lt _ _ _ _ _ C); eauto|]. intros Hg. eapply (c_x1 _ _ _ _ _ C i j); eauto. }
  assert (same : forall j u, j <> i -> nth_error (ths s) j = Some u -> forall a, pend pg' u a = pend (pg s) u a).
  { intros j u Nj Hj a. apply pend_ext. intros b Hb. apply grants_reads in Hb. destruct (others j u Nj Hj b Hb). apply HP; auto. }
  assert (nths : forall j u, nth_error (put (ths s) i t') j = Some u -> (j = i /\ u = t') \/ (j <> i /\ nth_error (ths s) j = Some u)).
  { intros j u. rewrite nth_put, Hi. destruct (j =? i) eqn:E.
    - apply Nat.eqb_eq in E. intros [= <-]. auto.
    - apply Nat.eqb_neq in E. auto. }
  constructor; cbn [ths nxt pg].
  - intros j1 j2 u1 u2 a N H1 H2 Hg Hr. apply nths in H1, H2.
    destruct H1 as [[-> ->]|[N1 H1]]; destruct H2 as [[-> ->]|[N2 H2]]; try lia.
    + destruct (HG a Hg) as [H|[H|H]].
      * destruct (others j2 u2 N2 H2 a Hr). auto.
      * eapply nobody_ok; eauto.
      * destruct (others j2 u2 N2 H2 a Hr). lia.
    + destruct (HR a Hr) as [H|[[H _]|[H _]]].
      * eapply (c_x1 _ _ _ _ _ C j1 i); eauto.
      * apply grants_locks in Hg. eapply nobody_ok; eauto.
      * apply grants_reads in Hg. destruct (others j1 u1 N1 H1 a Hg). lia.
    + eapply (c_x1 _ _ _ _ _ C j1 j2); eauto.
  - intros j1 j2 u1 u2 a N H1 H2 Hg Hr. apply nths in H1, H2.
    destruct H1 as [[-> ->]|[N1 H1]]; destruct H2 as [[-> ->]|[N2 H2]]; try lia.
    + destruct (HC a Hg) as [H|[H|H]].
      * eapply (c_x2 _ _ _ _ _ C i j2); eauto.
      * eapply nobody_ok; eauto.
      * apply claims_reads in Hr. destruct (others j2 u2 N2 H2 a Hr). lia.
    + destruct (HC a Hr) as [H|[H|H]].
      * eapply (c_x2 _ _ _ _ _ C i j1); eauto.
      * apply (nobody_ok _ _ _ _ H j1 u1); auto.
      * apply claims_reads in Hg. destruct (others j1 u1 N1 H1 a Hg). lia.
    + eapply (c_x2 _ _ _ _ _ C j1 j2); eauto.
  - intros j u a H Hr. apply nths in H. destruct H as [[-> ->]|[N H]].
    + destruct (HR a Hr) as [H|[[_ H]|[_ H]]]; auto; [|lia]. pose proof (c_lt _ _ _ _ _ C i t a Hi H). lia.
    + destruct (others j u N H a Hr). lia.
  - intros j u a n H Hp. apply nths in H. destruct H as [[-> ->]|[N H]]; [eauto|].
    rewrite (same j u N H) in Hp. pose proof (pend_grants _ _ _ _ Hp) as Hg. apply grants_reads in Hg.
    destruct (others j u N H a Hg) as [X Y]. destruct (HP a X Y) as (_ & -> & _). eapply (c_e1 _ _ _ _ _ C); eauto.
  - intros a La Hn.
    assert (Ht' : pend pg' t' a = None).
    { apply (Hn i). rewrite nth_put, Nat.eqb_refl, Hi. auto. }
    destruct (in_dec Nat.eq_dec a (grants t)) as [Hg|Hg]; [apply HE2; auto|].
    destruct (le_lt_dec (nxt s) a) as [Hl|Hl]; [apply HE2; auto|].
    destruct (HP a Hl Hg) as (-> & -> & _). apply (c_e2 _ _ _ _ _ C); auto.
    intros j u Hj. destruct (Nat.eq_dec j i) as [->|N].
    + rewrite Hi in Hj. injection Hj as <-. destruct (pend (pg s) t a) eqn:E; auto. apply pend_grants in E. tauto.
    + rewrite <- (same j u N Hj). apply (Hn j). rewrite nth_put. apply Nat.eqb_neq in N. rewrite N. auto.
  - auto.
  - intros j u H. apply nths in H. destruct H as [[-> ->]|[N H]]; auto.
    eapply tok_ext; [|eapply (c_tok _ _ _ _ _ C); eauto]. intros a Ha.
    destruct (others j u N H a Ha) as [X Y]. destruct (HP a X Y) as (_ & -> & ->). auto.
Qed.

(** A step that only takes or gives back locks. *)
Lemma core_go : forall s ef G B m i t t',
  core s ef G B m -> nth_error (ths s) i = Some t ->
  (forall a, In a (reads t') -> In a (reads t) \/ (can_get s i a = true /\ a < nxt s)) ->
  (forall a, In a (claims t') -> In a (claims t) \/ can_claim s i a = true) ->
  (forall a, In a (grants t') -> In a (grants t) \/ unread s i a = true) ->
  (forall a, pend (pg s) t' a = pend (pg s) t a) ->
  tok ef G B t' ->
  moved s t ef G (St (pg s) (nxt s) (put (ths s) i t')) ef G B m.
Proof.
  intros s ef G B m i t t' C Hi HR HC HG HP HK.
  eapply core_step with (ef := ef) (G := G) (B := B) (m := m); eauto.
  - intros a H. apply HR in H. tauto.
  - intros a H. apply HC in H. tauto.
  - intros a H. apply HG in H. tauto.
  - intros a n H. rewrite HP in H. eapply (c_e1 _ _ _ _ _ C); eauto.
  - intros a La [H|H] Hp; [|lia]. rewrite HP in Hp. eapply own; eauto. apply grants_reads; auto.
  - apply C.
Qed.

(** ** Every step. *)

(** Where a call is in the atomic machine. *)
Definition isim (k m : nat) (p : ipc) : sthr :=
  match p with
  | I4d u | L4 _ u => SDone (RIns u)
  | B12 _ _ _ _ _ sp _ | B13 _ _ _ _ sp _ | B14 _ _ _ _ sp _ | B15 _ _ _ _ sp | B16 _ _ _ _ sp
  | B17 _ _ _ _ sp => SDone (RIns (isnil sp))
  | _ => SCalled (CIns k m)
  end.
Definition sim (t : thr) : sthr :=
  match t with
  | Idle => SIdle
  | Ins k m p => isim k m p
  | Fnd k (F4 _ v) => SDone (RFnd v)
  | Fnd k _ => SCalled (CFnd k)
  end.

(** A step of a thread is nothing, or a call, an effect or a return. *)
Inductive simstep (m : table) (t : thr) : label -> thr -> table -> Prop :=
| sim_none : forall t', sim t' = sim t -> simstep m t Tau t' m
| sim_call : forall c t', sim t = SIdle -> sim t' = SCalled c -> simstep m t (Called c) t' m
| sim_eff : forall c t', sim t = SCalled c -> sim t' = SDone (snd (apply c m)) ->
    simstep m t Tau t' (fst (apply c m))
| sim_ret : forall r t', sim t = SDone r -> sim t' = SIdle -> simstep m t (Returned r) t' m.

Definition stepped (s : state) (ef : nat -> node) (G : ghost) (i : nat) (t : thr) (m : table) (o : outcome) : Prop :=
  match o with
  | Next f fresh t' l =>
      exists ef' G' B' m',
        moved s t ef G (St f (if fresh then S (nxt s) else nxt s) (put (ths s) i t')) ef' G' B' m' /\
        simstep m t l t' m'
  end.

(** The child a key is routed to. *)
Lemma par_kid : forall ef G B m nx k p i c, tree ef G B m nx -> par ef G B k p i c ->
  exists h ph plo phi lo hi, G p = Some (ph, plo, phi) /\ ph = S h /\ height (ef p) = S h /\
    G c = Some (h, lo, hi) /\ inr lo hi k /\ B c <= k.
Proof.
  intros ef G B m nx k p i c T [(ph & plo & phi & Gp & Rp & Bp) (hh & ps & pk & Ep & F & N)].
  destruct (node_ok_index _ _ _ _ _ T _ _ _ _ _ _ Gp Ep) as (h0 & -> & -> & NE & S & I & K).
  pose proof (find_slot _ _ _ F) as FS. rewrite <- FS in N.
  destruct (slot_kid _ _ _ _ _ _ _ _ _ K Rp S N) as (lo & hi & Gc & Rc & Bc).
  exists h0, (Datatypes.S h0), plo, phi, lo, hi. rewrite Ep. repeat split; auto; try apply Rc.
  destruct (find_nth _ _ _ F) as (pk' & c' & N' & L). rewrite FS in N. rewrite N in N'. injection N' as <- <-. lia.
Qed.

Lemma kid_lt : forall ef G B m nx k p i c, tree ef G B m nx -> par ef G B k p i c -> c < nx.
Proof.
  intros ef G B m nx k p i c T P. destruct (par_kid _ _ _ _ _ _ _ _ _ T P) as (h & ph & plo & phi & lo & hi & _ & _ & _ & Gc & _).
  eapply (t_lt _ _ _ _ _ T); eauto.
Qed.

Lemma inp_root : forall ef G B m nx k, tree ef G B m nx -> inp G B k 0.
Proof.
  intros ef G B m nx k T. destruct (t_root _ _ _ _ _ T) as (B0 & h & G0 & _).
  exists h, None, None. split; auto. split; [split; cbn; auto|lia].
Qed.

Lemma inq_of_inp : forall G B k a, inp G B k a -> inq G k a.
Proof. intros G B k a (h & lo & hi & H1 & H2 & _). exists h, lo, hi. auto. Qed.

Ltac sets :=
  cbn [reads claims grants ireads iclaims igrants In];
  try (intros ? H; exact (or_introl H));
  let a := fresh "a" in let H := fresh "H" in
  intros a H;
  repeat match goal with H : _ \/ _ |- _ => destruct H end; subst; auto; try tauto.

Ltac golike C Hi :=
  eexists _, _, _, _; split;
  [eapply core_go; [exact C|exact Hi|sets|sets|sets|reflexivity|cbn [tok itok]]
  |apply sim_none; reflexivity].

(** A thread with nothing pending writes a page it has locked. *)
Lemma core_write : forall s ef G B m i t t' c n B' m',
  core s ef G B m -> nth_error (ths s) i = Some t ->
  In c (grants t) -> (forall g a, pend g t a = None) -> (forall g a, pend g t' a = None) ->
  (forall a, In a (reads t') -> In a (reads t)) ->
  (forall a, In a (claims t') -> In a (claims t)) ->
  (forall a, In a (grants t') -> In a (grants t)) ->
  (forall a, B' a <= B a) ->
  tree (upd ef c n) G B' m' (nxt s) -> tok (upd ef c n) G B' t' ->
  moved s t ef G (St (upd (pg s) c n) (nxt s) (put (ths s) i t')) (upd ef c n) G B' m'.
Proof.
  intros s ef G B m i t t' c n B' m' C Hi Hc P P' HR HC HG HB HT HK.
  eapply core_step with (ef := ef) (G := G) (B := B) (m := m); eauto.
  - intros a La Ha. assert (a <> c) by (intros ->; tauto). rewrite !upd_other by auto. auto.
  - intros a x H. rewrite P' in H. discriminate.
  - intros a La [H|H] _; [|lia]. unfold upd. destruct (a =? c); auto. eapply own; eauto. apply grants_reads; auto.
Qed.

(** A thread does a part of a pending split. *)
Lemma core_phys : forall s ef G B m i t t' c n,
  core s ef G B m -> nth_error (ths s) i = Some t ->
  pend (pg s) t c = Some n ->
  (forall a, a <> c -> pend (upd (pg s) c n) t' a = pend (pg s) t a) -> pend (upd (pg s) c n) t' c = None ->
  (forall a, In a (reads t') -> In a (reads t)) ->
  (forall a, In a (claims t') -> In a (claims t)) ->
  (forall a, In a (grants t') -> In a (grants t)) ->
  tok ef G B t' ->
  moved s t ef G (St (upd (pg s) c n) (nxt s) (put (ths s) i t')) ef G B m.
Proof.
  intros s ef G B m i t t' c n C Hi Hp P P' HR HC HG HK.
  pose proof (pend_grants _ _ _ _ Hp) as Hc.
  eapply core_step with (ef := ef) (G := G) (B := B) (m := m); eauto.
  - intros a La Ha. assert (a <> c) by (intros ->; tauto). rewrite !upd_other by auto. auto.
  - intros a x H. destruct (Nat.eq_dec a c) as [->|N]; [congruence|]. rewrite P in H by auto. eapply (c_e1 _ _ _ _ _ C); eauto.
  - intros a La [H|H] Q; [|lia]. destruct (Nat.eq_dec a c) as [->|N].
    + rewrite upd_same. eapply (c_e1 _ _ _ _ _ C); eauto.
    + rewrite upd_other by auto. rewrite P in Q by auto. eapply own; eauto. apply grants_reads; auto.
  - apply C.
Qed.

Section STEP.
Variables (s : state) (ef : nat -> node) (G : ghost) (B : nat -> nat) (m : table) (i : nat).
Hypothesis C : core s ef G B m.
Let T : tree ef G B m (nxt s) := c_tree _ _ _ _ _ C.

Lemma fstep_ok : forall k p o, nth_error (ths s) i = Some (Fnd k p) -> fstep s i k p = Some o ->
  stepped s ef G i (Fnd k p) m o.
Proof.
  intros k p o Hi E. pose proof (c_tok _ _ _ _ _ C _ _ Hi) as K.
  assert (W : forall a, In a (reads (Fnd k p)) -> ef a = pg s a).
  { intros a Ha. eapply own; eauto. }
  destruct p as [|a|a ix|a c|a v]; cbn [fstep tok reads In] in *.
  - destruct (can_get s i 0) eqn:Eg; [|discriminate]. injection E as <-. golike C Hi.
    + right. split; auto. destruct (t_root _ _ _ _ _ T) as (_ & h & G0 & _). eapply (t_lt _ _ _ _ _ T); eauto.
    + eapply inq_of_inp, inp_root; eauto.
  - rewrite <- W in E by auto. destruct (ef a) as [es pv n|h ps] eqn:Ea; injection E as <-.
    + exists ef, G, B, m. split.
      * eapply core_go; [exact C|exact Hi|sets|sets|sets|reflexivity|cbn; auto].
      * change m with (fst (apply (CFnd k) m)) at 2. apply sim_eff; [reflexivity|]. cbn. f_equal. f_equal.
        destruct K as (h & lo & hi & Ga & R). destruct (node_ok_leaf _ _ _ _ _ T _ _ _ _ _ _ _ Ga Ea) as (_ & _ & _ & V & _). auto.
    + golike C Hi. split; auto. exists h, ps. auto.
  - destruct K as [K1 (h & ps & Ea & ->)]. rewrite <- W in E by auto. rewrite Ea in E. cbn [pivots] in E.
    destruct (nth_error ps (slot k ps)) as [[pk c]|] eqn:N; [|discriminate].
    destruct (can_get s i c) eqn:Eg; [|discriminate]. injection E as <-.
    destruct K1 as (h' & lo & hi & Ga & R).
    destruct (node_ok_index _ _ _ _ _ T _ _ _ _ _ _ Ga Ea) as (h0 & -> & _ & NE & S & I & K).
    destruct (slot_kid _ _ _ _ _ _ _ _ _ K R S N) as (lo' & hi' & Gc & Rc & Bc).
    golike C Hi.
    + right. split; auto. eapply (t_lt _ _ _ _ _ T); eauto.
    + exists h0, lo', hi'. auto.
  - injection E as <-. golike C Hi. auto.
  - injection E as <-. exists ef, G, B, m. split.
    + eapply core_go; [exact C|exact Hi|sets|sets|sets|reflexivity|cbn; auto].
    + apply sim_ret; reflexivity.
Qed.

Lemma root_lt : 0 < nxt s.
Proof. destruct (t_root _ _ _ _ _ T) as (_ & h & G0 & _). eapply (t_lt _ _ _ _ _ T); eauto. Qed.

Lemma G_fresh : G (nxt s) = None.
Proof. destruct (G (nxt s)) eqn:E; auto. apply (t_lt _ _ _ _ _ T) in E. lia. Qed.

Lemma inp_lt : forall k a, inp G B k a -> a < nxt s.
Proof. intros k a (h & lo & hi & Ga & _). eapply (t_lt _ _ _ _ _ T); eauto. Qed.

Lemma leafsp_val : forall k c sp, leafsp ef G B k c sp -> sp = m k.
Proof.
  intros k c sp [(h & lo & hi & Gc & R & _) (es & pv & n & Ec & ->)].
  destruct (node_ok_leaf _ _ _ _ _ T _ _ _ _ _ _ _ Gc Ec) as (_ & _ & _ & V & _). auto.
Qed.

(** The insertion takes effect in a leaf with room. *)
Lemma perform_ok : forall k v p p' c sp es pv n, nth_error (ths s) i = Some (Ins k v p) ->
  leafsp ef G B k c sp -> pg s c = Leaf es pv n -> In c (igrants p) ->
  (forall g a, ipend g k v p a = None) -> (forall g a, ipend g k v p' a = None) ->
  (forall a, In a (ireads p') -> In a (ireads p)) ->
  (forall a, In a (iclaims p') -> In a (iclaims p)) ->
  (forall a, In a (igrants p') -> In a (igrants p)) ->
  isim k v p = SCalled (CIns k v) -> isim k v p' = SDone (RIns (isnil sp)) ->
  (forall ef' B', itok ef' G B' k p') ->
  stepped s ef G i (Ins k v p) m (Next (upd (pg s) c (Leaf (setk k (sp ++ [v]) es) pv n)) false (Ins k v p') Tau).
Proof.
  intros k v p p' c sp es pv n Hi L E Hc P P' HR HC HG S1 S2 HK.
  pose proof (leafsp_val _ _ _ L) as V.
  assert (Ec : ef c = Leaf es pv n).
  { rewrite <- E. apply (own s ef G B m i _ _ C Hi); [apply grants_reads; auto|cbn; auto]. }
  destruct L as [(h & lo & hi & Gc & R & Bk) _].
  exists (upd ef c (Leaf (setk k (sp ++ [v]) es) pv n)), G, B, (fst (apply (CIns k v) m)). split.
  - eapply core_write; eauto.
    + eapply (tree_perform _ _ _ _ _ T); eauto.
      * cbn. rewrite Nat.eqb_refl. congruence.
      * intros x Hx. cbn. apply Nat.eqb_neq in Hx. rewrite Hx. auto.
    + apply HK.
  - apply sim_eff; [exact S1|]. cbn [sim]. rewrite S2. cbn. rewrite V. destruct (m k); reflexivity.
Qed.

(** The first pivot of a page is lowered. *)
Lemma lower_ok : forall k v p p' a h ps j, nth_error (ths s) i = Some (Ins k v p) ->
  inp G B k a -> pg s a = Index h ps -> find k ps = j -> In a (igrants p) ->
  (forall g b, ipend g k v p b = None) -> (forall g b, ipend g k v p' b = None) ->
  (forall b, In b (ireads p') -> In b (ireads p)) ->
  (forall b, In b (iclaims p') -> In b (iclaims p)) ->
  (forall b, In b (igrants p') -> In b (igrants p)) ->
  isim k v p' = isim k v p ->
  (forall ef' B', idx ef' k a (Some (zero j)) -> inp G B' k a -> itok ef' G B' k p') ->
  stepped s ef G i (Ins k v p) m (Next (upd (pg s) a (Index h (lowered j k ps))) false (Ins k v p') Tau).
Proof.
  intros k v p p' a h ps j Hi Ia E F Ha P P' HR HC HG S1 HK.
  assert (Ea : ef a = Index h ps).
  { rewrite <- E. apply (own s ef G B m i _ _ C Hi); [apply grants_reads; auto|cbn; auto]. }
  destruct Ia as (h' & lo & hi & Ga & R & Bk). subst j.
  destruct (tree_lower _ _ _ _ _ T a h' ps k lo hi h Ga R Bk Ea) as (B' & T' & LB & _).
  destruct (node_ok_index _ _ _ _ _ T _ _ _ _ _ _ Ga Ea) as (h0 & _ & _ & NE & S & _ & _).
  eexists _, G, B', m. split.
  - eapply core_write; eauto. apply HK.
    + exists h, (lowered (find k ps) k ps). rewrite upd_same. split; auto. apply find_lowered; auto.
    + exists h', lo, hi. specialize (LB a). split; auto. split; auto. lia.
  - apply sim_none. exact S1.
Qed.

(** The root grows. *)
Lemma grow_ok : forall k v p p' ef1 B1 n0 n, nth_error (ths s) i = Some (Ins k v p) ->
  tree ef1 G B1 m (nxt s) -> (forall a, B1 a <= B a) -> ef1 0 = n0 -> (forall a, a <> 0 -> ef1 a = ef a) ->
  grown n0 (nxt s) = Some n -> igrants p = [0] ->
  (forall g b, ipend g k v p b = None) -> (forall g b, ipend g k v p' b = None) ->
  (forall b, In b (ireads p') -> In b (ireads p)) ->
  (forall b, In b (iclaims p') -> In b (iclaims p)) ->
  (forall b, In b (igrants p') -> In b (igrants p)) ->
  isim k v p' = isim k v p ->
  (forall ef' G' B' h k0, ef' 0 = Index h [(k0, nxt s)] -> inp G' B' k 0 ->
     (forall k1 c r, pivots n0 = (k1, c) :: r -> k0 = k1) -> itok ef' G' B' k p') ->
  stepped s ef G i (Ins k v p) m (Next (upd (upd (pg s) (nxt s) n0) 0 n) true (Ins k v p') Tau).
Proof.
  intros k v p p' ef1 B1 n0 n Hi T1 LB E0 Eo Gr Eg P P' HR HC HG S1 HK.
  pose proof root_lt as R0. subst n0.
  destruct (tree_grow _ _ _ _ _ T1 n Gr) as (G' & B' & k0 & T' & EG & EB & En & Ek).
  exists (upd (upd ef1 (nxt s) (ef1 0)) 0 n), G', B', m. split; [|apply sim_none; exact S1].
  eapply core_step with (ef := ef) (G := G) (B := B) (m := m); eauto.
  - intros a La Ha. cbn [grants] in Ha. rewrite Eg in Ha. cbn in Ha.
    assert (N0 : a <> 0) by (intros ->; tauto). assert (N1 : a <> nxt s) by lia.
    rewrite !upd_other by auto. rewrite Eo, EG by auto. auto.
  - intros a La _. rewrite EB by lia. auto.
  - intros a x H. cbn [pend] in H. rewrite P' in H. discriminate.
  - intros a La Ha _. cbn [grants] in Ha. rewrite Eg in Ha. cbn in Ha. unfold upd.
    destruct (a =? 0) eqn:E1; auto. apply Nat.eqb_neq in E1. replace (a =? nxt s) with true; auto.
    symmetry. apply Nat.eqb_eq. lia.
  - cbn [tok]. eapply HK; [rewrite upd_same; exact En|eapply inp_root; eauto|exact Ek].
  - intros a x hi Ha N0 Ga. cbn [grants] in Ha. rewrite Eg in Ha. destruct Ha as [<-|[]]. congruence.
Qed.

(** An index is split. *)
Lemma split_index_ok : forall k v p ix c j q pk x, 
  nth_error (ths s) i = Some (Ins k v (A6 p ix c j)) ->
  nth_error (lowered j k (pivots (pg s c))) q = Some (pk, x) -> 0 < q ->
  stepped s ef G i (Ins k v (A6 p ix c j)) m
    (Next (upd (upd (pg s) c (Index (height (pg s c)) (lowered j k (pivots (pg s c))))) p
             (Index (height (pg s p)) (insert_at (S ix) (pk, nxt s) (pivots (pg s p)))))
          true (Ins k v (A8 p c (nxt s) q (zero j))) Tau).
Proof.
  intros k v p ix c j q pk x Hi Nq Q.
  assert (W : forall a, In a (reads (Ins k v (A6 p ix c j))) -> ef a = pg s a) by (intros; eapply own; eauto).
  cbn [reads ireads In] in W.
  pose proof (c_tok _ _ _ _ _ C _ _ Hi) as [PA (h & ps & Ec & F)]. cbn [itok] in PA.
  destruct (par_kid _ _ _ _ _ _ _ _ _ T PA) as (h0 & ph & plo & phi & lo & hi & Gp & Eph & Hp & Gc & Rc & Bc).
  destruct PA as [_ (hp & pps & pc & Ep & Fp & Np)].
  rewrite <- !W in * by auto. rewrite Ec, Ep in *. cbn [pivots height] in *. subst j.
  destruct (nth_error_split _ _ Np) as (l & r & El & Elen). 
  destruct (node_ok_index _ _ _ _ _ T _ _ _ _ _ _ Gc Ec) as (h1 & Eh0 & Eh & NE & S & I & K).
  destruct (tree_lower _ _ _ _ _ T c h0 ps k lo hi h Gc Rc Bc Ec) as (B1 & T1 & LB & _).
  set (ps' := lowered (find k ps) k ps) in *.
  set (ef1 := upd ef c (Index h ps')) in *.
  pose proof (inp_lt k c) as Lc. pose proof (c_lt _ _ _ _ _ C i _ p Hi) as Lp. cbn in Lp.
  assert (Lc' : c < nxt s) by (apply Lc; exists h0, lo, hi; auto). assert (Lp' : p < nxt s) by auto.
  assert (NPC : p <> c) by (intros ->; rewrite Gc in Gp; injection Gp; lia).
  assert (E1p : ef1 p = Index ph (l ++ (pc, c) :: r)).
  { unfold ef1. rewrite upd_other by auto. rewrite Ep, El. f_equal. lia. }
  assert (E1c : ef1 c = Index h ps') by (unfold ef1; apply upd_same).
  pose proof G_fresh as Gf.
  assert (T2 : tree ef1 G B1 m (Datatypes.S (nxt s))) by (eapply tree_more; eauto).
  pose proof (tree_split_index ef1 G B1 m _ T2 p c (nxt s) h0 ph plo phi lo hi l r pc Gp E1p Gc Gf
                ltac:(lia) h ps' q pk x E1c Nq Q) as T3.
  match type of T3 with tree ?e ?g ?b _ _ => set (ef' := e) in *; set (G' := g) in *; set (B' := b) in * end.
  assert (SC : (zero (find k ps) < q /\ k < pk /\ find k (firstn q ps') = Some (zero (find k ps))) \/
               (q <= zero (find k ps) /\ pk <= k /\ find k (skipn q ps') = Some (zero (find k ps) - q))).
  { assert (Lq : length (firstn q ps') = q).
    { rewrite firstn_length. assert (q < length ps') by (apply nth_error_Some; congruence). lia. }
    assert (Esk : skipn q ps' = (pk, x) :: skipn (Datatypes.S q) ps').
    { clear -Nq. revert q Nq. induction ps' as [|a ps' IH]; intros [|q] H; try discriminate; cbn in *.
      - congruence.
      - apply IH; auto. }
    assert (Eps : ps' = firstn q ps' ++ (pk, x) :: skipn (Datatypes.S q) ps').
    { rewrite <- Esk. symmetry. apply firstn_skipn. }
    assert (FL : find k (firstn q ps' ++ (pk, x) :: skipn (Datatypes.S q) ps') = Some (zero (find k ps))).
    { rewrite <- Eps. apply find_lowered; auto. }
    destruct (find_cut (firstn q ps') pk x (skipn (Datatypes.S q) ps') k (zero (find k ps))) as [X|X]; auto.
    - rewrite <- Eps. apply lowered_sorted; auto.
    - intros E0. rewrite E0 in Lq. cbn in Lq. lia.
    - rewrite Lq in X. auto.
    - rewrite Lq, <- Esk in X. auto. }
  assert (e_p : ef' p = Index ph (insert_at (Datatypes.S (length l)) (pk, nxt s) (l ++ (pc, c) :: r))) by (unfold ef'; apply upd_same).
  assert (e_rc : ef' (nxt s) = Index h (skipn q ps')).
  { unfold ef'. rewrite upd_other by lia. apply upd_same. }
  assert (e_c : ef' c = Index h (firstn q ps')).
  { unfold ef'. rewrite !upd_other by lia. apply upd_same. }
  assert (e_o : forall a, a <> p -> a <> c -> a <> nxt s -> ef' a = ef a).
  { intros a N1 N2 N3. unfold ef', ef1. rewrite !upd_other by auto. auto. }
  exists ef', G', B', m. split; [|apply sim_none; reflexivity].
  eapply core_step with (ef := ef) (G := G) (B := B) (m := m); eauto.
  - cbn [reads ireads In]. intros a [->|[->|[<-|[]]]]; auto.
  - cbn [claims iclaims ireads In]. intros a [->|[->|[<-|[]]]]; auto.
  - cbn [grants igrants ireads In]. intros a [->|[->|[<-|[]]]]; auto.
  - cbn [grants igrants In]. intros a La Ha. assert (N1 : a <> p) by (intros ->; tauto). assert (N2 : a <> c) by (intros ->; tauto).
    rewrite !upd_other by auto. split; auto. split; [apply e_o; auto; lia|]. unfold G'. rewrite Gd_o; auto. lia.
  - intros a La _. unfold B'. rewrite Bd_o by lia. auto.
  - cbn [pend ipend]. intros a n. rewrite upd_other by auto. rewrite upd_same. unfold left_index, right_index. cbn [height pivots].
    destruct (a =? c) eqn:Ea.
    + apply Nat.eqb_eq in Ea. subst a. intros [= <-]. auto.
    + destruct (a =? nxt s) eqn:Eb; [|discriminate]. apply Nat.eqb_eq in Eb. subst a. intros [= <-]. auto.
  - cbn [pend ipend grants igrants In]. intros a La Ha. destruct (a =? c) eqn:Ea; [discriminate|].
    destruct (a =? nxt s) eqn:Eb; [discriminate|]. apply Nat.eqb_neq in Ea, Eb. intros _.
    assert (a = p) as -> by lia. rewrite upd_same, e_p, El, Elen. f_equal. lia.
  - cbn [tok itok]. split; [lia|]. destruct SC as [(X1 & X2 & X3)|(X1 & X2 & X3)].
    + replace (zero (find k ps) <? q) with true by (symmetry; apply Nat.ltb_lt; auto). split.
      * exists h0, lo, (Some pk). unfold G', B'. rewrite (Gd_c G c _ h0 lo hi pk Gc Gf), Bd_o by lia.
        split; auto. split; [split; [apply Rc|exact X2]|]. specialize (LB c). lia.
      * exists h, (firstn q ps'). auto.
    + replace (zero (find k ps) <? q) with false by (symmetry; apply Nat.ltb_ge; auto). split.
      * exists h0, (Some pk), hi. unfold G', B'. rewrite Gd_rc, Bd_rc.
        split; auto. split; [split; [exact X2|apply Rc]|]. auto.
      * exists h, (skipn q ps'). auto.
  - cbn [grants igrants In]. intros a y hy [<-|[<-|[]]] _ Ga.
    + exists hy. unfold G'. rewrite Gd_o; auto. lia.
    + rewrite Gc in Ga. injection Ga as -> -> ->. exists (Some pk). unfold G'. exact (Gd_c G c _ _ _ _ pk Gc Gf).
Qed.

(** A leaf is split: the insertion takes effect when the pivot is inserted. *)
Lemma split_leaf_ok : forall k v p ix c rc q gl sp n,
  nth_error (ths s) i = Some (Ins k v (B11 p ix c rc q gl sp n)) ->
  stepped s ef G i (Ins k v (B11 p ix c rc q gl sp n)) m
    (Next (upd (pg s) p (Index (height (pg s p)) (insert_at (S ix) (pivot k q gl (entries (pg s c)), rc) (pivots (pg s p)))))
          false (Ins k v (B12 p c rc q gl sp n)) Tau).
Proof.
  intros k v p ix c rc q gl sp n Hi.
  assert (W : forall a, In a (reads (Ins k v (B11 p ix c rc q gl sp n))) -> ef a = pg s a) by (intros; eapply own; eauto).
  assert (Wp : ef p = pg s p) by (apply W; destruct n; cbn; auto).
  assert (Wc : ef c = pg s c) by (apply W; destruct n; cbn; auto).
  pose proof (c_tok _ _ _ _ _ C _ _ Hi) as [(PA & LS & PL & Grc) Nn].
  pose proof (leafsp_val _ _ _ LS) as V.
  destruct (par_kid _ _ _ _ _ _ _ _ _ T PA) as (h0 & ph & plo & phi & lo & hi & Gp & Eph & Hp & Gc & Rc & Bc).
  destruct PA as [_ (hp & pps & pc & Ep & Fp & Np)]. destruct LS as [_ (es & pv & n' & Ec & ->)].
  rewrite Ec in Nn, PL. cbn [nextp entries] in Nn, PL. subst n'.
  rewrite <- Wp, <- Wc, Ec, Ep. cbn [pivots height entries].
  destruct (nth_error_split _ _ Np) as (l & r & El & Elen). rewrite Ep in Hp. cbn in Hp.
  assert (E1p : ef p = Index ph (l ++ (pc, c) :: r)) by (rewrite Ep, El; f_equal; lia).
  assert (Lrc : rc < nxt s) by (eapply (c_lt _ _ _ _ _ C); eauto; destruct n; cbn; auto).
  set (pk := pivot k q gl es).
  pose proof (tree_split_leaf ef G B m _ T p c rc h0 ph plo phi lo hi l r pc Gp E1p Gc Grc Lrc es pv n k v q gl
                (fst (apply (CIns k v) m)) Ec Rc Bc PL) as T3.
  assert (NPC : p <> c) by (intros ->; rewrite Gc in Gp; injection Gp; lia).
  assert (NCR : c <> rc) by (intros ->; congruence). assert (NPR : p <> rc) by (intros ->; congruence).
  destruct (node_ok_leaf _ _ _ _ _ T _ _ _ _ _ _ _ Gc Ec) as (E00 & _ & _ & _ & Nx & _).
  assert (NN : match n with Some n => n <> p /\ n <> c /\ n <> rc | None => True end).
  { destruct n as [n|]; auto. destruct hi as [y|]; [|destruct Nx]. destruct Nx as (hb & Gn). repeat split; intros ->.
    - rewrite Gp in Gn. injection Gn. lia.
    - rewrite Gc in Gn. injection Gn as _ -> _. destruct (t_ne _ _ _ _ _ T _ _ _ _ Gc) as (z & Z1 & Z2). cbn in *. lia.
    - congruence. }
  exists (split_leaf_ef ef p c rc ph l r pc k v q gl (getk k es) pk n), (Gd G c rc h0 lo hi pk), (Bd B rc pk), (fst (apply (CIns k v) m)).
  split.
  2:{ apply sim_eff; [reflexivity|]. cbn. rewrite V. destruct (m k); reflexivity. }
  eapply core_step with (ef := ef) (G := G) (B := B) (m := m); eauto.
  - intros a La Ha. cbn [grants igrants ireads] in Ha.
    assert (N1 : a <> p) by (intros ->; apply Ha; destruct n; cbn; auto).
    assert (N2 : a <> c) by (intros ->; apply Ha; destruct n; cbn; auto).
    assert (N3 : a <> rc) by (intros ->; apply Ha; destruct n; cbn; auto).
    rewrite upd_other by auto. split; auto. split; [|apply Gd_o; auto].
    unfold split_leaf_ef. pose proof N1 as N1'. pose proof N2 as N2'. pose proof N3 as N3'.
    apply Nat.eqb_neq in N1', N2', N3'. rewrite N1', N2', N3'. destruct n as [n|]; auto.
    destruct (a =? n) eqn:En; auto. apply Nat.eqb_eq in En. subst a. exfalso. apply Ha. cbn. auto.
  - intros a La Ha. rewrite Bd_o; auto. intros ->. apply Ha. destruct n; cbn; auto.
  - cbn [pend ipend]. intros a x. rewrite upd_other by auto. rewrite <- Wc, Ec.
    unfold split_leaf_ef. rewrite Ec.
    assert (a = p \/ a <> p) as [->|Nap] by lia.
    + assert (H1 : (p =? c) = false) by (apply Nat.eqb_neq; auto). assert (H2 : (p =? rc) = false) by (apply Nat.eqb_neq; auto).
      rewrite H1, H2. destruct n as [n|]; [|discriminate]. assert (H3 : (p =? n) = false) by (apply Nat.eqb_neq; lia).
      rewrite H3. discriminate.
    + apply Nat.eqb_neq in Nap. rewrite Nap. destruct (a =? c); [intros [= <-]; auto|].
      destruct (a =? rc); [intros [= <-]; auto|]. destruct n as [n|]; [|discriminate].
      destruct (a =? n) eqn:Ean; [|discriminate]. intros [= <-]. rewrite upd_other by tauto.
      rewrite W; auto. cbn. auto.
  - cbn [pend ipend grants igrants]. intros a La [Ha|Ha]; [|lia]. destruct (a =? c) eqn:Ea; [discriminate|].
    destruct (a =? rc) eqn:Eb; [discriminate|]. apply Nat.eqb_neq in Ea, Eb. intros Hn.
    assert (a = p) as ->.
    { destruct n as [n|]; cbn in Ha.
      - destruct (a =? n) eqn:En; [discriminate|]. apply Nat.eqb_neq in En. lia.
      - lia. }
    unfold split_leaf_ef. rewrite upd_same, Nat.eqb_refl, El, Elen. f_equal. lia.
  - apply T3; cbn.
    + rewrite Nat.eqb_refl. congruence.
    + intros y Hy. apply Nat.eqb_neq in Hy. rewrite Hy. auto.
  - cbn [tok itok]. split; auto. destruct n; tauto.
  - intros a y hy Ha _ Ga. assert (N3 : a <> rc) by (intros ->; congruence).
    destruct (Nat.eq_dec a c) as [->|N2].
    + rewrite Gc in Ga. injection Ga as -> -> ->. exists (Some pk). exact (Gd_c G c _ _ _ _ pk Gc Grc).
    + exists hy. rewrite Gd_o; auto.
Qed.

(** A page is allocated. *)
Lemma fresh_ok : forall k v p ix c sp q gl, nth_error (ths s) i = Some (Ins k v (B2 p ix c sp)) ->
  plan_ok k q gl (entries (pg s c)) = true ->
  stepped s ef G i (Ins k v (B2 p ix c sp)) m
    (Next (pg s) true (Ins k v (B3 p ix c (nxt s) q gl sp)) Tau).
Proof.
  intros k v p ix c sp q gl Hi PL.
  assert (W : forall a, In a (reads (Ins k v (B2 p ix c sp))) -> ef a = pg s a) by (intros; eapply own; eauto).
  pose proof (c_tok _ _ _ _ _ C _ _ Hi) as [PA LS]. pose proof G_fresh as Gf.
  pose proof (c_lt _ _ _ _ _ C i _ p Hi ltac:(cbn; auto)) as Lp.
  pose proof (c_lt _ _ _ _ _ C i _ c Hi ltac:(cbn; auto)) as Lc.
  set (ef' := upd ef (nxt s) (pg s (nxt s))).
  assert (E : forall a, a < nxt s -> ef' a = ef a) by (intros a La; unfold ef'; apply upd_other; lia).
  assert (T1 : tree ef' G B m (S (nxt s))).
  { eapply tree_more; [|apply Nat.le_succ_diag_r]. eapply tree_ext; [exact T|].
    intros a y Ga. apply E. destruct y as [[h lo] hi]. eapply (t_lt _ _ _ _ _ T); eauto. }
  exists ef', G, B, m. split; [|apply sim_none; reflexivity].
  eapply core_step with (ef := ef) (G := G) (B := B) (m := m); eauto.
  - cbn [reads ireads In]. intros a [<-|[<-|[<-|[]]]]; auto.
  - cbn [claims iclaims ireads In]. intros a [<-|[<-|[<-|[]]]]; auto.
  - cbn [grants igrants In]. intros a [<-|[]]; auto.
  - cbn. discriminate.
  - cbn. intros a La [[]|Ha] _. assert (a = nxt s) as -> by lia. unfold ef'. apply upd_same.
  - cbn [tok itok]. assert (X : forall a, In a (reads (Ins k v (B2 p ix c sp))) -> ef' a = ef a /\ G a = G a /\ B a <= B a).
    { intros a Ha. split; [|auto]. apply E. cbn in Ha. destruct Ha as [<-|[<-|[]]]; auto. }
    split; [eapply par_ext; eauto; cbn; auto|]. split; [eapply leafsp_ext; eauto; cbn; auto|].
    rewrite E by auto. rewrite W by (cbn; auto). auto.
Qed.

Ltac ifs E :=
  repeat match type of E with
  | (if ?b then _ else _) = Some _ => destruct b eqn:?; try discriminate E
  end; try (injection E as <-).

Lemma istep_ok : forall k v p x o, nth_error (ths s) i = Some (Ins k v p) -> istep s i k v p x = Some o ->
  stepped s ef G i (Ins k v p) m o.
Proof.
  intros k v p x o Hi E. pose proof (c_tok _ _ _ _ _ C _ _ Hi) as K.
  assert (W : forall a, In a (ireads p) -> ipend (pg s) k v p a = None -> ef a = pg s a).
  { intros a Ha Hp. eapply own; eauto. }
  pose proof root_lt as R0. pose proof (inp_root _ _ _ _ _ k T) as IR.
  destruct p; cbn [istep tok itok] in *; cbv zeta in E.
  - (* I0 *) ifs E. golike C Hi. auto.
  - (* I1 *) rewrite <- W in E by (cbn; auto). destruct (ef 0) as [es pv n|h ps] eqn:E0; ifs E.
    + golike C Hi. split; auto. exists es, pv, n. auto.
    + golike C Hi. auto.
    + golike C Hi. exists (find k ps), h, ps. auto.
  - ifs E. golike C Hi. auto.
  - ifs E. golike C Hi. auto.
  - (* I3 *) assert (E0 : ef 0 = pg s 0) by (apply W; cbn; auto).
    destruct (pg s 0) as [es pv n|h ps] eqn:P0; [|discriminate].
    destruct (yes x).
    + destruct (grown (Leaf es pv n) (nxt s)) as [n'|] eqn:Gr; [|discriminate]. injection E as <-.
      eapply (grow_ok _ _ _ _ ef B); eauto; try reflexivity.
      intros ef' G' B' h k0 X _ _. cbn. exists (find k [(k0, nxt s)]), h, [(k0, nxt s)]. auto.
    + injection E as <-. eapply perform_ok; eauto; try reflexivity; cbn; auto.
  - ifs E. golike C Hi. auto.
  - ifs E. exists ef, G, B, m. split.
    + eapply core_go; [exact C|exact Hi|sets|sets|sets|reflexivity|cbn; auto].
    + apply sim_ret; reflexivity.
  - (* I5 *) rewrite <- W in E by (cbn; auto). destruct (ef 0) as [es pv n|h ps] eqn:E0; [discriminate|]. ifs E.
    + golike C Hi. exists h, ps. auto.
    + golike C Hi. auto.
    + golike C Hi. split; auto. exists h, ps. split; auto. destruct (find k ps); [auto|discriminate].
  - ifs E. golike C Hi. auto.
  - ifs E. golike C Hi. auto.
  - (* I7 *) assert (E0 : ef 0 = pg s 0) by (apply W; cbn; auto).
    destruct (pg s 0) as [es pv n|h ps] eqn:P0; [discriminate|].
    destruct K as (h' & ps' & E0' & F). rewrite E0 in E0'. injection E0' as <- <-.
    destruct (yes x).
    + destruct (grown (Index h (lowered j k ps)) (nxt s)) as [n'|] eqn:Gr; [|discriminate]. injection E as <-.
      destruct IR as (h' & lo & hi & G0 & R & Bk).
      destruct (tree_lower _ _ _ _ _ T 0 h' ps k lo hi h G0 R Bk E0) as (B' & T' & LB & _).
      destruct (node_ok_index _ _ _ _ _ T _ _ _ _ _ _ G0 E0) as (h0 & _ & _ & NE & S & _ & _).
      rewrite F in T'.
      eapply (grow_ok _ _ _ _ (upd ef 0 (Index h (lowered j k ps))) B'); eauto; try reflexivity.
      * intros a Ha. apply upd_other; auto.
      * intros ef' G' B'' hh k0 X Y Z. cbn. split; auto. exists hh, [(k0, nxt s)]. split; auto.
        cbn [pivots] in Z. destruct (lowered j k ps) as [|[k1 c1] r] eqn:EL; [discriminate Gr|].
        specialize (Z _ _ _ eq_refl). subst k1.
        assert (L0 : k0 <= k).
        { destruct j as [j|].
          - cbn [lowered] in EL. subst ps. apply find_nth in F. destruct F as (pk & c & N & L).
            destruct j as [|j]; cbn in N.
            + injection N as <- <-. auto.
            + cbn in S. inversion S as [|? ? _ HS]; subst. rewrite Forall_forall in HS.
              apply nth_error_In in N. assert (k0 < pk); [|lia]. apply HS. apply in_map_iff. exists (pk, c). auto.
          - cbn [lowered lower] in EL. destruct ps as [|[k2 c2] r2]; [discriminate|]. cbn in EL. injection EL. lia. }
        unfold find, rank. cbn. replace (k0 <=? k) with true by (symmetry; apply Nat.leb_le; auto). auto.
    + injection E as <-. eapply lower_ok; eauto; try reflexivity; cbn; auto.
  - ifs E. golike C Hi. auto.
  - (* I8 *) destruct K as [Ip (h & ps & Ep & F)]. rewrite <- W in E by (cbn; auto). rewrite Ep in E. cbn [pivots] in E.
    destruct (nth_error ps idx0) as [[pk c]|] eqn:N; [|discriminate]. ifs E.
    assert (PA : par ef G B k p idx0 c) by (split; auto; exists h, ps, pk; auto).
    golike C Hi; auto. right. split; auto. eapply kid_lt; eauto.
  - (* I9 *) destruct (par_kid _ _ _ _ _ _ _ _ _ T K) as (h0 & ph & plo & phi & lo & hi & Gp & Eph & Hp & Gc & Rc & Bc).
    assert (Ic : inp G B k c) by (exists h0, lo, hi; auto).
    rewrite <- !W in E by (cbn; auto). rewrite Hp in E.
    pose proof (t_ok _ _ _ _ _ T _ _ _ _ Gc) as NO.
    destruct (1 <? S h0) eqn:E1.
    + apply Nat.ltb_lt in E1. destruct (ef c) as [es pv n|h ps] eqn:Ec.
      { exfalso. destruct (node_ok_leaf _ _ _ _ _ T _ _ _ _ _ _ _ Gc Ec) as (X & _). lia. }
      cbn [pivots] in E. ifs E.
      * golike C Hi. split; auto. exists h, ps. auto.
      * golike C Hi. auto.
      * golike C Hi. split; auto. exists h, ps. split; auto. destruct (find k ps); [auto|discriminate].
    + apply Nat.ltb_ge in E1. destruct (ef c) as [es pv n|h ps] eqn:Ec.
      2:{ exfalso. destruct (node_ok_index _ _ _ _ _ T _ _ _ _ _ _ Gc Ec) as (hh & X & _). lia. }
      cbn [entries] in E. assert (LS : leafsp ef G B k c (getk k es)) by (split; auto; exists es, pv, n; auto).
      ifs E.
      * golike C Hi. split; auto. split; auto. lia.
      * golike C Hi. auto.
      * golike C Hi. auto.
  - ifs E; golike C Hi; auto.
  - ifs E; golike C Hi; auto.
  - ifs E; golike C Hi; auto.
  - ifs E; golike C Hi; auto.
  - ifs E; golike C Hi; auto.
  - (* A6 *) destruct (yes x).
    + destruct (nth_error (lowered j k (pivots (pg s c))) (cut x)) as [[pk y]|] eqn:N; [|discriminate].
      destruct (0 <? cut x) eqn:Q; [|discriminate]. injection E as <-. apply Nat.ltb_lt in Q.
      eapply split_index_ok; eauto.
    + injection E as <-. destruct K as [PA (h & ps & Ec & F)].
      destruct (par_kid _ _ _ _ _ _ _ _ _ T PA) as (h0 & ph & plo & phi & lo & hi & Gp & Eph & Hp & Gc & Rc & Bc).
      rewrite W in Ec by (cbn; auto). rewrite Ec. cbn [height pivots].
      eapply lower_ok; eauto; try reflexivity; cbn; auto. exists h0, lo, hi. auto.
  - ifs E; golike C Hi; auto.
  - ifs E; golike C Hi; auto.
  - (* A9 *) injection E as <-. assert (N : c <> rc) by apply K. apply Nat.eqb_neq in N as N1. apply Nat.neq_sym, Nat.eqb_neq in N as N2.
    exists ef, G, B, m. split; [|apply sim_none; reflexivity].
    eapply core_phys; eauto; cbn [pend ipend reads ireads claims iclaims grants igrants]; auto.
    + rewrite N2, Nat.eqb_refl. auto.
    + intros a Ha. rewrite upd_other by auto. destruct (a =? c); auto. apply Nat.eqb_neq in Ha. rewrite Ha. auto.
    + rewrite N2. auto.
  - ifs E. exists ef, G, B, m. split; [|apply sim_none; reflexivity].
    eapply core_go; [exact C|exact Hi| | | |reflexivity|exact K]; cbn [reads claims grants ireads iclaims igrants]; destruct (j <? q);
      cbn [In]; intros a Ha; tauto.
  - (* A11 *) injection E as <-. 
    exists ef, G, B, m. split; [|apply sim_none; reflexivity].
    eapply core_phys; eauto; cbn [pend ipend reads ireads claims iclaims grants igrants]; auto.
    + rewrite Nat.eqb_refl. auto.
    + intros a Ha. apply Nat.eqb_neq in Ha. rewrite Ha. auto.
  - (* A12 *) destruct K as [N K]. destruct (j <? q) eqn:Q; injection E as <-.
    + exists ef, G, B, m. split; [|apply sim_none; reflexivity].
      eapply core_go; [exact C|exact Hi| | | |reflexivity|cbn [tok itok]; auto];
        cbn [reads claims grants ireads iclaims igrants]; rewrite Q; auto.
    + exists ef, G, B, m. split; [|apply sim_none; reflexivity].
      eapply core_go; [exact C|exact Hi| | | |reflexivity|cbn [tok itok]; auto];
        cbn [reads claims grants ireads iclaims igrants]; rewrite Q; cbn [In]; intros a Ha; tauto.
  - ifs E; golike C Hi; auto.
  - ifs E; golike C Hi; auto.
  - ifs E; golike C Hi; auto.
  - ifs E; golike C Hi; auto.
  - (* L3 *) destruct (pg s c) as [es pv n|h ps] eqn:P0; [|discriminate]. injection E as <-.
    eapply perform_ok; eauto; try reflexivity; cbn; auto.
  - ifs E. exists ef, G, B, m. split.
    + eapply core_go; [exact C|exact Hi|sets|sets|sets|reflexivity|cbn; auto].
    + apply sim_ret; reflexivity.
  - (* B1 *) destruct K as (PA & H1 & LS).
    destruct (par_kid _ _ _ _ _ _ _ _ _ T PA) as (h0 & ph & plo & phi & lo & hi & Gp & Eph & Hp & Gc & Rc & Bc).
    destruct (ef c) as [es pv n|h ps] eqn:Ec.
    2:{ exfalso. destruct (node_ok_index _ _ _ _ _ T _ _ _ _ _ _ Gc Ec) as (hh & X & _). lia. }
    assert (LS' : leafsp ef G B k c (getk k es)) by (split; [exists h0, lo, hi; auto|exists es, pv, n; auto]).
    rewrite <- W in E by (cbn; auto). rewrite Ec in E. cbn [entries] in E.
    ifs E; golike C Hi; auto. split; auto. destruct reb; auto.
  - (* B1g *) destruct K as [PA H1]. ifs E. golike C Hi; [right; split; auto; eapply kid_lt; eauto|]. split; auto. split; auto. discriminate.
  - (* B2 *) ifs E.
    + apply fresh_ok; auto.
    + golike C Hi. tauto.
  - ifs E; golike C Hi; auto.
  - ifs E; golike C Hi; auto.
  - (* B5 *) pose proof K as (PA & LS & PL & Grc). rewrite <- W in E by (cbn; auto).
    destruct LS as [(h0 & lo & hi & Gc & Rc & Bc) (es & pv & n & Ec & ->)]. rewrite Ec in E. cbn [nextp] in E.
    destruct n as [n|].
    + ifs E. golike C Hi.
      * right. split; auto. destruct (node_ok_leaf _ _ _ _ _ T _ _ _ _ _ _ _ Gc Ec) as (_ & _ & _ & _ & Nx & _).
        destruct hi as [y|]; [|destruct Nx]. destruct Nx as (hb & Gn). eapply (t_lt _ _ _ _ _ T); eauto.
      * split; auto. rewrite Ec. auto.
    + ifs E. golike C Hi. split; auto. rewrite Ec. auto.
  - ifs E; golike C Hi; auto; tauto.
  - ifs E; golike C Hi; auto; tauto.
  - ifs E; golike C Hi; auto; tauto.
  - ifs E. destruct n; golike C Hi; auto; tauto.
  - ifs E. destruct n; golike C Hi; auto; tauto.
  - injection E as <-. apply split_leaf_ok; auto.
  - ifs E. destruct n; golike C Hi; auto; tauto.
  - (* B13 *) destruct K as [N1 N2]. destruct n as [n|].
    + injection E as <-. destruct N2 as [N2 N3]. apply Nat.eqb_neq in N2 as N2'. apply Nat.eqb_neq in N3 as N3'.
      exists ef, G, B, m. split; [|apply sim_none; reflexivity].
      eapply core_phys; eauto; cbn [pend ipend reads ireads claims iclaims grants igrants]; auto.
      * rewrite N2', N3', Nat.eqb_refl. auto.
      * intros a Ha. rewrite upd_other by auto. apply Nat.eqb_neq in Ha. rewrite Ha. auto.
      * rewrite N2', N3'. auto.
      * cbn. auto.
    + injection E as <-. golike C Hi; auto.
  - ifs E. destruct n; golike C Hi; auto; tauto.
  - (* B15 *) injection E as <-. apply Nat.eqb_neq in K as N1. apply Nat.neq_sym, Nat.eqb_neq in K as N2.
    exists ef, G, B, m. split; [|apply sim_none; reflexivity].
    eapply core_phys; eauto; cbn [pend ipend reads ireads claims iclaims grants igrants]; auto.
    + rewrite N2, Nat.eqb_refl. auto.
    + intros a Ha. rewrite upd_other by auto. destruct (a =? c); auto. apply Nat.eqb_neq in Ha. rewrite Ha. auto.
    + rewrite N2. auto.
    + cbn. auto.
  - ifs E; golike C Hi; auto.
  - (* B17 *) injection E as <-. 
    exists ef, G, B, m. split; [|apply sim_none; reflexivity].
    eapply core_phys; eauto; cbn [pend ipend reads ireads claims iclaims grants igrants]; auto.
    + rewrite Nat.eqb_refl. auto.
    + intros a Ha. apply Nat.eqb_neq in Ha. rewrite Ha. auto.
    + cbn. auto.
Qed.
End STEP.
