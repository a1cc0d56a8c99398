(** The invariant of the concurrent trunk, and that it is kept by a step of one thread. *)
From Coq Require Import List Arith Bool Lia.
Import ListNotations.
From Verif Require Import CTrunk CTrunkSpec CTrunkInv CTrunkOps.
Local Open Scope nat_scope.

(** ** Lists of threads. *)
Lemma nth_put : forall {A} (l : list A) i x y j, nth_error l i = Some y ->
  nth_error (put l i x) j = if j =? i then Some x else nth_error l j.
Proof.
  induction l as [|z l IH]; intros [|i] x y j H; cbn in H; try discriminate.
  - destruct j; auto.
  - destruct j; cbn [put nth_error]; auto. rewrite (IH _ _ _ _ H). auto.
Qed.

Lemma isin_In : forall a l, isin a l = true <-> In a l.
Proof.
  intros a l. unfold isin. rewrite existsb_exists. split.
  - intros (x & H & E). apply Nat.eqb_eq in E. congruence.
  - intros H. exists a. split; auto. apply Nat.eqb_refl.
Qed.
Lemma nobody_spec : forall f a l i, nobody f a i l = true ->
  forall j u, j <> i -> nth_error l j = Some u -> ~ In a (f u).
Proof.
  intros f a. induction l as [|t l IH]; intros i H j u Hj Hu Hin; [destruct j; discriminate|].
  apply isin_In in Hin. destruct i; cbn in H.
  - destruct j; [congruence|]. cbn in Hu. rewrite forallb_forall in H. specialize (H u (nth_error_In _ _ Hu)).
    rewrite Hin in H. discriminate.
  - apply andb_true_iff in H. destruct H as [H1 H2]. destruct j; cbn in Hu.
    + injection Hu as ->. rewrite Hin in H1. discriminate.
    + apply isin_In in Hin. apply (IH i H2 j u); auto.
Qed.
Lemma none_spec : forall f (l : list pc), forallb (fun t => negb (f t)) l = true ->
  forall j u, nth_error l j = Some u -> f u = false.
Proof.
  intros f l H j u Hu. rewrite forallb_forall in H. specialize (H u (nth_error_In _ _ Hu)). destruct (f u); auto.
Qed.

(** ** Threads. *)
Definition p4 (t : pc) : option (nat * node) := match t with P4 _ e _ n => Some (e, n) | _ => None end.
(** The node a compaction has made and keeps locked. *)
Definition mine (t : pc) : list nat :=
  match t with
  | P2 _ a _ | P3 _ a _ | P4 _ a _ _ | K0 _ a _ | K1 _ a _ _ | K2 _ a _ | P6 _ a => [a]
  | _ => []
  end.
Definition oldr (t : pc) : list nat :=
  match t with P2 _ _ o | P3 _ _ o | P4 _ _ o _ | K0 _ _ o => [o] | _ => [] end.
Definition pages (t : pc) : list nat := reads t ++ locks t ++ oldr t.
Definition priv (t : pc) : list nat := match t with I2 _ _ own => own | _ => [] end.

Lemma mine_locks : forall t a, In a (mine t) -> In a (locks t).
Proof. destruct t; cbn; try tauto. destruct up; cbn; tauto. Qed.

(** The nodes [O] are not known outside. *)
Definition sealed (g : nat -> node) (nx root : nat) (O : list nat) : Prop :=
  ~ In root O /\ forall q c, q < nx -> ~ In q O -> In c (kids (g q)) -> ~ In c O.

Definition okr (g : nat -> node) (nb : nat) (B : nat -> nat -> list nat) (root : nat) (o : req) : Prop :=
  Forall (fun b => b < nb) (seg o) /\ nbr o < nb /\ (forall k, B (nbr o) k = all_of B (seg o) k) /\ hh o <= ht (g root).
Definition okn (g : nat -> node) (o : req) (a : nat) : Prop := inr (g a) (sk o) /\ hh o <= ht (g a).
Definition merging (x : sthr) : Prop := exists k h e sg, x = SCalled (CMerge k h e sg).
Definition whole (n : node) : Prop := lo n = Some 0 /\ ub n = None.

Definition pcok (g : nat -> node) (nb : nat) (B : nat -> nat -> list nat) (root : nat) (m : table) (t : pc) (x : sthr) : Prop :=
  match t with
  | Idle => x = SIdle
  | G0 k | G1 k => x = SCalled (CGet k)
  | G2 k a j acc => inr (g a) k /\ exists p, slot k (pvs (g a)) = Some p /\
      (x = SAny \/
       x = SDone (RGet (acc ++ all_of B (skipn j (bs p)) k ++ (if ht (g a) =? 0 then [] else lk g B (ch p) k))))
  | G3 k a c acc => inr (g c) k /\ (x = SAny \/ x = SDone (RGet (acc ++ lk g B c k)))
  | P0 o | P1 o => merging x /\ okr g nb B root o
  | P2 o a old => merging x /\ okr g nb B root o /\ okn g o old /\ whole (g a) /\
      ht (g root) <= ht (g a) /\ forall k, lk g B a k = m k
  | P3 o e old => merging x /\ okr g nb B root o /\ okn g o old /\ okn g o e
  | P4 o e old _ => merging x /\ okr g nb B root o /\ okn g o old /\ okn g o e
  | K0 o e old => merging x /\ okr g nb B root o /\ okn g o old
  | K1 o e _ a => merging x /\ okr g nb B root o /\ okn g o a
  | K2 o e a => merging x /\ okr g nb B root o /\ okn g o a
  | P6 o e => merging x /\ okr g nb B root o
  | I0 c | I1 c => x = SCalled (CInc c)
  | I2 c a own => x = SCalled (CInc c) /\ In a own /\ whole (g a) /\ ht (g root) <= ht (g a) /\
      forall k, lk g B a k = cont c k ++ m k
  | Bad => False
  end.

Record inv (s : state) (ef : nat -> node) (m : table) (f : nat -> sthr) : Prop := Inv {
  v_wf : wf ef (nx s) (nb s);
  v_p4 : forall i t a n, nth_error (ths s) i = Some t -> p4 t = Some (a, n) -> ef a = n;
  v_mem : forall a, (forall i t, nth_error (ths s) i = Some t -> forall n, p4 t <> Some (a, n)) -> mem s a = ef a;
  v_ht : forall a, ht (mem s a) = ht (ef a);
  v_pg : forall i t a, nth_error (ths s) i = Some t -> In a (pages t ++ priv t) -> a < nx s;
  v_ex : forall i j t u a, i <> j -> nth_error (ths s) i = Some t -> nth_error (ths s) j = Some u ->
     In a (mine t) -> ~ In a (reads u ++ locks u);
  v_claim : forall i j t u, i <> j -> nth_error (ths s) i = Some t -> nth_error (ths s) j = Some u ->
     root_claim t = true -> root_claim u = true -> False;
  v_priv : forall i t, nth_error (ths s) i = Some t -> sealed ef (nx s) (root s) (priv t) /\
     forall j u a, j <> i -> nth_error (ths s) j = Some u -> In a (pages u) -> ~ In a (priv t);
  v_root : root s < nx s /\ whole (ef (root s)) /\ forall k, lk ef (br s) (root s) k = m k;
  v_pc : forall i t, nth_error (ths s) i = Some t -> pcok ef (nb s) (br s) (root s) m t (f i) }.

Lemma whole_hdr : forall n n', hdr n = hdr n' -> whole n -> whole n'.
Proof. intros n n' H [W1 W2]. split; [rewrite <- (hdr_lo _ _ H)|rewrite <- (hdr_ub _ _ H)]; auto. Qed.
Lemma whole_inr : forall n k, whole n -> inr n k.
Proof. intros n k [W1 W2]. split; [exists 0; split; auto; lia|rewrite W2; auto]. Qed.

(** What other threads rely on stays. *)
Lemma pcok_ext : forall g nx nb B root m t x g' nx' nb' B' root' m',
  eff g nx nb B g' nx' nb' B' -> wf g nx nb -> root < nx -> ht (g root) <= ht (g' root') ->
  (forall a, In a (pages t ++ priv t) -> a < nx) -> (forall a, In a (reads t) -> g' a = g a) ->
  ((m' = m /\ root' = root) \/ root_claim t = false) ->
  pcok g nb B root m t x -> pcok g' nb' B' root' m' t x.
Proof.
  intros g nx nb B root m t x g' nx' nb' B' root' m' E W Hr Hh HP HR HM.
  assert (Ho : forall o, okr g nb B root o -> okr g' nb' B' root' o).
  { intros o (O1 & O2 & O3 & O4). pose proof (e_nb _ _ _ _ _ _ _ _ E). split; [eapply Forall_impl; [|exact O1]; cbn; intros; lia|].
    split; [lia|]. split; [|lia]. intros k. rewrite (e_br _ _ _ _ _ _ _ _ E) by auto. rewrite O3. symmetry. eapply all_of_ext; eauto.
    apply (e_br _ _ _ _ _ _ _ _ E). }
  assert (Hn : forall o a, a < nx -> okn g o a -> okn g' o a).
  { intros o a Ha [O1 O2]. pose proof (e_hdr _ _ _ _ _ _ _ _ E a Ha) as X. split; [eapply inr_hdr; [symmetry; exact X|auto]|].
    rewrite (hdr_ht _ _ X). auto. }
  assert (Hw : forall a, a < nx -> whole (g a) -> whole (g' a)).
  { intros a Ha. apply whole_hdr. symmetry. apply (e_hdr _ _ _ _ _ _ _ _ E a Ha). }
  destruct t; cbn in *; auto.
  - intros (I & p & Sp & Ex). rewrite HR by auto. split; auto. exists p. split; auto. destruct Ex as [Ex|Ex]; [left; auto|right]. rewrite Ex. do 3 f_equal.
    destruct (lk_node g B nx nb a k (W a (HP a ltac:(auto))) I) as (p' & E1 & E2 & E3 & E4). rewrite Sp in E1. injection E1 as <-. f_equal.
    + symmetry. eapply all_of_ext; [apply (e_br _ _ _ _ _ _ _ _ E)|].
      rewrite <- (firstn_skipn i (bs p)) in E2. apply Forall_app in E2. tauto.
    + destruct (Nat.eqb_spec (ht (g a)) 0) as [Z|Z]; auto. destruct (E4 Z) as (K1 & K2 & _).
      symmetry. apply (e_lk _ _ _ _ _ _ _ _ E _ _ K1 K2).
  - intros (I & Ex). rewrite HR by auto. split; auto. destruct Ex as [Ex|Ex]; [left; auto|right]. rewrite Ex. do 3 f_equal. symmetry. apply (e_lk _ _ _ _ _ _ _ _ E); auto.
  - intros (X1 & X2). auto.
  - intros (X1 & X2). auto.
  - intros (X1 & X2 & X3 & X4 & X5 & X6). destruct HM as [[-> ->]|]; [|discriminate].
    pose proof (HP a ltac:(auto)) as Ha. pose proof (e_hdr _ _ _ _ _ _ _ _ E a Ha) as Y.
    split; auto. split; auto. split; auto. split; auto. split.
    + rewrite (hdr_ht _ _ Y). rewrite (hdr_ht _ _ (e_hdr _ _ _ _ _ _ _ _ E _ Hr)). auto.
    + intros k. rewrite (e_lk _ _ _ _ _ _ _ _ E); auto. apply whole_inr; auto.
  - intros (X1 & X2 & X3 & X4). auto 10.
  - intros (X1 & X2 & X3 & X4). auto 10.
  - intros (X1 & X2 & X3). auto 10.
  - intros (X1 & X2 & X3). split; auto. split; auto. apply Hn; auto. apply HP. destruct up; cbn; auto.
  - intros (X1 & X2 & X3). split; auto. split; auto.
  - intros (X1 & X2). auto.
  - intros (X1 & X2 & X3 & X4 & X5). destruct HM as [[-> ->]|]; [|discriminate].
    pose proof (HP a X2) as Ha. pose proof (e_hdr _ _ _ _ _ _ _ _ E a Ha) as Y.
    split; auto. split; auto. split; auto. split.
    + rewrite (hdr_ht _ _ Y). rewrite (hdr_ht _ _ (e_hdr _ _ _ _ _ _ _ _ E _ Hr)). auto.
    + intros k. rewrite (e_lk _ _ _ _ _ _ _ _ E); auto. apply whole_inr; auto.
Qed.

(** One thread moves. *)
Lemma frame : forall s ef m f i t t' g' nx' root' B' nb' fr' ef' m' x',
  inv s ef m f -> nth_error (ths s) i = Some t ->
  eff ef (nx s) (nb s) (br s) ef' nx' nb' B' ->
  (forall a n, p4 t' = Some (a, n) -> ef' a = n) ->
  (forall a, (forall n, p4 t' <> Some (a, n)) ->
     g' a = ef' a \/ ((forall n, p4 t <> Some (a, n)) /\ g' a = mem s a /\ ef' a = ef a)) ->
  (forall a, ht (g' a) = ht (ef' a)) ->
  (forall a, a < nx s -> ef' a = ef a \/ In a (mine t) \/ In a (priv t)) ->
  (forall a, In a (pages t' ++ priv t') -> a < nx') ->
  (forall a, In a (reads t' ++ locks t') -> In a (reads t ++ locks t) \/ nx s <= a \/ can_get s i a = true) ->
  (forall a, In a (mine t') -> In a (mine t) \/ nx s <= a) ->
  (root_claim t' = true -> root_claim t = true \/ no_claim s = true) ->
  (root_claim t = false -> forall O, sealed ef (nx s) (root s) O -> (forall a, In a (pages t) -> ~ In a O) ->
     (forall a, In a O -> a < nx s) -> sealed ef' nx' root' O /\ forall a, In a (pages t') -> ~ In a O) ->
  (sealed ef' nx' root' (priv t') /\
     forall j u a, j <> i -> nth_error (ths s) j = Some u -> In a (pages u) -> ~ In a (priv t')) ->
  (root' < nx' /\ whole (ef' root') /\ forall k, lk ef' B' root' k = m' k) ->
  ht (ef (root s)) <= ht (ef' root') ->
  ((m' = m /\ root' = root s) \/ root_claim t = true) ->
  pcok ef' nb' B' root' m' t' x' ->
  inv (St g' nx' root' B' nb' fr' (put (ths s) i t')) ef' m' (now f i x').
Proof.
  intros s ef m f i t t' g' nx' root' B' nb' fr' ef' m' x' V Hi E H4 HM HHM HK HPg HN Hmine HC HS HPr HRt HHt Hm HP.
  destruct V as [V1 V2 V3 V3h V4 V5 V6 V7 V8 V9].
  assert (NP : forall j u, nth_error (put (ths s) i t') j = Some u -> (j = i /\ u = t') \/ (j <> i /\ nth_error (ths s) j = Some u)).
  { intros j u H. rewrite (nth_put _ _ _ _ _ Hi) in H. destruct (Nat.eqb_spec j i); [left|right]; split; congruence. }
  constructor; cbn [ths mem nx nb root br].
  - apply (e_wf _ _ _ _ _ _ _ _ E).
  - intros j u a n Hj Hu. destruct (NP _ _ Hj) as [[-> ->]|[Z Hj']]; auto.
    assert (Ma : In a (mine u)) by (destruct u; try discriminate; cbn in *; injection Hu; auto).
    assert (La : a < nx s).
    { eapply V4; [exact Hj'|]. apply in_or_app. left. apply in_or_app. right. apply in_or_app. left. apply mine_locks. auto. }
    destruct (HK a La) as [->|[Mt|Pt]]; eauto.
    + exfalso. eapply (V5 j i); eauto. apply in_or_app. right. apply mine_locks. auto.
    + exfalso. destruct (V7 i t Hi) as [_ V7']. eapply (V7' j u a Z Hj'); eauto. apply in_or_app. right. apply in_or_app. left. apply mine_locks. auto.
  - intros a H. destruct (HM a) as [X|(X1 & X2 & X3)]; auto.
    + intros n. eapply H. rewrite (nth_put _ _ _ _ _ Hi), Nat.eqb_refl. auto.
    + rewrite X2, X3. apply V3. intros j u Hj n. destruct (Nat.eq_dec j i) as [->|Z]; [rewrite Hi in Hj; injection Hj as <-; auto|].
      apply (H j). rewrite (nth_put _ _ _ _ _ Hi). apply Nat.eqb_neq in Z. rewrite Z. auto.
  - exact HHM.
  - intros j u a Hj Ha. destruct (NP _ _ Hj) as [[-> ->]|[Z Hj']]; auto. pose proof (e_nx _ _ _ _ _ _ _ _ E).
    pose proof (V4 _ _ _ Hj' Ha). lia.
  - intros j k u w a Hjk Hj Hk Hu Hw. destruct (NP _ _ Hj) as [[-> ->]|[Z Hj']]; destruct (NP _ _ Hk) as [[-> ->]|[Z' Hk']]; try congruence.
    + destruct (Hmine a Hu) as [M|L]; [eapply (V5 i k); eauto|].
      assert (a < nx s); [|lia]. eapply V4; [exact Hk'|]. unfold pages. rewrite !in_app_iff in *. tauto.
    + destruct (HN a Hw) as [M|[L|G]].
      * eapply (V5 j i); eauto.
      * assert (a < nx s); [|lia]. eapply V4; [exact Hj'|]. unfold pages. apply mine_locks in Hu. rewrite !in_app_iff in *. tauto.
      * eapply nobody_spec; [exact G|exact Z|exact Hj'|]. apply mine_locks. auto.
    + eapply (V5 j k); eauto.
  - intros j k u w Hjk Hj Hk Hu Hw. destruct (NP _ _ Hj) as [[-> ->]|[Z Hj']]; destruct (NP _ _ Hk) as [[-> ->]|[Z' Hk']]; try congruence.
    + destruct (HC Hu) as [M|L]; [eapply (V6 i k); eauto|]. rewrite (none_spec _ _ L _ _ Hk') in Hw. discriminate.
    + destruct (HC Hw) as [M|L]; [eapply (V6 j i); eauto|]. rewrite (none_spec _ _ L _ _ Hj') in Hu. discriminate.
    + eapply (V6 j k); eauto.
  - intros j u Hj. destruct (NP _ _ Hj) as [[-> ->]|[Z Hj']].
    + destruct HPr as [S1 S2]. split; auto. intros k w a Hk Hw. destruct (NP _ _ Hw) as [[-> _]|[_ Hw']]; [congruence|]. eauto.
    + destruct (root_claim t) eqn:Ct.
      * assert (Pu : priv u = []).
        { destruct u; auto. exfalso. eapply (V6 i j); eauto. }
        rewrite Pu. split; [split; auto|]; intros; tauto.
      * destruct (V7 j u Hj') as [S1 S2].
        assert (S3 : forall a, In a (pages t) -> ~ In a (priv u)) by (intros a; eapply S2; eauto).
        assert (S4 : forall a, In a (priv u) -> a < nx s) by (intros a Ha; eapply V4; [exact Hj'|]; apply in_or_app; auto).
        destruct (HS eq_refl (priv u) S1 S3 S4) as [S5 S6]. split; auto.
        intros k w a Hk Hw. destruct (NP _ _ Hw) as [[-> ->]|[_ Hw']]; eauto.
  - auto.
  - intros j u Hj. unfold now. destruct (NP _ _ Hj) as [[-> ->]|[Z Hj']]; [rewrite Nat.eqb_refl; auto|].
    apply Nat.eqb_neq in Z as Z'. rewrite Z'. destruct V8 as (Hr & _).
    eapply pcok_ext; [exact E|exact V1|exact Hr|exact HHt| | | |apply V9; exact Hj'].
    + intros a Ha. eapply V4; eauto.
    + intros a Ha. assert (La : a < nx s) by (eapply V4; [exact Hj'|]; unfold pages; rewrite !in_app_iff; auto).
      destruct (HK a La) as [X|[Mt|Pt]]; auto.
      * exfalso. eapply (V5 i j); eauto. apply in_or_app. auto.
      * exfalso. destruct (V7 i t Hi) as [_ V7']. eapply (V7' j u a Z Hj'); eauto. apply in_or_app. auto.
    + destruct Hm as [Hm|Hm]; auto. right. destruct (root_claim u) eqn:Cu; auto. exfalso. eapply (V6 i j); eauto.
Qed.
