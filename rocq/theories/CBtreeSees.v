(** What the atomic table implies for callers. *)
From Coq Require Import List Arith Bool Lia.
Import ListNotations.
From Verif Require Import CBtree CBtreeSpec.
Local Open Scope nat_scope.

Lemma aruns_app : forall x tr y, aruns x tr y -> forall t1 t2, tr = t1 ++ t2 ->
  exists z, aruns x t1 z /\ aruns z t2 y.
Proof.
  induction 1 as [x|x tr y i l z R IH S]; intros t1 t2 E.
  - symmetry in E. apply app_eq_nil in E. destruct E as [-> ->]. exists x. split; constructor.
  - destruct l as [|c|r]; cbn [seen] in *.
    + rewrite app_nil_r in E. subst tr. destruct (IH t1 t2 eq_refl) as (w & W1 & W2). exists w. split; auto.
      rewrite <- (app_nil_r t2). change (@nil event) with (seen i Tau). econstructor; eauto.
    + destruct t2 as [|e t2] using rev_ind.
      * rewrite app_nil_r in E. subst t1. exists z. split; [|constructor]. change [(i, Called c)] with (seen i (Called c)). econstructor; eauto.
      * rewrite app_assoc in E. apply app_inj_tail in E. destruct E as [-> <-]. destruct (IH t1 t2 eq_refl) as (w & W1 & W2).
        exists w. split; auto. change [(i, Called c)] with (seen i (Called c)). econstructor; eauto.
    + destruct t2 as [|e t2] using rev_ind.
      * rewrite app_nil_r in E. subst t1. exists z. split; [|constructor]. change [(i, Returned r)] with (seen i (Returned r)). econstructor; eauto.
      * rewrite app_assoc in E. apply app_inj_tail in E. destruct E as [-> <-]. destruct (IH t1 t2 eq_refl) as (w & W1 & W2).
        exists w. split; auto. change [(i, Returned r)] with (seen i (Returned r)). econstructor; eauto.
Qed.

(** Messages stay. *)
Lemma astep_grows : forall x i l y k v, astep x i l y -> In v (fst x k) -> In v (fst y k).
Proof.
  intros x i l y k v S H. destruct S as [m f i c E|m f i c E|m f i r E]; cbn [fst] in *; auto.
  destruct c as [k' v'|k']; cbn; auto. destruct (k =? k') eqn:Ek; auto. apply Nat.eqb_eq in Ek. subst k'.
  apply in_or_app. auto.
Qed.
Lemma aruns_grows : forall x tr y k v, aruns x tr y -> In v (fst x k) -> In v (fst y k).
Proof. induction 1; auto. intros Hv. eapply astep_grows; eauto. Qed.

(** From its call to its return. *)
Definition none_of (i : nat) (tr : list event) : Prop := forall e, In e tr -> fst e <> i.

Lemma inserting : forall x tr y i k v, aruns x tr y -> none_of i tr -> snd x i = SCalled (CIns k v) ->
  snd y i = SCalled (CIns k v) \/ (exists r, snd y i = SDone r) /\ In v (fst y k).
Proof.
  intros x tr y i k v R. induction R as [x|x tr y j l z R IH S]; intros N E; auto.
  assert (N' : none_of i tr) by (intros e He; apply N; apply in_or_app; auto).
  specialize (IH N' E).
  assert (G : In v (fst y k) -> In v (fst z k)) by (eapply astep_grows; eauto).
  destruct S as [m f j c Ej|m f j c Ej|m f j r Ej]; cbn [fst snd seen] in *; unfold now.
  - destruct (i =? j) eqn:Eij; [|tauto]. apply Nat.eqb_eq in Eij. subst j. exfalso. eapply N; [apply in_or_app; right; cbn; auto|reflexivity].
  - destruct (i =? j) eqn:Eij.
    + apply Nat.eqb_eq in Eij. subst j. right. destruct IH as [IH|[(r & IH) _]]; [|congruence]. rewrite Ej in IH. injection IH as ->.
      split; eauto. cbn. rewrite Nat.eqb_refl. apply in_or_app. cbn. auto.
    + tauto.
  - destruct (i =? j) eqn:Eij; [|tauto]. apply Nat.eqb_eq in Eij. subst j. exfalso. eapply N; [apply in_or_app; right; cbn; auto|reflexivity].
Qed.

Lemma looking : forall x tr y i k v, aruns x tr y -> none_of i tr -> snd x i = SCalled (CFnd k) -> In v (fst x k) ->
  snd y i = SCalled (CFnd k) \/ exists w, snd y i = SDone (RFnd w) /\ In v w.
Proof.
  intros x tr y i k v R. induction R as [x|x tr y j l z R IH S]; intros N E V; auto.
  assert (N' : none_of i tr) by (intros e He; apply N; apply in_or_app; auto).
  specialize (IH N' E V). pose proof (aruns_grows _ _ _ _ _ R V) as Vy.
  destruct S as [m f j c Ej|m f j c Ej|m f j r Ej]; cbn [fst snd seen] in *; unfold now.
  - destruct (i =? j) eqn:Eij; auto. apply Nat.eqb_eq in Eij. subst j. exfalso. eapply N; [apply in_or_app; right; cbn; auto|reflexivity].
  - destruct (i =? j) eqn:Eij; auto.
    apply Nat.eqb_eq in Eij. subst j. right. destruct IH as [IH|(w & IH & _)]; [|congruence]. rewrite Ej in IH. injection IH as ->.
    cbn. exists (m k). auto.
  - destruct (i =? j) eqn:Eij; auto. apply Nat.eqb_eq in Eij. subst j. exfalso. eapply N; [apply in_or_app; right; cbn; auto|reflexivity].
Qed.

(** A run of one event. *)
Lemma one_event : forall x i l y, aruns x [(i, l)] y -> l <> Tau ->
  exists x1 y1, aruns x [] x1 /\ astep x1 i l y1 /\ aruns y1 [] y.
Proof.
  intros x i l y R N. remember [(i, l)] as tr eqn:E. induction R as [x|x tr y j l' z R IH S]; [discriminate|].
  destruct l' as [|c|r]; cbn [seen] in E.
  - rewrite app_nil_r in E. destruct (IH E) as (x1 & y1 & A & B & D). exists x1, y1. split; auto. split; auto.
    change (@nil event) with (@nil event ++ seen j Tau). econstructor; eauto.
  - destruct tr as [|e [|e' tr]]; try discriminate E. injection E as -> <-. exists y, z. split; auto. split; auto. constructor.
  - destruct tr as [|e [|e' tr]]; try discriminate E. injection E as -> <-. exists y, z. split; auto. split; auto. constructor.
Qed.

Lemma app_cons : forall A (a : A) l, a :: l = [a] ++ l. Proof. reflexivity. Qed.
Lemma none_nil' : forall i, none_of i []. Proof. intros i e []. Qed.

Theorem atomic_sees : forall t1 t2 t3 t4 t5 i j k v r w,
  linearizable (t1 ++ (i, Called (CIns k v)) :: t2 ++ (i, Returned r) :: t3 ++
                (j, Called (CFnd k)) :: t4 ++ (j, Returned (RFnd w)) :: t5) ->
  none_of i t2 -> none_of j t4 -> In v w.
Proof.
  intros t1 t2 t3 t4 t5 i j k v r w (y & R) N2 N4.
  destruct (aruns_app _ _ _ R _ _ eq_refl) as (z1 & _ & R1). rewrite app_cons in R1.
  destruct (aruns_app _ _ _ R1 _ _ eq_refl) as (z2 & E1 & R2).
  destruct (aruns_app _ _ _ R2 _ _ eq_refl) as (z3 & E2 & R3). rewrite app_cons in R3.
  destruct (aruns_app _ _ _ R3 _ _ eq_refl) as (z4 & E3 & R4).
  destruct (aruns_app _ _ _ R4 _ _ eq_refl) as (z5 & E4 & R5). rewrite app_cons in R5.
  destruct (aruns_app _ _ _ R5 _ _ eq_refl) as (z6 & E5 & R6).
  destruct (aruns_app _ _ _ R6 _ _ eq_refl) as (z7 & E6 & R7). rewrite app_cons in R7.
  destruct (aruns_app _ _ _ R7 _ _ eq_refl) as (z8 & E7 & _).
  clear R R1 R2 R3 R4 R5 R6 R7.
  destruct (one_event _ _ _ _ E1 ltac:(discriminate)) as (a1 & b1 & _ & S1 & Q1).
  destruct (one_event _ _ _ _ E3 ltac:(discriminate)) as (a3 & b3 & P3 & S3 & Q3).
  destruct (one_event _ _ _ _ E5 ltac:(discriminate)) as (a5 & b5 & P5 & S5 & Q5).
  destruct (one_event _ _ _ _ E7 ltac:(discriminate)) as (a7 & b7 & P7 & S7 & _).
  assert (V3 : In v (fst a3 k)).
  { inversion S1; subst. inversion S3; subst. 
    destruct (inserting _ _ _ i k v Q1 (none_nil' i)) as [X|[(r' & X) V]].
    { cbn. unfold now. rewrite Nat.eqb_refl. auto. }
    - destruct (inserting _ _ _ i k v E2 N2 X) as [Y|[(r' & Y) V]].
      + destruct (inserting _ _ _ i k v P3 (none_nil' i) Y) as [Z|[_ V]]; [cbn in Z; congruence|auto].
      + eapply aruns_grows; eauto.
    - eapply aruns_grows; [exact P3|]. eapply aruns_grows; [exact E2|]. auto. }
  assert (V5 : In v (fst b5 k)).
  { eapply astep_grows; [exact S5|]. eapply aruns_grows; [exact P5|]. eapply aruns_grows; [exact E4|].
    eapply aruns_grows; [exact Q3|]. eapply astep_grows; eauto. }
  inversion S5; subst. inversion S7; subst.
  assert (X0 : snd (m, now f j (SCalled (CFnd k))) j = SCalled (CFnd k)) by (cbn; unfold now; rewrite Nat.eqb_refl; auto).
  assert (FIN : forall x tr y, aruns x tr y -> none_of j tr -> In v (fst x k) ->
     snd x j = SCalled (CFnd k) \/ (exists w, snd x j = SDone (RFnd w) /\ In v w) ->
     snd y j = SCalled (CFnd k) \/ (exists w, snd y j = SDone (RFnd w) /\ In v w)).
  { intros x tr y0 RR NN VV [X|(w' & X & Vw)]; [eapply looking; eauto|].
    right. clear VV. induction RR as [x|x tr y0 j' l z RR IH SS]; [eauto|].
    assert (NN' : none_of j tr) by (intros e He; apply NN; apply in_or_app; auto).
    destruct (IH NN' X) as (w0 & Y & Yw). 
    destruct SS as [m1 f1 j' c Ej|m1 f1 j' c Ej|m1 f1 j' r1 Ej]; cbn [fst snd seen] in *; unfold now;
      (destruct (j =? j') eqn:Ejj; [apply Nat.eqb_eq in Ejj; subst j'|eauto]).
    - congruence.
    - congruence.
    - exfalso. eapply NN; [apply in_or_app; right; cbn; auto|reflexivity]. }
  assert (Y1 := FIN _ _ _ Q5 (none_nil' j) V5 (or_introl X0)).
  assert (V6 : In v (fst z6 k)) by (eapply aruns_grows; eauto).
  assert (Y2 := FIN _ _ _ E6 N4 V6 Y1).
  assert (V7 : In v (fst z7 k)) by (eapply aruns_grows; eauto).
  assert (Y3 := FIN _ _ _ P7 (none_nil' j) V7 Y2).
  cbn [snd] in Y3. destruct Y3 as [Y3|(w' & Y3 & Vw)]; [congruence|]. assert (w = w') by congruence. subst; auto.
Qed.
