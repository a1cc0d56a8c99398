(** * Proofs about key-range references *)

From Coq Require Import List NArith ZArith Arith Bool Lia Permutation.
From Verif Require Import Base Spec SearchProofs Count Mini Keyed.
Import ListNotations.

Ltac pcase u t f := destruct (Nat.eq_dec u t) as [->|]; [rewrite ?(upd_same f) in * | rewrite ?(upd_other f) in * by assumption].

Section WithLayout.
Variable d : data_config.
Hypothesis TO : total_order (key_compare d).
Variable L : list mentry.
Variable root : nat.
Hypothesis LO : layout_ok d L root.

Let T := data_key_compare_total d TO.

Lemma kle_refl : forall a, kle d a a.
Proof. intro a. unfold kle. rewrite (cmp_refl _ T). lia. Qed.
Lemma kle_trans : forall a b e, kle d a b -> kle d b e -> kle d a e.
Proof. intros a b e. apply (cmp_le_trans _ T). Qed.
Lemma kle_total : forall a b, kle d a b \/ kle d b a.
Proof.
  intros a b. unfold kle. destruct (Z_le_gt_dec (data_key_compare d a b) 0); [auto|].
  right. apply (cmp_ge_le _ T). lia.
Qed.
Lemma kle_neg : forall a, kle d KNegInf a.
Proof. intros [|b|]; unfold kle; cbn; lia. Qed.
Lemma kle_pos : forall a, kle d a KPosInf.
Proof. intros [|b|]; unfold kle; cbn; lia. Qed.
Lemma not_lt : forall a b, (data_key_compare d a b <? 0)%Z = false <-> kle d b a.
Proof.
  intros a b. rewrite Z.ltb_ge. unfold kle. split; intro H.
  - apply (cmp_ge_le _ T). lia. - apply (cmp_ge_le _ T) in H. lia.
Qed.
Lemma leb_kle : forall a b, (data_key_compare d a b <=? 0)%Z = true <-> kle d a b.
Proof. intros. now rewrite Z.leb_le. Qed.

(** ** The walk *)

(** index of the last entry of batch [b] before [i] *)
Fixpoint lastb (b i : nat) : option nat :=
  match i with
  | O => None
  | S i' => match nth_error L i' with
            | Some en => if Nat.eqb (me_batch en) b then Some i' else lastb b i'
            | None => lastb b i'
            end
  end.

Lemma lastb_some : forall b i k, lastb b i = Some k ->
  k < i /\ (exists en, nth_error L k = Some en /\ me_batch en = b) /\
  forall m en, k < m < i -> nth_error L m = Some en -> me_batch en <> b.
Proof.
  intros b. induction i as [|i IH]; intros k H; cbn in H; [discriminate|].
  destruct (nth_error L i) as [en|] eqn:E.
  - destruct (Nat.eqb_spec (me_batch en) b).
    + inversion H; subst k. split; [lia|]. split; [eauto|]. intros; lia.
    + apply IH in H. destruct H as (H1 & H2 & H3). split; [lia|]. split; [exact H2|]. intros m en' Hm G.
      destruct (Nat.eq_dec m i) as [->|]; [congruence|]. apply (H3 m); auto; lia.
  - apply IH in H. destruct H as (H1 & H2 & H3). split; [lia|]. split; [exact H2|]. intros m en' Hm G.
    destruct (Nat.eq_dec m i) as [->|]; [congruence|]. apply (H3 m); auto; lia.
Qed.

Lemma lastb_none : forall b i, lastb b i = None <-> forall m en, m < i -> nth_error L m = Some en -> me_batch en <> b.
Proof.
  intros b. induction i as [|i IH]; cbn; split; intro H; try (intros; lia); auto.
  - destruct (nth_error L i) as [en|] eqn:E.
    + destruct (Nat.eqb_spec (me_batch en) b); [discriminate|]. intros m en' Hm G.
      destruct (Nat.eq_dec m i) as [->|]; [congruence|]. rewrite IH in H. apply (H m); auto; lia.
    + intros m en' Hm G. destruct (Nat.eq_dec m i) as [->|]; [congruence|]. rewrite IH in H. apply (H m); auto; lia.
  - destruct (nth_error L i) as [en|] eqn:E.
    + destruct (Nat.eqb_spec (me_batch en) b) as [X|]; [exfalso; apply (H i en); auto|].
      apply IH. intros m en' Hm. apply H. lia.
    + apply IH. intros m en' Hm. apply H. lia.
Qed.

Lemma lastb_is : forall b i k en, k < i -> nth_error L k = Some en -> me_batch en = b ->
  (forall m en', k < m < i -> nth_error L m = Some en' -> me_batch en' <> b) -> lastb b i = Some k.
Proof.
  intros b i k en Hk G B H. destruct (lastb b i) as [k'|] eqn:E.
  - apply lastb_some in E. destruct E as (E1 & (en' & E2 & E3) & E4).
    destruct (lt_eq_lt_dec k k') as [[X| ->]|X]; [|reflexivity|].
    + exfalso. apply (H k' en'); auto.
    + exfalso. apply (E4 k en); auto.
  - exfalso. rewrite lastb_none in E. apply (E k en); auto.
Qed.

(** the state of the walk before entry [i] *)
Definition rep_ext (i b : nat) : option nat :=
  match lastb b i with
  | None => None
  | Some k => match nth_error L k with Some en => me_ext en | None => None end
  end.
Definition rep_cur (r : range) (i b : nat) : bstate :=
  match lastb b i with
  | None => Before
  | Some k => match nth_error L k with
              | Some en => match lastb b k with
                           | None => Before
                           | Some _ => match me_ext en with None => After | Some _ => bound_state d r (me_key en) end
                           end
              | None => Before
              end
  end.
Definition wrep (r : range) (i : nat) (w : walk) : Prop :=
  (forall b, w_ext w b = rep_ext i b) /\ (forall b, w_cur w b = rep_cur r i b).

(** the extent closed by entry [i] and its keys *)
Definition span (i : nat) : option (nat * key * key) :=
  match nth_error L i with
  | None => None
  | Some en =>
      match lastb (me_batch en) i with
      | None => None
      | Some k =>
          match nth_error L k with
          | None => None
          | Some en0 =>
              match me_ext en0 with
              | None => None
              | Some e => Some (e, match lastb (me_batch en) k with None => KNegInf | Some _ => me_key en0 end,
                                   match me_ext en with None => KPosInf | Some _ => me_key en end)
              end
          end
      end
  end.
Definition meets (lo hi : key) (r : range) : bool :=
  (data_key_compare d lo (snd r) <=? 0)%Z && (data_key_compare d (fst r) hi <=? 0)%Z.
Definition hit (r : range) (i : nat) : option nat :=
  match span i with Some (e, lo, hi) => if meets lo hi r then Some e else None | None => None end.

Lemma meets_iff : forall lo hi r, meets lo hi r = true <-> kle d lo (snd r) /\ kle d (fst r) hi.
Proof. intros. unfold meets. rewrite andb_true_iff, !leb_kle. tauto. Qed.

Lemma wrep0 : forall r, wrep r 0 walk0.
Proof. intro r. split; intro b; reflexivity. Qed.

Lemma state_before : forall r k, bound_state d r k = Before <-> ~ kle d (fst r) k.
Proof.
  intros r k. unfold bound_state. destruct (data_key_compare d k (fst r) <? 0)%Z eqn:E.
  - split; auto. intros _ H. apply not_lt in H. congruence.
  - apply not_lt in E. split; [|tauto]. destruct (data_key_compare d k (snd r) <=? 0)%Z; discriminate.
Qed.
Lemma state_after : forall r k, proper d r -> (bound_state d r k = After <-> ~ kle d k (snd r)).
Proof.
  intros r k P. unfold bound_state. destruct (data_key_compare d k (fst r) <? 0)%Z eqn:E.
  - split; [discriminate|]. intro H. exfalso. apply H. apply (kle_trans _ (fst r)); [|exact P].
    apply Z.ltb_lt in E. unfold kle. lia.
  - destruct (data_key_compare d k (snd r) <=? 0)%Z eqn:E1.
    + apply leb_kle in E1. split; [discriminate | tauto].
    + split; auto. intros _ H. apply leb_kle in H. congruence.
Qed.

Lemma iir_true : forall a b, interval_intersects_range a b = true <-> ~ (a = Before /\ b = Before) /\ ~ (a = After /\ b = After).
Proof. intros [] []; cbn; intuition discriminate. Qed.

Lemma span_ordered : forall i e lo hi, span i = Some (e, lo, hi) -> kle d lo hi.
Proof.
  intros i e lo hi H. unfold span in H. destruct (nth_error L i) as [en|] eqn:G; [|discriminate].
  destruct (lastb (me_batch en) i) as [k|] eqn:E; [|discriminate].
  destruct (nth_error L k) as [en0|] eqn:G0; [|discriminate]. destruct (me_ext en0) eqn:X; [|discriminate].
  inversion H; subst. apply lastb_some in E. destruct E as (E1 & (en0' & E2 & E3) & _).
  destruct (lastb (me_batch en) k); [|apply kle_neg]. destruct (me_ext en) eqn:Y; [|apply kle_pos].
  apply (lo_sorted _ _ _ LO k i); auto; congruence.
Qed.

Lemma entry_step_rep : forall r i w en, proper d r -> wrep r i w -> nth_error L i = Some en ->
  exists w', entry_step d r w en = (w', option_map Some (hit r i)) /\ wrep r (S i) w'.
Proof.
  intros r i w en P [R1 R2] G. unfold entry_step. set (b := me_batch en).
  rewrite R1, R2.
  assert (NT : forall k, lastb b i = Some k -> exists en0 e, nth_error L k = Some en0 /\ me_ext en0 = Some e /\ me_batch en0 = b).
  { intros k E. apply lastb_some in E. destruct E as (E1 & (en0 & E2 & E3) & _).
    pose proof (lo_term _ _ _ LO k i en0 en E2 G E1 E3) as N. destruct (me_ext en0) eqn:X; [|congruence]. eauto 6. }
  eexists. split.
  - apply f_equal2; [reflexivity|]. unfold hit, span. rewrite G. fold b. unfold rep_ext, rep_cur.
    destruct (lastb b i) as [k|] eqn:E; [|reflexivity].
    destruct (NT k eq_refl) as (en0 & e & G0 & X & B). rewrite G0, X.
    assert (Lk : k < i) by (apply lastb_some in E; tauto).
    match goal with |- (if ?a then _ else _) = option_map _ (if ?b then _ else _) =>
      assert (Q : a = b); [|rewrite Q; destruct b; reflexivity] end.
    apply eq_true_iff_eq. rewrite iir_true, meets_iff.
    destruct (lastb b k) as [k1|] eqn:E1, (me_ext en) as [e1|] eqn:X1.
    + rewrite !state_before, !state_after by auto.
      assert (S : kle d (me_key en0) (me_key en)) by (apply (lo_sorted _ _ _ LO k i); auto; congruence).
      split.
      * intros [A1 A2]. split.
        { destruct (kle_total (me_key en0) (snd r)) as [?|Y]; auto.
          destruct (Z_le_gt_dec (data_key_compare d (me_key en0) (snd r)) 0) as [Z|Z]; [exact Z|].
          exfalso. apply A2. split; intro Q; unfold kle in *; [lia|].
          pose proof (cmp_le_trans _ T _ _ _ S Q). lia. }
        { destruct (Z_le_gt_dec (data_key_compare d (fst r) (me_key en)) 0) as [Z|Z]; [exact Z|].
          exfalso. apply A1. split; intro Q; unfold kle in *; [|lia].
          pose proof (cmp_le_trans _ T _ _ _ Q S). lia. }
      * intros [A1 A2]. split; tauto.
    + rewrite !state_before, !state_after by auto.
      assert (HP : kle d (fst r) KPosInf) by apply kle_pos.
      split.
      * intros [A1 A2]. split; [|exact HP].
        destruct (Z_le_gt_dec (data_key_compare d (me_key en0) (snd r)) 0) as [Z|Z]; [exact Z|].
        exfalso. apply A2. split; [intro Q; unfold kle in Q; lia | reflexivity].
      * intros [A1 A2]. split; [intros [_ Q]; discriminate | tauto].
    + rewrite !state_before. assert (HP : kle d KNegInf (snd r)) by apply kle_neg. split.
      * intros [A1 A2]. split; [exact HP|].
        destruct (Z_le_gt_dec (data_key_compare d (fst r) (me_key en)) 0) as [Z|Z]; [exact Z|].
        exfalso. apply A1. split; [reflexivity | intro Q; unfold kle in Q; lia].
      * intros [A1 A2]. split; [tauto | intros [Q _]; discriminate].
    + split; [intros _; split; [apply kle_neg | apply kle_pos]|]. intros _. split; intros [? ?]; discriminate.
  - split; intro b'; cbn [w_ext w_cur]; destruct (Nat.eq_dec b' b) as [->|Nb].
    + rewrite upd_same. unfold rep_ext. cbn. rewrite G. fold b. now rewrite Nat.eqb_refl, G.
    + rewrite upd_other by auto. rewrite R1. unfold rep_ext. cbn. rewrite G. fold b.
      destruct (Nat.eqb_spec b b'); [congruence | reflexivity].
    + rewrite upd_same. unfold rep_cur, rep_ext. cbn. rewrite G. fold b. rewrite Nat.eqb_refl, G.
      destruct (lastb b i) as [k|] eqn:E; [|reflexivity]. destruct (NT k eq_refl) as (en0 & e & G0 & X & B). now rewrite G0, X.
    + rewrite upd_other by auto. rewrite R2. unfold rep_cur. cbn. rewrite G. fold b.
      destruct (Nat.eqb_spec b b'); [congruence | reflexivity].
Qed.

Lemma hit_span : forall r i e, hit r i = Some e -> exists lo hi, span i = Some (e, lo, hi) /\ meets lo hi r = true.
Proof.
  intros r i e H. unfold hit in H. destruct (span i) as [[[e' lo] hi]|]; [|discriminate].
  destruct (meets lo hi r) eqn:M; [|discriminate]. inversion H; subst. eauto.
Qed.

Lemma span_opens : forall i e lo hi, span i = Some (e, lo, hi) -> exists k en0 en, k < i /\ nth_error L i = Some en /\
  nth_error L k = Some en0 /\ me_ext en0 = Some e /\ me_batch en0 = me_batch en /\ lastb (me_batch en) i = Some k.
Proof.
  intros i e lo hi H. unfold span in H. destruct (nth_error L i) as [en|] eqn:G; [|discriminate].
  destruct (lastb (me_batch en) i) as [k|] eqn:E; [|discriminate].
  destruct (nth_error L k) as [en0|] eqn:G0; [|discriminate]. destruct (me_ext en0) eqn:X; [|discriminate].
  inversion H; subst. pose proof (lastb_some _ _ _ E) as (E1 & (en0' & E2 & E3) & _).
  exists k, en0, en. repeat split; auto. congruence.
Qed.

Lemma span_uniq : forall i j e lo hi lo' hi', span i = Some (e, lo, hi) -> span j = Some (e, lo', hi') -> i = j.
Proof.
  intros i j e lo hi lo' hi' H H'. apply span_opens in H. apply span_opens in H'.
  destruct H as (k & en0 & en & A1 & A2 & A3 & A4 & A5 & A6), H' as (k' & en0' & en' & B1 & B2 & B3 & B4 & B5 & B6).
  assert (k = k') by (eapply (lo_once _ _ _ LO); eauto). subst k'.
  assert (en0 = en0') by congruence. subst en0'.
  apply lastb_some in A6. apply lastb_some in B6. destruct A6 as (_ & _ & A6), B6 as (_ & _ & B6).
  destruct (lt_eq_lt_dec i j) as [[X| ->]|X]; [|reflexivity|]; exfalso.
  - apply (B6 i en); auto. congruence.
  - apply (A6 j en'); auto. congruence.
Qed.

Lemma hit_uniq : forall r r' i j e, hit r i = Some e -> hit r' j = Some e -> i = j.
Proof.
  intros r r' i j e H H'. apply hit_span in H. apply hit_span in H'. destruct H as (lo & hi & H & _), H' as (lo' & hi' & H' & _).
  eapply span_uniq; eauto.
Qed.

Lemma span_lt : forall i e lo hi, span i = Some (e, lo, hi) -> i < length L.
Proof. intros i e lo hi H. unfold span in H. destruct (nth_error L i) eqn:G; [|discriminate]. apply nth_error_Some. congruence. Qed.

(** every recorded extent is closed by some entry *)
Lemma ext_span : forall k en e, nth_error L k = Some en -> me_ext en = Some e -> exists i lo hi, span i = Some (e, lo, hi).
Proof.
  intros k en e G X.
  destruct (lo_close _ _ _ LO k en G ltac:(congruence)) as (j & en' & J1 & J2 & J3 & _).
  (* the first entry of the batch after k *)
  assert (exists i eni, k < i /\ nth_error L i = Some eni /\ me_batch eni = me_batch en /\
            forall m em, k < m < i -> nth_error L m = Some em -> me_batch em <> me_batch en) as (i & eni & I1 & I2 & I3 & I4).
  { revert en' J1 J2 J3. induction j as [j IH] using lt_wf_ind. intros en' J1 J2 J3.
    destruct (lastb (me_batch en) j) as [k1|] eqn:E.
    - pose proof (lastb_some _ _ _ E) as (E1 & (e1 & E2 & E3) & E4).
      destruct (lt_eq_lt_dec k k1) as [[Y|Y]|Y].
      + apply (IH k1 E1 e1); auto.
      + subst k1. exists j, en'. repeat split; auto.
      + exfalso. apply (E4 k en); auto.
    - exfalso. rewrite lastb_none in E. apply (E k en); auto. }
  assert (E : lastb (me_batch eni) i = Some k) by (apply (lastb_is _ _ _ en); auto; rewrite I3; exact I4).
  exists i. unfold span. rewrite I2, E, G, X. eauto.
Qed.

Lemma root_span : exists i, span i = Some (root, KNegInf, KPosInf).
Proof.
  destruct (lo_root _ _ _ LO) as (i & j & en & en' & A1 & A2 & A3 & A4 & A5 & A6 & A7).
  exists j. unfold span. rewrite A3.
  assert (E : lastb (me_batch en') j = Some i).
  { apply (lastb_is _ _ _ en); auto. intros m em Hm G Q. destruct (A7 m em G ltac:(congruence)); lia. }
  rewrite E, A2, A5.
  assert (E1 : lastb (me_batch en') i = None).
  { apply lastb_none. intros m em Hm G Q. destruct (A7 m em G ltac:(congruence)); lia. }
  rewrite E1, A6. reflexivity.
Qed.

Lemma root_hit : exists i, i < length L /\ forall r, hit r i = Some root.
Proof.
  destruct root_span as [i H]. exists i. split; [eapply span_lt; eauto|]. intro r. unfold hit. rewrite H.
  assert (M : meets KNegInf KPosInf r = true) by (apply meets_iff; split; [apply kle_neg | apply kle_pos]). now rewrite M.
Qed.

Lemma hit_everything : forall r i e, hit r i = Some e -> hit everything i = Some e.
Proof.
  intros r i e H. apply hit_span in H. destruct H as (lo & hi & H & _). unfold hit. rewrite H.
  assert (M : meets lo hi everything = true) by (apply meets_iff; split; [apply kle_pos | apply kle_neg]). now rewrite M.
Qed.

Lemma hit_covered : forall r l i e, proper d r -> covered d r l -> hit r i = Some e -> exists r', In r' l /\ hit r' i = Some e.
Proof.
  intros r l i e P C H. apply hit_span in H. destruct H as (lo & hi & H & M). pose proof (span_ordered _ _ _ _ H) as O.
  apply meets_iff in M. destruct M as [M1 M2].
  assert (exists x, inside d x r /\ kle d lo x /\ kle d x hi) as (x & X1 & X2 & X3).
  { destruct (kle_total lo (fst r)).
    - exists (fst r). repeat split; auto. apply kle_refl.
    - exists lo. repeat split; auto. apply kle_refl. }
  destruct (C x X1) as (r' & R1 & [R2 R3]). exists r'. split; auto. unfold hit. rewrite H.
  assert (M : meets lo hi r' = true); [|now rewrite M]. apply meets_iff. split; eapply kle_trans; eauto.
Qed.

Definition hitb (r : range) (i e : nat) : bool := match hit r i with Some x => Nat.eqb x e | None => false end.
Lemma hitb_iff : forall r i e, hitb r i e = true <-> hit r i = Some e.
Proof.
  intros r i e. unfold hitb. destruct (hit r i); [|split; discriminate].
  split; [intro H; apply Nat.eqb_eq in H; congruence | intro H; inversion H; apply Nat.eqb_refl].
Qed.

(** the extent [e] is still to be visited by a walk for [r] that is at entry [i] *)
Definition rem (r : range) (i e : nat) : bool := existsb (fun k => hitb r k e) (seq i (length L - i)).

Lemma rem_iff : forall r i e, rem r i e = true <-> exists k, i <= k < length L /\ hit r k = Some e.
Proof.
  intros r i e. unfold rem. rewrite existsb_exists. split.
  - intros (k & K1 & K2). apply in_seq in K1. apply hitb_iff in K2. exists k. split; [lia | exact K2].
  - intros (k & K1 & K2). exists k. split; [apply in_seq; lia | now apply hitb_iff].
Qed.

Lemma hit_lt : forall r i e, hit r i = Some e -> i < length L.
Proof. intros r i e H. apply hit_span in H. destruct H as (lo & hi & H & _). eapply span_lt; eauto. Qed.

Lemma rem_next : forall r i e, rem r i e = hitb r i e || rem r (S i) e.
Proof.
  intros r i e. apply eq_true_iff_eq. rewrite orb_true_iff, hitb_iff, !rem_iff. split.
  - intros (k & K1 & K2). destruct (Nat.eq_dec k i) as [->|]; [auto|]. right. exists k. split; [lia | exact K2].
  - intros [H|(k & K1 & K2)]; [exists i; split; [pose proof (hit_lt _ _ _ H); lia | exact H] | exists k; split; [lia | exact K2]].
Qed.
Lemma rem_hit : forall r i e, hit r i = Some e -> rem r (S i) e = false.
Proof.
  intros r i e H. apply not_true_is_false. rewrite rem_iff. intros (k & K1 & K2). pose proof (hit_uniq _ _ _ _ _ H K2). lia.
Qed.
Lemma rem_end : forall r i e, length L <= i -> rem r i e = false.
Proof. intros r i e H. apply not_true_is_false. rewrite rem_iff. intros (k & K1 & _). lia. Qed.

Lemma rem_split : forall a p q e, kle d a p -> kle d p q ->
  b2n (rem (a, q) 0 e) + b2n (rem (p, p) 0 e) = b2n (rem (a, p) 0 e) + b2n (rem (p, q) 0 e).
Proof.
  intros a p q e H1 H2.
  destruct (rem everything 0 e) eqn:E.
  - apply rem_iff in E. destruct E as (k & K1 & K2). apply hit_span in K2. destruct K2 as (lo & hi & Hs & _).
    pose proof (span_ordered _ _ _ _ Hs) as O.
    assert (F : forall r, rem r 0 e = meets lo hi r).
    { intro r. apply eq_true_iff_eq. rewrite rem_iff. split.
      - intros (k' & _ & K'). apply hit_span in K'. destruct K' as (lo' & hi' & Hs' & M').
        assert (k = k') by (eapply span_uniq; eauto). subst k'. congruence.
      - intro M. exists k. split; [lia|]. unfold hit. now rewrite Hs, M. }
    rewrite !F.
    assert (A : meets lo hi (a, q) = meets lo hi (a, p) || meets lo hi (p, q)).
    { apply eq_true_iff_eq. rewrite orb_true_iff, !meets_iff. cbn. split.
      - intros [X Y]. destruct (kle_total lo p); [auto|]. right. split; auto. eapply kle_trans; eauto.
      - intros [[X Y]|[X Y]]; split; auto; eapply kle_trans; eauto. }
    assert (B : meets lo hi (p, p) = meets lo hi (a, p) && meets lo hi (p, q)).
    { apply eq_true_iff_eq. rewrite andb_true_iff, !meets_iff. cbn. split.
      - intros [X Y]. repeat split; auto; eapply kle_trans; eauto.
      - tauto. }
    rewrite A, B. destruct (meets lo hi (a, p)), (meets lo hi (p, q)); reflexivity.
  - assert (F : forall r, rem r 0 e = false).
    { intro r. apply not_true_is_false. rewrite rem_iff. intros (k & K1 & K2). apply hit_everything in K2.
      assert (rem everything 0 e = true) by (apply rem_iff; eauto). congruence. }
    rewrite !F. reflexivity.
Qed.

(** ** What func is called on *)

Lemma skipn_cons : forall {A} (l : list A) i x, nth_error l i = Some x -> skipn i l = x :: skipn (S i) l.
Proof. induction l as [|y l IH]; intros [|i] x H; cbn in *; try discriminate; [congruence|]. now apply IH. Qed.

Lemma for_each_from : forall r n i w, proper d r -> wrep r i w -> length L - i = n ->
  for_each d r w (skipn i L) = flat_map (fun k => match hit r k with Some e => [Some e] | None => [] end) (seq i n).
Proof.
  intros r. induction n as [|n IH]; intros i w P W E.
  - rewrite skipn_all2 by lia. reflexivity.
  - destruct (nth_error L i) as [en|] eqn:G; [|apply nth_error_None in G; lia].
    rewrite (skipn_cons _ _ _ G). cbn [for_each seq flat_map].
    destruct (entry_step_rep r i w en P W G) as (w' & ES & W'). rewrite ES.
    rewrite <- (IH (S i) w') by (auto; lia). destruct (hit r i); reflexivity.
Qed.

Lemma for_each_hits : forall r, proper d r ->
  for_each d r walk0 L = flat_map (fun k => match hit r k with Some e => [Some e] | None => [] end) (seq 0 (length L)).
Proof. intros r P. apply (for_each_from r (length L) 0 walk0 P (wrep0 r)). lia. Qed.

End WithLayout.

Section WithCfg.
Variable c : kcfg.
Variable root : nat.
Notation d := (k_d c).
Notation L := (concat (k_pages c)).
Notation np := (length (k_pages c)).
Hypothesis TO : total_order (key_compare (k_d c)).
Hypothesis LO : layout_ok (k_d c) (concat (k_pages c)) root.
Hypothesis MN : NoDup (k_metas c).
Hypothesis ME : k_metas c <> [].
Hypothesis MD : forall e, In e (k_metas c) -> ~ recorded_ext c e.

Notation hit := (hit d L).
Notation rem := (rem d L).
Notation wrep := (wrep d L).

(** ** Positions *)

Definition off (j : nat) : nat := length (concat (firstn j (k_pages c))).
Definition plen (j : nat) : nat := length (page c j).

Lemma firstn_S_nth : forall {A} (l : list A) j x, j < length l -> firstn (S j) l = firstn j l ++ [nth j l x].
Proof. induction l as [|y l IH]; intros [|j] x H; cbn in *; try lia; auto. f_equal. apply IH. lia. Qed.

Lemma off_S : forall j, j < np -> off (S j) = off j + plen j.
Proof.
  intros j H. unfold off, plen, page. rewrite (firstn_S_nth _ j []) by auto. rewrite concat_app, app_length. cbn.
  now rewrite app_nil_r.
Qed.
Lemma off_np : off np = length L.
Proof. unfold off. now rewrite firstn_all. Qed.
Lemma off_0 : off 0 = 0.
Proof. reflexivity. Qed.
Lemma off_mono : forall j k, j <= k -> k <= np -> off j <= off k.
Proof.
  intros j k H. induction H as [|k H IH]; intro K; [lia|]. rewrite off_S by lia. specialize (IH ltac:(lia)). lia.
Qed.
Lemma entry_at : forall j i en, nth_error (page c j) i = Some en -> j < np /\ i < plen j /\ nth_error L (off j + i) = Some en.
Proof.
  intros j i en H. assert (Hi : i < plen j) by (apply nth_error_Some; unfold page in *; congruence).
  assert (Hj : j < np).
  { destruct (lt_dec j np); auto. exfalso. unfold plen, page in Hi. rewrite nth_overflow in Hi by lia. cbn in Hi. lia. }
  split; auto. split; auto. unfold page in H.
  assert (E : L = concat (firstn j (k_pages c)) ++ concat (skipn j (k_pages c))) by (rewrite <- concat_app, firstn_skipn; reflexivity).
  rewrite E. rewrite nth_error_app2 by (unfold off; lia). unfold off. rewrite Nat.add_comm, Nat.add_sub.
  destruct (skipn j (k_pages c)) as [|p rest] eqn:S.
  - exfalso. assert (length (skipn j (k_pages c)) = 0) by (rewrite S; reflexivity). rewrite skipn_length in H0. lia.
  - cbn. rewrite nth_error_app1.
    + rewrite <- H. f_equal. assert (X : nth 0 (skipn j (k_pages c)) [] = p) by (rewrite S; reflexivity).
      rewrite <- X. clear. revert j. induction (k_pages c) as [|q l IH]; intros [|j]; cbn; auto.
    + unfold plen, page in Hi. assert (X : nth 0 (skipn j (k_pages c)) [] = p) by (rewrite S; reflexivity).
      rewrite <- X. replace (nth 0 (skipn j (k_pages c)) []) with (nth j (k_pages c) []); auto.
      clear. revert j. induction (k_pages c) as [|q l IH]; intros [|j]; cbn; auto.
Qed.
Lemma page_of : forall j j' x, j <= np -> j' <= np -> x < off (S j) -> off j' <= x -> j < np -> j' <= j.
Proof.
  intros j j' x H1 H2 H3 H4 H5. destruct (le_lt_dec j' j); auto. exfalso.
  pose proof (off_mono (S j) j' ltac:(lia) H2). lia.
Qed.

(** ** Steps, one constructor per kind *)

Inductive ktrans (s : kst) (t : nat) : kst -> Prop :=
| x_inc_skip r j i w w' : ks_pcs s t = KInc r j i w -> j < np -> i < plen j -> hit r (off j + i) = None ->
    wrep r (off j + S i) w' -> ktrans s t (set_pc s t (KInc r j (S i) w'))
| x_inc_hit r j i w w' e : ks_pcs s t = KInc r j i w -> j < np -> i < plen j -> hit r (off j + i) = Some e ->
    wrep r (off j + S i) w' -> (ks_refs s e < 255)%N ->
    ktrans s t (set_pc (set_refs s (upd (ks_refs s) e (ks_refs s e + 1)%N)) t (KInc r j (S i) w'))
| x_inc_page r j w : ks_pcs s t = KInc r j (plen j) w -> S j < np -> ktrans s t (set_pc s t (KInc r (S j) 0 w))
| x_inc_done r j w : ks_pcs s t = KInc r j (plen j) w -> S j = np ->
    ktrans s t (set_pc (set_out s (r :: ks_out s)) t KOut)
| x_wait r : ks_pcs s t = KWait r -> ks_refs s (head_ext c) = 2%N -> ktrans s t (set_pc s t (KGet r 0 walk0 true))
| x_get r j w sc : ks_pcs s t = KGet r j w sc -> ks_claim s j = false ->
    ktrans s t (set_pc (set_claim s (upd (ks_claim s) j true)) t (KRel r j w sc))
| x_rel r j w sc cl : ks_pcs s t = KRel r j w sc ->
    cl = match j with O => ks_claim s | S j' => upd (ks_claim s) j' false end ->
    ktrans s t (set_pc (set_claim s cl) t (KDec r j 0 w sc))
| x_dec_skip r j i w sc w' : ks_pcs s t = KDec r j i w sc -> j < np -> i < plen j -> hit r (off j + i) = None ->
    wrep r (off j + S i) w' -> ktrans s t (set_pc s t (KDec r j (S i) w' sc))
| x_dec_more r j i w sc w' e : ks_pcs s t = KDec r j i w sc -> j < np -> i < plen j -> hit r (off j + i) = Some e ->
    wrep r (off j + S i) w' -> (3 <= ks_refs s e)%N ->
    ktrans s t (set_pc (set_refs s (upd (ks_refs s) e (ks_refs s e - 1)%N)) t (KDec r j (S i) w' false))
| x_dec_last r j i w sc w' e : ks_pcs s t = KDec r j i w sc -> j < np -> i < plen j -> hit r (off j + i) = Some e ->
    wrep r (off j + S i) w' -> ks_refs s e = 2%N ->
    ktrans s t (set_pc (set_refs s (upd (ks_refs s) e 1%N)) t (KFree r j i w' sc e))
| x_dec_page r j w sc : ks_pcs s t = KDec r j (plen j) w sc -> S j < np -> ktrans s t (set_pc s t (KGet r (S j) w sc))
| x_dec_done r j w sc : ks_pcs s t = KDec r j (plen j) w sc -> S j = np ->
    ktrans s t (set_pc (set_claim s (upd (ks_claim s) j false)) t (KEnd r sc))
| x_free r j i w sc e : ks_pcs s t = KFree r j i w sc e -> ks_refs s e = 1%N ->
    ktrans s t (set_pc (set_live (set_refs s (upd (ks_refs s) e 0%N)) (upd (ks_live s) e false)) t (KDec r j (S i) w sc))
| x_end_yes r : ks_pcs s t = KEnd r true -> ks_refs s (head_ext c) = 2%N -> ktrans s t (set_pc s t (KDein (k_metas c)))
| x_end_no r : ks_pcs s t = KEnd r false -> ktrans s t (set_pc s t KOut)
| x_dein_nil : ks_pcs s t = KDein [] -> ktrans s t (set_pc (set_gone s true) t KOut)
| x_dein x l f : ks_pcs s t = KDein (x :: l) -> f x = 0%N -> (forall y, y <> x -> f y = ks_refs s y) ->
    ktrans s t (set_pc (set_live (set_refs s f) (upd (ks_live s) x false)) t (KDein l)).

(** ** Invariants *)

Definition pok (p : kpc) : Prop :=
  match p with
  | KOut => True
  | KInc r j i w => proper d r /\ j < np /\ i <= plen j /\ wrep r (off j + i) w
  | KWait r => proper d r
  | KGet r j w sc => proper d r /\ j < np /\ wrep r (off j) w /\ (j = 0 -> sc = true)
  | KRel r j w sc => proper d r /\ j < np /\ wrep r (off j) w /\ (j = 0 -> sc = true)
  | KDec r j i w sc => proper d r /\ j < np /\ i <= plen j /\ wrep r (off j + i) w
  | KFree r j i w sc e => proper d r /\ j < np /\ i < plen j /\ wrep r (off j + S i) w /\ hit r (off j + i) = Some e
  | KEnd r sc => proper d r
  | KDein l => exists l0, k_metas c = l0 ++ l
  end.

(** the references on [e] that a thread in the middle of a call stands for *)
Definition wt (e : nat) (p : kpc) : bool :=
  match p with
  | KInc r j i w => rem r 0 e && negb (rem r (off j + i) e)
  | KWait r => rem r 0 e
  | KGet r j _ _ | KRel r j _ _ => rem r (off j) e
  | KDec r j i _ _ => rem r (off j + i) e
  | KFree r j i _ _ _ => rem r (off j + S i) e
  | _ => false
  end.
Definition total (s : kst) (e : nat) : nat :=
  length (filter (fun r => rem r 0 e) (ks_out s)) + cnt (fun t => wt e (ks_pcs s t)) (k_n c).

Definition held (p : kpc) (q : nat) : Prop :=
  match p with
  | KGet _ j _ _ => j = S q
  | KRel _ j _ _ => j = q \/ j = S q
  | KDec _ j _ _ _ | KFree _ j _ _ _ _ => j = q
  | _ => False
  end.
Definition freeing (p : kpc) : option nat := match p with KFree _ _ _ _ _ e => Some e | _ => None end.

Record AInv (s : kst) : Prop := {
  a_pc : forall t, pok (ks_pcs s t);
  a_n : forall t, k_n c <= t -> ks_pcs s t = KOut;
  a_out : forall r, In r (ks_out s) -> proper d r;
  a_byte : forall x, (ks_refs s x < 256)%N;
  a_claim : forall q, ks_claim s q = true <-> exists t, held (ks_pcs s t) q;
  a_excl : forall t u q, held (ks_pcs s t) q -> held (ks_pcs s u) q -> t = u
}.

Record CInv (s : kst) : Prop := {
  c_live : forall e, recorded_ext c e -> ks_live s e = true -> ks_refs s e = N.of_nat (S (total s e)) /\
    (total s e = 0 -> exists t, freeing (ks_pcs s t) = Some e);
  c_dead : forall e, recorded_ext c e -> ks_live s e = false -> total s e = 0;
  c_free : forall t e, freeing (ks_pcs s t) = Some e -> ks_live s e = true /\ total s e = 0
}.

Lemma hit_recorded : forall r i e, hit r i = Some e -> recorded_ext c e.
Proof.
  intros r i e H. apply hit_span in H; auto. destruct H as (lo & hi & H & _). apply span_opens in H; auto.
  destruct H as (k & en0 & en & _ & _ & G & X & _). unfold recorded_ext. apply in_map_iff. exists en0. split; auto.
  eapply nth_error_In; eauto.
Qed.

Lemma total_pos : forall s t e, AInv s -> wt e (ks_pcs s t) = true -> 0 < total s e.
Proof.
  intros s t e A W. unfold total. assert (t < k_n c).
  { destruct (lt_dec t (k_n c)); auto. rewrite (a_n _ A) in W by lia. discriminate. }
  pose proof (cnt_pos (fun t => wt e (ks_pcs s t)) (k_n c) t H W). lia.
Qed.

Lemma held_live : forall s t e r i, AInv s -> CInv s -> wt e (ks_pcs s t) = true -> hit r i = Some e ->
  ks_live s e = true /\ (2 <= ks_refs s e)%N.
Proof.
  intros s t e r i A C W H. pose proof (total_pos _ _ _ A W) as P. pose proof (hit_recorded _ _ _ H) as R.
  destruct (ks_live s e) eqn:Lv.
  - split; auto. destruct (c_live _ C e R Lv) as [E _]. rewrite E. lia.
  - pose proof (c_dead _ C e R Lv). lia.
Qed.

Lemma kstep_trans : forall s t s', AInv s -> CInv s -> kstep c s t = KStep s' -> ktrans s t s'.
Proof.
  intros s t s' A C H. unfold kstep in H. pose proof (a_pc _ A t) as K.
  destruct (ks_pcs s t) as [|r j i w|r|r j w sc|r j w sc|r j i w sc|r j i w sc e|r sc|l] eqn:P; try discriminate; cbn [pok] in K.
  - destruct K as (K1 & K2 & K3 & K4). destruct (nth_error (page c j) i) as [en|] eqn:G.
    + apply entry_at in G. destruct G as (G1 & G2 & G3).
      destruct (entry_step_rep d TO L root LO r (off j + i) w en K1 K4 G3) as (w' & ES & W'). rewrite ES in H.
      replace (S (off j + i)) with (off j + S i) in W' by lia.
      destruct (hit r (off j + i)) as [e|] eqn:Hh; cbn [option_map] in H.
      * unfold inc8 in H. pose proof (a_byte _ A e) as B.
        destruct (N.eq_dec (ks_refs s e) 255) as [E|E]; [rewrite E in H; cbn in H; discriminate|].
        rewrite N.mod_small in H by lia. destruct ((ks_refs s e + 1 =? 1)%N || (ks_refs s e + 1 =? 0)%N); [discriminate|].
        inversion H; subst s'. eapply x_inc_hit; eauto. lia.
      * inversion H; subst s'. eapply x_inc_skip; eauto.
    + assert (i = plen j) by (apply nth_error_None in G; unfold plen in *; lia). subst i.
      destruct (Nat.ltb_spec (S j) np); inversion H; subst s'; [eapply x_inc_page | eapply x_inc_done]; eauto; lia.
  - destruct (N.eqb_spec (ks_refs s (head_ext c)) 2); [|discriminate]. inversion H; subst. eapply x_wait; eauto.
  - destruct (ks_claim s j) eqn:Cl; [discriminate|]. inversion H; subst. eapply x_get; eauto.
  - inversion H; subst. destruct j; cbn.
    + replace (set_pc s t (KDec r 0 0 w sc)) with (set_pc (set_claim s (ks_claim s)) t (KDec r 0 0 w sc)) by (destruct s; reflexivity).
      eapply x_rel; eauto.
    + eapply x_rel; eauto.
  - destruct K as (K1 & K2 & K3 & K4). destruct (nth_error (page c j) i) as [en|] eqn:G.
    + apply entry_at in G. destruct G as (G1 & G2 & G3).
      destruct (entry_step_rep d TO L root LO r (off j + i) w en K1 K4 G3) as (w' & ES & W'). rewrite ES in H.
      replace (S (off j + i)) with (off j + S i) in W' by lia.
      destruct (hit r (off j + i)) as [e|] eqn:Hh; cbn [option_map] in H.
      * assert (W : wt e (ks_pcs s t) = true).
        { rewrite P. cbn. apply rem_iff; auto. exists (off j + i). split; [|exact Hh]. pose proof (hit_lt _ _ _ _ _ Hh). lia. }
        destruct (held_live _ _ _ _ _ A C W Hh) as [Lv R2]. pose proof (a_byte _ A e) as B.
        unfold dec8 in H. assert (E : ((ks_refs s e + 255) mod 256 = ks_refs s e - 1)%N).
        { replace (ks_refs s e + 255)%N with ((ks_refs s e - 1) + 1 * 256)%N by lia. rewrite N.mod_add by lia. apply N.mod_small. lia. }
        rewrite E in H. destruct (N.eqb_spec (ks_refs s e - 1) 255); [lia|].
        inversion H; subst s'. destruct (N.eqb_spec (ks_refs s e - 1) 1) as [E1|E1].
        { rewrite E1. eapply x_dec_last; eauto. lia. }
        { eapply x_dec_more; eauto. lia. }
      * inversion H; subst s'. eapply x_dec_skip; eauto.
    + assert (i = plen j) by (apply nth_error_None in G; unfold plen in *; lia). subst i.
      destruct (Nat.ltb_spec (S j) np); inversion H; subst s'; [eapply x_dec_page | eapply x_dec_done]; eauto; lia.
  - destruct K as (K1 & K2 & K3 & K4 & K5).
    assert (F : freeing (ks_pcs s t) = Some e) by (now rewrite P).
    destruct (c_free _ C t e F) as [Lv Z]. destruct (c_live _ C e (hit_recorded _ _ _ K5) Lv) as [E _]. rewrite Z in E. cbn in E.
    unfold dec8 in H. rewrite E in H. cbn in H. inversion H; subst. eapply x_free; eauto.
  - destruct sc.
    + destruct (N.eqb_spec (ks_refs s (head_ext c)) 2); [|discriminate]. inversion H; subst. eapply x_end_yes; eauto.
    + inversion H; subst. eapply x_end_no; eauto.
  - destruct l as [|x l].
    + inversion H; subst. eapply x_dein_nil; eauto.
    + destruct (free_extent (ks_refs s) x) as [f|] eqn:F; [|discriminate]. inversion H; subst.
      assert (f x = 0%N /\ forall y, y <> x -> f y = ks_refs s y) as [F1 F2].
      { unfold free_extent, dec8 in F.
        destruct (((ks_refs s x + 255) mod 256) =? 255)%N; [discriminate|].
        destruct (((ks_refs s x + 255) mod 256) =? 1)%N; [|discriminate]. rewrite upd_same in F.
        destruct (((((ks_refs s x + 255) mod 256) + 255) mod 256) =? 255)%N; [discriminate|].
        destruct (N.eqb_spec ((((ks_refs s x + 255) mod 256) + 255) mod 256) 0) as [E|]; [|discriminate].
        inversion F; subst f. split; [now rewrite upd_same|]. intros y Hy. now rewrite !upd_other. }
      eapply x_dein; eauto.
Qed.


(** ** The first layer is kept *)

Lemma claim_upd : forall s t p f, AInv s ->
  (forall q, held p q -> held (ks_pcs s t) q \/ ks_claim s q = false) ->
  (forall q, f q = true <-> held p q \/ (ks_claim s q = true /\ ~ held (ks_pcs s t) q)) ->
  (forall q, f q = true <-> exists u, held (upd (ks_pcs s) t p u) q) /\
  (forall a b q, held (upd (ks_pcs s) t p a) q -> held (upd (ks_pcs s) t p b) q -> a = b).
Proof.
  intros s t p f A H1 H2.
  assert (X : forall u q, u <> t -> held (ks_pcs s u) q -> ~ held p q).
  { intros u q Hu Hq Hp. destruct (H1 q Hp) as [K|K]; [apply Hu; exact (a_excl _ A _ _ _ Hq K)|].
    assert (ks_claim s q = true) by (apply (a_claim _ A); eauto). congruence. }
  split.
  - intro q. rewrite H2. split.
    + intros [K|[K1 K2]]; [exists t; now rewrite upd_same|]. apply (a_claim _ A) in K1. destruct K1 as [u K1]. exists u.
      rewrite upd_other; [exact K1|]. intros ->. tauto.
    + intros [u K]. pcase u t (ks_pcs s); [now left|]. right. split; [apply (a_claim _ A); eauto|].
      intro K'. apply n. exact (a_excl _ A _ _ _ K K').
  - intros a b q Ha Hb. pcase a t (ks_pcs s); pcase b t (ks_pcs s); auto.
    + exfalso. exact (X _ _ n Hb Ha).
    + exfalso. exact (X _ _ n Ha Hb).
    + exact (a_excl _ A _ _ _ Ha Hb).
Qed.

Lemma held_decb : forall p q, held p q \/ ~ held p q.
Proof. intros p q. destruct p; cbn; auto; lia. Qed.

(** a move to a program counter that holds the same pages *)
Lemma claim_same : forall s t p, AInv s -> (forall q, held p q <-> held (ks_pcs s t) q) ->
  (forall q, ks_claim s q = true <-> exists u, held (upd (ks_pcs s) t p u) q) /\
  (forall a b q, held (upd (ks_pcs s) t p a) q -> held (upd (ks_pcs s) t p b) q -> a = b).
Proof.
  intros s t p A H. apply claim_upd; auto.
  - intros q Hq. left. now apply H.
  - intro q. rewrite H. destruct (held_decb (ks_pcs s t) q) as [K|K].
    + split; [auto|]. intros _. apply (a_claim _ A). eauto.
    + tauto.
Qed.

Lemma upd_n : forall (f : nat -> kpc) t p, t < k_n c -> (forall u, k_n c <= u -> f u = KOut) -> forall u, k_n c <= u -> upd f t p u = KOut.
Proof. intros f t p Ht H u Hu. rewrite upd_other by lia. auto. Qed.
Lemma upd_pok : forall (f : nat -> kpc) t p, (forall u, pok (f u)) -> pok p -> forall u, pok (upd f t p u).
Proof. intros f t p H Hp u. pcase u t f; auto. Qed.
Lemma upd_byte : forall (f : nat -> N) x v, (forall u, f u < 256)%N -> (v < 256)%N -> forall u, (upd f x v u < 256)%N.
Proof. intros f t p H Hp u. pcase u t f; auto. Qed.

Lemma ainv_set : forall s t p refs cl out blk live gone, AInv s -> t < k_n c -> pok p ->
  ((forall q, cl q = true <-> exists u, held (upd (ks_pcs s) t p u) q) /\
   (forall a b q, held (upd (ks_pcs s) t p a) q -> held (upd (ks_pcs s) t p b) q -> a = b)) ->
  (forall r, In r out -> proper d r) -> (forall x, refs x < 256)%N ->
  AInv (Kst refs cl (upd (ks_pcs s) t p) out blk live gone).
Proof.
  intros s t p refs cl out blk live gone A Ht Hp [C1 C2] Ho Hr. constructor; cbn; auto.
  - apply upd_pok; auto. exact (a_pc _ A).
  - apply upd_n; auto. exact (a_n _ A).
Qed.

Lemma np_pos : 0 < np.
Proof.
  destruct (lo_root _ _ _ LO) as (i & _ & en & _ & _ & G & _). destruct (k_pages c); cbn in *; [destruct i; discriminate | lia].
Qed.

Lemma ainv_step : forall s t s', AInv s -> t < k_n c -> ktrans s t s' -> AInv s'.
Proof.
  intros s t s' A Ht H. pose proof (a_pc _ A t) as K. pose proof (a_out _ A) as KO. pose proof (a_byte _ A) as KB.
  inversion H; subst; match goal with X : ks_pcs s t = _ |- _ => rename X into E end; rewrite E in K; cbn [pok] in K;
    apply (ainv_set s); auto.
  all: try (apply (claim_same s t); [exact A | intro q; rewrite E; cbn; lia]).
  all: try (apply upd_byte; [exact KB | try pose proof (KB e); lia]).
  all: try (cbn [pok]; intuition (auto; lia); fail).
  - destruct K as (K1 & K2 & K3 & K4). cbn [pok]. split; [|split; [|split]]; auto; try lia. rewrite off_S by lia. now rewrite Nat.add_0_r.
  - intros r' [<-|R]; [tauto | auto].
  - cbn [pok]. split; [exact K|]. split; [apply np_pos|]. split; [apply wrep0 | auto].
  - apply (claim_upd s t); auto; intro q; rewrite E; cbn [held ks_claim set_claim].
    + intros [-> | ->]; auto.
    + destruct (Nat.eq_dec q j) as [->|Nq].
      * rewrite upd_same. split; auto.
      * rewrite upd_other by auto. split; [|intros [[X|X]|X]; try (subst; congruence)].
        { intro X. destruct (Nat.eq_dec j (S q)); auto. }
        { apply (a_claim _ A). exists t. rewrite E. exact X. }
        { tauto. }
  - cbn. rewrite Nat.add_0_r. intuition lia.
  - apply (claim_upd s t); auto; intro q; rewrite E; cbn [held ks_claim set_claim]; [auto|].
    destruct j as [|j'].
    + split.
      * intro X. destruct (Nat.eq_dec 0 q); auto. right. split; auto. lia.
      * intros [X|X]; [|tauto]. apply (a_claim _ A). exists t. rewrite E. cbn. auto.
    + destruct (Nat.eq_dec q j') as [->|Nq].
      * rewrite upd_same. split; [discriminate|]. intros [X|X]; [lia | tauto].
      * rewrite upd_other by auto. split.
        { intro X. destruct (Nat.eq_dec (S j') q); auto. right. split; auto. lia. }
        { intros [X|X]; [|tauto]. apply (a_claim _ A). exists t. rewrite E. cbn. auto. }
  - destruct K as (K1 & K2 & K3 & K4). cbn [pok]. split; [|split; [|split]]; auto; try lia. rewrite off_S by lia. exact K4.
  - apply (claim_upd s t); auto; intro q; rewrite E; cbn [held ks_claim set_claim]; [tauto|].
    destruct (Nat.eq_dec q j) as [->|Nq].
    + rewrite upd_same. split; [discriminate|]. intros [[]|X]. tauto.
    + rewrite upd_other by auto. split; [|tauto]. intro X. right. split; auto.
  - cbn. exists []. reflexivity.
  - cbn. destruct K as [l0 K]. exists (l0 ++ [x]). now rewrite <- app_assoc.
  - intro y. destruct (Nat.eq_dec y x) as [->|Ny]; [cbn [ks_refs set_refs set_live]; rewrite H1; reflexivity | cbn [ks_refs set_refs]; rewrite H2; auto].
Qed.

(** ** The counts *)

Definition nf (e : nat) (l : list range) : nat := length (filter (fun r => rem r 0 e) l).

Lemma total_set : forall s t p refs cl out blk live gone e, t < k_n c ->
  total (Kst refs cl (upd (ks_pcs s) t p) out blk live gone) e + b2n (wt e (ks_pcs s t)) + nf e (ks_out s) =
  total s e + b2n (wt e p) + nf e out.
Proof.
  intros s t p refs cl out blk live gone e Ht. unfold total, nf. cbn [ks_out ks_pcs].
  pose proof (cnt_change (fun u => wt e (ks_pcs s u)) (fun u => wt e (upd (ks_pcs s) t p u)) (k_n c) t Ht) as X.
  cbn beta in X. rewrite upd_same in X. specialize (X ltac:(intros i Hi; now rewrite upd_other)). lia.
Qed.

Lemma nf_cons : forall e r l, nf e (r :: l) = b2n (rem r 0 e) + nf e l.
Proof. intros. unfold nf. cbn. destruct (rem r 0 e); reflexivity. Qed.
Lemma nf_app : forall e l1 l2, nf e (l1 ++ l2) = nf e l1 + nf e l2.
Proof. intros e l1 l2. unfold nf. now rewrite filter_app, app_length. Qed.
Lemma nf_perm : forall e l1 l2, Permutation l1 l2 -> nf e l1 = nf e l2.
Proof. intros e l1 l2 H. induction H; rewrite ?nf_cons in *; try lia. Qed.

Lemma free_uniq : forall s t u e, AInv s -> freeing (ks_pcs s t) = Some e -> freeing (ks_pcs s u) = Some e -> t = u.
Proof.
  intros s t u e A Ft Fu. pose proof (a_pc _ A t) as Kt. pose proof (a_pc _ A u) as Ku. pose proof (a_excl _ A t u) as X.
  destruct (ks_pcs s t) as [| | | | | |r j i w sc x| |]; try discriminate. cbn in Ft. inversion Ft; subst x.
  destruct (ks_pcs s u) as [| | | | | |r' j' i' w' sc' x| |]; try discriminate. cbn in Fu. inversion Fu; subst x.
  cbn in Kt, Ku, X. destruct Kt as (_ & J1 & I1 & _ & H1), Ku as (_ & J2 & I2 & _ & H2).
  assert (E : off j + i = off j' + i') by (apply (hit_uniq d L root LO r r' _ _ e); auto).
  assert (j' <= j) by (apply (page_of j j' (off j + i)); try lia; rewrite off_S; lia).
  assert (j <= j') by (apply (page_of j' j (off j + i)); try lia; rewrite off_S; lia).
  apply (X j); lia.
Qed.

(** a move that changes no total and no recorded extent *)
Lemma cinv_same : forall s s', CInv s -> (forall e, recorded_ext c e -> total s' e = total s e) ->
  (forall e, recorded_ext c e -> ks_refs s' e = ks_refs s e) -> (forall e, recorded_ext c e -> ks_live s' e = ks_live s e) ->
  (forall u, freeing (ks_pcs s' u) = freeing (ks_pcs s u)) -> (forall u e, freeing (ks_pcs s u) = Some e -> recorded_ext c e) -> CInv s'.
Proof.
  intros s s' C T R Lv F FR. constructor.
  - intros e He. rewrite T, R, Lv by auto. intro X. destruct (c_live _ C e He X) as [Y1 Y2]. split; auto. intro Z.
    destruct (Y2 Z) as [u Y3]. exists u. now rewrite F.
  - intros e He. rewrite T, Lv by auto. apply (c_dead _ C); auto.
  - intros u e Hu. rewrite F in Hu. pose proof (FR u e Hu). rewrite T, Lv by auto. apply (c_free _ C u); auto.
Qed.

Lemma freeing_recorded : forall s, AInv s -> forall u e, freeing (ks_pcs s u) = Some e -> recorded_ext c e.
Proof.
  intros s A u e F. pose proof (a_pc _ A u) as K. destruct (ks_pcs s u); try discriminate. cbn in *. inversion F; subst.
  destruct K as (_ & _ & _ & _ & K). eapply hit_recorded; eauto.
Qed.

Lemma cinv_move : forall s t p refs cl out blk live gone, AInv s -> CInv s -> t < k_n c ->
  (forall e, recorded_ext c e -> b2n (wt e p) + nf e out = b2n (wt e (ks_pcs s t)) + nf e (ks_out s)) ->
  (forall e, recorded_ext c e -> refs e = ks_refs s e) -> (forall e, recorded_ext c e -> live e = ks_live s e) ->
  freeing p = None -> freeing (ks_pcs s t) = None ->
  CInv (Kst refs cl (upd (ks_pcs s) t p) out blk live gone).
Proof.
  intros s t p refs cl out blk live gone A C Ht W R Lv F0 F1. apply (cinv_same s); auto.
  - intros e He. pose proof (total_set s t p refs cl out blk live gone e Ht). pose proof (W e He). lia.
  - intro u. cbn. pcase u t (ks_pcs s); congruence.
  - apply freeing_recorded; auto.
Qed.

Lemma hitb_none : forall r i e, hit r i = None -> hitb d L r i e = false.
Proof. intros r i e H. unfold hitb. now rewrite H. Qed.

Lemma rem_skip : forall r i e, hit r i = None -> rem r i e = rem r (S i) e.
Proof. intros r i e H. rewrite rem_next, hitb_none; auto. Qed.
Lemma rem_other : forall r i e e', hit r i = Some e -> e' <> e -> rem r i e' = rem r (S i) e'.
Proof.
  intros r i e e' H N. rewrite rem_next. unfold hitb. rewrite H. destruct (Nat.eqb_spec e e'); [congruence | reflexivity].
Qed.
Lemma rem_now : forall r i e, hit r i = Some e -> rem r i e = true.
Proof. intros r i e H. apply rem_iff. exists i. split; auto. pose proof (hit_lt _ _ _ _ _ H). lia. Qed.
Lemma rem_zero : forall r i e, rem r i e = true -> rem r 0 e = true.
Proof. intros r i e H. apply rem_iff in H. destruct H as (k & K1 & K2). apply rem_iff. exists k. split; auto. lia. Qed.

Lemma freeing_upd : forall s t p u e, freeing p = None -> freeing (upd (ks_pcs s) t p u) = Some e -> freeing (ks_pcs s u) = Some e.
Proof. intros s t p u e N F. pcase u t (ks_pcs s); [congruence | auto]. Qed.
Lemma freeing_keep : forall s t p u e, freeing (ks_pcs s t) = None -> freeing (ks_pcs s u) = Some e -> freeing (upd (ks_pcs s) t p u) = Some e.
Proof. intros s t p u e N F. pcase u t (ks_pcs s); [congruence | auto]. Qed.

Lemma covered_total : forall s r i e, AInv s -> covered d r (ks_out s) -> proper d r -> hit r i = Some e -> 0 < total s e.
Proof.
  intros s r i e A Cv P H. destruct (hit_covered d TO L root LO r _ i e P Cv H) as (r' & R1 & R2).
  assert (In r' (filter (fun r => rem r 0 e) (ks_out s))).
  { apply filter_In. split; auto. apply rem_zero with i. now apply rem_now. }
  unfold total. destruct (filter (fun r => rem r 0 e) (ks_out s)); [contradiction | cbn; lia].
Qed.

(** an extent whose total and count change together *)
Lemma cinv_count : forall s t p refs cl blk gone e v, AInv s -> CInv s -> t < k_n c ->
  freeing (ks_pcs s t) = None -> (freeing p = None \/ (freeing p = Some e /\ v = 1%N)) ->
  (forall e', e' <> e -> wt e' p = wt e' (ks_pcs s t)) ->
  (forall e', e' <> e -> refs e' = ks_refs s e') -> refs e = v ->
  ks_live s e = true -> recorded_ext c e -> 0 < total s e ->
  (N.to_nat v + b2n (wt e (ks_pcs s t)) = S (total s e) + b2n (wt e p)) ->
  (freeing p = None -> (2 <= v)%N) ->
  CInv (Kst refs cl (upd (ks_pcs s) t p) (ks_out s) blk (ks_live s) gone).
Proof.
  intros s t p refs cl blk gone e v A C Ht F0 F1 W R Rv Lv Re Tp V1 V2.
  set (s' := Kst refs cl (upd (ks_pcs s) t p) (ks_out s) blk (ks_live s) gone).
  assert (T : forall e', e' <> e -> total s' e' = total s e').
  { intros e' N. pose proof (total_set s t p refs cl (ks_out s) blk (ks_live s) gone e' Ht) as X. rewrite (W e' N) in X. fold s' in X. lia. }
  assert (Te : total s' e = N.to_nat v - 1).
  { pose proof (total_set s t p refs cl (ks_out s) blk (ks_live s) gone e Ht) as X. fold s' in X. lia. }
  assert (V0 : (1 <= v)%N) by (destruct F1 as [F1|[_ ->]]; [specialize (V2 F1); lia | lia]).
  constructor.
  - intros e' He' Lv'. cbn in Lv'. destruct (Nat.eq_dec e' e) as [->|N].
    + split; [cbn [ks_refs s']; rewrite Te; lia|]. intro Z. destruct F1 as [F1|[F1 _]]; [specialize (V2 F1); lia|].
      exists t. cbn. rewrite upd_same. exact F1.
    + rewrite T by auto. cbn [ks_refs s']. rewrite R by auto. destruct (c_live _ C e' He' Lv') as [Y1 Y2]. split; auto. intro Z.
      destruct (Y2 Z) as [u Y3]. exists u. cbn. apply freeing_keep; auto.
  - intros e' He' Lv'. cbn in Lv'. destruct (Nat.eq_dec e' e) as [->|N]; [congruence|]. rewrite T by auto. apply (c_dead _ C); auto.
  - intros u e' Fu. cbn [ks_pcs s'] in Fu. cbn [ks_live s']. pcase u t (ks_pcs s).
    + destruct F1 as [F1|[F1 F2]]; [congruence|]. assert (e' = e) by congruence. subst e'. split; auto. rewrite Te. lia.
    + destruct (c_free _ C u e' Fu) as [X1 X2]. split; auto. destruct (Nat.eq_dec e' e) as [->|N]; [lia|]. now rewrite T.
Qed.

Lemma cinv_step : forall s t s', AInv s -> CInv s -> t < k_n c ->
  (forall r j i w, ks_pcs s t = KInc r j i w -> covered d r (ks_out s)) ->
  (forall x l, ks_pcs s t = KDein (x :: l) -> ~ recorded_ext c x) -> ktrans s t s' -> CInv s'.
Proof.
  intros s t s' A C Ht Cov ND H. pose proof (a_pc _ A t) as K.
  inversion H; subst; match goal with X : ks_pcs s t = _ |- _ => rename X into E end; rewrite E in K; cbn [pok] in K.
  - (* inc_skip *) apply (cinv_move s); auto; [|now rewrite E]. intros e0 He0. rewrite E. cbn [wt].
    rewrite (rem_skip r (off j + i)) by auto. now rewrite Nat.add_succ_r.
  - (* inc_hit *)
    pose proof (covered_total _ _ _ _ A (Cov _ _ _ _ E) (proj1 K) H3) as Tp.
    assert (Lv : ks_live s e = true).
    { destruct (ks_live s e) eqn:Lv; auto. pose proof (c_dead _ C e (hit_recorded _ _ _ H3) Lv). lia. }
    destruct (c_live _ C e (hit_recorded _ _ _ H3) Lv) as [Rv _].
    apply (cinv_count s t _ _ _ _ _ e (ks_refs s e + 1)%N); auto; try (rewrite E; reflexivity).
    + intros e' N. rewrite E. cbn [wt]. rewrite (rem_other r (off j + i) e e') by auto. now rewrite Nat.add_succ_r.
    + intros e' N. cbn. now rewrite upd_other.
    + cbn. now rewrite upd_same.
    + now apply hit_recorded in H3.
    + rewrite E. cbn [wt]. rewrite (rem_now _ _ _ H3), Nat.add_succ_r, (rem_hit d L root LO _ _ _ H3).
      rewrite (rem_zero _ _ _ (rem_now _ _ _ H3)), Rv. cbn [b2n andb negb]. lia.
    + intros _. rewrite Rv. lia.
  - (* inc_page *) apply (cinv_move s); auto; [|now rewrite E]. intros e0 He0. rewrite E. cbn [wt].
    rewrite off_S, Nat.add_0_r by lia. reflexivity.
  - (* inc_done *) apply (cinv_move s); auto; [|now rewrite E]. intros e0 He0. rewrite E. cbn [wt].
    cbn [ks_out set_out]. rewrite nf_cons. rewrite (rem_end d L r (off j + plen j)) by (rewrite <- off_S by lia; rewrite H1, off_np; lia).
    cbn. rewrite andb_true_r. reflexivity.
  - (* wait *) apply (cinv_move s); auto; [|now rewrite E]. intros e0 He0. rewrite E. reflexivity.
  - (* get *) apply (cinv_move s); auto; [|now rewrite E]. intros e0 He0. rewrite E. reflexivity.
  - (* rel *) apply (cinv_move s); auto; [|now rewrite E]. intros e0 He0. rewrite E. cbn [wt]. now rewrite Nat.add_0_r.
  - (* dec_skip *) apply (cinv_move s); auto; [|now rewrite E]. intros e0 He0. rewrite E. cbn [wt].
    rewrite (rem_skip r (off j + i)) by auto. now rewrite Nat.add_succ_r.
  - (* dec_more *)
    assert (W : wt e (ks_pcs s t) = true) by (rewrite E; cbn; now apply rem_now).
    destruct (held_live _ _ _ _ _ A C W H3) as [Lv _]. destruct (c_live _ C e (hit_recorded _ _ _ H3) Lv) as [Rv _].
    pose proof (total_pos _ _ _ A W) as Tp.
    apply (cinv_count s t _ _ _ _ _ e (ks_refs s e - 1)%N); auto; try (rewrite E; reflexivity).
    + intros e' N. rewrite E. cbn [wt]. rewrite (rem_other r (off j + i) e e') by auto. now rewrite Nat.add_succ_r.
    + intros e' N. cbn. now rewrite upd_other.
    + cbn. now rewrite upd_same.
    + now apply hit_recorded in H3.
    + rewrite W. cbn [wt]. rewrite Nat.add_succ_r, (rem_hit d L root LO _ _ _ H3), Rv. cbn [b2n]. lia.
    + intros _. lia.
  - (* dec_last *)
    assert (W : wt e (ks_pcs s t) = true) by (rewrite E; cbn; now apply rem_now).
    destruct (held_live _ _ _ _ _ A C W H3) as [Lv _]. destruct (c_live _ C e (hit_recorded _ _ _ H3) Lv) as [Rv _].
    pose proof (total_pos _ _ _ A W) as Tp.
    apply (cinv_count s t _ _ _ _ _ e 1%N); auto; try (rewrite E; reflexivity).
    + intros e' N. rewrite E. cbn [wt]. rewrite (rem_other r (off j + i) e e') by auto. now rewrite Nat.add_succ_r.
    + intros e' N. cbn. now rewrite upd_other.
    + cbn. now rewrite upd_same.
    + now apply hit_recorded in H3.
    + rewrite W. cbn [wt]. rewrite Nat.add_succ_r, (rem_hit d L root LO _ _ _ H3). cbn [b2n]. lia.
    + discriminate.
  - (* dec_page *) apply (cinv_move s); auto; [|now rewrite E]. intros e0 He0. rewrite E. cbn [wt].
    rewrite off_S by lia. reflexivity.
  - (* dec_done *) apply (cinv_move s); auto; [|now rewrite E]. intros e0 He0. rewrite E. cbn [wt].
    rewrite (rem_end d L r (off j + plen j)) by (rewrite <- off_S by lia; rewrite H1, off_np; lia). reflexivity.
  - (* free *)
    destruct K as (K1 & K2 & K3 & K4 & K5).
    assert (F : freeing (ks_pcs s t) = Some e) by (now rewrite E). destruct (c_free _ C t e F) as [Lv Z].
    match goal with |- CInv ?x => set (s' := x) end.
    assert (T : forall e', total s' e' = total s e').
    { intro e'. pose proof (total_set s t (KDec r j (S i) w sc) (upd (ks_refs s) e 0%N) (ks_claim s) (ks_out s) (ks_blk s) (upd (ks_live s) e false) (ks_gone s) e' Ht) as X.
      rewrite E in X. cbn [wt] in X. unfold s'. unfold set_pc, set_live, set_refs. cbn [ks_refs ks_claim ks_pcs ks_out ks_blk ks_live ks_gone]. lia. }
    constructor.
    + intros e' He' Lv'. cbn in Lv'. pcase e' e (ks_live s); [discriminate|]. rewrite T. cbn. rewrite upd_other by auto.
      destruct (c_live _ C e' He' Lv') as [Y1 Y2]. split; auto. intro Z'. destruct (Y2 Z') as [u Y3]. exists u.
      pcase u t (ks_pcs s); [congruence | auto].
    + intros e' He' Lv'. rewrite T. cbn in Lv'. pcase e' e (ks_live s); auto. apply (c_dead _ C); auto.
    + intros u e' Fu. cbn in Fu. pcase u t (ks_pcs s); [discriminate|]. rewrite T. cbn.
      destruct (c_free _ C u e' Fu) as [X1 X2]. split; auto. rewrite upd_other; auto. intros ->.
      apply n. exact (free_uniq _ _ _ _ A Fu F).
  - (* end_yes *) apply (cinv_move s); auto; [|now rewrite E]. intros e0 He0. rewrite E. reflexivity.
  - (* end_no *) apply (cinv_move s); auto; [|now rewrite E]. intros e0 He0. rewrite E. reflexivity.
  - (* dein_nil *) apply (cinv_move s); auto; [|now rewrite E]. intros e0 He0. rewrite E. reflexivity.
  - (* dein *) pose proof (ND x l E) as Nx. apply (cinv_move s); auto; try (now rewrite E).
    + intros e0 He0. cbn. apply H2. intros ->. contradiction.
    + intros e0 He0. cbn. rewrite upd_other; auto. intros ->. contradiction.
Qed.

(** ** Who is responsible *)

Definition quiet (p : kpc) : Prop := match p with KOut | KEnd _ false => True | _ => False end.
Definition top (p : kpc) : option nat :=
  match p with
  | KWait _ => Some 0
  | KGet _ j _ _ => Some j
  | KRel _ j _ _ | KDec _ j _ _ _ | KFree _ j _ _ _ _ => Some (S j)
  | _ => None
  end.
Definition bound (p : kpc) : nat := match top p with Some k => k | None => S np end.
Definition scl (p : kpc) : bool :=
  match p with KGet _ _ _ sc | KRel _ _ _ sc | KDec _ _ _ _ sc | KFree _ _ _ _ sc _ | KEnd _ sc => sc | _ => true end.
(** the walk is past the entry that closes the root's extent *)
Definition passed (p : kpc) : Prop :=
  match p with
  | KGet r j _ _ | KRel r j _ _ => rem r (off j) root = false
  | KDec r j i _ _ => rem r (off j + i) root = false
  | KFree r j i _ _ _ => rem r (off j + S i) root = false
  | KEnd _ _ => True
  | _ => False
  end.
Definition busy (p : kpc) : Prop := top p <> None \/ (exists r, p = KEnd r true) \/ (exists l, p = KDein l).

Record DInv (s : kst) : Prop := {
  d_inc : forall t r j i w, ks_pcs s t = KInc r j i w -> covered d r (ks_out s);
  d_P : forall t k, top (ks_pcs s t) = Some k -> scl (ks_pcs s t) = false ->
    ks_out s <> [] \/ exists u k', top (ks_pcs s u) = Some k' /\ k' < k;
  d_Q : forall t, passed (ks_pcs s t) -> scl (ks_pcs s t) = true -> ks_out s = [] /\
    forall u, u <> t -> quiet (ks_pcs s u) \/ exists k, top (ks_pcs s u) = Some k /\ bound (ks_pcs s t) < k;
  d_resp : ks_gone s = false -> ks_out s <> [] \/ exists u, busy (ks_pcs s u);
  d_dein : forall t l, ks_pcs s t = KDein l -> ks_gone s = false /\ ks_out s = [] /\ forall u, u <> t -> quiet (ks_pcs s u);
  d_gone : ks_gone s = true -> ks_out s = [] /\ forall u, quiet (ks_pcs s u)
}.

Lemma top_le : forall p k, pok p -> top p = Some k -> k <= np.
Proof. intros p k K H. destruct p; cbn in *; inversion H; subst; lia. Qed.
Lemma top_sc : forall p k, pok p -> top p = Some k -> scl p = false -> 0 < k.
Proof.
  intros p k K H S0. destruct p; cbn in *; inversion H; subst; try lia; try discriminate.
Qed.
Lemma quiet_top : forall p, quiet p -> top p = None.
Proof. intros p H. destruct p; cbn in *; auto; contradiction. Qed.
Lemma quiet_busy : forall p, quiet p -> ~ busy p.
Proof. intros p H [B|[[r B]|[l B]]]; subst; cbn in *; auto. rewrite quiet_top in B; auto. Qed.
Lemma top_busy : forall p k, top p = Some k -> busy p.
Proof. intros p k H. left. congruence. Qed.

(** a move that keeps the outstanding references *)
Lemma dinv_move : forall s t p refs cl blk live, AInv s -> DInv s ->
  let p0 := ks_pcs s t in
  (forall r j i w, p = KInc r j i w -> covered d r (ks_out s)) ->
  (forall u k k', u <> t -> top (ks_pcs s u) = Some k -> top p0 = Some k' -> k' < k -> exists k2, top p = Some k2 /\ k2 < k) ->
  (forall u, u <> t -> passed (ks_pcs s u) -> scl (ks_pcs s u) = true -> ks_out s = [] ->
     quiet p0 \/ (exists k', top p0 = Some k' /\ bound (ks_pcs s u) < k') ->
     quiet p \/ (exists k2, top p = Some k2 /\ bound (ks_pcs s u) < k2)) ->
  (forall k, top p = Some k -> scl p = false -> ks_out s <> [] \/ exists u k', u <> t /\ top (ks_pcs s u) = Some k' /\ k' < k) ->
  (passed p -> scl p = true -> ks_out s = [] /\
     forall u, u <> t -> quiet (ks_pcs s u) \/ exists k, top (ks_pcs s u) = Some k /\ bound p < k) ->
  (busy p0 -> busy p \/ ks_out s <> [] \/ exists u, u <> t /\ busy (ks_pcs s u)) ->
  (forall l, p = KDein l -> ks_out s = [] /\ ks_gone s = false /\ forall u, u <> t -> quiet (ks_pcs s u)) ->
  (quiet p0 -> quiet p) ->
  DInv (Kst refs cl (upd (ks_pcs s) t p) (ks_out s) blk live (ks_gone s)).
Proof.
  intros s t p refs cl blk live A D p0 H1 H2 H3 H4 H5 H6 H7 H8. constructor; cbn [ks_pcs ks_out ks_gone].
  - intros u r j i w Hu. pcase u t (ks_pcs s); [eauto | exact (d_inc _ D _ _ _ _ _ Hu)].
  - intros u k Hk Hs. pcase u t (ks_pcs s).
    + destruct (H4 k Hk Hs) as [X|(v & k' & V1 & V2 & V3)]; auto. right. exists v, k'. rewrite upd_other; auto.
    + destruct (d_P _ D u k Hk Hs) as [X|(v & k' & V2 & V3)]; auto. right. destruct (Nat.eq_dec v t) as [->|Nv].
      * destruct (H2 u k k' n Hk V2 V3) as (k2 & X1 & X2). exists t, k2. now rewrite upd_same.
      * exists v, k'. now rewrite upd_other.
  - intros u Hp Hs. pcase u t (ks_pcs s).
    + destruct (H5 Hp Hs) as [X1 X2]. split; auto. intros v Nv. rewrite upd_other by auto. auto.
    + destruct (d_Q _ D u Hp Hs) as [X1 X2]. split; auto. intros v Nv. pcase v t (ks_pcs s); auto.
      apply H3; auto. apply X2. auto.
  - intro G. destruct (d_resp _ D G) as [X|[u X]]; auto. destruct (Nat.eq_dec u t) as [->|Nu].
    + destruct (H6 X) as [Y|[Y|(v & V1 & V2)]]; auto; right; [exists t; now rewrite upd_same | exists v; now rewrite upd_other].
    + right. exists u. now rewrite upd_other.
  - intros u l Hu. pcase u t (ks_pcs s).
    + destruct (H7 l Hu) as (X1 & X2 & X3). repeat split; auto. intros v Nv. rewrite upd_other; auto.
    + destruct (d_dein _ D u l Hu) as (X1 & X2 & X3). repeat split; auto. intros v Nv. pcase v t (ks_pcs s); auto. apply H8. apply X3. auto.
  - intro G. destruct (d_gone _ D G) as [X1 X2]. split; auto. intro v. pcase v t (ks_pcs s); auto. apply H8. apply X2.
Qed.


Lemma dinv_plain : forall s t p refs cl blk live, AInv s -> DInv s ->
  top p = top (ks_pcs s t) -> scl p = scl (ks_pcs s t) -> (passed p -> passed (ks_pcs s t)) ->
  (top p = None -> exists r j i w j' i' w', p = KInc r j i w /\ ks_pcs s t = KInc r j' i' w') ->
  DInv (Kst refs cl (upd (ks_pcs s) t p) (ks_out s) blk live (ks_gone s)).
Proof.
  intros s t p refs cl blk live A D E1 E2 E3 E4.
  assert (NQ : ~ quiet (ks_pcs s t)).
  { intro Q. rewrite (quiet_top _ Q) in E1. destruct (E4 E1) as (r & j & i & w & j' & i' & w' & _ & X). rewrite X in Q. exact Q. }
  apply dinv_move; auto.
  - intros r j i w ->. destruct (E4 eq_refl) as (r' & j0 & i0 & w0 & j' & i' & w' & X & Y). inversion X; subst.
    exact (d_inc _ D _ _ _ _ _ Y).
  - intros u k k' Nu H1 H2 H3. exists k'. rewrite E1. auto.
  - intros u Nu H1 H2 H3 [H4|H4]; [contradiction|]. right. now rewrite E1.
  - intros k H1 H2. rewrite E1 in H1. rewrite E2 in H2. destruct (d_P _ D t k H1 H2) as [X|(u & k' & X1 & X2)]; auto.
    right. exists u, k'. repeat split; auto. intros ->. rewrite H1 in X1. inversion X1. lia.
  - intros H1 H2. rewrite E2 in H2. destruct (d_Q _ D t (E3 H1) H2) as [X1 X2]. split; auto. intros u Nu.
    assert (B : bound p = bound (ks_pcs s t)) by (unfold bound; now rewrite E1). rewrite B. auto.
  - intros [H1|[[r H1]|[l H1]]]; rewrite ?H1 in E1; [left; left; congruence| |];
      destruct (E4 E1) as (r' & j & i & w & j' & i' & w' & _ & X); congruence.
  - intros l ->. destruct (E4 eq_refl) as (r' & j & i & w & j' & i' & w' & X & _). discriminate.
  - tauto.
Qed.

Lemma out_cover : forall r l, proper d r -> covered d r l -> l <> [].
Proof. intros r l P C. destruct (C (fst r)) as (r' & R & _); [split; [apply kle_refl; auto | exact P] | intros ->; exact R]. Qed.

Lemma pos_le : forall p j, pok p -> j < np -> top p = Some (S j) -> exists q, held p q /\ q = j.
Proof. intros p j K Hj H. destruct p; cbn in *; inversion H; subst; eauto. Qed.

(** a thread that still has to visit what [t] is visiting is behind it *)
Lemma behind : forall s t u r j i e, AInv s -> (forall q, held (ks_pcs s t) q <-> q = j) -> j < np -> i < plen j -> hit r (off j + i) = Some e ->
  u <> t -> wt e (ks_pcs s u) = true -> (exists r' j' i' w', ks_pcs s u = KInc r' j' i' w') \/ exists k, top (ks_pcs s u) = Some k /\ k < S j.
Proof.
  intros s t u r j i e A Ht Hj Hi Hh Nu W. pose proof (a_pc _ A u) as K.
  assert (X : forall r' g, rem r' g e = true -> g <= off j + i).
  { intros r' g R. apply rem_iff in R. destruct R as (k & K1 & K2). assert (k = off j + i) by (eapply (hit_uniq d L root LO); eauto). lia. }
  assert (Y : forall j', j' < np -> off j' <= off j + i -> j' <= j).
  { intros j' H1 H2. apply (page_of j j' (off j + i)); try lia. rewrite off_S; lia. }
  assert (Z : ~ held (ks_pcs s u) j).
  { intro Hq. apply Nu. apply (a_excl _ A u t j Hq). now apply Ht. }
  destruct (ks_pcs s u) as [|r' j' i' w'|r'|r' j' w' sc'|r' j' w' sc'|r' j' i' w' sc'|r' j' i' w' sc' e'|r' sc'|l] eqn:E; cbn in W; try discriminate;
    cbn in K, Z; right + (left; eauto 8; fail); cbn [top]; eexists; (split; [reflexivity|]); try lia;
    apply X in W; pose proof (Y j'); lia.
Qed.

(** a thread that need not visit the root any more is past it *)
Lemma ahead : forall s t u r j i, AInv s -> DInv s -> (forall q, held (ks_pcs s t) q <-> q = j) -> j < np -> i < plen j -> hit r (off j + i) = Some root ->
  top (ks_pcs s t) <> None -> ks_out s = [] -> u <> t -> wt root (ks_pcs s u) = false -> quiet (ks_pcs s u) \/ exists k, top (ks_pcs s u) = Some k /\ S j < k.
Proof.
  intros s t u r j i A D Ht Hj Hi Hh Tt Ho Nu W. pose proof (a_pc _ A u) as K.
  destruct (root_hit d L root LO) as (ir & R1 & R2).
  assert (Er : off j + i = ir) by (apply (hit_uniq d L root LO r r _ _ root); auto).
  assert (X : forall r' g, rem r' g root = false -> off j + i < g).
  { intros r' g R. destruct (le_lt_dec g (off j + i)); auto. assert (rem r' g root = true); [|congruence].
    apply rem_iff. exists ir. split; [lia | auto]. }
  assert (Z : ~ held (ks_pcs s u) j).
  { intro Hq. apply Nu. apply (a_excl _ A u t j Hq). now apply Ht. }
  pose proof (d_inc _ D u) as DI. pose proof (d_Q _ D u) as DQ. pose proof (d_dein _ D u) as DD.
  assert (M : forall j', j' < np -> off j + i < off (S j') -> j <= j').
  { intros j' H1 H2. destruct (le_lt_dec j j'); auto. pose proof (off_mono (S j') j ltac:(lia) ltac:(lia)). lia. }
  assert (M2 : forall j', j' < np -> off j + i < off j' -> S j <= j').
  { intros j' H1 H2. destruct (le_lt_dec (S j) j'); auto. pose proof (off_mono j' j ltac:(lia) ltac:(lia)). lia. }
  destruct (ks_pcs s u) as [|r' j' i' w'|r'|r' j' w' sc'|r' j' w' sc'|r' j' i' w' sc'|r' j' i' w' sc' e'|r' sc'|l] eqn:E; cbn in W, K, Z.
  - left. exact Logic.I.
  - exfalso. apply (out_cover r' (ks_out s)); [tauto | eauto | exact Ho].
  - exfalso. assert (rem r' 0 root = true); [|congruence]. apply rem_iff. exists ir. split; [lia | auto].
  - right. exists j'. split; auto. apply X in W. assert (S j <= j') by (apply M2; tauto). lia.
  - right. exists (S j'). split; auto. apply X in W. assert (S j <= j') by (apply M2; tauto). lia.
  - right. exists (S j'). split; auto. apply X in W. assert (j <= j') by (apply M; [tauto|]; rewrite off_S; lia). lia.
  - right. exists (S j'). split; auto. apply X in W. assert (j <= j') by (apply M; [tauto|]; rewrite off_S; lia). lia.
  - destruct sc'; [|left; exact Logic.I]. exfalso. destruct (DQ Logic.I eq_refl) as [_ Q]. destruct (Q t ltac:(auto)) as [Y|(k & Y1 & Y2)].
    + apply Tt. now apply quiet_top.
    + cbn in Y2. pose proof (top_le _ _ (a_pc _ A t) Y1). lia.
  - exfalso. destruct (DD l eq_refl) as (_ & _ & Q). apply Tt. apply quiet_top. auto.
Qed.

Lemma total_split : forall s t e, AInv s -> t < k_n c -> b2n (wt e (ks_pcs s t)) < total s e ->
  (exists r, In r (ks_out s)) \/ exists u, u <> t /\ wt e (ks_pcs s u) = true.
Proof.
  intros s t e A Ht H. unfold total in H. destruct (ks_out s) as [|r l]; [|left; exists r; now left]. right. cbn in H.
  pose proof (cnt_change (fun u => wt e (ks_pcs s u)) (fun u => if Nat.eqb u t then false else wt e (ks_pcs s u)) (k_n c) t Ht) as X.
  cbn beta in X. rewrite Nat.eqb_refl in X. specialize (X ltac:(intros i Hi; destruct (Nat.eqb_spec i t); congruence)). cbn in X.
  destruct (cnt (fun u => if Nat.eqb u t then false else wt e (ks_pcs s u)) (k_n c)) eqn:Z; [lia|].
  assert (exists u, (if Nat.eqb u t then false else wt e (ks_pcs s u)) = true) as [u U].
  { clear - Z. revert Z. generalize (k_n c). induction n0 as [|m IH]; cbn; [discriminate|].
    destruct (if Nat.eqb m t then false else wt e (ks_pcs s m)) eqn:G; eauto. }
  destruct (Nat.eqb_spec u t); [discriminate | eauto].
Qed.
Lemma total_alone : forall s t e, AInv s -> t < k_n c -> total s e = b2n (wt e (ks_pcs s t)) ->
  (forall r, In r (ks_out s) -> rem r 0 e = false) /\ forall u, u <> t -> wt e (ks_pcs s u) = false.
Proof.
  intros s t e A Ht H. unfold total in H.
  pose proof (cnt_change (fun u => wt e (ks_pcs s u)) (fun u => if Nat.eqb u t then false else wt e (ks_pcs s u)) (k_n c) t Ht) as X.
  cbn beta in X. rewrite Nat.eqb_refl in X. specialize (X ltac:(intros i Hi; destruct (Nat.eqb_spec i t); congruence)). cbn in X.
  assert (Z : cnt (fun u => if Nat.eqb u t then false else wt e (ks_pcs s u)) (k_n c) = 0) by lia.
  assert (Y : length (filter (fun r => rem r 0 e) (ks_out s)) = 0) by lia. split.
  - intros r R. apply not_true_is_false. intro Q. assert (I : In r (filter (fun r => rem r 0 e) (ks_out s))) by (apply filter_In; auto).
    destruct (filter (fun r => rem r 0 e) (ks_out s)); [exact I | discriminate].
  - intros u Nu. destruct (lt_dec u (k_n c)) as [Hu|Hu]; [|rewrite (a_n _ A u) by lia; reflexivity].
    rewrite cnt_zero in Z. specialize (Z u Hu). destruct (Nat.eqb_spec u t); [contradiction | exact Z].
Qed.

Lemma dinv_step : forall s t s', AInv s -> CInv s -> DInv s -> t < k_n c -> ktrans s t s' -> DInv s'.
Proof.
  intros s t s' A C D Ht H. pose proof (a_pc _ A t) as K.
  inversion H; subst; match goal with X : ks_pcs s t = _ |- _ => rename X into E end; rewrite E in K; cbn [pok] in K.
  - (* inc_skip *) apply dinv_plain; auto; rewrite ?E; auto. intros _. repeat eexists.
  - (* inc_hit *) apply (dinv_plain s); auto; rewrite ?E; auto. intros _. repeat eexists.
  - (* inc_page *) apply dinv_plain; auto; rewrite ?E; auto. intros _. repeat eexists.
  - (* inc_done *)
    assert (No : ks_out s <> []) by (apply (out_cover r); [tauto | exact (d_inc _ D _ _ _ _ _ E)]).
    constructor; cbn [ks_pcs ks_out ks_gone set_pc set_out].
    + intros u r' j' i' w' Hu. pcase u t (ks_pcs s); [discriminate|]. intros x Hx.
      destruct (d_inc _ D _ _ _ _ _ Hu x Hx) as (r2 & X1 & X2). exists r2. split; auto. now right.
    + intros u k _ _. left. discriminate.
    + intros u Hp Hs. exfalso. pcase u t (ks_pcs s); [exact Hp|]. destruct (d_Q _ D u Hp Hs) as [X _]. contradiction.
    + intros _. left. discriminate.
    + intros u l Hu. exfalso. pcase u t (ks_pcs s); [discriminate|]. destruct (d_dein _ D u l Hu) as (_ & X & _). contradiction.
    + intro G. exfalso. destruct (d_gone _ D G) as [X _]. contradiction.
  - (* wait *) apply dinv_plain; auto; rewrite ?E; auto; [|discriminate]. cbn. intro X. exfalso.
    destruct (root_hit d L root LO) as (ir & R1 & R2).
    assert (rem r 0 root = true); [|congruence]. apply rem_iff. exists ir. split; [lia | auto].
  - (* get *)
    apply (dinv_move s); auto; rewrite ?E; cbn [top scl passed quiet]; try discriminate; try tauto.
    + intros u k k' Nu Hu Hk Hlt. inversion Hk; subst k'. exists (S j). split; auto.
      destruct (Nat.eq_dec k (S j)) as [->|]; [|lia]. exfalso.
      destruct (pos_le _ j (a_pc _ A u) ltac:(tauto) Hu) as (q & Hq & ->).
      assert (ks_claim s j = true) by (apply (a_claim _ A); eauto). congruence.
    + intros u Nu H1' H2' H3' [[]|(k' & H4 & H5)]. right. inversion H4; subst. exists (S k'). split; auto.
    + intros k Hk Hs. destruct (d_P _ D t j) as [X|(u & k' & X1 & X2)]; try (rewrite E; auto; fail); auto.
      right. exists u, k'. inversion Hk; subst. repeat split; auto; try lia. intros ->. rewrite E in X1. inversion X1. lia.
    + intros Hp Hs. destruct (d_Q _ D t) as [X1 X2]; try (rewrite E; auto; fail). split; auto. intros u Nu.
      destruct (X2 u Nu) as [X|(k & X3 & X4)]; auto. right. exists k. split; auto. rewrite E in X4. cbn in X4 |- *.
      destruct (Nat.eq_dec k (S j)) as [->|]; [|lia]. exfalso.
      destruct (pos_le _ j (a_pc _ A u) ltac:(tauto) X3) as (q & Hq & ->).
      assert (ks_claim s j = true) by (apply (a_claim _ A); eauto). congruence.
    + intros _. left. left. discriminate.
  - (* rel *) apply (dinv_plain s); auto; rewrite ?E; auto; [|discriminate]. cbn. now rewrite Nat.add_0_r.
  - (* dec_skip *) apply dinv_plain; auto; rewrite ?E; auto; [|discriminate]. cbn.
    rewrite (rem_skip r (off j + i)) by auto. now rewrite Nat.add_succ_r.
  - (* dec_more *)
    assert (W : wt e (ks_pcs s t) = true) by (rewrite E; cbn; now apply rem_now).
    destruct (held_live _ _ _ _ _ A C W H3) as [Lv _]. destruct (c_live _ C e (hit_recorded _ _ _ H3) Lv) as [Rv _].
    apply (dinv_move s); auto; rewrite ?E; cbn [top scl quiet]; try discriminate; try tauto.
    + intros u k k' Nu Hu Hk Hlt. inversion Hk; subst k'. eauto.
    + intros k Hk _. inversion Hk; subst k.
      destruct (total_split s t e A Ht) as [[r' R]|(u & U1 & U2)]; [rewrite W; cbn [b2n]; lia | |].
      * left. intro X. rewrite X in R. exact R.
      * destruct (behind s t u r j i e A) as [(r' & j' & i' & w2 & X)|(k & X1 & X2)]; auto; [rewrite E; cbn; intuition auto | |].
        { left. pose proof (a_pc _ A u) as Ku. rewrite X in Ku. cbn in Ku. apply (out_cover r'); [tauto | exact (d_inc _ D _ _ _ _ _ X)]. }
        { right. eauto. }
    + intros _. left. left. discriminate.
  - (* dec_last *)
    assert (W : wt e (ks_pcs s t) = true) by (rewrite E; cbn; now apply rem_now).
    destruct (held_live _ _ _ _ _ A C W H3) as [Lv _]. destruct (c_live _ C e (hit_recorded _ _ _ H3) Lv) as [Rv _].
    apply (dinv_move s); auto; rewrite ?E; cbn [top scl quiet]; try discriminate; try tauto.
    + intros u k k' Nu Hu Hk Hlt. inversion Hk; subst k'. eauto.
    + intros k Hk Hs. destruct (d_P _ D t k) as [X|(u & k' & X1 & X2)]; try (rewrite E; auto; fail); auto.
      right. exists u, k'. repeat split; auto. intros ->. rewrite E in X1. inversion X1; inversion Hk; lia.
    + intros Hp Hs. destruct (Nat.eq_dec e root) as [->|Ne].
      * destruct (total_alone s t root A Ht) as [T1 T2]; [rewrite W; cbn [b2n]; lia|].
        assert (Ho : ks_out s = []).
        { destruct (ks_out s) as [|r' l]; auto. exfalso. pose proof (T1 r' (or_introl eq_refl)) as X.
          destruct (root_hit d L root LO) as (ir & R1 & R2). assert (rem r' 0 root = true); [|congruence].
          apply rem_iff. exists ir. split; [lia | auto]. }
        split; auto. intros u Nu. cbn. apply (ahead s t u r j i A D); auto; rewrite E; cbn; try discriminate; intuition auto.
      * destruct (d_Q _ D t) as [X1 X2]; rewrite ?E; auto.
        { cbn in Hp |- *. rewrite (rem_other r (off j + i) e root) by auto. now rewrite Nat.add_succ_r in Hp. }
        split; auto. intros u Nu. specialize (X2 u Nu). rewrite E in X2. exact X2.
    + intros _. left. left. discriminate.
  - (* dec_page *) apply dinv_plain; auto; rewrite ?E; auto; [|discriminate]. cbn [passed]. rewrite off_S by lia. auto.
  - (* dec_done *)
    assert (Pd : passed (ks_pcs s t)).
    { rewrite E. cbn [passed]. apply rem_end. rewrite <- off_S by lia. rewrite H1, off_np. lia. }
    apply (dinv_move s); auto; rewrite ?E; cbn [top scl passed]; try discriminate; try tauto.
    + intros u k k' Nu Hu Hk Hlt. exfalso. inversion Hk; subst k'. pose proof (top_le _ _ (a_pc _ A u) Hu). lia.
    + intros u Nu Hu1 Hu2 Ho [[]|(k & Hk & Hlt)]. left. destruct sc; [|exact Logic.I]. exfalso.
      destruct (d_Q _ D t Pd) as [_ Q]; [now rewrite E|]. destruct (Q u Nu) as [X|(k2 & X1 & X2)].
      * destruct (ks_pcs s u) as [| | | | | | |r' [|]|]; cbn in X, Hu1, Hu2; try contradiction; discriminate.
      * rewrite E in X2. unfold bound in Hlt. rewrite X1 in Hlt. cbn in X2. inversion Hk. lia.
    + intros _ Hs. destruct (d_Q _ D t Pd) as [X1 X2]; [now rewrite E|]. split; auto. intros u Nu.
      destruct (X2 u Nu) as [X|(k2 & X3 & X4)]; auto. exfalso. rewrite E in X4. cbn in X4. pose proof (top_le _ _ (a_pc _ A u) X3). lia.
    + intros _. destruct sc; [left; right; left; eauto|]. right.
      destruct (d_P _ D t (S j)) as [X|(u & k' & X1 & X2)]; try (rewrite E; auto; fail); auto.
      right. exists u. split; [|eapply top_busy; eauto]. intros ->. rewrite E in X1. inversion X1. lia.
    + intros [].
  - (* free *) apply (dinv_plain s); auto; rewrite ?E; auto; discriminate.
  - (* end_yes *)
    destruct (d_Q _ D t) as [X1 X2]; [rewrite E; exact Logic.I | now rewrite E|].
    assert (Q : forall u, u <> t -> quiet (ks_pcs s u)).
    { intros u Nu. destruct (X2 u Nu) as [X|(k & X3 & X4)]; auto. exfalso. rewrite E in X4. cbn in X4.
      pose proof (top_le _ _ (a_pc _ A u) X3). lia. }
    assert (G : ks_gone s = false).
    { destruct (ks_gone s) eqn:G; auto. exfalso. destruct (d_gone _ D G) as [_ Y]. specialize (Y t). rewrite E in Y. exact Y. }
    apply (dinv_move s); auto; rewrite ?E; cbn [top scl passed quiet]; try discriminate; try tauto.
    intros _. left. right. right. eauto.
  - (* end_no *) apply (dinv_move s); auto; rewrite ?E; cbn [top scl passed quiet]; try discriminate; try tauto.
    intros [B|[[r' B]|[l B]]]; try discriminate. cbn in B. congruence.
  - (* dein_nil *) destruct (d_dein _ D t [] E) as (G & Ho & Q). constructor; cbn [ks_pcs ks_out ks_gone set_pc set_gone].
    + intros u r' j' i' w' Hu. pcase u t (ks_pcs s); [discriminate|]. exact (d_inc _ D _ _ _ _ _ Hu).
    + intros u k Hk Hs. pcase u t (ks_pcs s); [discriminate|]. rewrite (quiet_top _ (Q u n)) in Hk. discriminate.
    + intros u Hp Hs. split; auto. intros v Nv. left. pcase v t (ks_pcs s); [exact Logic.I | auto].
    + discriminate.
    + intros u l Hu. exfalso. pcase u t (ks_pcs s); [discriminate|]. specialize (Q u n). rewrite Hu in Q. exact Q.
    + intros _. split; auto. intro v. pcase v t (ks_pcs s); [exact Logic.I | auto].
  - (* dein *) destruct (d_dein _ D t _ E) as (G & Ho & Q).
    apply (dinv_move s); auto; rewrite ?E; cbn [top scl passed quiet]; try discriminate; try tauto.
    intros _. left. right. right. eauto.
Qed.


(** ** Metadata and blockers *)

Definition handle (s : kst) (r : range) : Prop := In r (ks_out s) \/ exists t, ks_pcs s t = KWait r.

Record EInv (s : kst) : Prop := {
  e_hand : forall r, In r (ks_blk s) -> proper d r /\ forall x, inside d x r -> exists r', handle s r' /\ inside d x r';
  e_refs : ks_gone s = false -> (forall t l, ks_pcs s t <> KDein l) ->
    ks_refs s (head_ext c) = N.of_nat (2 + length (ks_blk s)) /\
    (forall x, In x (k_metas c) -> x <> head_ext c -> ks_refs s x = 2%N) /\ forall x, In x (k_metas c) -> ks_live s x = true;
  e_dein : forall t l, ks_pcs s t = KDein l -> ks_blk s = [] /\ NoDup l /\ incl l (k_metas c) /\
    (forall x, In x l -> ks_refs s x = 2%N /\ ks_live s x = true) /\ forall x, In x (k_metas c) -> ~ In x l -> ks_live s x = false;
  e_gone : ks_gone s = true -> ks_blk s = [] /\ forall x, In x (k_metas c) -> ks_live s x = false
}.

Lemma head_in : In (head_ext c) (k_metas c).
Proof. unfold head_ext. destruct (k_metas c); [contradiction | now left]. Qed.

Lemma blk_handle : forall s, EInv s -> ks_blk s <> [] -> exists r, handle s r.
Proof.
  intros s Ei H. destruct (ks_blk s) as [|r l] eqn:B; [contradiction|].
  destruct (e_hand _ Ei r) as [P X]; [rewrite B; now left|].
  destruct (X (fst r)) as (r' & R & _); [split; [apply kle_refl; auto | exact P] | eauto].
Qed.

(** a move that changes neither the metadata extents nor the handles *)
Lemma einv_move : forall s t p refs cl live, EInv s ->
  (forall l, p <> KDein l) -> (forall l, ks_pcs s t <> KDein l) ->
  (forall r, ks_pcs s t <> KWait r \/ ks_blk s = []) ->
  (forall x, In x (k_metas c) -> refs x = ks_refs s x) -> (forall x, In x (k_metas c) -> live x = ks_live s x) ->
  EInv (Kst refs cl (upd (ks_pcs s) t p) (ks_out s) (ks_blk s) live (ks_gone s)).
Proof.
  intros s t p refs cl live Ei N1 N2 W R Lv. constructor; cbn [ks_blk ks_gone ks_pcs ks_refs ks_live].
  - intros r Hr. destruct (e_hand _ Ei r Hr) as [P X]. split; auto. intros x Hx. destruct (X x Hx) as (r' & [H|[u H]] & I).
    + exists r'. split; [now left | auto].
    + exists r'. split; auto. right. exists u. cbn. rewrite upd_other; auto. intros ->.
      destruct (W r') as [Y|Y]; [contradiction | rewrite Y in Hr; exact Hr].
  - intros G ND. destruct (e_refs _ Ei G) as (X1 & X2 & X3).
    { intros u l Hu. apply (ND u l). rewrite upd_other; auto. intros ->. exact (N2 l Hu). }
    rewrite R by exact head_in. repeat split; auto; intros x Hx; [intro; rewrite R | rewrite Lv]; auto.
  - intros u l Hu. pcase u t (ks_pcs s); [exfalso; exact (N1 l Hu)|].
    destruct (e_dein _ Ei u l Hu) as (X1 & X2 & X3 & X4 & X5). repeat split; auto.
    + rewrite R; auto. now apply X4.
    + rewrite Lv; auto. now apply X4.
    + intros x Hx Hn. rewrite Lv; auto.
  - intro G. destruct (e_gone _ Ei G) as [X1 X2]. split; auto. intros x Hx. rewrite Lv; auto.
Qed.

Lemma not_dein : forall s t, DInv s -> ~ quiet (ks_pcs s t) -> (forall l, ks_pcs s t <> KDein l) ->
  ks_gone s = false /\ forall u l, ks_pcs s u <> KDein l.
Proof.
  intros s t D Q N. split.
  - destruct (ks_gone s) eqn:G; auto. exfalso. apply Q. now apply (d_gone _ D G).
  - intros u l Hu. destruct (Nat.eq_dec t u) as [->|Nu]; [exact (N l Hu)|]. apply Q. destruct (d_dein _ D u l Hu) as (_ & _ & X). auto.
Qed.

Lemma einv_step : forall s t s', AInv s -> CInv s -> DInv s -> EInv s -> t < k_n c -> ktrans s t s' -> EInv s'.
Proof.
  intros s t s' A C D Ei Ht H. pose proof (a_pc _ A t) as K.
  assert (RM : forall r i e x, hit r i = Some e -> In x (k_metas c) -> x <> e).
  { intros r i e x Hh Hx ->. exact (MD e Hx (hit_recorded _ _ _ Hh)). }
  inversion H; subst; match goal with X : ks_pcs s t = _ |- _ => rename X into E end; rewrite E in K; cbn [pok] in K;
    try (apply (einv_move s); auto; rewrite ?E; try discriminate; try (intro; left; discriminate);
         intros x Hx; cbn [set_refs ks_refs set_live ks_live]; apply upd_other; eapply RM; eauto; fail).
  - (* inc_done *) constructor; cbn [ks_blk ks_gone ks_pcs ks_refs ks_live set_pc set_out].
    + intros r0 Hr. destruct (e_hand _ Ei r0 Hr) as [P X]. split; auto. intros x Hx. destruct (X x Hx) as (r' & [H2|[u H2]] & I).
      * exists r'. split; auto. left. now right.
      * exists r'. split; auto. right. exists u. cbn. rewrite upd_other; auto. intros ->. congruence.
    + intros G ND. apply (e_refs _ Ei G). intros u l Hu. apply (ND u l). rewrite upd_other; auto. intros ->. congruence.
    + intros u l Hu. pcase u t (ks_pcs s); [discriminate|]. exact (e_dein _ Ei u l Hu).
    + exact (e_gone _ Ei).
  - (* wait *) apply (einv_move s); auto; rewrite ?E; try discriminate. intros r0. right.
    destruct (not_dein s t D) as [G ND]; rewrite ?E; cbn; try discriminate; auto.
    destruct (e_refs _ Ei G ND) as [X _]. rewrite X in H1. destruct (ks_blk s); auto. cbn in H1. lia.
  - (* free *) apply (einv_move s); auto; rewrite ?E; try discriminate; try (intro; left; discriminate);
      destruct K as (_ & _ & _ & _ & K); intros x Hx; cbn [set_refs ks_refs set_live ks_live]; apply upd_other; eapply RM; eauto.
  - (* end_yes *)
    destruct (d_Q _ D t) as [X1 X2]; [rewrite E; exact Logic.I | now rewrite E|].
    destruct (not_dein s t D) as [G ND]; rewrite ?E; cbn; try discriminate; auto.
    destruct (e_refs _ Ei G ND) as (Y1 & Y2 & Y3).
    assert (B : ks_blk s = []) by (rewrite Y1 in H1; destruct (ks_blk s); auto; cbn in H1; lia).
    constructor; cbn [ks_blk ks_gone ks_pcs ks_refs ks_live set_pc].
    + rewrite B. intros r0 [].
    + intros _ N. exfalso. apply (N t (k_metas c)). now rewrite upd_same.
    + intros u l Hu. pcase u t (ks_pcs s); [|exfalso; exact (ND u l Hu)]. inversion Hu; subst l. repeat split; auto.
      * apply incl_refl.
      * destruct (Nat.eq_dec x (head_ext c)) as [->|]; auto.
      * intros x Hx Hn. contradiction.
    + congruence.
  - (* dein_nil *) destruct (e_dein _ Ei t [] E) as (X1 & X2 & X3 & X4 & X5).
    constructor; cbn [ks_blk ks_gone ks_pcs ks_refs ks_live set_pc set_gone].
    + rewrite X1. intros r0 [].
    + discriminate.
    + intros u l Hu. exfalso. pcase u t (ks_pcs s); [discriminate|]. destruct (d_dein _ D t [] E) as (_ & _ & Q).
      specialize (Q u n). rewrite Hu in Q. exact Q.
    + intros _. split; auto.
  - (* dein *) destruct (e_dein _ Ei t _ E) as (X1 & X2 & X3 & X4 & X5). destruct (d_dein _ D t _ E) as (G & _ & Q).
    constructor; cbn [ks_blk ks_gone ks_pcs ks_refs ks_live set_pc set_live set_refs].
    + rewrite X1. intros r0 [].
    + intros _ N. exfalso. apply (N t l). now rewrite upd_same.
    + intros u l' Hu. pcase u t (ks_pcs s); [|exfalso; specialize (Q u n); rewrite Hu in Q; exact Q]. inversion Hu; subst l'.
      inversion X2; subst. repeat split; auto.
      * intros y Hy. apply X3. now right.
      * rewrite H2 by congruence. apply X4. now right.
      * rewrite upd_other by congruence. apply X4. now right.
      * intros y Hy Hn. destruct (Nat.eq_dec y x) as [->|Ny]; [now rewrite upd_same|]. rewrite upd_other by auto. apply X5; auto.
        intros [Z|Z]; congruence.
    + congruence.
Qed.

(** ** Every reachable state *)

Record KInv (s : kst) : Prop := { k_A : AInv s; k_C : CInv s; k_D : DInv s; k_E : EInv s }.

Lemma kinv_init : forall refs, (forall x, refs x < 256)%N -> (forall e, recorded_ext c e \/ In e (k_metas c) -> refs e = 2%N) ->
  KInv (Kst refs (fun _ => false) (fun _ => KOut) [everything] [] (fun _ => true) false).
Proof.
  intros refs B R. constructor; constructor; cbn; auto; try discriminate; try contradiction.
  - intros r [<-|[]]. apply kle_neg.
  - intro q. split; [discriminate | intros [? []]].
  - intros e He _. assert (T : rem everything 0 e = true).
    { unfold recorded_ext in He. apply in_map_iff in He. destruct He as (en & X & Y). apply In_nth_error in Y. destruct Y as [k Y].
      destruct (ext_span d L root LO k en e Y X) as (i & lo & hi & Sp).
      apply rem_iff. exists i. split; [pose proof (span_lt _ _ _ _ _ Sp); lia|]. unfold KeyedProofs.hit. rewrite Sp.
      assert (M : meets d lo hi everything = true) by (apply meets_iff; split; [apply kle_pos | apply kle_neg]). now rewrite M. }
    unfold total. cbn. rewrite T, cnt_all_false. cbn. split; [apply R; auto | discriminate].
  - left. discriminate.
  - intros _ _. repeat split; auto. apply R. right. exact head_in.
Qed.

Lemma kinv_step : forall s t s', KInv s -> t < k_n c -> kstep c s t = KStep s' -> KInv s'.
Proof.
  intros s t s' [A C D Ei] Ht H. pose proof (kstep_trans _ _ _ A C H) as X. constructor.
  - eapply ainv_step; eauto.
  - eapply cinv_step; eauto.
    + intros r j i w Hu. exact (d_inc _ D _ _ _ _ _ Hu).
    + intros x l Hu. apply MD. destruct (e_dein _ Ei t _ Hu) as (_ & _ & I & _). apply I. now left.
  - eapply dinv_step; eauto.
  - eapply einv_step; eauto.
Qed.


Lemma dinv_ext : forall s s', DInv s -> ks_pcs s' = ks_pcs s -> ks_out s' = ks_out s -> ks_gone s' = ks_gone s -> DInv s'.
Proof. intros s s' [D1 D2 D3 D4 D5 D6] E1 E2 E3. constructor; rewrite ?E1, ?E2, ?E3; auto. Qed.
Lemma dinv_outs : forall s l, DInv s -> (l = [] <-> ks_out s = []) -> (forall r, covered d r (ks_out s) -> covered d r l) -> DInv (set_out s l).
Proof.
  intros s l [D1 D2 D3 D4 D5 D6] E Cv. constructor; cbn [set_out ks_pcs ks_out ks_gone].
  - intros. eapply Cv. eauto.
  - intros t k H1 H2. rewrite E. eauto.
  - intros t H1 H2. rewrite E. eauto.
  - rewrite E. auto.
  - intros t l' H. rewrite E. eauto.
  - rewrite E. auto.
Qed.
Lemma ainv_ext : forall s s', AInv s -> ks_pcs s' = ks_pcs s -> ks_claim s' = ks_claim s -> (forall r, In r (ks_out s') -> proper d r) ->
  (forall x, ks_refs s' x < 256)%N -> AInv s'.
Proof. intros s s' [A1 A2 A3 A4 A5 A6] E1 E2 E3 E4. constructor; rewrite ?E1, ?E2; auto. Qed.
Lemma cinv_ext : forall s s', AInv s -> CInv s -> ks_pcs s' = ks_pcs s -> (forall e, recorded_ext c e -> nf e (ks_out s') = nf e (ks_out s)) ->
  (forall e, recorded_ext c e -> ks_live s' e = ks_live s e) ->
  (forall e, recorded_ext c e -> ks_live s e = true -> ks_refs s' e = ks_refs s e) -> CInv s'.
Proof.
  intros s s' A [C1 C2 C3] E1 E2 E3 E4.
  assert (T : forall e, recorded_ext c e -> total s' e = total s e) by (intros e He; unfold total; specialize (E2 e He); unfold nf in E2; now rewrite E1, E2).
  constructor; intros *; rewrite ?E1.
  - intros He. rewrite E3, T by auto. intro Lv. rewrite E4 by auto. auto.
  - intros He. rewrite E3, T by auto. auto.
  - intro F. pose proof (freeing_recorded s A t e F) as He. rewrite E3, T by auto. eauto.
Qed.
Lemma not_dein_out : forall s, DInv s -> ks_out s <> [] -> ks_gone s = false /\ forall u l, ks_pcs s u <> KDein l.
Proof.
  intros s D N. split.
  - destruct (ks_gone s) eqn:G; auto. exfalso. apply N. now apply (d_gone _ D G).
  - intros u l Hu. apply N. now apply (d_dein _ D u l Hu).
Qed.

Lemma kinv_inc : forall s t r, KInv s -> t < k_n c -> ks_pcs s t = KOut -> proper d r -> covered d r (ks_out s) ->
  KInv (set_pc s t (KInc r 0 0 walk0)).
Proof.
  intros s t r [A C D Ei] Ht E P Cv. pose proof (out_cover _ _ P Cv) as No. constructor.
  - apply (ainv_set s); auto; try exact (a_byte _ A); try exact (a_out _ A).
    + cbn [pok]. split; auto. split; [apply np_pos|]. split; [lia | apply wrep0].
    + apply (claim_same s t); auto. intro q. rewrite E. cbn. tauto.
  - apply (cinv_move s); auto; [|now rewrite E]. intros e He. rewrite E. cbn [wt]. rewrite off_0. cbn. now rewrite andb_negb_r.
  - constructor; cbn [set_pc ks_pcs ks_out ks_gone]; auto.
    + intros u r' j i w Hu. pcase u t (ks_pcs s); [inversion Hu; now subst | exact (d_inc _ D _ _ _ _ _ Hu)].
    + intros u Hp Hs. exfalso. pcase u t (ks_pcs s); [exact Hp|]. apply No. now apply (d_Q _ D u).
    + intros u l Hu. exfalso. pcase u t (ks_pcs s); [discriminate|]. apply No. now apply (d_dein _ D u l).
    + intro G. exfalso. apply No. now apply (d_gone _ D G).
  - apply (einv_move s); auto; rewrite ?E; try discriminate. left. discriminate.
Qed.

Lemma kinv_dec : forall s t r l1 l2, KInv s -> t < k_n c -> ks_pcs s t = KOut -> ks_out s = l1 ++ r :: l2 ->
  (forall u r' j i w, ks_pcs s u = KInc r' j i w -> covered d r' (l1 ++ l2)) ->
  KInv (set_pc (set_out s (l1 ++ l2)) t (KWait r)).
Proof.
  intros s t r l1 l2 [A C D Ei] Ht E Eo Cv. assert (No : ks_out s <> []) by (rewrite Eo; destruct l1; discriminate). constructor.
  - apply (ainv_set s); auto; try exact (a_byte _ A); try exact (a_out _ A).
    + cbn [pok]. apply (a_out _ A). rewrite Eo. apply in_or_app. right. now left.
    + apply (claim_same s t); auto. intro q. rewrite E. cbn. tauto.
    + cbn. intros r' Hr. apply (a_out _ A). rewrite Eo. apply in_or_app. apply in_app_or in Hr. cbn. tauto.
  - apply (cinv_move s); auto; [|now rewrite E]. intros e He. rewrite E, Eo. cbn [wt ks_out set_out b2n]. rewrite !nf_app, nf_cons. lia.
  - constructor; cbn [set_pc set_out ks_pcs ks_out ks_gone].
    + intros u r' j i w Hu. pcase u t (ks_pcs s); [discriminate | eauto].
    + intros u k Hk Hs. pcase u t (ks_pcs s); [discriminate|]. right. exists t, 0. rewrite upd_same. split; auto.
      exact (top_sc _ _ (a_pc _ A u) Hk Hs).
    + intros u Hp Hs. exfalso. pcase u t (ks_pcs s); [exact Hp|]. apply No. now apply (d_Q _ D u).
    + intros _. right. exists t. rewrite upd_same. left. discriminate.
    + intros u l Hu. exfalso. pcase u t (ks_pcs s); [discriminate|]. apply No. now apply (d_dein _ D u l).
    + intro G. exfalso. apply No. now apply (d_gone _ D G).
  - destruct (not_dein_out _ D No) as [G ND]. constructor; cbn [set_pc set_out ks_pcs ks_out ks_gone ks_blk ks_refs ks_live].
    + intros r0 Hr. destruct (e_hand _ Ei r0 Hr) as [P X]. split; auto. intros x Hx. destruct (X x Hx) as (r' & [H|[u H]] & I); exists r'; split; auto.
      * rewrite Eo in H. apply in_app_or in H. destruct H as [H|[H|H]].
        { left. cbn. apply in_or_app. auto. }
        { subst r'. right. exists t. cbn. now rewrite upd_same. }
        { left. cbn. apply in_or_app. auto. }
      * right. exists u. cbn. rewrite upd_other; auto. intros ->. congruence.
    + intros _ _. exact (e_refs _ Ei G ND).
    + intros u l Hu. exfalso. pcase u t (ks_pcs s); [discriminate|]. exact (ND u l Hu).
    + congruence.
Qed.

Lemma kinv_block : forall s r f, KInv s -> proper d r -> covered d r (ks_out s) -> block c (ks_refs s) = Some f ->
  KInv (set_blk (set_refs s f) (r :: ks_blk s)).
Proof.
  intros s r f [A C D Ei] P Cv B. pose proof (out_cover _ _ P Cv) as No. destruct (not_dein_out _ D No) as [G ND].
  destruct (e_refs _ Ei G ND) as (R1 & R2 & R3).
  assert (F : f = upd (ks_refs s) (head_ext c) (ks_refs s (head_ext c) + 1)%N /\ (ks_refs s (head_ext c) < 255)%N).
  { unfold block, inc8 in B. pose proof (a_byte _ A (head_ext c)) as Bt.
    destruct (N.eq_dec (ks_refs s (head_ext c)) 255) as [E|E]; [rewrite E in B; cbn in B; discriminate|].
    rewrite N.mod_small in B by lia. destruct ((ks_refs s (head_ext c) + 1 =? 1)%N || (ks_refs s (head_ext c) + 1 =? 0)%N); [discriminate|].
    destruct (2 <? ks_refs s (head_ext c) + 1)%N; [|discriminate]. inversion B. split; auto. lia. }
  destruct F as [-> Lt]. constructor.
  - apply (ainv_ext s); auto; try exact (a_byte _ A); try exact (a_out _ A). cbn. apply upd_byte; [apply A | lia].
  - apply (cinv_ext s); auto. intros e He _. cbn. apply upd_other. intros ->. exact (MD _ head_in He).
  - now apply (dinv_ext s).
  - constructor; cbn [set_blk set_refs ks_pcs ks_out ks_gone ks_blk ks_refs ks_live].
    + intros r0 [<-|Hr].
      * split; auto. intros x Hx. destruct (Cv x Hx) as (r' & X1 & X2). exists r'. split; auto. now left.
      * exact (e_hand _ Ei r0 Hr).
    + intros _ _. rewrite upd_same. split; [rewrite R1; cbn [length]; lia|]. split; auto. intros x Hx Nx. rewrite upd_other; auto.
    + intros u l Hu. exfalso. exact (ND u l Hu).
    + congruence.
Qed.

Lemma kinv_unblock : forall s r l1 l2 f, KInv s -> ks_blk s = l1 ++ r :: l2 -> unblock c (ks_refs s) = Some f ->
  KInv (set_blk (set_refs s f) (l1 ++ l2)).
Proof.
  intros s r l1 l2 f [A C D Ei] Eb B.
  assert (Nb : ks_blk s <> []) by (rewrite Eb; destruct l1; discriminate).
  assert (G : ks_gone s = false).
  { destruct (ks_gone s) eqn:G; auto. exfalso. apply Nb. now apply (e_gone _ Ei G). }
  assert (ND : forall u l, ks_pcs s u <> KDein l) by (intros u l Hu; apply Nb; now apply (e_dein _ Ei u l Hu)).
  destruct (e_refs _ Ei G ND) as (R1 & R2 & R3).
  assert (Ln : length (ks_blk s) = S (length (l1 ++ l2))) by (rewrite Eb, !app_length; cbn; lia).
  assert (F : f = upd (ks_refs s) (head_ext c) (ks_refs s (head_ext c) - 1)%N).
  { unfold unblock, dec8 in B. pose proof (a_byte _ A (head_ext c)) as Bt.
    replace (ks_refs s (head_ext c) + 255)%N with (ks_refs s (head_ext c) - 1 + 1 * 256)%N in B by lia.
    rewrite N.mod_add, N.mod_small in B by lia. destruct (ks_refs s (head_ext c) - 1 =? 255)%N; [discriminate|].
    destruct (2 <=? ks_refs s (head_ext c) - 1)%N; [|discriminate]. inversion B. auto. }
  subst f. constructor.
  - apply (ainv_ext s); auto; try exact (a_byte _ A); try exact (a_out _ A). cbn. apply upd_byte; [apply A | pose proof (a_byte _ A (head_ext c)); lia].
  - apply (cinv_ext s); auto. intros e He _. cbn. apply upd_other. intros ->. exact (MD _ head_in He).
  - now apply (dinv_ext s).
  - constructor; cbn [set_blk set_refs ks_pcs ks_out ks_gone ks_blk ks_refs ks_live].
    + intros r0 Hr. apply (e_hand _ Ei). rewrite Eb. apply in_or_app. apply in_app_or in Hr. cbn. tauto.
    + intros _ _. rewrite upd_same. split; [rewrite R1, Ln; lia|]. split; auto. intros x Hx Nx. rewrite upd_other; auto.
    + intros u l Hu. exfalso. exact (ND u l Hu).
    + congruence.
Qed.

Lemma einv_outs : forall s l, EInv s -> (forall r x, In r (ks_out s) -> inside d x r -> exists r', In r' l /\ inside d x r') -> EInv (set_out s l).
Proof.
  intros s l [E1 E2 E3 E4] H. constructor; cbn [set_out ks_pcs ks_out ks_gone ks_blk ks_refs ks_live]; auto.
  intros r Hr. destruct (E1 r Hr) as [P X]. split; auto. intros x Hx. destruct (X x Hx) as (r' & [Y|Y] & I).
  - destruct (H r' x Y I) as (r2 & Z1 & Z2). exists r2. split; auto. now left.
  - exists r'. split; auto. right. exact Y.
Qed.

Lemma kinv_split : forall s a p q l, KInv s -> ks_out s = (a, q) :: (p, p) :: l -> kle d a p -> kle d p q ->
  KInv (set_out s ((a, p) :: (p, q) :: l)).
Proof.
  intros s a p q l [A C D Ei] Eo H1 H2.
  assert (Cv : forall r x, In r (ks_out s) -> inside d x r -> exists r', In r' ((a, p) :: (p, q) :: l) /\ inside d x r').
  { intros r x Hr [I1 I2]. rewrite Eo in Hr. destruct Hr as [<-|[<-|Hr]]; cbn in I1, I2.
    - destruct (kle_total d TO x p); [exists (a, p) | exists (p, q)]; cbn; split; auto; split; auto.
    - exists (a, p). split; [now left|]. split; cbn; auto. eapply (kle_trans d TO); eauto.
    - exists r. split; [now right; right | now split]. }
  constructor.
  - apply (ainv_ext s); auto; try exact (a_byte _ A); try exact (a_out _ A). cbn. intros r [<-|[<-|Hr]]; auto. apply (a_out _ A). rewrite Eo. now right; right.
  - apply (cinv_ext s); auto. intros e He. cbn [ks_out set_out]. rewrite Eo, !nf_cons. pose proof (rem_split d TO L root LO a p q e H1 H2). lia.
  - apply dinv_outs; auto; [rewrite Eo; split; discriminate|]. intros r X x Hx. destruct (X x Hx) as (r' & Y1 & Y2). eauto.
  - apply einv_outs; auto.
Qed.

Lemma kinv_perm : forall s l, KInv s -> Permutation (ks_out s) l -> KInv (set_out s l).
Proof.
  intros s l [A C D Ei] P. constructor.
  - apply (ainv_ext s); auto; try exact (a_byte _ A); try exact (a_out _ A). cbn. intros r Hr. apply (a_out _ A). eapply Permutation_in; [apply Permutation_sym; eauto | auto].
  - apply (cinv_ext s); auto. intros e He. cbn. symmetry. now apply nf_perm.
  - apply dinv_outs; auto.
    + split; intro Z; rewrite Z in P; [apply Permutation_sym in P|]; now apply Permutation_nil in P.
    + intros r X x Hx. destruct (X x Hx) as (r' & Y1 & Y2). exists r'. split; auto. eapply Permutation_in; eauto.
  - apply einv_outs; auto. intros r x Hr Hx. exists r. split; auto. eapply Permutation_in; eauto.
Qed.

Lemma kinv_env : forall s e n, KInv s -> ks_live s e = false \/ (~ recorded_ext c e /\ ~ In e (k_metas c)) -> (n < 256)%N ->
  KInv (set_refs s (upd (ks_refs s) e n)).
Proof.
  intros s e n [A C D Ei] H B. constructor.
  - apply (ainv_ext s); auto; try exact (a_byte _ A); try exact (a_out _ A). cbn. apply upd_byte; auto. apply A.
  - apply (cinv_ext s); auto. intros e' He Lv. cbn. apply upd_other. intros ->. destruct H as [H|[H _]]; [congruence | contradiction].
  - now apply (dinv_ext s).
  - destruct Ei as [E1 E2 E3 E4].
    assert (X : forall x, In x (k_metas c) -> ks_live s x = true -> upd (ks_refs s) e n x = ks_refs s x).
    { intros x Hx Lv. apply upd_other. intros ->. destruct H as [H|[_ H]]; [congruence | contradiction]. }
    constructor; cbn [set_refs ks_pcs ks_out ks_gone ks_blk ks_refs ks_live]; auto.
    + intros G ND. destruct (E2 G ND) as (R1 & R2 & R3). rewrite X by (auto using head_in). repeat split; auto.
      intros x Hx Nx. rewrite X; auto.
    + intros t l Hl. destruct (E3 t l Hl) as (R1 & R2 & R3 & R4 & R5). repeat split; auto; try apply R4; auto.
      destruct (R4 x H0). rewrite X; auto.
Qed.

Theorem kinv_reach : forall s, kreach c s -> KInv s.
Proof.
  intros s H. induction H.
  - now apply kinv_init.
  - eapply kinv_step; eauto.
  - now apply kinv_inc.
  - now apply kinv_dec.
  - now apply kinv_block.
  - eapply kinv_unblock; eauto.
  - now apply kinv_split.
  - now apply kinv_perm.
  - now apply kinv_env.
Qed.

(** ** Consequences *)

Lemma out_total : forall s r i e, In r (ks_out s) -> hit r i = Some e -> 0 < total s e.
Proof.
  intros s r i e R H. assert (I : In r (filter (fun r => rem r 0 e) (ks_out s))).
  { apply filter_In. split; auto. apply rem_zero with i. now apply rem_now. }
  unfold total. destruct (filter (fun r => rem r 0 e) (ks_out s)); [contradiction | cbn; lia].
Qed.

Lemma total_live : forall s e, KInv s -> recorded_ext c e -> 0 < total s e -> ks_live s e = true /\ (2 <= ks_refs s e)%N.
Proof.
  intros s e [A C D Ei] Re T. destruct (ks_live s e) eqn:Lv.
  - split; auto. destruct (c_live _ C e Re Lv) as [X _]. rewrite X. lia.
  - pose proof (c_dead _ C e Re Lv). lia.
Qed.

Lemma out_live : forall s r i e, KInv s -> In r (ks_out s) -> hit r i = Some e -> ks_live s e = true /\ (2 <= ks_refs s e)%N.
Proof. intros s r i e K R H. apply total_live; auto; [eapply hit_recorded; eauto | eapply out_total; eauto]. Qed.

Lemma blk_live : forall s r i e, KInv s -> In r (ks_blk s) -> hit r i = Some e -> ks_live s e = true /\ (2 <= ks_refs s e)%N.
Proof.
  intros s r i e K R H. pose proof K as [A C D Ei]. destruct (e_hand _ Ei r R) as [P X].
  pose proof H as H0. apply hit_span in H0. destruct H0 as (lo & hi & Sp & M). pose proof (span_ordered d L root LO _ _ _ _ Sp) as O.
  apply meets_iff in M. destruct M as [M1 M2].
  assert (exists x, inside d x r /\ kle d lo x /\ kle d x hi) as (x & X1 & X2 & X3).
  { destruct (kle_total d TO lo (fst r)).
    - exists (fst r). repeat split; auto. apply kle_refl; auto.
    - exists lo. repeat split; auto. apply kle_refl; auto. }
  destruct (X x X1) as (r' & Hh & [I1 I2]).
  assert (Hr' : hit r' i = Some e).
  { unfold KeyedProofs.hit. rewrite Sp. assert (M : meets d lo hi r' = true); [|now rewrite M].
    apply meets_iff. split; eapply (kle_trans d TO); eauto. }
  destruct Hh as [Hh|[u Hh]]; [eapply out_live; eauto|]. apply total_live; auto; [eapply hit_recorded; eauto|].
  apply (total_pos s u e A). rewrite Hh. cbn. apply rem_zero with i. now apply rem_now.
Qed.

Lemma meta_live : forall s, KInv s -> ks_out s <> [] \/ ks_blk s <> [] -> forall x, In x (k_metas c) -> ks_live s x = true /\ (2 <= ks_refs s x)%N.
Proof.
  intros s [A C D Ei] H x Hx.
  assert (X : ks_gone s = false /\ forall u l, ks_pcs s u <> KDein l).
  { destruct H as [H|H]; [now apply not_dein_out|]. split.
    - destruct (ks_gone s) eqn:G; auto. exfalso. apply H. now apply (e_gone _ Ei G).
    - intros u l Hu. apply H. now apply (e_dein _ Ei u l Hu). }
  destruct X as [G ND]. destruct (e_refs _ Ei G ND) as (R1 & R2 & R3). split; auto.
  destruct (Nat.eq_dec x (head_ext c)) as [->|N]; [rewrite R1; lia | rewrite R2; auto; lia].
Qed.

Lemma no_abort : forall s t, KInv s -> kstep c s t = KAbort -> exists e, recorded_ext c e /\ ks_live s e = true /\ ks_refs s e = 255%N.
Proof.
  intros s t K H. pose proof K as [A C D Ei]. unfold kstep in H. pose proof (a_pc _ A t) as P.
  destruct (ks_pcs s t) as [|r j i w|r|r j w sc|r j w sc|r j i w sc|r j i w sc e|r sc|l] eqn:E; try discriminate; cbn [pok] in P.
  - destruct P as (K1 & K2 & K3 & K4). destruct (nth_error (page c j) i) as [en|] eqn:G; [|destruct (Nat.ltb (S j) np); discriminate].
    apply entry_at in G. destruct G as (G1 & G2 & G3).
    destruct (entry_step_rep d TO L root LO r (off j + i) w en K1 K4 G3) as (w' & ES & W'). rewrite ES in H.
    destruct (hit r (off j + i)) as [e|] eqn:Hh; cbn [option_map] in H; [|discriminate].
    destruct (hit_covered d TO L root LO r _ _ e K1 (d_inc _ D _ _ _ _ _ E) Hh) as (r' & R1 & R2).
    destruct (out_live s r' _ e K R1 R2) as [Lv Rf]. exists e. split; [eapply hit_recorded; eauto|]. split; auto.
    unfold inc8 in H. pose proof (a_byte _ A e). destruct (N.eq_dec (ks_refs s e) 255); auto. exfalso.
    rewrite N.mod_small in H by lia. destruct (N.eqb_spec (ks_refs s e + 1) 1); [lia|]. destruct (N.eqb_spec (ks_refs s e + 1) 0); [lia|]. discriminate.
  - destruct (ks_refs s (head_ext c) =? 2)%N; discriminate.
  - destruct (ks_claim s j); discriminate.
  - exfalso. destruct P as (K1 & K2 & K3 & K4). destruct (nth_error (page c j) i) as [en|] eqn:G; [|destruct (Nat.ltb (S j) np); discriminate].
    apply entry_at in G. destruct G as (G1 & G2 & G3).
    destruct (entry_step_rep d TO L root LO r (off j + i) w en K1 K4 G3) as (w' & ES & W'). rewrite ES in H.
    destruct (hit r (off j + i)) as [e|] eqn:Hh; cbn [option_map] in H; [|discriminate].
    assert (W : wt e (ks_pcs s t) = true) by (rewrite E; cbn; now apply rem_now).
    destruct (held_live _ _ _ _ _ A C W Hh) as [Lv R2]. pose proof (a_byte _ A e) as B. unfold dec8 in H.
    replace (ks_refs s e + 255)%N with (ks_refs s e - 1 + 1 * 256)%N in H by lia.
    rewrite N.mod_add, N.mod_small in H by lia. destruct (N.eqb_spec (ks_refs s e - 1) 255); [lia | discriminate].
  - exfalso. assert (F : freeing (ks_pcs s t) = Some e) by (now rewrite E).
    destruct (c_free _ C t e F) as [Lv Z]. destruct (c_live _ C e (freeing_recorded s A t e F) Lv) as [Rf _]. rewrite Z in Rf. cbn in Rf.
    unfold dec8 in H. rewrite Rf in H. cbn in H. discriminate.
  - exfalso. destruct sc; [|discriminate]. destruct (N.eqb_spec (ks_refs s (head_ext c)) 2) as [|Nr]; [discriminate|].
    destruct (d_Q _ D t) as [X1 X2]; [rewrite E; exact Logic.I | now rewrite E|].
    destruct (not_dein s t D) as [G ND]; rewrite ?E; cbn; try discriminate; auto.
    destruct (e_refs _ Ei G ND) as (Y1 & _). apply Nr. rewrite Y1. destruct (ks_blk s) as [|b bl] eqn:B; auto. exfalso.
    destruct (blk_handle s Ei) as (r' & [Q|[u Q]]); [rewrite B; discriminate | rewrite X1 in Q; exact Q|].
    destruct (Nat.eq_dec u t) as [->|Nu]; [congruence|]. destruct (X2 u Nu) as [Z|(k & Z1 & Z2)]; [rewrite Q in Z; exact Z|].
    rewrite E in Z2. cbn in Z2. pose proof (top_le _ _ (a_pc _ A u) Z1). lia.
  - exfalso. destruct l as [|x l]; [discriminate|]. destruct (e_dein _ Ei t _ E) as (_ & _ & _ & X4 & _).
    destruct (X4 x (or_introl eq_refl)) as [Rx _]. unfold free_extent, dec8 in H. rewrite Rx in H. cbn in H. rewrite upd_same in H. cbn in H. discriminate.
Qed.

Lemma all_freed : forall s, KInv s -> ks_out s = [] -> (forall t, ks_pcs s t = KOut) ->
  ks_gone s = true /\ ks_blk s = [] /\ (forall e, recorded_ext c e -> ks_live s e = false) /\ forall x, In x (k_metas c) -> ks_live s x = false.
Proof.
  intros s [A C D Ei] Ho Hq.
  assert (G : ks_gone s = true).
  { destruct (ks_gone s) eqn:G; auto. exfalso. destruct (d_resp _ D G) as [X|[u X]]; [contradiction|].
    revert X. apply quiet_busy. rewrite Hq. exact Logic.I. }
  destruct (e_gone _ Ei G) as [E1 E2]. repeat split; auto.
  intros e He. destruct (ks_live s e) eqn:Lv; auto. exfalso. destruct (c_live _ C e He Lv) as [_ X].
  assert (T : total s e = 0). { unfold total. rewrite Ho. cbn. apply cnt_zero. intros i Hi. now rewrite Hq. }
  destruct (X T) as [t Y]. rewrite Hq in Y. discriminate.
Qed.

(** once a freed extent always a freed extent: no double free *)
Lemma free_once : forall s t s' e, KInv s -> kstep c s t = KStep s' -> ks_live s' e <> ks_live s e -> ks_live s e = true /\ ks_live s' e = false.
Proof.
  intros s t s' e [A C D Ei] H N. pose proof (kstep_trans _ _ _ A C H) as X.
  inversion X; subst; cbn in N; try (exfalso; apply N; reflexivity).
  - pcase e e0 (ks_live s); [|contradiction]. cbn. rewrite upd_same. split; auto.
    apply (c_free _ C t). now rewrite H0.
  - pcase e x (ks_live s); [|contradiction]. cbn. rewrite upd_same. split; auto.
    destruct (e_dein _ Ei t _ H0) as (_ & _ & _ & Y & _). now apply Y; left.
Qed.

(** some thread can move *)
Lemma progress : forall s, KInv s -> ks_blk s = [] -> (exists t, ks_pcs s t <> KOut) -> exists t, t < k_n c /\ kstep c s t <> KBlocked.
Proof.
  intros s K Hb [t0 H0]. pose proof K as [A C D Ei].
  assert (Lt : forall t, ks_pcs s t <> KOut -> t < k_n c).
  { intros t H. destruct (lt_dec t (k_n c)); auto. exfalso. apply H. apply (a_n _ A). lia. }
  assert (Ev : forall n t j r w sc, np - j <= n -> ks_pcs s t = KGet r j w sc -> exists t, t < k_n c /\ kstep c s t <> KBlocked).
  { induction n as [|n IH]; intros t j r w sc Hn E.
    - pose proof (a_pc _ A t) as P. rewrite E in P. cbn in P. lia.
    - pose proof (a_pc _ A t) as P. rewrite E in P. cbn in P. destruct (ks_claim s j) eqn:Cl.
      + apply (a_claim _ A) in Cl. destruct Cl as [u Hu].
        destruct (ks_pcs s u) as [|r' j' i' w'|r'|r' j' w' sc'|r' j' w' sc'|r' j' i' w' sc'|r' j' i' w' sc' e'|r' sc'|l] eqn:Eu; cbn in Hu; try contradiction.
        * apply (IH u j' r' w' sc'); auto. lia.
        * exists u. split; [apply Lt; congruence|]. unfold kstep. rewrite Eu. discriminate.
        * exists u. split; [apply Lt; congruence|]. unfold kstep. rewrite Eu. destruct (nth_error (page c j') i').
          { destruct (entry_step d r' w' m) as [w2 [[v|]|]]; try discriminate. destruct (dec8 (ks_refs s) v) as [[? ?]|]; discriminate. }
          { destruct (Nat.ltb (S j') np); discriminate. }
        * exists u. split; [apply Lt; congruence|]. unfold kstep. rewrite Eu. destruct (dec8 (ks_refs s) e') as [[v f]|]; [|discriminate].
          destruct (v =? 0)%N; discriminate.
      + exists t. split; [apply Lt; congruence|]. unfold kstep. rewrite E, Cl. discriminate. }
  destruct (ks_pcs s t0) as [|r j i w|r|r j w sc|r j w sc|r j i w sc|r j i w sc e|r sc|l] eqn:E; [congruence|..];
    try (eapply (Ev np t0); [|exact E]; lia); try (exists t0; split; [apply Lt; congruence|]; unfold kstep; rewrite E).
  - destruct (nth_error (page c j) i).
    + destruct (entry_step d r w m) as [w2 [[v|]|]]; try discriminate. destruct (inc8 (ks_refs s) v) as [[? ?]|]; discriminate.
    + destruct (Nat.ltb (S j) np); discriminate.
  - destruct (not_dein s t0 D) as [G ND]; rewrite ?E; cbn; try discriminate; auto.
    destruct (e_refs _ Ei G ND) as (Y1 & _). rewrite Y1, Hb. cbn. discriminate.
  - discriminate.
  - destruct (nth_error (page c j) i).
    + destruct (entry_step d r w m) as [w2 [[v|]|]]; try discriminate. destruct (dec8 (ks_refs s) v) as [[? ?]|]; discriminate.
    + destruct (Nat.ltb (S j) np); discriminate.
  - destruct (dec8 (ks_refs s) e) as [[v f]|]; [|discriminate]. destruct (v =? 0)%N; discriminate.
  - destruct sc; [|discriminate]. destruct (ks_refs s (head_ext c) =? 2)%N; discriminate.
  - destruct l; [discriminate|]. destruct (free_extent (ks_refs s) n); discriminate.
Qed.

End WithCfg.
