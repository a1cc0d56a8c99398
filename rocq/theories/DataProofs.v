(** * Proofs about keys, comparison and merging *)

From Coq Require Import List ZArith NArith Bool Lia.
From Verif Require Import Base Spec.
Import ListNotations.
Local Open Scope Z_scope.

(** ** memcmp and slice_lex_cmp *)

Lemma memcmp_refl : forall n a, memcmp a a n = 0.
Proof. induction n; destruct a; simpl; auto. rewrite N.eqb_refl. auto. Qed.

Lemma memcmp_antisym : forall n a b, memcmp a b n = - memcmp b a n.
Proof.
  induction n; destruct a, b; simpl; auto.
  rewrite (N.eqb_sym n1 n0).
  destruct (N.eqb_spec n0 n1); auto. lia.
Qed.

(** A structural reading of the comparison, used only in proofs. *)
Fixpoint lexc (a b : bytes) : comparison :=
  match a, b with
  | [], [] => Eq
  | [], _ => Lt
  | _, [] => Gt
  | x :: a', y :: b' => match N.compare x y with Eq => lexc a' b' | c => c end
  end.

Lemma lexc_eq : forall a b, lexc a b = Eq <-> a = b.
Proof.
  induction a; destruct b; simpl; split; intros; try discriminate; auto.
  - destruct (N.compare_spec a n); try discriminate. subst. f_equal. now apply IHa.
  - inversion H; subst. rewrite N.compare_refl. now apply IHa.
Qed.

Lemma lexc_antisym : forall a b, lexc a b = CompOpp (lexc b a).
Proof.
  induction a as [|x a IH]; destruct b as [|y b]; simpl; auto.
  rewrite (N.compare_antisym y x). destruct (N.compare y x); simpl; auto.
Qed.

Lemma lexc_trans : forall a b c, lexc a b = Lt -> lexc b c = Lt -> lexc a c = Lt.
Proof.
  induction a as [|x a IH]; destruct b as [|y b], c as [|z c]; simpl; intros H1 H2;
    try discriminate; auto.
  destruct (N.compare_spec x y) as [E|E|E], (N.compare_spec y z) as [F|F|F];
    try discriminate; destruct (N.compare_spec x z) as [G|G|G]; try lia; eauto.
Qed.

Lemma u64_to_int_small : forall x, (x < 2 ^ 31)%N -> u64_to_int x = Z.of_N x.
Proof.
  intros. unfold u64_to_int. rewrite N.mod_small by lia.
  destruct (Z.ltb_spec (Z.of_N x) (2 ^ 31)); auto. lia.
Qed.

Lemma memcmp_lexc : forall a b,
  let c := memcmp a b (Nat.min (length a) (length b)) in
  (c < 0 /\ lexc a b = Lt) \/ (c > 0 /\ lexc a b = Gt) \/
  (c = 0 /\ lexc a b = Nat.compare (length a) (length b)).
Proof.
  induction a; destruct b; simpl; auto 8.
  destruct (N.eqb_spec a n).
  - subst. rewrite N.compare_refl. apply IHa.
  - destruct (N.compare_spec a n); try lia; [left|right;left]; split; auto; lia.
Qed.

Definition int_len (a : bytes) : Prop := (blen a < 2 ^ 31)%N.

Lemma slice_lex_cmp_lexc : forall a b, int_len a -> int_len b ->
  match lexc a b with
  | Eq => slice_lex_cmp a b = 0
  | Lt => slice_lex_cmp a b < 0
  | Gt => slice_lex_cmp a b > 0
  end.
Proof.
  unfold int_len, slice_lex_cmp. intros a b Ha Hb.
  assert (E: N.to_nat (if (blen a <? blen b)%N then blen a else blen b)
             = Nat.min (length a) (length b)).
  { unfold blen. destruct (N.ltb_spec (N.of_nat (length a)) (N.of_nat (length b))); lia. }
  rewrite E. pose proof (memcmp_lexc a b) as H. cbv zeta in H.
  set (c := memcmp a b (Nat.min (length a) (length b))) in *.
  destruct H as [[H1 H2]|[[H1 H2]|[H1 H2]]]; rewrite H2.
  - destruct (Z.eqb_spec c 0); simpl; lia.
  - destruct (Z.eqb_spec c 0); simpl; lia.
  - rewrite H1. simpl. unfold blen in *.
    destruct (Nat.compare_spec (length a) (length b));
      destruct (N.ltb_spec (N.of_nat (length a)) (N.of_nat (length b))); try lia;
      rewrite u64_to_int_small; lia.
Qed.

Lemma slice_lex_cmp_lt : forall a b, int_len a -> int_len b ->
  (slice_lex_cmp a b < 0 <-> lexc a b = Lt).
Proof.
  intros. pose proof (slice_lex_cmp_lexc a b H H0).
  destruct (lexc a b); split; intros; try discriminate; auto; lia.
Qed.

Lemma slice_lex_cmp_gt : forall a b, int_len a -> int_len b ->
  (slice_lex_cmp a b > 0 <-> lexc a b = Gt).
Proof.
  intros. pose proof (slice_lex_cmp_lexc a b H H0).
  destruct (lexc a b); split; intros; try discriminate; auto; lia.
Qed.

Lemma slice_lex_cmp_eq : forall a b, int_len a -> int_len b ->
  (slice_lex_cmp a b = 0 <-> a = b).
Proof.
  intros. rewrite <- lexc_eq. pose proof (slice_lex_cmp_lexc a b H H0).
  destruct (lexc a b); split; intros; try discriminate; auto; lia.
Qed.

(** ** merging *)

Lemma apply_definitive : forall cfg k m v,
  is_definitive m = true -> apply_msg cfg k m v = value_of m.
Proof.
  intros. unfold apply_msg, is_definitive, value_of in *.
  destruct (m_class m); congruence.
Qed.

Lemma msg_eta : forall m, m = Msg (m_class m) (m_data m).
Proof. destruct m; reflexivity. Qed.

Lemma data_merge_defined : forall cfg k old new,
  msg_allowed cfg new -> exists m, data_merge_tuples cfg k old new = Some m.
Proof.
  unfold data_merge_tuples, msg_allowed, is_definitive. intros.
  destruct (m_class new) eqn:E; eauto.
  destruct (merge_fns cfg) as [[f g]|]; [|exfalso; now apply H].
  destruct (m_class old); eauto.
Qed.

Lemma data_merge_meaning : forall cfg k old new m v,
  lawful_merge cfg ->
  data_merge_tuples cfg k old new = Some m ->
  apply_msg cfg k m v = apply_msg cfg k new (apply_msg cfg k old v).
Proof.
  intros cfg k old new m v [L1 L2 L3]. unfold data_merge_tuples. intros H.
  destruct (is_definitive new) eqn:D.
  - inversion H; subst. now rewrite !apply_definitive.
  - destruct new as [nc nd]. destruct nc; try discriminate D.
    destruct (merge_fns cfg) as [[f g]|] eqn:E; [|discriminate].
    destruct old as [oc od]; destruct oc; simpl in H; inversion H; subst m; clear H.
    + rewrite apply_definitive by eauto.
      unfold apply_msg at 1, up_some; simpl. now rewrite E.
    + eauto.
    + rewrite apply_definitive by eauto.
      unfold apply_msg at 1, up_none; simpl. now rewrite E.
Qed.

Lemma data_merge_final_meaning : forall cfg k m m',
  lawful_merge cfg ->
  data_merge_tuples_final cfg k m = Some m' ->
  is_definitive m' = true /\ value_of m' = apply_msg cfg k m None.
Proof.
  intros cfg k m m' [L1 L2 L3]. unfold data_merge_tuples_final. intros H.
  destruct (is_definitive m) eqn:D.
  - inversion H; subst. split; auto. now rewrite apply_definitive.
  - destruct m as [c d]. destruct c; try discriminate D.
    destruct (merge_fns cfg) as [[f g]|] eqn:E; [|discriminate].
    inversion H; subst. split; eauto.
    unfold apply_msg, up_none; simpl. now rewrite E.
Qed.

Lemma data_merge_final_defined : forall cfg k m,
  msg_allowed cfg m -> exists m', data_merge_tuples_final cfg k m = Some m'.
Proof.
  unfold data_merge_tuples_final, msg_allowed, is_definitive. intros.
  destruct (m_class m) eqn:E; eauto.
  destruct (merge_fns cfg) as [[f g]|]; [eauto|exfalso; now apply H].
Qed.

Lemma data_merge_allowed : forall cfg k old new m,
  msg_allowed cfg new -> data_merge_tuples cfg k old new = Some m -> msg_allowed cfg m.
Proof.
  unfold msg_allowed, data_merge_tuples, is_definitive. intros.
  destruct (m_class new) eqn:E.
  - inversion H0; subst; congruence.
  - auto.
  - inversion H0; subst; congruence.
Qed.
