(** * Circular numbers: the arithmetic of TrunkNode.v relative to a start *)

From Coq Require Import List Arith Lia Bool.
From Verif Require Import Base TrunkNode.
Import ListNotations.

Lemma mod_small_sub : forall m a, m <= a -> a < m + m -> a mod m = a - m.
Proof.
  intros m a H1 H2. replace a with ((a - m) + 1 * m) at 1 by lia.
  rewrite Nat.mod_add by lia. apply Nat.mod_small. lia.
Qed.

Lemma cadd_lt : forall m s i, 0 < m -> cadd m s i < m.
Proof. intros. unfold cadd. apply Nat.mod_upper_bound. lia. Qed.

Lemma cadd_cadd : forall m s i j, 0 < m -> cadd m (cadd m s i) j = cadd m s (i + j).
Proof.
  intros m s i j H. unfold cadd. rewrite Nat.add_mod_idemp_l by lia. f_equal. lia.
Qed.

Lemma cadd_0 : forall m s, s < m -> cadd m s 0 = s.
Proof. intros. unfold cadd. rewrite Nat.add_0_r. apply Nat.mod_small. lia. Qed.

(** Subtracting an amount *)
Lemma csub_cadd_amount : forall m s i j, 0 < m -> j <= i -> j <= m -> csub m (cadd m s i) j = cadd m s (i - j).
Proof.
  intros m s i j Hm H1 H2. unfold csub, cadd.
  replace ((s + i) mod m + m - j) with ((s + i) mod m + (m - j)) by lia.
  rewrite Nat.add_mod_idemp_l by lia.
  replace (s + i + (m - j)) with ((s + (i - j)) + 1 * m) by lia.
  apply Nat.mod_add. lia.
Qed.

(** The distance between two numbers *)
Lemma csub_cadd : forall m s i j, 0 < m -> j <= i -> i < j + m -> csub m (cadd m s i) (cadd m s j) = i - j.
Proof.
  intros m s i j Hm H1 H2. unfold csub, cadd.
  pose proof (Nat.mod_upper_bound (s + j) m ltac:(lia)) as B.
  replace ((s + i) mod m + m - (s + j) mod m) with ((s + i) mod m + (m - (s + j) mod m)) by lia.
  rewrite Nat.add_mod_idemp_l by lia.
  pose proof (Nat.div_mod (s + j) m ltac:(lia)) as E.
  set (q := (s + j) / m) in *. set (r := (s + j) mod m) in *.
  replace (s + i + (m - r)) with ((i - j) + (q + 1) * m) by nia.
  rewrite Nat.mod_add by lia. apply Nat.mod_small. lia.
Qed.

(** The distance going round *)
Lemma csub_cadd_back : forall m s i j, 0 < m -> i < j -> j <= i + m -> csub m (cadd m s i) (cadd m s j) = i + m - j.
Proof.
  intros m s i j Hm H1 H2.
  assert (E : cadd m s i = cadd m s (i + m)).
  { unfold cadd. rewrite Nat.add_assoc. replace (s + i + m) with (s + i + 1 * m) by lia. rewrite Nat.mod_add; lia. }
  rewrite E. rewrite csub_cadd by lia. lia.
Qed.

Lemma csub_base : forall m s i, s < m -> i < m -> csub m (cadd m s i) s = i.
Proof.
  intros m s i H1 H2. rewrite <- (cadd_0 m s) at 2 by lia. rewrite csub_cadd by lia. lia.
Qed.

Lemma cadd_inj : forall m s i j, 0 < m -> i < m -> j < m -> cadd m s i = cadd m s j -> i = j.
Proof.
  intros m s i j H0 H1 H2 E.
  destruct (Nat.lt_trichotomy i j) as [L | [L | L]]; auto.
  - pose proof (csub_cadd m s j i ltac:(lia) ltac:(lia) ltac:(lia)) as A. rewrite <- E in A.
    rewrite csub_cadd in A by lia. lia.
  - pose proof (csub_cadd m s i j ltac:(lia) ltac:(lia) ltac:(lia)) as A. rewrite E in A.
    rewrite csub_cadd in A by lia. lia.
Qed.

Lemma cadd_eqb : forall m s i j, 0 < m -> i < m -> j < m -> (cadd m s i =? cadd m s j) = (i =? j).
Proof.
  intros m s i j H0 H1 H2. destruct (Nat.eqb_spec i j) as [-> | N].
  - apply Nat.eqb_refl.
  - apply Nat.eqb_neq. intro E. apply N. eapply cadd_inj; eauto.
Qed.

Lemma cwalk_cadd : forall m s i j, 0 < m -> i <= j -> j < i + m ->
  cwalk m (cadd m s i) (cadd m s j) = map (cadd m s) (seq i (j - i)).
Proof.
  intros m s i j H0 H1 H2. unfold cwalk. rewrite csub_cadd by lia.
  assert (G : forall n a, map (fun k => cadd m (cadd m s i) k) (seq a n) = map (cadd m s) (seq (i + a) n)).
  { induction n as [|n IH]; intros a; simpl; auto. rewrite cadd_cadd by lia. f_equal.
    rewrite IH. f_equal. f_equal. lia. }
  rewrite G. rewrite Nat.add_0_r. reflexivity.
Qed.

Lemma put_same : forall {A} (f : nat -> A) i v, put f i v i = v.
Proof. intros. unfold put. rewrite Nat.eqb_refl. reflexivity. Qed.
Lemma put_other : forall {A} (f : nat -> A) i v j, j <> i -> put f i v j = f j.
Proof. intros. unfold put. destruct (Nat.eqb_spec j i); congruence. Qed.

(** ** Moving the tail of a circular array to the left *)

Lemma shift_fold : forall {A} (f : A -> A) m s d k e (g : nat -> A),
  0 < m -> d <= e -> e + k <= m ->
  let g' := fold_left (fun g i => put (put g i (f (g i))) (csub m i d) (f (g i))) (map (cadd m s) (seq e k)) g in
  (forall j, e - d <= j -> j < e + k - d -> g' (cadd m s j) = f (g (cadd m s (j + d)))) /\
  (forall j, j < e - d -> g' (cadd m s j) = g (cadd m s j)) /\
  (forall j, e + k <= j -> j < m -> g' (cadd m s j) = g (cadd m s j)).
Proof.
  intros A f m s d k. induction k as [|k IH]; intros e g Hm Hd He; simpl.
  - repeat split; intros; try lia; auto.
  - rewrite csub_cadd_amount by lia.
    set (g1 := put (put g (cadd m s e) (f (g (cadd m s e)))) (cadd m s (e - d)) (f (g (cadd m s e)))).
    destruct (IH (S e) g1 Hm ltac:(lia) ltac:(lia)) as (I1 & I2 & I3).
    assert (N : forall a b, a < m -> b < m -> a <> b -> cadd m s a <> cadd m s b).
    { intros a b Ha Hb Hn E. apply Hn. eapply cadd_inj; eauto. }
    repeat split.
    + intros j H1 H2. destruct (Nat.eq_dec j (e - d)) as [-> | Hj].
      * rewrite I2 by lia. unfold g1. rewrite put_same. replace (e - d + d) with e by lia. reflexivity.
      * rewrite I1 by lia. f_equal. unfold g1. rewrite !put_other; auto; apply N; lia.
    + intros j H1. rewrite I2 by lia. unfold g1. rewrite !put_other; auto; apply N; lia.
    + intros j H1 H2. rewrite I3 by lia. unfold g1. rewrite !put_other; auto; apply N; lia.
Qed.

(** Without changing the entries and without rewriting the source *)
Lemma move_fold : forall {A} m s d k e (g : nat -> A),
  0 < m -> d <= e -> e + k <= m ->
  let g' := fold_left (fun g i => put g (csub m i d) (g i)) (map (cadd m s) (seq e k)) g in
  (forall j, e - d <= j -> j < e + k - d -> g' (cadd m s j) = g (cadd m s (j + d))) /\
  (forall j, j < e - d -> g' (cadd m s j) = g (cadd m s j)) /\
  (forall j, e + k <= j -> j < m -> g' (cadd m s j) = g (cadd m s j)).
Proof.
  intros A m s d k. induction k as [|k IH]; intros e g Hm Hd He; simpl.
  - repeat split; intros; try lia; auto.
  - rewrite csub_cadd_amount by lia.
    set (g1 := put g (cadd m s (e - d)) (g (cadd m s e))).
    destruct (IH (S e) g1 Hm ltac:(lia) ltac:(lia)) as (I1 & I2 & I3).
    assert (N : forall a b, a < m -> b < m -> a <> b -> cadd m s a <> cadd m s b).
    { intros a b Ha Hb Hn E. apply Hn. eapply cadd_inj; eauto. }
    repeat split.
    + intros j H1 H2. destruct (Nat.eq_dec j (e - d)) as [-> | Hj].
      * rewrite I2 by lia. unfold g1. rewrite put_same. replace (e - d + d) with e by lia. reflexivity.
      * rewrite I1 by lia. unfold g1. rewrite !put_other; auto; apply N; lia.
    + intros j H1. rewrite I2 by lia. unfold g1. rewrite !put_other; auto; apply N; lia.
    + intros j H1 H2. rewrite I3 by lia. unfold g1. rewrite !put_other; auto; apply N; lia.
Qed.

(** Changing the entries in place *)
Lemma update_fold : forall {A} (f : A -> A) m s k e (g : nat -> A),
  0 < m -> e + k <= m ->
  let g' := fold_left (fun g i => put g i (f (g i))) (map (cadd m s) (seq e k)) g in
  (forall j, e <= j -> j < e + k -> g' (cadd m s j) = f (g (cadd m s j))) /\
  (forall j, j < e \/ e + k <= j -> j < m -> g' (cadd m s j) = g (cadd m s j)).
Proof.
  intros A f m s k. induction k as [|k IH]; intros e g Hm He; simpl.
  - repeat split; intros; try lia; auto.
  - set (g1 := put g (cadd m s e) (f (g (cadd m s e)))).
    destruct (IH (S e) g1 Hm ltac:(lia)) as (I1 & I2).
    assert (N : forall a b, a < m -> b < m -> a <> b -> cadd m s a <> cadd m s b).
    { intros a b Ha Hb Hn E. apply Hn. eapply cadd_inj; eauto. }
    split.
    + intros j H1 H2. destruct (Nat.eq_dec j e) as [-> | Hj].
      * rewrite I2 by lia. unfold g1. rewrite put_same. reflexivity.
      * rewrite I1 by lia. f_equal. unfold g1. rewrite !put_other; auto; apply N; lia.
    + intros j H1 H2. rewrite I2 by lia. unfold g1. rewrite !put_other; auto; apply N; lia.
Qed.

(** ** A live part of a circular array as a list *)
Definition ring_is {A} (m : nat) (f : nat -> A) (s : nat) (l : list A) : Prop :=
  forall i x, nth_error l i = Some x -> f (cadd m s i) = x.

Lemma ring_nth : forall {A} m (f : nat -> A) s l d i, ring_is m f s l -> i < length l -> f (cadd m s i) = nth i l d.
Proof.
  intros A m f s l d i H Hi. apply H. apply nth_error_nth'. exact Hi.
Qed.

Lemma ring_walk : forall {A} m (f : nat -> A) s l i j, 0 < m -> ring_is m f s l -> i <= j -> j <= length l -> j < i + m ->
  map f (cwalk m (cadd m s i) (cadd m s j)) = firstn (j - i) (skipn i l).
Proof.
  intros A m f s l i j Hm H H1 H2 H3. rewrite cwalk_cadd by lia. rewrite map_map.
  remember (j - i) as k. assert (K : i + k <= length l) by lia. clear - Hm H K.
  revert i K. induction k as [|k IH]; intros i K; simpl; auto.
  destruct (nth_error l i) as [x|] eqn:E.
  2: { apply nth_error_None in E. lia. }
  rewrite (H i x E).
  assert (G : skipn i l = x :: skipn (S i) l).
  { clear - E. revert l E. induction i as [|i IH]; intros [|y r] E; simpl in *; try discriminate.
    - inversion E. reflexivity.
    - apply IH. exact E. }
  rewrite G. f_equal. apply IH. lia.
Qed.

Lemma ring_ext : forall {A} m (f g : nat -> A) s l, (forall i, i < length l -> g (cadd m s i) = f (cadd m s i)) ->
  ring_is m f s l -> ring_is m g s l.
Proof.
  intros A m f g s l H R i x E. rewrite H; auto. apply nth_error_Some. congruence.
Qed.

Lemma nth_error_skipn : forall {A} d (l : list A) i, nth_error (skipn d l) i = nth_error l (d + i).
Proof.
  intros A d. induction d as [|d IH]; intros l i; simpl; auto.
  destruct l; simpl; auto. destruct i; reflexivity.
Qed.

Lemma nth_error_firstn : forall {A} d (l : list A) i, i < d -> nth_error (firstn d l) i = nth_error l i.
Proof.
  intros A d. induction d as [|d IH]; intros l i H; [lia|].
  destruct l; simpl; auto. destruct i; simpl; auto. apply IH. lia.
Qed.

Lemma ring_skip : forall {A} m (f : nat -> A) s l d, 0 < m -> ring_is m f s l -> ring_is m f (cadd m s d) (skipn d l).
Proof.
  intros A m f s l d Hm R i x E. rewrite cadd_cadd by lia. apply R. rewrite <- nth_error_skipn. exact E.
Qed.

Lemma ring_app : forall {A} m (f : nat -> A) s l l', 0 < m ->
  ring_is m f s (l ++ l') <-> ring_is m f s l /\ ring_is m f (cadd m s (length l)) l'.
Proof.
  intros A m f s l l' Hm. split.
  - intro R. split.
    + intros i x E. apply R. rewrite nth_error_app1; auto. apply nth_error_Some. congruence.
    + intros i x E. rewrite cadd_cadd by lia. apply R. rewrite nth_error_app2 by lia.
      replace (length l + i - length l) with i by lia. exact E.
  - intros [R1 R2] i x E. destruct (Nat.lt_ge_cases i (length l)) as [L | L].
    + rewrite nth_error_app1 in E by lia. apply R1. exact E.
    + rewrite nth_error_app2 in E by lia. specialize (R2 _ _ E).
      rewrite cadd_cadd in R2 by lia. replace (length l + (i - length l)) with i in R2 by lia. exact R2.
Qed.

Lemma ring_nil : forall {A} m (f : nat -> A) s, ring_is m f s [].
Proof. intros A m f s i x E. destruct i; discriminate. Qed.

(** Adding one entry at the end *)
Lemma ring_push : forall {A} m (f : nat -> A) s l x, s < m -> length l < m -> ring_is m f s l ->
  ring_is m (put f (cadd m s (length l)) x) s (l ++ [x]).
Proof.
  intros A m f s l x Hs Hl R. apply ring_app; [lia|]. split.
  - eapply ring_ext; [|exact R]. intros i Hi. apply put_other. intro E. apply cadd_inj in E; lia.
  - intros i y E. destruct i; [|destruct i; discriminate]. simpl in E. inversion E; subst.
    rewrite cadd_cadd by lia. rewrite Nat.add_0_r. apply put_same.
Qed.

(** A write outside the list *)
Lemma ring_put_out : forall {A} m (f : nat -> A) s l j x, 0 < m -> length l <= j -> j < m -> ring_is m f s l ->
  ring_is m (put f (cadd m s j) x) s l.
Proof.
  intros A m f s l j x Hm H1 H2 R. eapply ring_ext; [|exact R]. intros i Hi. apply put_other.
  intro E. apply cadd_inj in E; lia.
Qed.

(** A write in the list *)
Lemma ring_put_in : forall {A} m (f : nat -> A) s l j x, 0 < m -> length l <= m -> j < length l -> ring_is m f s l ->
  ring_is m (put f (cadd m s j) x) s (firstn j l ++ x :: skipn (S j) l).
Proof.
  intros A m f s l j x Hm H1 H2 R i y E.
  assert (L : i < length l).
  { assert (i < length (firstn j l ++ x :: skipn (S j) l)) by (apply nth_error_Some; congruence).
    rewrite app_length, firstn_length in H. cbn [length] in H. rewrite skipn_length in H. lia. }
  destruct (Nat.lt_trichotomy i j) as [C | [C | C]].
  - rewrite nth_error_app1 in E by (rewrite firstn_length; lia). rewrite nth_error_firstn in E by lia.
    rewrite put_other by (intro Q; apply cadd_inj in Q; lia). apply R. exact E.
  - subst i. rewrite nth_error_app2 in E by (rewrite firstn_length; lia).
    rewrite firstn_length in E. replace (j - Nat.min j (length l)) with 0 in E by lia. simpl in E.
    inversion E; subst. apply put_same.
  - rewrite nth_error_app2 in E by (rewrite firstn_length; lia). rewrite firstn_length in E.
    replace (i - Nat.min j (length l)) with (S (i - S j)) in E by lia. cbn [nth_error] in E.
    rewrite nth_error_skipn in E. replace (S j + (i - S j)) with i in E by lia.
    rewrite put_other by (intro Q; apply cadd_inj in Q; lia). apply R. exact E.
Qed.

Lemma Forall2_impl : forall {A B} (P Q : A -> B -> Prop) l l', (forall a b, P a b -> Q a b) -> Forall2 P l l' -> Forall2 Q l l'.
Proof. intros A B P Q l l' H F. induction F; constructor; auto. Qed.

Lemma cadd_full : forall m s, s < m -> cadd m s m = s.
Proof.
  intros m s H. unfold cadd. replace (s + m) with (s + 1 * m) by lia.
  rewrite Nat.mod_add by lia. apply Nat.mod_small. lia.
Qed.

Lemma cadd_eqb_base : forall m s i, s < m -> i < m -> (cadd m s i =? s) = (i =? 0).
Proof.
  intros m s i H1 H2. pose proof (cadd_eqb m s i 0 ltac:(lia) H2 ltac:(lia)) as E. rewrite cadd_0 in E by lia. exact E.
Qed.
