(** * Proofs about searches inside nodes *)

From Coq Require Import List ZArith NArith Arith Bool Lia.
From Verif Require Import Base Spec DataProofs Search.
Import ListNotations.
Local Arguments Nat.div : simpl never.

(** Strictly increasing keys. *)
Definition increasing (cfg : data_config) (ks : list key) : Prop :=
  forall i j a b, i < j -> nth_error ks i = Some a -> nth_error ks j = Some b ->
                  (data_key_compare cfg a b < 0)%Z.

Section Order.
  Context {A : Type} (cmp : A -> A -> Z) (T : total_order cmp).
  Lemma cmp_refl : forall a, cmp a a = 0%Z.
  Proof. intros. now apply (to_eq _ T). Qed.
  Lemma cmp_lt_gt : forall a b, (cmp a b < 0)%Z <-> (cmp b a > 0)%Z.
  Proof. apply (to_antisym _ T). Qed.
  Lemma cmp_lt_le_trans : forall a b c, (cmp a b < 0)%Z -> (cmp b c <= 0)%Z -> (cmp a c < 0)%Z.
  Proof.
    intros a b c H1 H2. destruct (Z.eq_dec (cmp b c) 0).
    - apply (to_eq _ T) in e. now subst.
    - eapply (to_trans _ T); eauto. lia.
  Qed.
  Lemma cmp_le_lt_trans : forall a b c, (cmp a b <= 0)%Z -> (cmp b c < 0)%Z -> (cmp a c < 0)%Z.
  Proof.
    intros a b c H1 H2. destruct (Z.eq_dec (cmp a b) 0).
    - apply (to_eq _ T) in e. now subst.
    - eapply (to_trans _ T); eauto. lia.
  Qed.
  Lemma cmp_le_trans : forall a b c, (cmp a b <= 0)%Z -> (cmp b c <= 0)%Z -> (cmp a c <= 0)%Z.
  Proof.
    intros a b c H1 H2. destruct (Z.eq_dec (cmp b c) 0).
    - apply (to_eq _ T) in e. now subst.
    - pose proof (cmp_le_lt_trans a b c H1 ltac:(lia)). lia.
  Qed.
  Lemma cmp_ge_le : forall a b, (cmp a b >= 0)%Z <-> (cmp b a <= 0)%Z.
  Proof.
    intros. pose proof (cmp_lt_gt a b). split; intros.
    - destruct (Z_le_gt_dec (cmp b a) 0); auto. apply H in g. lia.
    - destruct (Z_lt_le_dec (cmp a b) 0); try lia.
  Qed.
End Order.

(** The extended key order is total when the user's is. *)
Lemma data_key_compare_total : forall cfg,
  total_order (key_compare cfg) -> total_order (data_key_compare cfg).
Proof.
  intros cfg [E A T]. constructor.
  - intros [|a|] [|b|]; simpl; split; intros H; try discriminate; auto.
    + f_equal. now apply E.
    + injection H as ->. now apply E.
  - intros [|a|] [|b|]; simpl; try lia. apply A.
  - intros [|a|] [|b|] [|c|]; simpl; try lia. apply T.
Qed.

Section Find.
  Variable cfg : data_config.
  Hypothesis TO : total_order (key_compare cfg).
  Let T := data_key_compare_total cfg TO.

  Definition low (strict : bool) (target k : key) : Prop :=
    if strict then (data_key_compare cfg k target < 0)%Z
    else (data_key_compare cfg k target <= 0)%Z.

  Lemma low_mono : forall strict target ks i j a b, increasing cfg ks -> i <= j ->
    nth_error ks i = Some a -> nth_error ks j = Some b -> low strict target b -> low strict target a.
  Proof.
    intros strict target ks i j a b I Hij Ha Hb L.
    destruct (Nat.eq_dec i j); [subst; congruence|].
    pose proof (I i j a b ltac:(lia) Ha Hb).
    unfold low in *. destruct strict.
    - eapply (to_trans _ T); eauto.
    - pose proof (cmp_lt_le_trans _ T a b target H L). lia.
  Qed.

  Lemma btree_find_loop_spec : forall fuel ks target lo hi,
    increasing cfg ks -> lo <= hi <= length ks -> hi - lo < fuel ->
    (forall i k, i < lo -> nth_error ks i = Some k -> (data_key_compare cfg k target < 0)%Z) ->
    (forall i k, hi <= i -> nth_error ks i = Some k -> (data_key_compare cfg k target > 0)%Z) ->
    exists idx found, btree_find_loop cfg ks target fuel lo hi = Some (idx, found) /\
      (-1 <= idx < Z.of_nat (length ks))%Z /\
      (forall i k, nth_error ks i = Some k ->
         ((Z.of_nat i <= idx)%Z <-> (data_key_compare cfg k target <= 0)%Z)) /\
      (found = true <-> exists i, Z.of_nat i = idx /\ nth_error ks i = Some target) /\
      (found = true <-> In target ks).
  Proof.
    induction fuel; intros ks target lo hi I HL HF BL BH; [lia|]. simpl.
    destruct (Nat.ltb_spec lo hi).
    - remember ((lo + hi) / 2) as mid eqn:EM.
      assert (M1: lo <= mid) by (rewrite EM; apply Nat.div_le_lower_bound; lia).
      assert (M2: mid < hi) by (rewrite EM; apply Nat.div_lt_upper_bound; lia).
      unfold key_at.
      destruct (nth_error ks mid) as [km|] eqn:Ek.
      2:{ apply nth_error_None in Ek. lia. }
      destruct (Z.eqb_spec (data_key_compare cfg km target) 0).
      + exists (Z.of_nat mid), true. split; auto. split; [lia|].
        apply (to_eq _ T) in e. subst km. split; [|split].
        * intros i k Hk. split; intros.
          { destruct (Nat.eq_dec i mid); [subst i; rewrite Ek in Hk; inversion Hk; subst k;
              rewrite (cmp_refl _ T); lia|].
            pose proof (I i mid k target ltac:(lia) Hk Ek). lia. }
          { destruct (Z_le_gt_dec (Z.of_nat i) (Z.of_nat mid)); auto.
            pose proof (I mid i target k ltac:(lia) Ek Hk) as C.
            apply (cmp_lt_gt _ T) in C. lia. }
        * split; auto. intros _. exists mid. auto.
        * split; auto. intros _. now apply nth_error_In in Ek.
      + destruct (Z.ltb_spec (data_key_compare cfg km target) 0).
        * apply IHfuel; auto; try lia.
          intros i k Hi Hk. destruct (Nat.eq_dec i mid); [subst i; congruence|].
          pose proof (I i mid k km ltac:(lia) Hk Ek). eapply (to_trans _ T); eauto.
        * apply IHfuel; auto; try lia.
          intros i k Hi Hk. destruct (Nat.eq_dec i mid).
          { subst i. rewrite Ek in Hk. inversion Hk; subst k. lia. }
          pose proof (I mid i km k ltac:(lia) Ek Hk).
          apply (cmp_lt_gt _ T). assert (data_key_compare cfg target km < 0)%Z
            by (apply (cmp_lt_gt _ T); lia). eapply (to_trans _ T); eauto.
    - assert (lo = hi) by lia. subst hi.
      exists (Z.of_nat lo - 1)%Z, false. split; auto. split; [lia|].
      assert (NI: forall i, nth_error ks i = Some target -> False).
      { intros i Hi. destruct (Nat.lt_ge_cases i lo) as [L|L].
        - pose proof (BL i target L Hi). rewrite (cmp_refl _ T) in H0. lia.
        - pose proof (BH i target L Hi). rewrite (cmp_refl _ T) in H0. lia. }
      split; [|split].
      + intros i k Hk. destruct (Nat.lt_ge_cases i lo) as [L|L].
        * pose proof (BL i k L Hk). lia.
        * pose proof (BH i k L Hk). lia.
      + split; [discriminate|]. intros [i [Hi1 Hi2]]. exfalso; eauto.
      + split; [discriminate|]. intros HI. apply In_nth_error in HI. destruct HI as [i Hi].
        exfalso; eauto.
  Qed.

  (** *** trunk_find_pivot *)

  Definition strict_of (c : comparison_mode) : bool :=
    match c with LessThan | GreaterThanOrEqual => true | _ => false end.

  Lemma update_lowerbound_low : forall lo mid km target comp,
    (low (strict_of comp) target km /\
     update_lowerbound lo mid (data_key_compare cfg km target) comp = mid) \/
    (~ low (strict_of comp) target km /\
     update_lowerbound lo mid (data_key_compare cfg km target) comp = lo).
  Proof.
    intros. unfold low, update_lowerbound. destruct comp; simpl;
      try (destruct (Z.ltb_spec (data_key_compare cfg km target) 0); [left|right]; split; auto; lia);
      try (destruct (Z.leb_spec (data_key_compare cfg km target) 0); [left|right]; split; auto; lia).
  Qed.

  Lemma size_nat_bounds : forall p,
    2 ^ (Pos.size_nat p - 1) <= Pos.to_nat p < 2 ^ (Pos.size_nat p) /\ 1 <= Pos.size_nat p.
  Proof.
    induction p as [p IH|p IH|]; cbn [Pos.size_nat].
    - rewrite Pos2Nat.inj_xI. destruct IH as [[A B] C].
      replace (S (Pos.size_nat p) - 1) with (S (Pos.size_nat p - 1)) by lia.
      cbn [Nat.pow]. lia.
    - rewrite Pos2Nat.inj_xO. destruct IH as [[A B] C].
      replace (S (Pos.size_nat p) - 1) with (S (Pos.size_nat p - 1)) by lia.
      cbn [Nat.pow]. lia.
    - simpl. lia.
  Qed.

  Lemma lowerbound_spec : forall n, 2 <= n ->
    2 ^ (lowerbound n - 1) < n <= 2 ^ (lowerbound n) /\ 1 <= lowerbound n.
  Proof.
    intros n Hn. unfold lowerbound. destruct (Nat.leb_spec n 1); [lia|].
    destruct (N.of_nat (n - 1)) as [|p] eqn:E; [lia|].
    assert (EP: n - 1 = Pos.to_nat p) by lia. unfold N.size_nat.
    pose proof (size_nat_bounds p). lia.
  Qed.

  Lemma lowerbound_pow : forall k, lowerbound (2 ^ k) = k.
  Proof.
    intros. destruct k; [reflexivity|].
    assert (2 <= 2 ^ S k) by (simpl; pose proof (Nat.pow_nonzero 2 k); lia).
    pose proof (lowerbound_spec (2 ^ S k) H) as [[A B] C].
    apply Nat.pow_lt_mono_r_iff in A; [|lia]. apply Nat.pow_le_mono_r_iff in B; lia.
  Qed.

  Lemma find_pivot_loop_spec : forall i ks target comp lo,
    increasing cfg ks -> lo + 2 ^ i <= length ks ->
    (exists k, nth_error ks lo = Some k /\ low (strict_of comp) target k) ->
    (forall j k, lo + 2 ^ i <= j -> nth_error ks j = Some k -> ~ low (strict_of comp) target k) ->
    exists lo', find_pivot_loop cfg ks target comp i lo (2 ^ i) = Some lo' /\
      (exists k, nth_error ks lo' = Some k /\ low (strict_of comp) target k) /\
      (forall j k, lo' < j -> nth_error ks j = Some k -> ~ low (strict_of comp) target k).
  Proof.
    induction i; intros ks target comp lo I HL [k0 [Hk0 L0]] BH; cbn [find_pivot_loop].
    - exists lo. split; auto. split; eauto. intros j k Hj. apply BH. simpl. lia.
    - assert (D: 2 ^ S i / 2 = 2 ^ i).
      { simpl. replace (2 ^ i + (2 ^ i + 0)) with (2 ^ i * 2) by lia. apply Nat.div_mul. lia. }
      cbn [find_pivot_loop]. rewrite D.
      assert (P: 0 < 2 ^ i) by (pose proof (Nat.pow_nonzero 2 i); lia).
      assert (E2: 2 ^ S i = 2 ^ i + 2 ^ i) by (simpl; lia).
      unfold key_at. destruct (nth_error ks (lo + 2 ^ i)) as [km|] eqn:Ek.
      2:{ apply nth_error_None in Ek. lia. }
      destruct (update_lowerbound_low lo (lo + 2 ^ i) km target comp) as [[L U]|[L U]]; rewrite U.
      + apply IHi; auto; try lia.
        * exists km. auto.
        * intros j k Hj. apply BH. lia.
      + apply IHi; auto; try lia.
        * exists k0. auto.
        * intros j k Hj Hk Lk. apply L.
          eapply low_mono with (i := lo + 2 ^ i) (j := j); eauto.
  Qed.

  Lemma trunk_find_pivot_lo : forall ks target comp k0,
    increasing cfg ks -> nth_error ks 0 = Some k0 -> low (strict_of comp) target k0 ->
    exists lo, trunk_find_pivot cfg ks target comp =
               Some (match comp with LessThan | LessThanOrEqual => lo | _ => lo + 1 end) /\
      (exists k, nth_error ks lo = Some k /\ low (strict_of comp) target k) /\
      (forall j k, lo < j -> nth_error ks j = Some k -> ~ low (strict_of comp) target k).
  Proof.
    intros ks target comp k0 I H0 L0. unfold trunk_find_pivot, key_at.
    destruct (Nat.eqb_spec (length ks) 0) as [E|E].
    { destruct ks; [discriminate H0|discriminate E]. }
    destruct (Nat.eqb_spec (length ks) 1) as [E1|E1].
    - rewrite H0. exists 0. split; [|split; eauto].
      + unfold low in L0. destruct comp; simpl in L0; auto.
        * destruct (Z.ltb_spec 0 (data_key_compare cfg k0 target)); auto. lia.
        * destruct (Z.leb_spec 0 (data_key_compare cfg k0 target)); auto. lia.
      + intros j k Hj Hk. assert (nth_error ks j = None) by (apply nth_error_None; lia). congruence.
    - pose proof (lowerbound_spec (length ks) ltac:(lia)) as [[A B] C].
      set (lb := lowerbound (length ks)) in *. set (sz := 2 ^ (lb - 1)) in *.
      assert (EB: 2 ^ lb = sz + sz).
      { unfold sz. replace lb with (S (lb - 1)) at 1 by lia. simpl. lia. }
      assert (SZ: 0 < sz) by (unfold sz; pose proof (Nat.pow_nonzero 2 (lb - 1)); lia).
      destruct (nth_error ks (length ks - sz)) as [km|] eqn:Ek.
      2:{ apply nth_error_None in Ek. lia. }
      replace (lowerbound sz) with (lb - 1) by (unfold sz; now rewrite lowerbound_pow).
      destruct (update_lowerbound_low 0 (length ks - sz) km target comp) as [[L U]|[L U]]; rewrite U.
      + destruct (find_pivot_loop_spec (lb - 1) ks target comp (length ks - sz)) as [lo [F1 [F2 F3]]];
          auto.
        * fold sz. lia.
        * eauto.
        * fold sz. intros j k Hj Hk. assert (nth_error ks j = None) by (apply nth_error_None; lia).
          congruence.
        * fold sz in F1. rewrite F1. exists lo. auto.
      + destruct (find_pivot_loop_spec (lb - 1) ks target comp 0) as [lo [F1 [F2 F3]]]; auto.
        * fold sz. lia.
        * eauto.
        * fold sz. intros j k Hj Hk Lk. apply L.
          eapply low_mono with (i := length ks - sz) (j := j); eauto. lia.
        * fold sz in F1. rewrite F1. exists lo. auto.
  Qed.
End Find.
