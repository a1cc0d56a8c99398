(** * C11, C12: searches inside pages and trunk nodes *)

From Coq Require Import List ZArith Arith Lia.
From Verif Require Import Base Spec Search SearchProofs DataProofs Witness.
Import ListNotations.

(** ** C11: page search

    [idx] is the last entry whose key is at most the target, -1 if there is
    none; [found] says the target itself is present. *)
Theorem C11_page_search : forall cfg ks target,
  total_order (key_compare cfg) -> increasing cfg ks ->
  exists idx found, btree_find cfg ks target = Some (idx, found) /\
    (-1 <= idx < Z.of_nat (length ks))%Z /\
    (forall i k, nth_error ks i = Some k ->
       ((Z.of_nat i <= idx)%Z <-> (data_key_compare cfg k target <= 0)%Z)) /\
    (found = true <-> In target ks) /\
    (found = true -> exists i, Z.of_nat i = idx /\ nth_error ks i = Some target).
Proof.
  intros cfg ks target TO I. unfold btree_find.
  destruct (btree_find_loop_spec cfg TO (S (length ks)) ks target 0 (length ks))
    as [idx [found [E [B [S [F1 F2]]]]]]; auto; try lia.
  - intros i k Hi Hk. assert (nth_error ks i = None) by (apply nth_error_None; lia). congruence.
  - exists idx, found. repeat split; try apply S; try apply F2; try tauto; auto.
Qed.

(** ** C12: trunk routing

    For the two modes the callers use.  The first pivot of the root and the
    search's start pivot precede every routed key, which is the premise on
    [k0]; trunk.c:1648-1650 asserts the same. *)
Theorem C12_route_less_than_or_equal : forall cfg ks target k0,
  total_order (key_compare cfg) -> increasing cfg ks ->
  nth_error ks 0 = Some k0 -> (data_key_compare cfg k0 target <= 0)%Z ->
  exists c, trunk_find_pivot cfg ks target LessThanOrEqual = Some c /\
    c < length ks /\
    (forall i k, nth_error ks i = Some k -> (i <= c <-> (data_key_compare cfg k target <= 0)%Z)).
Proof.
  intros cfg ks target k0 TO I H0 L0.
  destruct (trunk_find_pivot_lo cfg TO ks target LessThanOrEqual k0 I H0 L0) as [lo [E [[k [Hk Lk]] U]]].
  exists lo. split; auto. split; [apply nth_error_Some; congruence|].
  intros i ki Hi. unfold low, strict_of in *. split; intros H.
  - apply (low_mono cfg TO false target ks i lo ki k I H Hi Hk Lk).
  - destruct (Nat.le_gt_cases i lo); auto. exfalso. apply (U i ki); auto.
Qed.

Theorem C12_route_less_than : forall cfg ks target k0,
  total_order (key_compare cfg) -> increasing cfg ks ->
  nth_error ks 0 = Some k0 -> (data_key_compare cfg k0 target < 0)%Z ->
  exists c, trunk_find_pivot cfg ks target LessThan = Some c /\
    c < length ks /\
    (forall i k, nth_error ks i = Some k -> (i <= c <-> (data_key_compare cfg k target < 0)%Z)).
Proof.
  intros cfg ks target k0 TO I H0 L0.
  destruct (trunk_find_pivot_lo cfg TO ks target LessThan k0 I H0 L0) as [lo [E [[k [Hk Lk]] U]]].
  exists lo. split; auto. split; [apply nth_error_Some; congruence|].
  intros i ki Hi. unfold low, strict_of in *. split; intros H.
  - apply (low_mono cfg TO true target ks i lo ki k I H Hi Hk Lk).
  - destruct (Nat.le_gt_cases i lo); auto. exfalso. apply (U i ki); auto.
Qed.

(** The two "greater" modes return the first pivot above the target, again
    provided the first pivot is not itself above it. *)
Theorem C12_route_greater : forall cfg ks target k0,
  total_order (key_compare cfg) -> increasing cfg ks -> nth_error ks 0 = Some k0 ->
  ((data_key_compare cfg k0 target <= 0)%Z ->
     exists c, trunk_find_pivot cfg ks target GreaterThan = Some c /\ c <= length ks /\
       forall i k, nth_error ks i = Some k -> (c <= i <-> (data_key_compare cfg k target > 0)%Z)) /\
  ((data_key_compare cfg k0 target < 0)%Z ->
     exists c, trunk_find_pivot cfg ks target GreaterThanOrEqual = Some c /\ c <= length ks /\
       forall i k, nth_error ks i = Some k -> (c <= i <-> (data_key_compare cfg k target >= 0)%Z)).
Proof.
  intros cfg ks target k0 TO I H0. split; intros L0.
  - destruct (trunk_find_pivot_lo cfg TO ks target GreaterThan k0 I H0 L0) as [lo [E [[k [Hk Lk]] U]]].
    assert (lo < length ks) by (apply nth_error_Some; congruence).
    exists (lo + 1). split; auto. split; [lia|]. unfold low, strict_of in *.
    intros i ki Hi. destruct (Nat.le_gt_cases i lo) as [C|C].
    + pose proof (low_mono cfg TO false target ks i lo ki k I C Hi Hk Lk). unfold low in *. lia.
    + pose proof (U i ki C Hi). lia.
  - destruct (trunk_find_pivot_lo cfg TO ks target GreaterThanOrEqual k0 I H0 L0) as [lo [E [[k [Hk Lk]] U]]].
    assert (lo < length ks) by (apply nth_error_Some; congruence).
    exists (lo + 1). split; auto. split; [lia|]. unfold low, strict_of in *.
    intros i ki Hi. destruct (Nat.le_gt_cases i lo) as [C|C].
    + pose proof (low_mono cfg TO true target ks i lo ki k I C Hi Hk Lk). unfold low in *. lia.
    + pose proof (U i ki C Hi). lia.
Qed.

(** Without that premise the "greater" modes are wrong on nodes with two or
    more children: the first pivot qualifies, the search answers the second. *)
Theorem C12_greater_without_premise_refuted :
  exists cfg ks target,
    total_order (key_compare cfg) /\ increasing cfg ks /\
    (exists k0, nth_error ks 0 = Some k0 /\ (data_key_compare cfg k0 target > 0)%Z) /\
    trunk_find_pivot cfg ks target GreaterThan = Some 1.
Proof.
  exists append_cfg, [KUser [5%N]; KUser [9%N]], (KUser [1%N]).
  split; [apply lex_compare_total|]. split.
  { intros i j a b L Ha Hb. destruct i as [|[|i]]; destruct j as [|[|j]]; simpl in *; try lia;
      try discriminate.
    - inversion Ha; inversion Hb; subst. vm_compute. reflexivity.
    - destruct j; discriminate.
    - destruct j; discriminate. 
    - destruct i; discriminate. }
  split; [|vm_compute; reflexivity].
  eexists. split; [reflexivity|]. vm_compute. reflexivity.
Qed.

(** Non-vacuity: a five-pivot node over the append configuration. *)
Example C12_example :
  let ks := [KNegInf; KUser [2%N]; KUser [4%N]; KUser [6%N]; KUser [8%N]] in
  trunk_find_pivot append_cfg ks (KUser [7%N]) LessThanOrEqual = Some 3 /\
  btree_find append_cfg ks (KUser [4%N]) = Some (2%Z, true) /\
  btree_find append_cfg ks (KUser [1%N]) = Some (0%Z, false) /\
  increasing append_cfg ks.
Proof.
  cbv zeta. split; [vm_compute; reflexivity|]. split; [vm_compute; reflexivity|].
  split; [vm_compute; reflexivity|].
  intros i j a b L Ha Hb.
  do 5 (destruct i as [|i]; [do 5 (destruct j as [|j]; simpl in *;
    [try lia; inversion Ha; inversion Hb; subst; vm_compute; reflexivity|]);
    destruct j; discriminate|]). destruct i; discriminate.
Qed.

Print Assumptions C11_page_search.
Print Assumptions C12_route_less_than_or_equal.
Print Assumptions C12_route_less_than.
Print Assumptions C12_route_greater.
Print Assumptions C12_greater_without_premise_refuted.
