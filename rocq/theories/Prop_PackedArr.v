(** * C15: packed integer arrays round-trip *)

From Coq Require Import List NArith Bool Lia ZifyN ZifyNat ZifyBool.
From Verif Require Import PackedArr PackedArrProofs.
Import ListNotations.
Local Open Scope N_scope.

(** Packing any non-empty list of [b]-bit integers at any item number succeeds;
    afterwards each of them is read back, alone and with its neighbours, and every
    bit outside the packed fields is what it was. *)
Theorem C15_pack_round_trip : forall b a off vs,
  1 <= b <= 32 -> wf_words a -> vs <> [] -> Forall (fun v => v < 2 ^ b) vs ->
  exists a', pa_pack b a off vs = Some a' /\ wf_words a' /\
    pa_unpack b a' off (length vs) = Some vs /\
    (forall j v, nth_error vs j = Some v -> pa_get b a' (off + N.of_nat j) = v) /\
    (forall n, n < off * b \/ (off + N.of_nat (length vs)) * b <= n -> bit_of a' n = bit_of a n).
Proof.
  intros b a off vs Hb Ha Hne Hv.
  destruct (pa_pack_spec b a off vs Hb Ha Hne Hv) as (a' & E & Ha' & HB).
  exists a'. split; [assumption|]. split; [assumption|].
  assert (G : forall j v, nth_error vs j = Some v -> pa_get b a' (off + N.of_nat j) = v).
  { intros j v Hj. assert (Hl : (j < length vs)%nat) by (apply nth_error_Some; rewrite Hj; discriminate).
    apply (is_item_unique b a' (off + N.of_nat j)).
    - apply pa_get_spec; [lia|assumption].
    - split.
      + apply (proj1 (Forall_forall _ _) Hv). apply (nth_error_In _ _ Hj).
      + intros k Hk. rewrite HB, packed_bit_in by (assumption || lia).
        rewrite Nat2N.id. rewrite (nth_error_nth _ _ 0 Hj). reflexivity. }
  split; [|split].
  - rewrite pa_unpack_spec; [|assumption|assumption|destruct vs; [contradiction|cbn; lia]]. f_equal.
    clear - G. revert off G. induction vs as [|v r IH]; intros off G; [reflexivity|].
    cbn [length items_from]. f_equal.
    + specialize (G O v eq_refl). cbn in G. rewrite N.add_0_r in G. assumption.
    + apply IH. intros j x Hj. specialize (G (S j) x Hj).
      replace (off + 1 + N.of_nat j) with (off + N.of_nat (S j)) by lia. assumption.
  - assumption.
  - intros n Hn. rewrite HB. apply packed_bit_out. assumption.
Qed.
Print Assumptions C15_pack_round_trip.

(** In any array the field read alone is the field read with its neighbours, and
    it is the number whose binary digits are bits [i*b .. i*b+b-1] of the array. *)
Theorem C15_reads_agree : forall b a off count, 1 <= b <= 32 -> wf_words a -> (0 < count)%nat ->
  exists vs, pa_unpack b a off count = Some vs /\ length vs = count /\
    forall j v, nth_error vs j = Some v ->
      pa_get b a (off + N.of_nat j) = v /\ is_item b a (off + N.of_nat j) v.
Proof.
  intros b a off count Hb Ha Hc. exists (items_from b a off count).
  split; [apply pa_unpack_spec; assumption|]. clear Hc. revert off.
  induction count as [|c IH]; intros off; [split; [reflexivity|intros [|j] v H; discriminate]|].
  destruct (IH (off + 1)) as [I1 I2]. cbn [items_from length]. split; [congruence|].
  intros [|j] v H.
  - cbn in H. injection H as <-. rewrite N.add_0_r. split; [reflexivity|]. apply pa_get_spec; [lia|assumption].
  - cbn [nth_error] in H. destruct (I2 j v H) as [X1 X2].
    replace (off + N.of_nat (S j)) with (off + 1 + N.of_nat j) by lia. auto.
Qed.
Print Assumptions C15_reads_agree.

(** Writing one field changes that field only. *)
Theorem C15_set_changes_one_item : forall b a off v, 1 <= b <= 32 -> wf_words a -> v < 2 ^ b ->
  exists a', pa_set b a off v = Some a' /\ wf_words a' /\
    pa_get b a' off = v /\ (forall i, i <> off -> pa_get b a' i = pa_get b a i).
Proof.
  intros b a off v Hb Ha Hv.
  destruct (pa_set_spec b a off v Hb Ha Hv) as (a' & E & Ha' & HB).
  exists a'. split; [assumption|]. split; [assumption|]. split.
  - apply (is_item_unique b a' off); [apply pa_get_spec; [lia|assumption]|]. split; [assumption|].
    intros k Hk. rewrite HB. pose proof (packed_bit_in b a off [v] 0 k) as X. rewrite N.add_0_r in X.
    rewrite X by (cbn [length]; lia). reflexivity.
  - intros i Hi. apply (is_item_unique b a' i); [apply pa_get_spec; [lia|assumption]|].
    destruct (pa_get_spec b a i) as [G1 G2]; [lia|assumption|]. split; [assumption|].
    intros k Hk. rewrite HB, packed_bit_out; [apply G2; assumption|]. cbn [length]. nia.
Qed.
Print Assumptions C15_set_changes_one_item.

(** Limits that the code leaves to its callers.  Packing no items at all runs
    through all the cases and fails the assertion of line 247 (unless the width is
    one the dispatch ignores). *)
Theorem C15_pack_nothing_refuted :
  ~ (forall b a off vs, 1 <= b <= 32 -> wf_words a -> Forall (fun v => v < 2 ^ b) vs ->
       exists a', pa_pack b a off vs = Some a').
Proof.
  intros H. destruct (H 8 (fun _ => 0) 3 []) as [a' E]; [lia|intros w; lia|constructor|].
  vm_compute in E. discriminate.
Qed.
Print Assumptions C15_pack_nothing_refuted.

(** Packing does not check its items: one that is too wide damages its neighbour,
    although [pa_set] refuses the same value. *)
Theorem C15_wide_items_refuted :
  ~ (forall b a off vs a', 1 <= b <= 32 -> wf_words a -> pa_pack b a off vs = Some a' ->
       forall j v, nth_error vs j = Some v -> v < 2 ^ b -> pa_get b a' (off + N.of_nat j) = v).
Proof.
  intros H.
  assert (X : pa_get 8 (match pa_pack 8 (fun _ => 0) 0 [256; 2] with Some a' => a' | None => fun _ => 0 end) (0 + N.of_nat 1) = 2).
  { apply (H 8 (fun _ => 0) 0 [256; 2] _); [lia|intros w; lia|reflexivity|reflexivity|reflexivity]. }
  vm_compute in X. discriminate.
Qed.
Print Assumptions C15_wide_items_refuted.

(** 70 items of 11 bits, packed at item 29 of an array of ones: words are
    straddled, the unrolled loop runs two and a half times. *)
Example C15_example :
  let a := fun _ => 4294967295 in
  let vs := map (fun i => (N.of_nat i * 37) mod 2048) (seq 0 70) in
  (Forall (fun v => v < 2 ^ 11) vs /\ vs <> []) /\
  match pa_pack 11 a 29 vs with
  | Some a' => pa_unpack 11 a' 29 70 = Some vs /\ pa_get 11 a' 28 = 2047 /\ pa_get 11 a' 99 = 2047
               /\ pa_get 11 a' 60 = 1147
  | None => False
  end.
Proof.
  split; [split; [|discriminate]|vm_compute; repeat split].
  apply Forall_forall. intros x Hx. apply in_map_iff in Hx. destruct Hx as (i & <- & _).
  apply N.mod_lt. lia.
Qed.
