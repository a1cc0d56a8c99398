(** * The packed array is an array of [b]-bit fields *)

From Coq Require Import List NArith Bool Lia ZifyN ZifyNat ZifyBool.
From Verif Require Import PackedArr.
Import ListNotations.
Local Open Scope N_scope.

Arguments two32 : simpl never.

Definition wf_words (a : words) : Prop := forall w, a w < 2 ^ 32.

Ltac bsimp := repeat progress (rewrite ?andb_false_r, ?andb_true_r, ?xorb_false_r, ?xorb_false_l, ?orb_false_r; cbn [andb xorb orb]).

Ltac bfin := repeat match goal with |- context [N.testbit ?x ?y] => destruct (N.testbit x y) end; reflexivity.

Lemma bits_lt : forall x n, (forall k, n <= k -> N.testbit x k = false) -> x < 2 ^ n.
Proof.
  intros x n H. destruct (N.eq_dec x 0) as [->|Hx]; [lia || (apply N.neq_0_lt_0, N.pow_nonzero; lia)|].
  apply N.log2_lt_pow2; [lia|].
  destruct (N.lt_ge_cases (N.log2 x) n) as [|C]; [assumption|].
  specialize (H _ C). rewrite N.bit_log2 in H by assumption. discriminate.
Qed.

Lemma lt_bits : forall x n k, x < 2 ^ n -> n <= k -> N.testbit x k = false.
Proof.
  intros x n k H1 H2. destruct (N.eq_dec x 0) as [->|Hx]; [apply N.bits_0|].
  apply N.bits_above_log2. apply N.log2_lt_pow2 in H1; lia.
Qed.

Lemma mod_bits : forall x n k, N.testbit (x mod 2 ^ n) k = (k <? n) && N.testbit x k.
Proof.
  intros x n k. destruct (k <? n) eqn:E.
  - rewrite N.mod_pow2_bits_low by lia. reflexivity.
  - rewrite N.mod_pow2_bits_high by lia. reflexivity.
Qed.

Lemma mask_bits : forall n k, N.testbit (mask32 n) k = (k <? n).
Proof.
  intros n k. unfold mask32. rewrite N.sub_1_r, <- N.ones_equiv. 
  destruct (k <? n) eqn:E; [apply N.ones_spec_low; lia | apply N.ones_spec_high; lia].
Qed.

Lemma shl_bits : forall x s k, N.testbit (shl32 x s) k = (k <? 32) && (s <=? k) && N.testbit x (k - s).
Proof.
  intros x s k. unfold shl32, two32. rewrite mod_bits. destruct (k <? 32); [|reflexivity]. cbn [andb].
  destruct (s <=? k) eqn:E.
  - rewrite N.shiftl_spec_high' by lia. reflexivity.
  - rewrite N.shiftl_spec_low by lia. reflexivity.
Qed.

Lemma not_bits : forall x k, N.testbit (not32 x) k = xorb (N.testbit x k) (k <? 32).
Proof. intros x k. unfold not32. rewrite N.lxor_spec. f_equal. apply mask_bits. Qed.

Lemma wset_same : forall a w v, wset a w v w = v.
Proof. intros. unfold wset. rewrite N.eqb_refl. reflexivity. Qed.

Lemma wset_other : forall a w v i, i <> w -> wset a w v i = a i.
Proof. intros a w v i H. unfold wset. destruct (N.eqb_spec i w); [contradiction|reflexivity]. Qed.

Lemma divmod32 : forall n, n = 32 * (n / 32) + n mod 32 /\ n mod 32 < 32.
Proof. intros n. split; [apply N.div_mod; lia | apply N.mod_lt; lia]. Qed.

Lemma div32 : forall w k, k < 32 -> (32 * w + k) / 32 = w.
Proof. intros w k H. symmetry. apply (N.div_unique _ 32 w k); [assumption|reflexivity]. Qed.

Lemma mod32 : forall w k, k < 32 -> (32 * w + k) mod 32 = k.
Proof. intros w k H. symmetry. apply (N.mod_unique _ 32 w k); [assumption|reflexivity]. Qed.

Lemma bit_of_at : forall a w k, k < 32 -> bit_of a (32 * w + k) = N.testbit (a w) k.
Proof. intros a w k H. unfold bit_of. rewrite div32, mod32 by assumption. reflexivity. Qed.

Lemma step_div : forall b p, p mod 32 + b < 32 -> (p + b) / 32 = p / 32 /\ (p + b) mod 32 = p mod 32 + b.
Proof.
  intros b p H. destruct (divmod32 p) as [E1 E2].
  replace (p + b) with (32 * (p / 32) + (p mod 32 + b)) by lia.
  rewrite div32, mod32 by lia. auto.
Qed.

Lemma step_div' : forall b p, b <= 32 -> 32 <= p mod 32 + b -> (p + b) / 32 = p / 32 + 1 /\ (p + b) mod 32 = p mod 32 + b - 32.
Proof.
  intros b p Hb H. destruct (divmod32 p) as [E1 E2].
  replace (p + b) with (32 * (p / 32 + 1) + (p mod 32 + b - 32)) by lia.
  rewrite div32, mod32 by lia. auto.
Qed.

Lemma case_bit : forall b off, start_bit b (off mod 32) = (off * b) mod 32.
Proof. intros b off. unfold start_bit. rewrite N.mul_mod_idemp_l by lia. reflexivity. Qed.

Lemma wf_wset : forall m w v, wf_words m -> v < 2 ^ 32 -> wf_words (wset m w v).
Proof.
  intros m w v H1 H2 i. unfold wset. destruct (i =? w); [assumption|apply H1].
Qed.

(** ** Packing *)

Section PACK.
Variable b : N.
Hypothesis Hb : 1 <= b <= 32.
Variable a : words.
Hypothesis Ha : wf_words a.
Variable T : N -> bool.

(** The state of the loop when the bits below [p] have been produced *)
Definition at_bit (p : N) (s : pst) : Prop :=
  p_out s = p / 32 /\
  (forall k, N.testbit (p_packed s) k = (k <? p mod 32) && T (32 * (p / 32) + k)) /\
  (forall n, n / 32 < p / 32 -> bit_of (p_mem s) n = T n) /\
  (forall w, p / 32 <= w -> p_mem s w = a w) /\
  wf_words (p_mem s).

Lemma cell_at : forall p i s v,
  start_bit b i = p mod 32 -> v < 2 ^ b -> (forall k, k < b -> T (p + k) = N.testbit v k) ->
  at_bit p s -> at_bit (p + b) (pack_cell b i s v).
Proof.
  intros p i s v Hi Hv HT (H1 & H2 & H3 & H4 & H5).
  destruct (divmod32 p) as [P1 P2].
  unfold pack_cell, bits_avail. rewrite Hi.
  set (st := p mod 32) in *. set (q := p / 32) in *.
  set (pk := N.lor (p_packed s) (shl32 v st)).
  assert (Hpk : forall k, N.testbit pk k = (k <? 32) && (k <? st + b) && T (32 * q + k)).
  { intros k. unfold pk. rewrite N.lor_spec, H2, shl_bits.
    destruct (N.lt_ge_cases k st) as [C|C].
    - replace (k <? st) with true by lia. replace (st <=? k) with false by lia.
      replace (k <? 32) with true by lia. replace (k <? st + b) with true by lia. cbn [andb orb].
      apply orb_false_r.
    - replace (k <? st) with false by lia. replace (st <=? k) with true by lia. cbn [andb orb].
      destruct (k <? 32) eqn:E; [|reflexivity]. cbn [andb].
      destruct (k <? st + b) eqn:E2.
      + cbn [andb]. replace (32 * q + k) with (p + (k - st)) by lia. rewrite HT by lia. reflexivity.
      + cbn [andb]. apply (lt_bits v b); [assumption|lia]. }
  assert (Hpl : pk < 2 ^ 32).
  { apply bits_lt. intros k Hk. rewrite Hpk. replace (k <? 32) with false by lia. reflexivity. }
  destruct (b <=? 32 - st) eqn:E1.
  - destruct (b =? 32 - st) eqn:E2.
    + destruct (step_div' b p) as [D1 D2]; [lia|fold st; lia|]. fold st q in D1, D2.
      unfold at_bit; cbn [p_out p_packed p_mem]. rewrite D1, D2.
      split; [lia|]. split.
      { intros k. rewrite N.bits_0. replace (k <? st + b - 32) with false by lia. reflexivity. }
      split.
      { intros n Hn. unfold bit_of. destruct (N.eq_dec (n / 32) q) as [C|C].
        - rewrite H1, C, wset_same, Hpk. destruct (divmod32 n) as [N1 N2].
          replace (n mod 32 <? 32) with true by lia. replace (n mod 32 <? st + b) with true by lia. cbn [andb].
          f_equal. lia.
        - rewrite wset_other by lia. apply H3. lia. }
      split.
      { intros w Hw. rewrite wset_other by lia. apply H4. lia. }
      apply wf_wset; assumption.
    + destruct (step_div b p) as [D1 D2]; [fold st; lia|]. fold st q in D1, D2.
      unfold at_bit; cbn [p_out p_packed p_mem]. rewrite D1, D2.
      split; [assumption|]. split; [|split; [|split]]; try assumption.
      intros k. rewrite Hpk. destruct (k <? 32) eqn:E3; [reflexivity|].
      replace (k <? st + b) with false by lia. reflexivity.
  - destruct (step_div' b p) as [D1 D2]; [lia|fold st; lia|]. fold st q in D1, D2.
    unfold at_bit; cbn [p_out p_packed p_mem]. rewrite D1, D2.
    split; [lia|]. split.
    { intros k. rewrite N.shiftr_spec' . destruct (k <? st + b - 32) eqn:E3.
      - cbn [andb]. replace (32 * (q + 1) + k) with (p + (k + (32 - st))) by lia. rewrite HT by lia. reflexivity.
      - apply (lt_bits v b); [assumption|lia]. }
    split.
    { intros n Hn. unfold bit_of. destruct (N.eq_dec (n / 32) q) as [C|C].
      - rewrite H1, C, wset_same, Hpk. destruct (divmod32 n) as [N1 N2].
        replace (n mod 32 <? 32) with true by lia. replace (n mod 32 <? st + b) with true by lia. cbn [andb].
        f_equal. lia.
      - rewrite wset_other by lia. apply H3. lia. }
    split.
    { intros w Hw. rewrite wset_other by lia. apply H4. lia. }
    apply wf_wset; assumption.
Qed.

Lemma cells_at : forall vs off s,
  Forall (fun v => v < 2 ^ b) vs ->
  (forall j k, j < N.of_nat (length vs) -> k < b ->
     T ((off + j) * b + k) = N.testbit (nth (N.to_nat j) vs 0) k) ->
  at_bit (off * b) s ->
  at_bit ((off + N.of_nat (length vs)) * b) (pack_cells b (off mod 32) s vs).
Proof.
  induction vs as [|v r IH]; intros off s Hv HT Hs.
  - cbn. rewrite N.add_0_r. assumption.
  - cbn [pack_cells length]. 
    replace ((off mod 32 + 1) mod 32) with ((off + 1) mod 32) by (rewrite N.add_mod_idemp_l by lia; reflexivity).
    replace ((off + N.of_nat (S (length r))) * b) with ((off + 1 + N.of_nat (length r)) * b) by lia.
    apply IH.
    + exact (Forall_inv_tail Hv).
    + intros j k Hj Hk. replace (off + 1 + j) with (off + (j + 1)) by lia. rewrite HT by (cbn [length]; lia).
      replace (N.to_nat (j + 1)) with (S (N.to_nat j)) by lia. reflexivity.
    + replace ((off + 1) * b) with (off * b + b) by lia. apply cell_at.
      * apply case_bit.
      * exact (Forall_inv Hv).
      * intros k Hk. specialize (HT 0 k). cbn [nth N.to_nat] in HT.
        replace (off * b + k) with ((off + 0) * b + k) by lia. apply HT; [cbn [length]; lia|assumption].
      * assumption.
Qed.

End PACK.

(** Everything that lies outside the packed range keeps its value *)
Section PACKEND.
Variable a : words.
Variable T : N -> bool.
Variables lo hi : N.
Hypothesis HT0 : forall n, n < lo \/ hi <= n -> T n = bit_of a n.

Lemma end_whole : forall s n, hi mod 32 = 0 -> at_bit a T hi s -> bit_of (p_mem s) n = T n.
Proof.
  intros s n Hh (H1 & H2 & H3 & H4 & H5). destruct (N.lt_ge_cases (n / 32) (hi / 32)) as [C|C]; [auto|].
  unfold bit_of. rewrite H4 by assumption. rewrite HT0; [reflexivity|].
  right. destruct (divmod32 hi), (divmod32 n). lia.
Qed.

Lemma end_part : forall s m n, m = mask32 (hi mod 32) -> at_bit a T hi s ->
  let mem := wset (p_mem s) (p_out s) (N.lor (p_packed s) (N.land (p_mem s (p_out s)) (not32 m))) in
  bit_of mem n = T n /\ wf_words mem.
Proof.
  intros s m n -> (H1 & H2 & H3 & H4 & H5) mem.
  assert (Hw : forall k, N.testbit (N.lor (p_packed s) (N.land (p_mem s (p_out s)) (not32 (mask32 (hi mod 32))))) k
                         = (k <? 32) && T (32 * (hi / 32) + k)).
  { intros k. destruct (divmod32 hi) as [X1 X2].
    rewrite N.lor_spec, N.land_spec, not_bits, mask_bits, H2, H1, H4 by lia.
    destruct (k <? hi mod 32) eqn:E1.
    - replace (k <? 32) with true by lia. cbn [xorb]. rewrite andb_false_r, orb_false_r. reflexivity.
    - cbn [andb orb]. destruct (k <? 32) eqn:E2; cbn [xorb].
      + rewrite andb_true_r. rewrite HT0 by lia. rewrite bit_of_at by lia. reflexivity.
      + rewrite andb_false_r. reflexivity. }
  split.
  - unfold bit_of, mem. destruct (N.eq_dec (n / 32) (hi / 32)) as [C|C].
    + rewrite H1, C, wset_same. rewrite <- H1, Hw. destruct (divmod32 n) as [N1 N2].
      replace (n mod 32 <? 32) with true by lia. cbn [andb]. f_equal. lia.
    + rewrite wset_other by (rewrite H1; assumption).
      destruct (N.lt_ge_cases (n / 32) (hi / 32)) as [D|D]; [apply H3; assumption|].
      rewrite H4 by assumption. rewrite HT0; [reflexivity|]. right.
      destruct (divmod32 hi), (divmod32 n). lia.
  - apply wf_wset; [assumption|]. apply bits_lt. intros k Hk. rewrite Hw. replace (k <? 32) with false by lia. reflexivity.
Qed.
End PACKEND.

(** What packing [vs] at item [off] leaves in bit [n] *)
Definition packed_bit (b : N) (a : words) (off : N) (vs : list N) (n : N) : bool :=
  if (off * b <=? n) && (n <? (off + N.of_nat (length vs)) * b)
  then N.testbit (nth (N.to_nat (n / b - off)) vs 0) (n mod b)
  else bit_of a n.

Lemma packed_bit_in : forall b a off vs j k, 1 <= b -> j < N.of_nat (length vs) -> k < b ->
  packed_bit b a off vs ((off + j) * b + k) = N.testbit (nth (N.to_nat j) vs 0) k.
Proof.
  intros b a off vs j k Hb Hj Hk. unfold packed_bit.
  assert (E1 : ((off + j) * b + k) / b = off + j).
  { symmetry. apply (N.div_unique _ _ _ k); [assumption|lia]. }
  assert (E2 : ((off + j) * b + k) mod b = k).
  { symmetry. apply (N.mod_unique _ _ (off + j)); [assumption|lia]. }
  rewrite E1, E2.
  replace (off * b <=? (off + j) * b + k) with true by (symmetry; apply N.leb_le; nia).
  replace ((off + j) * b + k <? (off + N.of_nat (length vs)) * b) with true by (symmetry; apply N.ltb_lt; nia).
  cbn [andb]. do 2 f_equal. lia.
Qed.

Lemma packed_bit_out : forall b a off vs n,
  n < off * b \/ (off + N.of_nat (length vs)) * b <= n -> packed_bit b a off vs n = bit_of a n.
Proof.
  intros b a off vs n H. unfold packed_bit.
  replace ((off * b <=? n) && (n <? (off + N.of_nat (length vs)) * b)) with false by lia. reflexivity.
Qed.

Lemma start_at : forall b a T off, wf_words a -> (forall n, n < off * b -> T n = bit_of a n) ->
  at_bit a T (off * b) (PSt (off * b / 32) (N.land (a (off * b / 32)) (mask32 ((off * b) mod 32))) a).
Proof.
  intros b a T off Ha HT. set (p := off * b) in *. destruct (divmod32 p) as [P1 P2].
  unfold at_bit; cbn [p_out p_packed p_mem]. split; [reflexivity|]. split.
  { intros k. rewrite N.land_spec, mask_bits, andb_comm. destruct (k <? p mod 32) eqn:E; [|reflexivity]. cbn [andb].
    rewrite HT by lia. rewrite bit_of_at by lia. reflexivity. }
  split.
  { intros n Hn. symmetry. apply HT. destruct (divmod32 n). lia. }
  auto.
Qed.

Lemma tail_spec : forall b a T lo off0 vs startBit s,
  1 <= b <= 32 -> wf_words a -> vs <> [] ->
  let hi := (off0 + N.of_nat (length vs)) * b in
  (forall n, n < lo \/ hi <= n -> T n = bit_of a n) ->
  Forall (fun v => v < 2 ^ b) vs ->
  (forall j k, j < N.of_nat (length vs) -> k < b ->
     T ((off0 + j) * b + k) = N.testbit (nth (N.to_nat j) vs 0) k) ->
  startBit = (off0 * b) mod 32 ->
  at_bit a T (off0 * b) s ->
  exists a', pack_tail b (off0 mod 32) startBit s vs = Some a' /\ wf_words a' /\ forall n, bit_of a' n = T n.
Proof.
  intros b a T lo off0 vs startBit s Hb Ha Hne hi HT0 Hv HT Hst Hs.
  assert (Hc := cells_at b Hb a T vs off0 s Hv HT Hs). fold hi in Hc.
  destruct vs as [|v r]; [contradiction|]. set (vs := v :: r) in *.
  unfold pack_tail. fold vs. change (match vs with [] => None | _ => ?x end) with x.
  cbv zeta. set (s' := pack_cells b (off0 mod 32) s vs) in *.
  set (c := N.of_nat (length vs)) in *.
  assert (Hm : (c * b + startBit) mod 32 = hi mod 32).
  { rewrite Hst, N.add_mod_idemp_r by lia. f_equal. unfold hi. lia. }
  rewrite Hm. destruct (hi mod 32 =? 0) eqn:E.
  - exists (p_mem s'). split; [reflexivity|]. split; [apply Hc|].
    intros n. apply (end_whole a T lo hi HT0 s' n); [lia|assumption].
  - assert (Hm2 : (c * b + startBit - 1) mod 32 + 1 = hi mod 32).
    { destruct (divmod32 (c * b + startBit)) as [X1 X2]. rewrite Hm in X1, X2.
      replace (c * b + startBit - 1) with (32 * ((c * b + startBit) / 32) + (hi mod 32 - 1)) by lia.
      rewrite mod32 by lia. lia. }
    rewrite Hm2. eexists. split; [reflexivity|]. split.
    + apply (end_part a T lo hi HT0 s' _ 0 eq_refl Hc).
    + intros n. apply (end_part a T lo hi HT0 s' _ n eq_refl Hc).
Qed.

Theorem pa_pack_spec : forall b a off vs,
  1 <= b <= 32 -> wf_words a -> vs <> [] -> Forall (fun v => v < 2 ^ b) vs ->
  exists a', pa_pack b a off vs = Some a' /\ wf_words a' /\ forall n, bit_of a' n = packed_bit b a off vs n.
Proof.
  intros b a off vs Hb Ha Hne Hv.
  assert (HT : forall j k, j < N.of_nat (length vs) -> k < b ->
     packed_bit b a off vs ((off + j) * b + k) = N.testbit (nth (N.to_nat j) vs 0) k)
    by (intros; apply packed_bit_in; [lia|assumption|assumption]).
  assert (HT0 := packed_bit_out b a off vs).
  assert (Hs := start_at b a (packed_bit b a off vs) off Ha (fun n Hn => HT0 n (or_introl Hn))).
  unfold pa_pack. replace ((1 <=? b) && (b <=? 32)) with true by lia. cbv zeta.
  destruct (divmod32 off) as [O1 O2].
  set (c := N.of_nat (length vs)) in *.
  destruct (32 - off mod 32 <=? c) eqn:E.
  - set (n := (c + off mod 32) / 32).
    assert (Hn : n = (c + off mod 32) / 32) by reflexivity.
    destruct (divmod32 (c + off mod 32)) as [N1 N2]. rewrite <- Hn in N1. clearbody n.
    set (f := 32 * n - off mod 32) in *.
    assert (Hf : f <= c) by (unfold f; lia).
    assert (Hlen : length (firstn (N.to_nat f) vs) = N.to_nat f) by (apply firstn_length_le; unfold c in Hf; lia).
    assert (Hc : at_bit a (packed_bit b a off vs) ((off + f) * b)
                   (pack_cells b (off mod 32) {| p_out := off * b / 32; p_packed := N.land (a (off * b / 32)) (mask32 ((off * b) mod 32)); p_mem := a |}
                      (firstn (N.to_nat f) vs))).
    { replace f with (N.of_nat (length (firstn (N.to_nat f) vs))) at 1 by (rewrite Hlen; lia).
      apply (cells_at b Hb); try assumption.
      - apply Forall_forall. intros x Hx. apply (proj1 (Forall_forall _ _) Hv). revert Hx. 
        rewrite <- (firstn_skipn (N.to_nat f) vs) at 2. intros Hx. apply in_or_app. left. assumption.
      - intros j k Hj Hk. rewrite Hlen in Hj. rewrite HT by (unfold c in *; lia || assumption).
        rewrite <- (firstn_skipn (N.to_nat f) vs) at 1. rewrite app_nth1 by (rewrite Hlen; lia). reflexivity. }
    set (s' := pack_cells _ _ _ _) in *.
    destruct (c - f =? 0) eqn:E2.
    + exists (p_mem s'). split; [reflexivity|]. split; [apply Hc|].
      assert (Hfc : f = c) by lia. rewrite Hfc in Hc.
      intros m. apply (end_whole a _ (off * b) ((off + c) * b)); [exact HT0| |assumption].
      replace ((off + c) * b) with ((n + off / 32) * b * 32) by (unfold f in Hfc; lia).
      apply N.mod_mul. lia.
    + assert (Hz : (off + f) mod 32 = 0).
      { replace (off + f) with ((n + off / 32) * 32) by (unfold f; lia). apply N.mod_mul. lia. }
      assert (Hsk : length (skipn (N.to_nat f) vs) = (length vs - N.to_nat f)%nat) by apply skipn_length.
      rewrite <- Hz. apply (tail_spec b a (packed_bit b a off vs) (off * b) (off + f)).
      * assumption.
      * assumption.
      * intros C. rewrite C in Hsk. cbn [length] in Hsk. unfold c in *. lia.
      * intros m Hm. apply HT0. fold c. rewrite Hsk in Hm. destruct Hm as [Hm|Hm]; [left; assumption|right].
        replace (off + c) with (off + f + N.of_nat (length vs - N.to_nat f)) by (unfold c in *; lia). assumption.
      * apply Forall_forall. intros x Hx. apply (proj1 (Forall_forall _ _) Hv).
        rewrite <- (firstn_skipn (N.to_nat f) vs). apply in_or_app. right. assumption.
      * intros j k Hj Hk. rewrite Hsk in Hj. replace (off + f + j) with (off + (f + j)) by lia.
        rewrite HT by (unfold c in *; lia || assumption).
        rewrite <- (firstn_skipn (N.to_nat f) vs) at 1. rewrite app_nth2 by (rewrite Hlen; lia).
        rewrite Hlen. do 2 f_equal. lia.
      * replace ((off + f) * b) with ((n + off / 32) * b * 32) by (unfold f; lia). rewrite N.mod_mul by lia. 
        assumption.
      * assumption.
  - apply (tail_spec b a (packed_bit b a off vs) (off * b) off); try assumption; try reflexivity.
Qed.

(** ** Reading one item *)

Lemma pa_get_bits : forall b a off k, b <= 32 -> wf_words a ->
  N.testbit (pa_get b a off) k = (k <? b) && bit_of a (off * b + k).
Proof.
  intros b a off k Hb Ha. unfold pa_get. cbv zeta.
  set (p := off * b). destruct (divmod32 p) as [P1 P2].
  destruct (b <=? 32 - p mod 32) eqn:E.
  - rewrite N.land_spec, N.shiftr_spec', mask_bits, andb_comm.
    destruct (k <? b) eqn:E2; [|reflexivity]. cbn [andb].
    replace (p + k) with (32 * (p / 32) + (k + p mod 32)) by lia. rewrite bit_of_at by lia. bfin.
  - rewrite N.lxor_spec, N.land_spec, N.lxor_spec, !shl_bits, !N.shiftr_spec', mask_bits.
    set (st := p mod 32) in *.
    destruct (N.lt_ge_cases k (32 - st)) as [C|C].
    + replace (32 - st <=? k) with false by lia. bsimp.
      replace (k <? b) with true by lia. cbn [andb].
      replace (p + k) with (32 * (p / 32) + (k + st)) by lia. rewrite bit_of_at by lia. bfin.
    + replace (32 - st <=? k) with true by lia. rewrite andb_true_r.
      replace (k - (32 - st) + (32 - st)) with k by lia.
      assert (L : N.testbit (a (p / 32)) (k + st) = false) by (apply (lt_bits _ 32); [apply Ha|lia]).
      rewrite L. cbn [xorb].
      destruct (k <? b) eqn:E2.
      * replace (k <? 32) with true by lia. bsimp.
        replace (p + k) with (32 * (p / 32 + 1) + (k - (32 - st))) by lia. rewrite bit_of_at by lia. bfin.
      * bsimp. bfin.
Qed.

(** The [i]-th [b]-bit field of the array is [v] *)
Definition is_item (b : N) (a : words) (i v : N) : Prop :=
  v < 2 ^ b /\ forall k, k < b -> bit_of a (i * b + k) = N.testbit v k.

Lemma is_item_unique : forall b a i v v', is_item b a i v -> is_item b a i v' -> v = v'.
Proof.
  intros b a i v v' [H1 H2] [H3 H4]. apply N.bits_inj. intros k. destruct (N.lt_ge_cases k b) as [C|C].
  - rewrite <- H2, <- H4 by assumption. reflexivity.
  - rewrite (lt_bits v b), (lt_bits v' b) by assumption. reflexivity.
Qed.

Theorem pa_get_spec : forall b a off, b <= 32 -> wf_words a -> is_item b a off (pa_get b a off).
Proof.
  intros b a off Hb Ha. split.
  - apply bits_lt. intros k Hk. rewrite pa_get_bits by assumption. replace (k <? b) with false by lia. reflexivity.
  - intros k Hk. rewrite pa_get_bits by assumption. replace (k <? b) with true by lia. reflexivity.
Qed.

(** ** Writing one item *)

Theorem pa_set_spec : forall b a off v, 1 <= b <= 32 -> wf_words a -> v < 2 ^ b ->
  exists a', pa_set b a off v = Some a' /\ wf_words a' /\ forall n, bit_of a' n = packed_bit b a off [v] n.
Proof.
  intros b a off v Hb Ha Hv.
  assert (HT : forall k, k < b -> packed_bit b a off [v] (off * b + k) = N.testbit v k).
  { intros k Hk. pose proof (packed_bit_in b a off [v] 0 k) as X. rewrite N.add_0_r in X. apply X; cbn [length]; lia. }
  assert (HT0 := packed_bit_out b a off [v]). cbn [length] in HT0.
  set (T := packed_bit b a off [v]) in *. clearbody T.
  unfold pa_set. cbv zeta.
  replace (N.land (not32 (mask32 b)) v =? 0) with true.
  2:{ symmetry. apply N.eqb_eq. apply N.bits_inj. intros k. rewrite N.land_spec, not_bits, mask_bits, N.bits_0.
      destruct (k <? b) eqn:E; [replace (k <? 32) with true by lia; reflexivity|].
      rewrite (lt_bits v b) by (assumption || lia). apply andb_false_r. }
  set (p := off * b) in *. destruct (divmod32 p) as [P1 P2]. set (st := p mod 32) in *. set (q := p / 32) in *.
  assert (Hlow : forall k, N.testbit (N.lor (N.land (a q) (not32 (shl32 (mask32 b) st))) (shl32 v st)) k
                  = (k <? 32) && T (32 * q + k)).
  { intros k. rewrite N.lor_spec, N.land_spec, not_bits, !shl_bits, mask_bits.
    destruct (k <? 32) eqn:E1; cbn [andb].
    - destruct (st <=? k) eqn:E2; cbn [andb].
      + destruct (k - st <? b) eqn:E3; cbn [xorb].
        * rewrite andb_false_r. cbn [orb]. replace (32 * q + k) with (p + (k - st)) by lia. rewrite HT by lia. bfin.
        * rewrite (lt_bits v b) by (assumption || lia). rewrite andb_true_r, orb_false_r.
          rewrite HT0 by lia. rewrite bit_of_at by lia. bfin.
      + cbn [xorb]. rewrite andb_true_r, orb_false_r. rewrite HT0 by lia. rewrite bit_of_at by lia. bfin.
    - cbn [xorb]. rewrite andb_false_r. reflexivity. }
  assert (Hll : N.lor (N.land (a q) (not32 (shl32 (mask32 b) st))) (shl32 v st) < 2 ^ 32).
  { apply bits_lt. intros k Hk. rewrite Hlow. replace (k <? 32) with false by lia. reflexivity. }
  set (x := N.lor (N.land (a q) (not32 (shl32 (mask32 b) st))) (shl32 v st)) in *. clearbody x.
  destruct (b <=? 32 - st) eqn:E.
  - eexists. split; [reflexivity|]. split; [apply wf_wset; assumption|].
    intros n. destruct (divmod32 n) as [N1 N2]. unfold bit_of. destruct (N.eq_dec (n / 32) q) as [C|C].
    + rewrite C, wset_same, Hlow. replace (n mod 32 <? 32) with true by lia. cbn [andb]. f_equal. lia.
    + rewrite wset_other by assumption. rewrite HT0 by lia. reflexivity.
  - rewrite (wset_other a q x (q + 1)) by lia.
    assert (Hhi : forall k, N.testbit (N.lor (N.land (a (q + 1)) (not32 (N.shiftr (mask32 b) (32 - st)))) (N.shiftr v (32 - st))) k
                  = (k <? 32) && T (32 * (q + 1) + k)).
    { intros k. rewrite N.lor_spec, N.land_spec, not_bits, !N.shiftr_spec', mask_bits.
      destruct (k <? 32) eqn:E1; cbn [andb].
      - destruct (k + (32 - st) <? b) eqn:E3; cbn [xorb].
        + rewrite andb_false_r. cbn [orb]. replace (32 * (q + 1) + k) with (p + (k + (32 - st))) by lia. rewrite HT by lia. bfin.
        + rewrite (lt_bits v b) by (assumption || lia). rewrite andb_true_r, orb_false_r.
          rewrite HT0 by lia. rewrite bit_of_at by lia. bfin.
      - replace (k + (32 - st) <? b) with false by lia. rewrite (lt_bits v b) by (assumption || lia).
        rewrite (lt_bits (a (q + 1)) 32) by (apply Ha || lia). reflexivity. }
    assert (Hhl : N.lor (N.land (a (q + 1)) (not32 (N.shiftr (mask32 b) (32 - st)))) (N.shiftr v (32 - st)) < 2 ^ 32).
    { apply bits_lt. intros k Hk. rewrite Hhi. replace (k <? 32) with false by lia. reflexivity. }
    eexists. split; [reflexivity|]. split; [apply wf_wset; [apply wf_wset|]; assumption|].
    intros n. destruct (divmod32 n) as [N1 N2]. unfold bit_of. destruct (N.eq_dec (n / 32) (q + 1)) as [C|C].
    + rewrite C, wset_same, Hhi. replace (n mod 32 <? 32) with true by lia. cbn [andb]. f_equal. lia.
    + rewrite wset_other by assumption. destruct (N.eq_dec (n / 32) q) as [D|D].
      * rewrite D, wset_same, Hlow. replace (n mod 32 <? 32) with true by lia. cbn [andb]. f_equal. lia.
      * rewrite wset_other by assumption. rewrite HT0 by lia. reflexivity.
Qed.

(** ** Unpacking *)

Fixpoint items_from (b : N) (a : words) (off : N) (n : nat) : list N :=
  match n with O => [] | S n' => pa_get b a off :: items_from b a (off + 1) n' end.

Lemma items_from_app : forall b a n m off,
  items_from b a off (n + m) = items_from b a off n ++ items_from b a (off + N.of_nat n) m.
Proof.
  intros b a n. induction n as [|n IH]; intros m off.
  - cbn. rewrite N.add_0_r. reflexivity.
  - cbn [items_from Nat.add app]. rewrite IH. do 3 f_equal. lia.
Qed.

Lemma unpack_cells_SS : forall b i a s n, unpack_cells b i a s (S (S n)) =
  let (v, s1) := unpack_item b i a s in
  let s2 := unpack_load b i a s1 in
  let s3 := if i =? 31 then USt (u_in s2 + 1) (a (u_in s2 + 1)) else s2 in
  let (vs, s4) := unpack_cells b ((i + 1) mod 32) a s3 (S n) in
  (v :: vs, s4).
Proof. reflexivity. Qed.

Section UNPACK.
Variable b : N.
Hypothesis Hb : 1 <= b <= 32.
Variable a : words.
Hypothesis Ha : wf_words a.

Definition loaded (p : N) (s : ust) : Prop := u_in s = p / 32 /\ u_packed s = a (p / 32).

Lemma item_spec : forall off s, loaded (off * b) s ->
  exists s1, unpack_item b (off mod 32) a s = (pa_get b a off, s1) /\
    (if b =? bits_avail b (off mod 32) then s1 = s else loaded ((off + 1) * b) s1).
Proof.
  intros off s [H1 H2]. unfold unpack_item, bits_avail, pa_get. rewrite (case_bit b off), H1, H2. cbv zeta.
  set (p := off * b). destruct (divmod32 p) as [P1 P2].
  replace ((off + 1) * b) with (p + b) by (unfold p; lia).
  destruct (b <=? 32 - p mod 32) eqn:E.
  - eexists. split; [reflexivity|]. destruct (b =? 32 - p mod 32) eqn:E2; [reflexivity|].
    destruct (step_div b p) as [D1 D2]; [lia|]. unfold loaded. rewrite D1. split; assumption.
  - eexists. split.
    + f_equal.
      apply N.bits_inj. intros k.
      rewrite N.lxor_spec, !N.land_spec, N.lor_spec, N.lxor_spec, !shl_bits, !N.shiftr_spec', !mask_bits.
      set (st := p mod 32) in *.
      destruct (N.lt_ge_cases k (32 - st)) as [C|C].
      * replace (32 - st <=? k) with false by lia. bsimp.
        replace (k <? b) with true by lia. apply andb_true_r.
      * replace (32 - st <=? k) with true by lia. rewrite andb_true_r.
        replace (k - (32 - st) + (32 - st)) with k by lia.
        rewrite (lt_bits (a (p / 32)) 32) by (apply Ha || lia). cbn [xorb orb].
        destruct (k <? b) eqn:E2.
        -- replace (k <? 32) with true by lia. bsimp. bfin.
        -- rewrite !andb_false_r. reflexivity.
    + replace (b =? 32 - p mod 32) with false by lia.
      destruct (step_div' b p) as [D1 D2]; [lia|lia|]. unfold loaded. rewrite D1. split; reflexivity.
Qed.

Lemma case31 : forall off, off mod 32 = 31 -> b = bits_avail b (off mod 32).
Proof.
  intros off H. unfold bits_avail, start_bit. rewrite H. 
  assert (E : (31 * b) mod 32 = 32 - b).
  { symmetry. apply (N.mod_unique _ _ (b - 1)); lia. }
  rewrite E. lia.
Qed.

Lemma load_spec : forall off s s1, loaded (off * b) s ->
  (if b =? bits_avail b (off mod 32) then s1 = s else loaded ((off + 1) * b) s1) ->
  if off mod 32 =? 31
  then unpack_load b (off mod 32) a s1 = s1 /\ loaded ((off + 1) * b) (USt (u_in s1 + 1) (a (u_in s1 + 1)))
  else loaded ((off + 1) * b) (unpack_load b (off mod 32) a s1).
Proof.
  intros off s s1 [H1 H2] H3. unfold unpack_load.
  destruct (divmod32 (off * b)) as [P1 P2]. destruct (divmod32 off) as [Q1 Q2].
  destruct (b =? bits_avail b (off mod 32)) eqn:E.
  - assert (D : loaded ((off + 1) * b) (USt (u_in s1 + 1) (a (u_in s1 + 1)))).
    { subst s1. replace ((off + 1) * b) with (off * b + b) by lia.
      destruct (step_div' b (off * b)) as [D1 D2]; [lia| |].
      { apply N.eqb_eq in E. unfold bits_avail in E. rewrite case_bit in E. lia. }
      unfold loaded. rewrite D1, H1. split; reflexivity. }
    destruct (off mod 32 =? 31) eqn:E2.
    + replace (off mod 32 <? 31) with false by lia. split; [reflexivity|assumption].
    + replace (off mod 32 <? 31) with true by lia. assumption.
  - rewrite andb_false_r. destruct (off mod 32 =? 31) eqn:E2; [|assumption].
    exfalso. apply N.eqb_eq in E2. apply case31 in E2. rewrite <- E2 in E. rewrite N.eqb_refl in E. discriminate.
Qed.

Lemma unpack_cells_spec : forall n off s, loaded (off * b) s ->
  exists s', unpack_cells b (off mod 32) a s (S n) = (items_from b a off (S n), s') /\
    ((off + N.of_nat (S n)) mod 32 = 0 -> loaded ((off + N.of_nat (S n)) * b) (USt (u_in s' + 1) (a (u_in s' + 1)))).
Proof.
  induction n as [|n IH]; intros off s Hs.
  - destruct (item_spec off s Hs) as (s1 & E1 & E2). pose proof (load_spec off s s1 Hs E2) as L.
    cbn [unpack_cells]. rewrite E1. eexists. split; [reflexivity|].
    intros Hz. destruct (off mod 32 =? 31) eqn:E3.
    + destruct L as [-> L]. exact L.
    + exfalso. change (N.of_nat 1) with 1 in Hz. destruct (divmod32 off) as [X1 X2], (divmod32 (off + 1)) as [Y1 Y2]. rewrite Hz in Y1. lia.
  - destruct (item_spec off s Hs) as (s1 & E1 & E2). pose proof (load_spec off s s1 Hs E2) as L.
    assert (L2 : loaded ((off + 1) * b)
      (if off mod 32 =? 31 then USt (u_in (unpack_load b (off mod 32) a s1) + 1) (a (u_in (unpack_load b (off mod 32) a s1) + 1))
       else unpack_load b (off mod 32) a s1)).
    { destruct (off mod 32 =? 31); [destruct L as [-> L]|]; assumption. }
    destruct (IH (off + 1) _ L2) as (s' & E3 & E4).
    replace ((off + 1) mod 32) with ((off mod 32 + 1) mod 32) in E3 by (rewrite N.add_mod_idemp_l by lia; reflexivity).
    exists s'. split.
    + rewrite unpack_cells_SS, E1. cbv zeta. rewrite E3. reflexivity.
    + intros Hz. replace (off + N.of_nat (S (S n))) with (off + 1 + N.of_nat (S n)) in * by lia. auto.
Qed.

Lemma unpack_tail_spec : forall n off s, loaded (off * b) s -> off mod 32 + N.of_nat n < 32 ->
  unpack_tail_cells b (off mod 32) a s n = items_from b a off n.
Proof.
  induction n as [|n IH]; intros off s Hs Hn; [reflexivity|].
  destruct (item_spec off s Hs) as (s1 & E1 & E2). pose proof (load_spec off s s1 Hs E2) as L.
  cbn [unpack_tail_cells items_from]. rewrite E1. destruct n as [|n]; [reflexivity|].
  assert (E31 : (off mod 32 =? 31) = false) by lia. rewrite E31 in L. 
  f_equal. destruct (divmod32 off) as [X1 X2].
  assert (E : off mod 32 + 1 = (off + 1) mod 32).
  { replace (off + 1) with (32 * (off / 32) + (off mod 32 + 1)) by lia. rewrite mod32 by lia. reflexivity. }
  rewrite E. apply IH; [assumption|]. rewrite <- E. lia.
Qed.
End UNPACK.

Theorem pa_unpack_spec : forall b a off count, 1 <= b <= 32 -> wf_words a -> (0 < count)%nat ->
  pa_unpack b a off count = Some (items_from b a off count).
Proof.
  intros b a off count Hb Ha Hc. unfold pa_unpack. replace ((1 <=? b) && (b <=? 32)) with true by lia. cbv zeta.
  destruct (divmod32 off) as [O1 O2].
  assert (Hs : loaded a (off * b) (USt (off * b / 32) (a (off * b / 32)))) by (split; reflexivity).
  set (s := USt _ _) in *.
  destruct (32 - off mod 32 <=? N.of_nat count) eqn:E.
  - set (n := (N.of_nat count + off mod 32) / 32).
    assert (Hn : n = (N.of_nat count + off mod 32) / 32) by reflexivity.
    destruct (divmod32 (N.of_nat count + off mod 32)) as [N1 N2]. rewrite <- Hn in N1. clearbody n.
    set (f := 32 * n - off mod 32) in *.
    assert (Hf : f <= N.of_nat count) by (unfold f; lia). assert (Hf1 : 0 < f) by (unfold f; lia).
    destruct (unpack_cells_spec b Hb a Ha (N.to_nat f - 1) off s Hs) as (s' & E1 & E2).
    replace (S (N.to_nat f - 1)) with (N.to_nat f) in * by lia. rewrite E1.
    assert (Hz : (off + N.of_nat (N.to_nat f)) mod 32 = 0).
    { replace (off + N.of_nat (N.to_nat f)) with ((n + off / 32) * 32) by (unfold f; lia). apply N.mod_mul. lia. }
    destruct (N.of_nat count - f =? 0) eqn:E3.
    + replace (N.to_nat f) with count by lia. reflexivity.
    + specialize (E2 Hz). unfold unpack_tail.
      destruct (count - N.to_nat f)%nat as [|m] eqn:Em; [lia|].
      assert (Em' : count = (N.to_nat f + S m)%nat) by lia.
      assert (Hf2 : f + N.of_nat (S m) < 32 * n - off mod 32 + 32) by (rewrite Em' in N1, N2; unfold f in *; lia).
      rewrite Em', items_from_app. rewrite <- Hz. rewrite unpack_tail_spec; [reflexivity| | | |]; try assumption.
      rewrite Hz. unfold f in Hf2. unfold f. lia.
  - unfold unpack_tail. destruct count as [|count]; [lia|]. rewrite unpack_tail_spec; try assumption; [reflexivity|lia].
Qed.
