(** * The radix sort sorts *)

From Coq Require Import List NArith Arith Bool Lia Permutation Sorted ZifyN ZifyNat ZifyBool.
From Verif Require Import PackedArr PackedArrProofs Filter.
Import ListNotations.
Local Open Scope N_scope.

Lemma byte_lt : forall u j, byte_of u j < 256.
Proof. intros u j. unfold byte_of. apply N.mod_lt. lia. Qed.

Definition cls (j c : N) (l : list N) : list N := List.filter (fun u => byte_of u j =? c) l.
Definition buckets (j : N) (l : list N) (n : nat) : list N := flat_map (fun c => cls j (N.of_nat c) l) (seq 0 n).

Lemma buckets_S : forall j l n, buckets j l (S n) = buckets j l n ++ cls j (N.of_nat n) l.
Proof.
  intros j l n. unfold buckets. rewrite seq_S, flat_map_app. cbn [flat_map Nat.add]. rewrite app_nil_r. reflexivity.
Qed.

Lemma buckets_cons : forall j u l n,
  if byte_of u j <? N.of_nat n then Permutation (buckets j (u :: l) n) (u :: buckets j l n)
  else buckets j (u :: l) n = buckets j l n.
Proof.
  intros j u l n. induction n as [|n IH].
  { replace (byte_of u j <? N.of_nat 0) with false by lia. reflexivity. }
  rewrite !buckets_S. unfold cls at 1 3. cbn [List.filter].
  destruct (byte_of u j =? N.of_nat n) eqn:E1.
  - replace (byte_of u j <? N.of_nat (S n)) with true by lia.
    replace (byte_of u j <? N.of_nat n) with false in IH by lia. rewrite IH.
    symmetry. apply Permutation_middle.
  - destruct (byte_of u j <? N.of_nat n) eqn:E2.
    + replace (byte_of u j <? N.of_nat (S n)) with true by lia.
      change (Permutation (buckets j (u :: l) n ++ cls j (N.of_nat n) l) ((u :: buckets j l n) ++ cls j (N.of_nat n) l)).
      apply Permutation_app_tail. assumption.
    + replace (byte_of u j <? N.of_nat (S n)) with false by lia. rewrite IH. reflexivity.
Qed.

Lemma buckets_perm : forall j l, Permutation (buckets j l 256) l.
Proof.
  intros j l. induction l as [|u l IH].
  - unfold buckets. clear. assert (H : forall n, flat_map (fun c => cls j (N.of_nat c) []) (seq 0 n) = []).
    { intros n. generalize O. induction n as [|n IH]; intros s; [reflexivity|]. cbn. apply IH. }
    rewrite H. constructor.
  - pose proof (buckets_cons j u l 256) as H. pose proof (byte_lt u j).
    replace (byte_of u j <? N.of_nat 256) with true in H by (change (N.of_nat 256) with 256; lia).
    rewrite H. constructor. assumption.
Qed.

Lemma buckets_length : forall j l n, N.of_nat (length (buckets j l n)) = sum_below (fun c => N.of_nat (length (cls j c l))) n.
Proof.
  intros j l n. induction n as [|n IH]; [reflexivity|]. rewrite buckets_S, app_length. cbn [sum_below]. lia.
Qed.

Lemma sum_below_ext : forall h h' n, (forall c, c < N.of_nat n -> h c = h' c) -> sum_below h n = sum_below h' n.
Proof.
  intros h h' n. induction n as [|n IH]; intros H; [reflexivity|]. cbn [sum_below]. rewrite IH, H by lia || (intros; apply H; lia). reflexivity.
Qed.

Lemma sum_below_mono : forall h n m, (n <= m)%nat -> sum_below h n <= sum_below h m.
Proof. intros h n m H. induction H; [lia|]. cbn [sum_below]. lia. Qed.

Section PASS.
Variable j : N.
Variable src : list N.
Variable h : N -> N.
Hypothesis Hh : forall c, c < 256 -> h c = N.of_nat (length (cls j c src)).

Definition base (c : N) : N := sum_below h (N.to_nat c).

Definition pinv (s : list N) (st : rpass) : Prop :=
  (forall c, c < 256 -> rp_idx st c = base c + N.of_nat (length (cls j c s))) /\
  (forall c k x, c < 256 -> nth_error (cls j c s) k = Some x -> rp_dst st (base c + N.of_nat k) = x).

Lemma base_total : base 256 = N.of_nat (length src).
Proof.
  unfold base. change (N.to_nat 256) with 256%nat.
  rewrite (sum_below_ext h (fun c => N.of_nat (length (cls j c src))) 256).
  - rewrite <- buckets_length. f_equal. apply Permutation_length, buckets_perm.
  - intros c Hc. apply Hh. exact Hc.
Qed.

Lemma base_next : forall c, c < 256 -> base (c + 1) = base c + N.of_nat (length (cls j c src)).
Proof.
  intros c Hc. unfold base. replace (N.to_nat (c + 1)) with (S (N.to_nat c)) by lia. cbn [sum_below].
  rewrite N2Nat.id, Hh by assumption. reflexivity.
Qed.

Lemma base_mono : forall c d, c <= d -> base c <= base d.
Proof. intros c d H. unfold base. apply sum_below_mono. lia. Qed.

Lemma cls_app : forall c s r, cls j c (s ++ r) = cls j c s ++ cls j c r.
Proof. intros c s r. unfold cls. apply filter_app. Qed.

Lemma pass_spec : forall r s st, src = s ++ r -> pinv s st ->
  exists st', radix_pass (N.of_nat (length src)) j st r = Some st' /\ pinv src st'.
Proof.
  induction r as [|u r IH]; intros s st E [I1 I2].
  - rewrite app_nil_r in E. subst s. exists st. split; [reflexivity|]. split; assumption.
  - cbn [radix_pass]. pose proof (byte_lt u j) as Hc. set (c := byte_of u j) in *.
    assert (Hcu : cls j c (u :: r) = u :: cls j c r).
    { unfold cls. cbn [List.filter]. fold c. rewrite N.eqb_refl. reflexivity. }
    assert (Hlen : (length (cls j c s) < length (cls j c src))%nat).
    { rewrite E, cls_app, Hcu, app_length. cbn [length]. lia. }
    assert (Hlt : rp_idx st c < N.of_nat (length src)).
    { rewrite I1 by assumption. rewrite <- base_total.
      pose proof (base_next c Hc). pose proof (base_mono (c + 1) 256). lia. }
    rewrite (proj2 (N.ltb_lt _ _) Hlt). cbn [guard].
    apply (IH (s ++ [u])); [rewrite <- app_assoc; exact E|].
    split; cbn [rp_idx rp_dst].
    + intros c' Hc'. rewrite cls_app, app_length. unfold cls at 2. cbn [List.filter]. fold c.
      destruct (N.eqb_spec c' c) as [->|Hne].
      * rewrite N.eqb_refl, I1 by assumption. cbn [length]. lia.
      * replace (c =? c') with false by lia. cbn [length]. rewrite I1 by assumption. lia.
    + intros c' k x Hc' Hk. rewrite cls_app in Hk. unfold cls at 2 in Hk. cbn [List.filter] in Hk. fold c in Hk.
      rewrite I1 by assumption.
      assert (Hk2 : (k < length (cls j c' src))%nat).
      { rewrite E, cls_app, app_length. unfold cls at 2. cbn [List.filter]. fold c.
        assert (k < length (cls j c' s ++ (if (c =? c')%N then [u] else [])))%nat by (apply nth_error_Some; rewrite Hk; discriminate).
        rewrite app_length in H. destruct (c =? c'); cbn [length] in *; lia. }
      destruct (N.eqb_spec (base c' + N.of_nat k) (base c + N.of_nat (length (cls j c s)))) as [He|Hne].
      * assert (c' = c) as ->.
        { destruct (N.lt_trichotomy c' c) as [L|[L|L]]; [|assumption|].
          - pose proof (base_next c' Hc'). pose proof (base_mono (c' + 1) c). lia.
          - pose proof (base_next c Hc). pose proof (base_mono (c + 1) c'). lia. }
        assert (k = length (cls j c s)) as -> by lia.
        rewrite N.eqb_refl in Hk. rewrite nth_error_app2 in Hk by lia.
        rewrite Nat.sub_diag in Hk. cbn in Hk. congruence.
      * apply I2; [assumption|].
        destruct (N.eqb_spec c c') as [<-|Hd].
        -- destruct (Nat.lt_ge_cases k (length (cls j c s))) as [L|L].
           ++ rewrite nth_error_app1 in Hk by assumption. assumption.
           ++ exfalso. assert (k < length (cls j c s ++ [u]))%nat by (apply nth_error_Some; rewrite Hk; discriminate).
              rewrite app_length in H. cbn [length] in H. apply Hne. lia.
        -- rewrite app_nil_r in Hk. assumption.
Qed.

Lemma to_list_app : forall d a b, to_list d (a + b) = to_list d a ++ map (fun i => d (N.of_nat (a + i))) (seq 0 b).
Proof.
  intros d a b. unfold to_list. rewrite seq_app, map_app. f_equal. cbn [Nat.add].
  rewrite <- (Nat.add_0_r a) at 1. generalize O. induction b as [|b IH]; intros s; [reflexivity|].
  cbn [seq map]. f_equal. replace (S (a + s)) with (a + S s)%nat by lia. apply IH.
Qed.

Lemma map_nth_seq : forall (l : list N) (g : nat -> N), (forall k x, nth_error l k = Some x -> g k = x) ->
  map g (seq 0 (length l)) = l.
Proof.
  induction l as [|x l IH]; intros g H; [reflexivity|]. cbn [length seq map]. f_equal.
  - apply (H O). reflexivity.
  - rewrite <- (IH (fun k => g (S k))) at 2.
    + rewrite <- seq_shift, map_map. reflexivity.
    + intros k y Hk. apply (H (S k)). assumption.
Qed.

Lemma dst_list : forall st, pinv src st -> to_list (rp_dst st) (length src) = buckets j src 256.
Proof.
  intros st [I1 I2].
  assert (H : forall n, (n <= 256)%nat -> to_list (rp_dst st) (N.to_nat (base (N.of_nat n))) = buckets j src n).
  { induction n as [|n IH]; intros Hn; [reflexivity|].
    rewrite buckets_S, <- IH by lia.
    replace (N.of_nat (S n)) with (N.of_nat n + 1) by lia. rewrite base_next by lia.
    rewrite N2Nat.inj_add, Nat2N.id, to_list_app. f_equal.
    apply map_nth_seq. intros k x Hk. 
    replace (N.of_nat (N.to_nat (base (N.of_nat n)) + k)) with (base (N.of_nat n) + N.of_nat k) by lia.
    apply I2; [lia|assumption]. }
  specialize (H 256%nat (le_n _)). change (N.of_nat 256) with 256 in H. rewrite base_total, Nat2N.id in H. exact H.
Qed.

Lemma pass_result :
  exists st, radix_pass (N.of_nat (length src)) j (RPass (fun c => sum_below h (N.to_nat c)) (fun _ => 0)) src = Some st
             /\ to_list (rp_dst st) (length src) = buckets j src 256.
Proof.
  destruct (pass_spec src [] (RPass (fun c => sum_below h (N.to_nat c)) (fun _ => 0)) eq_refl) as (st & E & I).
  - split; cbn [rp_idx rp_dst].
    + intros c Hc. cbn. rewrite N.add_0_r. reflexivity.
    + intros c k x Hc H. destruct k; discriminate.
  - exists st. split; [assumption|]. apply dst_list. assumption.
Qed.
End PASS.

(** ** Rounds *)

(** The part of a number that the first [n] rounds look at *)
Definition part (sh n u : N) : N := N.shiftr u (8 * sh) mod 2 ^ (8 * n).
Definition part_le (sh n x y : N) : Prop := part sh n x <= part sh n y.

Lemma part_next : forall sh n u, part sh (n + 1) u = byte_of u (n + sh) * 2 ^ (8 * n) + part sh n u.
Proof.
  intros sh n u. unfold part, byte_of.
  replace (8 * (n + sh)) with (8 * sh + 8 * n) by lia. rewrite <- N.shiftr_shiftr.
  set (x := N.shiftr u (8 * sh)).
  replace (8 * (n + 1)) with (8 * n + 8) by lia. rewrite N.pow_add_r.
  rewrite N.mod_mul_r by (apply N.pow_nonzero; lia).
  rewrite N.shiftr_div_pow2. change (2 ^ 8) with 256. lia.
Qed.

Lemma part_lt : forall sh n u, part sh n u < 2 ^ (8 * n).
Proof. intros. unfold part. apply N.mod_lt. apply N.pow_nonzero. lia. Qed.

Lemma SSorted_filter : forall (R : N -> N -> Prop) p l, StronglySorted R l -> StronglySorted R (List.filter p l).
Proof.
  intros R p l H. induction H as [|x l H IH F]; cbn [List.filter]; [constructor|].
  destruct (p x); [|assumption]. constructor; [assumption|].
  apply Forall_forall. intros y Hy. apply filter_In in Hy. apply (proj1 (Forall_forall _ _) F). tauto.
Qed.

Lemma SSorted_app : forall (R : N -> N -> Prop) a b, StronglySorted R a -> StronglySorted R b ->
  (forall x y, In x a -> In y b -> R x y) -> StronglySorted R (a ++ b).
Proof.
  intros R a b Ha Hb H. induction Ha as [|x a Ha IH F]; [assumption|]. cbn [app]. constructor.
  - apply IH. intros u v Hu Hv. apply H; [right|]; assumption.
  - apply Forall_app. split; [assumption|]. apply Forall_forall. intros y Hy. apply H; [left; reflexivity|assumption].
Qed.

Lemma SSorted_weaken : forall (R R' : N -> N -> Prop) l, (forall x y, In x l -> In y l -> R x y -> R' x y) -> StronglySorted R l -> StronglySorted R' l.
Proof.
  intros R R' l H S. induction S as [|x l S IH F]; constructor.
  - apply IH. intros a b Ha Hb. apply H; right; assumption.
  - apply Forall_forall. intros y Hy. apply H; [left; reflexivity|right; assumption|]. apply (proj1 (Forall_forall _ _) F). assumption.
Qed.

Lemma in_buckets : forall j l n x, In x (buckets j l n) -> byte_of x j < N.of_nat n /\ In x l.
Proof.
  intros j l n x H. unfold buckets in H. apply in_flat_map in H. destruct H as (c & Hc & Hx).
  apply in_seq in Hc. apply filter_In in Hx. destruct Hx as [Hx1 Hx2]. split; [lia|assumption].
Qed.

Lemma buckets_sorted : forall sh n l, StronglySorted (part_le sh n) l ->
  StronglySorted (part_le sh (n + 1)) (buckets (n + sh) l 256).
Proof.
  intros sh n l S. 
  assert (H : forall m, StronglySorted (part_le sh (n + 1)) (buckets (n + sh) l m)).
  { induction m as [|m IH]; [constructor|]. rewrite buckets_S. apply SSorted_app.
    - assumption.
    - apply (SSorted_weaken (part_le sh n)); [|apply SSorted_filter; assumption].
      intros x y Hx Hy Hxy. apply filter_In in Hx. apply filter_In in Hy.
      unfold part_le in *. rewrite !part_next. destruct Hx as [_ Hx], Hy as [_ Hy].
      apply N.eqb_eq in Hx. apply N.eqb_eq in Hy. rewrite Hx, Hy. lia.
    - intros x y Hx Hy. apply in_buckets in Hx. apply filter_In in Hy. destruct Hy as [_ Hy].
      apply N.eqb_eq in Hy. unfold part_le. rewrite !part_next.
      pose proof (part_lt sh n x). pose proof (part_lt sh n y).
      set (B := 2 ^ (8 * n)) in *. nia. }
  apply H.
Qed.

Lemma perm_filter_length : forall (p : N -> bool) l l', Permutation l l' -> length (List.filter p l) = length (List.filter p l').
Proof.
  intros p l l' H. induction H; cbn [List.filter]; try reflexivity.
  - destruct (p x); cbn [length]; congruence.
  - destruct (p x), (p y); reflexivity.
  - congruence.
Qed.

Lemma histogram_shift : forall l fpshift j c,
  histogram (map (fun u => N.shiftr u (8 * fpshift)) l) j c = N.of_nat (length (cls (j + fpshift) c l)).
Proof.
  intros l fpshift j c. unfold histogram, cls. f_equal. induction l as [|u l IH]; [reflexivity|].
  cbn [map List.filter]. 
  replace (byte_of (N.shiftr u (8 * fpshift)) j) with (byte_of u (j + fpshift)).
  - destruct (_ =? c); cbn [length]; congruence.
  - unfold byte_of. rewrite N.shiftr_shiftr. do 2 f_equal. lia.
Qed.

Lemma rounds_spec : forall l0 fpshift n j src, Permutation src l0 -> StronglySorted (part_le fpshift j) src ->
  exists out, radix_rounds l0 fpshift j n src = Some out /\ Permutation out l0 /\
    StronglySorted (part_le fpshift (j + N.of_nat n)) out.
Proof.
  intros l0 fpshift n. induction n as [|n IH]; intros j src HP HS.
  - exists src. split; [reflexivity|]. rewrite N.add_0_r. auto.
  - cbn [radix_rounds]. rewrite <- (Permutation_length HP).
    destruct (pass_result (j + fpshift) src
                (fun c => histogram (map (fun u => N.shiftr u (8 * fpshift)) l0) j c)) as (st & E1 & E2).
    { intros c Hc. rewrite histogram_shift. unfold cls. f_equal. apply perm_filter_length. symmetry. assumption. }
    rewrite E1. cbn [opt_bind]. rewrite E2.
    replace (j + N.of_nat (S n)) with (j + 1 + N.of_nat n) by lia. apply IH.
    + rewrite buckets_perm. assumption.
    + apply buckets_sorted. assumption.
Qed.

Lemma part_zero_sorted : forall sh l, StronglySorted (part_le sh 0) l.
Proof.
  intros sh l. induction l as [|x l IH]; constructor; [assumption|].
  apply Forall_forall. intros y _. unfold part_le, part. rewrite !N.mul_0_r. cbn [N.pow]. rewrite !N.mod_1_r. lia.
Qed.

(** The fingerprints all carry the same value in their low bits *)
Theorem radix_sort_spec : forall data fs vs value,
  1 <= fs -> fs + vs <= 32 ->
  Forall (fun u => u < 2 ^ (fs + vs) /\ u mod 2 ^ vs = value) data ->
  exists out, radix_sort data fs vs = Some out /\ Permutation out data /\ StronglySorted N.le out.
Proof.
  intros data fs vs value Hfs Hle HF. unfold radix_sort. cbv zeta.
  replace (fs =? 0) with false by lia.
  pose proof (N.div_mod vs 8 ltac:(lia)) as D1. pose proof (N.mod_lt vs 8 ltac:(lia)) as D2.
  pose proof (N.div_mod (fs + vs mod 8 - 1) 8 ltac:(lia)) as D3. pose proof (N.mod_lt (fs + vs mod 8 - 1) 8 ltac:(lia)) as D4.
  set (sh := vs / 8) in *. set (ov := vs mod 8) in *. set (q := (fs + ov - 1) / 8) in *.
  replace (q + 1 + sh <=? 4) with true by lia. cbn [guard].
  destruct (rounds_spec data sh (N.to_nat (q + 1)) 0 data (Permutation_refl _) (part_zero_sorted _ _)) as (out & E & HP & HS).
  exists out. split; [assumption|]. split; [assumption|].
  revert HS. apply SSorted_weaken. intros x y Hx Hy Hxy.
  apply (Permutation_in _ HP) in Hx. apply (Permutation_in _ HP) in Hy.
  apply (proj1 (Forall_forall _ _) HF) in Hx. apply (proj1 (Forall_forall _ _) HF) in Hy.
  destruct Hx as [X1 X2], Hy as [Y1 Y2]. unfold part_le, part in Hxy.
  rewrite N2Nat.id, N.add_0_l in Hxy.
  clearbody sh ov q.
  assert (Hsz : fs + vs <= 8 * sh + 8 * (q + 1)) by (clear - D1 D2 D3 D4 Hfs; lia).
  assert (G : forall u, u < 2 ^ (fs + vs) -> N.shiftr u (8 * sh) mod 2 ^ (8 * (q + 1)) = N.shiftr u (8 * sh)).
  { intros u Hu. apply N.mod_small. rewrite N.shiftr_div_pow2. apply N.div_lt_upper_bound; [apply N.pow_nonzero; lia|].
    rewrite <- N.pow_add_r. apply N.lt_le_trans with (1 := Hu). apply N.pow_le_mono_r; [discriminate|assumption]. }
  rewrite !G in Hxy by assumption. rewrite !N.shiftr_div_pow2 in Hxy.
  (* the low parts below bit 8*sh are parts of the common value *)
  assert (L : forall u, u mod 2 ^ (8 * sh) = (u mod 2 ^ vs) mod 2 ^ (8 * sh)).
  { intros u. replace vs with (8 * sh + ov) by lia. rewrite N.pow_add_r.
    rewrite N.mod_mul_r by (apply N.pow_nonzero; lia).
    rewrite (N.mul_comm (2 ^ (8 * sh)) (_ mod _)), N.mod_add by (apply N.pow_nonzero; lia).
    rewrite N.mod_mod by (apply N.pow_nonzero; lia). reflexivity. }
  assert (Hz : 2 ^ (8 * sh) <> 0) by (apply N.pow_nonzero; lia).
  pose proof (N.div_mod x _ Hz) as Ex. pose proof (N.div_mod y _ Hz) as Ey.
  rewrite L, X2 in Ex. rewrite L, Y2 in Ey. rewrite Ex, Ey. apply N.add_le_mono_r, N.mul_le_mono_l. assumption.
Qed.
