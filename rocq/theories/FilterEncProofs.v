(** * Reading the bucket encoding *)

From Coq Require Import List NArith Arith Bool Lia Sorted ZifyN ZifyNat ZifyBool.
From Verif Require Import PackedArr PackedArrProofs Filter.
Import ListNotations.
Local Open Scope N_scope.

(** ** Words and bits *)

Lemma word_at_bits : forall f n base k, N.testbit (word_at f base n) k = (k <? N.of_nat n) && f (base + k).
Proof.
  intros f n. induction n as [|n IH]; intros base k.
  - cbn [word_at]. rewrite N.bits_0. replace (k <? N.of_nat 0) with false by lia. reflexivity.
  - cbn [word_at]. destruct (N.eq_dec k 0) as [->|Hk].
    + replace (0 <? N.of_nat (S n)) with true by lia. rewrite N.add_0_r. cbn [andb].
      destruct (f base).
      * rewrite N.add_comm. apply N.testbit_odd_0.
      * rewrite N.add_0_l. apply N.testbit_even_0.
    + replace k with (N.succ (k - 1)) at 1 by lia. destruct (f base).
      * rewrite N.add_comm, N.testbit_odd_succ by lia. rewrite IH.
        replace (base + 1 + (k - 1)) with (base + k) by lia. f_equal. lia.
      * rewrite N.add_0_l, N.testbit_even_succ by lia. rewrite IH.
        replace (base + 1 + (k - 1)) with (base + k) by lia. f_equal. lia.
Qed.

Fixpoint ones_from (f : N -> bool) (base : N) (n : nat) : N :=
  match n with O => 0 | S n' => (if f base then 1 else 0) + ones_from f (base + 1) n' end.
Definition ones (f : N -> bool) (n : N) : N := ones_from f 0 (N.to_nat n).

Lemma ones_from_app : forall f a b base, ones_from f base (a + b) = ones_from f base a + ones_from f (base + N.of_nat a) b.
Proof.
  intros f a. induction a as [|a IH]; intros b base.
  - cbn. rewrite N.add_0_r. reflexivity.
  - cbn [ones_from Nat.add]. rewrite IH. replace (base + 1 + N.of_nat a) with (base + N.of_nat (S a)) by lia. lia.
Qed.

Lemma ones_split : forall f n m, n <= m -> ones f m = ones f n + ones_from f n (N.to_nat (m - n)).
Proof.
  intros f n m H. unfold ones. replace (N.to_nat m) with (N.to_nat n + N.to_nat (m - n))%nat by lia.
  rewrite ones_from_app, N2Nat.id. do 2 f_equal. 
Qed.

Lemma ones_mono : forall f n m, n <= m -> ones f n <= ones f m.
Proof. intros f n m H. rewrite (ones_split f n m H). lia. Qed.

Lemma ones_next : forall f n, ones f (n + 1) = ones f n + (if f n then 1 else 0).
Proof.
  intros f n. rewrite (ones_split f n (n + 1)) by lia. replace (N.to_nat (n + 1 - n)) with 1%nat by lia.
  cbn [ones_from]. lia.
Qed.

Lemma ones_gap_aux : forall f k n, (forall m, n <= m < n + N.of_nat k -> f m = false) -> ones_from f n k = 0.
Proof.
  intros f k. induction k as [|k IH]; intros n H; [reflexivity|]. cbn [ones_from].
  rewrite H by lia. rewrite IH; [reflexivity|]. intros m Hm. apply H. lia.
Qed.

Lemma ones_gap : forall f n m, n <= m -> (forall k, n <= k < m -> f k = false) -> ones f m = ones f n.
Proof.
  intros f n m H G. rewrite (ones_split f n m H), ones_gap_aux; [lia|]. intros k Hk. apply G. lia.
Qed.

(** No ones between two positions of equal rank *)
Lemma gap_ones : forall f n m, n <= m -> ones f m = ones f n -> forall k, n <= k < m -> f k = false.
Proof.
  intros f n m H E k Hk. destruct (f k) eqn:F; [|reflexivity]. exfalso.
  pose proof (ones_next f k). rewrite F in H0. pose proof (ones_mono f n k). pose proof (ones_mono f (k + 1) m). lia.
Qed.

Lemma popcount_ones : forall f n k base x, (forall i, k <= i < k + N.of_nat n -> N.testbit x i = f (base + i)) ->
  popcount_from x k n = ones_from f (base + k) n.
Proof.
  intros f n. induction n as [|n IH]; intros k base x H; [reflexivity|].
  cbn [popcount_from ones_from]. rewrite H by lia. rewrite (IH (k + 1) base) by (intros; apply H; lia).
  rewrite N.add_assoc. reflexivity.
Qed.

Lemma popcount_word : forall f base, popcount32 (word_at f base 32) = ones_from f base 32.
Proof.
  intros f base. unfold popcount32. rewrite (popcount_ones f 32 0 base).
  - rewrite N.add_0_r. reflexivity.
  - intros i Hi. rewrite word_at_bits. replace (i <? N.of_nat 32) with true by lia. reflexivity.
Qed.

Lemma lowest_spec : forall x n k,
  match lowest_from x k n with
  | Some l => k <= l < k + N.of_nat n /\ N.testbit x l = true /\ (forall m, k <= m < l -> N.testbit x m = false)
  | None => forall m, k <= m < k + N.of_nat n -> N.testbit x m = false
  end.
Proof.
  intros x n. induction n as [|n IH]; intros k; [cbn [lowest_from]; intros m Hm; lia|].
  cbn [lowest_from]. destruct (N.testbit x k) eqn:E.
  - split; [lia|]. split; [assumption|]. intros m Hm. lia.
  - specialize (IH (k + 1)). destruct (lowest_from x (k + 1) n) as [l|].
    + destruct IH as (H1 & H2 & H3). split; [lia|]. split; [assumption|].
      intros m Hm. destruct (N.eq_dec m k) as [->|]; [assumption|]. apply H3. lia.
    + intros m Hm. destruct (N.eq_dec m k) as [->|]; [assumption|]. apply IH. lia.
Qed.

Lemma ffs1_at : forall x l, N.testbit x l = true -> (forall m, m < l -> N.testbit x m = false) -> l < 64 -> ffs1 x = Some l.
Proof.
  intros x l H1 H2 H3. unfold ffs1. pose proof (lowest_spec x 64 0) as S. destruct (lowest_from x 0 64) as [l'|].
  - destruct S as (S1 & S2 & S3). f_equal.
    destruct (N.lt_trichotomy l l') as [C|[C|C]]; [|congruence|].
    + rewrite S3 in H1 by lia. discriminate.
    + rewrite H2 in S2 by assumption. discriminate.
  - rewrite S in H1 by lia. discriminate.
Qed.

Lemma clear_bits : forall l x, N.testbit x l = true -> (forall m, m < l -> N.testbit x m = false) ->
  forall k, N.testbit (clear_lowest x) k = N.testbit x k && negb (k =? l).
Proof.
  intros l. induction l as [|l IH] using N.peano_ind; intros x H1 H2 k; unfold clear_lowest.
  - (* odd *)
    rewrite N.land_spec. rewrite N.bit0_odd in H1. apply N.odd_spec in H1. destruct H1 as [y ->].
    replace (2 * y + 1 - 1) with (2 * y) by lia.
    destruct (N.eq_dec k 0) as [->|Hk].
    + rewrite N.testbit_even_0. reflexivity.
    + replace k with (N.succ (k - 1)) by lia. rewrite N.testbit_odd_succ, N.testbit_even_succ by lia.
      replace (N.succ (k - 1) =? 0) with false by lia. destruct (N.testbit y (k - 1)); reflexivity.
  - assert (H0 : N.testbit x 0 = false) by (apply H2; lia).
    rewrite N.bit0_odd in H0. 
    assert (He : N.even x = true) by (rewrite <- N.negb_odd, H0; reflexivity).
    apply N.even_spec in He. destruct He as [y ->].
    rewrite N.testbit_even_succ in H1 by lia.
    assert (Hy : 0 < y). { destruct (N.eq_dec y 0) as [->|]; [rewrite N.bits_0 in H1; discriminate|lia]. }
    replace (2 * y - 1) with (2 * (y - 1) + 1) by lia.
    assert (H3 : forall m, m < l -> N.testbit y m = false).
    { intros m Hm. rewrite <- (N.testbit_even_succ y m) by lia. apply H2. lia. }
    specialize (IH y H1 H3). unfold clear_lowest in IH.
    rewrite N.land_spec. destruct (N.eq_dec k 0) as [->|Hk].
    + rewrite N.testbit_even_0. reflexivity.
    + replace k with (N.succ (k - 1)) by lia. rewrite N.testbit_odd_succ, N.testbit_even_succ by lia.
      rewrite <- N.land_spec, IH. f_equal. f_equal. lia.
Qed.

(** ** A word seen as the rest of the encoding *)

Section VIEW.
Variable enc : N -> bool.
Variable W : N.
Hypothesis HW : 0 < W <= 64.

(** [ew] holds the ones of word [w] from bit [q] on *)
Definition view (ew w q : N) : Prop :=
  W * w <= q <= W * (w + 1) /\ forall k, N.testbit ew k = (k <? W) && enc (W * w + k) && (q <=? W * w + k).

Lemma view_word : forall w, view (word_at enc (W * w) (N.to_nat W)) w (W * w).
Proof.
  intros w. split; [lia|]. intros k. rewrite word_at_bits, N2Nat.id. replace (W * w <=? W * w + k) with true by lia.
  rewrite andb_true_r. reflexivity.
Qed.

Lemma view_zero : forall ew w q, view ew w q -> ew = 0 -> forall n, q <= n < W * (w + 1) -> enc n = false.
Proof.
  intros ew w q [V1 V2] -> n Hn. specialize (V2 (n - W * w)). rewrite N.bits_0 in V2.
  replace (W * w + (n - W * w)) with n in V2 by lia. replace (n - W * w <? W) with true in V2 by lia.
  replace (q <=? n) with true in V2 by lia. rewrite andb_true_r in V2. cbn [andb] in V2. congruence.
Qed.

(** The next one, when it lies in this word *)
Lemma view_next : forall ew w q t, view ew w q -> q <= t < W * (w + 1) -> enc t = true ->
  (forall n, q <= n < t -> enc n = false) ->
  ew <> 0 /\ ffs1 ew = Some (t - W * w) /\ view (clear_lowest ew) w (t + 1).
Proof.
  intros ew w q t [V1 V2] Ht Et Hg.
  assert (B1 : N.testbit ew (t - W * w) = true).
  { rewrite V2. replace (W * w + (t - W * w)) with t by lia. rewrite Et.
    replace (t - W * w <? W) with true by lia. replace (q <=? t) with true by lia. reflexivity. }
  assert (B2 : forall m, m < t - W * w -> N.testbit ew m = false).
  { intros m Hm. rewrite V2. destruct (N.le_gt_cases q (W * w + m)) as [C|C].
    - rewrite Hg by lia. rewrite andb_false_r. reflexivity.
    - replace (q <=? W * w + m) with false by lia. apply andb_false_r. }
  split; [|split].
  - intros ->. rewrite N.bits_0 in B1. discriminate.
  - apply ffs1_at; [assumption|assumption|lia].
  - split; [lia|]. intros k. rewrite (clear_bits _ _ B1 B2), V2.
    destruct (N.eq_dec k (t - W * w)) as [->|Hk].
    + rewrite N.eqb_refl. replace (t + 1 <=? W * w + (t - W * w)) with false by lia. rewrite !andb_false_r. reflexivity.
    + replace (k =? t - W * w) with false by lia. cbn [negb]. rewrite andb_true_r.
      destruct (k <? W) eqn:E; [|reflexivity]. cbn [andb].
      destruct (enc (W * w + k)) eqn:E2; [|reflexivity]. cbn [andb].
      destruct (N.le_gt_cases q (W * w + k)) as [C|C]; [|lia].
      destruct (N.lt_ge_cases (W * w + k) t) as [D|D]; [rewrite Hg in E2 by lia; discriminate|]. lia.
Qed.
End VIEW.

(** ** Positions of the ends of buckets *)

Definition before (bs : list N) (b : N) : N := N.of_nat (length (List.filter (fun x => x <? b) bs)).
Definition term (bs : list N) (b : N) : N := before bs (b + 1) + b.

(** The encoding of the bucket numbers [bs] (below [I], in order): the [i]-th item,
    in bucket [b], is the zero at [i + b]; the end of bucket [b] is a one. *)
Definition enc_ok (I : N) (bs : list N) (enc : N -> bool) : Prop :=
  (forall b, b < I -> enc (term bs b) = true) /\
  (forall i b, nth_error bs i = Some b -> enc (N.of_nat i + b) = false).

Lemma before_le : forall bs b, before bs b <= N.of_nat (length bs).
Proof.
  intros bs b. unfold before. induction bs as [|x bs IH]; [cbn; lia|]. cbn [List.filter].
  destruct (x <? b); cbn [length]; lia.
Qed.

Lemma before_mono : forall bs b c, b <= c -> before bs b <= before bs c.
Proof.
  intros bs b c H. unfold before. induction bs as [|x bs IH]; [cbn; lia|]. cbn [List.filter].
  destruct (x <? b) eqn:E1; destruct (x <? c) eqn:E2; cbn [length]; lia.
Qed.

Lemma before_0 : forall bs, before bs 0 = 0.
Proof.
  intros bs. unfold before. induction bs as [|x bs IH]; [reflexivity|]. cbn [List.filter].
  replace (x <? 0) with false by lia. assumption.
Qed.

Lemma before_all : forall bs I, Forall (fun b => b < I) bs -> before bs I = N.of_nat (length bs).
Proof.
  intros bs I H. unfold before. induction H as [|x bs H _ IH]; [reflexivity|]. cbn [List.filter].
  replace (x <? I) with true by lia. cbn [length]. lia.
Qed.

(** The items below [b] come first *)
Lemma sorted_before : forall bs, StronglySorted N.le bs -> forall i x b, nth_error bs i = Some x ->
  (x < b <-> N.of_nat i < before bs b).
Proof.
  intros bs S. induction S as [|y bs S IH F]; intros i x b H; [destruct i; discriminate|].
  unfold before. cbn [List.filter]. destruct i as [|i].
  - cbn in H. injection H as <-. destruct (y <? b) eqn:E.
    + cbn [length]. lia.
    + assert (Hn : List.filter (fun x => x <? b) bs = []).
      { clear - F E. induction F as [|z bs Hz F IH]; [reflexivity|]. cbn [List.filter].
        replace (z <? b) with false by lia. assumption. }
      rewrite Hn. cbn. lia.
  - cbn [nth_error] in H. specialize (IH i x b H). unfold before in IH.
    destruct (y <? b) eqn:E.
    + cbn [length]. rewrite IH. lia.
    + assert (y <= x) by (apply (proj1 (Forall_forall _ _) F); apply (nth_error_In _ _ H)).
      assert (Hn : List.filter (fun x => x <? b) bs = []).
      { clear - F E. induction F as [|z bs Hz F IH]; [reflexivity|]. cbn [List.filter].
        replace (z <? b) with false by lia. assumption. }
      rewrite Hn. cbn. lia.
Qed.

Section ENC.
Variable I : N.
Variable bs : list N.
Hypothesis Hsort : StronglySorted N.le bs.
Hypothesis Hlt : Forall (fun b => b < I) bs.
Variable enc : N -> bool.
Hypothesis Henc : enc_ok I bs enc.

Lemma in_bucket : forall i b, before bs b <= N.of_nat i < before bs (b + 1) -> nth_error bs i = Some b.
Proof.
  intros i b H. destruct (nth_error bs i) as [x|] eqn:E.
  - f_equal. pose proof (sorted_before bs Hsort i x b E). pose proof (sorted_before bs Hsort i x (b + 1) E). lia.
  - apply nth_error_None in E. pose proof (before_le bs (b + 1)). lia.
Qed.

(** Zeros of bucket [b]: from the end of the one before to its own *)
Lemma gap : forall b n, before bs b + b <= n < term bs b -> enc n = false.
Proof.
  intros b n H. unfold term in H. destruct Henc as [_ E2].
  specialize (E2 (N.to_nat (n - b)) b). rewrite N2Nat.id in E2. replace (n - b + b) with n in E2 by lia.
  apply E2, in_bucket. lia.
Qed.

Lemma term_next : forall b, term bs (b + 1) = before bs (b + 1 + 1) + (b + 1).
Proof. reflexivity. Qed.

Lemma ones_term : forall b, b < I -> ones enc (term bs b) = b.
Proof.
  intros b. induction b as [|b IH] using N.peano_ind; intros Hb.
  - rewrite (ones_gap enc 0 (term bs 0)); [reflexivity|lia|]. intros k Hk. apply (gap 0). rewrite before_0. lia.
  - specialize (IH ltac:(lia)). replace (N.succ b) with (b + 1) in * by lia.
    rewrite (ones_gap enc (term bs b + 1) (term bs (b + 1))).
    + rewrite ones_next, IH. destruct Henc as [E1 _]. rewrite E1 by lia. reflexivity.
    + unfold term. pose proof (before_mono bs (b + 1) (b + 1 + 1)). lia.
    + intros k Hk. apply (gap (b + 1)). unfold term in Hk |- *. lia.
Qed.

Lemma term_bound : forall b, b < I -> term bs b < N.of_nat (length bs) + I.
Proof. intros b Hb. unfold term. pose proof (before_le bs (b + 1)). lia. Qed.

Lemma skip_spec : forall fuel w ew q t, view enc 32 ew w q -> q <= t -> enc t = true ->
  (forall n, q <= n < t -> enc n = false) -> (N.to_nat (t / 32) - N.to_nat w < fuel)%nat ->
  exists w' ew', skip_zero enc fuel w ew = Some (w', ew') /\ ffs1 ew' = Some (t - 32 * w') /\ 32 * w' <= t.
Proof.
  induction fuel as [|fuel IH]; intros w ew q t V Hq Et Hg Hf; [lia|].
  cbn [skip_zero]. destruct (divmod32 t) as [T1 T2].
  destruct (N.lt_ge_cases t (32 * (w + 1))) as [C|C].
  - destruct (view_next enc 32 ltac:(lia) ew w q t V ltac:(lia) Et Hg) as (N0 & F & _).
    replace (ew =? 0) with false by lia. exists w, ew. split; [reflexivity|]. split; [assumption|]. destruct V. lia.
  - destruct (ew =? 0) eqn:E.
    + apply (IH (w + 1) _ (32 * (w + 1)) t); try assumption.
      * apply (view_word enc 32 ltac:(lia)).
      * intros n Hn. apply Hg. destruct V. lia.
      * lia.
    + exfalso. destruct V as [V1 V2]. apply N.eqb_neq in E. apply E. apply N.bits_inj. intros k. rewrite V2, N.bits_0.
      destruct (k <? 32) eqn:E3; [|reflexivity]. cbn [andb].
      destruct (N.le_gt_cases q (32 * w + k)) as [D|D].
      * rewrite Hg by lia. reflexivity.
      * replace (q <=? 32 * w + k) with false by lia. apply andb_false_r.
Qed.

Lemma find_word_spec : forall len T bo, 1 <= bo -> T = term bs (bo - 1) -> bo - 1 < I -> 4 * (T / 32) < len ->
  forall fuel word, word <= T / 32 -> (N.to_nat (T / 32) - N.to_nat word < fuel)%nat ->
  ones enc (32 * word) < bo ->
  exists bucket, find_word enc len bo fuel word (ones enc (32 * word)) (ones_from enc (32 * word) 32) = Some (T / 32, bucket)
    /\ bucket = ones enc (32 * (T / 32)) /\ bucket < bo.
Proof.
  intros len T bo Hbo ET Hb Hlen. 
  assert (OT : ones enc T = bo - 1) by (rewrite ET; apply ones_term; assumption).
  assert (ET1 : enc T = true) by (rewrite ET; apply Henc; assumption).
  assert (OT1 : ones enc (T + 1) = bo) by (rewrite ones_next, ET1, OT; lia).
  destruct (divmod32 T) as [D1 D2].
  induction fuel as [|fuel IH]; intros word Hw Hf Ho; [lia|].
  cbn [find_word].
  assert (Os : ones enc (32 * (word + 1)) = ones enc (32 * word) + ones_from enc (32 * word) 32).
  { rewrite (ones_split enc (32 * word) (32 * (word + 1))) by lia. do 2 f_equal. lia. }
  rewrite <- Os. replace (4 * word <? len) with true by lia. cbn [andb].
  destruct (N.eq_dec word (T / 32)) as [E|E].
  - replace (ones enc (32 * (word + 1)) <? bo) with false.
    + rewrite E in *. eexists. split; [reflexivity|]. auto.
    + symmetry. apply N.ltb_ge. rewrite <- OT1. apply ones_mono. lia.
  - replace (ones enc (32 * (word + 1)) <? bo) with true.
    + rewrite popcount_word. apply IH; [lia|lia|].
      pose proof (ones_mono enc (32 * (word + 1)) T). lia.
    + symmetry. apply N.ltb_lt. pose proof (ones_mono enc (32 * (word + 1)) T). lia.
Qed.

Lemma clear_n_spec : forall w T bo, 1 <= bo -> T = term bs (bo - 1) -> bo - 1 < I -> w = T / 32 ->
  forall n ew q, view enc 32 ew w q -> q <= T -> ones enc q + N.of_nat n = bo - 1 ->
  exists q', view enc 32 (clear_n n ew) w q' /\ q' <= T /\ ones enc q' = bo - 1.
Proof.
  intros w T bo Hbo ET Hb Ew.
  assert (OT : ones enc T = bo - 1) by (rewrite ET; apply ones_term; assumption).
  destruct (divmod32 T) as [D1 D2].
  induction n as [|n IH]; intros ew q V Hq Ho.
  - cbn [clear_n]. exists q. split; [assumption|]. split; [assumption|lia].
  - cbn [clear_n].
    (* the next one after q *)
    assert (HX : exists p, q <= p < T /\ enc p = true /\ forall m, q <= m < p -> enc m = false).
    { clear IH. assert (G : forall k, (N.of_nat k <= T - q)%N -> (exists p, q <= p < q + N.of_nat k /\ enc p = true /\ forall m, q <= m < p -> enc m = false)
                              \/ (forall m, q <= m < q + N.of_nat k -> enc m = false)).
      { induction k as [|k IHk]; intros Hk; [right; intros m Hm; lia|].
        destruct (IHk ltac:(lia)) as [(p & P1 & P2 & P3)|G].
        - left. exists p. split; [lia|]. auto.
        - destruct (enc (q + N.of_nat k)) eqn:E.
          + left. exists (q + N.of_nat k). split; [lia|]. split; [assumption|]. intros m Hm. apply G. lia.
          + right. intros m Hm. destruct (N.eq_dec m (q + N.of_nat k)) as [->|]; [assumption|]. apply G. lia. }
      destruct (G (N.to_nat (T - q)) ltac:(lia)) as [(p & P1 & P2)|G2].
      - exists p. split; [lia|assumption].
      - exfalso. rewrite (ones_gap enc q T) in OT; [lia|lia|]. intros m Hm. apply G2. lia. }
    destruct HX as (p & P1 & P2 & P3).
    destruct (view_next enc 32 ltac:(lia) ew w q p V ltac:(destruct V; lia) P2 P3) as (_ & _ & V').
    apply (IH _ (p + 1)); [assumption|lia|].
    rewrite ones_next, P2, (ones_gap enc q p) by (lia || assumption). lia.
Qed.

Theorem bucket_bounds_spec : forall bo len fuel, bo < I ->
  (N.of_nat (length bs) + I - 1) / 8 < len -> (N.to_nat ((N.of_nat (length bs) + I) / 32) < fuel)%nat ->
  bucket_bounds enc len bo fuel = Some (before bs bo, before bs (bo + 1)).
Proof.
  intros bo len fuel Hb Hlen Hfuel. destruct Henc as [E1 E2]. unfold bucket_bounds.
  assert (HB : forall b, b < I -> term bs b / 32 <= (N.of_nat (length bs) + I) / 32).
  { intros b Hb'. apply N.div_le_mono; [lia|]. pose proof (term_bound b Hb'). lia. }
  destruct (bo =? 0) eqn:E0.
  - assert (bo = 0) as -> by lia. 
    destruct (skip_spec fuel 0 (word_at enc 0 32) 0 (term bs 0)) as (w' & ew' & K1 & K2 & K3).
    + exact (view_word enc 32 ltac:(lia) 0).
    + lia.
    + apply E1. assumption.
    + intros n Hn. apply (gap 0). rewrite before_0. lia.
    + specialize (HB 0 Hb). lia.
    + rewrite K1. cbn [opt_bind]. rewrite K2. cbn [opt_bind]. rewrite before_0. f_equal. f_equal.
      unfold term in *. lia.
  - remember (term bs (bo - 1)) as T eqn:ET.
    assert (OT : ones enc T = bo - 1) by (rewrite ET; apply ones_term; lia).
    destruct (divmod32 T) as [D1 D2].
    assert (HT : T / 32 <= (N.of_nat (length bs) + I) / 32) by (rewrite ET; apply HB; lia).
    assert (HT8 : 4 * (T / 32) < len).
    { apply N.le_lt_trans with ((N.of_nat (length bs) + I - 1) / 8); [|assumption].
      apply N.div_le_lower_bound; [lia|]. pose proof (term_bound (bo - 1) ltac:(lia)). rewrite <- ET in H. lia. }
    rewrite popcount_word.
    destruct (find_word_spec len T bo ltac:(lia) ET ltac:(lia) HT8 fuel 0 ltac:(lia) ltac:(lia)) as (bucket & F1 & F2 & F3).
    { cbn. lia. }
    change (find_word enc len bo fuel 0 0 (ones_from enc 0 32) = Some (T / 32, bucket)) in F1.
    rewrite F1. cbn [opt_bind].
    destruct (clear_n_spec (T / 32) T bo ltac:(lia) ET ltac:(lia) eq_refl (N.to_nat (bo - 1 - bucket)) (word_at enc (32 * (T / 32)) 32) (32 * (T / 32)))
      as (q' & V & Q1 & Q2).
    { exact (view_word enc 32 ltac:(lia) (T / 32)). }
    { lia. }
    { lia. }
    set (ew := clear_n _ _) in *.
    assert (Et : enc T = true) by (rewrite ET; apply E1; lia).
    destruct (view_next enc 32 ltac:(lia) ew (T / 32) q' T V ltac:(lia) Et) as (N0 & FF & V').
    { apply (gap_ones enc q' T); [assumption|lia]. }
    rewrite FF. cbn [opt_bind].
    assert (Tn : term bs bo = before bs (bo + 1) + bo) by reflexivity.
    assert (Tp : T = before bs bo + (bo - 1)) by (rewrite ET; unfold term; do 2 f_equal; lia).
    destruct (skip_spec fuel (T / 32) (clear_lowest ew) (T + 1) (term bs bo)) as (w' & ew' & K1 & K2 & K3).
    + assumption.
    + pose proof (before_mono bs bo (bo + 1)). lia.
    + apply E1. assumption.
    + intros n Hn. apply (gap bo). lia.
    + specialize (HB bo Hb). lia.
    + rewrite K1. cbn [opt_bind]. rewrite K2. cbn [opt_bind]. f_equal. f_equal; lia.
Qed.

(** ** Counting *)

Lemma count_one_spec : forall fuel cursor word start q t acc,
  view enc 64 word cursor q -> q = 64 * cursor + start -> start <= 64 -> q <= t -> enc t = true ->
  (forall n, q <= n < t -> enc n = false) -> (N.to_nat (t / 64) - N.to_nat cursor < fuel)%nat ->
  exists cursor' word' e, count_one enc fuel cursor word start acc = Some (cursor', word', e + 1, acc + (t - q)) /\
    view enc 64 word' cursor' (t + 1) /\ t = 64 * cursor' + e /\ e < 64.
Proof.
  induction fuel as [|fuel IH]; intros cursor word start q t acc V Eq Hs Hq Et Hg Hf; [lia|].
  cbn [count_one].
  pose proof (N.div_mod t 64 ltac:(lia)) as T1. pose proof (N.mod_lt t 64 ltac:(lia)) as T2.
  destruct (N.lt_ge_cases t (64 * (cursor + 1))) as [C|C].
  - destruct (view_next enc 64 ltac:(lia) word cursor q t V ltac:(lia) Et Hg) as (N0 & F & V').
    replace (word =? 0) with false by lia. rewrite F. cbn [opt_bind].
    exists cursor, (clear_lowest word), (t - 64 * cursor). split; [|split; [assumption|lia]].
    do 2 f_equal. lia.
  - destruct (word =? 0) eqn:E.
    + destruct (IH (cursor + 1) (word_at enc (64 * (cursor + 1)) 64) 0 (64 * (cursor + 1)) t (acc + (64 - start)))
        as (c' & w' & e & R1 & R2 & R3 & R4).
      * apply (view_word enc 64 ltac:(lia)).
      * lia.
      * lia.
      * lia.
      * assumption.
      * intros n Hn. apply Hg. lia.
      * lia.
      * exists c', w', e. split; [|auto]. rewrite R1. do 2 f_equal. lia.
    + exfalso. destruct V as [V1 V2]. apply N.eqb_neq in E. apply E. apply N.bits_inj. intros k. rewrite V2, N.bits_0.
      destruct (k <? 64) eqn:E3; [|reflexivity]. cbn [andb].
      destruct (N.le_gt_cases q (64 * cursor + k)) as [D|D].
      * rewrite Hg by lia. reflexivity.
      * replace (q <=? 64 * cursor + k) with false by lia. apply andb_false_r.
Qed.

Fixpoint sizes_from (b : N) (n : nat) : list N :=
  match n with O => [] | S n' => (before bs (b + 1) - before bs b) :: sizes_from (b + 1) n' end.

Lemma counts_from_spec : forall fuel, (N.to_nat ((N.of_nat (length bs) + I) / 32) < fuel)%nat ->
  forall n b cursor word start, b + N.of_nat n <= I ->
  view enc 64 word cursor (before bs b + b) -> before bs b + b = 64 * cursor + start -> start <= 64 ->
  bucket_counts_from enc fuel n cursor word start = Some (sizes_from b n).
Proof.
  intros fuel Hfuel. induction n as [|n IH]; intros b cursor word start Hb V Eq Hs; [reflexivity|].
  cbn [bucket_counts_from sizes_from].
  assert (Tn : term bs b = before bs (b + 1) + b) by reflexivity.
  pose proof (before_mono bs b (b + 1) ltac:(lia)) as Hm.
  destruct (count_one_spec fuel cursor word start (before bs b + b) (term bs b) 0 V Eq Hs) as (c' & w' & e & R1 & R2 & R3 & R4).
  - lia.
  - apply Henc. lia.
  - intros k Hk. apply (gap b). assumption.
  - assert (term bs b / 64 <= (N.of_nat (length bs) + I) / 32).
    { pose proof (term_bound b ltac:(lia)). apply N.le_trans with ((N.of_nat (length bs) + I) / 64).
      - apply N.div_le_mono; [lia|]. lia.
      - apply N.div_le_compat_l. lia. }
    lia.
  - rewrite R1. cbn [opt_bind]. rewrite (IH (b + 1)).
    + cbn [opt_bind]. do 2 f_equal. lia.
    + lia.
    + replace (before bs (b + 1) + (b + 1)) with (term bs b + 1) by lia. assumption.
    + lia.
    + lia.
Qed.
End ENC.
