(** * Proofs about configuration *)

From Coq Require Import List NArith Bool Lia ZifyN ZifyBool.
From Verif Require Import Filter Config.
Import ListNotations.
Local Open Scope N_scope.

Arguments N.pow : simpl never.
Arguments N.modulo : simpl never.
Arguments N.div : simpl never.

Lemma w64_small : forall x, x < 2 ^ 64 -> w64 x = x.
Proof. intros. apply N.mod_small. assumption. Qed.

Lemma w32_small : forall x, x < 2 ^ 32 -> w32 x = x.
Proof. intros. apply N.mod_small. assumption. Qed.

Lemma sub64_le : forall a b, b <= a -> a < 2 ^ 64 -> sub64 a b = a - b.
Proof.
  intros a b H1 H2. unfold sub64. replace (a + 2 ^ 64 - b) with ((a - b) + 1 * 2 ^ 64) by lia.
  unfold w64. rewrite N.mod_add by discriminate. apply N.mod_small. lia.
Qed.

Lemma index_loop_S : forall n bound index log, index_loop (S n) bound index log =
  if index <=? bound then index_loop n bound (w32 (2 * index)) (w32 (log + 1)) else Some (index, log).
Proof. reflexivity. Qed.

(** 32 doublings leave 0 *)
Lemma index_loop_stuck : forall n bound index log, index_loop n bound index log = None ->
  exists k, index_loop n bound index log = None /\ k = (2 ^ N.of_nat n * index) mod 2 ^ 32 /\ k <= bound.
Proof.
  induction n as [|n IH]; intros bound index log H; cbn [index_loop] in H.
  - destruct (index <=? bound) eqn:E; [|discriminate]. apply N.leb_le in E. eexists. split; [|split; [reflexivity|]].
    + cbn [index_loop]. rewrite (proj2 (N.leb_le _ _) E). reflexivity.
    + cbn [N.of_nat]. change (2 ^ 0) with 1. rewrite N.mul_1_l. eapply N.le_trans; [apply N.mod_le; discriminate|assumption].
  - destruct (index <=? bound) eqn:E; [|discriminate].
    destruct (IH _ _ _ H) as (k & H1 & H2 & H3). exists k. split; [cbn [index_loop]; rewrite E; exact H1|]. split; [|assumption].
    rewrite H2. unfold w32. rewrite N.mul_mod_idemp_r by discriminate. f_equal.
    rewrite Nat2N.inj_succ, N.pow_succ_r'. lia.
Qed.

(** A loop still running after 32 rounds runs on for any number of rounds: it
    has reached 0. *)
Lemma index_loop_diverges : forall bound index log, index_loop 32 bound index log = None ->
  forall n, index_loop (32 + n) bound index log = None.
Proof.
  assert (Z : forall n bound log, index_loop n bound 0 log = None).
  { induction n as [|n IH]; intros; cbn [index_loop]; rewrite (proj2 (N.leb_le _ _) (N.le_0_l bound)); [reflexivity|].
    change (w32 (2 * 0)) with 0. apply IH. }
  assert (G : forall m n bound index log, index_loop m bound index log = None ->
    (2 ^ N.of_nat m * index) mod 2 ^ 32 = 0 -> index < 2 ^ 32 -> index_loop (m + n) bound index log = None).
  { induction m as [|m IH]; intros n bound index log H Hm Hi.
    - change (2 ^ N.of_nat 0) with 1 in Hm. rewrite N.mul_1_l, N.mod_small in Hm by assumption. subst. apply Z.
    - cbn [index_loop Nat.add] in *. destruct (index <=? bound); [|discriminate]. apply IH; [assumption| |apply N.mod_lt; discriminate].
      unfold w32. rewrite N.mul_mod_idemp_r by discriminate. rewrite <- Hm. f_equal. rewrite Nat2N.inj_succ, N.pow_succ_r'. lia. }
  intros bound index log H n.
  destruct (N.lt_ge_cases index (2 ^ 32)) as [L|L].
  - apply G; [assumption| |assumption]. change (N.of_nat 32) with 32. rewrite N.mul_comm. apply N.mod_mul. discriminate.
  - (* one round brings it below 2^32 *)
    change (32 + n)%nat with (S (31 + n)). rewrite index_loop_S in *. destruct (index <=? bound); [|discriminate].
    apply G; [assumption| |apply N.mod_lt; discriminate].
    unfold w32. rewrite N.mul_mod_idemp_r by discriminate. change (N.of_nat 31) with 31.
    replace (2 ^ 31 * (2 * index)) with (index * 2 ^ 32) by (change (2 ^ 32) with (2 ^ 31 * 2); lia).
    apply N.mod_mul. discriminate.
Qed.

Lemma index_loop_ok : forall n bound index log, 0 < index < 2 ^ 32 -> bound < 2 ^ 31 -> log + N.of_nat n < 2 ^ 32 ->
  bound < index * 2 ^ N.of_nat n ->
  exists j, index_loop n bound index log = Some (index * 2 ^ j, log + j) /\ bound < index * 2 ^ j < 2 ^ 32 /\ j <= N.of_nat n.
Proof.
  induction n as [|n IH]; intros bound index log Hi Hb Hl He.
  - change (2 ^ N.of_nat 0) with 1 in He. exists 0. change (2 ^ 0) with 1. cbn [index_loop].
    rewrite (proj2 (N.leb_gt index bound)) by lia. rewrite N.mul_1_r, N.add_0_r. repeat split; lia.
  - cbn [index_loop]. destruct (index <=? bound) eqn:E.
    + apply N.leb_le in E. assert (H32 : 2 ^ 32 = 2 * 2 ^ 31) by reflexivity.
      rewrite (w32_small (2 * index)), (w32_small (log + 1)) by lia.
      rewrite Nat2N.inj_succ, N.pow_succ_r' in He.
      destruct (IH bound (2 * index) (log + 1)) as (j & H1 & H2 & H3); try lia.
      exists (N.succ j). rewrite N.pow_succ_r'. replace (index * (2 * 2 ^ j)) with (2 * index * 2 ^ j) by lia.
      split; [rewrite H1; f_equal; f_equal; lia|]. split; [assumption|lia].
    + apply N.leb_gt in E. exists 0. change (2 ^ 0) with 1. rewrite N.mul_1_r, N.add_0_r. repeat split; lia.
Qed.

Lemma index_loop_post : forall n bound index log i l, index_loop n bound index log = Some (i, l) -> bound < i.
Proof.
  induction n as [|n IH]; intros bound index log i l H; cbn [index_loop] in H; destruct (index <=? bound) eqn:E.
  - discriminate.
  - injection H as <- <-. apply N.leb_gt. assumption.
  - eapply IH; eassumption.
  - injection H as <- <-. apply N.leb_gt. assumption.
Qed.

Lemma index_loop_pow : forall n bound index log i l, index_loop n bound index log = Some (i, l) ->
  index = 2 ^ log -> log < 32 -> i = 2 ^ l /\ l < 32.
Proof.
  induction n as [|n IH]; intros bound index log i l H Hi Hl; cbn [index_loop] in H; destruct (index <=? bound) eqn:E.
  - discriminate.
  - injection H as <- <-. auto.
  - destruct (N.eq_dec log 31) as [->|Hne].
    + subst index. change (w32 (2 * 2 ^ 31)) with 0 in H. exfalso. clear - H.
      remember (w32 (31 + 1)) as l0. clear Heql0. revert l0 H. induction n as [|n IH]; intros l0 H; cbn [index_loop] in H;
      rewrite (proj2 (N.leb_le _ _) (N.le_0_l bound)) in H; [discriminate|]. change (w32 (2 * 0)) with 0 in H. eapply IH; eassumption.
    + assert (H31 : 2 ^ log <= 2 ^ 30) by (apply N.pow_le_mono_r; lia).
      assert (H32 : 2 ^ 32 = 4 * 2 ^ 30) by reflexivity. assert (32 < 2 ^ 32) by reflexivity.
      rewrite (w32_small (2 * index)), (w32_small (log + 1)) in H by lia.
      apply (IH _ _ _ _ _ H); [|lia]. subst index. rewrite N.add_1_r, N.pow_succ_r'. reflexivity.
  - injection H as <- <-. auto.
Qed.

(** ** Inversion *)

Lemma init_ok : forall c k, init_config c = Ok k ->
  data_valid (u_data c) = true /\ u_filename c <> None /\ u_cache_size c <> 0 /\ u_disk_size c <> 0 /\
  k_cfg k = set_defaults c /\ u_page_size (k_cfg k) = LAIO_PAGE /\ u_extent_size (k_cfg k) = LAIO_EXTENT /\
  w64 (u_normal_threads c + u_memtable_threads c) < 64 /\
  node_config LAIO_PAGE (d_max_key (u_data c)) (u_fanout (k_cfg k)) (u_max_branches (k_cfg k))
    = Ok (k_max_pivot_keys k, k_hard_max_branches k) /\
  filter_config (u_filter_remainder (k_cfg k)) (u_filter_index (k_cfg k)) (k_max_tuples k) (u_max_branches (k_cfg k))
    = Ok (k_fingerprint k, k_index k, k_log_index k) /\
  k_disk_pages k = u_disk_size c / LAIO_PAGE /\ k_disk_extents k = u_disk_size c / LAIO_EXTENT /\
  k_max_extents_per_memtable k = w64 (2 * u_memtable_capacity (k_cfg k)) / LAIO_EXTENT /\
  k_max_kv_bytes k = w64 (u_fanout (k_cfg k) * k_max_extents_per_memtable k * LAIO_EXTENT) / 2 /\
  k_target_leaf k = k_max_kv_bytes k / 2 /\ k_max_tuples k = k_max_kv_bytes k / 32 /\
  k_cache_stats k = u_use_stats c /\ k_cache_pages k = u_cache_size c / LAIO_PAGE.
Proof.
  intros c k H. unfold init_config in H. cbv zeta in H.
  destruct (data_valid (u_data c)) eqn:E1; cbn [assert_] in H; [|discriminate].
  destruct (u_filename c) as [fl|] eqn:E2; cbn [orb] in H; [|discriminate].
  destruct (u_cache_size c =? 0) eqn:E3; cbn [orb] in H; [discriminate|].
  destruct (u_disk_size c =? 0) eqn:E4; [discriminate|].
  apply N.eqb_neq in E3, E4.
  destruct (string_fits (u_filename (set_defaults c))) eqn:E5; cbn [assert_] in H; [|discriminate].
  destruct (u_page_size (set_defaults c) =? LAIO_PAGE) eqn:E6; cbn [negb] in H; [|discriminate].
  destruct (u_extent_size (set_defaults c) =? LAIO_EXTENT) eqn:E7; cbn [negb] in H; [|discriminate].
  apply N.eqb_eq in E6, E7.
  destruct (string_fits (u_cache_logfile (set_defaults c))) eqn:E8; cbn [assert_] in H; [|discriminate].
  match type of H with context [if ?b then _ else _] => destruct b eqn:E9 end; [discriminate|].
  apply N.leb_gt in E9. rewrite E6, E7 in H.
  match type of H with context [node_config ?a ?b ?c ?d] => destruct (node_config a b c d) as [[mp hm]| | | |] eqn:E10 end;
    cbn [rbind] in H; try discriminate.
  match type of H with context [assert_ ?b _] => destruct b eqn:E11 end; cbn [assert_] in H; [|discriminate].
  match type of H with context [filter_config ?a ?b ?c ?d] => destruct (filter_config a b c d) as [[[fs ix] lg]| | | |] eqn:E12 end;
    cbn [rbind] in H; try discriminate.
  injection H as <-. cbn [k_cfg k_max_pivot_keys k_hard_max_branches k_fingerprint k_index k_log_index k_max_tuples k_disk_pages k_disk_extents k_max_extents_per_memtable k_max_kv_bytes k_target_leaf k_cache_stats k_cache_pages].
  do 17 (try split); try assumption; try reflexivity. discriminate.
Qed.

Lemma hdr_value : sizeof_trunk_hdr = 1190.
Proof. reflexivity. Qed.
Lemma pivot_value : sizeof_pivot_data = 91.
Proof. reflexivity. Qed.

(** What trunk_config_init computes when nothing wraps *)
Lemma node_config_spec : forall key fanout branches, fanout < 2 ^ 31 -> 0 < branches < 2 ^ 59 -> key < 2 ^ 31 ->
  node_config LAIO_PAGE key fanout branches
  = if 4096 <=? 1190 + (fanout + 6) * (key + 91) + 8 * branches then BadParam
    else Ok (fanout + 6, (4096 - 1190 - (fanout + 6) * (key + 91)) / 8 - 1).
Proof.
  intros key fanout branches Hf Hb Hk. unfold node_config. cbv zeta. rewrite hdr_value, pivot_value.
  change EXTRA_PIVOT_KEYS with 6. change sizeof_branch with 8. change LAIO_PAGE with 4096.
  assert (P64 : 2 ^ 64 = 18446744073709551616) by reflexivity. assert (P31 : 2 ^ 31 = 2147483648) by reflexivity.
  assert (P59 : 2 ^ 59 = 576460752303423488) by reflexivity.
  assert (HP : (fanout + 6) * (key + 91) <= (2 ^ 31 + 6) * (2 ^ 31 + 91)) by (apply N.mul_le_mono; lia).
  assert (P62 : (2 ^ 31 + 6) * (2 ^ 31 + 91) < 2 ^ 63) by reflexivity. assert (P63 : 2 ^ 63 = 9223372036854775808) by reflexivity.
  rewrite (w64_small (key + 91)), (w64_small (fanout + 6)) by lia.
  rewrite (w64_small ((fanout + 6) * (key + 91))), (w64_small (branches * 8)) by lia.
  rewrite (w64_small (1190 + _ + _)) by lia.
  destruct (fanout + 6 =? 0) eqn:E; [apply N.eqb_eq in E; lia|].
  replace (branches * 8) with (8 * branches) by lia.
  destruct (4096 <=? 1190 + (fanout + 6) * (key + 91) + 8 * branches) eqn:E2; [reflexivity|].
  apply N.leb_gt in E2. f_equal. f_equal.
  rewrite (sub64_le 4096 1190) by lia. rewrite (sub64_le (4096 - 1190)) by lia.
  rewrite sub64_le; [reflexivity| |].
  - apply N.div_le_lower_bound; lia.
  - eapply N.le_lt_trans; [apply N.div_le_upper_bound with (q := 4096); lia|lia].
Qed.

Lemma bits_bound : forall x, x < 2 ^ bits x.
Proof.
  intros x. unfold bits. destruct (N.eq_dec x 0) as [->|]; [reflexivity|].
  rewrite N.add_1_r. apply N.log2_spec. lia.
Qed.

Lemma bits_le : forall x n, x < 2 ^ n -> 0 < x -> bits x <= n.
Proof. intros x n H H0. unfold bits. pose proof (proj1 (N.log2_lt_pow2 x n H0) H). lia. Qed.

Lemma filter_config_ok : forall rem index tuples branches fs ix lg,
  filter_config rem index tuples branches = Ok (fs, ix, lg) ->
  0 < rem < 2 ^ 32 -> tuples < 2 ^ 64 -> 0 < branches < 2 ^ 31 ->
  0 < tuples /\ 1 <= fs /\ fs + bits branches <= 32 /\ (tuples < 2 ^ fs \/ fs + bits branches = 32) /\
  tuples / 16384 < ix /\
  (forall l, index = 2 ^ l -> l < 32 -> ix = 2 ^ lg /\ lg < 32).
Proof.
  intros rem index tuples branches fs ix lg H Hr Ht Hb. unfold filter_config in H. cbv zeta in H.
  destruct (w32 index =? 0) eqn:E1; [discriminate|]. apply N.eqb_neq in E1.
  destruct (tuples =? 0) eqn:E2; [discriminate|]. apply N.eqb_neq in E2.
  destruct (branches =? 0) eqn:E3; [discriminate|]. apply N.eqb_neq in E3.
  assert (BB : bits branches <= 31) by (apply bits_le; lia).
  assert (BT : bits tuples <= 64) by (apply bits_le; lia).
  assert (P64 : 2 ^ 64 = 18446744073709551616) by reflexivity. assert (P32 : 2 ^ 32 = 4294967296) by reflexivity.
  rewrite (sub64_le 32) in H by lia. rewrite (w64_small (rem + bits tuples)) in H by lia.
  change ((LAIO_PAGE / 8) * (LAIO_EXTENT / LAIO_PAGE)) with 16384 in H.
  match type of H with context [index_loop ?a ?b ?c ?d] => destruct (index_loop a b c d) as [[i l]|] eqn:E4 end; [|discriminate].
  remember (32 - bits branches) as room eqn:Hroom. injection H as Hfs <- <-.
  assert (B1 : 1 <= bits branches) by (unfold bits; lia). assert (B2 : 1 <= bits tuples) by (unfold bits; lia).
  split; [lia|].
  assert (F : fs = N.min room (rem + bits tuples)).
  { clear E4. revert Hfs. destruct (room <? rem + bits tuples) eqn:E5; intros Hfs; [apply N.ltb_lt in E5|apply N.ltb_ge in E5];
    rewrite w32_small in Hfs by lia; lia. }
  split; [lia|]. split; [lia|]. split.
  - destruct (N.le_gt_cases (rem + bits tuples) (32 - bits branches)).
    + left. replace fs with (rem + bits tuples) by lia. eapply N.lt_le_trans; [apply bits_bound|]. apply N.pow_le_mono_r; lia.
    + right. lia.
  - split; [eapply index_loop_post; eassumption|].
    intros l0 Hl0 Hlt. subst index.
    assert (HP : 2 ^ l0 < 2 ^ 32) by (apply N.pow_lt_mono_r; lia).
    rewrite w32_small in E4 by assumption. rewrite N.log2_pow2 in E4 by lia.
    eapply index_loop_pow; [exact E4|reflexivity|assumption].
Qed.
