(** * C41: configuration

    Which configurations are accepted, which defaults they get, and that the
    geometry derived from them fits the page. *)

From Coq Require Import List NArith Bool Lia ZifyN ZifyBool.
From Verif Require Import PackedArr Filter FilterProofs Config ConfigProofs Prop_Filter.
Import ListNotations.
Local Open Scope N_scope.

Arguments N.pow : simpl never.
Arguments N.modulo : simpl never.
Arguments N.div : simpl never.

(** A usable application part: a positive key size and all callbacks *)
Definition app_ok (d : dconf) : Prop :=
  0 < d_max_key d /\ d_compare d = true /\ d_hash d = true /\ d_key_to_string d = true /\ d_msg_to_string d = true.

Lemma app_ok_valid : forall d, app_ok d -> data_valid d = true.
Proof.
  intros [k a b e f] (H1 & H2 & H3 & H4 & H5). cbn [d_max_key d_compare d_hash d_key_to_string d_msg_to_string] in *. subst.
  unfold data_valid. cbn [d_max_key d_compare d_hash d_key_to_string d_msg_to_string].
  rewrite (proj2 (N.ltb_lt _ _) H1). reflexivity.
Qed.

(** A configuration without a file name, a cache size or a disk size is refused. *)
Theorem C41_required : forall c, app_ok (u_data c) ->
  u_filename c = None \/ u_cache_size c = 0 \/ u_disk_size c = 0 -> init_config c = BadParam.
Proof.
  intros c HA H. unfold init_config. rewrite (app_ok_valid _ HA). cbn [assert_].
  destruct (u_filename c) as [l|]; [|reflexivity]. cbn [orb].
  destruct H as [H|[H|H]]; [discriminate| |]; rewrite H; [reflexivity|].
  rewrite orb_true_r. reflexivity.
Qed.
Print Assumptions C41_required.

(** No configuration is accepted whose application part lacks a key size or one of the
    callbacks. *)
Theorem C41_callbacks : forall c k, init_config c = Ok k -> app_ok (u_data c).
Proof.
  intros c k H.
  unfold init_config in H. destruct (data_valid (u_data c)) eqn:E; [|discriminate]. clear H.
  unfold data_valid in E. repeat (apply andb_true_iff in E as [E ?]). apply N.ltb_lt in E.
  unfold app_ok. auto.
Qed.
Print Assumptions C41_callbacks.

(** The documented defaults (splinterdb.h and splinterdb.c) *)
Definition documented : list ((uconf -> N) * N) :=
  [ (u_page_size, 4096); (u_extent_size, 131072); (u_io_flags, 66 (* O_RDWR|O_CREAT *)); (u_io_perms, 493 (* 0755 *));
    (u_io_depth, 256); (u_rough_count_height, 1); (u_filter_remainder, 4); (u_filter_index, 512);
    (u_memtable_capacity, 25165824); (u_fanout, 8); (u_max_branches, 24); (u_reclaim, 18446744073709551615) ].

(** The fields a configuration keeps whatever they are *)
Definition kept : list (uconf -> N) :=
  [ u_cache_size; u_disk_size; u_memtable_threads; u_normal_threads; u_use_stats; u_queue_scale;
    (fun c => d_max_key (u_data c)); (fun c => N.b2n (u_use_log c)) ].

Theorem C41_defaults : forall c k, init_config c = Ok k ->
  (forall field d, In (field, d) documented -> field (k_cfg k) = if field c =? 0 then d else field c) /\
  (forall field, In field kept -> field (k_cfg k) = field c) /\
  u_filename (k_cfg k) = u_filename c /\ u_filename c <> None.
Proof.
  intros c k H. destruct (init_ok c k H) as (H1 & H2 & _ & _ & H5 & _). rewrite H5. clear H H5.
  split; [|split; [|split; [reflexivity|assumption]]].
  - intros field d Hin. cbn [documented In] in Hin.
    repeat match goal with H : _ \/ _ |- _ => destruct H end; try contradiction;
      match goal with H : _ = (field, d) |- _ => injection H as <- <- end; reflexivity.
  - intros field Hin. cbn [kept In] in Hin.
    repeat match goal with H : _ \/ _ |- _ => destruct H end; try contradiction; subst; reflexivity.
Qed.
Print Assumptions C41_defaults.

(** Parameters of ordinary size: nothing in the arithmetic wraps. *)
Record ordinary (c : uconf) : Prop := {
  o_app : app_ok (u_data c);
  o_name : exists l, u_filename c = Some l /\ l < 256;
  o_log : forall l, u_cache_logfile c = Some l -> l < 256;
  o_cache : 0 < u_cache_size c;
  o_disk : 0 < u_disk_size c < 2 ^ 64;
  o_threads : u_normal_threads c < 2 ^ 63 /\ u_memtable_threads c < 2 ^ 63;
  o_key : d_max_key (u_data c) < 2 ^ 31;
  o_fanout : u_fanout c < 2 ^ 31;
  o_branches : u_max_branches c < 2 ^ 31;
  o_memtable : u_memtable_capacity c = 0 \/ 2 ^ 16 <= u_memtable_capacity c <= 2 ^ 45;
  o_index : u_filter_index c < 2 ^ 32;
  o_remainder : u_filter_remainder c < 2 ^ 32
}.

Definition or_default (x d : N) : N := if x =? 0 then d else x.

(** What a node needs: its header, [fanout + 6] pivots with a key of the largest
    size each, and the branches; 1190, 91 and 8 are the sizes of the structures. *)
Definition node_need (key fanout branches : N) : N := 1190 + (fanout + 6) * (91 + key) + 8 * branches.

Definition acceptable (c : uconf) : Prop :=
  (u_page_size c = 0 \/ u_page_size c = 4096) /\
  (u_extent_size c = 0 \/ u_extent_size c = 131072) /\
  u_normal_threads c + u_memtable_threads c < 64 /\
  node_need (d_max_key (u_data c)) (or_default (u_fanout c) 8) (or_default (u_max_branches c) 24) < 4096.

Lemma or_default_dflt : forall x d, dflt x d = or_default x d.
Proof. reflexivity. Qed.

Lemma or_default_pos : forall x d, 0 < d -> 0 < or_default x d.
Proof. intros x d H. unfold or_default. destruct (x =? 0) eqn:E; [assumption|]. apply N.eqb_neq in E. lia. Qed.

Lemma or_default_lt : forall x d m, x < m -> d < m -> or_default x d < m.
Proof. intros x d m H1 H2. unfold or_default. destruct (x =? 0); assumption. Qed.

(** Small numbers for the sizes of a node that is accepted *)
Lemma need_bounds : forall key fanout branches, node_need key fanout branches < 4096 -> 0 < key -> 0 < fanout ->
  fanout <= 25 /\ key <= 324 /\ branches <= 283.
Proof.
  intros key fanout branches H Hk Hf. unfold node_need in H.
  assert (H1 : (fanout + 6) * 92 <= (fanout + 6) * (91 + key)) by (apply N.mul_le_mono_l; lia).
  assert (H2 : 7 * (91 + key) <= (fanout + 6) * (91 + key)) by (apply N.mul_le_mono_r; lia).
  lia.
Qed.

(** ** Acceptance

    An ordinary configuration is accepted exactly if it is acceptable, refused
    otherwise, and never runs into an assertion, undefined behaviour or a loop
    without end. *)
Theorem C41_accepted : forall c, ordinary c ->
  (acceptable c -> exists k, init_config c = Ok k) /\
  (~ acceptable c -> init_config c = BadParam).
Proof.
  intros c O. destruct O as [HA (l & Hn & Hnl) Hlog Hc Hd [Ht1 Ht2] Hk Hf Hb Hm Hi Hr].
  assert (P64 : 2 ^ 64 = 18446744073709551616) by reflexivity. assert (P63 : 2 ^ 63 = 9223372036854775808) by reflexivity.
  assert (P31 : 2 ^ 31 = 2147483648) by reflexivity. assert (P32 : 2 ^ 32 = 4294967296) by reflexivity.
  unfold init_config. rewrite (app_ok_valid _ HA), Hn. cbn [assert_ orb].
  rewrite (proj2 (N.eqb_neq (u_cache_size c) 0)), (proj2 (N.eqb_neq (u_disk_size c) 0)) by lia. cbn [orb]. cbv zeta.
  assert (SF : string_fits (u_filename (set_defaults c)) = true).
  { cbn [set_defaults u_filename]. rewrite Hn. apply N.ltb_lt. assumption. }
  rewrite SF. cbn [assert_].
  assert (SL : string_fits (u_cache_logfile (set_defaults c)) = true).
  { cbn [set_defaults u_cache_logfile]. destruct (u_cache_logfile c) as [l'|]; [|reflexivity]. apply N.ltb_lt, Hlog. reflexivity. }
  rewrite SL. cbn [assert_ set_defaults u_page_size u_extent_size u_normal_threads u_memtable_threads u_data u_fanout u_max_branches u_memtable_capacity u_filter_remainder u_filter_index].
  unfold acceptable.
  destruct (dflt (u_page_size c) LAIO_PAGE =? LAIO_PAGE) eqn:E1; cbn [negb].
  2: { split; [|reflexivity]. intros (A1 & _). exfalso. apply N.eqb_neq in E1. apply E1. unfold dflt.
       destruct A1 as [A1|A1]; rewrite A1; reflexivity. }
  assert (A1 : u_page_size c = 0 \/ u_page_size c = 4096).
  { apply N.eqb_eq in E1. unfold dflt in E1. destruct (u_page_size c =? 0) eqn:E; [left; apply N.eqb_eq; assumption|right; assumption]. }
  destruct (dflt (u_extent_size c) LAIO_EXTENT =? LAIO_EXTENT) eqn:E2; cbn [negb].
  2: { split; [|reflexivity]. intros (_ & A2 & _). exfalso. apply N.eqb_neq in E2. apply E2. unfold dflt.
       destruct A2 as [A2|A2]; rewrite A2; reflexivity. }
  assert (A2 : u_extent_size c = 0 \/ u_extent_size c = 131072).
  { apply N.eqb_eq in E2. unfold dflt in E2. destruct (u_extent_size c =? 0) eqn:E; [left; apply N.eqb_eq; assumption|right; assumption]. }
  apply N.eqb_eq in E1, E2. rewrite E1, E2.
  rewrite (w64_small (u_normal_threads c + u_memtable_threads c)) by lia.
  destruct (64 <=? u_normal_threads c + u_memtable_threads c) eqn:E3.
  { apply N.leb_le in E3. split; [|reflexivity]. intros (_ & _ & A3 & _). lia. }
  apply N.leb_gt in E3. change dflt with or_default.
  remember (or_default (u_fanout c) 8) as fo eqn:Efo. remember (or_default (u_max_branches c) 24) as mb eqn:Emb.
  assert (Hfo : 0 < fo < 2 ^ 31) by (subst; split; [apply or_default_pos|apply or_default_lt]; lia).
  assert (Hmb : 0 < mb < 2 ^ 31) by (subst; split; [apply or_default_pos|apply or_default_lt]; lia).
  assert (P59 : 2 ^ 59 = 576460752303423488) by reflexivity.
  rewrite node_config_spec by lia.
  unfold node_need. rewrite (N.add_comm 91).
  destruct (4096 <=? 1190 + (fo + 6) * (d_max_key (u_data c) + 91) + 8 * mb) eqn:E4.
  { apply N.leb_le in E4. cbn [rbind]. split; [|reflexivity]. intros (_ & _ & _ & A4). lia. }
  apply N.leb_gt in E4. cbn [rbind].
  split; [intros _|intros NA; exfalso; apply NA; tauto].
  match goal with |- context [assert_ ?b _] => change b with true end. cbn [assert_].
  destruct HA as (HA1 & _).
  destruct (need_bounds (d_max_key (u_data c)) fo mb) as (B1 & B2 & B3); [unfold node_need; rewrite (N.add_comm 91); assumption|assumption|lia|].
  remember (or_default (u_memtable_capacity c) (24 * 1024 * 1024)) as cap eqn:Ecap.
  assert (P16 : 2 ^ 16 = 65536) by reflexivity. assert (P45 : 2 ^ 45 = 35184372088832) by reflexivity.
  assert (Hcap : 2 ^ 16 <= cap <= 2 ^ 45).
  { subst cap. unfold or_default. destruct Hm as [->|Hm]; [split; discriminate|]. rewrite (proj2 (N.eqb_neq _ 0)) by lia. assumption. }
  change LAIO_EXTENT with 131072. rewrite (w64_small (2 * cap)) by lia.
  assert (X1 : 1 <= 2 * cap / 131072) by (apply N.div_le_lower_bound; lia).
  assert (X2 : 2 * cap / 131072 <= 2 ^ 29) by (apply N.div_le_upper_bound; [discriminate|]; change (2 ^ 29) with 536870912; lia).
  remember (2 * cap / 131072) as me eqn:Eme. assert (P29 : 2 ^ 29 = 536870912) by reflexivity.
  assert (X3 : fo * me <= 25 * 2 ^ 29) by (apply N.mul_le_mono; lia).
  assert (X4 : 1 * 1 <= fo * me) by (apply N.mul_le_mono; lia).
  rewrite (w64_small (fo * me * 131072)) by lia.
  remember (fo * me * 131072 / 2 / 32) as mt eqn:Emt.
  assert (X5 : 0 < mt).
  { subst mt. rewrite N.div_div by discriminate. apply N.lt_le_trans with 2048; [reflexivity|]. apply N.div_le_lower_bound; lia. }
  assert (X6 : mt / 16384 < 2 ^ 31).
  { subst mt. rewrite !N.div_div by discriminate. apply N.div_lt_upper_bound; [discriminate|]. lia. }
  unfold filter_config. cbv zeta. change dflt with or_default.
  assert (Hix : 0 < or_default (u_filter_index c) 512 < 2 ^ 32) by (split; [apply or_default_pos|apply or_default_lt]; lia).
  remember (or_default (u_filter_index c) 512) as ix eqn:Eix.
  rewrite (w32_small ix) by lia.
  rewrite (proj2 (N.eqb_neq ix 0)), (proj2 (N.eqb_neq mt 0)), (proj2 (N.eqb_neq mb 0)) by lia.
  change (LAIO_PAGE / 8 * (LAIO_EXTENT / LAIO_PAGE)) with 16384.
  assert (L : N.log2 ix <= 31).
  { assert (N.log2 ix < 32) by (apply N.log2_lt_pow2; lia). lia. }
  destruct (index_loop_ok 32 (mt / 16384) ix (N.log2 ix)) as (j & J1 & _).
  - lia.
  - assumption.
  - change (N.of_nat 32) with 32. lia.
  - change (N.of_nat 32) with 32. assert (1 * 2 ^ 32 <= ix * 2 ^ 32) by (apply N.mul_le_mono_r; lia). lia.
  - rewrite J1. cbn [rbind]. eexists. reflexivity.
Qed.
Print Assumptions C41_accepted.

(** ** The geometry of a node

    Byte ranges [(offset, length)] *)
Definition inside (page : N) (r : N * N) : Prop := fst r + snd r <= page.
Definition apart (r s : N * N) : Prop := fst r + snd r <= fst s \/ fst s + snd s <= fst r.

(** The ranges a node uses: the header, pivots and branches *)
Inductive node_range (k : kvs) : N -> N * N -> Prop :=
| nr_hdr : node_range k 0 (0, 1190)
| nr_pivot : forall i, i < k_max_pivot_keys k -> node_range k (1 + i) (pivot_off k i, 91 + d_max_key (u_data (k_cfg k)))
| nr_branch : forall j, j < k_hard_max_branches k -> node_range k (1 + k_max_pivot_keys k + j) (branch_off k j, 8).

Lemma accepted_node : forall c k, ordinary c -> init_config c = Ok k ->
  let key := d_max_key (u_data c) in
  let fo := or_default (u_fanout c) 8 in
  let mb := or_default (u_max_branches c) 24 in
  d_max_key (u_data (k_cfg k)) = key /\ u_fanout (k_cfg k) = fo /\ u_max_branches (k_cfg k) = mb /\
  0 < key /\ 0 < fo /\ 0 < mb /\ node_need key fo mb < 4096 /\
  k_max_pivot_keys k = fo + 6 /\ k_hard_max_branches k = (4096 - 1190 - (fo + 6) * (key + 91)) / 8 - 1.
Proof.
  intros c k O H key fo mb. destruct (init_ok c k H) as (_ & _ & _ & _ & H5 & _ & _ & _ & H9 & _).
  rewrite H5 in *. cbn [set_defaults u_data u_fanout u_max_branches] in *. change dflt with or_default in *. fold fo mb key in H9.
  assert (P31 : 2 ^ 31 = 2147483648) by reflexivity. assert (P59 : 2 ^ 59 = 576460752303423488) by reflexivity.
  assert (Hfo : 0 < fo < 2 ^ 31) by (split; [apply or_default_pos|apply or_default_lt]; try apply O; lia).
  assert (Hmb : 0 < mb < 2 ^ 31) by (split; [apply or_default_pos|apply or_default_lt]; try apply O; lia).
  assert (Hk : 0 < key < 2 ^ 31) by (split; apply O).
  rewrite node_config_spec in H9 by lia.
  destruct (4096 <=? 1190 + (fo + 6) * (key + 91) + 8 * mb) eqn:E; [discriminate|]. apply N.leb_gt in E.
  injection H9 as <- <-. unfold node_need. rewrite (N.add_comm 91). repeat split; lia.
Qed.

(** Header, pivots and branches of a node lie inside the page and do not overlap. *)
Theorem C41_geometry : forall c k, ordinary c -> init_config c = Ok k ->
  (forall a r, node_range k a r -> inside 4096 r) /\
  (forall a r b s, node_range k a r -> node_range k b s -> a <> b -> apart r s) /\
  k_max_pivot_keys k = u_fanout (k_cfg k) + 6 /\
  u_max_branches (k_cfg k) <= k_hard_max_branches k + 1 /\
  d_max_key (u_data c) <= 4096 / 8.
Proof.
  intros c k O H. destruct (accepted_node c k O H) as (H1 & H2 & H3 & H4 & H5 & H6 & H7 & H8 & H9).
  remember (d_max_key (u_data c)) as key eqn:Ek. remember (or_default (u_fanout c) 8) as fo eqn:Ef. remember (or_default (u_max_branches c) 24) as mb eqn:Em.
  destruct (need_bounds key fo mb H7 H4 H5) as (B1 & B2 & B3). unfold node_need in H7.
  rewrite (N.add_comm 91) in H7. remember ((fo + 6) * (key + 91)) as P eqn:EP.
  assert (D : 8 * ((4096 - 1190 - P) / 8) <= 4096 - 1190 - P) by (apply N.mul_div_le; discriminate).
  assert (D2 : mb <= (4096 - 1190 - P) / 8) by (apply N.div_le_lower_bound; lia).
  remember ((4096 - 1190 - P) / 8) as q eqn:Eq. clear Eq.
  assert (PS : pivot_size k = key + 91) by (unfold pivot_size; rewrite H1; change sizeof_pivot_data with 91; lia).
  assert (PO : forall i, pivot_off k i = 1190 + i * (key + 91)) by (intros i; unfold pivot_off; rewrite PS; reflexivity).
  assert (BO : forall j, branch_off k j = 1190 + P + j * 8).
  { intros j. unfold branch_off. rewrite PS, H8, EP. reflexivity. }
  assert (PM : forall i, i < fo + 6 -> (i + 1) * (key + 91) <= P).
  { intros i Hi. subst P. apply N.mul_le_mono_r. lia. }
  split; [|split; [|split; [rewrite H8, H2; reflexivity|split; [lia|change (4096 / 8) with 512; lia]]]].
  - intros a r Hr. unfold inside. destruct Hr as [|i Hi|j Hj]; cbn [fst snd].
    + lia.
    + rewrite PO, H1. rewrite H8 in Hi. specialize (PM i Hi). lia.
    + rewrite BO. lia.
  - intros a r b s Hr Hs Hab. unfold apart. destruct Hr as [|i Hi|j Hj], Hs as [|i' Hi'|j' Hj']; cbn [fst snd]; rewrite ?PO, ?BO, ?H1;
      rewrite ?H8 in *.
    + contradiction.
    + left; lia.
    + left; lia.
    + right; lia.
    + assert (i <> i') by congruence. destruct (N.lt_gt_cases i i') as [[L|L] _]; [assumption| |].
      * left. assert ((i + 1) * (key + 91) <= i' * (key + 91)) by (apply N.mul_le_mono_r; lia). lia.
      * right. assert ((i' + 1) * (key + 91) <= i * (key + 91)) by (apply N.mul_le_mono_r; lia). lia.
    + left. specialize (PM i Hi). lia.
    + right; lia.
    + right. specialize (PM i' Hi'). lia.
    + assert (j <> j') by (intros ->; apply Hab; reflexivity). lia.
Qed.
Print Assumptions C41_geometry.

(** ** The filter's geometry

    With a power of two for the index size, the derived configuration meets what
    the filter needs (C14): the fingerprint and the branch number fit in 32 bits,
    all tuples of a node can be told apart or the fingerprint is as large as
    possible, and the index of a full filter fits its extent. *)
Theorem C41_filter : forall c k, ordinary c -> init_config c = Ok k ->
  (forall l, or_default (u_filter_index c) 512 = 2 ^ l -> geometry (filter_cfg k)) /\
  (forall v, 0 < v <= u_max_branches (k_cfg k) -> k_fingerprint k + value_size v <= 32) /\
  (k_max_tuples k < 2 ^ k_fingerprint k \/
   k_fingerprint k + value_size (u_max_branches (k_cfg k)) = 32) /\
  (forall i, i * k_index k <= k_max_tuples k -> i / (4096 / 8) < 131072 / 4096).
Proof.
  intros c k O H. destruct (init_ok c k H) as (_ & _ & _ & _ & H5 & _ & _ & _ & _ & H10 & _ & _ & _ & H14 & _ & H16 & _).
  destruct (accepted_node c k O H) as (_ & _ & N1 & _ & _ & N2 & N3 & _).
  assert (P31 : 2 ^ 31 = 2147483648) by reflexivity. assert (P32 : 2 ^ 32 = 4294967296) by reflexivity.
  assert (Hmb : u_max_branches (k_cfg k) < 2 ^ 31) by (rewrite N1; apply or_default_lt; [apply O|reflexivity]).
  assert (Hrem : 0 < u_filter_remainder (k_cfg k) < 2 ^ 32).
  { rewrite H5. cbn [set_defaults u_filter_remainder]. change dflt with or_default. split; [apply or_default_pos|apply or_default_lt]; try apply O; lia. }
  assert (Ht : k_max_tuples k < 2 ^ 64).
  { rewrite H16. eapply N.le_lt_trans; [apply N.div_le_upper_bound with (q := k_max_kv_bytes k); lia|].
    rewrite H14. eapply N.le_lt_trans; [|apply N.mod_lt with (a := u_fanout (k_cfg k) * k_max_extents_per_memtable k * LAIO_EXTENT); discriminate].
    fold (w64 (u_fanout (k_cfg k) * k_max_extents_per_memtable k * LAIO_EXTENT)).
    apply N.div_le_upper_bound; lia. }
  destruct (filter_config_ok _ _ _ _ _ _ _ H10 Hrem Ht) as (F1 & F2 & F3 & F4 & F5 & F6); [rewrite N1 in *; lia|].
  assert (VS : forall v, 0 < v -> value_size v = bits v).
  { intros v Hv. unfold value_size. rewrite (proj2 (N.eqb_neq v 0)) by lia. reflexivity. }
  split; [|split; [|split]].
  - intros l Hl. split; [|assumption]. cbn [filter_cfg fc_index fc_log_index].
    apply (F6 l).
    + rewrite H5. cbn [set_defaults u_filter_index]. assumption.
    + destruct (N.lt_ge_cases l 32) as [L|L]; [assumption|]. exfalso.
      assert (2 ^ 32 <= 2 ^ l) by (apply N.pow_le_mono_r; lia).
      assert (or_default (u_filter_index c) 512 < 2 ^ 32) by (apply or_default_lt; [apply O|reflexivity]). lia.
  - intros v [Hv1 Hv2]. rewrite VS by assumption. unfold bits in *.
    assert (N.log2 v <= N.log2 (u_max_branches (k_cfg k))) by (apply N.log2_le_mono; assumption). lia.
  - rewrite VS by (rewrite N1; assumption). assumption.
  - intros i Hi. change (4096 / 8) with 512. change (131072 / 4096) with 32. apply N.div_lt_upper_bound; [discriminate|].
    change (512 * 32) with 16384.
    assert (D : k_max_tuples k < 16384 * k_index k).
    { pose proof (N.mul_succ_div_gt (k_max_tuples k) 16384 ltac:(discriminate)) as D.
      assert (16384 * N.succ (k_max_tuples k / 16384) <= 16384 * k_index k) by (apply N.mul_le_mono_l; lia). lia. }
    destruct (N.lt_ge_cases i 16384) as [L|L]; [assumption|]. exfalso.
    assert (16384 * k_index k <= i * k_index k) by (apply N.mul_le_mono_r; assumption). lia.
Qed.
Print Assumptions C41_filter.

(** The allocator then takes exactly the disks that are a positive number of
    whole extents. *)
Theorem C41_disk : forall c k, ordinary c -> init_config c = Ok k ->
  (allocator_valid k = Ok tt <-> exists n, 0 < n /\ u_disk_size c = n * 131072) /\
  (allocator_valid k <> Ok tt -> allocator_valid k = BadParam).
Proof.
  intros c k O H. destruct (init_ok c k H) as (_ & _ & _ & H4 & H5 & H6 & H7 & _ & _ & _ & H11 & H12 & _).
  assert (HD : u_disk_size (k_cfg k) = u_disk_size c) by (rewrite H5; reflexivity).
  unfold allocator_valid. cbv zeta. rewrite H6, H7, HD, H11, H12. cbn [negb N.eqb].
  rewrite !N.eqb_refl. cbn [negb]. rewrite (proj2 (N.eqb_neq _ 0) H4).
  change LAIO_PAGE with 4096 in *. change LAIO_EXTENT with 131072 in *.
  remember (u_disk_size c) as d eqn:Ed. assert (Hd : 0 < d < 2 ^ 64) by (subst; apply O).
  assert (L1 : 4096 * (d / 4096) <= d) by (apply N.mul_div_le; discriminate).
  assert (L2 : 131072 * (d / 131072) <= d) by (apply N.mul_div_le; discriminate).
  rewrite (w64_small (4096 * _)), (w64_small (131072 * _)) by lia.
  destruct (d / 131072 =? 0) eqn:E1; [apply N.eqb_eq in E1|apply N.eqb_neq in E1].
  { split; [|intros; reflexivity]. split; [discriminate|]. intros (n & Hn & Hd2). exfalso. rewrite Hd2, N.div_mul in E1 by discriminate. lia. }
  destruct (d =? 4096 * (d / 4096)) eqn:E2; [apply N.eqb_eq in E2|apply N.eqb_neq in E2]; cbn [negb].
  2: { split; [|intros; reflexivity]. split; [discriminate|]. intros (n & Hn & Hd2). exfalso. apply E2. rewrite Hd2.
       replace (n * 131072) with ((n * 32) * 4096) by lia. rewrite N.div_mul by discriminate. lia. }
  destruct (d =? 131072 * (d / 131072)) eqn:E3; [apply N.eqb_eq in E3|apply N.eqb_neq in E3]; cbn [negb].
  - split; [|intros X; contradiction X; reflexivity]. split; [intros _|reflexivity]. exists (d / 131072). split; lia.
  - split; [|intros; reflexivity]. split; [discriminate|]. intros (n & Hn & Hd2). exfalso. apply E3. rewrite Hd2 at 1 2.
    rewrite N.div_mul by discriminate. lia.
Qed.
Print Assumptions C41_disk.

(** ** Examples *)

Definition conf (key mem fanout branches index : N) : uconf :=
  UConf (Some 10) 1000000 (30 * 131072) (DConf key true true true true) 0 0 0 0 0 false None 0 0 0 0 index false mem fanout branches 0 0 0.

Lemma conf_ordinary : forall key mem fanout branches index, 0 < key < 2 ^ 31 -> mem = 0 \/ 2 ^ 16 <= mem <= 2 ^ 45 -> fanout < 2 ^ 31 ->
  branches < 2 ^ 31 -> index < 2 ^ 32 -> ordinary (conf key mem fanout branches index).
Proof.
  intros. constructor; cbn [conf u_data u_filename u_cache_logfile u_cache_size u_disk_size u_normal_threads u_memtable_threads u_fanout u_max_branches u_memtable_capacity u_filter_index u_filter_remainder d_max_key]; try lia; try discriminate.
  - repeat split; tauto.
  - exists 10. split; reflexivity.
Qed.

(** The defaults with 24-byte keys *)
Example config_default : ordinary (conf 24 0 0 0 0) /\ acceptable (conf 24 0 0 0 0) /\
  exists k, init_config (conf 24 0 0 0 0) = Ok k /\ k_max_pivot_keys k = 14 /\ k_hard_max_branches k = 161 /\
    k_max_tuples k = 6291456 /\ filter_cfg k = FCfg 27 512 9 4096 /\ allocator_valid k = Ok tt.
Proof.
  split; [|split].
  - apply conf_ordinary; try lia; reflexivity.
  - split; [left; reflexivity|]. split; [left; reflexivity|]. split; reflexivity.
  - eexists. split; [vm_compute; reflexivity|]. vm_compute. repeat split.
Qed.

(** A fanout that is too large for the keys is refused. *)
Example config_refused : ordinary (conf 24 0 25 0 0) /\ ~ acceptable (conf 24 0 25 0 0) /\ init_config (conf 24 0 25 0 0) = BadParam.
Proof.
  split; [|split].
  - apply conf_ordinary; try lia; reflexivity.
  - intros (_ & _ & _ & A). vm_compute in A. discriminate.
  - vm_compute. reflexivity.
Qed.

(** ** What the validation lets through *)

(** The check for the size of a node is done with wrapping arithmetic: 2^61
    branches per node are accepted though a page has room for 165. *)
Theorem C41_wrap_refuted : exists k, init_config (conf 24 0 0 (2 ^ 61) 0) = Ok k /\
  k_hard_max_branches k + 1 < u_max_branches (k_cfg k) /\ 4096 < 8 * u_max_branches (k_cfg k).
Proof. eexists. split; [vm_compute; reflexivity|]. split; vm_compute; reflexivity. Qed.
Print Assumptions C41_wrap_refuted.

(** Settings that make the configuration itself run into undefined behaviour or
    never end: a fanout of 2^64 - 6 divides by zero, an index size of 2^32 and a
    memtable below 64 KiB take the leading zeros of 0, and a huge memtable makes
    the doubling of the index size loop at 0. *)
Theorem C41_undefined_refuted :
  init_config (conf 24 0 (2 ^ 64 - 6) 0 0) = Undef /\
  init_config (conf 24 0 0 0 (2 ^ 32)) = Undef /\
  init_config (conf 24 65535 0 0 0) = Undef /\
  init_config (conf 24 (2 ^ 55) 0 0 0) = Diverge.
Proof. repeat split; vm_compute; reflexivity. Qed.
Print Assumptions C41_undefined_refuted.

(** Accepted settings outside what the rest of the code can take: 21 pivot keys
    where arrays have 20; as many branches as the ring has slots plus one; a ring
    of no slots at all, so that the first step in it divides by zero. *)
Theorem C41_limits_refuted :
  (exists k, ordinary (conf 8 0 15 0 0) /\ init_config (conf 8 0 15 0 0) = Ok k /\ MAX_PIVOTS < k_max_pivot_keys k) /\
  (exists k, ordinary (conf 9 0 0 188 0) /\ init_config (conf 9 0 0 188 0) = Ok k /\ k_hard_max_branches k < u_max_branches (k_cfg k)) /\
  (exists k, ordinary (conf 102 0 9 1 0) /\ init_config (conf 102 0 9 1 0) = Ok k /\ add_branch_number k 0 1 = Undef).
Proof.
  repeat split; eexists; (split; [apply conf_ordinary; try lia; try reflexivity|]); (split; [vm_compute; reflexivity|vm_compute; reflexivity]).
Qed.
Print Assumptions C41_limits_refuted.

(** With at most 14 children per node the pivot arrays are large enough. *)
Theorem C41_pivots : forall c k, ordinary c -> init_config c = Ok k -> u_fanout c <= 14 -> k_max_pivot_keys k <= MAX_PIVOTS.
Proof.
  intros c k O H Hf. destruct (accepted_node c k O H) as (_ & _ & _ & _ & _ & _ & _ & H8 & _). rewrite H8. unfold MAX_PIVOTS.
  assert (or_default (u_fanout c) 8 < 15) by (apply or_default_lt; lia). lia.
Qed.
Print Assumptions C41_pivots.

(** An index size of 2^20 with a 64 KiB memtable is accepted, but then the first
    filter that is built fails an assertion, whatever it holds. *)
Lemma add_aborts : forall cfg mem hashes v, fc_fs cfg < fc_log_index cfg -> filter_add cfg mem None hashes v = None.
Proof.
  intros cfg mem hashes v H. unfold filter_add. cbn [opt_bind]. unfold sizes_of, log_buckets.
  match goal with |- context [log2_32 ?x] => destruct (log2_32 x) as [l|] end; cbn [opt_bind]; [|reflexivity].
  assert (E : (fc_log_index cfg <=? (if l <? fc_log_index cfg then fc_log_index cfg else l)) &&
     ((if l <? fc_log_index cfg then fc_log_index cfg else l) <=? fc_fs cfg) = false).
  { destruct (l <? fc_log_index cfg) eqn:E; [|apply N.ltb_ge in E]; apply andb_false_intro2; apply N.leb_gt; lia. }
  rewrite E. reflexivity.
Qed.

Theorem C41_filter_refuted : exists k, ordinary (conf 24 65536 0 0 (2 ^ 20)) /\ init_config (conf 24 65536 0 0 (2 ^ 20)) = Ok k /\
  forall mem hashes v, filter_add (filter_cfg k) mem None hashes v = None.
Proof.
  eexists. split; [apply conf_ordinary; try lia; try reflexivity; right; vm_compute; split; discriminate|].
  split; [vm_compute; reflexivity|]. intros. apply add_aborts. vm_compute. reflexivity.
Qed.
Print Assumptions C41_filter_refuted.

(** "The default value of 100" of queue_scale_percent (splinterdb.h:133) is not
    set: 0 stays 0.  cache_use_stats is not read: the cache gets use_stats.  The
    sum of the thread counts wraps. *)
Theorem C41_ignored_refuted :
  (forall c k, init_config c = Ok k -> u_queue_scale c = 0 -> u_queue_scale (k_cfg k) = 0) /\
  (forall c k, init_config c = Ok k -> u_cache_use_stats c = true -> u_use_stats c = 0 -> k_cache_stats k = 0) /\
  (exists c k, u_normal_threads c = 2 ^ 64 - 1 /\ init_config c = Ok k).
Proof.
  split; [|split].
  - intros c k H. destruct (init_ok c k H) as (_ & _ & _ & _ & H5 & _). rewrite H5. cbn [set_defaults u_queue_scale]. auto.
  - intros c k H _ Hs. destruct (init_ok c k H) as (_ & _ & _ & _ & _ & _ & _ & _ & _ & _ & _ & _ & _ & _ & _ & _ & H17 & _). rewrite H17. assumption.
  - exists (UConf (Some 10) 1000000 131072 (DConf 24 true true true true) 0 0 0 0 0 false None 1 (2 ^ 64 - 1) 0 0 0 false 0 0 0 0 0 0).
    eexists. split; [reflexivity|vm_compute; reflexivity].
Qed.
Print Assumptions C41_ignored_refuted.
