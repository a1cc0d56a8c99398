(** * C14: the routing filter reports every value under which a key was added *)

From Coq Require Import List NArith Arith Bool Lia Permutation Sorted ZifyN ZifyNat ZifyBool.
From Verif Require Import PackedArr PackedArrProofs Filter FilterSortProofs FilterEncProofs FilterProofs.
Import ListNotations.
Local Open Scope N_scope.

(** Batches of 32-bit hashes with their values, added in turn to an empty filter;
    [mem k i] is what memory held where the [k]-th add put block [i]. *)
Fixpoint build (cfg : fcfg) (mem : nat -> N -> words) (f : option filter) (batches : list (list N * N)) : option (option filter) :=
  match batches with
  | [] => Some f
  | (hashes, value) :: r =>
      match filter_add cfg (mem (length r)) f hashes value with
      | Some f' => build cfg mem (Some f') r
      | None => None
      end
  end.

(** A geometry whose index size is a power of two *)
Definition geometry (cfg : fcfg) : Prop := fc_index cfg = 2 ^ fc_log_index cfg /\ 1 <= fc_fs cfg.

(** 32-bit hashes, values below 64; the number of bits of the values does not go
    down from batch to batch (the branch numbers of a node only go up). *)
Definition batches_ok (batches : list (list N * N)) : Prop :=
  Forall (fun b => Forall (fun h => h < 2 ^ 32) (fst b) /\ snd b < 64) batches /\
  StronglySorted (fun b c => value_size (snd b) <= value_size (snd c)) batches.

(** The filter keeps the top [fc_fs] bits of a hash. *)
Definition same_top (cfg : fcfg) (h h' : N) : Prop := h / 2 ^ (32 - fc_fs cfg) = h' / 2 ^ (32 - fc_fs cfg).

Definition all_pairs (cfg : fcfg) (batches : list (list N * N)) : list (N * N) :=
  flat_map (fun b => batch_pairs cfg (fst b) (snd b)) batches.

Lemma build_repr : forall cfg mem, geometry cfg -> (forall k i, wf_words (mem k i)) ->
  forall batches f C f', orepr cfg f C -> batches_ok batches ->
  (forall g b, f = Some g -> In b batches -> rf_vs g <= value_size (snd b)) ->
  build cfg mem f batches = Some f' -> orepr cfg f' (C ++ all_pairs cfg batches).
Proof.
  intros cfg mem [HI Hfs] Hmem batches. induction batches as [|[hs v] r IH]; intros f C f' HR HB HV H.
  - cbn in H. injection H as <-. cbn. rewrite app_nil_r. assumption.
  - cbn [build] in H. destruct HB as [HB1 HB2]. inversion HB1 as [|? ? [HB3 HB4] HB5]; subst. apply StronglySorted_inv in HB2. destruct HB2 as [HB6 HB7].
    cbn [fst snd] in *.
    pose proof (filter_add_spec cfg (mem (length r)) f C hs v HI Hfs (Hmem _) HR HB3 HB4) as FA.
    match type of FA with ?A -> _ => assert (G : A) by (intros g Hg; apply (HV g (hs, v) Hg); left; reflexivity) end.
    specialize (FA G). cbv zeta in FA.
    destruct (filter_add cfg (mem (length r)) f hs v) as [g|]; [|discriminate].
    destruct FA as (FA1 & FA2 & FA3).
    cbn [all_pairs flat_map fst snd]. rewrite app_assoc. apply (IH (Some g)); [assumption|split; assumption| |assumption].
    intros g' b Hg Hb. injection Hg as <-. rewrite FA3. apply (proj1 (Forall_forall _ _) HB7 b Hb).
Qed.

Lemma in_all_pairs : forall cfg batches t v, In (t, v) (all_pairs cfg batches) <->
  exists hs h', In (hs, v) batches /\ In h' hs /\ fingerprint cfg h' = t.
Proof.
  intros cfg batches t v. unfold all_pairs. rewrite in_flat_map. split.
  - intros ([hs w] & Hb & Hin). cbn [fst snd] in Hin. unfold batch_pairs in Hin. apply in_map_iff in Hin.
    destruct Hin as (t' & Ht & Hin). injection Ht as <- <-. apply nodup_In in Hin. apply in_map_iff in Hin.
    destruct Hin as (h' & <- & Hh). exists hs, h'. auto.
  - intros (hs & h' & Hb & Hh & <-). exists (hs, v). split; [assumption|]. cbn [fst snd]. unfold batch_pairs.
    apply in_map_iff. exists (fingerprint cfg h'). split; [reflexivity|]. apply nodup_In. apply in_map. assumption.
Qed.

(** Once any batches have been added, the lookup of any hash succeeds and reports
    exactly the values of the batches that contain a hash with the same top bits. *)
Theorem C14_lookup_exact : forall cfg mem batches f h,
  geometry cfg -> (forall k i, wf_words (mem k i)) -> batches_ok batches ->
  build cfg mem None batches = Some f -> h < 2 ^ 32 ->
  exists bits, filter_lookup cfg f h = Some bits /\
    forall v, N.testbit bits v = true <-> exists hs h', In (hs, v) batches /\ In h' hs /\ same_top cfg h h'.
Proof.
  intros cfg mem batches f h HG Hmem HB HF Hh.
  pose proof (build_repr cfg mem HG Hmem batches None [] f eq_refl HB ltac:(discriminate) HF) as HR. cbn [app] in HR.
  destruct f as [f|].
  - destruct (filter_lookup_spec cfg f _ h (proj1 HG) HR Hh) as (bits & E & HS). exists bits. split; [assumption|].
    intros v. rewrite HS, in_all_pairs. split; intros (hs & h' & A & B & D); exists hs, h'; unfold same_top, fingerprint in *; auto.
  - cbn [orepr] in HR. exists 0. split; [reflexivity|]. intros v. rewrite N.bits_0. split; [discriminate|].
    intros (hs & h' & A & B & _). assert (HIn : In (fingerprint cfg h', v) (all_pairs cfg batches)) by (apply in_all_pairs; exists hs, h'; auto).
    rewrite HR in HIn. destruct HIn.
Qed.
Print Assumptions C14_lookup_exact.

(** No false negatives, through to the loop of the callers: the values a lookup
    visits are, from the highest down, those of the batches with such a hash; a
    batch that contains the hash itself is always among them. *)
Theorem C14_no_false_negatives : forall cfg mem batches f h,
  geometry cfg -> (forall k i, wf_words (mem k i)) -> batches_ok batches -> Forall (fun b => snd b < 31) batches ->
  build cfg mem None batches = Some f -> h < 2 ^ 32 ->
  exists bits values, filter_lookup cfg f h = Some bits /\ found_values bits None 64 = Some values /\
    StronglySorted (fun a b => b < a) values /\
    (forall v, In v values -> exists hs h', In (hs, v) batches /\ In h' hs /\ same_top cfg h h') /\
    (forall hs v, In (hs, v) batches -> In h hs -> In v values /\ is_value_found bits v = Some true).
Proof.
  intros cfg mem batches f h HG Hmem HB H31 HF Hh.
  destruct (C14_lookup_exact cfg mem batches f h HG Hmem HB HF Hh) as (bits & E & HS).
  assert (Hlt : bits < 2 ^ 31).
  { apply bits_lt. intros k Hk. destruct (N.testbit bits k) eqn:T; [|reflexivity]. exfalso. apply HS in T. destruct T as (hs & h' & A & _).
    apply (proj1 (Forall_forall _ _) H31) in A. cbn [snd] in A. lia. }
  destruct (found_values_spec 64 bits None Hlt ltac:(cbn; lia)) as (l & L1 & L2 & L3).
  exists bits, l. split; [assumption|]. split; [assumption|]. split; [assumption|]. split.
  - intros v Hv. apply L2 in Hv. apply HS. apply Hv.
  - intros hs v Hb Hin. assert (T : N.testbit bits v = true) by (apply HS; exists hs, h; unfold same_top; auto).
    split; [apply L2; auto|]. apply (proj1 (Forall_forall _ _) H31) in Hb. cbn [snd] in Hb.
    unfold is_value_found. replace (v <? 31) with true by lia. cbn [guard]. f_equal. apply negb_true_iff. apply N.eqb_neq. intros Z.
    assert (N.testbit (N.land bits (2 ^ v)) v = true) by (rewrite N.land_spec, T, N.pow2_bits_true; reflexivity).
    rewrite Z, N.bits_0 in H. discriminate.
Qed.
Print Assumptions C14_no_false_negatives.

(** How many stored fingerprints fall under index [j] when the filter counts [num]
    (the indices divide the fingerprints by their top bits), and whether a block
    with that many fits its page and the scratch encoding buffer *)
Definition indices (cfg : fcfg) (num : N) : N := N.max (fc_log_index cfg) (N.log2 num) - fc_log_index cfg.
Definition load (cfg : fcfg) (num j : N) (C : list (N * N)) : N :=
  N.of_nat (length (List.filter (fun p => fst p / 2 ^ (fc_fs cfg - indices cfg num) =? j) C)).
Definition block_fits (cfg : fcfg) (num vs n : N) : Prop :=
  let width := fc_fs cfg - indices cfg num - fc_log_index cfg + vs in
  (n + fc_index cfg - 1) / 8 + 6 + remainder_block_size n width <= fc_page cfg /\ (n + fc_index cfg - 1) / 8 + 4 <= 512.
Definition enough_room (cfg : fcfg) (num vs : N) (C : list (N * N)) : Prop :=
  forall j, j < 2 ^ indices cfg num -> block_fits cfg num vs (load cfg num j C) /\ j / (fc_page cfg / 8) < 32.

Lemma room_of_enough : forall cfg num vs C, enough_room cfg num vs C -> room cfg num vs C.
Proof.
  intros cfg num vs C H lnb lni rem Hs j Hj. apply sizes_inv in Hs. destruct Hs as (S1 & S2 & S3 & S4 & S5 & S6).
  assert (Ei : indices cfg num = lni) by (unfold indices; lia).
  specialize (H j). rewrite Ei in H. specialize (H Hj). destruct H as [H1 H2]. split; [|assumption].
  unfold block_fits in H1. cbv zeta in H1. unfold load in H1. rewrite Ei in H1.
  replace (fc_fs cfg - lni - fc_log_index cfg + vs) with (rem + vs) in H1 by lia.
  replace (fc_fs cfg - lni) with (rem + fc_log_index cfg) in H1 by lia. 
  unfold fits, header_length, encoding_size, under. lia.
Qed.

(** Adding never aborts as long as the counts stay below 2^fingerprint_size, the
    fields fit in 32 bits and every index's block fits its page. *)
Theorem C14_add_never_aborts : forall cfg mem,
  geometry cfg -> fc_log_index cfg < fc_fs cfg -> (forall k i, wf_words (mem k i)) ->
  forall batches, batches_ok batches ->
  (forall pre hs v post, batches = pre ++ (hs, v) :: post ->
     let num := N.of_nat (length (flat_map fst pre) + length hs) in
     0 < num < 2 ^ fc_fs cfg /\ fc_fs cfg + value_size v <= 32 /\
     enough_room cfg num (value_size v) (all_pairs cfg (pre ++ [(hs, v)]))) ->
  exists f, build cfg mem None batches = Some f.
Proof.
  intros cfg mem HG HL Hmem batches HB HR.
  assert (G : forall post pre f, batches = pre ++ post -> orepr cfg f (all_pairs cfg pre) ->
     old_num f = N.of_nat (length (flat_map fst pre)) ->
     (forall g b, f = Some g -> In b post -> rf_vs g <= value_size (snd b)) ->
     exists f', build cfg mem f post = Some f').
  { induction post as [|[hs v] post IH]; intros pre f E HRf Hn HV; [exists f; reflexivity|].
    cbn [build]. destruct HG as [HI Hfs].
    assert (Hb : In (hs, v) batches) by (rewrite E; apply in_or_app; right; left; reflexivity).
    destruct HB as [HB1 HB2]. pose proof (proj1 (Forall_forall _ _) HB1 _ Hb) as [HB3 HB4]. cbn [fst snd] in *.
    pose proof (filter_add_spec cfg (mem (length post)) f (all_pairs cfg pre) hs v HI Hfs (Hmem _) HRf HB3 HB4) as FA.
    match type of FA with ?A -> _ => assert (G : A) by (intros g Hg; apply (HV g (hs, v) Hg); left; reflexivity) end.
    specialize (FA G). clear G. cbv zeta in FA.
    destruct (HR pre hs v post E) as (R1 & R2 & R3).
    assert (Enum : N.of_nat (length hs) + old_num f = N.of_nat (length (flat_map fst pre) + length hs)) by lia.
    assert (Eap : all_pairs cfg (pre ++ [(hs, v)]) = all_pairs cfg pre ++ batch_pairs cfg hs v).
    { unfold all_pairs. rewrite flat_map_app. cbn [flat_map fst snd]. rewrite app_nil_r. reflexivity. }
    destruct (filter_add cfg (mem (length post)) f hs v) as [g|].
    - destruct FA as (F1 & F2 & F3). apply (IH (pre ++ [(hs, v)]) (Some g)).
      + rewrite <- app_assoc. assumption.
      + cbn [orepr]. rewrite Eap. assumption.
      + cbn [old_num]. rewrite F2, Enum, flat_map_app, app_length. cbn [flat_map fst]. rewrite app_nil_r. reflexivity.
      + intros g' b Hg Hin. injection Hg as <-. rewrite F3.
        assert (HS : StronglySorted (fun b c : list N * N => value_size (snd b) <= value_size (snd c)) ((hs, v) :: post)).
        { rewrite E in HB2. clear - HB2. induction pre as [|x pre IHp]; [assumption|]. cbn [app] in HB2. apply StronglySorted_inv in HB2. apply IHp. apply HB2. }
        apply StronglySorted_inv in HS. apply (proj1 (Forall_forall _ _) (proj2 HS) b Hin).
    - exfalso. apply FA. rewrite Enum, <- Eap. split; [assumption|]. split; [assumption|]. split; [assumption|].
      apply room_of_enough. assumption. }
  apply (G batches [] None); [reflexivity|reflexivity|reflexivity|discriminate].
Qed.
Print Assumptions C14_add_never_aborts.

(** The blocks an add writes lie inside their pages and do not overlap, and the
    words of the packed remainders lie inside their block. *)
Theorem C14_block_layout : forall cfg mem old hashes value f,
  filter_add cfg mem old hashes value = Some f ->
  exists width, forall i b, nth_error (rf_blocks f) i = Some b ->
    let size := (fun b => header_length cfg (fb_num b) + remainder_block_size (fb_num b) width) in
    fb_off b + size b <= fc_page cfg /\
    (0 < fb_num b -> 1 <= width -> fb_num b * width < 2 ^ 32 ->
       4 * ((fb_num b * width - 1) / 32 + 1) <= remainder_block_size (fb_num b) width) /\
    forall j c, (j < i)%nat -> nth_error (rf_blocks f) j = Some c ->
      fb_pageno c < fb_pageno b \/ (fb_pageno c = fb_pageno b /\ fb_off c + size c <= fb_off b).
Proof.
  intros cfg mem old hashes value f H.
  destruct (filter_add_laid cfg mem old hashes value f H) as (lnb & lni & rem & S1 & S2 & S3).
  exists (rem + rf_vs f). intros i b Hb. cbv zeta. split; [|split].
  - apply (proj1 (Forall_forall _ _) S2 b). apply (nth_error_In _ _ Hb).
  - intros H1 H2 H3. apply remainders_inside; assumption.
  - intros j c Hj Hc. apply (S3 j i c b Hj Hc Hb).
Qed.
Print Assumptions C14_block_layout.

(** An index that draws too many fingerprints aborts the add (in a build without
    assertions: runs over the page): only a debug assertion checks the size. *)
Theorem C14_crowded_index_refuted : forall cfg mem hashes value,
  geometry cfg -> (forall i, wf_words (mem i)) -> Forall (fun h => h < 2 ^ 32) hashes -> value < 64 ->
  (exists j, j < 2 ^ indices cfg (N.of_nat (length hashes)) /\
     ~ block_fits cfg (N.of_nat (length hashes)) (value_size value)
         (load cfg (N.of_nat (length hashes)) j (batch_pairs cfg hashes value))) ->
  filter_add cfg mem None hashes value = None.
Proof.
  intros cfg mem hashes value [HI Hfs] Hmem Hh Hv (j & Hj & Hn).
  pose proof (filter_add_spec cfg mem None [] hashes value HI Hfs Hmem eq_refl Hh Hv ltac:(discriminate)) as FA. cbv zeta in FA.
  destruct (filter_add cfg mem None hashes value) as [f|]; [|reflexivity]. exfalso. apply Hn. clear Hn.
  destruct FA as ((lnb & lni & rem & R1 & R2 & R3 & R4 & R5) & FN & FV). cbn [old_num app] in *. rewrite N.add_0_r in FN.
  rewrite FN in R1. apply sizes_inv in R1. destruct R1 as (S1 & S2 & S3 & S4 & S5 & S6).
  set (num := N.of_nat (length hashes)) in *.
  assert (Ei : indices cfg num = lni) by (unfold indices; lia). rewrite Ei in Hj.
  destruct (nth_error (rf_blocks f) (N.to_nat j)) as [b|] eqn:Eb.
  2:{ apply nth_error_None in Eb. lia. }
  destruct (R5 j b Eb) as (M & HP & _ & _ & _ & _ & B5 & _).
  apply Permutation_length in HP. rewrite map_length in HP. rewrite HP, FV in B5. unfold fits in B5.
  unfold block_fits, load. cbv zeta. rewrite Ei.
  replace (fc_fs cfg - lni - fc_log_index cfg + value_size value) with (rem + value_size value) by lia.
  replace (fc_fs cfg - lni) with (rem + fc_log_index cfg) by lia.
  unfold header_length, encoding_size, under in B5. lia.
Qed.
Print Assumptions C14_crowded_index_refuted.

(** With the default geometry (index size 512, pages of 4 KiB), 4096 keys whose
    hashes share their first 14 bits are enough. *)
Lemma crowd_tops : forall n, nodup N.eq_dec (map (fingerprint (FCfg 26 512 9 4096)) (map (fun k => 64 * N.of_nat k) (seq 0 n))) = map N.of_nat (seq 0 n).
Proof.
  intros n. rewrite map_map. 
  replace (map (fun x => fingerprint (FCfg 26 512 9 4096) (64 * N.of_nat x)) (seq 0 n)) with (map N.of_nat (seq 0 n)).
  - apply nodup_fixed_point. apply FinFun.Injective_map_NoDup; [intros a b; lia|apply seq_NoDup].
  - apply map_ext. intros k. unfold fingerprint. cbn [fc_fs]. change (2 ^ (32 - 26)) with 64. rewrite N.mul_comm, N.div_mul by lia. reflexivity.
Qed.

Theorem C14_default_geometry_crowded_refuted : exists hashes,
  length hashes = 4096%nat /\ NoDup hashes /\ Forall (fun h => h < 2 ^ 32) hashes /\
  forall mem, (forall i, wf_words (mem i)) -> filter_add (FCfg 26 512 9 4096) mem None hashes 0 = None.
Proof.
  exists (map (fun k => 64 * N.of_nat k) (seq 0 4096)).
  assert (El : length (map (fun k => 64 * N.of_nat k) (seq 0 4096)) = 4096%nat) by (rewrite map_length, seq_length; reflexivity).
  assert (E : Forall (fun h => h < 2 ^ 32) (map (fun k => 64 * N.of_nat k) (seq 0 4096))).
  { apply Forall_map. apply Forall_forall. intros k Hk. apply in_seq in Hk. change (2 ^ 32) with 4294967296. lia. }
  split; [assumption|]. split; [apply FinFun.Injective_map_NoDup; [intros a b; lia|apply seq_NoDup]|]. split; [assumption|].
  intros mem Hmem. apply C14_crowded_index_refuted; [split; [reflexivity|cbn; lia]|assumption|assumption|lia|].
  exists 0. rewrite El. split; [apply pow_pos|].
  assert (Ld : load (FCfg 26 512 9 4096) (N.of_nat 4096) 0 (batch_pairs (FCfg 26 512 9 4096) (map (fun k => 64 * N.of_nat k) (seq 0 4096)) 0) = 4096).
  { unfold load, batch_pairs. rewrite crowd_tops, map_map.
    change (2 ^ (fc_fs (FCfg 26 512 9 4096) - indices (FCfg 26 512 9 4096) (N.of_nat 4096))) with 8388608.
    replace (List.filter (fun p : N * N => fst p / 8388608 =? 0) (map (fun x => (N.of_nat x, 0)) (seq 0 4096))) with (map (fun x => (N.of_nat x, 0)) (seq 0 4096)).
    - rewrite map_length, seq_length. reflexivity.
    - assert (HF : Forall (fun p : N * N => fst p < 8388608) (map (fun x => (N.of_nat x, 0)) (seq 0 4096))).
      { apply Forall_map. apply Forall_forall. intros k Hk. apply in_seq in Hk. cbn [fst]. lia. }
      induction HF as [|p l Hp HF IH]; [reflexivity|]. cbn [List.filter]. rewrite N.div_small by assumption. rewrite N.eqb_refl. f_equal. exact IH. }
  rewrite Ld. intros [_ B]. revert B. apply N.lt_nge. vm_compute. reflexivity.
Qed.
Print Assumptions C14_default_geometry_crowded_refuted.

(** The configuration does not insist on a power of two for the index size; with
    6 (and so log_index_size 2) a second index makes the add write before its
    encoding buffer. *)
Theorem C14_index_size_refuted :
  filter_add (FCfg 8 6 2 4096) (fun _ _ => 0) None (map (fun k => N.of_nat k * 2 ^ 28) (seq 0 16)) 1 = None /\
  exists f, filter_add (FCfg 8 8 3 4096) (fun _ _ => 0) None (map (fun k => N.of_nat k * 2 ^ 28) (seq 0 16)) 1 = Some f.
Proof. split; [vm_compute; reflexivity|]. eexists. vm_compute. reflexivity. Qed.
Print Assumptions C14_index_size_refuted.

(** A first batch with no keys takes the logarithm of 0 (the callers avoid it). *)
Theorem C14_empty_filter_refuted : forall cfg mem value, filter_add cfg mem None [] value = None.
Proof. reflexivity. Qed.
Print Assumptions C14_empty_filter_refuted.

(** Value 31 and above: the next value is computed with an undefined shift. *)
Theorem C14_value_31_refuted : found_values (2 ^ 31 + 1) None 64 = None /\ found_values (2 ^ 30 + 1) None 64 = Some [30; 0].
Proof. split; vm_compute; reflexivity. Qed.
Print Assumptions C14_value_31_refuted.

(** Three batches, several indices: a key of the first and third is found there,
    a key of none is not found, one that shares its top bits is. *)
Definition ex_cfg : fcfg := FCfg 12 8 3 256.
Definition ex_batches : list (list N * N) :=
  [(map (fun k => N.of_nat k * 2 ^ 26 + 5) (seq 0 20), 0);
   (map (fun k => N.of_nat k * 2 ^ 25 + 2 ^ 21) (seq 3 25), 1);
   (map (fun k => N.of_nat k * 2 ^ 27 + 5) (seq 0 9), 3)].

Example C14_example :
  geometry ex_cfg /\ batches_ok ex_batches /\
  exists f, build ex_cfg (fun _ _ _ => 0) None ex_batches = Some (Some f) /\ length (rf_blocks f) = 4%nat /\
    filter_lookup ex_cfg (Some f) (4 * 2 ^ 26 + 5) = Some 9 /\          (* first and third *)
    filter_lookup ex_cfg (Some f) (5 * 2 ^ 25 + 2 ^ 21) = Some 2 /\     (* second *)
    filter_lookup ex_cfg (Some f) (5 * 2 ^ 25 + 2 ^ 21 + 77) = Some 2 /\ (* same top bits *)
    filter_lookup ex_cfg (Some f) (2 ^ 31) = Some 0.
Proof.
  split; [split; [reflexivity|cbn; lia]|]. split.
  - split.
    + repeat (apply Forall_cons; [split; [|reflexivity]; apply Forall_map; apply Forall_forall; intros k Hk; apply in_seq in Hk; cbn [fst snd];
        change (2 ^ 32) with 4294967296; change (2 ^ 26) with 67108864; change (2 ^ 25) with 33554432; change (2 ^ 21) with 2097152; change (2 ^ 27) with 134217728; lia|]).
      constructor.
    + repeat (constructor; [|repeat constructor; vm_compute; discriminate]). constructor.
  - eexists. split; [vm_compute; reflexivity|]. repeat split; vm_compute; reflexivity.
Qed.
