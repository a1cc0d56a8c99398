(** * C08, C10, C28, C29: the memtable's tree *)

From Coq Require Import List ZArith NArith Arith Bool Lia Sorting.Sorted.
From Verif Require Import Base Spec Codec Search SearchProofs DataProofs Page PageProofs PageBytes Btree
  BtreeLeafProofs BtreeProofs BtreeMapProofs BtreeRunProofs Witness.
Import ListNotations.
Local Open Scope N_scope.

(** The hypotheses shared by the theorems: keys are compared by [ord] (as far
    as the keys in [D] are concerned), keys of up to [K] bytes are in [D], and
    [K] is at most about a tenth of the page size. *)
Definition setting (cfg : data_config) (ord : bytes -> bytes -> Z) (D : bytes -> Prop) (P K : N) : Prop :=
  total_order ord /\ agrees cfg ord D /\ (forall k, blen k <= K -> D k) /\
  2 * K + P / 23 + 90 <= P / 4.

(** The writes are such that updates may be used, accepted keys are at most
    [K] bytes, and no merge of accepted writes outgrows the message limit. *)
Definition writes_ok (cfg : data_config) (P K : N) (ops : list (bytes * message)) : Prop :=
  Forall (fun o => msg_allowed cfg (snd o)) ops /\
  Forall (fun o => accepted P o = true -> blen (fst o) <= K) ops /\
  (forall a b k m, ops = a ++ b ->
     merged cfg k (messages_for k (filter (accepted P) a)) = Some m ->
     blen (m_data m) <= 35 * P / 100).

(** ** C08: the tree is a sorted map *)

Theorem C08_insertions_make_a_map :
  forall cfg ord D P K ops,
    setting cfg ord D P K -> writes_ok cfg P K ops ->
    exists t, insert_all cfg P (btree_create P) ops = Some (reports P [] ops, t) /\
      (* lookups *)
      (forall k, D k -> bt_lookup cfg t k = Some (merged cfg k (messages_for k (filter (accepted P) ops)))) /\
      (* contents: sorted, and exactly the merged messages *)
      StronglySorted (fun a b => (ord a b < 0)%Z) (map fst (bt_entries t)) /\
      (forall k m, In (k, m) (bt_entries t) <->
                   merged cfg k (messages_for k (filter (accepted P) ops)) = Some m).
Proof.
  intros cfg ord D P K ops (TO & AG & DK & HK) (Ha & Hk & Hf).
  destruct (insert_all_spec cfg ord TO D AG P K DK HK ops [] (btree_create P)) as (t & E & Hok & Hmap); auto.
  { now apply seq_ok_create. }
  cbn [app] in Hmap. exists t. split; [exact E|].
  assert (Hs : StronglySorted (fun a b => (ord a b < 0)%Z) (map fst (bt_entries t)))
    by (apply (bt_ok_sorted ord TO P K (max_msg P)); exact Hok).
  split; [|split].
  - intros k Dk. rewrite <- Hmap. apply (bt_lookup_spec cfg ord TO D AG P K (max_msg P) DK t k Hok Dk).
  - exact Hs.
  - intros k m. rewrite <- Hmap. symmetry. now apply (map_get_in ord TO).
Qed.

(** In terms of the meaning of writes: applying what the tree holds for [k] to
    any value is applying the accepted writes to [k] in order. *)
Theorem C08_lookup_means_history :
  forall cfg ord D P K ops,
    setting cfg ord D P K -> writes_ok cfg P K ops -> lawful_merge cfg ->
    exists t, insert_all cfg P (btree_create P) ops = Some (reports P [] ops, t) /\
      forall k, D k -> exists r, bt_lookup cfg t k = Some r /\
        let ms := messages_for k (filter (accepted P) ops) in
        (r = None <-> ms = []) /\
        (forall m, r = Some m -> forall v, apply_msg cfg k m v = replay cfg k ms v).
Proof.
  intros cfg ord D P K ops Hset Hw L.
  destruct (C08_insertions_make_a_map cfg ord D P K ops Hset Hw) as (t & E & Hl & _).
  exists t. split; [exact E|]. intros k Dk. eexists. split; [exact (Hl k Dk)|]. cbv zeta.
  assert (Hall : Forall (msg_allowed cfg) (messages_for k (filter (accepted P) ops))).
  { destruct Hw as (Ha & _). rewrite Forall_forall in *. intros m Hm. apply messages_for_in in Hm.
    apply filter_In in Hm. exact (Ha _ (proj1 Hm)). }
  split; [now apply merged_nil_iff|]. intros m Em v. now apply merged_meaning.
Qed.

(** The leaves are linked in both directions, in order, and end with 0. *)
Theorem C08_leaves_are_chained :
  forall cfg ord D P K ops,
    setting cfg ord D P K -> writes_ok cfg P K ops ->
    exists t, insert_all cfg P (btree_create P) ops = Some (reports P [] ops, t) /\
      NoDup (map lf_addr (bt_leaves t)) /\
      flat_map (fun l => pg_cont (lf_page l)) (bt_leaves t) = bt_entries t /\
      forall X a Y, map lf_addr (bt_leaves t) = X ++ a :: Y ->
        e_links (bt_env t) a = (last X 0, hd 0 Y) /\ 0 < a.
Proof.
  intros cfg ord D P K ops (TO & AG & DK & HK) (Ha & Hk & Hf).
  destruct (insert_all_spec cfg ord TO D AG P K DK HK ops [] (btree_create P)) as (t & E & Hok & Hmap); auto.
  { now apply seq_ok_create. }
  exists t. split; [exact E|]. destruct (bt_ok_chained ord P K (max_msg P) t Hok) as (C1 & C2 & _ & C3).
  split; [exact C1|]. split; [reflexivity|]. intros X a Y Eq. split; [now apply C3|].
  apply C2. rewrite Eq. apply in_elt.
Qed.

(** With the default configuration (keys compared as byte strings, no updates)
    nothing has to be assumed about the writes but the key size. *)
Theorem C08_default_configuration :
  forall hash P K ops,
    2 * K + P / 23 + 90 <= P / 4 -> K < 2 ^ 31 ->
    Forall (fun o => blen (fst o) <= K /\ m_class (snd o) <> MUpdate) ops ->
    exists t, insert_all (default_data_config hash) P (btree_create P) ops = Some (reports P [] ops, t) /\
      forall k, blen k < 2 ^ 31 ->
        bt_lookup (default_data_config hash) t k =
        Some (match rev (messages_for k (filter (accepted P) ops)) with [] => None | m :: _ => Some m end).
Proof.
  intros hash P K ops HK HK2 Hops. set (cfg := default_data_config hash).
  assert (Hmerge : forall k ms, Forall (fun m => m_class m <> MUpdate) ms ->
    merged cfg k ms = match rev ms with [] => None | m :: _ => Some m end).
  { intros k ms. induction ms as [|m ms IH] using rev_ind; intros H; [reflexivity|].
    rewrite merged_snoc, rev_app_distr. cbn [rev app]. rewrite Forall_app in H. destruct H as [H1 H2].
    rewrite IH by exact H1. inversion H2; subst. destruct (rev ms) as [|o r]; [reflexivity|].
    unfold data_merge_tuples, is_definitive. destruct (m_class m) eqn:Em; try reflexivity. now destruct H3. }
  assert (Hnu : forall k a b, ops = a ++ b -> Forall (fun m => m_class m <> MUpdate) (messages_for k (filter (accepted P) a))).
  { intros k a b Eq. rewrite Forall_forall in *. intros m Hm. apply messages_for_in in Hm. apply filter_In in Hm.
    apply (Hops (k, m)). rewrite Eq. apply in_or_app. left. apply Hm. }
  destruct (C08_insertions_make_a_map cfg lex_compare (fun k => blen k < 2 ^ 31) P K ops) as (t & E & Hl & _).
  - split; [exact lex_compare_total|]. split; [|split; [intros; lia|exact HK]].
    intros a b Da Db. unfold cfg, default_data_config. cbn [key_compare].
    assert (Ia : int_len a) by exact Da. assert (Ib : int_len b) by exact Db.
    pose proof (slice_lex_cmp_lexc a b Ia Ib) as X. unfold lex_compare. destruct (lexc a b); lia.
  - split; [|split].
    + eapply Forall_impl; [|exact Hops]. intros o [_ Ho] X. congruence.
    + eapply Forall_impl; [|exact Hops]. intros o [Ho _] _. exact Ho.
    + intros a b k m Eq Em. rewrite Hmerge in Em by (eapply Hnu; eauto).
      destruct (rev (messages_for k (filter (accepted P) a))) as [|x r] eqn:Er; [discriminate|]. injection Em as ->.
      assert (Hin : In m (messages_for k (filter (accepted P) a))) by (apply in_rev; rewrite Er; now left).
      apply messages_for_in, filter_In in Hin. destruct Hin as [_ Hin]. unfold accepted in Hin.
      apply andb_true_iff in Hin. destruct Hin as [_ Hin]. now apply N.leb_le in Hin.
  - exists t. split; [exact E|]. intros k Dk. rewrite (Hl k Dk). f_equal. apply Hmerge.
    apply (Hnu k ops []). now rewrite app_nil_r.
Qed.

(** Forty keys and updates on pages of 1024 bytes make a tree of height 1 with
    several leaves; the theorem's hypotheses hold and the results are the ones
    it predicts. *)
Definition ex_key (i : nat) : bytes := [N.of_nat (i * 7 mod 40)%nat; 9].
Definition ex_ops : list (bytes * message) :=
  map (fun i => (ex_key i, Msg (if Nat.even i then MInsert else MUpdate) (repeat (N.of_nat i) 60)))
      (seq 0 40 ++ seq 3 9) ++ [([1], Msg MInsert (repeat 0 999))].

Example C08_example_writes : writes_ok append_cfg 1024 40 ex_ops.
Proof.
  split; [|split].
  - apply Forall_forall. intros o _. apply append_cfg_allowed.
  - repeat (constructor; [vm_compute; intros; congruence|]). constructor.
  - (* every prefix: decide by computation *)
    assert (X : forallb (fun n => forallb (fun o =>
        match merged append_cfg (fst o) (messages_for (fst o) (filter (accepted 1024) (firstn n ex_ops))) with
        | Some m => blen (m_data m) <=? 358 | None => true end) ex_ops) (seq 0 51) = true) by (vm_compute; reflexivity).
    intros a b k m Eq Em. rewrite forallb_forall in X.
    assert (Hlen : length ex_ops = 50%nat) by reflexivity.
    assert (Ha : a = firstn (length a) ex_ops) by (rewrite Eq, firstn_app, firstn_all, Nat.sub_diag, firstn_O, app_nil_r; reflexivity).
    assert (Hla : (length a <= 50)%nat) by (rewrite <- Hlen, Eq, app_length; lia).
    specialize (X (length a) ltac:(apply in_seq; lia)). rewrite forallb_forall in X. rewrite <- Ha in X.
    assert (Hin : exists o, In o ex_ops /\ fst o = k).
    { destruct (messages_for k (filter (accepted 1024) a)) as [|x r] eqn:Er; [discriminate|].
      assert (Hx : In x (messages_for k (filter (accepted 1024) a))) by (rewrite Er; now left).
      apply messages_for_in, filter_In in Hx. exists (k, x). split; [rewrite Eq; apply in_or_app; left; apply Hx|reflexivity]. }
    destruct Hin as (o & Ho & <-). specialize (X o Ho). rewrite Em in X. apply N.leb_le in X.
    change (35 * 1024 / 100) with 358. exact X.
Qed.

Example C08_example : setting append_cfg lex_compare (fun _ => True) 1024 40 /\
  exists t, insert_all append_cfg 1024 (btree_create 1024) ex_ops = Some (reports 1024 [] ex_ops, t) /\
    bt_h t = 1%nat /\ length (bt_leaves t) = 6%nat /\ length (bt_entries t) = 40%nat /\
    last (reports 1024 [] ex_ops) (BOk true) = BBadParam /\
    bt_lookup append_cfg t (ex_key 5) = Some (Some (Msg MUpdate (repeat 5 60 ++ repeat 5 60))).
Proof.
  split.
  - split; [exact lex_compare_total|]. split; [intros a b _ _; reflexivity|]. split; [trivial|]. vm_compute. discriminate.
  - eexists. split; [vm_compute; reflexivity|]. repeat split; vm_compute; reflexivity.
Qed.

(** ** C10: splitting pages *)

(** Sizes within the inline limits. *)
Definition inline_ok (P : N) (e : bytes * message) : Prop :=
  blen (fst e) <= P / 8 /\ blen (m_data (snd e)) <= 35 * P / 100.

(** Splitting a leaf [p] while performing the write of [m] at [k]: [es'] is
    what the page would hold after the write. *)
Theorem C10_leaf_split :
  forall cfg ord D P p k m sp,
    total_order ord -> agrees cfg ord D -> (forall x, blen x <= P / 8 -> D x) -> 1240 <= P ->
    page_ok lsz P p ->
    StronglySorted (fun a b => (ord a b < 0)%Z) (map fst (pg_cont p)) -> Forall (inline_ok P) (pg_cont p) ->
    blen k <= P / 8 -> blen (m_data m) <= 35 * P / 100 ->
    (forall old, In (k, old) (pg_cont p) ->
       exists m', data_merge_tuples cfg k old m = Some m' /\ blen (m_data m') <= 35 * P / 100) ->
    create_spec cfg p k m = Some sp ->
    exists es',
      (* [es'] is the old content with the write performed *)
      (exists A B, (pg_cont p = A ++ B /\ es' = A ++ (k, m) :: B) \/
                   (exists old m', pg_cont p = A ++ (k, old) :: B /\
                      data_merge_tuples cfg k old m = Some m' /\ es' = A ++ (k, m') :: B)) /\
      ((2 <= length es')%nat ->
       exists pivot l r sp1,
        splitting_pivot p sp (build_plan p sp) = Some pivot /\
        build_right P p sp (build_plan p sp) = Some (r, sp1) /\
        cleanup_left P p sp1 (build_plan p sp) = Some l /\
        page_ok lsz P l /\ page_ok lsz P r /\
        pg_cont l ++ pg_cont r = es' /\ pg_cont l <> [] /\ pg_cont r <> [] /\
        (forall e, In e (pg_cont l) -> (ord (fst e) pivot < 0)%Z) /\
        (forall e, In e (pg_cont r) -> (ord pivot (fst e) <= 0)%Z)).
Proof.
  intros cfg ord D P p k m sp TO AG DK HP Hok Hs Hf Hlk Hlm Hmg Esp.
  destruct (create_spec_spec cfg ord TO D AG (P / 8) (35 * P / 100) DK p k m Hs Hf Hmg Hlk Hlm)
    as (sp' & A & B & E' & Hsp & Hspk & HA & HB & Hspm & Hup & _).
  rewrite Esp in E'. injection E' as <-.
  destruct (target_good ord TO (P / 8) (35 * P / 100) _ _ _ _ k Hsp Hspk Hs Hf HA HB Hlk Hspm) as (Tss & Tf & Tin).
  exists (target sp A B). split.
  - destruct Hup as (A0 & B0 & [(_ & E1 & E2)|(_ & old & m' & E1 & E2 & E3)]); exists A0, B0; [left; auto|right; exists old, m'; auto].
  - intros Hlen.
    assert (HEM : 2 * (6 + P / 8 + 35 * P / 100) + 50 <= P).
    { pose proof (N.mul_div_le P 8 ltac:(lia)) as X. pose proof (N.mul_div_le (35 * P) 100 ltac:(lia)) as Y.
      revert HP X Y. generalize (P / 8), (35 * P / 100). intros; lia. }
    destruct (split_leaf_spec P (6 + P / 8 + 35 * P / 100) HEM p sp A B Hok Hsp) as
      (c & pivot & r & sp1 & l & Ep & Er & El & Okl & Okr & Cl & Cr & Hc & (pm & En)); [|exact Hlen|].
    { eapply Forall_impl; [|exact Tf]. intros [k0 m0] [X Y]. cbn [fst snd] in *. unfold lsz, sizeof_ondisk_tuple, sizeof_ondisk_tuple_hdr. cbn [fst snd] in *. lia. }
    exists pivot, l, r, sp1. split; [exact Ep|]. split; [exact Er|]. split; [exact El|]. split; [exact Okl|]. split; [exact Okr|].
    rewrite Cl, Cr, firstn_skipn. split; [reflexivity|].
    assert (Hll : length (firstn c (target sp A B)) = c) by (apply firstn_length_le; lia).
    assert (Hlr : length (skipn c (target sp A B)) = (length (target sp A B) - c)%nat) by apply skipn_length.
    split; [intros X; rewrite X in Hll; cbn in Hll; lia|]. split; [intros X; rewrite X in Hlr; cbn in Hlr; lia|].
    apply nth_error_split in En. destruct En as (L & R & Et & HL).
    rewrite Et, <- HL. rewrite firstn_app, firstn_all, Nat.sub_diag, firstn_O, app_nil_r.
    rewrite skipn_app, skipn_all, Nat.sub_diag, skipn_O. cbn [app].
    rewrite Et, map_app in Tss. apply ss_app in Tss. destruct Tss as (_ & T2 & T3). cbn [map fst] in T2. apply ss_cons in T2. destruct T2 as (_ & T2).
    split.
    + intros e He. apply T3; [now apply in_map|now left].
    + intros e [<-|He]; [cbn [fst]; rewrite (cmp_refl _ TO); lia|].
      assert (ord pivot (fst e) < 0)%Z; [apply T2; now apply in_map|lia].
Qed.

(** Splitting an index page below a parent that has room for one more pivot
    ([room K parent]: a pivot of [K] bytes fits).  The children are kept in
    order, both halves are non-empty and have room for more pivots, and
    the parent gets the first key of the right half as separator. *)
Theorem C10_index_split :
  forall P K (T : Type) (parent : page (ient (page (ient T)))) A e B (c : page (ient T)),
    2 * K + P / 23 + 90 <= P / 4 ->
    page_ok isz P parent -> pg_cont parent = A ++ e :: B ->
    off_end (S (pg_num parent)) + 23 + K <= pg_next parent ->
    page_ok isz P c -> Forall (fun x => blen (ie_key x) <= K) (pg_cont c) ->
    P / 2 <= index_bytes (pg_cont c) + N.of_nat (pg_num c) * sizeof_index_entry ->
    exists L r R parent' lp rp,
      split_child_index P parent (length A) c = Some (PTrue parent', lp, rp, length L) /\
      pg_cont c = L ++ r :: R /\ L <> [] /\
      page_ok isz P lp /\ page_ok isz P rp /\ pg_cont lp = L /\ pg_cont rp = r :: R /\
      off_end (S (pg_num lp)) + 2 * (23 + K) <= pg_next lp /\
      off_end (S (pg_num rp)) + 2 * (23 + K) <= pg_next rp /\
      page_ok isz P parent' /\
      pg_cont parent' = A ++ e :: IEnt (ie_key r) unknown_stats rp :: B.
Proof.
  intros P K T parent A e B c HK Hok Ec Hroom Hc Hf Hbig.
  assert (HM0 : 2 * (6 + K + 0) + 50 <= P).
  { pose proof (N.mul_div_le P 4 ltac:(lia)) as X. revert HK X. generalize (P / 4), (P / 23). intros; lia. }
  destruct (split_child_index_spec P K 0 HK HM0 T parent A e B c Hok Ec Hroom Hc Hf Hbig)
    as (L & r & R & parent' & lp & rp & H1 & H2 & H3 & H4 & H5 & H6 & H7 & H8 & H9 & H10 & H11).
  exists L, r, R, parent', lp, rp. unfold big_room in *. auto 15.
Qed.

(** A leaf of 1240 bytes holding three large entries that has to be split to
    take a fourth. *)
Definition ex_leaf : page lent :=
  match insert_all append_cfg 1240 (btree_create 1240)
    [([1], Msg MInsert (repeat 1 400)); ([2], Msg MInsert (repeat 2 300)); ([3], Msg MInsert (repeat 3 200))] with
  | Some (_, Bt O r _) => lf_page r
  | _ => pg_empty 0
  end.
Example C10_example :
  page_ok lsz 1240 ex_leaf /\ length (pg_cont ex_leaf) = 3%nat /\
  match create_spec append_cfg ex_leaf [2; 5] (Msg MInsert (repeat 9 430)) with
  | None => None
  | Some sp =>
      match splitting_pivot ex_leaf sp (build_plan ex_leaf sp), build_right 1240 ex_leaf sp (build_plan ex_leaf sp) with
      | Some pivot, Some (r, sp1) =>
          match cleanup_left 1240 ex_leaf sp1 (build_plan ex_leaf sp) with
          | Some l => Some (can_perform ex_leaf sp, map fst (pg_cont l), map fst (pg_cont r), pivot)
          | None => None
          end
      | _, _ => None
      end
  end = Some (false, [[1]; [2]], [[2; 5]; [3]], [2; 5]).
Proof.
  split.
  - assert (HK : 2 * 26 + 1240 / 23 + 90 <= 1240 / 4) by (vm_compute; discriminate).
    assert (X : exists t, insert_all append_cfg 1240 (btree_create 1240)
      [([1], Msg MInsert (repeat 1 400)); ([2], Msg MInsert (repeat 2 300)); ([3], Msg MInsert (repeat 3 200))]
      = Some ([BOk true; BOk true; BOk true], t) /\ bt_ok lex_compare 1240 26 (max_msg 1240) t).
    { destruct (insert_all_spec append_cfg lex_compare lex_compare_total (fun _ => True) (fun a b _ _ => eq_refl) 1240 26
        (fun _ _ => I) HK [([1], Msg MInsert (repeat 1 400)); ([2], Msg MInsert (repeat 2 300)); ([3], Msg MInsert (repeat 3 200))]
        [] (btree_create 1240)) as (t & E & Hok & _).
      - now apply seq_ok_create.
      - apply Forall_forall. intros; apply append_cfg_allowed.
      - repeat (constructor; [vm_compute; intros; congruence|]). constructor.
      - intros a b k m Eq Em. unfold max_msg. change (35 * 1240 / 100) with 434.
        assert (Hall : forall ms x, merged append_cfg k ms = Some x -> Forall (fun y => m_class y = MInsert /\ blen (m_data y) <= 434) ms ->
                  m_class x = MInsert /\ blen (m_data x) <= 434).
        { induction ms as [|y ms IH] using rev_ind; intros x Ex Hy; [discriminate|]. rewrite merged_snoc in Ex.
          rewrite Forall_app in Hy. destruct Hy as [Hy1 Hy2]. inversion Hy2; subst.
          destruct (merged append_cfg k ms); [|injection Ex as <-; assumption].
          unfold data_merge_tuples, is_definitive in Ex. rewrite (proj1 H1) in Ex. injection Ex as <-. assumption. }
        apply (Hall _ _ Em). rewrite Forall_forall. intros y Hy. cbn [app] in Hy. apply messages_for_in, filter_In in Hy. destruct Hy as [Hy _].
        assert (Hin : In (k, y) (a ++ b)) by (apply in_or_app; now left). rewrite <- Eq in Hin.
        destruct Hin as [X|[X|[X|[]]]]; injection X as <- <-; split; try reflexivity; vm_compute; discriminate.
      - exists t. split; [|exact Hok]. rewrite E. f_equal. }
    unfold ex_leaf. destruct X as (t & E & Hok). rewrite E.
    destruct t as [[|h] r en]; cbn [bt_ok] in Hok; [tauto|]. exfalso.
    assert (Eh : option_map (fun x => bt_h (snd x)) (insert_all append_cfg 1240 (btree_create 1240)
      [([1], Msg MInsert (repeat 1 400)); ([2], Msg MInsert (repeat 2 300)); ([3], Msg MInsert (repeat 3 200))]) = Some 0%nat)
      by (vm_compute; reflexivity).
    rewrite E in Eh. discriminate.
  - split; vm_compute; reflexivity.
Qed.

(** ** C28: limits *)

(** A write above the limits is refused and changes nothing, in any tree. *)
Theorem C28_oversized_refused :
  forall cfg P t k m, P / 8 < blen k \/ 35 * P / 100 < blen (m_data m) ->
    btree_insert cfg P t k m = Some (BBadParam, t).
Proof.
  intros cfg P t k m H. unfold btree_insert, max_key, max_msg.
  destruct (N.ltb_spec (P / 8) (blen k)); [reflexivity|].
  destruct (N.ltb_spec (35 * P / 100) (blen (m_data m))); [reflexivity|]. lia.
Qed.

(** In every tree made by insertions, a write of an insert or delete within the
    message limit and with a key of up to [K] bytes is accepted. *)
Theorem C28_insert_and_delete_accepted :
  forall cfg ord D P K ops k m,
    setting cfg ord D P K -> writes_ok cfg P K ops ->
    blen k <= K -> blen (m_data m) <= 35 * P / 100 -> m_class m <> MUpdate ->
    exists sts t u t', insert_all cfg P (btree_create P) ops = Some (sts, t) /\
      btree_insert cfg P t k m = Some (BOk u, t').
Proof.
  intros cfg ord D P K ops k m (TO & AG & DK & HK) (Ha & Hk & Hf) Hlk Hlm Hc.
  destruct (insert_all_spec cfg ord TO D AG P K DK HK ops [] (btree_create P)) as (t & E & Hok & Hmap); auto.
  { now apply seq_ok_create. }
  destruct (btree_insert_spec cfg ord TO D AG P K (max_msg P) DK HK (HM_of_HK P K HK) ltac:(lia) t k m Hok Hlk Hlm) as (u & t' & E' & _).
  { intros old _. exists m. split; [|exact Hlm]. unfold data_merge_tuples, is_definitive.
    destruct (m_class m); congruence. }
  exists (reports P [] ops), t, u, t'. auto.
Qed.

Example C28_example : setting append_cfg lex_compare (fun _ => True) 4096 378 /\
  exists t, insert_all append_cfg 4096 (btree_create 4096) [(repeat 3 378, Msg MInsert (repeat 5 1433))] = Some ([BOk true], t) /\
    btree_insert append_cfg 4096 t (repeat 3 513) (Msg MInsert []) = Some (BBadParam, t) /\
    btree_insert append_cfg 4096 t [1] (Msg MInsert (repeat 0 1434)) = Some (BBadParam, t).
Proof.
  split.
  - split; [exact lex_compare_total|]. split; [intros a b _ _; reflexivity|]. split; [trivial|]. vm_compute. discriminate.
  - eexists. split; [vm_compute; reflexivity|]. split; apply C28_oversized_refused; vm_compute; auto.
Qed.

(** ** C29: aborts *)

(** Under the hypotheses of C08 no insertion aborts. *)
Theorem C29_no_abort_within_bounds :
  forall cfg ord D P K ops,
    setting cfg ord D P K -> writes_ok cfg P K ops ->
    insert_all cfg P (btree_create P) ops <> None.
Proof.
  intros cfg ord D P K ops H1 H2. destruct (C08_insertions_make_a_map cfg ord D P K ops H1 H2) as (t & E & _). congruence.
Qed.

(** Without the bound on merged messages, updates that are each accepted stop
    the process: three updates of one key by 1433 bytes, with a callback that
    appends. *)
Theorem C29_accepted_updates_abort_refuted :
  exists cfg ops,
    lawful_merge cfg /\ total_order (key_compare cfg) /\
    Forall (fun o => accepted 4096 o = true /\ msg_allowed cfg (snd o) /\ blen (fst o) = 1) ops /\
    insert_all cfg 4096 (btree_create 4096) ops = None.
Proof.
  exists append_cfg, (repeat ([7], Msg MUpdate (repeat 1 1433)) 3).
  split; [exact append_cfg_lawful|]. split; [exact lex_compare_total|].
  split; [|vm_compute; reflexivity].
  repeat (constructor; [split; [vm_compute; reflexivity|split; [apply append_cfg_allowed|reflexivity]]|]). constructor.
Qed.

(** Without the bound on keys, even fourteen plain inserts, each within the
    inline limits of the page size, stop the process: the pivot of a leaf
    split no longer fits in the parent, whose first key was lengthened after
    the parent had been checked for room (btree.c:1902-1949 and 1401-1408). *)
Definition big_key (a : bytes) (n : nat) : bytes := a ++ repeat 0 (n - length a).
Definition aborting_inserts : list (bytes * message) :=
  map (fun x => let '(a, n, l) := x in (big_key a (N.to_nat n), Msg MInsert (repeat 1 (N.to_nat l))))
   [([1], 1, 10); ([3; 51], 512, 1433); ([12; 0], 500, 1433); ([4; 81], 512, 1433); ([5; 104], 300, 1433);
    ([16; 0], 512, 1000); ([14; 0], 512, 1433); ([2; 180], 100, 1000); ([10; 0], 512, 1000); ([9; 50], 100, 200);
    ([11; 0], 512, 1433); ([9; 10], 500, 200); ([17; 0], 512, 200); ([0], 512, 1000)].

Theorem C29_inline_sized_inserts_abort_refuted :
  Forall (fun o => accepted 4096 o = true /\ m_class (snd o) = MInsert) aborting_inserts /\
  insert_all (default_data_config (fun _ => 0)) 4096 (btree_create 4096) aborting_inserts = None.
Proof.
  split; [|vm_compute; reflexivity].
  repeat (constructor; [split; vm_compute; reflexivity|]). constructor.
Qed.

Print Assumptions C08_insertions_make_a_map.
Print Assumptions C08_lookup_means_history.
Print Assumptions C08_leaves_are_chained.
Print Assumptions C08_default_configuration.
Print Assumptions C10_leaf_split.
Print Assumptions C10_index_split.
Print Assumptions C28_oversized_refused.
Print Assumptions C28_insert_and_delete_accepted.
Print Assumptions C29_no_abort_within_bounds.
Print Assumptions C29_accepted_updates_abort_refuted.
Print Assumptions C29_inline_sized_inserts_abort_refuted.
