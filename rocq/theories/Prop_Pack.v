(** * C13, C45: packed branches *)

From Coq Require Import List ZArith NArith Arith Bool Lia Sorting.Sorted.
From Verif Require Import Base Spec Spec_Range Codec Search SearchProofs DataProofs CountProofs Page PageProofs PageBytes Btree
  BtreeLeafProofs BtreeProofs BtreeMapProofs BtreeRunProofs BtreeFlatProofs BtreeIter BtreeIterProofs BtreeScanProofs
  Pack PackProofs PackCountProofs Witness.
Import ListNotations.
Local Open Scope N_scope.

(** Keys are compared by [ord] (as far as the keys in [D] are concerned), keys
    of up to [K] bytes are in [D], an index page holds at least [F] >= 2 keys,
    and a tuple with [K] bytes of key and [M] of message fits in a leaf. *)
Definition pack_setting (cfg : data_config) (ord : bytes -> bytes -> Z) (D : bytes -> Prop) (P K M : N) (F : nat) : Prop :=
  total_order ord /\ agrees cfg ord D /\ (forall k, blen k <= K -> D k) /\
  N.of_nat F * (25 + K) + 37 <= P /\ (2 <= F)%nat /\ 45 + K + M <= P.

(** A stream of tuples in key order, with sizes in bounds. *)
Definition stream (ord : bytes -> bytes -> Z) (K M : N) (es : list (bytes * message)) : Prop :=
  StronglySorted (fun a b => (ord a b < 0)%Z) (map fst es) /\
  Forall (fun e => blen (fst e) <= K /\ blen (m_data (snd e)) <= M) es.

Definition total (f : bytes * message -> N) (es : list (bytes * message)) : N := fold_right (fun e n => f e + n) 0 es.

(** What a stream says about a key. *)
Definition stream_get (k : bytes) (es : list (bytes * message)) : option message :=
  option_map snd (find (fun e => beqb (fst e) k) es).

Lemma stream_get_map : forall es k, map_get es k = stream_get k es.
Proof.
  intros es k. unfold stream_get. induction es as [|[a m] es IH]; [reflexivity|]. cbn [map_get find fst].
  destruct (beqb a k); [reflexivity|exact IH].
Qed.

Lemma init_pinv : forall P K M F, pinv P K M F SNil (Env (fun _ => (0, 0)) 2).
Proof.
  intros P K M F. split; [exact I|]. cbn [sl map]. split; [constructor|]. cbn [e_fresh]. split; [intros a []|]. split; [lia|].
  intros X a Y E. destruct X; discriminate.
Qed.

(** Everything about the result, in terms of the invariants. *)
Lemma pack_full : forall cfg ord D P K M F share max hash es,
  pack_setting cfg ord D P K M F -> stream ord K M es -> (length es <= F ^ 7)%nat -> N.of_nat (length es) <= max ->
  exists r, btree_pack share P max hash es = Some (PackOk r) /\
    pk_num r = N.of_nat (length es) /\ pk_kbytes r = kbytes es /\ pk_mbytes r = mbytes es /\
    pk_fps r = match hash with Some f => map (fun e => f (fst e)) es | None => [] end /\
    match es with
    | [] => pk_root r = None
    | _ => exists t, pk_root r = Some t /\ bt_entries t = es /\ bt_ok ord P K M t /\ good P K M (bt_h t) (bt_tree t)
    end.
Proof.
  intros cfg ord D P K M F share max hash es (TO & AG & DK & HF & HF2 & HL) [Hs Hf] Hn Hmax.
  assert (HN : (length es <= F ^ (BTREE_MAX_HEIGHT - 1))%nat) by exact Hn. assert (Hm1 : (1 <= BTREE_MAX_HEIGHT)%nat) by (cbv; lia).
  unfold btree_pack.
  destruct (loop_fits share P K M F BTREE_MAX_HEIGHT (length es) HF HF2 HL HN Hm1 max hash es SNil _ (Packed None 0 0 0 []) (init_pinv P K M F) Hf)
    as (s & en & E & [Hsi Hc] & Hcont); [cbn; lia|cbn; lia|reflexivity|].
  rewrite E. unfold tally. cbn [pk_num pk_kbytes pk_mbytes pk_fps app].
  destruct es as [|e0 es0].
  - eexists. split; [reflexivity|]. repeat split.
  - remember (e0 :: es0) as es eqn:Ees. rewrite !N.add_0_l.
    assert (Hlen : (0 < length es)%nat) by (subst; cbn; lia).
    destruct (N.eqb_spec (N.of_nat (length es)) 0); [lia|].
    assert (Hw : winv P K M F 0 s).
    { destruct s as [|xs r]; [|now apply sinv_winv]. exfalso. cbn [sl conts flat_map app] in Hcont. subst es. discriminate. }
    cbn [sl conts flat_map app] in Hcont.
    destruct (collapse_spec share P K M F BTREE_MAX_HEIGHT (length es) HF HF2 HL HN Hm1 BTREE_MAX_HEIGHT 0 s en) as (h & t & en' & E2 & Hg & Hlv & Hlk & Hfr);
      [reflexivity|exact Hm1|exact Hw|rewrite Hcont; lia|].
    rewrite E2. eexists. split; [reflexivity|]. cbn [pk_num pk_kbytes pk_mbytes pk_fps pk_root]. repeat (split; [reflexivity|]).
    assert (Hent : entries h t = es) by (unfold entries; rewrite Hlv; exact Hcont).
    assert (Hch : chained en' (map lf_addr (leaves h t))) by (rewrite Hlv; apply (chained_weaken en); auto).
    assert (Hfr1 : 1 < e_fresh en').
    { destruct (good_first P K M h t Hg) as (k & m & r & _ & Z & _). destruct (leaves h t) as [|l ls] eqn:Elv.
      - unfold entries in Z. rewrite Elv in Z. discriminate.
      - destruct Hch as (_ & Hpos & _). specialize (Hpos (lf_addr l) (or_introl eq_refl)). lia. }
    destruct (root_ok ord TO P K M h t en' Hg) as (R1 & R2 & R3); [rewrite Hent; exact Hs|exact Hch|exact Hfr1|].
    exists (root_of h t en'). split; [reflexivity|]. split; [congruence|]. split; assumption.
Qed.

(** ** C13: packing a stream keeps exactly its tuples *)

(** No assertion fails; the totals and fingerprints are those of the stream;
    an empty stream gives no tree; otherwise the tree holds the stream. *)
Theorem C13_pack_keeps_the_stream :
  forall cfg ord D P K M F share max hash es,
    pack_setting cfg ord D P K M F -> stream ord K M es -> (length es <= F ^ 7)%nat -> N.of_nat (length es) <= max ->
    exists r, btree_pack share P max hash es = Some (PackOk r) /\
      pk_num r = N.of_nat (length es) /\
      pk_kbytes r = total (fun e => blen (fst e)) es /\
      pk_mbytes r = total (fun e => blen (m_data (snd e))) es /\
      pk_fps r = match hash with Some f => map (fun e => f (fst e)) es | None => [] end /\
      (es = [] -> pk_root r = None) /\
      (es <> [] -> exists t, pk_root r = Some t /\ bt_entries t = es).
Proof.
  intros cfg ord D P K M F share max hash es Hset Hst Hn Hmax.
  destruct (pack_full cfg ord D P K M F share max hash es Hset Hst Hn Hmax) as (r & E & E1 & E2 & E3 & E4 & Ht).
  exists r. repeat (split; [assumption|]). split; [intros ->; exact Ht|].
  intros Hne. destruct es; [congruence|]. destruct Ht as (t & T1 & T2 & _). eauto.
Qed.

(** Lookups and scans of the tree return the stream: a lookup of [k] its tuple
    with key [k]; a forward scan of a range from [start] the tuples of the range
    from [start] on; a backward scan those below [start], last first. *)
Theorem C13_pack_reads_the_stream :
  forall cfg ord D P K M F share max hash es r t,
    pack_setting cfg ord D P K M F -> stream ord K M es -> (length es <= F ^ 7)%nat -> N.of_nat (length es) <= max ->
    btree_pack share P max hash es = Some (PackOk r) -> pk_root r = Some t ->
    (forall k, D k -> bt_lookup cfg t k = Some (stream_get k es)) /\
    (forall mn mx start, inD D mn -> inD D mx -> inD D start ->
       exists it it', it_init cfg t mn mx start GreaterThanOrEqual = Some it /\
         it_scan (length es) (it_next t) t it =
         Some (filter (fun e => negb (key_lt ord (fst e) start)) (range ord mn mx es), it')) /\
    (forall mn mx start, inD D mn -> inD D mx -> inD D start ->
       exists it it', it_init cfg t mn mx start LessThan = Some it /\
         it_scan (length es) (it_prev cfg t) t it =
         Some (rev (filter (fun e => key_lt ord (fst e) start) (range ord mn mx es)), it')).
Proof.
  intros cfg ord D P K M F share max hash es r t Hset Hst Hn Hmax E Hr.
  destruct (pack_full cfg ord D P K M F share max hash es Hset Hst Hn Hmax) as (r' & E' & _ & _ & _ & _ & Ht).
  rewrite E in E'. injection E' as <-. destruct Hset as (TO & AG & DK & _).
  destruct es as [|e0 es0]; [congruence|]. remember (e0 :: es0) as es eqn:Ees. clear Ees e0 es0.
  destruct Ht as (t' & T1 & T2 & T3 & _). rewrite Hr in T1. injection T1 as <-.
  pose proof (bt_ok_wf cfg ord TO D AG P K M DK t T3) as WF. split; [|split].
  - intros k Hk. rewrite (bt_lookup_spec cfg ord TO D AG P K M DK t k T3 Hk), T2. now rewrite stream_get_map.
  - intros mn mx start D1 D2 D3. rewrite <- T2.
    destruct (forward_scan cfg ord TO D AG t WF mn mx start GreaterThanOrEqual D1 D2 D3 I (or_introl eq_refl)) as (it & it' & E1 & E2).
    exists it, it'. split; [exact E1|]. rewrite E2. cbn [start_pos]. rewrite Nat2Z.id. f_equal. f_equal. symmetry.
    destruct (clamp cfg ord TO D AG t mn mx start LessThan D1 D2 D3) as (mx' & _ & _ & _ & _ & B1 & _ & _ & C1 & _).
    rewrite (range_clamped cfg ord TO t mn mx mx' C1).
    apply (filter_ge_range cfg ord TO D t WF mn mx' (fun e : lent => key_lt ord (fst e) start) B1).
    now apply (ltE_closed cfg ord TO D t WF).
  - intros mn mx start D1 D2 D3. rewrite <- T2.
    destruct (backward_scan cfg ord TO D AG t WF mn mx start LessThan D1 D2 D3 I (or_intror eq_refl)) as (it & it' & E1 & E2).
    exists it, it'. split; [exact E1|]. rewrite E2. cbn [start_pos]. rewrite Z.sub_add, Nat2Z.id. f_equal. f_equal. f_equal. symmetry.
    destruct (clamp cfg ord TO D AG t mn mx start LessThan D1 D2 D3) as (mx' & _ & _ & _ & _ & B1 & _ & _ & C1 & _).
    rewrite (range_clamped cfg ord TO t mn mx mx' C1).
    apply (filter_lt_range cfg ord TO D t WF mn mx' (fun e : lent => key_lt ord (fst e) start) B1).
    now apply (ltE_closed cfg ord TO D t WF).
Qed.

(** A stream of more tuples than the caller allows is reported as such. *)
Theorem C13_pack_reports_the_limit :
  forall cfg ord D P K M F share max hash es,
    pack_setting cfg ord D P K M F -> stream ord K M es -> max <= N.of_nat (F ^ 7) -> max < N.of_nat (length es) ->
    btree_pack share P max hash es = Some PackLimitExceeded.
Proof.
  intros cfg ord D P K M F share max hash es (TO & AG & DK & HF & HF2 & HL) [Hs Hf] Hn Hmax.
  unfold btree_pack.
  assert (HN : (F ^ 7 <= F ^ (BTREE_MAX_HEIGHT - 1))%nat) by exact (le_n _).
  assert (Hm1 : (1 <= BTREE_MAX_HEIGHT)%nat) by (cbv; lia).
  destruct (loop_exceeds share P K M F BTREE_MAX_HEIGHT (F ^ 7) HF HF2 HL HN Hm1 max hash es SNil (Env (fun _ => (0, 0)) 2) (Packed None 0 0 0 [])) as (r & ->);
    [apply init_pinv|exact Hf|reflexivity|exact Hn|cbn; lia|cbn [pk_num]; lia|reflexivity].
Qed.

(** A tuple that does not fit an empty leaf, as a merge of accepted updates
    may produce (see C29), stops the pack: an assertion fails. *)
Theorem C13_pack_oversize_tuple_refuted :
  forall P share max hash k m es, 37 <= P -> 0 < max -> P < 45 + blen k + blen (m_data m) ->
    btree_pack share P max hash ((k, m) :: es) = None.
Proof.
  intros P share max hash k m es HP Hmax Hbig. unfold btree_pack. cbn [pack_loop pk_num].
  destruct (N.ltb_spec 0 max); [|lia].
  assert (Hn : new_leaf P 2 (k, m) = None).
  { unfold new_leaf. destruct (set_leaf_end lsz P (pg_empty P) (k, m) (pg_empty_ok _ _ HP)) as [[E _]|(p & _ & _ & _ & _ & _ & L)].
    - change (pg_num (pg_empty P : page lent)) with 0%nat in E. rewrite E. reflexivity.
    - exfalso. change (off_end 1 + lsz (k, m) <= P) in L. unfold off_end, sizeof_btree_hdr, lsz, sizeof_ondisk_tuple, sizeof_ondisk_tuple_hdr in L.
      cbn [fst snd] in L. lia. }
  unfold pack_one. cbn [BTREE_MAX_HEIGHT alloc e_fresh e_links]. rewrite Hn. reflexivity.
Qed.

(** ** C45: counting a range of a packed tree *)
Theorem C45_packed_range_counts :
  forall cfg ord D P K M F share max hash es r t mn mx,
    pack_setting cfg ord D P K M F -> stream ord K M es -> (length es <= F ^ 7)%nat -> N.of_nat (length es) <= max ->
    btree_pack share P max hash es = Some (PackOk r) -> pk_root r = Some t ->
    inD D mn -> inD D mx ->
    (* the totals are below the value that stands for "unknown" *)
    N.of_nat (length es) < 2147483647 -> total (fun e => blen (fst e)) es < 2147483647 ->
    total (fun e => blen (m_data (snd e))) es < 2147483647 ->
    exists st, count_in_range cfg t mn mx = Some st /\
      ps_kvs st = N.of_nat (length (range ord mn mx es)) /\
      ps_kbytes st = total (fun e => blen (fst e)) (range ord mn mx es) /\
      ps_mbytes st = total (fun e => blen (m_data (snd e))) (range ord mn mx es).
Proof.
  intros cfg ord D P K M F share max hash es r t mn mx Hset Hst Hn Hmax E Hr D1 D2 B1 B2 B3.
  destruct (pack_full cfg ord D P K M F share max hash es Hset Hst Hn Hmax) as (r' & E' & _ & _ & _ & _ & Ht).
  rewrite E in E'. injection E' as <-. destruct Hset as (TO & AG & DK & _). destruct Hst as [Hs _].
  destruct es as [|e0 es0]; [congruence|]. remember (e0 :: es0) as es eqn:Ees. clear Ees e0 es0.
  destruct Ht as (t' & T1 & T2 & T3 & T4). rewrite Hr in T1. injection T1 as <-.
  rewrite (count_in_range_spec cfg ord TO D AG P K M DK t mn mx T4); [|rewrite T2; exact Hs|exact D1|exact D2|rewrite T2; split; [exact B1|split; [exact B2|exact B3]]].
  rewrite T2. eexists. split; [reflexivity|]. repeat split.
Qed.

(** ** Example: 300 tuples on pages of 256 bytes, extents of two or three pages *)
Definition ex_stream : list (bytes * message) :=
  map (fun i => ([N.of_nat (i / 16); N.of_nat (i mod 16)], Msg MInsert (repeat (N.of_nat i mod 256) (10 + i mod 7)))) (seq 0 300).
Definition ex_share (a : N) : bool := negb (a mod 3 =? 0).


Fixpoint ascendingb (l : list bytes) : bool :=
  match l with
  | a :: (b :: _) as r => (lex_compare a b <? 0)%Z && ascendingb r
  | _ => true
  end.
Lemma ascendingb_ok : forall l, ascendingb l = true -> StronglySorted (fun a b => (lex_compare a b < 0)%Z) l.
Proof.
  intros l H. apply Sorted_StronglySorted.
  - intros a b c. exact (to_trans _ lex_compare_total a b c).
  - induction l as [|a l IH]; [constructor|]. destruct l as [|b l]; [repeat constructor|].
    change ((lex_compare a b <? 0)%Z && ascendingb (b :: l) = true) in H. apply andb_prop in H. destruct H as [H1 H2].
    constructor; [auto|]. constructor. now apply Z.ltb_lt.
Qed.

Example C13_example :
  pack_setting append_cfg lex_compare (fun _ => True) 256 10 100 6 /\ stream lex_compare 10 100 ex_stream /\
  exists r t, btree_pack ex_share 256 1000 (Some (key_hash append_cfg)) ex_stream = Some (PackOk r) /\ pk_root r = Some t /\
    pk_num r = 300 /\ bt_h t = 2%nat /\ length (bt_leaves t) = 34%nat /\
    bt_lookup append_cfg t [3; 5] = Some (Some (Msg MInsert (repeat 53 14))) /\
    count_in_range append_cfg t (KUser [3; 5]) (KUser [7; 1; 1]) = Some (PStats 61 122 794) /\
    btree_pack ex_share 256 299 None ex_stream = Some PackLimitExceeded.
Proof.
  split; [|split].
  - split; [exact lex_compare_total|]. split; [intros a b _ _; reflexivity|]. split; [trivial|]. vm_compute. repeat split; discriminate || lia.
  - split; [apply ascendingb_ok; vm_compute; reflexivity|].
    apply Forall_forall. intros e He.
    assert (H : forallb (fun e => (blen (fst e) <=? 10) && (blen (m_data (snd e)) <=? 100)) ex_stream = true) by (vm_compute; reflexivity).
    rewrite forallb_forall in H. specialize (H e He). apply andb_prop in H. destruct H as [H1 H2]. apply N.leb_le in H1, H2. auto.
  - eexists _, _. split; [vm_compute; reflexivity|]. split; [reflexivity|]. vm_compute. repeat split; reflexivity.
Qed.

(** A tree made by insertions keeps no counts in its index pages, so counting
    in it gives the value that stands for "unknown"; the claim is about packed
    trees only. *)
Example C45_unpacked_trees_are_not_counted :
  match insert_all append_cfg 1024 (btree_create 1024) (map (fun i => ([N.of_nat i], Msg MInsert (repeat 0 60))) (seq 0 40)) with
  | Some (_, t) => option_map ps_kvs (count_in_range append_cfg t KNegInf KPosInf)
  | None => None
  end <> Some 40.
Proof. vm_compute. discriminate. Qed.

Print Assumptions C13_pack_keeps_the_stream.
Print Assumptions C13_pack_reads_the_stream.
Print Assumptions C13_pack_reports_the_limit.
Print Assumptions C13_pack_oversize_tuple_refuted.
Print Assumptions C45_packed_range_counts.
