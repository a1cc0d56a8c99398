(** * The memtable's B-tree refines a sorted map *)

From Coq Require Import List ZArith NArith Arith Bool Lia Permutation Sorting.Sorted.
From Verif Require Import Base Spec Codec Search SearchProofs DataProofs Page PageProofs PageBytes Btree BtreeLeafProofs.
Import ListNotations.
Local Open Scope N_scope.

(** ** Strictly sorted lists *)
Lemma ss_app : forall A (R : A -> A -> Prop) a b,
  StronglySorted R (a ++ b) <->
  StronglySorted R a /\ StronglySorted R b /\ forall x y, In x a -> In y b -> R x y.
Proof.
  intros A R a b. induction a as [|x a IH]; cbn [app].
  - split; [intros H; split; [constructor|split; [assumption|intros ? ? []]]|tauto].
  - split.
    + intros H. inversion H as [|? ? H1 H2]; subst. apply IH in H1. destruct H1 as (H1 & H3 & H4).
      rewrite Forall_app in H2. destruct H2 as [H2 H5].
      split; [constructor; assumption|]. split; [assumption|].
      intros u v [<-|Hu] Hv; [|auto]. rewrite Forall_forall in H5. auto.
    + intros (H1 & H2 & H3). inversion H1 as [|? ? H4 H5]; subst. constructor.
      * apply IH. split; [assumption|]. split; [assumption|]. intros; apply H3; [now right|assumption].
      * rewrite Forall_app. split; [assumption|]. rewrite Forall_forall. intros y Hy. apply H3; [now left|assumption].
Qed.

Lemma ss_cons : forall A (R : A -> A -> Prop) x b,
  StronglySorted R (x :: b) <-> StronglySorted R b /\ forall y, In y b -> R x y.
Proof.
  intros. split.
  - intros H. inversion H; subst. rewrite Forall_forall in *. auto.
  - intros [H1 H2]. constructor; [assumption|]. now rewrite Forall_forall.
Qed.

Lemma page_ok_ext : forall E F (sz : E -> N) (sz' : F -> N) P (p : page E) (p' : page F),
  page_ok sz P p -> pg_next p' = pg_next p ->
  map (fun x => (fst x, sz' (snd x))) (pg_ents p') = map (fun x => (fst x, sz (snd x))) (pg_ents p) ->
  page_ok sz' P p'.
Proof.
  intros E F sz sz' P p p' [H1 H2 H3 H4] Hn Hm.
  assert (Hlen : pg_num p' = pg_num p).
  { unfold pg_num. pose proof (f_equal (@length _) Hm) as X. now rewrite !map_length in X. }
  assert (Hnth : forall i o e, nth_error (pg_ents p') i = Some (o, e) ->
                   exists e0, nth_error (pg_ents p) i = Some (o, e0) /\ sz e0 = sz' e).
  { intros i o e He. pose proof (f_equal (fun l => nth_error l i) Hm) as X. cbn beta in X.
    rewrite !nth_error_map, He in X. cbn in X. destruct (nth_error (pg_ents p) i) as [[o0 e0]|]; [|discriminate].
    cbn in X. injection X as -> Hs. eauto. }
  constructor.
  - now rewrite Hlen, Hn.
  - now rewrite Hn.
  - intros o e Hin. apply In_nth_error in Hin. destruct Hin as [i Hi].
    destruct (Hnth i o e Hi) as (e0 & Hi0 & <-). rewrite Hn. apply H3. now apply nth_error_In in Hi0.
  - intros i j [o1 e1] [o2 e2] Hij Hi Hj. destruct (Hnth i o1 e1 Hi) as (x & Hx & Ex).
    destruct (Hnth j o2 e2 Hj) as (y & Hy & Ey). pose proof (H4 i j _ _ Hij Hx Hy) as D.
    unfold disjoint in *. cbn [fst snd] in *. now rewrite <- Ex, <- Ey.
Qed.

(** ** Slots of index pages *)
Lemma set_child_spec : forall T P (p : page (ient T)) A e B c, page_ok isz P p -> pg_cont p = A ++ e :: B ->
  exists p', set_child p (length A) c = Some p' /\ page_ok isz P p' /\
    pg_cont p' = A ++ IEnt (ie_key e) (ie_stats e) c :: B /\ pg_next p' = pg_next p /\ pg_num p' = pg_num p.
Proof.
  intros T P p A e B c Hp Hc. unfold set_child.
  assert (Hn : nth_error (pg_cont p) (length A) = Some e)
    by (rewrite Hc, nth_error_app2, Nat.sub_diag by lia; reflexivity).
  unfold pg_cont in Hn. rewrite nth_error_map in Hn.
  destruct (nth_error (pg_ents p) (length A)) as [[o e0]|] eqn:En; [|discriminate].
  cbn in Hn. injection Hn as ->.
  eexists. split; [reflexivity|].
  assert (Hlt : (length A < length (pg_ents p))%nat) by (apply nth_error_Some; congruence).
  assert (Hsame : forall X (f : N * ient T -> X), f (o, IEnt (ie_key e) (ie_stats e) c) = f (o, e) ->
            map f (set_nth (length A) (o, IEnt (ie_key e) (ie_stats e) c) (pg_ents p)) = map f (pg_ents p)).
  { intros X f Hf. rewrite set_nth_map, Hf.
    apply nth_error_split in En. destruct En as (l1 & l2 & E1 & E2). rewrite E1, map_app. cbn [map].
    rewrite <- E2. rewrite <- (map_length f l1). apply set_nth_mid. }
  split; [|split; [|split]].
  - eapply page_ok_ext; [exact Hp|reflexivity|]. cbn [pg_ents]. apply Hsame. reflexivity.
  - unfold pg_cont in *. cbn [pg_ents]. rewrite set_nth_map, Hc. cbn [snd]. apply set_nth_mid.
  - reflexivity.
  - unfold pg_num. cbn [pg_ents]. now apply set_nth_length.
Qed.

Lemma get_child_mid : forall T (p : page (ient T)) A e B, pg_cont p = A ++ e :: B ->
  get_child p (length A) = Some e.
Proof. intros T p A e B H. unfold get_child. rewrite H, nth_error_app2, Nat.sub_diag by lia. reflexivity. Qed.

Lemma isz_pos : forall T (e : ient T), 0 < isz e.
Proof. intros. unfold isz, sizeof_index_entry. lia. Qed.

Lemma set_min_key_spec : forall T P (p : page (ient T)) e B k, page_ok isz P p -> pg_cont p = e :: B ->
  match set_min_key p k with
  | PAbort => False
  | PFalse => pg_next p < off_end (pg_num p) + 23 + blen k
  | PTrue p' => page_ok isz P p' /\ pg_cont p' = IEnt k (ie_stats e) (ie_child e) :: B /\
                pg_next p <= pg_next p' + 23 + blen k /\ pg_num p' = pg_num p
  end.
Proof.
  intros T P p e B k Hp Hc. unfold set_min_key, get_child. rewrite Hc. cbn [nth_error].
  assert (Hn : (0 < pg_num p)%nat) by (rewrite <- cont_length, Hc; cbn; lia).
  pose proof (set_index_entry_spec isz P (isz_pos T) p 0 (IEnt k (ie_stats e) (ie_child e)) Hp ltac:(lia)) as X.
  destruct (Nat.ltb_spec 0 (pg_num p)); [|lia].
  destruct (set_index_entry isz p 0 _) as [| |p'].
  - exact X.
  - unfold isz, sizeof_index_entry in X. cbn [ie_key] in X. lia.
  - destruct X as (X1 & X2 & X3). split; [exact X1|]. unfold isz, sizeof_index_entry in X3. cbn [ie_key] in X3.
    rewrite Hc in X2. split; [exact X2|]. split; [lia|].
    rewrite <- !cont_length, X2, Hc. reflexivity.
Qed.


Section Tree.
  Variable cfg : data_config.
  Variable ord : bytes -> bytes -> Z.
  Hypothesis TO : total_order ord.
  Variable D : bytes -> Prop.
  Hypothesis AG : agrees cfg ord D.
  Variables P K M : N.
  Hypothesis HK : 2 * K + P / 23 + 90 <= P / 4.
  Hypothesis HM : 2 * (6 + K + M) + 50 <= P.
  Hypothesis DK : forall k, blen k <= K -> D k.

  Lemma P_360 : 360 <= P.
  Proof.
    pose proof (N.mul_div_le P 4 ltac:(lia)) as X. revert X HK. generalize (P / 4), (P / 23). intros a b X Y. lia.
  Qed.

  Definition klt (a b : bytes) : Prop := (ord a b < 0)%Z.
  Definition kle (a b : bytes) : Prop := (ord a b <= 0)%Z.
  Definition below (k : bytes) (hi : option bytes) : Prop :=
    match hi with None => True | Some b => klt k b end.

  Lemma klt_trans : forall a b c, klt a b -> klt b c -> klt a c.
  Proof using TO. clear HK HM. exact (to_trans _ TO). Qed.
  Lemma kle_klt_trans : forall a b c, kle a b -> klt b c -> klt a c.
  Proof using TO. clear HK HM. exact (cmp_le_lt_trans _ TO). Qed.
  Lemma klt_kle_trans : forall a b c, klt a b -> kle b c -> klt a c.
  Proof using TO. clear HK HM. exact (cmp_lt_le_trans _ TO). Qed.
  Lemma kle_trans : forall a b c, kle a b -> kle b c -> kle a c.
  Proof using TO. clear HK HM. exact (cmp_le_trans _ TO). Qed.
  Lemma klt_kle : forall a b, klt a b -> kle a b.
  Proof using TO. clear HK HM. unfold klt, kle. intros. lia. Qed.
  Lemma kle_refl : forall a, kle a a.
  Proof using TO. clear HK HM. intros. unfold kle. rewrite (cmp_refl _ TO). lia. Qed.
  Lemma klt_irrefl : forall a, ~ klt a a.
  Proof using TO. clear HK HM. intros a. unfold klt. rewrite (cmp_refl _ TO). lia. Qed.
  Lemma klt_gt : forall a b, klt a b <-> (ord b a > 0)%Z.
  Proof using TO. clear HK HM. exact (cmp_lt_gt _ TO). Qed.
  Lemma not_kle : forall a b, ~ kle a b <-> klt b a.
  Proof using TO. clear HK HM. intros a b. rewrite klt_gt. unfold kle. lia. Qed.
  Lemma not_klt : forall a b, ~ klt a b <-> kle b a.
  Proof using TO. clear HK HM. intros a b. rewrite klt_gt. unfold kle. lia. Qed.
  Lemma klt_neq : forall a b, klt a b -> a <> b.
  Proof using TO. clear HK HM. intros a b H ->. now apply klt_irrefl in H. Qed.
  Lemma kle_below : forall a b hi, kle a b -> below b hi -> below a hi.
  Proof using TO. clear HK HM. intros a b [h|] H1 H2; cbn in *; [|trivial]. eapply kle_klt_trans; eauto. Qed.

  Definition ss (l : list bytes) : Prop := StronglySorted klt l.

  (* the configuration with [ord] as its comparator *)
  Let ocfg : data_config := DataConfig ord (key_hash cfg) (merge_fns cfg).

  Lemma find_agree : forall l k, Forall D l -> D k ->
    btree_find cfg (map KUser l) (KUser k) = btree_find ocfg (map KUser l) (KUser k).
  Proof using AG. clear HK HM.
    intros l k Hl Hk. unfold btree_find.
    assert (X : forall fuel lo hi, btree_find_loop cfg (map KUser l) (KUser k) fuel lo hi =
                                   btree_find_loop ocfg (map KUser l) (KUser k) fuel lo hi); [|apply X].
    induction fuel as [|fuel IH]; intros lo hi; [reflexivity|]. cbn [btree_find_loop].
    destruct (lo <? hi)%nat; [|reflexivity]. unfold key_at. rewrite nth_error_map.
    destruct (nth_error l ((lo + hi) / 2)) as [x|] eqn:En; [|reflexivity]. cbn [option_map data_key_compare ocfg key_compare].
    assert (Dx : D x) by (rewrite Forall_forall in Hl; apply Hl; eapply nth_error_In; eauto).
    pose proof (AG x k Dx Hk) as Hs.
    assert (E1 : (key_compare cfg x k =? 0)%Z = (ord x k =? 0)%Z).
    { destruct (Z.eqb_spec (key_compare cfg x k) 0), (Z.eqb_spec (ord x k) 0); try reflexivity; lia. }
    assert (E2 : (key_compare cfg x k <? 0)%Z = (ord x k <? 0)%Z).
    { destruct (Z.ltb_spec (key_compare cfg x k) 0), (Z.ltb_spec (ord x k) 0); try reflexivity; lia. }
    rewrite E1, E2. now rewrite !IH.
  Qed.

  Lemma ss_increasing : forall l, ss l -> increasing ocfg (map KUser l).
  Proof using TO. clear HK HM.
    intros l H i j a b Hij Ha Hb. rewrite nth_error_map in *.
    destruct (nth_error l i) as [x|] eqn:Ei; [|discriminate].
    destruct (nth_error l j) as [y|] eqn:Ej; [|discriminate].
    cbn in Ha, Hb. injection Ha as <-. injection Hb as <-. cbn [data_key_compare].
    apply nth_error_split in Ei. destruct Ei as (l1 & l2 & -> & <-).
    apply ss_app in H. destruct H as (_ & H & _). apply ss_cons in H. destruct H as (_ & H). apply H.
    rewrite nth_error_app2 in Ej by lia. destruct (j - length l1)%nat eqn:Ed; [lia|]. cbn in Ej.
    eapply nth_error_In; eauto.
  Qed.

  (** Searching a sorted list of keys. *)
  Lemma find_spec : forall l k, ss l -> Forall D l -> D k ->
    exists idx found, btree_find cfg (map KUser l) (KUser k) = Some (idx, found) /\
      (-1 <= idx < Z.of_nat (length l))%Z /\
      (forall i x, nth_error l i = Some x -> ((Z.of_nat i <= idx)%Z <-> kle x k)) /\
      (found = true <-> exists i, Z.of_nat i = idx /\ nth_error l i = Some k) /\
      (found = true <-> In k l).
  Proof using TO AG. clear HK HM.
    intros l k H Hl Hk. rewrite (find_agree l k Hl Hk). unfold btree_find.
    destruct (btree_find_loop_spec ocfg TO (S (length (map KUser l))) (map KUser l) (KUser k) 0 (length (map KUser l)))
      as (idx & found & E & Bd & Sp & F1 & F2); try lia.
    - now apply ss_increasing.
    - intros i x Hi Hx. assert (nth_error (map KUser l) i = None) by (now apply nth_error_None). congruence.
    - exists idx, found. rewrite map_length in *. split; [exact E|]. split; [exact Bd|]. split; [|split].
      + intros i x Hx. rewrite (Sp i (KUser x)) by (now rewrite nth_error_map, Hx). reflexivity.
      + rewrite F1. split; intros (i & Hi & Hx); exists i; (split; [exact Hi|]); rewrite nth_error_map in *.
        * destruct (nth_error l i); [|discriminate]. cbn in Hx. congruence.
        * now rewrite Hx.
      + rewrite F2, in_map_iff. split; [intros (x & Hx & Hin); congruence|eauto].
  Qed.

  (** The position found, as a way of cutting the list. *)
  Lemma find_cut : forall l k, ss l -> Forall D l -> D k ->
    (exists A B, l = A ++ k :: B /\ btree_find cfg (map KUser l) (KUser k) = Some (Z.of_nat (length A), true) /\
       (forall a, In a A -> klt a k) /\ (forall b, In b B -> klt k b)) \/
    (exists A B, l = A ++ B /\ btree_find cfg (map KUser l) (KUser k) = Some ((Z.of_nat (length A) - 1)%Z, false) /\
       (forall a, In a A -> klt a k) /\ (forall b, In b B -> klt k b)).
  Proof using TO AG. clear HK HM.
    intros l k H Hl Hk. destruct (find_spec l k H Hl Hk) as (idx & found & E & Bd & Sp & F1 & F2).
    destruct found.
    - left. destruct (proj1 F1 eq_refl) as (i & Hi & Hx). apply nth_error_split in Hx.
      destruct Hx as (A & B & El & <-). exists A, B. split; [exact El|]. split; [now rewrite Hi|].
      rewrite El in H. apply ss_app in H. destruct H as (_ & H & HAB). apply ss_cons in H. destruct H as (_ & HB).
      split; [|exact HB]. intros a Ha. apply HAB; [exact Ha|now left].
    - right. remember (Z.to_nat (idx + 1)) as n eqn:En.
      exists (firstn n l), (skipn n l). assert (Hln : length (firstn n l) = n) by (apply firstn_length_le; lia).
      split; [now rewrite firstn_skipn|]. split; [rewrite Hln, E; do 2 f_equal; lia|].
      assert (Hnk : forall x, In x l -> x <> k) by (intros x Hx ->; apply F2 in Hx; discriminate).
      split.
      + intros a Ha. assert (Ha' := Ha). apply In_nth_error in Ha. destruct Ha as [i Hi].
        assert (Hil : (i < n)%nat) by (rewrite <- Hln; apply nth_error_Some; congruence).
        assert (Hi2 : nth_error l i = Some a).
        { rewrite <- (firstn_skipn n l), nth_error_app1 by lia. exact Hi. }
        apply (Sp i a) in Hi2 as Hle. assert (Hle2 : kle a k) by (apply Hle; lia).
        unfold klt. unfold kle in Hle2. assert (ord a k <> 0%Z); [|lia].
        intros X. apply (to_eq _ TO) in X. apply (Hnk a); [|exact X]. now apply nth_error_In in Hi2.
      + intros b Hb. apply In_nth_error in Hb. destruct Hb as [i Hi].
        assert (Hi2 : nth_error l (n + i) = Some b).
        { rewrite <- (firstn_skipn n l), nth_error_app2 by lia. rewrite Hln. now replace (n + i - n)%nat with i by lia. }
        apply not_kle. rewrite <- (Sp (n + i)%nat b Hi2). lia.
  Qed.

  (** ** Leaves *)
  Definition ent_ok (e : lent) : Prop := blen (fst e) <= K /\ blen (m_data (snd e)) <= M.

  Lemma ent_ok_lsz : forall e, ent_ok e -> lsz e <= 6 + K + M.
  Proof.
    intros [k m] [H1 H2]. unfold lsz, sizeof_ondisk_tuple, sizeof_ondisk_tuple_hdr. cbn [fst snd] in *. lia.
  Qed.

  Definition leaf_inv (l : leaf) (lo : bytes) (hi : option bytes) : Prop :=
    page_ok lsz P (lf_page l) /\ pg_cont (lf_page l) <> [] /\
    ss (map fst (pg_cont (lf_page l))) /\
    (forall e, In e (pg_cont (lf_page l)) -> kle lo (fst e) /\ below (fst e) hi) /\
    Forall ent_ok (pg_cont (lf_page l)).

  (** The merge needed for inserting [m] at [k] into the entries [l] works and
      gives a message that fits. *)
  Definition mergeable (l : list lent) (k : bytes) (m : message) : Prop :=
    forall old, In (k, old) l ->
      exists m', data_merge_tuples cfg k old m = Some m' /\ blen (m_data m') <= M.

  (** What inserting does to a list of entries; [u]: the key was absent. *)
  Definition upserted (k : bytes) (m : message) (u : bool) (l l' : list lent) : Prop :=
    exists A B, (u = true /\ l = A ++ B /\ l' = A ++ (k, m) :: B) \/
                (u = false /\ exists old m', l = A ++ (k, old) :: B /\
                   data_merge_tuples cfg k old m = Some m' /\ l' = A ++ (k, m') :: B).

  Lemma upserted_ctx : forall k m u l l' X Y, upserted k m u l l' ->
    upserted k m u (X ++ l ++ Y) (X ++ l' ++ Y).
  Proof.
    intros k m u l l' X Y (A & B & H). exists (X ++ A), (B ++ Y).
    destruct H as [(-> & -> & ->)|(-> & old & m' & -> & Hm & ->)].
    - left. split; [reflexivity|]. rewrite <- !app_assoc. auto.
    - right. split; [reflexivity|]. exists old, m'. rewrite <- !app_assoc. auto.
  Qed.

  Lemma map_fst_cut : forall (l : list lent) A B, map fst l = A ++ B ->
    exists A' B', l = A' ++ B' /\ map fst A' = A /\ map fst B' = B.
  Proof.
    intros l A B H. exists (firstn (length A) l), (skipn (length A) l).
    split; [now rewrite firstn_skipn|].
    pose proof (f_equal (firstn (length A)) H) as F. pose proof (f_equal (skipn (length A)) H) as G.
    rewrite firstn_map, firstn_app_all in F. rewrite skipn_map, skipn_app, skipn_all, Nat.sub_diag in G. auto.
  Qed.

  Lemma create_spec_spec : forall p k m, ss (map fst (pg_cont p)) -> Forall ent_ok (pg_cont p) ->
    mergeable (pg_cont p) k m -> blen k <= K -> blen (m_data m) <= M ->
    exists sp A B, create_spec cfg p k m = Some sp /\ spec_for (pg_cont p) sp A B /\ is_key sp = k /\
      (forall a, In a A -> klt (fst a) k) /\ (forall b, In b B -> klt k (fst b)) /\
      blen (m_data (is_msg sp)) <= M /\
      upserted k m (match is_state sp with DidNotExist => true | _ => false end)
               (pg_cont p) (target sp A B) /\
      is_state sp <> HasBeenRemoved.
  Proof using TO AG DK. clear HK HM.
    intros p k m Hs HF Hm Hlk Hlm. unfold create_spec, find_tuple, leaf_keys.
    assert (Hmap : map (fun e : lent => KUser (fst e)) (pg_cont p) = map KUser (map fst (pg_cont p)))
      by (rewrite map_map; reflexivity).
    assert (HD : Forall D (map fst (pg_cont p))).
    { rewrite Forall_forall in *. intros x Hx. apply in_map_iff in Hx. destruct Hx as (e & <- & He). apply DK, HF, He. }
    rewrite Hmap. destruct (find_cut _ k Hs HD (DK k Hlk)) as [(A & B & El & Ef & HA & HB)|(A & B & El & Ef & HA & HB)]; rewrite Ef.
    - destruct (map_fst_cut _ _ _ El) as (A' & B1 & Ec & EA & EB).
      destruct B1 as [|[k0 old] B']; [discriminate|]. cbn in EB. injection EB as -> EB.
      rewrite Nat2Z.id. rewrite <- EA, map_length, Ec, nth_error_app2, Nat.sub_diag by lia. cbn [nth_error].
      assert (Hold : In (k, old) (pg_cont p)) by (rewrite Ec; apply in_elt).
      destruct (Hm old Hold) as (m' & Em & Hlm'). rewrite Em.
      exists (ISpec k (length A') StillExists m'), A', B'. split; [reflexivity|].
      split; [split; [reflexivity|]; cbn; exists old; reflexivity|]. split; [reflexivity|].
      split; [intros a Ha; apply HA; rewrite <- EA; now apply in_map|].
      split; [intros b Hb; apply HB; rewrite <- EB; now apply in_map|]. split; [exact Hlm'|].
      split; [|discriminate]. exists A', B'. right. split; [reflexivity|]. exists old, m'. auto.
    - destruct (map_fst_cut _ _ _ El) as (A' & B' & Ec & EA & EB).
      exists (ISpec k (length A') DidNotExist m), A', B'.
      split; [f_equal; f_equal; rewrite <- EA, map_length; lia|].
      split; [split; [reflexivity|exact Ec]|]. split; [reflexivity|].
      split; [intros a Ha; apply HA; rewrite <- EA; now apply in_map|].
      split; [intros b Hb; apply HB; rewrite <- EB; now apply in_map|]. split; [exact Hlm|].
      split; [|discriminate]. exists A', B'. left. auto.
  Qed.

  (** The entries after the edit are sorted and within the bounds. *)
  Lemma target_good : forall es sp A B k, spec_for es sp A B -> is_key sp = k ->
    ss (map fst es) -> Forall ent_ok es ->
    (forall a, In a A -> klt (fst a) k) -> (forall b, In b B -> klt k (fst b)) ->
    blen k <= K -> blen (m_data (is_msg sp)) <= M ->
    ss (map fst (target sp A B)) /\ Forall ent_ok (target sp A B) /\
    (forall e, In e (target sp A B) -> fst e = k \/ In e es).
  Proof using TO. clear HK HM.
    intros es sp A B k Hsp Hk Hs HF HA HB Hlk Hlm.
    assert (Hsub : forall e, In e (A ++ B) -> In e es).
    { destruct Hsp as [_ Hsp]. intros e He. destruct (is_state sp); [now rewrite Hsp| |now rewrite Hsp].
      destruct Hsp as [old ->]. apply in_app_or in He. apply in_or_app. cbn. tauto. }
    assert (Hss : ss (map fst (A ++ B))).
    { destruct Hsp as [_ Hsp]. destruct (is_state sp); [now rewrite <- Hsp| |now rewrite <- Hsp].
      destruct Hsp as [old Hc]. rewrite Hc, map_app in Hs. cbn [map fst] in Hs. rewrite map_app.
      apply ss_app in Hs. destruct Hs as (S1 & S2 & S3). apply ss_cons in S2. destruct S2 as (S2 & S4).
      apply ss_app. split; [assumption|]. split; [assumption|]. intros; apply S3; [assumption|now right]. }
    unfold target. split; [|split].
    - rewrite map_app in *. cbn [map]. apply ss_app in Hss. destruct Hss as (S1 & S2 & S3).
      unfold is_ent. cbn [fst]. rewrite Hk.
      apply ss_app. split; [assumption|]. split.
      + apply ss_cons. split; [assumption|]. intros y Hy. apply in_map_iff in Hy. destruct Hy as (b & <- & Hb). auto.
      + intros x y Hx [<-|Hy]; [|auto]. apply in_map_iff in Hx. destruct Hx as (a & <- & Ha). auto.
    - rewrite Forall_forall in *. intros e He. apply in_app_or in He. destruct He as [He|[<-|He]].
      + apply HF, Hsub, in_or_app. auto.
      + unfold is_ent. split; cbn [fst snd]; [now rewrite Hk|assumption].
      + apply HF, Hsub, in_or_app. auto.
    - intros e He. apply in_app_or in He. destruct He as [He|[<-|He]].
      + right. apply Hsub, in_or_app. auto.
      + left. exact Hk.
      + right. apply Hsub, in_or_app. auto.
  Qed.

  (** ** The invariant of a tree *)
  Fixpoint seg {T} (I : T -> bytes -> option bytes -> Prop) (es : list (ient T)) (lo hi : option bytes) : Prop :=
    match es with
    | [] => lo = hi
    | e :: r => exists mid, lo = Some (ie_key e) /\ below (ie_key e) mid /\
                            I (ie_child e) (ie_key e) mid /\ seg I r mid hi
    end.
  Definition key_fits {T} (e : ient T) : Prop := blen (ie_key e) <= K.

  Fixpoint inv (h : nat) : tree h -> bytes -> option bytes -> Prop :=
    match h with
    | O => leaf_inv
    | S h' => fun (t : page (ient (tree h'))) lo hi =>
        page_ok isz P t /\ pg_cont t <> [] /\ Forall key_fits (pg_cont t) /\
        exists s0, kle lo s0 /\ seg (inv h') (pg_cont t) (Some s0) hi
    end.

  Lemma inv_weaken : forall h t lo lo' hi, inv h t lo hi -> kle lo' lo -> inv h t lo' hi.
  Proof using TO. clear HK HM.
    intros [|h] t lo lo' hi H Hle.
    - destruct H as (H1 & H2 & H3 & H4 & H5). split; [exact H1|]. split; [exact H2|]. split; [exact H3|].
      split; [|exact H5]. intros e He. destruct (H4 e He). split; [eapply kle_trans; eauto|assumption].
    - destruct H as (H1 & H2 & H3 & s0 & H4 & H5). split; [exact H1|]. split; [exact H2|]. split; [exact H3|].
      exists s0. split; [eapply kle_trans; eauto|exact H5].
  Qed.

  Section Seg.
    Context {T : Type} (I : T -> bytes -> option bytes -> Prop).

    Lemma seg_app : forall a b lo hi,
      seg I (a ++ b) lo hi <-> exists mid, seg I a lo mid /\ seg I b mid hi.
    Proof using TO I. clear HK HM.
      induction a as [|e a IH]; intros b lo hi; cbn [app seg].
      - split; [intros H; exists lo; auto|intros (m & -> & H); exact H].
      - split.
        + intros (m & H1 & H2 & H3 & H4). apply IH in H4. destruct H4 as (m2 & H4 & H5).
          exists m2. split; [|exact H5]. exists m. auto.
        + intros (m2 & (m & H1 & H2 & H3 & H4) & H5). exists m. split; [exact H1|]. split; [exact H2|].
          split; [exact H3|]. apply IH. eauto.
    Qed.

    Lemma seg_keys : forall es lo hi, seg I es lo hi -> es <> [] ->
      exists s, lo = Some s /\ ss (map ie_key es) /\
        (forall e, In e es -> kle s (ie_key e) /\ below (ie_key e) hi) /\ below s hi.
    Proof using TO I. clear HK HM.
      induction es as [|e r IH]; intros lo hi H Hne; [congruence|]. clear Hne. cbn [seg] in H.
      destruct H as (mid & -> & H2 & H3 & H4). exists (ie_key e). split; [reflexivity|].
      destruct r as [|e2 r].
      - cbn in H4. subst mid. cbn [map]. split; [repeat constructor|]. split; [|exact H2].
        intros x [<-|[]]. split; [apply kle_refl|exact H2].
      - destruct (IH mid hi H4 ltac:(discriminate)) as (s & -> & S1 & S2 & S3). cbn [below] in H2.
        split; [|split].
        + cbn [map]. apply ss_cons. split; [exact S1|]. intros y Hy.
          change (ie_key e2 :: map ie_key r) with (map ie_key (e2 :: r)) in Hy. apply in_map_iff in Hy. destruct Hy as (x & <- & Hx).
          apply S2 in Hx. eapply klt_kle_trans; [exact H2|tauto].
        + intros x [<-|Hx].
          * split; [apply kle_refl|]. eapply kle_below; [|exact S3]. now apply klt_kle.
          * destruct (S2 x Hx) as [Y1 Y2]. split; [|exact Y2]. eapply kle_trans; [apply klt_kle; exact H2|exact Y1].
        + eapply kle_below; [|exact S3]. now apply klt_kle.
    Qed.

    Lemma seg_head : forall e es lo hi, seg I (e :: es) lo hi -> lo = Some (ie_key e).
    Proof using TO I. clear HK HM. intros e es lo hi (m & H & _). exact H. Qed.

    (** The child to descend into. *)
    Definition posn (es : list (ient T)) (ci : nat) (k s0 : bytes) (hi : option bytes) : Prop :=
      exists A e B mid, es = A ++ e :: B /\ ci = length A /\
        seg I A (Some s0) (Some (ie_key e)) /\ I (ie_child e) (ie_key e) mid /\ seg I B mid hi /\
        kle (ie_key e) k /\ below k mid.

    Lemma posn_seg : forall es ci k s0 hi, posn es ci k s0 hi -> seg I es (Some s0) hi.
    Proof using TO I. clear HK HM.
      intros es ci k s0 hi (A & e & B & mid & -> & _ & H1 & H2 & H3 & H4 & H5).
      apply seg_app. exists (Some (ie_key e)). split; [exact H1|]. exists mid. split; [reflexivity|].
      split; [eapply kle_below; eauto|]. auto.
    Qed.

    Lemma posn_le : forall es ci k s0 hi, posn es ci k s0 hi -> kle s0 k.
    Proof using TO I. clear HK HM.
      intros es ci k s0 hi (A & e & B & mid & -> & _ & H1 & H2 & H3 & H4 & H5).
      destruct A as [|a A].
      - cbn in H1. injection H1 as ->. exact H4.
      - destruct (seg_keys _ _ _ H1 ltac:(discriminate)) as (s & Es & _ & _ & Hb).
        injection Es as <-. cbn in Hb. eapply kle_trans; [apply klt_kle; exact Hb|exact H4].
    Qed.

    Lemma find_pivot_posn : forall p k s0 hi, seg I (pg_cont p) (Some s0) hi -> pg_cont p <> [] ->
      Forall key_fits (pg_cont p) -> D k -> below k hi ->
      exists i f, find_pivot cfg p (KUser k) = Some (i, f) /\
        ((i = (-1)%Z /\ klt k s0) \/ ((0 <= i)%Z /\ posn (pg_cont p) (Z.to_nat i) k s0 hi)).
    Proof using TO AG DK I. clear HK HM.
      intros p k s0 hi Hs Hne Hkf HDk Hk. unfold find_pivot, index_keys.
      assert (Hmap : map (fun e : ient T => KUser (ie_key e)) (pg_cont p) = map KUser (map ie_key (pg_cont p)))
        by (rewrite map_map; reflexivity).
      rewrite Hmap. destruct (seg_keys _ _ _ Hs Hne) as (s & Es & Hss & Hin & _). injection Es as <-.
      assert (HD : Forall D (map ie_key (pg_cont p))).
      { rewrite Forall_forall in *. intros x Hx. apply in_map_iff in Hx. destruct Hx as (e & <- & He). apply DK, Hkf, He. }
      destruct (find_spec _ k Hss HD HDk) as (idx & found & E & Bd & Sp & _). rewrite E.
      exists idx, found. split; [reflexivity|].
      assert (Hnth : forall i e, nth_error (pg_cont p) i = Some e -> ((Z.of_nat i <= idx)%Z <-> kle (ie_key e) k)).
      { intros i e He. apply Sp. now rewrite nth_error_map, He. }
      rewrite map_length in Bd.
      destruct (Z.eq_dec idx (-1)) as [->|Hidx].
      - left. split; [reflexivity|]. destruct (pg_cont p) as [|e r]; [congruence|].
        assert (X : ~ kle (ie_key e) k) by (rewrite <- (Hnth 0%nat e eq_refl); lia).
        apply not_kle in X. apply seg_head in Hs. injection Hs as ->. exact X.
      - right. split; [lia|]. destruct (nth_error (pg_cont p) (Z.to_nat idx)) as [e|] eqn:En.
        2:{ apply nth_error_None in En. lia. }
        assert (Hle : kle (ie_key e) k) by (apply (Hnth _ _ En); lia).
        apply nth_error_split in En. destruct En as (A & B & Ec & HA). rewrite Ec in *.
        apply seg_app in Hs. destruct Hs as (m1 & H1 & mid & -> & H2 & H3 & H4).
        exists A, e, B, mid. split; [reflexivity|]. split; [lia|]. split; [exact H1|]. split; [exact H3|].
        split; [exact H4|]. split; [exact Hle|].
        destruct B as [|b B].
        + cbn in H4. now subst mid.
        + pose proof (seg_head _ _ _ _ H4) as ->. cbn. apply not_kle.
          rewrite <- (Hnth (S (length A)) b); [lia|].
          rewrite nth_error_app2 by lia. replace (S (length A) - length A)%nat with 1%nat by lia. reflexivity.
    Qed.

    (** A child and how its slot is found after the smallest key was (or was
        not) updated. *)
    Definition goal (need : bool) (es : list (ient T)) (ci : nat) (k s : bytes) (hi : option bytes) : Prop :=
      if need then ci = 0%nat /\ klt k s /\ seg I es (Some s) hi /\ es <> []
      else posn es ci k s hi.

    Lemma goal_seg : forall need es ci k s hi, goal need es ci k s hi -> seg I es (Some s) hi /\ es <> [].
    Proof using TO I. clear HK HM.
      intros [|] es ci k s hi H; cbn in H.
      - tauto.
      - split; [eapply posn_seg; eauto|]. destruct H as (A & e & B & mid & -> & _). destruct A; discriminate.
    Qed.

    Lemma goal_split : forall need L r R ci k s hi, L <> [] -> goal need (L ++ r :: R) ci k s hi ->
      ((ci < length L)%nat /\ goal need L ci k s (Some (ie_key r)) /\ seg I (r :: R) (Some (ie_key r)) hi) \/
      ((length L <= ci)%nat /\ need = false /\ goal need (r :: R) (ci - length L) k (ie_key r) hi /\
        seg I L (Some s) (Some (ie_key r))).
    Proof using TO I. clear HK HM.
      intros need L r R ci k s hi HL H. destruct need; cbn [goal] in H.
      - destruct H as (-> & Hk & Hs & _). left. split; [destruct L; [congruence|cbn; lia]|].
        apply seg_app in Hs. destruct Hs as (m & H1 & H2). pose proof (seg_head _ _ _ _ H2) as ->.
        split; [|exact H2]. cbn. auto.
      - destruct H as (A & e & B & mid & Ec & -> & H1 & H2 & H3 & H4 & H5).
        destruct (Nat.lt_ge_cases (length A) (length L)) as [Hlt|Hge].
        + left. split; [exact Hlt|].
          assert (HL2 : L = A ++ e :: skipn (S (length A)) L /\ skipn (S (length A)) L ++ r :: R = B).
          { pose proof (f_equal (firstn (length A)) Ec) as F1. rewrite firstn_app_le in F1 by lia.
            rewrite firstn_app_all in F1.
            assert (F2 : nth_error L (length A) = Some e).
            { rewrite <- (nth_error_app1 L (r :: R)) by lia. rewrite Ec, nth_error_app2, Nat.sub_diag by lia. reflexivity. }
            apply nth_error_split in F2. destruct F2 as (L1 & L2 & E1 & E2).
            assert (L1 = A). { rewrite E1, <- E2, firstn_app_all in F1. exact F1. }
            subst L1. rewrite E1 in *. rewrite <- app_assoc in Ec. apply app_inv_head in Ec. cbn in Ec. injection Ec as Ec.
            replace (skipn (S (length A)) (A ++ e :: L2)) with L2; [auto|].
            replace (S (length A)) with (length (A ++ [e])) by (rewrite app_length; cbn; lia).
            change (A ++ e :: L2) with (A ++ [e] ++ L2). rewrite app_assoc, skipn_app, skipn_all, Nat.sub_diag. reflexivity. }
          destruct HL2 as [E1 E2]. rewrite <- E2 in H3. apply seg_app in H3. destruct H3 as (m2 & H3 & H6).
          pose proof (seg_head _ _ _ _ H6) as ->. split; [|exact H6].
          cbn [goal]. exists A, e, (skipn (S (length A)) L), mid. auto 10.
        + right. split; [exact Hge|]. split; [reflexivity|].
          assert (HR : exists A2, A = L ++ A2 /\ r :: R = A2 ++ e :: B).
          { exists (skipn (length L) A). pose proof (f_equal (firstn (length L)) Ec) as F1.
            rewrite firstn_app_all, firstn_app_le in F1 by lia.
            assert (EA : A = L ++ skipn (length L) A) by (rewrite F1 at 1; now rewrite firstn_skipn).
            split; [exact EA|]. rewrite EA, <- app_assoc in Ec. apply app_inv_head in Ec. exact Ec. }
          destruct HR as (A2 & -> & ER). apply seg_app in H1. destruct H1 as (m1 & H1 & H6).
          assert (Hm1 : m1 = Some (ie_key r)).
          { destruct A2 as [|a A2]; cbn in ER; injection ER as -> ->.
            - cbn in H6. congruence.
            - now apply seg_head in H6. }
          subst m1. split; [|exact H1]. cbn [goal]. exists A2, e, B, mid. rewrite app_length.
          split; [exact ER|]. split; [lia|]. auto 10.
    Qed.
  End Seg.

  Definition room {T} (p : page (ient T)) : Prop := off_end (S (pg_num p)) + 23 + K <= pg_next p.

  Definition ready (h : nat) (p : tree (S h)) (ci : nat) (k s0 : bytes) (hi : option bytes) : Prop :=
    let q : page (ient (tree h)) := p in
    page_ok isz P q /\ Forall key_fits (pg_cont q) /\ room q /\ posn (inv h) (pg_cont q) ci k s0 hi.
  Definition done (h : nat) (p : tree (S h)) (s0 : bytes) (hi : option bytes) : Prop :=
    let q : page (ient (tree h)) := p in
    page_ok isz P q /\ Forall key_fits (pg_cont q) /\ pg_cont q <> [] /\ seg (inv h) (pg_cont q) (Some s0) hi.

  Lemma done_inv : forall h p s0 lo hi, done h p s0 hi -> kle lo s0 -> inv (S h) p lo hi.
  Proof. intros h p s0 lo hi (H1 & H2 & H3 & H4) Hle. cbn. eauto 10. Qed.

  Lemma done0 : forall (p : page (ient leaf)) s0 hi, page_ok isz P p -> Forall key_fits (pg_cont p) ->
    pg_cont p <> [] -> seg leaf_inv (pg_cont p) (Some s0) hi -> done 0 p s0 hi.
  Proof. intros p s0 hi H1 H2 H3 H4. exact (conj H1 (conj H2 (conj H3 H4))). Qed.

  (** Effect on the leaves. *)
  Definition env_rel (l l' : list N) (en en' : env) : Prop :=
    (en' = en /\ l' = l) \/
    (exists X a Y, l = X ++ a :: Y /\ l' = X ++ a :: e_fresh en :: Y /\ en' = fst (link_split en a)).
  Definition ents (ls : list leaf) : list lent := flat_map (fun l => pg_cont (lf_page l)) ls.
  Definition rel (k : bytes) (m : message) (u : bool) (ls ls' : list leaf) (en en' : env) : Prop :=
    upserted k m u (ents ls) (ents ls') /\ env_rel (map lf_addr ls) (map lf_addr ls') en en'.

  Lemma rel_ctx : forall k m u ls ls' en en' X Y, rel k m u ls ls' en en' ->
    rel k m u (X ++ ls ++ Y) (X ++ ls' ++ Y) en en'.
  Proof.
    intros k m u ls ls' en en' X Y [H1 H2]. split.
    - unfold ents. rewrite !flat_map_app. now apply upserted_ctx.
    - rewrite !map_app. destruct H2 as [(-> & ->)|(A & a & B & E1 & E2 & ->)]; [left; auto|right].
      rewrite E1, E2. exists (map lf_addr X ++ A), a, (B ++ map lf_addr Y). rewrite <- !app_assoc. auto.
  Qed.

  Definition lvs {h} (es : list (ient (tree h))) : list leaf := flat_map (fun e => leaves h (ie_child e)) es.
  Lemma lvs_app : forall h (a b : list (ient (tree h))), lvs (a ++ b) = lvs a ++ lvs b.
  Proof. intros. apply flat_map_app. Qed.

  Lemma mergeable_part : forall L X Y k m, mergeable (ents (X ++ L ++ Y)) k m -> mergeable (ents L) k m.
  Proof.
    intros L X Y k m H old Ho. apply H. unfold ents. rewrite !flat_map_app. apply in_or_app. right.
    apply in_or_app. now left.
  Qed.

  (** ** Insertion at a leaf *)
  Lemma key_fits_mid : forall T (A B : list (ient T)) e x, Forall key_fits (A ++ e :: B) -> key_fits x ->
    Forall key_fits (A ++ x :: B).
  Proof.
    intros T A B e x H Hx. rewrite Forall_app in *. destruct H as [H1 H2]. inversion H2; subst. auto.
  Qed.

  Lemma leaf_inv_of : forall addr p lo hi es, page_ok lsz P p -> pg_cont p = es -> es <> [] ->
    ss (map fst es) -> Forall ent_ok es -> (forall e, In e es -> kle lo (fst e) /\ below (fst e) hi) ->
    leaf_inv (Leaf addr p) lo hi.
  Proof. intros. unfold leaf_inv. cbn [lf_page]. rewrite H0. auto 10. Qed.

  Lemma insert_at_leaf_spec : forall parent ci k m en s0 hi,
    ready 0 parent ci k s0 hi -> blen k <= K -> blen (m_data m) <= M ->
    mergeable (ents (leaves 1 parent)) k m ->
    exists p' en' u, insert_at_leaf cfg P parent ci k m en = Some (p', en', u) /\
      done 0 p' s0 hi /\ rel k m u (leaves 1 parent) (leaves 1 p') en en'.
  Proof.
    intros parent ci k m en s0 hi (Hok & Hfit & Hroom & A & e & B & mid & Ec & -> & H1 & H2 & H3 & H4 & H5) Hlk Hlm Hmg.
    cbn [inv] in H2. destruct H2 as (Pok & Pne & Pss & Pin & Pf).
    unfold insert_at_leaf. change (tree 1) with (page (ient leaf)) in parent. change (tree 0) with leaf in *.
    rewrite (get_child_mid _ _ A e B Ec).
    assert (Hmc : mergeable (pg_cont (lf_page (ie_child e))) k m).
    { change (leaves 1 parent) with (lvs (h := 0) (pg_cont parent)) in Hmg. rewrite Ec, lvs_app in Hmg.
      change (lvs (h := 0) (e :: B)) with ([ie_child e] ++ lvs (h := 0) B) in Hmg.
      apply mergeable_part in Hmg. unfold ents in Hmg. cbn [flat_map] in Hmg. rewrite app_nil_r in Hmg. exact Hmg. }
    destruct (create_spec_spec (lf_page (ie_child e)) k m Pss Pf Hmc Hlk Hlm)
      as (sp & LA & LB & Ecs & Hsp & Hspk & HA & HB & Hspm & Hup & Hst).
    rewrite Ecs.
    destruct (target_good _ _ _ _ k Hsp Hspk Pss Pf HA HB Hlk Hspm) as (Tss & Tf & Tin).
    assert (Tbound : forall x, In x (target sp LA LB) -> kle (ie_key e) (fst x) /\ below (fst x) mid).
    { intros x Hx. destruct (Tin x Hx) as [->|Hx2]; [auto|]. exact (Pin x Hx2). }
    assert (Tne : target sp LA LB <> []) by (unfold target; destruct LA; discriminate).
    remember (match is_state sp with DidNotExist => true | _ => false end) as u eqn:Eu.
    (* replacing the child by one leaf *)
    assert (Hone : forall p2, page_ok lsz P p2 -> pg_cont p2 = target sp LA LB ->
      exists parent', set_child parent (length A) (Leaf (lf_addr (ie_child e)) p2) = Some parent' /\
        done 0 parent' s0 hi /\ rel k m u (leaves 1 parent) (leaves 1 parent') en en).
    { intros p2 Ok2 C2.
      destruct (set_child_spec _ P parent A e B (Leaf (lf_addr (ie_child e)) p2) Hok Ec) as (p' & Es & Ok' & C' & Nx & Nm).
      exists p'. split; [exact Es|]. split.
      - apply done0; [exact Ok'| | |].
        + rewrite C'. eapply key_fits_mid; [rewrite <- Ec; exact Hfit|].
          rewrite Ec, Forall_app in Hfit. destruct Hfit as [_ Hf]. inversion Hf; subst. assumption.
        + rewrite C'. destruct A; discriminate.
        + rewrite C'. apply seg_app. exists (Some (ie_key e)). split; [exact H1|]. exists mid. cbn [ie_key ie_child].
          split; [reflexivity|]. split; [eapply kle_below; eauto|]. split; [|exact H3].
          apply (leaf_inv_of _ _ _ _ (target sp LA LB)); auto.
      - change (leaves 1 parent) with (lvs (h := 0) (pg_cont parent)).
        change (leaves 1 p') with (lvs (h := 0) (pg_cont p')). rewrite Ec, C', !lvs_app.
        change (lvs (h := 0) (e :: B)) with ([ie_child e] ++ lvs (h := 0) B).
        change (lvs (h := 0) (IEnt (ie_key e) (ie_stats e) (Leaf (lf_addr (ie_child e)) p2) :: B))
          with ([Leaf (lf_addr (ie_child e)) p2] ++ lvs (h := 0) B).
        apply rel_ctx. split.
        + unfold ents. cbn [flat_map lf_page]. rewrite !app_nil_r, C2. exact Hup.
        + left. auto. }
    pose proof (try_perform_spec P (lf_page (ie_child e)) sp LA LB Pok Hsp) as Tp.
    destruct (can_perform (lf_page (ie_child e)) sp) eqn:Ecan.
    - destruct (try_perform (lf_page (ie_child e)) sp) as [| |p2]; [destruct Tp|discriminate|].
      destruct Tp as (Ok2 & C2 & _). cbn [must]. destruct (Hone p2 Ok2 C2) as (p' & -> & Dn & R).
      exists p', en, u. auto.
    - unfold defragment_or_split_child_leaf. rewrite (other_entries_spec _ _ _ _ Hsp).
      assert (HP150 : 150 <= P) by (pose proof P_360; lia).
      match goal with |- context [?a <? P / 2] => remember a as required eqn:Er end.
      destruct (N.ltb_spec required (P / 2)) as [Hreq|Hreq].
      + destruct (defragment_chosen_fits P (6 + K + M) HM (lf_page (ie_child e)) sp LA LB HP150 Pok Hsp) as (p1 & sp1 & p2 & E1 & E2 & Ok2 & C2).
        { lia. }
        rewrite E1, E2. cbn [must]. destruct (Hone p2 Ok2 C2) as (p' & -> & Dn & R). exists p', en, u. auto.
      + (* split *)
        assert (H2len : (2 <= length (target sp LA LB))%nat).
        { destruct (Nat.le_gt_cases 2 (length (target sp LA LB))) as [L|L]; [exact L|exfalso].
          unfold target in L. rewrite app_length in L. cbn [length] in L.
          destruct LA as [|? ?]; [|cbn in L; lia]. destruct LB as [|? ?]; [|cbn in L; lia].
          assert (Hl : lsz (is_ent sp) <= 6 + K + M).
          { apply ent_ok_lsz. rewrite Forall_forall in Tf. apply Tf. left. reflexivity. }
          cbn [app sum_sizes fold_right] in Er.
          assert (required <= lsz (is_ent sp) + 23).
          { subst required. unfold sizeof_index_entry. destruct (Nat.eqb _ _); lia. }
          assert (6 + K + M + 24 <= P / 2) by (apply N.div_le_lower_bound; lia). lia. }
        assert (HF : Forall (fun x => lsz x <= 6 + K + M) (target sp LA LB)).
        { eapply Forall_impl; [|exact Tf]. intros a Ha. now apply ent_ok_lsz. }
        destruct (split_leaf_spec P (6 + K + M) HM (lf_page (ie_child e)) sp LA LB Pok Hsp HF H2len)
          as (c & pivot & r & sp1 & l & Ep & Eb & El & Okl & Okr & Cl & Cr & Hc & (pm & En)).
        unfold split_child_leaf. destruct (link_split en (lf_addr (ie_child e))) as [en' b] eqn:Els.
        rewrite Ep, Eb, El.
        destruct (set_child_spec _ P parent A e B (Leaf (lf_addr (ie_child e)) l) Hok Ec) as (p1 & Es & Ok1 & C1 & Nx1 & Nm1).
        rewrite Es.
        (* pivot facts *)
        assert (Ecut : target sp LA LB = firstn c (target sp LA LB) ++ skipn c (target sp LA LB)) by (now rewrite firstn_skipn).
        remember (firstn c (target sp LA LB)) as TL eqn:ETL. remember (skipn c (target sp LA LB)) as TR eqn:ETR.
        assert (HTL : TL <> []).
        { intros X. assert (length TL = c) by (subst TL; apply firstn_length_le; lia). rewrite X in H. cbn in H. lia. }
        assert (HTR : exists TR', TR = (pivot, pm) :: TR').
        { subst TR. apply nth_error_split in En. destruct En as (l1 & l2 & -> & <-).
          rewrite skipn_app, skipn_all, Nat.sub_diag. cbn. eauto. }
        destruct HTR as (TR' & HTR).
        rewrite Ecut, map_app in Tss. apply ss_app in Tss. destruct Tss as (SL & SR & SLR).
        rewrite Ecut, Forall_app in Tf. destruct Tf as (FL & FR).
        assert (Hpiv : blen pivot <= K).
        { rewrite HTR in FR. inversion FR as [|? ? [X _] _]; subst. exact X. }
        assert (HLb : forall x, In x TL -> kle (ie_key e) (fst x) /\ klt (fst x) pivot).
        { intros x Hx. split; [apply Tbound; rewrite Ecut; apply in_or_app; auto|].
          apply SLR; [now apply in_map|]. rewrite HTR. now left. }
        assert (HRb : forall x, In x TR -> kle pivot (fst x) /\ below (fst x) mid).
        { intros x Hx. split; [|apply Tbound; rewrite Ecut; apply in_or_app; auto].
          rewrite HTR in Hx, SR. cbn [map fst] in SR. apply ss_cons in SR. destruct SR as (_ & SR).
          destruct Hx as [<-|Hx]; [apply kle_refl|]. apply klt_kle, SR. now apply in_map. }
        assert (Hep : klt (ie_key e) pivot).
        { destruct TL as [|x TL']; [congruence|]. destruct (HLb x (or_introl eq_refl)). eapply kle_klt_trans; eauto. }
        assert (Hpm : below pivot mid) by (apply (HRb (pivot, pm)); rewrite HTR; now left).
        destruct (insert_index_entry_spec isz P p1 (S (length A)) (IEnt pivot unknown_stats (Leaf b r)) Ok1) as [[_ L]|(p2 & E2 & Ok2 & C2 & Nx2 & L2)].
        { rewrite <- cont_length, C1, app_length. cbn. lia. }
        { exfalso. unfold room in Hroom. rewrite Nm1, Nx1 in L. unfold isz, sizeof_index_entry in L. cbn [ie_key] in L. lia. }
        change (tree 0) with leaf in E2. rewrite E2. cbn [must]. exists p2, en', u. split; [reflexivity|].
        assert (C3 : pg_cont p2 = A ++ IEnt (ie_key e) (ie_stats e) (Leaf (lf_addr (ie_child e)) l) ::
                                  IEnt pivot unknown_stats (Leaf b r) :: B).
        { rewrite C2, C1.
          replace (S (length A)) with (length (A ++ [IEnt (ie_key e) (ie_stats e) (Leaf (lf_addr (ie_child e)) l)])) by (rewrite app_length; cbn; lia).
          change (A ++ ?x :: B) with (A ++ [x] ++ B). rewrite app_assoc, insert_nth_mid, <- app_assoc. reflexivity. }
        split.
        * apply done0; [exact Ok2| | |].
          -- rewrite C3. rewrite Ec, Forall_app in Hfit. destruct Hfit as [F1 F2]. inversion F2; subst.
             rewrite Forall_app. split; [assumption|]. constructor; [assumption|]. constructor; [exact Hpiv|assumption].
          -- rewrite C3. destruct A; discriminate.
          -- rewrite C3. apply seg_app. exists (Some (ie_key e)). split; [exact H1|].
             exists (Some pivot). cbn [ie_key ie_child below]. split; [reflexivity|]. split; [exact Hep|].
             split; [apply (leaf_inv_of _ _ _ _ TL); auto|].
             exists mid. cbn [ie_key ie_child]. split; [reflexivity|]. split; [exact Hpm|]. split; [|exact H3].
             apply (leaf_inv_of _ _ _ _ TR); auto. rewrite HTR. discriminate.
        * change (leaves 1 parent) with (lvs (h := 0) (pg_cont parent)).
          change (leaves 1 p2) with (lvs (h := 0) (pg_cont p2)). rewrite Ec, C3, !lvs_app.
          change (lvs (h := 0) (e :: B)) with ([ie_child e] ++ lvs (h := 0) B).
          match goal with |- rel _ _ _ _ (_ ++ lvs (?x :: ?y :: B)) _ _ =>
            change (lvs (h := 0) (x :: y :: B)) with ([Leaf (lf_addr (ie_child e)) l; Leaf b r] ++ lvs (h := 0) B) end.
          apply rel_ctx. split.
          -- unfold ents. cbn [flat_map lf_page]. rewrite !app_nil_r, Cl, Cr. rewrite <- Ecut. exact Hup.
          -- right. exists [], (lf_addr (ie_child e)), []. cbn [map lf_addr app].
             assert (b = e_fresh en /\ en' = fst (link_split en (lf_addr (ie_child e)))) as [-> ->].
             { rewrite Els. split; [|reflexivity]. unfold link_split in Els.
               destruct (e_links en (lf_addr (ie_child e))). injection Els as _ <-. reflexivity. }
             auto.
  Qed.

  (** ** Index pages *)
  Lemma K_div8 : K <= max_key P.
  Proof.
    unfold max_key. apply N.div_le_lower_bound; [lia|]. pose proof (N.mul_div_le P 4 ltac:(lia)) as X.
    revert X HK. generalize (P / 4), (P / 23). intros a b X Y. lia.
  Qed.

  Definition big_room {T} (p : page (ient T)) : Prop := off_end (S (pg_num p)) + 2 * (23 + K) <= pg_next p.

  Lemma big_room_room : forall T (p : page (ient T)), big_room p -> room p.
  Proof. intros T p. unfold big_room, room. lia. Qed.

  Lemma not_full_room : forall T (p : page (ient T)), index_is_full P p = false -> room p.
  Proof.
    intros T p H. unfold index_is_full in H. apply N.ltb_ge in H. pose proof K_div8.
    unfold room, off_end, sizeof_index_entry in *. lia.
  Qed.

  Lemma finish_spec : forall h (c : page (ient (tree h))) need ci k s hi lo,
    page_ok isz P c -> Forall key_fits (pg_cont c) -> goal (inv h) need (pg_cont c) ci k s hi ->
    blen k <= K -> kle lo s -> kle lo k -> (if need : bool then big_room c else room c) ->
    exists c1 s1, (if need : bool then must (set_min_key c k) else Some c) = Some c1 /\
      ready h c1 ci k s1 hi /\ kle lo s1 /\ leaves (S h) c1 = leaves (S h) c /\ kle s1 s.
  Proof.
    intros h c need ci k s hi lo Hok Hf Hg Hlk Hls Hlo Hr. destruct need.
    - cbn [goal] in Hg. destruct Hg as (-> & Hks & Hseg & Hne).
      destruct (pg_cont c) as [|e B] eqn:Ec; [congruence|].
      pose proof (set_min_key_spec _ P c e B k Hok Ec) as X. destruct (set_min_key c k) as [| |c1]; [destruct X| |].
      + exfalso. unfold big_room, off_end in *. lia.
      + destruct X as (Ok1 & C1 & Nx & Nm). cbn [must]. exists c1, k. split; [reflexivity|].
        cbn [seg] in Hseg. destruct Hseg as (mid & Es & Hb & Hi & Hseg). injection Es as ->.
        assert (Hbk : below k mid) by (eapply kle_below; [apply klt_kle; exact Hks|exact Hb]).
        split; [|split; [exact Hlo|split; [|now apply klt_kle]]].
        * split; [exact Ok1|]. inversion Hf; subst. split; [rewrite C1; constructor; [exact Hlk|assumption]|].
          split; [unfold big_room, room in *; rewrite Nm; lia|].
          exists [], (IEnt k (ie_stats e) (ie_child e)), B, mid. rewrite C1. cbn [app ie_key ie_child seg length].
          split; [reflexivity|]. split; [reflexivity|]. split; [reflexivity|].
          split; [eapply inv_weaken; [exact Hi|now apply klt_kle]|]. split; [exact Hseg|].
          split; [apply kle_refl|exact Hbk].
        * cbn [leaves]. rewrite C1, Ec. reflexivity.
    - exists c, s. split; [reflexivity|]. split; [|split; [exact Hls|split; [reflexivity|apply kle_refl]]].
      split; [exact Hok|]. split; [exact Hf|]. split; [exact Hr|exact Hg].
  Qed.

  Lemma split_loop_spec : forall T (es : list (ient T)) half acc n, half <= acc + sum_sz isz es ->
    exists c, split_loop es half acc n = Some (n + c)%nat /\ (c <= length es)%nat /\
      half <= acc + sum_sz isz (firstn c es) /\
      (c = 0%nat \/ acc + sum_sz isz (firstn (c - 1) es) < half).
  Proof.
    intros T es. induction es as [|e es IH]; intros half acc n H; cbn [split_loop].
    - cbn in H. destruct (N.ltb_spec acc half); [lia|]. exists 0%nat. split; [f_equal; lia|]. split; [lia|].
      split; [cbn; lia|]. now left.
    - destruct (N.ltb_spec acc half).
      + rewrite sum_sz_cons in H. destruct (IH half (acc + isz e) (S n) ltac:(lia)) as (c & E & H1 & H2 & H3).
        exists (S c). split; [rewrite E; f_equal; lia|]. cbn [length firstn]. rewrite sum_sz_cons.
        split; [lia|]. split; [lia|]. right. replace (S c - 1)%nat with c by lia.
        destruct c as [|c]; [cbn; lia|]. destruct H3 as [H3|H3]; [discriminate|].
        replace (S c - 1)%nat with c in H3 by lia. cbn [firstn]. rewrite sum_sz_cons. lia.
      + exists 0%nat. split; [f_equal; lia|]. split; [lia|]. split; [cbn; lia|]. now left.
  Qed.

  Lemma isz_le : forall T (e : ient T), key_fits e -> isz e <= 23 + K.
  Proof. intros T e H. unfold key_fits in H. unfold isz, sizeof_index_entry. lia. Qed.

  Lemma isz_ge : forall T (e : ient T), 23 <= isz e.
  Proof. intros. unfold isz, sizeof_index_entry. lia. Qed.

  (** Where an index page that is at least half full of live bytes is cut. *)
  Lemma choose_split_spec : forall T (c : page (ient T)), page_ok isz P c -> Forall key_fits (pg_cont c) ->
    P / 2 <= index_bytes (pg_cont c) + N.of_nat (pg_num c) * sizeof_index_entry ->
    exists L r R, choose_index_split c = Some (length L) /\ pg_cont c = L ++ r :: R /\ L <> [] /\
      2 * N.of_nat (length L) <= 2 + P / 23 /\ 2 * N.of_nat (length (r :: R)) <= P / 23 /\
      2 * sum_sz isz L <= P + 2 * (23 + K) /\ 2 * sum_sz isz (r :: R) <= P.
  Proof.
    intros T c Hok Hf Htot. unfold choose_index_split.
    change (index_bytes (pg_cont c)) with (sum_sz isz (pg_cont c)) in *.
    pose proof (page_fits isz P (isz_pos T) c Hok) as Hfit. unfold pg_live in Hfit. rewrite <- cont_length in *.
    remember (pg_cont c) as es eqn:Ees. clear Ees. unfold off_end, sizeof_btree_hdr in Hfit. unfold sizeof_index_entry in Htot.
    pose proof (sum_sz_bound _ isz 23 es (fun e _ => isz_ge _ e)) as Hn.
    remember (sum_sz isz es) as Sg eqn:ESg.
    pose proof (N.div_mod' Sg 2) as Hh. pose proof (N.mod_upper_bound Sg 2 ltac:(lia)) as Hh2.
    revert Hh Hh2. generalize (Sg mod 2). intros odd Hh Hh2.
    remember (Sg / 2) as half eqn:Ehalf. clear Ehalf.
    destruct (split_loop_spec _ es half 0 0 ltac:(rewrite <- ESg; clear - Hh; lia)) as (n & En & Hle & H1 & H2).
    assert (HSg : 2 * K + 90 <= Sg).
    { pose proof (N.div_mod' P 2). pose proof (N.mod_upper_bound P 2 ltac:(lia)).
      pose proof (N.mul_div_le P 4 ltac:(lia)) as X. revert X HK Htot H H0. generalize (P / 4), (P / 23), (P / 2), (P mod 2).
      intros a b d e0 X Y Z V W. lia. }
    assert (Hn0 : n <> 0%nat) by (intros ->; cbn in H1; lia).
    destruct H2 as [H2|H2]; [congruence|].
    assert (Hlast : exists x, nth_error es (n - 1) = Some x /\ firstn n es = firstn (n - 1) es ++ [x]).
    { destruct (nth_error es (n - 1)) as [x|] eqn:Ex; [|apply nth_error_None in Ex; lia].
      exists x. split; [reflexivity|]. apply nth_error_split in Ex. destruct Ex as (l1 & l2 & -> & Hl).
      rewrite <- Hl, firstn_app_all. replace n with (length (l1 ++ [x])) by (rewrite app_length; cbn; lia).
      change (l1 ++ x :: l2) with (l1 ++ [x] ++ l2). now rewrite app_assoc, firstn_app_all. }
    destruct Hlast as (x & Hx & Efn).
    assert (Hix : isz x <= 23 + K).
    { apply isz_le. rewrite Forall_forall in Hf. apply Hf. eapply nth_error_In; eauto. }
    assert (HsL : sum_sz isz (firstn n es) = sum_sz isz (firstn (n - 1) es) + isz x).
    { rewrite Efn, sum_sz_app, sum_sz_cons. change (sum_sz isz (@nil (ient T))) with 0. lia. }
    assert (HsR : Sg = sum_sz isz (firstn n es) + sum_sz isz (skipn n es)).
    { rewrite <- sum_sz_app, firstn_skipn. exact ESg. }
    destruct (skipn n es) as [|r R] eqn:Esk.
    { exfalso. change (sum_sz isz (@nil (ient T))) with 0 in HsR. lia. }
    exists (firstn n es), r, R.
    assert (HlL : length (firstn n es) = n) by (now apply firstn_length_le).
    rewrite HlL. rewrite N.add_0_l in *. split; [exact En|]. split; [rewrite <- Esk, firstn_skipn; reflexivity|].
    split; [intros X; rewrite X in HlL; cbn in HlL; lia|].
    pose proof (sum_sz_bound _ isz 23 (firstn (n - 1) es) (fun e _ => isz_ge _ e)) as B1.
    rewrite firstn_length_le in B1 by lia.
    pose proof (sum_sz_bound _ isz 23 (r :: R) (fun e _ => isz_ge _ e)) as B2.
    assert (Q1 : 2 * N.of_nat (n - 1) <= P / 23) by (apply N.div_le_lower_bound; [lia|]; clear - B1 H2 Hfit Hh; lia).
    assert (Q2 : 2 * N.of_nat (length (r :: R)) <= P / 23).
    { apply N.div_le_lower_bound; [lia|]. clear - B2 HsR H1 Hfit Hh Hh2. lia. }
    split; [clear - Q1 Hn0; lia|]. split; [exact Q2|].
    split; [clear - HsL H2 Hix Hh Hfit; lia|clear - HsR H1 Hh Hh2 Hfit; lia].
  Qed.

  Lemma split_child_index_spec : forall T (parent : page (ient (page (ient T)))) A e B (c : page (ient T)),
    page_ok isz P parent -> pg_cont parent = A ++ e :: B -> room parent ->
    page_ok isz P c -> Forall key_fits (pg_cont c) ->
    P / 2 <= index_bytes (pg_cont c) + N.of_nat (pg_num c) * sizeof_index_entry ->
    exists L r R parent' lp rp,
      split_child_index P parent (length A) c = Some (PTrue parent', lp, rp, length L) /\
      pg_cont c = L ++ r :: R /\ L <> [] /\
      page_ok isz P lp /\ page_ok isz P rp /\ pg_cont lp = L /\ pg_cont rp = r :: R /\
      big_room lp /\ big_room rp /\
      page_ok isz P parent' /\ pg_cont parent' = A ++ e :: IEnt (ie_key r) unknown_stats rp :: B.
  Proof.
    intros T parent A e B c Hok Ec Hroom Hokc Hf Htot.
    destruct (choose_split_spec T c Hokc Hf Htot) as (L & r & R & Ech & Ecut & HL & B1 & B2 & B3 & B4).
    unfold split_child_index. rewrite Ech.
    assert (Egc : get_child c (length L) = Some r) by (eapply get_child_mid; eauto). rewrite Egc.
    pose proof P_360 as HP3. assert (H37 : sizeof_btree_hdr <= P) by (unfold sizeof_btree_hdr; lia).
    assert (Esk : skipn (length L) (pg_cont c) = r :: R)
      by (rewrite Ecut, skipn_app, skipn_all, Nat.sub_diag; reflexivity).
    assert (Efn : firstn (length L) (pg_cont c) = L) by (rewrite Ecut; apply firstn_app_all).
    rewrite Esk.
    pose proof (N.mul_div_le P 4 ltac:(lia)) as HP4.
    destruct (fill_index_spec isz P (r :: R) (pg_empty P) (pg_empty_ok _ _ H37)) as (rp & Er & Okr & Cr & Nr).
    { change (off_end (length (r :: R)) + sum_sz isz (r :: R) <= P). unfold off_end, sizeof_btree_hdr.
      clear - B2 B4 HP4 HP3 HK. revert B2 HK HP4. generalize (P / 23), (P / 4). intros; lia. }
    change (pg_num (pg_empty P : page (ient T))) with 0%nat in Er. rewrite Er.
    change (pg_cont (pg_empty P : page (ient T))) with (@nil (ient T)) in Cr. cbn [app] in Cr.
    change (pg_next (pg_empty P : page (ient T))) with P in Nr.
    destruct (truncate_index_spec isz P (isz_pos T) c (length L) H37 Hokc) as (lp & El & Okl & Cl & Nl).
    { rewrite <- cont_length, Ecut, app_length. lia. }
    rewrite El. rewrite Efn in *.
    destruct (insert_index_entry_spec isz P parent (S (length A)) (IEnt (ie_key r) unknown_stats rp) Hok)
      as [[_ X]|(p2 & E2 & Ok2 & C2 & _)].
    { rewrite <- cont_length, Ec, app_length. cbn. lia. }
    { exfalso. rewrite Ecut, Forall_app in Hf. destruct Hf as [_ Hf]. inversion Hf as [|? ? Hr _]; subst.
      unfold key_fits in Hr. unfold room in Hroom. unfold isz, sizeof_index_entry in X. cbn [ie_key] in X. lia. }
    rewrite E2. exists L, r, R, p2, lp, rp. split; [reflexivity|]. split; [exact Ecut|]. split; [exact HL|].
    split; [exact Okl|]. split; [exact Okr|]. split; [exact Cl|]. split; [exact Cr|].
    split; [|split; [|split; [exact Ok2|]]].
    - unfold big_room. rewrite <- cont_length, Cl. unfold off_end, sizeof_btree_hdr.
      destruct Nl as [Nl|Nl].
      + clear - B1 Nl HK. revert B1 HK Nl. generalize (P / 23), (P / 4). intros; lia.
      + rewrite Nl. clear - B1 B3 HK HP4. revert B1 HK HP4. generalize (P / 23), (P / 4). intros; lia.
    - unfold big_room. rewrite <- cont_length, Cr, Nr. unfold off_end, sizeof_btree_hdr.
      clear - B2 B4 HK HP4. revert B2 HK HP4. generalize (P / 23), (P / 4). intros; lia.
    - rewrite C2, Ec.
      replace (S (length A)) with (length (A ++ [e])) by (rewrite app_length; cbn; lia).
      change (A ++ e :: B) with (A ++ [e] ++ B). rewrite app_assoc, insert_nth_mid, <- app_assoc. reflexivity.
  Qed.

  Lemma leaves_S : forall h (t : page (ient (tree h))), leaves (S h) t = lvs (pg_cont t).
  Proof. reflexivity. Qed.

  (** Putting a changed child back. *)
  Lemma put_child_spec : forall h (parent : page (ient (tree (S h)))) A e B mid s0 hi s1 (c2 : tree (S h)) k m u en en',
    page_ok isz P parent -> Forall key_fits (pg_cont parent) -> pg_cont parent = A ++ e :: B ->
    seg (inv (S h)) A (Some s0) (Some (ie_key e)) -> seg (inv (S h)) B mid hi -> below (ie_key e) mid ->
    done h c2 s1 mid -> kle (ie_key e) s1 ->
    rel k m u (leaves (S h) (ie_child e)) (leaves (S h) c2) en en' ->
    exists p', set_child parent (length A) c2 = Some p' /\ done (S h) p' s0 hi /\
      rel k m u (leaves (S (S h)) parent) (leaves (S (S h)) p') en en'.
  Proof.
    intros h parent A e B mid s0 hi s1 c2 k m u en en' Hok Hf Ec HA HB Hb Hd Hle Hrel.
    destruct (set_child_spec _ P parent A e B c2 Hok Ec) as (p' & Es & Ok' & C' & _ & _).
    exists p'. split; [exact Es|]. split.
    - split; [exact Ok'|]. rewrite C'. split; [|split].
      + eapply key_fits_mid; [rewrite <- Ec; exact Hf|].
        rewrite Ec, Forall_app in Hf. destruct Hf as [_ Hf]. inversion Hf; subst. assumption.
      + destruct A; discriminate.
      + apply seg_app. exists (Some (ie_key e)). split; [exact HA|]. exists mid. cbn [ie_key ie_child].
        split; [reflexivity|]. split; [exact Hb|]. split; [|exact HB]. eapply done_inv; eauto.
    - rewrite (leaves_S (S h) parent), (leaves_S (S h) p'), Ec, C', !lvs_app.
      change (lvs (e :: B)) with (leaves (S h) (ie_child e) ++ lvs B).
      change (lvs (IEnt (ie_key e) (ie_stats e) c2 :: B)) with (leaves (S h) c2 ++ lvs B).
      now apply rel_ctx.
  Qed.

  (* rewrite with an equation whose types are only convertible to the goal's *)
  Ltac put E := match type of E with _ = Some ?v =>
    match goal with |- context [@set_child ?X ?a ?b ?c] =>
      replace (@set_child X a b c) with (Some v : option (page (ient X))) by (symmetry; exact E) end end.

  Lemma insert_below_spec : forall h parent ci k m en s0 hi,
    ready h parent ci k s0 hi -> blen k <= K -> blen (m_data m) <= M ->
    mergeable (ents (leaves (S h) parent)) k m ->
    exists p' en' u, insert_below cfg P h parent ci k m en = Some (p', en', u) /\
      done h p' s0 hi /\ rel k m u (leaves (S h) parent) (leaves (S h) p') en en'.
  Proof.
    induction h as [|h IH]; intros parent ci k m en s0 hi Hr Hlk Hlm Hmg.
    { now apply insert_at_leaf_spec. }
    destruct Hr as (Hok & Hf & Hroom & A & e & B & mid & Ec & -> & HA & HI & HB & Hek & Hkm).
    change (tree (S (S h))) with (page (ient (tree (S h)))) in parent.
    assert (Hem : below (ie_key e) mid) by (eapply kle_below; eauto).
    pose proof HI as HI0. destruct HI as (Cok & Cne & Cf & sc & Hsc & Cseg).
    change (tree (S h)) with (page (ient (tree h))) in Cok, Cne, Cf, Cseg.
    cbn [insert_below]. rewrite (get_child_mid _ parent A e B Ec).
    pose (child := (ie_child e : page (ient (tree h)))). change (ie_child e) with child in Cok, Cne, Cf, Cseg |- *.
    assert (Hmc : mergeable (ents (leaves (S h) child)) k m).
    { rewrite (leaves_S (S h) parent), Ec, lvs_app in Hmg.
      change (lvs (e :: B)) with (leaves (S h) (ie_child e) ++ lvs B) in Hmg. now apply mergeable_part in Hmg. }
    clear Hmg.
    destruct (find_pivot_posn (inv h) child k sc mid Cseg Cne Cf (DK k Hlk) Hkm) as (nci & f & Efp & Hpos). rewrite Efp.
    assert (Hput : forall s1 c2 u en', done h c2 s1 mid -> kle (ie_key e) s1 ->
       rel k m u (leaves (S h) child) (leaves (S h) c2) en en' ->
       exists p', set_child parent (length A) c2 = Some p' /\ done (S h) p' s0 hi /\
         rel k m u (leaves (S (S h)) parent) (leaves (S (S h)) p') en en').
    { intros s1 c2 u en' Hd Hle Hrel. eapply (put_child_spec h parent A e B mid s0 hi s1); eauto. }
    destruct ((nci <? 0)%Z || index_is_full P child) eqn:Ecase.
    2:{ (* no change to the child itself *)
      apply orb_false_iff in Ecase. destruct Ecase as [E1 E2]. apply Z.ltb_ge in E1.
      destruct Hpos as [[-> _]|[_ Hpos]]; [lia|].
      destruct (IH child (Z.to_nat nci) k m en sc mid) as (c2 & en' & u & Eb & Hd & Hrel); auto.
      { split; [exact Cok|]. split; [exact Cf|]. split; [now apply not_full_room|exact Hpos]. }
      rewrite Eb. destruct (Hput sc c2 u en' Hd Hsc Hrel) as (p' & -> & Hd' & Hrel'). exists p', en', u. auto. }
    (* the smallest key *)
    assert (Hmin : exists child1 need s1,
      (if (nci <? 0)%Z then match set_min_key child k with
                            | PAbort => None | PFalse => Some (child, true) | PTrue c => Some (c, false) end
       else Some (child, false)) = Some (child1, need) /\
      page_ok isz P child1 /\ Forall key_fits (pg_cont child1) /\
      goal (inv h) need (pg_cont child1) (Z.to_nat nci) k s1 mid /\ kle (ie_key e) s1 /\
      leaves (S h) child1 = leaves (S h) child /\ (need = true -> index_is_full P child1 = true)).
    { destruct Hpos as [[-> Hks]|[Hn Hpos]].
      - change (-1 <? 0)%Z with true. cbv iota. change (Z.to_nat (-1)) with 0%nat.
        destruct (pg_cont child) as [|e0 B0] eqn:Ecc; [congruence|].
        pose proof (set_min_key_spec _ P child e0 B0 k Cok Ecc) as X.
        destruct (set_min_key child k) as [| |c1]; [destruct X| |].
        + exists child, true, sc. split; [reflexivity|]. rewrite Ecc. split; [exact Cok|]. split; [exact Cf|].
          split; [cbn [goal]; auto|]. split; [exact Hsc|]. split; [reflexivity|]. intros _.
          unfold index_is_full. apply N.ltb_lt. pose proof K_div8. unfold off_end, sizeof_index_entry in *. lia.
        + destruct X as (Ok1 & C1 & _ & _). exists c1, false, k. split; [reflexivity|]. split; [exact Ok1|].
          rewrite C1. inversion Cf; subst. split; [constructor; [exact Hlk|assumption]|]. split; [|split; [exact Hek|split; [|discriminate]]].
          * cbn [goal]. cbn [seg] in Cseg. destruct Cseg as (m1 & Es & Hb & Hi & Cseg). injection Es as ->.
            exists [], (IEnt k (ie_stats e0) (ie_child e0)), B0, m1. cbn [app ie_key ie_child seg length].
            split; [reflexivity|]. split; [reflexivity|]. split; [reflexivity|].
            split; [eapply inv_weaken; [exact Hi|now apply klt_kle]|]. split; [exact Cseg|].
            split; [apply kle_refl|]. eapply kle_below; [apply klt_kle; exact Hks|exact Hb].
          * rewrite !leaves_S, C1, Ecc. reflexivity.
      - destruct (Z.ltb_spec nci 0); [lia|]. exists child, false, sc. split; [reflexivity|]. split; [exact Cok|].
        split; [exact Cf|]. split; [exact Hpos|]. split; [exact Hsc|]. split; [reflexivity|discriminate]. }
    destruct Hmin as (child1 & need & s1 & Emin & Ok1 & F1 & G1 & Hs1 & Lv1 & Hneed).
    rewrite <- Lv1 in Hmc.
    change (tree (S h)) with (page (ient (tree h))). rewrite Emin. clear Emin Ecase Hpos Efp.
    destruct (index_is_full P child1) eqn:Efull.
    - match goal with |- context [?a <? P / 2] => remember a as total eqn:Etot end.
      destruct (N.ltb_spec total (P / 2)) as [Ht|Ht].
      + (* defragment *)
        pose proof P_360 as HP3. assert (H37 : sizeof_btree_hdr <= P) by (unfold sizeof_btree_hdr; lia).
        destruct (defragment_index_spec isz P (isz_pos _) child1 H37 Ok1) as (c & Ed & Okc & Cc & Nc). rewrite Ed.
        assert (Hbig : big_room c).
        { unfold big_room. rewrite <- cont_length, Cc, cont_length, Nc. unfold pg_live.
          change (index_bytes (pg_cont child1)) with (sum_sz isz (pg_cont child1)) in Etot.
          unfold off_end, sizeof_btree_hdr, sizeof_index_entry in *.
          pose proof (N.mul_div_le P 4 ltac:(lia)) as X1. pose proof (N.mul_div_le P 2 ltac:(lia)) as X2.
          clear - Ht Etot HK X1 X2. revert Ht HK X1 X2. subst total.
          generalize (P / 4), (P / 2), (P / 23), (sum_sz isz (pg_cont child1)). intros; lia. }
        destruct (finish_spec h c need (Z.to_nat nci) k s1 mid (ie_key e)) as (c1 & s2 & Ef & Hrd & Hs2 & Lv2 & _); auto.
        { rewrite Cc. exact F1. } { rewrite Cc. exact G1. }
        { destruct need; [exact Hbig|now apply big_room_room]. }
        assert (Hmg : mergeable (ents (leaves (S h) c1)) k m).
        { rewrite Lv2, !leaves_S in *. now rewrite Cc. }
        rewrite Ef. destruct (IH c1 (Z.to_nat nci) k m en s2 mid Hrd Hlk Hlm Hmg) as (c2 & en' & u & Eb & Hd & Hrel).
        rewrite Eb. destruct (Hput s2 c2 u en' Hd Hs2) as (p' & Es & Hd' & Hrel').
        { rewrite Lv2 in Hrel. rewrite <- Lv1. rewrite !leaves_S in *. rewrite Cc in Hrel. exact Hrel. }
        put Es.
        exists p', en', u. auto.
      + (* split *)
        subst total.
        destruct (split_child_index_spec (tree h) parent A e B child1 Hok Ec Hroom Ok1 F1 Ht)
          as (L & r & R & parent' & lp & rp & Esp & Ecut & HL & Okl & Okr & Cl & Cr & Brl & Brr & Okp & Cp).
        match type of Esp with _ = ?v =>
          match goal with |- context [@split_child_index ?X ?a ?b ?c ?d] =>
            replace (@split_child_index X a b c d) with v by (symmetry; exact Esp) end end.
        change (page (ient (tree h))) with (tree (S h)) in parent', Cp, Okp.
        pose proof G1 as G1'. rewrite Ecut in G1'. apply goal_split in G1'; [|exact HL].
        assert (FL : Forall key_fits L /\ Forall key_fits (r :: R)) by (rewrite Ecut, Forall_app in F1; exact F1).
        destruct FL as [FL FR].
        assert (Hkr : key_fits r) by (inversion FR; assumption).
        assert (Fp : Forall key_fits (pg_cont parent')).
        { rewrite Cp. rewrite Ec, Forall_app in Hf. destruct Hf as [Fa Fb]. inversion Fb; subst.
          rewrite Forall_app. split; [assumption|]. constructor; [assumption|]. constructor; [exact Hkr|assumption]. }
        assert (Hlp : leaves (S h) child1 = leaves (S h) lp ++ leaves (S h) rp).
        { rewrite !leaves_S, Ecut, Cl, Cr. apply lvs_app. }
        rewrite Hlp in Hmc.
        assert (Hml : mergeable (ents (leaves (S h) lp)) k m)
          by exact (mergeable_part _ [] _ _ _ Hmc).
        assert (Hmr : mergeable (ents (leaves (S h) rp)) k m)
          by (apply (mergeable_part _ (leaves (S h) lp) []); now rewrite app_nil_r).
        (* the bounds of the two halves *)
        assert (Hsr : klt s1 (ie_key r) /\ seg (inv h) (r :: R) (Some (ie_key r)) mid /\
                      seg (inv h) L (Some s1) (Some (ie_key r)) /\ below (ie_key r) mid).
        { destruct (goal_seg _ _ _ _ _ _ _ G1) as [Sg _]. rewrite Ecut in Sg. apply seg_app in Sg.
          destruct Sg as (mm & SL & SR). pose proof (seg_head _ _ _ _ _ SR) as ->.
          destruct (seg_keys _ _ _ _ SL HL) as (sx & Ex & _ & _ & Hb). injection Ex as <-.
          destruct (seg_keys _ _ _ _ SR ltac:(discriminate)) as (sy & Ey & _ & _ & Hb2). injection Ey as <-.
          cbn in Hb. auto. }
        destruct Hsr as (Hsr & SegR & SegL & Hrm).
        assert (Her : klt (ie_key e) (ie_key r)) by (eapply kle_klt_trans; eauto).
        (* putting both halves back *)
        assert (Hfin : forall l2 r2 u en',
          inv (S h) l2 (ie_key e) (Some (ie_key r)) -> inv (S h) r2 (ie_key r) mid ->
          rel k m u (leaves (S h) child) (leaves (S h) l2 ++ leaves (S h) r2) en en' ->
          exists parent1 parent2, set_child parent' (S (length A)) r2 = Some parent1 /\
            set_child parent1 (length A) l2 = Some parent2 /\ done (S h) parent2 s0 hi /\
            rel k m u (leaves (S (S h)) parent) (leaves (S (S h)) parent2) en en').
        { intros l2 r2 u en' Il Ir Hrel.
          assert (Cp' : pg_cont parent' = (A ++ [e]) ++ IEnt (ie_key r) unknown_stats rp :: B)
            by (rewrite <- app_assoc; exact Cp).
          destruct (set_child_spec (tree (S h)) P parent' _ _ _ r2 Okp Cp') as (q1 & Eq1 & Okq1 & Cq1 & _ & _).
          rewrite app_length, Nat.add_comm in Eq1. cbn [length plus] in Eq1.
          rewrite <- app_assoc in Cq1. cbn [app ie_key ie_stats] in Cq1.
          destruct (set_child_spec (tree (S h)) P q1 _ _ _ l2 Okq1 Cq1) as (q2 & Eq2 & Okq2 & Cq2 & _ & _).
          exists q1, q2. split; [exact Eq1|]. split; [exact Eq2|]. split.
          - split; [exact Okq2|]. rewrite Cq2. split; [|split].
            + rewrite Cp, Forall_app in Fp. destruct Fp as [Fa Fb]. inversion Fb as [|? ? Fe Fb2]; subst. inversion Fb2; subst.
              rewrite Forall_app. split; [assumption|]. constructor; [exact Fe|]. constructor; [exact Hkr|assumption].
            + destruct A; discriminate.
            + apply seg_app. exists (Some (ie_key e)). split; [exact HA|].
              exists (Some (ie_key r)). cbn [ie_key ie_child]. split; [reflexivity|]. split; [exact Her|].
              split; [exact Il|]. exists mid. cbn [ie_key ie_child]. auto.
          - rewrite (leaves_S (S h) parent), (leaves_S (S h) q2), Ec, Cq2, !lvs_app.
            change (lvs (e :: B)) with (leaves (S h) (ie_child e) ++ lvs B).
            match goal with |- rel _ _ _ _ (_ ++ ?x) _ _ =>
              change x with (leaves (S h) l2 ++ leaves (S h) r2 ++ lvs (h := S h) B) end.
            rewrite (app_assoc (leaves (S h) l2)). apply rel_ctx. exact Hrel. }
        assert (Il0 : inv (S h) lp (ie_key e) (Some (ie_key r))).
        { cbn [inv]. split; [exact Okl|]. rewrite Cl. split; [exact HL|]. split; [exact FL|]. exists s1. auto. }
        assert (Ir0 : inv (S h) rp (ie_key r) mid).
        { cbn [inv]. split; [exact Okr|]. rewrite Cr. split; [discriminate|]. split; [exact FR|].
          exists (ie_key r). split; [apply kle_refl|exact SegR]. }
        destruct G1' as [(Hlt & GL & _)|(Hge & -> & GR & _)].
        * destruct (Nat.ltb_spec (Z.to_nat nci) (length L)); [|lia].
          destruct (finish_spec h lp need (Z.to_nat nci) k s1 (Some (ie_key r)) (ie_key e))
            as (c1 & s2 & Ef & Hrd & Hs2 & Lv2 & _); auto.
          { rewrite Cl. exact FL. } { rewrite Cl. exact GL. }
          { destruct need; [exact Brl|now apply big_room_room]. }
          rewrite <- Lv2 in Hml.
          rewrite Ef. destruct (IH c1 (Z.to_nat nci) k m en s2 (Some (ie_key r)) Hrd Hlk Hlm Hml) as (c2 & en' & u & Eb & Hd & Hrel).
          rewrite Eb. destruct (Hfin c2 rp u en') as (q1 & q2 & E1 & E2 & Hd' & Hrel').
          { eapply done_inv; eauto. } { exact Ir0. }
          { rewrite Lv2 in Hrel. rewrite <- Lv1, Hlp. exact (rel_ctx _ _ _ _ _ _ _ [] _ Hrel). }
          put E1. put E2. exists q2, en', u. auto.
        * destruct (Nat.ltb_spec (Z.to_nat nci) (length L)); [lia|].
          destruct (finish_spec h rp false (Z.to_nat nci - length L)%nat k (ie_key r) mid (ie_key r))
            as (c1 & s2 & Ef & Hrd & Hs2 & Lv2 & _); auto.
          { rewrite Cr. exact FR. } { rewrite Cr. exact GR. } { apply kle_refl. }
          { apply (posn_le (inv h)) in GR. exact GR. }
          { now apply big_room_room. }
          cbv iota in Ef. injection Ef as <-.
          destruct (IH rp (Z.to_nat nci - length L)%nat k m en s2 mid Hrd Hlk Hlm Hmr) as (c2 & en' & u & Eb & Hd & Hrel).
          rewrite Eb. destruct (Hfin lp c2 u en') as (q1 & q2 & E1 & E2 & Hd' & Hrel').
          { exact Il0. } { eapply done_inv; eauto. }
          { rewrite <- Lv1, Hlp. pose proof (rel_ctx _ _ _ _ _ _ _ (leaves (S h) lp) [] Hrel) as Z.
            rewrite !app_nil_r in Z. exact Z. }
          put E1. put E2. exists q2, en', u. auto.
    - (* there is room *)
      destruct need; [specialize (Hneed eq_refl); congruence|].
      destruct (finish_spec h child1 false (Z.to_nat nci) k s1 mid (ie_key e)) as (c1 & s2 & Ef & Hrd & Hs2 & Lv2 & _); auto.
      { now apply not_full_room. }
      cbv iota in Ef. injection Ef as <-.
      destruct (IH child1 (Z.to_nat nci) k m en s2 mid Hrd Hlk Hlm Hmc) as (c2 & en' & u & Eb & Hd & Hrel).
      rewrite Eb. destruct (Hput s2 c2 u en' Hd Hs2) as (p' & Es & Hd' & Hrel').
      { rewrite <- Lv1. exact Hrel. }
      put Es.
      exists p', en', u. auto.
  Qed.
End Tree.
