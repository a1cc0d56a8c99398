(** * Range iterators: proofs *)

From Coq Require Import List Arith NArith ZArith Lia Bool Sorted.
From Verif Require Import Base Spec Spec_Merge DataProofs Search Merge MergeScanProofs Prop_Merge.
From Verif Require Import TrunkNode TrunkRing TrunkRep TrunkReset TrunkFlush TrunkAlpha TrunkKeys TrunkView TrunkTree TrunkShape TrunkLookup TrunkEffects TrunkInstall TrunkSplitEff TrunkInv TrunkInvCompact TrunkLegal.
From Verif Require Import Range RangeSpec.
Import ListNotations.

Lemma map_down : forall {A} (f : nat -> A) l o, o <= length l ->
  (forall i x, nth_error l i = Some x -> o <= i -> f (length l - 1 - i) = x) ->
  map f (seq 0 (length l - o)) = rev (skipn o l).
Proof.
  intros A f l o Lo H. rewrite <- (rev_involutive (map _ _)). f_equal. rewrite <- map_rev, rev_seq, map_map.
  rewrite <- (skipn_length o l). apply map_seq_eq. intros i x E. rewrite skipn_length. simpl.
  assert (Li : i < length (skipn o l)) by (apply nth_error_Some; congruence). rewrite skipn_length in Li.
  rewrite nth_error_skipn in E.
  rewrite <- (H (o + i) x); [f_equal; lia | exact E | lia].
Qed.

Lemma filter_length_le' : forall {A} (f : A -> bool) l, length (filter f l) <= length l.
Proof. intros A f l. induction l as [|a l IH]; cbn; [lia|]. destruct (f a); cbn; lia. Qed.

Set Default Proof Using "All".
Section Range.
Variables (M mp : nat) (cfg : data_config) (hash : bytes -> N).
Hypothesis TO : total_order (key_compare cfg).
Hypothesis LM : lawful_merge cfg.
Hypothesis Hmp : mp <= MAX_PIVOTS.
Hypothesis M0 : 0 < M.
Hypothesis Hmp2 : 2 <= mp.
Local Notation klt := (klt cfg).
Local Notation kle := (kle cfg).
Local Notation nwf := (nwf M mp cfg).
Local Notation twf := (twf M mp cfg).
Local Notation nview := (nview M cfg).
Local Notation view_at := (view_at M cfg).
Local Notation branch_ok := (branch_ok cfg).
Local Notation inv := (inv M mp cfg hash).
Local Notation content := (content M cfg).

(** ** The branches of one node *)

Lemma branches_down : forall ht n A p a, nwf ht n A -> piv_rep M n p a -> In a (an_piv A) ->
  pivot_branches M n p = rev (skipn (ap_off a) (brs A)) /\ csub M (n_ebr n) (pv_sbr p) = length (skipn (ap_off a) (brs A)).
Proof.
  intros ht n A p a W Hp Ia. pose proof (w_rep _ _ _ _ _ _ W) as R. pose proof (w_aok _ _ _ _ _ _ W) as K.
  pose proof (off_ok_le _ _ _ (piv_off_ok _ _ _ _ _ _ _ W Ia)) as [Lo _]. pose proof (ok_brs _ _ K) as Kr.
  destruct Hp as (_ & _ & _ & Q4 & _).
  assert (Ec : csub M (n_ebr n) (pv_sbr p) = length (brs A) - ap_off a) by (rewrite Q4, (r_ebr _ _ _ R), csub_cadd by lia; reflexivity).
  split; [|rewrite skipn_length; exact Ec]. unfold pivot_branches. rewrite Ec. apply map_down; [exact Lo|].
  intros i x E Li. assert (i < length (brs A)) by (apply nth_error_Some; congruence).
  rewrite (r_ebr _ _ _ R), csub_cadd_amount by lia. replace (length (brs A) - (length (brs A) - 1 - i + 1)) with i by lia.
  apply (r_br _ _ _ R). exact E.
Qed.
Lemma view_branches : forall ht n A a b, nwf ht n A -> In a (an_piv A) -> v_branches (view_of n A a b) = skipn (ap_off a) (brs A).
Proof.
  intros ht n A a b W Ia. unfold v_branches. cbn [view_of v_whole v_bns]. unfold brs, subs.
  destruct (piv_off_ok _ _ _ _ _ _ _ W Ia) as [[E1 E2]|(E1 & E2 & E3)].
  - rewrite E1. rewrite skipn_app. replace (ap_off a - length (an_whole A)) with 0 by lia. reflexivity.
  - rewrite skipn_app, E3. rewrite skipn_all2 by lia.
    replace (length (an_whole A) + nbr (concat (firstn (ap_boff a) (an_bns A))) - length (an_whole A)) with (nbr (concat (firstn (ap_boff a) (an_bns A)))) by lia.
    cbn [app]. rewrite <- (firstn_skipn (ap_boff a) (an_bns A)) at 3. rewrite concat_app, brs_of_app. unfold nbr. rewrite skipn_app, skipn_all, Nat.sub_diag. reflexivity.
Qed.

Definition vbrs (o : option view) : list branch := match o with Some v => v_branches v | None => [] end.

(** ** The way down *)
Lemma collect_ok : forall ht t lo hi s found, twf ht t lo hi -> kle lo s -> klt s hi ->
  length found + on_path M cfg ht t s <= 256 ->
  exists bs n, collect M cfg ht t s LessThanOrEqual found = Some (found ++ bs, n) /\ length bs = on_path M cfg ht t s /\
    kle lo (min_key n) /\ kle (min_key n) s /\ klt s (max_key n) /\ kle (max_key n) hi /\
    In (min_key n, max_key n) (leaf_ranges ht t) /\
    forall k, kle (min_key n) k -> klt k (max_key n) -> bs = concat (map (fun d => rev (vbrs (view_at d k t))) (seq 0 (S ht))).
Proof.
  induction ht as [|ht IH]; intros t lo hi s found T Hl Hh Lf; pose proof (twf_nwf _ _ _ _ _ _ _ T) as (W & Q1 & Q2);
    destruct (rep_min_max M _ _ (w_rep _ _ _ _ _ _ W)) as [R1 R2].
  - cbn [collect on_path] in *. destruct (w_leaf _ _ _ _ _ _ W eq_refl) as (a0 & Ea & O1 & O2).
    assert (Ia : In a0 (an_piv (alpha M (t_node t)))) by (rewrite Ea; left; reflexivity).
    destruct (get_pivot_rep M _ _ 0 a0 (w_rep _ _ _ _ _ _ W)) as (pv & Eg & Hp); [rewrite Ea; reflexivity|].
    destruct (branches_down _ _ _ _ _ W Hp Ia) as [B1 B2].
    assert (Es : pv_sbr pv = n_sbr (t_node t)).
    { destruct Hp as (_ & _ & _ & Q4 & _). rewrite Q4, O1. apply cadd_0. apply (r_sbr _ _ _ (w_rep _ _ _ _ _ _ W)). }
    assert (El : leaf_branches M (t_node t) = pivot_branches M (t_node t) pv) by (unfold leaf_branches, pivot_branches; rewrite Es; reflexivity).
    exists (leaf_branches M (t_node t)), (t_node t). rewrite app_length.
    assert (Ll : length (leaf_branches M (t_node t)) = csub M (n_ebr (t_node t)) (n_sbr (t_node t))) by (unfold leaf_branches; rewrite map_length, seq_length; reflexivity).
    rewrite Ll. destruct (Nat.leb_spec (length found + csub M (n_ebr (t_node t)) (n_sbr (t_node t))) MAX_ITOR_BRANCHES) as [_|C]; [|unfold MAX_ITOR_BRANCHES in C; lia].
    rewrite R1, R2, Q1, Q2. split; [reflexivity|]. split; [reflexivity|]. assert (lo = lo) by reflexivity. assert (hi = hi) by reflexivity.
    split; [ord TO|]. split; [exact Hl|]. split; [exact Hh|]. split; [ord TO|]. split; [left; congruence|].
    intros k H1 H2. cbn [seq map concat]. rewrite app_nil_r. unfold TrunkShape.view_at. cbn [subtree_at].
    destruct (nview_at M mp cfg TO 0 _ _ k W) as (i & p & b & Er & Ep & Ei & Ev & _ & _); [rewrite Q1; exact H1 | rewrite Q2; exact H2 |].
    rewrite Ev. cbn [vbrs]. assert (p = a0) by (rewrite Ea in Ep; destruct i as [|[|i]]; cbn in Ep; congruence). subst p.
    rewrite (view_branches _ _ _ _ _ W Ia). congruence.
  - cbn [collect on_path] in *.
    destruct (child_at M mp cfg TO _ _ _ _ s T Hl Hh) as (i & c & x & y & Er & Ec & Ei & Tc & H1 & H2).
    destruct (nview_at M mp cfg TO _ _ _ s W) as (i' & p & b & Er' & Ep & Ei' & Ev & H3 & H4); [rewrite Q1; exact Hl | rewrite Q2; exact Hh |].
    assert (i' = i) by congruence. subst i'. rewrite Er, Ec in *.
    destruct (get_pivot_rep M _ _ i p (w_rep _ _ _ _ _ _ W) Ep) as (pv & Eg & Hp). rewrite Eg in *.
    unfold route in Er. rewrite Er, Eg, Ec. pose proof (nth_error_In _ _ Ep) as Ip.
    destruct (branches_down _ _ _ _ _ W Hp Ip) as [B1 B2]. rewrite app_length.
    assert (Lp : length (pivot_branches M (t_node t) pv) = csub M (n_ebr (t_node t)) (pv_sbr pv)) by (unfold pivot_branches; rewrite map_length, seq_length; reflexivity).
    rewrite Lp. destruct (Nat.leb_spec (length found + csub M (n_ebr (t_node t)) (pv_sbr pv)) MAX_ITOR_BRANCHES) as [_|C]; [|unfold MAX_ITOR_BRANCHES in C; lia].
    destruct (IH c x y s (found ++ pivot_branches M (t_node t) pv) Tc H1 H2) as (bs & n & E & K0 & K1 & K2 & K3 & K4 & K5 & K6); [rewrite app_length, Lp; lia|].
    destruct (cell_in_range cfg TO _ x y (w_sorted _ _ _ _ _ _ W) (nth_error_In _ _ Ei)) as (H5 & H6 & _). rewrite Q1 in H5. rewrite Q2 in H6.
    exists (pivot_branches M (t_node t) pv ++ bs), n. rewrite E, <- app_assoc, app_length, Lp, K0. split; [reflexivity|]. split; [reflexivity|]. split; [ord TO|]. split; [exact K2|]. split; [exact K3|]. split; [ord TO|].
    split. { cbn [leaf_ranges]. apply in_flat_map. exists c. split; [eapply nth_error_In; eauto | exact K5]. }
    intros k G1 G2. change (seq 0 (S (S ht))) with (0 :: seq 1 (S ht)). rewrite <- seq_shift. cbn [map concat]. f_equal.
    + unfold TrunkShape.view_at. cbn [subtree_at]. assert (Exy : x = ap_key p /\ y = b) by (rewrite Ei in Ei'; injection Ei' as -> ->; auto). destruct Exy as [-> ->].
      rewrite (nview_char M mp cfg TO _ _ _ k i p b W Ep Ei) by ord TO. cbn [vbrs]. rewrite (view_branches _ _ _ _ _ W Ip). exact B1.
    + rewrite map_map. rewrite (K6 k G1 G2). f_equal. apply map_ext. intro d. unfold TrunkShape.view_at. cbn [subtree_at].
      rewrite (route_at M mp cfg TO _ _ _ k i x y W Ei) by ord TO. rewrite Ec. reflexivity.
Qed.


(** ** What the sources hold *)

Lemma rev_concat_map : forall {A B} (f : A -> list B) l, rev (concat (map (fun d => rev (f d)) l)) = concat (map f (rev l)).
Proof.
  intros A B f l. induction l as [|a l IH]; [reflexivity|]. cbn [map concat rev]. rewrite rev_app_distr, IH, rev_involutive, map_app, concat_app. cbn [map concat]. rewrite app_nil_r. reflexivity.
Qed.
Lemma key_messages_flat : forall k ls, key_messages k (concat ls) = concat (map (key_messages k) ls).
Proof. intros k ls. induction ls as [|l ls IH]; [reflexivity|]. cbn [concat map]. rewrite key_messages_app, IH. reflexivity. Qed.

Lemma leaf_messages : forall st bs n u, kle (min_key n) (KUser u) -> klt (KUser u) (max_key n) ->
  (forall k, kle (min_key n) k -> klt k (max_key n) ->
     bs = concat (map (fun d => rev (vbrs (view_at d k (st_tree st)))) (seq 0 (S (height_of st))))) ->
  replay cfg u (key_messages u (rev (st_mts st ++ bs))) None = content st u.
Proof.
  intros st bs n u H1 H2 E. unfold TrunkInv.content. rewrite rev_app_distr, key_messages_app, tree_msgs_down. f_equal. f_equal.
  rewrite (E _ H1 H2), rev_concat_map, key_messages_flat, map_map. unfold down_msgs. f_equal. apply map_ext. intro d. destruct (view_at d (KUser u) (st_tree st)); reflexivity.
Qed.

Lemma leaf_branch_ok : forall st bs n u b, inv st -> kle (min_key n) (KUser u) -> klt (KUser u) (max_key n) ->
  (forall k, kle (min_key n) k -> klt k (max_key n) ->
     bs = concat (map (fun d => rev (vbrs (view_at d k (st_tree st)))) (seq 0 (S (height_of st))))) ->
  In b (rev (st_mts st ++ bs)) -> branch_ok b.
Proof.
  intros st bs n u b Hi H1 H2 E Ib. apply in_rev in Ib. apply in_app_iff in Ib. destruct Ib as [Ib|Ib].
  - pose proof (i_mts _ _ _ _ _ Hi) as F. rewrite Forall_forall in F. auto.
  - rewrite (E _ H1 H2) in Ib. apply in_concat in Ib. destruct Ib as (l & Il & Ib). apply in_map_iff in Il. destruct Il as (d & <- & Id). apply in_seq in Id.
    apply in_rev in Ib. destruct (view_at d (KUser u) (st_tree st)) as [v|] eqn:Ev; [|contradiction]. cbn [vbrs] in Ib.
    destruct (i_ok _ _ _ _ _ Hi (height_of st - d) u v ltac:(lia)) as (_ & _ & F).
    + unfold views. replace (height_of st - (height_of st - d)) with d by lia. exact Ev.
    + rewrite Forall_forall in F. auto.
Qed.

(** ** Cutting a sorted list *)

Definition lowb (s : key) (e : bytes * message) : bool := (data_key_compare cfg (KUser (fst e)) s <? 0)%Z.
Lemma lowb_lt : forall s e, lowb s e = true <-> klt (KUser (fst e)) s.
Proof. intros s e. unfold lowb, TrunkKeys.klt. apply Z.ltb_lt. Qed.
Lemma cut : forall s l, ascending (key_compare cfg) l ->
  firstn (below cfg s l) l = filter (lowb s) l /\ skipn (below cfg s l) l = filter (fun e => negb (lowb s e)) l.
Proof.
  intros s l A. unfold below. fold (lowb s). induction l as [|e l IH]; [split; reflexivity|]. apply StronglySorted_inv in A. destruct A as [A F].
  destruct (IH A) as [I1 I2]. cbn [filter]. fold (lowb s e). destruct (lowb s e) eqn:Q; cbn [length firstn skipn negb].
  - fold (lowb s) in *. split; [f_equal; exact I1 | exact I2].
  - assert (Z : filter (lowb s) l = []).
    { clear I1 I2 IH A. induction l as [|x l IH]; [reflexivity|]. inversion F as [|? ? Fx F']; subst. cbn [filter]. destruct (lowb s x) eqn:Qx; [|apply IH; exact F'].
      exfalso. apply lowb_lt in Qx. assert (N : ~ klt (KUser (fst e)) s) by (intro C; apply lowb_lt in C; congruence). apply N.
      assert (klt (KUser (fst e)) (KUser (fst x))) by exact Fx. ord TO. }
    assert (Z2 : filter (fun x => negb (lowb s x)) l = l).
    { clear - Z. induction l as [|x l IH]; [reflexivity|]. cbn [filter] in *. destruct (lowb s x); [discriminate|]. cbn [negb]. f_equal. apply IH. exact Z. }
    change (length (filter (fun e0 => lowb s e0) l)) with (length (filter (lowb s) l)). rewrite Z, Z2. split; reflexivity.
Qed.

Lemma ascending_filter : forall (f : bytes * message -> bool) l, ascending (key_compare cfg) l -> ascending (key_compare cfg) (filter f l).
Proof.
  intros f l A. induction A as [|e l A IH F]; [constructor|]. cbn [filter]. destruct (f e); [|exact IH]. constructor; [exact IH|].
  rewrite Forall_forall in *. intros x Ix. apply filter_In in Ix. apply F. apply Ix.
Qed.


(** ** The merge of one leaf *)

Inductive cmp_gt (a b : key) : bool -> Prop := CGt : klt b a -> cmp_gt a b true | CLe : kle a b -> cmp_gt a b false.
Lemma gt_spec : forall a b, cmp_gt a b (0 <? data_key_compare cfg a b)%Z.
Proof.
  intros a b. destruct (Z.ltb_spec 0 (data_key_compare cfg a b)) as [C|C]; constructor.
  - assert (~ kle a b) by (unfold TrunkKeys.kle; lia). ord TO.
  - exact C.
Qed.
Inductive cmp_lt (a b : key) : bool -> Prop := CLt : klt a b -> cmp_lt a b true | CGe : kle b a -> cmp_lt a b false.
Lemma lt_spec : forall a b, cmp_lt a b (data_key_compare cfg a b <? 0)%Z.
Proof.
  intros a b. destruct (Z.ltb_spec (data_key_compare cfg a b) 0) as [C|C]; constructor.
  - exact C.
  - assert (~ klt a b) by (unfold TrunkKeys.klt; lia). ord TO.
Qed.
Inductive cmp_le (a b : key) : bool -> Prop := CLe' : kle a b -> cmp_le a b true | CGt' : klt b a -> cmp_le a b false.
Lemma le_spec : forall a b, cmp_le a b (data_key_compare cfg a b <=? 0)%Z.
Proof.
  intros a b. destruct (Z.leb_spec (data_key_compare cfg a b) 0) as [C|C]; constructor.
  - exact C.
  - assert (~ kle a b) by (unfold TrunkKeys.kle; lia). ord TO.
Qed.

Lemma src_ge : forall lmin lmax s b, kle lmin s -> klt s lmax ->
  src_of cfg GreaterThanOrEqual lmin lmax s b = Src (branch_range cfg lmin lmax b) (Z.of_nat (below cfg s (branch_range cfg lmin lmax b))).
Proof.
  intros lmin lmax s b H1 H2. unfold src_of.
  assert (E : clamped cfg lmin lmax s = s).
  { unfold clamped. destruct (gt_spec lmin lmax) as [K|K]; [exfalso; ord TO|]. destruct (lt_spec s lmin) as [K2|K2]; [exfalso; ord TO|].
    destruct (gt_spec s lmax) as [K3|K3]; [exfalso; ord TO|]. reflexivity. }
  rewrite E. destruct (branch_range cfg lmin lmax b) eqn:Eb; reflexivity.
Qed.

(** What is ahead of such a source *)
Lemma src_ahead : forall lmin lmax s b, kle lmin s -> klt s lmax -> ascending (key_compare cfg) b ->
  ahead (src_of cfg GreaterThanOrEqual lmin lmax s b) = filter (fun e => key_in cfg s lmax (fst e)) b /\
  (forall e, In e (firstn (Z.to_nat (s_pos (src_of cfg GreaterThanOrEqual lmin lmax s b))) (s_items (src_of cfg GreaterThanOrEqual lmin lmax s b))) -> klt (KUser (fst e)) s).
Proof.
  intros lmin lmax s b H1 H2 A. rewrite (src_ge _ _ _ _ H1 H2). unfold ahead. cbn [s_pos s_items]. rewrite Nat2Z.id.
  destruct (cut s (branch_range cfg lmin lmax b)) as [C1 C2]; [apply ascending_filter; exact A|]. rewrite C1, C2. split.
  - unfold branch_range. clear C1 C2 A. induction b as [|e b IH]; [reflexivity|]. cbn [filter].
    destruct (key_in cfg lmin lmax (fst e)) eqn:E1; cbn [filter]; rewrite IH.
    + destruct (lowb s e) eqn:E2; cbn [negb].
      * destruct (key_in cfg s lmax (fst e)) eqn:E3; [|reflexivity]. exfalso. apply lowb_lt in E2. apply (key_in_iff M mp cfg hash TO LM Hmp M0) in E3. destruct E3. ord TO.
      * replace (key_in cfg s lmax (fst e)) with true; [reflexivity|]. symmetry. apply (key_in_iff M mp cfg hash TO LM Hmp M0) in E1. apply (key_in_iff M mp cfg hash TO LM Hmp M0).
        assert (N : ~ klt (KUser (fst e)) s) by (intro C; apply lowb_lt in C; congruence). destruct E1. split; [ord TO | assumption].
    + destruct (key_in cfg s lmax (fst e)) eqn:E3; [|reflexivity]. exfalso. apply (key_in_iff M mp cfg hash TO LM Hmp M0) in E3. destruct E3.
      assert (key_in cfg lmin lmax (fst e) = true); [|congruence]. apply (key_in_iff M mp cfg hash TO LM Hmp M0). split; [ord TO | assumption].
  - intros e Ie. apply filter_In in Ie. apply lowb_lt. apply Ie.
Qed.
Lemma key_messages_filter : forall (f : bytes -> bool) k ls, key_messages k (map (filter (fun e => f (fst e))) ls) = if f k then key_messages k ls else [].
Proof.
  intros f k ls. induction ls as [|l ls IH]; [cbn; destruct (f k); reflexivity|]. cbn [map]. unfold key_messages in *. cbn [map concat flat_map].
  rewrite IH, (source_filter M mp cfg hash TO LM Hmp M0). destruct (f k); reflexivity.
Qed.

Definition yields (m : mi) (L : list (bytes * bytes)) : Prop :=
  forall c, c = m_can_next \/ c = merge_can_curr -> exists N, forall f, N <= f ->
    exists m', drain c (merge_next cfg) f m = Some (seen (values L), m') /\ m_can_next m' = false.

Lemma merge_leaf : forall bs (D : bytes -> option bytes) lmin lmax s, kle lmin s -> klt s lmax -> length bs <= 256 ->
  (forall u b, kle lmin (KUser u) -> klt (KUser u) lmax -> In b bs -> branch_ok b) ->
  (forall u, kle lmin (KUser u) -> klt (KUser u) lmax -> replay cfg u (key_messages u bs) None = D u) ->
  exists m L, merge_create cfg Full (map (src_of cfg GreaterThanOrEqual lmin lmax s) bs) = Some (Some m) /\
    lists cfg D (fun u => kle s (KUser u) /\ klt (KUser u) lmax) L /\ yields m L.
Proof.
  intros bs D lmin lmax s H1 H2 Lb HB HD.
  set (srcs := map (src_of cfg GreaterThanOrEqual lmin lmax s) bs).
  assert (HA : forall b e, In b bs -> In e (branch_range cfg lmin lmax b) -> branch_ok b).
  { intros b e Ib Ie. unfold branch_range in Ie. apply filter_In in Ie. destruct Ie as [_ Ke]. apply (key_in_iff M mp cfg hash TO LM Hmp M0) in Ke. destruct Ke. eapply HB; eauto. }
  assert (HS : forall b, In b bs -> ascending (key_compare cfg) (branch_range cfg lmin lmax b) /\
            (forall e, In e (ahead (src_of cfg GreaterThanOrEqual lmin lmax s b)) -> kle s (KUser (fst e))) /\
            (forall e, In e (firstn (Z.to_nat (s_pos (src_of cfg GreaterThanOrEqual lmin lmax s b))) (s_items (src_of cfg GreaterThanOrEqual lmin lmax s b))) -> klt (KUser (fst e)) s) /\
            ahead (src_of cfg GreaterThanOrEqual lmin lmax s b) = filter (fun e => key_in cfg s lmax (fst e)) b).
  { intros b Ib. destruct (branch_range cfg lmin lmax b) as [|e r] eqn:Eb.
    - split; [constructor|]. rewrite (src_ge _ _ _ _ H1 H2), Eb. unfold ahead. cbn [s_pos s_items below filter length firstn skipn Z.of_nat Z.to_nat]. split; [intros ? []|]. split; [intros ? []|].
      symmetry. destruct (filter (fun e => key_in cfg s lmax (fst e)) b) as [|e r] eqn:Ef; [reflexivity|]. exfalso.
      assert (Ie : In e (filter (fun e => key_in cfg s lmax (fst e)) b)) by (rewrite Ef; left; reflexivity). apply filter_In in Ie. destruct Ie as [Ie Ke]. apply (key_in_iff M mp cfg hash TO LM Hmp M0) in Ke. destruct Ke.
      assert (C : In e (branch_range cfg lmin lmax b)); [|rewrite Eb in C; contradiction]. unfold branch_range. apply filter_In. split; [exact Ie|]. apply (key_in_iff M mp cfg hash TO LM Hmp M0). split; [ord TO | assumption].
    - assert (B : branch_ok b) by (apply (HA b e Ib); rewrite Eb; left; reflexivity). destruct B as [B _]. rewrite <- Eb. destruct (src_ahead lmin lmax s b H1 H2 B) as [S1 S2].
      split; [apply ascending_filter; exact B|]. split; [|split; [exact S2 | exact S1]]. intros x Ix. rewrite S1 in Ix. apply filter_In in Ix. destruct Ix as [_ Kx]. apply (key_in_iff M mp cfg hash TO LM Hmp M0) in Kx. apply Kx. }
  assert (SC : sources cfg (key_compare cfg) (fun _ => True) srcs).
  { constructor.
    - intros x Ix. apply in_map_iff in Ix. destruct Ix as (b & <- & Ib). rewrite (src_ge _ _ _ _ H1 H2). apply HS. exact Ib.
    - intros; exact Logic.I.
    - intros x e Ix Ie. apply in_map_iff in Ix. destruct Ix as (b & <- & Ib). rewrite (src_ge _ _ _ _ H1 H2) in Ie. cbn [s_items] in Ie. destruct (HA b e Ib Ie) as [_ F]. rewrite Forall_forall in F. apply F.
      unfold branch_range in Ie. apply filter_In in Ie. apply Ie.
    - intros x Ix. apply in_map_iff in Ix. destruct Ix as (b & <- & Ib). rewrite (src_ge _ _ _ _ H1 H2). unfold src_len. cbn [s_pos s_items]. pose proof (filter_length_le' (lowb s) (branch_range cfg lmin lmax b)) as Q. unfold below. unfold lowb in Q. lia.
    - intros x x' a b Ix Ix' Ia Ib. apply in_map_iff in Ix. destruct Ix as (b1 & <- & Ib1). apply in_map_iff in Ix'. destruct Ix' as (b2 & <- & Ib2).
      destruct (HS b1 Ib1) as (_ & _ & Q1 & _). destruct (HS b2 Ib2) as (_ & Q2 & _ & _). specialize (Q1 a Ia). specialize (Q2 b Ib).
      assert (kle (KUser (fst a)) (KUser (fst b))) as K by ord TO. exact K. }
  destruct (C07_full_merge_is_the_dictionary cfg (key_compare cfg) (fun _ => True) srcs) as (m & L & E & [A HL] & HDr).
  { split; [exact TO|]. split; [intros ? ? _ _; reflexivity|]. split; [exact SC|]. unfold srcs. rewrite map_length. lia. }
  { exact LM. }
  exists m, L. split; [exact E|]. split.
  - split; [exact A|]. intros k v. rewrite HL.
    assert (Em : map ahead srcs = map (filter (fun e => key_in cfg s lmax (fst e))) bs).
    { unfold srcs. rewrite map_map. apply map_ext_in. intros b Ib. apply HS. exact Ib. }
    rewrite Em, (key_messages_filter (key_in cfg s lmax)). destruct (key_in cfg s lmax k) eqn:Ek.
    + apply (key_in_iff M mp cfg hash TO LM Hmp M0) in Ek. destruct Ek as [K1 K2]. rewrite HD by (try ord TO; assumption). tauto.
    + cbn. split; [discriminate|]. intros [_ Q]. apply (key_in_iff M mp cfg hash TO LM Hmp M0) in Q. congruence.
  - intros c Hc. eexists. intros f Hf. exact (HDr c f Hc Hf).
Qed.

(** ** One step of a merge *)

Lemma yields_nil : forall m, yields m [] -> m_can_next m = false /\ merge_can_curr m = false.
Proof.
  intros m Y. assert (G : forall c, c = m_can_next \/ c = merge_can_curr -> c m = false).
  { intros c Hc. destruct (Y c Hc) as (N & H). destruct (H (S N) ltac:(lia)) as (m' & E & _). cbn [drain] in E. destruct (c m); [|reflexivity]. cbn [negb] in E.
    destruct (merge_next cfg m) as [m1|]; [|discriminate]. destruct (drain c (merge_next cfg) N m1) as [[l e]|]; discriminate. }
  split; apply G; auto.
Qed.
Lemma yields_cons : forall m k v L, yields m ((k, v) :: L) -> m_can_next m = true /\ merge_can_curr m = true /\ merge_curr m = (Some k, Some (Msg MInsert v)) /\
  exists m', merge_next cfg m = Some m' /\ yields m' L.
Proof.
  intros m k v L Y. assert (G : forall c, c = m_can_next \/ c = merge_can_curr -> c m = true /\ merge_curr m = (Some k, Some (Msg MInsert v)) /\
    exists m1, merge_next cfg m = Some m1 /\ exists N, forall f, N <= f -> exists m', drain c (merge_next cfg) f m1 = Some (seen (values L), m') /\ m_can_next m' = false).
  { intros c Hc. destruct (Y c Hc) as (N & H). pose proof (H (S N) ltac:(lia)) as (m' & E & _). cbn [drain] in E. destruct (c m) eqn:Ec; [|discriminate]. cbn [negb] in E.
    destruct (merge_next cfg m) as [m1|] eqn:En; [|discriminate]. destruct (drain c (merge_next cfg) N m1) as [[l e]|] eqn:Ed; [|discriminate].
    cbn [values map seen fst snd] in E. injection E as E1 E2 E3. split; [reflexivity|]. split; [unfold merge_curr; congruence|]. exists m1. split; [reflexivity|]. exists N. intros f Hf.
    destruct (H (S f) ltac:(lia)) as (m2 & F & F2). cbn [drain] in F. rewrite Ec, En in F. cbn [negb] in F. destruct (drain c (merge_next cfg) f m1) as [[l2 e2]|]; [|discriminate].
    cbn [values map seen fst snd] in F. injection F as F3 F4 F5 F6. exists e2. split; [f_equal; f_equal; exact F5 | congruence]. }
  destruct (G m_can_next (or_introl eq_refl)) as (A1 & A2 & m1 & A3 & A4). destruct (G merge_can_curr (or_intror eq_refl)) as (B1 & _ & m2 & B3 & B4).
  assert (m2 = m1) by congruence. subst m2. split; [exact A1|]. split; [exact B1|]. split; [exact A2|]. exists m1. split; [exact A3|]. intros c [->| ->]; assumption.
Qed.

(** ** Sorted listings *)

Lemma lists_ext : forall D D' (P P' : bytes -> Prop) L, (forall k, D k = D' k) -> (forall k, P k <-> P' k) -> lists cfg D P L -> lists cfg D' P' L.
Proof. intros D D' P P' L H HP [A B]. split; [exact A|]. intros k v. rewrite B, H, HP. reflexivity. Qed.
Lemma lists_nil : forall D (P : bytes -> Prop), (forall k, ~ P k) -> lists cfg D P [].
Proof. intros D P H. split; [constructor|]. intros k v. cbn. split; [contradiction|]. intros [_ Q]. exact (H k Q). Qed.
Lemma lists_app : forall D s m x L1 L2, kle s m -> kle m x ->
  lists cfg D (fun u => kle s (KUser u) /\ klt (KUser u) m) L1 -> lists cfg D (fun u => kle m (KUser u) /\ klt (KUser u) x) L2 ->
  lists cfg D (fun u => kle s (KUser u) /\ klt (KUser u) x) (L1 ++ L2).
Proof.
  intros D s m x L1 L2 H1 H2 [A1 B1] [A2 B2]. split.
  - assert (C : forall a b, In a L1 -> In b L2 -> klt (KUser (fst a)) (KUser (fst b))).
    { intros [k1 v1] [k2 v2] I1 I2. apply B1 in I1. apply B2 in I2. cbn [fst]. destruct I1 as (_ & _ & I1), I2 as (_ & I2 & _). ord TO. }
    clear B1. induction A1 as [|a l A1 IH F]; [exact A2|]. cbn [app]. constructor; [apply IH; intros; apply C; [right|]; assumption|].
    apply Forall_app. split; [exact F|]. rewrite Forall_forall. intros b Ib. exact (C a b (or_introl eq_refl) Ib).
  - intros k v. rewrite in_app_iff, B1, B2. destruct (kle_lt_dec cfg TO m (KUser k)) as [C|C].
    + split; [intros [(? & ? & ?)|(? & ? & ?)]; (split; [assumption|]; split; ord TO) | intros (? & ? & ?); right; auto].
    + split; [intros [(? & ? & ?)|(? & ? & ?)]; (split; [assumption|]; split; ord TO) | intros (? & ? & ?); left; auto].
Qed.
Lemma lists_unique : forall D P L L', lists cfg D P L -> lists cfg D P L' -> L = L'.
Proof.
  intros D P L L' [A B] [A' B']. assert (S : forall e, In e L <-> In e L') by (intros [k v]; rewrite B, B'; reflexivity). clear B B'.
  revert L' A' S. induction L as [|e L IH]; intros L' A' S.
  - destruct L' as [|e' L']; [reflexivity|]. exfalso. apply (S e'). left. reflexivity.
  - destruct L' as [|e' L']; [exfalso; apply (S e); left; reflexivity|]. apply StronglySorted_inv in A, A'. destruct A as [A F], A' as [A' F']. rewrite Forall_forall in F, F'.
    assert (N : forall x : bytes * bytes, ~ (key_compare cfg (fst x) (fst x) < 0)%Z) by (intros x Q; assert (klt (KUser (fst x)) (KUser (fst x))) by exact Q; ord TO).
    assert (Ee : e = e').
    { destruct (proj1 (S e) (or_introl eq_refl)) as [Q|Q]; [congruence|]. destruct (proj2 (S e') (or_introl eq_refl)) as [Q2|Q2]; [congruence|]. exfalso.
      specialize (F e' Q2). specialize (F' e Q). assert (klt (KUser (fst e)) (KUser (fst e'))) by exact F. assert (klt (KUser (fst e')) (KUser (fst e))) by exact F'. ord TO. }
    subst e'. f_equal. apply IH; [exact A | exact A' |]. intro x. split; intro Ix.
    + destruct (proj1 (S x) (or_intror Ix)) as [->|Q]; [elim (N x (F x Ix)) | exact Q].
    + destruct (proj2 (S x) (or_intror Ix)) as [->|Q]; [elim (N x (F' x Ix)) | exact Q].
Qed.

(** ** A range iterator with [L] ahead *)

Definition shows (D : bytes -> option bytes) (r : rit) (L : list (bytes * bytes)) : Prop :=
  exists L1 L2, L = L1 ++ L2 /\ yields (r_merge r) L1 /\
    lists cfg D (fun u => kle (r_lmax r) (KUser u) /\ klt (KUser u) (r_max r)) L2 /\
    (L1 = [] -> r_can_next r = false /\ L2 = []) /\ (L1 <> [] -> r_can_next r = true /\ r_can_prev r = true) /\
    kle (r_min r) (r_lmax r) /\ kle (r_lmax r) (r_max r).

Definition later (k : key) (l : list (key * key)) : nat := length (filter (fun e => (data_key_compare cfg k (snd e) <? 0)%Z) l).
Lemma later_lt : forall l k k' a, klt k k' -> In (a, k') l -> later k' l < later k l.
Proof.
  intros l k k' a Hk. unfold later. assert (G : forall l : list (key * key), length (filter (fun e => (data_key_compare cfg k' (snd e) <? 0)%Z) l) <= length (filter (fun e => (data_key_compare cfg k (snd e) <? 0)%Z) l)).
  { clear l. intro l. induction l as [|e l IH]; [cbn; lia|]. cbn [filter]. destruct (lt_spec k' (snd e)) as [C|C], (lt_spec k (snd e)) as [C2|C2]; cbn [length]; try lia. exfalso. ord TO. }
  induction l as [|e l IH]; intros I; [contradiction|]. cbn [filter]. destruct I as [->|I].
  - cbn [snd]. destruct (lt_spec k' k') as [C|C]; [exfalso; ord TO|]. destruct (lt_spec k k') as [C2|C2]; [|exfalso; ord TO]. cbn [length]. specialize (G l). lia.
  - specialize (IH I). destruct (lt_spec k' (snd e)) as [C|C], (lt_spec k (snd e)) as [C2|C2]; cbn [length]; try lia. exfalso. ord TO.
Qed.

Lemma init_ok : forall st mx, inv st -> fits M cfg st -> forall fuel mn s, kle mn s -> klt s mx ->
  later s (leaf_ranges (height_of st) (st_tree st)) < fuel ->
  exists r L, range_init_from M cfg fuel st mn mx s GreaterThanOrEqual = Some r /\ r_min r = mn /\ r_max r = mx /\
    lists cfg (content st) (fun u => kle s (KUser u) /\ klt (KUser u) mx) L /\ shows (content st) r L.
Proof.
  intros st mx Hi Hf. induction fuel as [|fuel IH]; intros mn s H1 H2 Lf; [lia|]. cbn [range_init_from].
  destruct (gt_spec mn s) as [C|_]; [exfalso; ord TO|]. destruct (le_spec mx s) as [C|_]; [exfalso; ord TO|].
  assert (Hs : klt s KPosInf) by (pose proof (kle_pos_inf cfg mx); ord TO).
  assert (Ns : s <> KPosInf) by (intros ->; revert Hs; unfold TrunkKeys.klt; cbn; lia).
  destruct (collect_ok (height_of st) (st_tree st) KNegInf KPosInf s (st_mts st) (i_wf _ _ _ _ _ Hi) (kle_neg_inf cfg s) Hs (Hf s Ns))
    as (bs & n & Ec & Lb & _ & K2 & K3 & K4 & K5 & K6). rewrite Ec.
  set (lmin := if (0 <? data_key_compare cfg (min_key n) mn)%Z then min_key n else mn). set (lmax := if (data_key_compare cfg (max_key n) mx <? 0)%Z then max_key n else mx).
  assert (Hmin : kle lmin s /\ kle (min_key n) lmin /\ kle mn lmin) by (subst lmin; destruct (gt_spec (min_key n) mn); repeat split; ord TO).
  assert (Hmax : klt s lmax /\ kle lmax (max_key n) /\ kle lmax mx /\ (klt lmax mx -> lmax = max_key n)).
  { subst lmax; destruct (lt_spec (max_key n) mx); repeat split; try (intros; reflexivity); try ord TO. intro. exfalso. ord TO. }
  clearbody lmin lmax. destruct Hmin as (A1 & A2 & A3), Hmax as (B1 & B2 & B3 & B4).
  destruct (merge_leaf (rev (st_mts st ++ bs)) (content st) lmin lmax s A1 B1) as (m & L1 & Em & HL1 & Y).
  { rewrite rev_length, app_length, Lb. exact (Hf s Ns). }
  { intros u b Q1 Q2 Ib. apply (leaf_branch_ok st bs n u b Hi); try assumption; ord TO. }
  { intros u Q1 Q2. apply (leaf_messages st bs n u); try assumption; ord TO. }
  rewrite Em.
  assert (HL2 : exists r L2, lists cfg (content st) (fun u => kle lmax (KUser u) /\ klt (KUser u) mx) L2 /\
            (klt lmax mx -> range_init_from M cfg fuel st mn mx lmax GreaterThanOrEqual = Some r /\ r_min r = mn /\ r_max r = mx /\ shows (content st) r L2)).
  { destruct (kle_lt_dec cfg TO mx lmax) as [C|C].
    - exists (RIt mn mx lmin lmax m true true), []. split; [|intro; exfalso; ord TO]. apply lists_nil. intros k [Q1 Q2]. ord TO.
    - destruct (IH mn lmax) as (r & L2 & Q1 & Q2 & Q3 & Q4 & Q5); [ord TO | exact C | | exists r, L2; auto].
      pose proof (later_lt (leaf_ranges (height_of st) (st_tree st)) s lmax (min_key n) B1) as Q. rewrite <- (B4 C) in K5. specialize (Q K5). lia. }
  destruct HL2 as (r2 & L2 & HL2 & R2).
  assert (HL : lists cfg (content st) (fun u => kle s (KUser u) /\ klt (KUser u) mx) (L1 ++ L2)) by (apply (lists_app _ s lmax mx); auto; ord TO).
  destruct L1 as [|[k v] L1].
  - destruct (yields_nil m Y) as [Y1 Y2]. rewrite Y2. destruct (lt_spec lmax mx) as [C|C].
    + destruct (R2 C) as (Q1 & Q2 & Q3 & Q4). exists r2, L2. auto.
    + assert (L2 = []) as ->.
      { destruct L2 as [|[k v] L2]; [reflexivity|]. exfalso. destruct HL2 as [_ HL2]. destruct (proj1 (HL2 k v) (or_introl eq_refl)) as (_ & Q1 & Q2). ord TO. }
      exists (RIt mn mx lmin lmax m (m_can_prev m) false), []. cbn [r_min r_max]. split; [reflexivity|]. split; [reflexivity|]. split; [reflexivity|]. split; [exact HL|].
      exists [], []. cbn [r_min r_max r_lmax r_merge r_can_next r_can_prev]. split; [reflexivity|]. split; [exact Y|]. split; [exact HL2|]. split; [auto|]. split; [congruence|]. split; ord TO.
  - destruct (yields_cons m k v L1 Y) as (Y1 & Y2 & _). rewrite Y2. exists (RIt mn mx lmin lmax m true true), (((k, v) :: L1) ++ L2). cbn [r_min r_max].
    split; [reflexivity|]. split; [reflexivity|]. split; [reflexivity|]. split; [exact HL|].
    exists ((k, v) :: L1), L2. cbn [r_min r_max r_lmax r_merge r_can_next r_can_prev]. split; [reflexivity|]. split; [exact Y|]. split; [exact HL2|]. split; [discriminate|]. split; [auto|]. split; ord TO.
Qed.

Lemma range_init_ok : forall st mn mx s, inv st -> fits M cfg st -> kle mn s -> klt s mx ->
  exists r L, range_init M cfg st mn mx s GreaterThanOrEqual = Some r /\ r_min r = mn /\ r_max r = mx /\
    lists cfg (content st) (fun u => kle s (KUser u) /\ klt (KUser u) mx) L /\ shows (content st) r L.
Proof.
  intros st mn mx s Hi Hf H1 H2. unfold range_init. apply init_ok; auto. unfold later. pose proof (filter_length_le' (fun e : key * key => (data_key_compare cfg s (snd e) <? 0)%Z) (leaf_ranges (height_of st) (st_tree st))). lia.
Qed.

Lemma shows_nil : forall D r, shows D r [] -> r_can_next r = false.
Proof. intros D r (L1 & L2 & E & _ & _ & H & _). symmetry in E. apply app_eq_nil in E. destruct E as [E _]. apply H. exact E. Qed.
Lemma shows_cons : forall D r k v L, shows D r ((k, v) :: L) -> r_can_next r = true /\ r_can_prev r = true /\ range_curr r = (Some k, Some (Msg MInsert v)) /\
  forall st, inv st -> fits M cfg st -> (forall u, content st u = D u) ->
  exists r', range_next M cfg st r = Some r' /\ r_min r' = r_min r /\ r_max r' = r_max r /\ shows D r' L.
Proof.
  intros D r k v L (L1 & L2 & E & Y & H2 & N1 & N2 & B1 & B2). destruct L1 as [|e L1]; [exfalso; destruct (N1 eq_refl) as [_ ->]; discriminate|].
  cbn [app] in E. injection E as <- EL. destruct (N2 ltac:(discriminate)) as [C1 C2]. destruct (yields_cons _ _ _ _ Y) as (_ & _ & Y3 & m' & Y4 & Y5).
  split; [exact C1|]. split; [exact C2|]. split; [exact Y3|]. intros st Hi Hf HD. unfold range_next. rewrite C1, Y4. cbn [negb].
  destruct L1 as [|[k1 v1] L1].
  - destruct (yields_nil _ Y5) as [Z1 Z2]. rewrite Z1. cbn [negb andb]. cbn [app] in EL. subst L2. destruct (lt_spec (r_lmax r) (r_max r)) as [C|C].
    + destruct (range_init_ok st (r_min r) (r_max r) (r_lmax r) Hi Hf B1 C) as (r' & L' & Q1 & Q2 & Q3 & Q4 & Q5). exists r'. split; [exact Q1|]. split; [exact Q2|]. split; [exact Q3|].
      assert (L' = L). { eapply lists_unique; [|exact H2]. exact (lists_ext _ _ _ _ _ HD (fun _ => iff_refl _) Q4). } subst L'.
      destruct Q5 as (L1' & L2' & G1 & G2 & G3 & G4). exists L1', L2'. split; [exact G1|]. split; [exact G2|]. split; [exact (lists_ext _ _ _ _ _ HD (fun _ => iff_refl _) G3) | exact G4].
    + eexists. split; [reflexivity|]. cbn [r_min r_max]. split; [reflexivity|]. split; [reflexivity|].
      assert (L = []) as ->.
      { destruct L as [|[k2 v2] L]; [reflexivity|]. exfalso. destruct H2 as [_ H2]. destruct (proj1 (H2 k2 v2) (or_introl eq_refl)) as (_ & Q1 & Q2). ord TO. }
      exists [], []. cbn [r_min r_max r_lmax r_merge r_can_next r_can_prev]. split; [reflexivity|]. split; [exact Y5|]. split; [exact H2|]. split; [auto|]. split; [congruence|]. split; assumption.
  - destruct (yields_cons _ _ _ _ Y5) as (Z1 & _). rewrite Z1. cbn [negb andb]. eexists. split; [reflexivity|]. cbn [r_min r_max]. split; [reflexivity|]. split; [reflexivity|].
    exists ((k1, v1) :: L1), L2. cbn [r_min r_max r_lmax r_merge r_can_next r_can_prev]. split; [congruence|]. split; [exact Y5|]. split; [exact H2|]. split; [discriminate|]. split; [auto|]. split; assumption.
Qed.

(** ** The loops *)

Lemma nexts_ok : forall D sts r L, shows D r L -> length sts <= length L ->
  Forall (fun st => inv st /\ fits M cfg st /\ forall u, content st u = D u) sts ->
  exists r', iter_nexts M cfg sts r = Some r' /\ shows D r' (skipn (length sts) L).
Proof.
  intros D sts. induction sts as [|st sts IH]; intros r L HS Ll F; [exists r; auto|]. inversion F as [|? ? (Hi & Hf & HD) F']; subst. destruct L as [|[k v] L]; [cbn in Ll; lia|].
  cbn [iter_nexts]. unfold iter_next. destruct (shows_cons D r k v L HS) as (_ & _ & _ & Hn). destruct (Hn st Hi Hf HD) as (r1 & E & _ & _ & S1). rewrite E. cbn [length skipn] in *. apply IH; auto. lia.
Qed.
Lemma loop_ok : forall D sts n i r L, shows D r L -> (forall j, inv (sts j) /\ fits M cfg (sts j) /\ forall u, content (sts j) u = D u) ->
  range_loop M cfg n sts i r = Some (seen (values (firstn n L))).
Proof.
  intros D sts n. induction n as [|n IH]; intros i r L HS F; [reflexivity|]. cbn [range_loop]. destruct L as [|[k v] L].
  - rewrite (shows_nil D r HS). reflexivity.
  - destruct (shows_cons D r k v L HS) as (C1 & _ & C3 & Hn). rewrite C1. cbn [negb]. destruct (F i) as (Hi & Hf & HD). destruct (Hn _ Hi Hf HD) as (r1 & E & _ & _ & S1). rewrite E, (IH (S i) r1 L S1 F), C3. reflexivity.
Qed.

End Range.
