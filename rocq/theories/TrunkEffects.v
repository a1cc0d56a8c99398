(** * What the operations on a node do to the views of the keys *)

From Coq Require Import List Arith NArith ZArith Lia Bool Sorted.
From Verif Require Import Base Spec Spec_Merge Search.
From Verif Require Import TrunkNode TrunkRing TrunkRep TrunkOps TrunkReset TrunkFlush TrunkClear TrunkReplace TrunkSplit.
From Verif Require Import TrunkAlpha TrunkKeys TrunkView TrunkTree TrunkShape.
Import ListNotations.

(** The bundle with number [bno], if it is live *)
Definition vbundle (bno : nat) (v : view) : option (list asub) :=
  nth_error (v_bns v) (csub MAX_BUNDLES bno (v_bno v)).

Definition v_with (v : view) bno whole bns f : view :=
  VW (v_id v) (v_nlo v) (v_nhi v) (v_pgen v) (v_lo v) (v_hi v) (v_gen v) bno whole bns f.
Definition v_end (v : view) : nat := cadd MAX_BUNDLES (v_bno v) (length (v_bns v)).
Definition v_push (l : list asub) (v : view) : view := v_with v (v_bno v) (v_whole v) (v_bns v ++ [l]) (v_filt v).
Definition v_clear (v : view) : view := v_with v (v_end v) [] [] [].

Lemma csub_wrap : forall m s i j, s < m -> i < j -> j < m -> csub m (cadd m s i) (cadd m s j) = i + m - j.
Proof.
  intros m s i j Hs Hij Hj. Transparent csub cadd. unfold csub, cadd. Opaque csub cadd.
  assert (Hm : m <> 0) by lia.
  pose proof (Nat.div_mod (s + i) m Hm) as D1. pose proof (Nat.div_mod (s + j) m Hm) as D2.
  pose proof (Nat.mod_upper_bound (s + i) m Hm) as U1. pose proof (Nat.mod_upper_bound (s + j) m Hm) as U2.
  assert (Hx : (s + i) / m <= 1) by (apply Nat.lt_succ_r; apply Nat.div_lt_upper_bound; lia).
  assert (Hy : (s + j) / m <= 1) by (apply Nat.lt_succ_r; apply Nat.div_lt_upper_bound; lia).
  set (x := (s + i) mod m) in *. set (y := (s + j) mod m) in *.
  set (dx := (s + i) / m) in *. set (dy := (s + j) / m) in *. clearbody x y dx dy.
  destruct dx as [|[|]], dy as [|[|]]; try lia.
  - rewrite Nat.mod_small; lia.
  - replace (x + m - y) with (i + m - j + 1 * m) by lia. rewrite Nat.mod_add by lia. apply Nat.mod_small. lia.
  - rewrite Nat.mod_small; lia.
Qed.

Section Effects.
Variables (M mp : nat) (cfg : data_config).
Hypothesis TO : total_order (key_compare cfg).
Local Notation klt := (klt cfg).
Local Notation kle := (kle cfg).
Local Notation nwf := (nwf M mp cfg).
Local Notation nview := (nview M cfg).

Lemma akeys_len : forall A A', akeys A' = akeys A -> length (an_piv A') = length (an_piv A).
Proof. intros A A' H. apply (f_equal (@length _)) in H. rewrite !akeys_length in H. lia. Qed.
Lemma akeys_ends : forall A A', akeys A' = akeys A -> an_lo A' = an_lo A /\ an_hi A' = an_hi A /\ map ap_key (an_piv A') = map ap_key (an_piv A).
Proof.
  intros A A' H. split; [rewrite !an_lo_eq, H; reflexivity|]. unfold akeys in H. apply app_inj_tail in H. destruct H. auto.
Qed.

Lemma nview_step : forall ht n A n' A' k, nwf ht n A -> nwf ht n' A' -> akeys A' = akeys A -> kle (an_lo A) k -> klt k (an_hi A) ->
  exists i p p' b, route cfg n k = Some i /\ nth_error (an_piv A) i = Some p /\ nth_error (an_piv A') i = Some p' /\
    nth_error (pairs (akeys A)) i = Some (ap_key p, b) /\ kle (ap_key p) k /\ klt k b /\
    nview n k = Some (view_of n A p b) /\ nview n' k = Some (view_of n' A' p' b) /\ In p (an_piv A) /\ In p' (an_piv A').
Proof.
  intros ht n A n' A' k W W' E Hl Hh.
  destruct (nview_at M mp cfg TO ht n A k W Hl Hh) as (i & p & b & Er & Ep & Ei & Ev & H1 & H2).
  pose proof Ei as Ei'. rewrite <- E in Ei'.
  destruct (aviews_at n' A' i _ b Ei') as (p' & Ep' & Ek & _). rewrite <- Ek in *.
  assert (Ev' : nview n' k = Some (view_of n' A' p' b)) by (apply (nview_char M mp cfg TO ht n' A' k i p' b W'); auto).
  exists i, p, p', b. rewrite <- Ek. repeat split; auto; eapply nth_error_In; eauto.
Qed.

Lemma piv_off_ok : forall ht n A p, nwf ht n A -> In p (an_piv A) -> off_ok A (ap_off p) (ap_boff p).
Proof. intros ht n A p W I. pose proof (ok_piv _ _ (w_aok _ _ _ _ _ _ W)) as F. rewrite Forall_forall in F. auto. Qed.

(** ** Adding a bundle *)

Lemma nwf_add : forall ht n A n' l, nwf ht n A -> rep M n' (add_bundle A l) -> aok M (add_bundle A l) ->
  n_height n' = n_height n -> n_pgen n' = n_pgen n -> nwf ht n' (add_bundle A l).
Proof.
  intros ht n A n' l W R K Eh Eg. constructor; auto; try apply W; cbn [an_piv add_bundle]; try apply W.
  - rewrite Eh. apply W.
  - rewrite Eg. apply W.
Qed.
Lemma add_effect : forall ht n A n' l k, nwf ht n A -> nwf ht n' (add_bundle A l) ->
  n_id n' = n_id n -> n_pgen n' = n_pgen n -> n_sbn n' = n_sbn n -> kle (an_lo A) k -> klt k (an_hi A) ->
  exists v, nview n k = Some v /\ nview n' k = Some (v_push l v) /\ v_end v = n_ebn n.
Proof.
  intros ht n A n' l k W W' E1 E2 E3 Hl Hh.
  destruct (nview_step ht n A n' (add_bundle A l) k W W' eq_refl Hl Hh) as (i & p & p' & b & _ & Ep & Ep' & _ & _ & _ & Ev & Ev' & Ip & _).
  cbn [add_bundle an_piv] in Ep'. assert (p' = p) by congruence. subst p'.
  exists (view_of n A p b). split; [exact Ev|]. pose proof (off_ok_le _ _ _ (piv_off_ok _ _ _ _ W Ip)) as [L1 L2]. split.
  - rewrite Ev'. f_equal. unfold view_of, v_push, v_with. cbn [v_id v_nlo v_nhi v_pgen v_lo v_hi v_gen v_bno v_whole v_bns v_filt].
    rewrite E1, E2, E3. cbn [add_bundle an_whole an_bns an_hi]. rewrite (skipn_app_l' _ _ [l]) by lia. reflexivity.
  - unfold v_end. cbn [view_of v_bno v_bns]. pose proof (w_rep _ _ _ _ _ _ W) as R. rewrite (r_ebn _ _ _ R), skipn_length.
    rewrite cadd_cadd by auto. f_equal. lia.
Qed.

(** ** Dropping what no pivot needs *)

Lemma akeys_drop : forall m d A, akeys (drop m d A) = akeys A.
Proof. intros. unfold akeys, drop. cbn [an_piv an_hi]. rewrite map_map. reflexivity. Qed.
Lemma gens_drop : forall m d A, map ap_gen (an_piv (drop m d A)) = map ap_gen (an_piv A).
Proof. intros. cbn [drop an_piv]. rewrite map_map. reflexivity. Qed.

Lemma skipn_skipn_sub : forall {A} m o (l : list A), m <= o -> skipn (o - m) (skipn m l) = skipn o l.
Proof.
  intros A m. induction m as [|m IH]; intros o l H; [rewrite Nat.sub_0_r; reflexivity|].
  destruct o as [|o]; [lia|]. destruct l as [|x l]; [rewrite !skipn_nil; reflexivity|]. cbn [skipn]. apply IH. lia.
Qed.

(** The views are the same if the node differs from one with the same contents by
    a drop only *)
Lemma drop_view : forall n n' A m d p b, n_id n' = n_id n -> n_pgen n' = n_pgen n -> n_sbn n' = cadd MAX_BUNDLES (n_sbn n) d ->
  m <= ap_off p -> d <= ap_boff p ->
  view_of n' (drop m d A) (AP (ap_key p) (ap_gen p) (ap_off p - m) (ap_boff p - d) (ap_filt p)) b = view_of n A p b.
Proof.
  intros n n' A m d p b E1 E2 E3 Hm Hd. unfold view_of. cbn [ap_key ap_gen ap_off ap_boff ap_filt drop an_whole an_bns an_hi].
  rewrite E1, E2, E3, !skipn_skipn_sub, cadd_cadd by auto. f_equal.
  - destruct A as [? ? [|x r] ?]; reflexivity.
  - f_equal. lia.
Qed.

(** ** Clearing a pivot *)

Lemma akeys_with_piv : forall A i a a', nth_error (an_piv A) i = Some a -> ap_key a' = ap_key a -> akeys (with_piv A i a') = akeys A.
Proof.
  intros A i a a' E K. unfold akeys, with_piv. cbn [an_piv an_hi]. f_equal. unfold set_nth.
  rewrite map_app. cbn [map]. rewrite K. rewrite <- (map_cons ap_key), <- map_app. f_equal.
  exact (set_nth_nth i a _ E).
Qed.
Lemma gens_with_piv : forall A i a a', nth_error (an_piv A) i = Some a -> ap_gen a' = ap_gen a ->
  map ap_gen (an_piv (with_piv A i a')) = map ap_gen (an_piv A).
Proof.
  intros A i a a' E K. unfold with_piv. cbn [an_piv]. unfold set_nth.
  rewrite map_app. cbn [map]. rewrite K. rewrite <- (map_cons ap_gen), <- map_app. f_equal. exact (set_nth_nth i a _ E).
Qed.

Lemma dropped_shape : forall A A', dropped A A' -> akeys A' = akeys A /\ map ap_gen (an_piv A') = map ap_gen (an_piv A).
Proof. intros A A' (m & d & _ & _ & ->). split; [apply akeys_drop | apply gens_drop]. Qed.

Lemma gens_lt_map : forall (l : list apiv) g, Forall (fun a => ap_gen a < g) l <-> Forall (fun x => x < g) (map ap_gen l).
Proof. intros. rewrite Forall_map. reflexivity. Qed.

Lemma nwf_dropped : forall ht n A B n' A', nwf ht n A -> dropped B A' -> akeys B = akeys A -> map ap_gen (an_piv B) = map ap_gen (an_piv A) ->
  rep M n' A' -> aok M A' -> n_height n' = n_height n -> n_pgen n' = n_pgen n -> ht <> 0 -> nwf ht n' A'.
Proof.
  intros ht n A B n' A' W D E1 E2 R K Eh Eg Hz. destruct (dropped_shape _ _ D) as [D1 D2].
  constructor; auto.
  - rewrite Eh. apply W.
  - rewrite D1, E1. apply W.
  - rewrite D2, E2. apply W.
  - rewrite gens_lt_map, D2, E2, Eg, <- gens_lt_map. apply W.
  - pose proof (akeys_len _ _ (eq_trans D1 E1)) as L. rewrite L. apply W.
  - contradiction.
Qed.

Lemma clear_effect : forall ht n A i a p, nwf ht n A -> ht <> 0 ->
  nth_error (an_piv A) i = Some a -> get_pivot n i = Some p -> piv_rep M n p a ->
  exists A', let n' := pivot_clear M n i p in
    nwf ht n' A' /\ akeys A' = akeys A /\
    forall k, kle (an_lo A) k -> klt k (an_hi A) -> exists v, nview n k = Some v /\
      nview n' k = Some (match route cfg n k with Some j => if j =? i then v_clear v else v | None => v end).
Proof.
  intros ht n A i a p W Hz Ea Ep Hp.
  destruct (pivot_clear_rep M n A i a p (w_rep _ _ _ _ _ _ W) (w_aok _ _ _ _ _ _ W) Ea Ep Hp) as (A' & D & R & K & E1 & E2 & E3 & E4 & d0 & E5 & E6 & E7).
  pose proof (akeys_with_piv A i a (cleared A a) Ea eq_refl) as B1. pose proof (gens_with_piv A i a (cleared A a) Ea eq_refl) as B2.
  exists A'. cbv zeta. assert (W' : nwf ht (pivot_clear M n i p) A') by (eapply nwf_dropped; eauto).
  split; [exact W'|]. destruct (dropped_shape _ _ D) as [D1 D2]. split; [congruence|].
  intros k Hl Hh.
  destruct (nview_step ht n A _ A' k W W' ltac:(congruence) Hl Hh) as (j & q & q' & b & Er & Eq & Eq' & Ei & H1 & H2 & Ev & Ev' & Iq & Iq').
  exists (view_of n A q b). split; [exact Ev|]. rewrite Ev', Er. f_equal.
  destruct D as (m & d & Om & Fm & ->). cbn [with_piv an_bns] in *.
  assert (Li : i < length (an_piv A)) by (apply nth_error_Some; congruence).
  assert (d = d0).
  { apply off_ok_le in Om. cbn [with_piv an_bns] in Om. cbn [drop an_bns with_piv] in E6. rewrite skipn_length in E6. lia. } subst d0.
  cbn [drop an_piv with_piv] in Eq'. rewrite nth_error_map in Eq'.
  pose proof (off_ok_le _ _ _ (piv_off_ok _ _ _ _ W Iq)) as [L1 L2].
  destruct (Nat.eqb_spec j i) as [->|Z].
  - unfold set_nth in Eq'. rewrite nth_error_app2 in Eq' by (rewrite firstn_length_le; lia).
    rewrite firstn_length_le, Nat.sub_diag in Eq' by lia. cbn [nth_error option_map] in Eq'. injection Eq' as <-.
    assert (q = a) by congruence. subst q.
    rewrite Forall_forall in Fm.
    assert (Fc : m <= length (brs A) /\ d <= length (an_bns A)).
    { apply (Fm (cleared A a)). apply in_or_app. right. left. reflexivity. }
    change (AN (an_whole A) (an_bns A) (set_nth i (cleared A a) (an_piv A)) (an_hi A)) with (with_piv A i (cleared A a)) in *.
    rewrite (drop_view n _ (with_piv A i (cleared A a)) m d (cleared A a) b); auto; try tauto.
    unfold view_of, v_clear, v_with, v_end. cbn [v_id v_nlo v_nhi v_pgen v_lo v_hi v_gen v_bno v_whole v_bns v_filt].
    cbn [cleared ap_key ap_gen ap_off ap_boff ap_filt with_piv an_whole an_bns an_hi].
    rewrite !(skipn_all2 (n := length (an_bns A))), (skipn_all2 (n := length (brs A))) by (rewrite ?brs_len; lia).
    rewrite skipn_length, cadd_cadd by auto. rewrite !an_lo_eq. fold (with_piv A i (cleared A a)).
    change (AN (an_whole A) (an_bns A) (set_nth i (cleared A a) (an_piv A)) (an_hi A)) with (with_piv A i (cleared A a)).
    rewrite B1. f_equal. f_equal. lia.
  - assert (Eqj : nth_error (set_nth i (cleared A a) (an_piv A)) j = Some q).
    { unfold set_nth. destruct (lt_dec j i) as [Q|Q].
      - rewrite nth_error_app1 by (rewrite firstn_length_le; lia). rewrite <- Eq. rewrite <- (firstn_skipn i (an_piv A)) at 2.
        rewrite nth_error_app1 by (rewrite firstn_length_le; lia). reflexivity.
      - rewrite nth_error_app2 by (rewrite firstn_length_le; lia). rewrite firstn_length_le by lia.
        destruct (j - i) as [|z] eqn:Zj; [lia|]. cbn [nth_error]. rewrite nth_error_skipn, <- Eq. f_equal. lia. }
    rewrite Eqj in Eq'. cbn [option_map] in Eq'. injection Eq' as <-.
    rewrite Forall_forall in Fm. destruct (Fm q (nth_error_In _ _ Eqj)) as [Fc1 Fc2].
    change (AN (an_whole A) (an_bns A) (set_nth i (cleared A a) (an_piv A)) (an_hi A)) with (with_piv A i (cleared A a)) in *.
    rewrite (drop_view n _ (with_piv A i (cleared A a)) m d q b); auto.
    unfold view_of. cbn [with_piv an_whole an_bns an_hi]. f_equal. rewrite !an_lo_eq.
    change (AN (an_whole A) (an_bns A) (set_nth i (cleared A a) (an_piv A)) (an_hi A)) with (with_piv A i (cleared A a)).
    rewrite B1. reflexivity.
Qed.

(** ** Replacing a bundle *)

Definition v_set (j : nat) (x : list asub) (v : view) : view :=
  v_with v (v_bno v) (v_whole v) (set_nth j x (v_bns v)) (v_filt v).

Lemma akeys_map : forall A f whole bns, (forall p, ap_key (f p) = ap_key p) -> akeys (AN whole bns (map f (an_piv A)) (an_hi A)) = akeys A.
Proof. intros A f whole bns H. unfold akeys. cbn [an_piv an_hi]. f_equal. rewrite map_map. apply map_ext. exact H. Qed.
Lemma gens_map : forall (l : list apiv) f, (forall p, ap_gen (f p) = ap_gen p) -> map ap_gen (map f l) = map ap_gen l.
Proof. intros l f H. rewrite map_map. apply map_ext. exact H. Qed.

Lemma nwf_map : forall ht n A f whole bns n', nwf ht n A -> (forall p, ap_key (f p) = ap_key p) -> (forall p, ap_gen (f p) = ap_gen p) ->
  (forall p, ap_off p = 0 -> ap_boff p = 0 -> ap_off (f p) = 0 /\ ap_boff (f p) = 0) ->
  let A' := AN whole bns (map f (an_piv A)) (an_hi A) in
  rep M n' A' -> aok M A' -> n_height n' = n_height n -> n_pgen n' = n_pgen n -> nwf ht n' A'.
Proof.
  intros ht n A f whole bns n' W F1 F2 F3 A' R K Eh Eg.
  constructor; auto; unfold A'; cbn [an_piv].
  - rewrite Eh. apply W.
  - rewrite akeys_map by exact F1. apply W.
  - rewrite gens_map by exact F2. apply W.
  - rewrite gens_lt_map, gens_map, <- gens_lt_map, Eg by exact F2. apply W.
  - rewrite map_length. apply W.
  - intro Z. destruct (w_leaf _ _ _ _ _ _ W Z) as (a & -> & O1 & O2). destruct (F3 a O1 O2). exists (f a). auto.
Qed.

Lemma skipn_set : forall {A} o (x y : list A) z w, o <= length x ->
  skipn o (x ++ w :: y) = set_nth (length x - o) w (skipn o (x ++ z :: y)).
Proof.
  intros A o x y z w H. rewrite !(skipn_app_l' o x) by exact H. unfold set_nth.
  assert (L : length (skipn o x) = length x - o) by (rewrite skipn_length; reflexivity). rewrite <- L.
  rewrite firstn_app_exact. f_equal. f_equal. rewrite skipn_app. rewrite skipn_all2 by lia.
  replace (S (length (skipn o x)) - length (skipn o x)) with 1 by lia. reflexivity.
Qed.

Lemma replace_effect : forall ht n A X b Y q br n' q', nwf ht n A -> an_bns A = X ++ b :: Y ->
  rq_bno q = cadd MAX_BUNDLES (n_sbn n) (length X) -> replace_bundle_branches M cfg n (Some br) q = Some (n', q') ->
  record_counts cfg n (rq_bno q) (Some br) (n_piv n) q = Some q' /\
  exists A', nwf ht n' A' /\ akeys A' = akeys A /\
    forall k, kle (an_lo A) k -> klt k (an_hi A) -> exists v, nview n k = Some v /\
      match vbundle (rq_bno q) v with
      | Some b' => b' = b /\ nview n' k = Some (v_set (csub MAX_BUNDLES (rq_bno q) (v_bno v)) [AS true [br] (fls_of b)] v)
      | None => nview n' k = Some v
      end.
Proof.
  intros ht n A X b Y q br n' q' W EA Eb Er.
  pose proof (replace_rep M cfg n A X b Y q br (w_rep _ _ _ _ _ _ W) (w_aok _ _ _ _ _ _ W) EA Eb) as P. rewrite Er in P.
  destruct P as (Ec & R & K & E1 & E2 & E3 & E4 & E5). split; [exact Ec|].
  exists (replaced A X b Y br).
  assert (W' : nwf ht n' (replaced A X b Y br)).
  { unfold replaced. apply (nwf_map ht n A); auto; intros p; destruct (Nat.leb_spec (ap_boff p) (length X)); cbn; auto; lia. }
  assert (Ek : akeys (replaced A X b Y br) = akeys A).
  { unfold replaced. apply akeys_map. intro p. destruct (ap_boff p <=? length X); reflexivity. }
  split; [exact W'|]. split; [exact Ek|]. intros k Hl Hh.
  destruct (nview_step ht n A n' _ k W W' Ek Hl Hh) as (i & p & p' & hi & _ & Ep & Ep' & _ & _ & _ & Ev & Ev' & Ip & _).
  exists (view_of n A p hi). split; [exact Ev|]. rewrite Ev'.
  unfold replaced in Ep'. cbn [an_piv] in Ep'. rewrite nth_error_map, Ep in Ep'. cbn [option_map] in Ep'. injection Ep' as <-.
  pose proof (piv_off_ok _ _ _ _ W Ip) as Op. pose proof (off_ok_le _ _ _ Op) as [L1 L2].
  pose proof (bounds _ _ _ _ _ (w_aok _ _ _ _ _ _ W) EA) as (_ & _ & _ & Bb).
  pose proof (r_sbn _ _ _ (w_rep _ _ _ _ _ _ W)) as Sb.
  assert (Elo : an_lo (replaced A X b Y br) = an_lo A) by (rewrite !an_lo_eq, Ek; reflexivity).
  unfold vbundle. cbn [view_of v_bns v_bno]. rewrite Eb.
  destruct (Nat.leb_spec (ap_boff p) (length X)) as [Q|Q].
  - assert (Ej : csub MAX_BUNDLES (cadd MAX_BUNDLES (n_sbn n) (length X)) (cadd MAX_BUNDLES (n_sbn n) (ap_boff p)) = length X - ap_boff p).
    { rewrite csub_cadd by (auto; lia). reflexivity. }
    rewrite Ej, EA. rewrite (skipn_app_l' _ X) by exact Q.
    rewrite nth_error_app2 by (rewrite skipn_length; lia). rewrite skipn_length, Nat.sub_diag. cbn [nth_error].
    split; [reflexivity|]. f_equal. unfold view_of, v_set, v_with. cbn [v_id v_nlo v_nhi v_pgen v_lo v_hi v_gen v_bno v_whole v_bns v_filt].
    rewrite E1, E3, E4, Elo, EA. unfold replaced. cbn [an_whole an_bns an_hi]. f_equal. apply skipn_set. exact Q.
  - destruct (nth_error (skipn (ap_boff p) (an_bns A)) _) as [z|] eqn:En.
    + exfalso. assert (csub MAX_BUNDLES (cadd MAX_BUNDLES (n_sbn n) (length X)) (cadd MAX_BUNDLES (n_sbn n) (ap_boff p)) < length (skipn (ap_boff p) (an_bns A)))
        by (apply nth_error_Some; congruence).
      rewrite skipn_length in H.
      assert (Ez : csub MAX_BUNDLES (cadd MAX_BUNDLES (n_sbn n) (length X)) (cadd MAX_BUNDLES (n_sbn n) (ap_boff p)) = length X + MAX_BUNDLES - ap_boff p).
      { pose proof (ok_bns _ _ (w_aok _ _ _ _ _ _ W)). apply csub_wrap; auto; lia. }
      pose proof (ok_bns _ _ (w_aok _ _ _ _ _ _ W)). lia.
    + f_equal. unfold view_of. cbn [ap_key ap_gen ap_off ap_boff ap_filt]. rewrite E1, E3, E4, Elo.
      unfold replaced. cbn [an_whole an_bns an_hi]. f_equal.
      * destruct Op as [[Z _]|(_ & _ & Eo)]; [lia|]. rewrite !skipn_all2; auto; try lia.
        rewrite Eo, EA, firstn_app_r, concat_app, nbr_app by lia.
        destruct (ap_boff p - length X) as [|z] eqn:Ez; [lia|]. cbn [firstn concat]. rewrite nbr_app. pose proof (nbr_pos _ _ _ _ _ (w_aok _ _ _ _ _ _ W) EA). lia.
      * rewrite EA. rewrite !skipn_app. rewrite !(skipn_all2 X) by lia. cbn [app]. destruct (ap_boff p - length X) as [|z] eqn:Ez; [lia|]. reflexivity.
Qed.

End Effects.
