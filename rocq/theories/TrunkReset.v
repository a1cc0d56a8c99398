(** * Dropping dead branches and bundles (trunk_reset_start_branch, trunk_pivot_clear) *)

From Coq Require Import List Arith NArith Lia Bool.
From Verif Require Import Base TrunkNode TrunkRing TrunkRep TrunkOps.
Import ListNotations.

Definition drop (m d : nat) (A : anode) : anode :=
  AN (skipn m (an_whole A)) (skipn d (an_bns A))
     (map (fun p => AP (ap_key p) (ap_gen p) (ap_off p - m) (ap_boff p - d) (ap_filt p)) (an_piv A)) (an_hi A).

Definition bns_ok (l : list (list asub)) : Prop :=
  Forall (fun b => b <> []) l /\ Forall (fun s => as_brs s <> []) (concat l).

Lemma aok_bns_ok : forall M A, aok M A -> bns_ok (an_bns A).
Proof. intros M A K. split; apply K. Qed.

Lemma bns_ok_cons : forall b r, bns_ok (b :: r) -> 0 < nbr b /\ bns_ok r.
Proof.
  intros b r [H1 H2]. inversion H1; subst. simpl in H2. apply Forall_app in H2. destruct H2 as [H2 H5].
  split; [|split; auto]. destruct b as [|s t]; [congruence|]. inversion H2; subst. rewrite nbr_cons.
  destruct (as_brs s); [congruence | simpl; lia].
Qed.

Lemma nbr_firstn_lt : forall l i j, bns_ok l -> i < j -> j <= length l ->
  nbr (concat (firstn i l)) < nbr (concat (firstn j l)).
Proof.
  induction l as [|b r IH]; intros i j H L1 L2; simpl in *; [lia|].
  apply bns_ok_cons in H. destruct H as [H1 H2].
  destruct j as [|j]; [lia|]. destruct i as [|i].
  - simpl. rewrite nbr_nil, nbr_app. lia.
  - simpl. rewrite !nbr_app. specialize (IH i j H2 ltac:(lia) ltac:(lia)). lia.
Qed.

Lemma nbr_firstn_le : forall l i j, i <= j -> nbr (concat (firstn i l)) <= nbr (concat (firstn j l)).
Proof.
  induction l as [|b r IH]; intros i j L1.
  - rewrite !firstn_nil. lia.
  - destruct i as [|i]; [simpl; rewrite nbr_nil; lia|]. destruct j as [|j]; [lia|].
    simpl. rewrite !nbr_app. specialize (IH i j ltac:(lia)). lia.
Qed.

Lemma off_ok_mono : forall A o1 b1 o2 b2, bns_ok (an_bns A) -> off_ok A o1 b1 -> off_ok A o2 b2 -> o1 <= o2 -> b1 <= b2.
Proof.
  intros A o1 b1 o2 b2 K [[H1 H2] | (H1 & H2 & H3)] [[G1 G2] | (G1 & G2 & G3)] L; try lia.
  - pose proof (nbr_firstn_lt _ 0 b1 K H1 H2) as P. simpl in P. lia.
  - destruct (Nat.le_gt_cases b1 b2) as [C | C]; auto.
    pose proof (nbr_firstn_lt _ b2 b1 K C H2). lia.
Qed.

Lemma off_ok_le : forall A o bo, off_ok A o bo -> o <= length (brs A) /\ bo <= length (an_bns A).
Proof.
  intros A o bo [[H1 H2] | (H1 & H2 & H3)].
  - rewrite brs_len. lia.
  - split; auto. rewrite brs_len. unfold subs.
    pose proof (nbr_firstn_le (an_bns A) _ _ H2) as P. rewrite firstn_all in P. lia.
Qed.

(** The parts before and after bundle [d] *)
Lemma subs_at : forall A d, subs A = concat (firstn d (an_bns A)) ++ concat (skipn d (an_bns A)).
Proof. intros. unfold subs. rewrite <- concat_app, firstn_skipn. reflexivity. Qed.

Lemma skipn_app_exact : forall {A} (x y : list A), skipn (length x) (x ++ y) = y.
Proof. intros A x y. rewrite skipn_app, skipn_all, Nat.sub_diag. reflexivity. Qed.

Lemma subs_drop : forall A m d, subs (drop m d A) = skipn (length (concat (firstn d (an_bns A)))) (subs A).
Proof. intros A m d. rewrite (subs_at A d). rewrite skipn_app_exact. reflexivity. Qed.
Lemma fls_drop : forall A m d, fls (drop m d A) = skipn (nfl (concat (firstn d (an_bns A)))) (fls A).
Proof.
  intros A m d. unfold fls, nfl. rewrite (subs_at A d). rewrite fls_of_app, skipn_app_exact. reflexivity.
Qed.
Lemma brs_drop : forall A m d, off_ok A m d -> brs (drop m d A) = skipn m (brs A).
Proof.
  intros A m d [[-> H] | (H1 & H2 & ->)]; unfold brs; simpl.
  - rewrite skipn_app. replace (m - length (an_whole A)) with 0 by lia. reflexivity.
  - rewrite (skipn_all2 (an_whole A)) by lia.
    rewrite skipn_app, (skipn_all2 (an_whole A)) by lia.
    replace (length (an_whole A) + nbr (concat (firstn d (an_bns A))) - length (an_whole A)) with (nbr (concat (firstn d (an_bns A)))) by lia.
    simpl. rewrite (subs_at A d), brs_of_app. unfold nbr. rewrite skipn_app_exact. reflexivity.
Qed.

Lemma firstn_skipn_comm' : forall {A} i d (l : list A), firstn i (skipn d l) = skipn d (firstn (d + i) l).
Proof. intros. apply firstn_skipn_comm. Qed.

Lemma concat_firstn_skipn : forall {A} i d (l : list (list A)), d <= i ->
  concat (firstn i l) = concat (firstn d l) ++ concat (firstn (i - d) (skipn d l)).
Proof.
  intros A i d. revert i. induction d as [|d IH]; intros i l H; simpl.
  - rewrite Nat.sub_0_r. reflexivity.
  - destruct i as [|i]; [lia|]. destruct l as [|x r]; simpl.
    + rewrite firstn_nil. reflexivity.
    + rewrite (IH i r) by lia. rewrite <- app_assoc. reflexivity.
Qed.

Lemma off_ok_drop : forall A m d o bo, bns_ok (an_bns A) -> off_ok A m d -> off_ok A o bo -> m <= o -> d <= bo ->
  off_ok (drop m d A) (o - m) (bo - d).
Proof.
  intros A m d o bo K Hm Ho L1 L2. unfold off_ok. simpl. rewrite !skipn_length.
  destruct Hm as [[-> H] | (H1 & H2 & H3)].
  - simpl. rewrite Nat.sub_0_r. destruct Ho as [[-> G] | (G1 & G2 & G3)]; [left; lia | right].
    repeat split; try lia.
  - destruct Ho as [[-> G] | (G1 & G2 & G3)]; [lia|].
    destruct (Nat.eq_dec bo d) as [-> | N].
    + left. split; lia.
    + right. repeat split; try lia. rewrite G3, H3.
      rewrite (concat_firstn_skipn bo d) by lia. rewrite nbr_app. lia.
Qed.

Lemma Forall_skipn' : forall {A} (P : A -> Prop) d l, Forall P l -> Forall P (skipn d l).
Proof. intros A P d l H. rewrite <- (firstn_skipn d l) in H. apply Forall_app in H. apply H. Qed.

Lemma aok_drop : forall M A m d, aok M A -> off_ok A m d ->
  Forall (fun p => m <= ap_off p /\ d <= ap_boff p) (an_piv A) -> aok M (drop m d A).
Proof.
  intros M A m d K Hm Hp. constructor.
  - rewrite brs_drop by auto. rewrite skipn_length. pose proof (ok_brs _ _ K). lia.
  - simpl. rewrite skipn_length. pose proof (ok_bns _ _ K). lia.
  - rewrite subs_drop, skipn_length. pose proof (ok_subs _ _ K). lia.
  - rewrite fls_drop, skipn_length. pose proof (ok_fls _ _ K). lia.
  - simpl. apply Forall_skipn'. apply K.
  - rewrite subs_drop. apply Forall_skipn'. apply K.
  - simpl. apply Forall_map. pose proof (ok_piv _ _ K) as P. rewrite Forall_forall in *.
    intros p Ip. simpl. destruct (Hp p Ip). apply off_ok_drop; auto. eapply aok_bns_ok; eauto.
  - simpl. pose proof (ok_children _ _ K). destruct (an_piv A); [congruence | discriminate].
Qed.

(** ** The new start *)

Lemma children_pivots_eq : forall n ps (last : pivot), n_piv n = ps ++ [last] -> children_pivots n = ps /\ num_children n = length ps.
Proof.
  intros n ps last E. unfold children_pivots, num_children. rewrite E, app_length. simpl.
  replace (length ps + 1 - 1) with (length ps) by lia. split; [|reflexivity].
  rewrite firstn_app, Nat.sub_diag. simpl. rewrite app_nil_r. apply firstn_all.
Qed.

Lemma min_fold : forall M s t l ps (offs : list apiv), 0 < M -> t < M ->
  Forall2 (fun p a => pv_sbr p = cadd M s (ap_off a)) ps offs -> Forall (fun a => ap_off a <= t) offs -> l <= t ->
  exists m, fold_left (fun st p => if csub M (cadd M s t) st <? csub M (cadd M s t) (pv_sbr p) then pv_sbr p else st) ps (cadd M s l) = cadd M s m /\
    m <= l /\ Forall (fun a => m <= ap_off a) offs /\ (m = l \/ In m (map ap_off offs)).
Proof.
  intros M s t l ps offs M0 Ht F. revert l. induction F as [|p a ps offs E F IH]; intros l B L; simpl.
  - exists l. auto.
  - inversion B; subst. rewrite E. rewrite !csub_cadd by lia.
    destruct (Nat.ltb_spec (t - l) (t - ap_off a)) as [C | C].
    + destruct (IH (ap_off a) H2 ltac:(lia)) as (m & G1 & G2 & G3 & G4). exists m. split; [exact G1|].
      split; [lia|]. split; [constructor; auto|]. right. destruct G4 as [-> | G4]; auto.
    + destruct (IH l H2 L) as (m & G1 & G2 & G3 & G4). exists m. split; [exact G1|].
      split; [lia|]. split; [constructor; auto; lia|]. destruct G4 as [-> | G4]; auto.
Qed.

Lemma nth_split_bns : forall {A} (l : list A) i, i < length l -> exists b, l = firstn i l ++ b :: skipn (S i) l.
Proof.
  intros A l. induction l as [|x r IH]; intros i H; simpl in *; [lia|]. destruct i as [|i].
  - exists x. reflexivity.
  - destruct (IH i ltac:(lia)) as (b & E). exists b. simpl. f_equal. exact E.
Qed.

Lemma concat_firstn_S : forall {A} (l : list (list A)) i b, l = firstn i l ++ b :: skipn (S i) l -> i < length l ->
  concat (firstn (S i) l) = concat (firstn i l) ++ b.
Proof.
  intros A l i b. revert l. induction i as [|i IH]; intros l H L; destruct l as [|x r]; simpl in *; try lia.
  - injection H as H. subst. apply app_nil_r.
  - injection H as H. rewrite <- app_assoc. f_equal. apply IH; [exact H | lia].
Qed.

(** Killing the bundles whose branches are dead *)
Definition set3 (a b c : nat) (n : node) : node := set_sbn a (set_ssb b (set_sfl c n)).
Lemma set3_set3 : forall a b c a' b' c' n, set3 a b c (set3 a' b' c' n) = set3 a b c n.
Proof. intros. destruct n. reflexivity. Qed.
Lemma set3_id : forall n, set3 (n_sbn n) (n_ssb n) (n_sfl n) n = n.
Proof. intros []. reflexivity. Qed.
Lemma kill_dead : forall M n i, branch_live M n (bundle_start_branch n (n_bn n i)) = false ->
  kill_bundle M n i = set3 (cadd MAX_BUNDLES (n_sbn n) 1) (bn_esb (n_bn n i)) (bundle_end_filter n (n_bn n i)) n.
Proof. intros M n i H. unfold kill_bundle. rewrite H. reflexivity. Qed.
Lemma kill_live : forall M n i, branch_live M n (bundle_start_branch n (n_bn n i)) = true -> kill_bundle M n i = n.
Proof. intros M n i H. unfold kill_bundle. rewrite H. reflexivity. Qed.
Lemma set3_fields : forall a b c n, n_sbr (set3 a b c n) = n_sbr n /\ n_ebr (set3 a b c n) = n_ebr n /\
  n_bn (set3 a b c n) = n_bn n /\ n_sb (set3 a b c n) = n_sb n /\
  n_sbn (set3 a b c n) = a /\ n_ssb (set3 a b c n) = b /\ n_sfl (set3 a b c n) = c.
Proof. intros. destruct n. auto 10. Qed.

Lemma kill_loop : forall M n A m d, rep M n A -> aok M A -> off_ok A m d ->
  forall k i, i + k = length (an_bns A) -> forall n1,
  (n_sbr n1 = cadd M (n_sbr n) m /\ n_ebr n1 = n_ebr n /\ n_bn n1 = n_bn n /\ n_sb n1 = n_sb n) ->
  fold_left (kill_bundle M) (map (cadd MAX_BUNDLES (n_sbn n)) (seq i k)) n1 =
  if d <=? i then n1 else
  set3 (cadd MAX_BUNDLES (n_sbn n1) (d - i)) (cadd MAX_SUBBUNDLES (n_ssb n) (length (concat (firstn d (an_bns A)))))
       (cadd MAX_SB_FILTERS (n_sfl n) (nfl (concat (firstn d (an_bns A))))) n1.
Proof.
  intros M n A m d R K Hm k. pose proof (r_sbr _ _ _ R) as M0. assert (Mp : 0 < M) by lia.
  pose proof (off_ok_le _ _ _ Hm) as [Lm Ld]. pose proof (ok_brs _ _ K) as Hbrs.
  induction k as [|k IH]; intros i Hi n1 (E1 & E2 & E3 & E4).
  - cbn [seq map fold_left]. replace (d <=? i) with true by (symmetry; apply Nat.leb_le; lia). reflexivity.
  - cbn [seq map fold_left].
    destruct (nth_split_bns (an_bns A) i ltac:(lia)) as (b & Eb).
    assert (Li : length (firstn i (an_bns A)) = i) by (rewrite firstn_length; lia).
    assert (Sb : bundle_start_branch n1 (n_bn n1 (cadd MAX_BUNDLES (n_sbn n) i)) =
                 cadd M (n_sbr n) (length (an_whole A) + nbr (concat (firstn i (an_bns A))))).
    { pose proof (start_branch_at M n A _ _ _ R K Eb) as Z. rewrite Li in Z.
      unfold bundle_start_branch in *. rewrite E3, E4. exact Z. }
    assert (Bi : length (an_whole A) + nbr (concat (firstn i (an_bns A))) < length (brs A)).
    { rewrite brs_len. unfold subs.
      pose proof (nbr_firstn_lt (an_bns A) i (length (an_bns A)) (aok_bns_ok _ _ K) ltac:(lia) ltac:(lia)) as P.
      rewrite firstn_all in P. lia. }
    destruct (Nat.leb_spec d i) as [C | C].
    + rewrite kill_live.
      * rewrite IH by (try lia; auto). replace (d <=? S i) with true by (symmetry; apply Nat.leb_le; lia). reflexivity.
      * rewrite Sb. unfold branch_live. rewrite E1, E2, (r_ebr _ _ _ R).
        assert (Ge : m <= length (an_whole A) + nbr (concat (firstn i (an_bns A)))).
        { destruct Hm as [[-> Hm] | (_ & _ & ->)]; [lia|]. pose proof (nbr_firstn_le (an_bns A) d i C). lia. }
        rewrite !csub_cadd by lia. apply Nat.ltb_lt. lia.
    + rewrite kill_dead.
      * assert (Ef : bundle_end_filter n1 (n_bn n1 (cadd MAX_BUNDLES (n_sbn n) i)) = cadd MAX_SB_FILTERS (n_sfl n) (nfl (concat (firstn (S i) (an_bns A))))).
        { pose proof (end_filter_at M n A _ _ _ R K Eb) as Z. rewrite Li in Z. unfold bundle_end_filter in *. rewrite E3, E4, Z.
          rewrite (concat_firstn_S _ _ _ Eb) by lia. rewrite nfl_app. reflexivity. }
        assert (Es : bn_esb (n_bn n1 (cadd MAX_BUNDLES (n_sbn n) i)) = cadd MAX_SUBBUNDLES (n_ssb n) (length (concat (firstn (S i) (an_bns A))))).
        { pose proof (bundle_entry M n A _ _ _ R Eb) as Z. rewrite Li in Z. rewrite E3, Z. cbn [bn_esb].
          rewrite (concat_firstn_S _ _ _ Eb) by lia. rewrite app_length. reflexivity. }
        rewrite Ef, Es. set (n2 := set3 _ _ _ n1).
        assert (F2 := set3_fields (cadd MAX_BUNDLES (n_sbn n1) 1) (cadd MAX_SUBBUNDLES (n_ssb n) (length (concat (firstn (S i) (an_bns A)))))
                 (cadd MAX_SB_FILTERS (n_sfl n) (nfl (concat (firstn (S i) (an_bns A))))) n1).
        fold n2 in F2. destruct F2 as (Q1 & Q2 & Q3 & Q4 & Q5 & Q6 & Q7).
        rewrite IH by (try lia; rewrite ?Q1, ?Q2, ?Q3, ?Q4; auto).
        destruct (Nat.leb_spec d (S i)) as [C2 | C2].
        -- unfold n2. replace d with (S i) by lia. replace (S i - i) with 1 by lia. reflexivity.
        -- rewrite Q5, cadd_cadd by auto. unfold n2. rewrite set3_set3. replace (1 + (d - S i)) with (d - i) by lia. reflexivity.
      * rewrite Sb. unfold branch_live. rewrite E1, E2, (r_ebr _ _ _ R).
        assert (Lt : length (an_whole A) + nbr (concat (firstn i (an_bns A))) < m).
        { destruct Hm as [[-> _] | (_ & _ & ->)]; [lia|]. pose proof (nbr_firstn_lt (an_bns A) i d (aok_bns_ok _ _ K) C Ld). lia. }
        rewrite csub_cadd_back by lia. rewrite csub_cadd by lia. apply Nat.ltb_ge. lia.
Qed.

Theorem reset_rep : forall M n A, rep M n A -> aok M A ->
  exists p0, In p0 (an_piv A) /\ Forall (fun p => ap_off p0 <= ap_off p /\ ap_boff p0 <= ap_boff p) (an_piv A) /\
    let A' := drop (ap_off p0) (ap_boff p0) A in
    let n' := reset_start_branch M n in
    rep M n' A' /\ aok M A' /\ n_id n' = n_id n /\ n_height n' = n_height n /\ n_pgen n' = n_pgen n /\
    n_sbn n' = cadd MAX_BUNDLES (n_sbn n) (ap_boff p0) /\ n_ebn n' = n_ebn n /\ n_ebr n' = n_ebr n /\ n_piv n' = n_piv n.
Proof.
  intros M n A R K. pose proof (r_sbr _ _ _ R) as M0. assert (Mp : 0 < M) by lia.
  destruct (r_piv _ _ _ R) as (ps & last & P1 & P2 & P3).
  pose proof (ok_brs _ _ K) as Hbrs.
  assert (Boff : Forall (fun a => ap_off a <= length (brs A)) (an_piv A)).
  { eapply Forall_impl; [|exact (ok_piv _ _ K)]. intros a H. apply off_ok_le in H. apply H. }
  destruct (min_fold M (n_sbr n) (length (brs A)) (length (brs A)) ps (an_piv A) Mp Hbrs) as (m & G1 & G2 & G3 & G4); auto.
  { eapply Forall2_impl; [|exact P3]. intros p a H. apply H. }
  assert (Em : min_start_branch M n = cadd M (n_sbr n) m).
  { unfold min_start_branch. destruct (children_pivots_eq n ps last P1) as [-> _]. rewrite (r_ebr _ _ _ R). exact G1. }
  assert (Hp : exists p0, In p0 (an_piv A) /\ ap_off p0 = m).
  { destruct G4 as [-> | G4].
    - pose proof (ok_children _ _ K) as N. destruct (an_piv A) as [|p0 r] eqn:Ep; [congruence|].
      exists p0. split; [left; reflexivity|]. inversion G3; inversion Boff; subst. lia.
    - apply in_map_iff in G4. destruct G4 as (p0 & Q1 & Q2). eauto. }
  destruct Hp as (p0 & Ip & Eo). exists p0. split; [exact Ip|].
  pose proof (ok_piv _ _ K) as Kp. rewrite Forall_forall in Kp. pose proof (Kp p0 Ip) as H0.
  assert (Hall : Forall (fun p => ap_off p0 <= ap_off p /\ ap_boff p0 <= ap_boff p) (an_piv A)).
  { rewrite Forall_forall in *. intros p I. rewrite Eo. split; [apply G3; exact I|].
    eapply off_ok_mono; [eapply aok_bns_ok; exact K | exact H0 | apply Kp; exact I | rewrite Eo; apply G3; exact I]. }
  split; [exact Hall|]. cbv zeta.
  rewrite Eo in *. set (d := ap_boff p0) in *.
  assert (En : reset_start_branch M n =
    set3 (cadd MAX_BUNDLES (n_sbn n) d)
      (cadd MAX_SUBBUNDLES (n_ssb n) (length (concat (firstn d (an_bns A)))))
      (cadd MAX_SB_FILTERS (n_sfl n) (nfl (concat (firstn d (an_bns A)))))
      (set_sfrac (cadd M (cadd M (n_sbr n) m) (length (skipn m (an_whole A)))) (set_sbr (cadd M (n_sbr n) m) n))).
  { unfold reset_start_branch. rewrite Em.
    assert (Ef : (if branch_valid M (set_sbr (cadd M (n_sbr n) m) n) (n_sfrac (set_sbr (cadd M (n_sbr n) m) n))
                  then set_sbr (cadd M (n_sbr n) m) n
                  else set_sfrac (n_sbr (set_sbr (cadd M (n_sbr n) m) n)) (set_sbr (cadd M (n_sbr n) m) n)) =
                 set_sfrac (cadd M (cadd M (n_sbr n) m) (length (skipn m (an_whole A)))) (set_sbr (cadd M (n_sbr n) m) n)).
    { unfold branch_valid. simpl. rewrite (r_sfrac _ _ _ R), (r_ebr _ _ _ R), skipn_length, cadd_cadd by auto.
      pose proof (brs_len A).
      destruct (Nat.le_gt_cases m (length (an_whole A))) as [C | C].
      - rewrite !csub_cadd by lia.
        match goal with |- context[?x <=? ?y] => replace (x <=? y) with true by (symmetry; apply Nat.leb_le; lia) end.
        replace (m + (length (an_whole A) - m)) with (length (an_whole A)) by lia.
        rewrite <- (r_sfrac _ _ _ R). destruct n; reflexivity.
      - rewrite csub_cadd_back by lia. rewrite csub_cadd by lia.
        match goal with |- context[?x <=? ?y] => replace (x <=? y) with false by (symmetry; apply Nat.leb_gt; lia) end.
        replace (m + (length (an_whole A) - m)) with m by lia. reflexivity. }
    rewrite Ef. set (n2 := set_sfrac _ _).
    assert (Ew : cwalk MAX_BUNDLES (n_sbn n2) (n_ebn n2) = map (cadd MAX_BUNDLES (n_sbn n)) (seq 0 (length (an_bns A)))).
    { unfold n2. simpl. rewrite (r_ebn _ _ _ R). rewrite <- (cadd_0 MAX_BUNDLES (n_sbn n)) at 1 by apply R.
      pose proof (ok_bns _ _ K). rewrite cwalk_cadd by (auto; lia). rewrite Nat.sub_0_r. reflexivity. }
    rewrite Ew. rewrite (kill_loop M n A m d R K H0 (length (an_bns A)) 0 eq_refl n2) by (unfold n2; simpl; auto).
    rewrite Nat.sub_0_r. destruct (Nat.leb_spec d 0) as [C | C]; [|reflexivity].
    replace d with 0 by lia. cbn [firstn concat length]. rewrite nfl_nil, !cadd_0 by apply R.
    symmetry. exact (set3_id n2). }
  assert (K' : aok M (drop m d A)) by (apply aok_drop; auto).
  assert (Eb : n_ebr n = cadd M (cadd M (n_sbr n) m) (length (brs (drop m d A)))).
  { rewrite brs_drop by auto. rewrite skipn_length, cadd_cadd by auto. rewrite (r_ebr _ _ _ R). f_equal. lia. }
  pose proof (off_ok_le _ _ _ H0) as [Lm Ld].
  assert (R' : rep M (reset_start_branch M n) (drop m d A)).
  { rewrite En. constructor; simpl; auto.
    - rewrite (r_ebn _ _ _ R), skipn_length, cadd_cadd by auto. f_equal. lia.
    - rewrite (r_esb _ _ _ R), subs_drop, skipn_length, cadd_cadd by auto. f_equal.
      rewrite (subs_at A d), app_length. lia.
    - rewrite (r_efl _ _ _ R), fls_drop, skipn_length, cadd_cadd by auto. f_equal.
      unfold fls. rewrite (subs_at A d), fls_of_app, app_length. unfold nfl. lia.
    - rewrite brs_drop by auto. apply ring_skip; auto. apply R.
    - rewrite fls_drop. apply ring_skip; auto. apply R.
    - rewrite subs_drop. rewrite sub_entries_base by auto.
      pose proof (ring_skip _ _ _ _ (length (concat (firstn d (an_bns A)))) S0 (r_sb _ _ _ R)) as Z.
      rewrite (subs_at A d), sub_entries_app in Z.
      rewrite <- (sub_entries_length M (n_sbr n) (n_sfl n) (concat (firstn d (an_bns A))) (length (an_whole A)) 0) in Z at 2.
      rewrite skipn_app_exact in Z. rewrite (subs_at A d) at 1. rewrite skipn_app_exact.
      rewrite Nat.add_0_r. simpl in Z.
      replace (m + length (skipn m (an_whole A))) with (length (an_whole A) + nbr (concat (firstn d (an_bns A)))); [exact Z|].
      rewrite skipn_length. destruct H0 as [[Q1 Q2] | (Q1 & Q2 & Q3)]; [rewrite Q1; simpl; rewrite nbr_nil; lia | lia].
    - rewrite bn_entries_base, Nat.add_0_r.
      pose proof (ring_skip _ _ _ _ d B0 (r_bn _ _ _ R)) as Z.
      rewrite <- (firstn_skipn d (an_bns A)) in Z at 1. rewrite bn_entries_app in Z.
      replace d with (length (bn_entries (n_ssb n) 0 (firstn d (an_bns A)))) in Z at 2
        by (rewrite bn_entries_length, firstn_length; lia).
      rewrite skipn_app_exact in Z. exact Z.
    - exists ps, last. split; [exact P1|]. split; [exact P2|]. clear - P3 Hall Mp.
      induction P3 as [|p a ps' as' H F IH]; simpl; [constructor|]. inversion Hall as [|? ? [L1 L2] H3]; subst.
      constructor; auto. destruct H as (Q1 & Q2 & Q3 & Q4 & Q5). repeat split; simpl; auto.
      + rewrite Q4, cadd_cadd by auto. f_equal. lia.
      + rewrite Q5, cadd_cadd by auto. f_equal. lia. }
  split; [exact R'|]. split; [exact K'|]. rewrite En. simpl. auto 10.
Qed.
