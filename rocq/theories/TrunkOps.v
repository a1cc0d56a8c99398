(** * The node operations keep the representation (TrunkRep.v): adding bundles *)

From Coq Require Import List Arith NArith Lia Bool.
From Verif Require Import Base TrunkNode TrunkRing TrunkRep.
Import ListNotations.

Definition add_bundle (A : anode) (l : list asub) : anode :=
  AN (an_whole A) (an_bns A ++ [l]) (an_piv A) (an_hi A).

(** A node whose newest bundle, with the subbundles [l] so far, is being filled in *)
Record rep_open (M : nat) (n : node) (A : anode) (l : list asub) : Prop := {
  o_sbr : n_sbr n < M;
  o_sbn : n_sbn n < MAX_BUNDLES;
  o_ssb : n_ssb n < MAX_SUBBUNDLES;
  o_sfl : n_sfl n < MAX_SB_FILTERS;
  o_sfrac : n_sfrac n = cadd M (n_sbr n) (length (an_whole A));
  o_ebr : n_ebr n = cadd M (n_sbr n) (length (brs A) + nbr l);
  o_ebn : n_ebn n = cadd MAX_BUNDLES (n_sbn n) (S (length (an_bns A)));
  o_esb : n_esb n = cadd MAX_SUBBUNDLES (n_ssb n) (length (subs A) + length l);
  o_efl : n_efl n = cadd MAX_SB_FILTERS (n_sfl n) (length (fls A) + nfl l);
  o_br : ring_is M (n_br n) (n_sbr n) (brs A ++ brs_of l);
  o_fl : ring_is MAX_SB_FILTERS (n_fl n) (n_sfl n) (fls A ++ fls_of l);
  o_sb : ring_is MAX_SUBBUNDLES (n_sb n) (n_ssb n)
           (sub_entries M (n_sbr n) (n_sfl n) (length (an_whole A)) 0 (subs A ++ l));
  o_bn : ring_is MAX_BUNDLES (n_bn n) (n_sbn n) (bn_entries (n_ssb n) 0 (an_bns A));
  o_piv : exists ps last, n_piv n = ps ++ [last] /\ pv_key last = an_hi A /\ Forall2 (piv_rep M n) ps (an_piv A)
}.

Lemma nbr_subs : forall A, nbr (subs A) = length (brs A) - length (an_whole A).
Proof. intros A. unfold brs, nbr. rewrite app_length. lia. Qed.
Lemma nfl_subs : forall A, nfl (subs A) = length (fls A).
Proof. reflexivity. Qed.
Lemma brs_len : forall A, length (brs A) = length (an_whole A) + nbr (subs A).
Proof. intros. unfold brs, nbr. apply app_length. Qed.

Lemma piv_rep_ext : forall M n n' p a, n_sbr n' = n_sbr n -> n_sbn n' = n_sbn n -> piv_rep M n p a -> piv_rep M n' p a.
Proof. intros M n n' p a H1 H2 (A & B & C & D & F). unfold piv_rep. rewrite H1, H2. auto. Qed.

Lemma pivs_ext : forall M n n' (A : anode), n_sbr n' = n_sbr n -> n_sbn n' = n_sbn n -> n_piv n' = n_piv n ->
  (exists ps last, n_piv n = ps ++ [last] /\ pv_key last = an_hi A /\ Forall2 (piv_rep M n) ps (an_piv A)) ->
  exists ps last, n_piv n' = ps ++ [last] /\ pv_key last = an_hi A /\ Forall2 (piv_rep M n') ps (an_piv A).
Proof.
  intros M n n' A H1 H2 H3 (ps & last & P1 & P2 & P3). exists ps, last. rewrite H3. repeat split; auto.
  eapply Forall2_impl; [|exact P3]. intros. eapply piv_rep_ext; eauto.
Qed.

Lemma subs_add : forall A l, subs (add_bundle A l) = subs A ++ l.
Proof. intros. unfold subs, add_bundle. simpl. rewrite concat_app. simpl. rewrite app_nil_r. reflexivity. Qed.
Lemma brs_add : forall A l, brs (add_bundle A l) = brs A ++ brs_of l.
Proof. intros. unfold brs. rewrite subs_add, brs_of_app, app_assoc. reflexivity. Qed.
Lemma fls_add : forall A l, fls (add_bundle A l) = fls A ++ fls_of l.
Proof. intros. unfold fls. rewrite subs_add, fls_of_app. reflexivity. Qed.

Lemma off_ok_add : forall A l o bo, off_ok A o bo -> off_ok (add_bundle A l) o bo.
Proof.
  intros A l o bo [[H1 H2] | (H1 & H2 & H3)]; [left | right]; simpl; auto.
  rewrite app_length. repeat split; try lia. rewrite firstn_app. replace (bo - length (an_bns A)) with 0 by lia.
  simpl. rewrite app_nil_r. exact H3.
Qed.

Lemma aok_add : forall M A l, aok M A -> l <> [] -> Forall (fun s => as_brs s <> []) l ->
  length (brs A) + nbr l < M -> S (length (an_bns A)) < MAX_BUNDLES ->
  length (subs A) + length l < MAX_SUBBUNDLES -> length (fls A) + nfl l < MAX_SB_FILTERS -> aok M (add_bundle A l).
Proof.
  intros M A l K Hl Hs H1 H2 H3 H4. constructor.
  - rewrite brs_add, app_length. exact H1.
  - simpl. rewrite app_length. simpl. lia.
  - rewrite subs_add, app_length. exact H3.
  - rewrite fls_add, app_length. exact H4.
  - simpl. apply Forall_app. split; [apply (ok_nonempty _ _ K)|]. constructor; auto.
  - rewrite subs_add. apply Forall_app. split; [apply (ok_sub_nonempty _ _ K)|auto].
  - simpl. eapply Forall_impl; [|exact (ok_piv _ _ K)]. intros. apply off_ok_add. assumption.
  - simpl. apply (ok_children _ _ K).
Qed.

(** ** The parts of a flush and an incorporation *)

Lemma get_new_bundle_rep : forall M n A, rep M n A -> aok M A ->
  match get_new_bundle n with
  | None => S (length (an_bns A)) = MAX_BUNDLES
  | Some (bno, n') => bno = n_ebn n /\ rep_open M n' A [] /\ S (length (an_bns A)) < MAX_BUNDLES
  end.
Proof.
  intros M n A R K. unfold get_new_bundle. rewrite (r_ebn _ _ _ R), cadd_cadd by auto.
  pose proof (ok_bns _ _ K) as B. pose proof (r_sbn _ _ _ R) as Bs.
  destruct (Nat.eq_dec (S (length (an_bns A))) MAX_BUNDLES) as [Q | Q].
  - rewrite Nat.add_1_r, Q, cadd_full, Nat.eqb_refl by auto. reflexivity.
  - rewrite cadd_eqb_base by lia.
    replace (length (an_bns A) + 1 =? 0) with false by (symmetry; apply Nat.eqb_neq; lia).
    split; [reflexivity|]. split; [|lia].
    constructor; simpl; try apply R; rewrite ?nbr_nil, ?nfl_nil, ?Nat.add_0_r, ?app_nil_r; try apply R.
    f_equal. lia.
Qed.

Lemma get_new_subbundle_eq : forall n k, get_new_subbundle n k =
  if cadd MAX_SUBBUNDLES (n_esb n) 1 =? n_ssb n then None
  else Some (n_esb n,
    set_sb (put (n_sb n) (n_esb n) (SB true (sb_sbr (n_sb n (n_esb n))) (sb_ebr (n_sb n (n_esb n))) (n_efl n) (cadd MAX_SB_FILTERS (n_efl n) k)))
      (set_efl (cadd MAX_SB_FILTERS (n_efl n) k) (set_esb (cadd MAX_SUBBUNDLES (n_esb n) 1) n))).
Proof. reflexivity. Qed.

Lemma esb_full : forall M n A l, rep_open M n A l -> length (subs A) + length l < MAX_SUBBUNDLES ->
  (cadd MAX_SUBBUNDLES (n_esb n) 1 =? n_ssb n) = (S (length (subs A) + length l) =? MAX_SUBBUNDLES).
Proof.
  intros M n A l R H. rewrite (o_esb _ _ _ _ R), cadd_cadd by auto. pose proof (o_ssb _ _ _ _ R) as B.
  destruct (Nat.eqb_spec (S (length (subs A) + length l)) MAX_SUBBUNDLES) as [Q | Q].
  - rewrite Nat.add_1_r, Q, cadd_full by auto. apply Nat.eqb_refl.
  - rewrite cadd_eqb_base by lia.
    apply Nat.eqb_neq. lia.
Qed.

(** [add_branches] changes the branch array and its end only *)
Lemma add_branches_eq : forall M bs n, 0 < M -> exists g,
  add_branches M n bs = set_ebr (if bs then n_ebr n else cadd M (n_ebr n) (length bs)) (set_br g n) /\
  (forall s l, s < M -> n_ebr n = cadd M s (length l) -> length l + length bs <= M ->
     ring_is M (n_br n) s l -> ring_is M g s (l ++ bs)).
Proof.
  intros M bs. induction bs as [|b r IH]; intros n M0.
  - exists (n_br n). split; [destruct n; reflexivity|]. intros. rewrite app_nil_r. assumption.
  - destruct (IH (add_branch M n b) M0) as (g & G1 & G2). exists g. split.
    + change (add_branches M n (b :: r)) with (add_branches M (add_branch M n b) r). rewrite G1.
      destruct n as [? ? ? ? ? eb ? ? ? ? ? ? ? ? ? ? ?]. unfold add_branch, set_ebr, set_br. simpl. f_equal.
      destruct r as [|c r]; [reflexivity|]. rewrite cadd_cadd by lia. f_equal.
    + intros s l Hs E L R. specialize (G2 s (l ++ [b]) Hs). rewrite <- app_assoc in G2. simpl in G2. apply G2.
      * rewrite E, cadd_cadd by lia. f_equal. rewrite app_length. reflexivity.
      * rewrite app_length. simpl in *. lia.
      * rewrite E. simpl in L. apply ring_push; auto. lia.
Qed.

Lemma copy_filters_ring : forall parent ps cs s l count fl,
  s < MAX_SB_FILTERS -> sb_sfl cs = cadd MAX_SB_FILTERS s (length l) -> length l + count <= MAX_SB_FILTERS ->
  ring_is MAX_SB_FILTERS fl s l ->
  ring_is MAX_SB_FILTERS (copy_filters parent ps cs count fl) s (l ++ map (sb_filter parent ps) (seq 0 count)).
Proof.
  intros parent ps cs s l count fl Hs E. unfold copy_filters. rewrite E. clear E.
  induction count as [|c IH]; intros L R.
  - simpl. rewrite app_nil_r. exact R.
  - rewrite seq_S, fold_left_app, map_app. simpl. rewrite cadd_cadd by auto.
    rewrite app_assoc. assert (L' : length (l ++ map (sb_filter parent ps) (seq 0 c)) = length l + c).
    { rewrite app_length, map_length, seq_length. reflexivity. }
    rewrite <- L'. apply ring_push; auto. { rewrite L'. lia. } apply IH; [lia | exact R].
Qed.

(** Closing the bundle *)
Lemma close_rep : forall M n A l bno, rep_open M n A l -> S (length (an_bns A)) < MAX_BUNDLES ->
  bno = cadd MAX_BUNDLES (n_sbn n) (length (an_bns A)) ->
  rep M (set_bn (put (n_bn n) bno (BN (cadd MAX_SUBBUNDLES (n_ssb n) (length (subs A))) (n_esb n))) n) (add_bundle A l).
Proof.
  intros M n A l bno R H ->. constructor; simpl; try apply R.
  - rewrite (o_ebr _ _ _ _ R), brs_add, app_length. reflexivity.
  - rewrite (o_ebn _ _ _ _ R), app_length. f_equal. simpl. lia.
  - rewrite (o_esb _ _ _ _ R), subs_add, app_length. reflexivity.
  - rewrite (o_efl _ _ _ _ R), fls_add, app_length. reflexivity.
  - rewrite brs_add. apply R.
  - rewrite fls_add. apply R.
  - rewrite subs_add. apply R.
  - rewrite bn_entries_app. simpl. rewrite (o_esb _ _ _ _ R).
    rewrite <- (bn_entries_length (n_ssb n) (an_bns A) 0) at 1. apply ring_push.
    + apply R.
    + rewrite bn_entries_length. lia.
    + apply R.
Qed.

(** A subbundle added to the bundle being filled in *)
Lemma push_sub_open : forall M n A l c bl fl g h,
  rep_open M n A l -> length (subs A) + length l < MAX_SUBBUNDLES ->
  ring_is M g (n_sbr n) (brs A ++ brs_of l ++ bl) ->
  ring_is MAX_SB_FILTERS h (n_sfl n) (fls A ++ fls_of l ++ fl) ->
  forall n', n_id n' = n_id n -> n_height n' = n_height n -> n_pgen n' = n_pgen n ->
  n_sbr n' = n_sbr n -> n_sfrac n' = n_sfrac n -> n_sbn n' = n_sbn n -> n_ebn n' = n_ebn n ->
  n_ssb n' = n_ssb n -> n_sfl n' = n_sfl n -> n_bn n' = n_bn n -> n_piv n' = n_piv n ->
  n_ebr n' = cadd M (n_ebr n) (length bl) -> n_esb n' = cadd MAX_SUBBUNDLES (n_esb n) 1 ->
  n_efl n' = cadd MAX_SB_FILTERS (n_efl n) (length fl) ->
  n_br n' = g -> n_fl n' = h ->
  (forall i, n_sb n' i = put (n_sb n) (n_esb n) (SB c (n_ebr n) (cadd M (n_ebr n) (length bl)) (n_efl n) (cadd MAX_SB_FILTERS (n_efl n) (length fl))) i) ->
  rep_open M n' A (l ++ [AS c bl fl]).
Proof.
  intros M n A l c bl fl g h R Hs Rg Rh n' E1 E2 E3 E4 E5 E6 E7 E8 E9 E10 E11 E12 E13 E14 E15 E16 E17.
  assert (M0 : 0 < M) by (pose proof (o_sbr _ _ _ _ R); lia).
  constructor; rewrite ?E4, ?E5, ?E6, ?E7, ?E8, ?E9, ?E10, ?E15, ?E16; try apply R.
  - rewrite E12, (o_ebr _ _ _ _ R), cadd_cadd by auto. f_equal. rewrite nbr_app, nbr_cons, nbr_nil. simpl. lia.
  - rewrite E13, (o_esb _ _ _ _ R), cadd_cadd by auto. f_equal. rewrite app_length. simpl. lia.
  - rewrite E14, (o_efl _ _ _ _ R), cadd_cadd by auto. f_equal. rewrite nfl_app, nfl_cons, nfl_nil. simpl. lia.
  - rewrite brs_of_app. unfold brs_of at 2. simpl. rewrite app_nil_r. exact Rg.
  - rewrite fls_of_app. unfold fls_of at 2. simpl. rewrite app_nil_r. exact Rh.
  - rewrite app_assoc, sub_entries_app. simpl.
    assert (L : length (sub_entries M (n_sbr n) (n_sfl n) (length (an_whole A)) 0 (subs A ++ l)) = length (subs A) + length l).
    { rewrite sub_entries_length, app_length. reflexivity. }
    eapply ring_ext.
    { intros i Hi. rewrite E17. reflexivity. }
    rewrite (o_esb _ _ _ _ R). rewrite <- L at 1.
    rewrite (o_ebr _ _ _ _ R), (o_efl _ _ _ _ R), !cadd_cadd by auto.
    rewrite brs_len, nbr_app, nfl_app, nfl_subs.
    rewrite <- !Nat.add_assoc. apply ring_push; try apply R. rewrite L. lia.
  - eapply pivs_ext; [exact E4 | exact E6 | exact E11 | apply R].
Qed.

(** ** Incorporation *)
Theorem install_rep : forall M n A b f, rep M n A -> aok M A ->
  match install_new_compacted_subbundle M n b f with
  | None => S (length (an_bns A)) = MAX_BUNDLES \/ S (length (subs A)) = MAX_SUBBUNDLES
  | Some (bno, n') =>
      S (length (an_bns A)) < MAX_BUNDLES /\
      (S (length (brs A)) < M -> S (length (fls A)) < MAX_SB_FILTERS ->
       let A' := add_bundle A [AS true [b] [f]] in
       rep M n' A' /\ aok M A' /\ bno = n_ebn n /\
       n_id n' = n_id n /\ n_height n' = n_height n /\ n_pgen n' = n_pgen n /\ n_sbn n' = n_sbn n /\
       n_piv n' = n_piv n)
  end.
Proof.
  intros M n A b f R K. unfold install_new_compacted_subbundle.
  pose proof (get_new_bundle_rep M n A R K) as G.
  destruct (get_new_bundle n) as [[bno n1]|] eqn:E1; [|auto].
  destruct G as (-> & O & Hb).
  assert (F1 : n_piv n1 = n_piv n /\ n_id n1 = n_id n /\ n_height n1 = n_height n /\ n_pgen n1 = n_pgen n /\ n_sbn n1 = n_sbn n).
  { unfold get_new_bundle in E1. destruct (_ =? _); inversion E1. simpl. auto. }
  rewrite get_new_subbundle_eq. rewrite (esb_full _ _ _ _ O) by (simpl; rewrite Nat.add_0_r; apply (ok_subs _ _ K)).
  simpl length. rewrite Nat.add_0_r.
  destruct (Nat.eqb_spec (S (length (subs A))) MAX_SUBBUNDLES) as [Q | Q]; [auto|].
  split; [exact Hb|]. intros HM HF. cbv zeta.
  assert (M0 : 0 < M) by (pose proof (r_sbr _ _ _ R); lia).
  pose proof (ok_subs _ _ K) as HS.
  assert (K' : aok M (add_bundle A [AS true [b] [f]])).
  { apply aok_add; auto; try discriminate.
    - constructor; [discriminate | constructor].
    - rewrite nbr_cons, nbr_nil. simpl. lia.
    - simpl. lia.
    - rewrite nfl_cons, nfl_nil. simpl. lia. }
  set (n' := set_fl _ _).
  set (n2 := set_bn (n_bn n1) n').
  assert (E : n' = set_bn (put (n_bn n2) (n_ebn n) (BN (cadd MAX_SUBBUNDLES (n_ssb n2) (length (subs A))) (n_esb n2))) n2).
  { assert (Z : cadd MAX_SUBBUNDLES (n_ssb n2) (length (subs A)) = n_esb n1).
    { rewrite (o_esb _ _ _ _ O). simpl. rewrite Nat.add_0_r. reflexivity. }
    rewrite Z. reflexivity. }
  assert (O2 : rep_open M n2 A ([] ++ [AS true [b] [f]])).
  { eapply push_sub_open with (n := n1) (g := n_br n2) (h := n_fl n2); try reflexivity; auto.
    - simpl. lia.
    - unfold n2, n'. simpl. rewrite (o_ebr _ _ _ _ O), nbr_nil, Nat.add_0_r. apply ring_push; try apply O.
      + lia.
      + pose proof (o_br _ _ _ _ O) as Z. simpl in Z. rewrite app_nil_r in Z. exact Z.
    - unfold n2, n'. simpl. rewrite !put_same. simpl. rewrite cadd_0.
      + rewrite (o_efl _ _ _ _ O), nfl_nil, Nat.add_0_r. apply ring_push; try apply O; [lia|].
        pose proof (o_fl _ _ _ _ O) as Z. simpl in Z. rewrite app_nil_r in Z. exact Z.
      + rewrite (o_efl _ _ _ _ O). apply cadd_lt. auto.
    - intros i. unfold n2, n'. simpl. rewrite put_same. simpl.
      unfold put. destruct (i =? n_esb n1); reflexivity. }
  split; [|split; [exact K'|]].
  2: { split; [reflexivity|]. unfold n'. simpl. tauto. }
  rewrite E. simpl in O2. apply close_rep; auto.
  rewrite (r_ebn _ _ _ R). unfold n2, n'. simpl. f_equal. symmetry. apply F1.
Qed.
