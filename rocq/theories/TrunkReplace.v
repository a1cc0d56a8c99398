(** * trunk_replace_bundle_branches on abstract nodes *)

From Coq Require Import List Arith NArith Lia Bool.
From Verif Require Import Base TrunkNode TrunkRing TrunkRep TrunkOps TrunkReset TrunkFlush TrunkClear.
Import ListNotations.

(** Bundle [b] replaced by the one subbundle with the branch [br] *)
Definition replaced (A : anode) (X : list (list asub)) (b : list asub) (Y : list (list asub)) (br : branch) : anode :=
  AN (an_whole A) (X ++ [AS true [br] (fls_of b)] :: Y)
     (map (fun p => if ap_boff p <=? length X then p
                    else AP (ap_key p) (ap_gen p) (ap_off p - (nbr b - 1)) (ap_boff p) (ap_filt p)) (an_piv A)) (an_hi A).

Lemma map_ring : forall {A} m (f g : nat -> A) s l l' o,
  (forall i, i < length l -> f (cadd m s (o + i)) = g (cadd m s (o + i))) -> l = l' ->
  ring_is m g (cadd m s o) l -> 0 < m -> ring_is m f (cadd m s o) l'.
Proof.
  intros A m f g s l l' o H <- R Hm i x E. rewrite cadd_cadd by auto.
  assert (i < length l) by (apply nth_error_Some; congruence).
  rewrite H by auto. rewrite <- cadd_cadd by auto. apply R. exact E.
Qed.

Lemma nbr_pos : forall M A X b Y, aok M A -> an_bns A = X ++ b :: Y -> 0 < nbr b /\ b <> [].
Proof.
  intros M A X b Y K E. pose proof (ok_nonempty _ _ K) as H1. pose proof (ok_sub_nonempty _ _ K) as H2.
  unfold subs in H2. rewrite E in H1, H2. apply Forall_app in H1. destruct H1 as [_ H1]. inversion H1; subst.
  rewrite concat_app in H2. apply Forall_app in H2. destruct H2 as [_ H2]. simpl in H2. apply Forall_app in H2. destruct H2 as [H2 _].
  split; auto. destruct b as [|s r]; [congruence|]. inversion H2; subst. rewrite nbr_cons. destruct (as_brs s); [congruence | simpl; lia].
Qed.

Lemma firstn_app_l : forall {A} i (x y : list A), i <= length x -> firstn i (x ++ y) = firstn i x.
Proof. intros A i x y H. rewrite firstn_app. replace (i - length x) with 0 by lia. apply app_nil_r. Qed.
Lemma firstn_app_r : forall {A} i (x y : list A), length x <= i -> firstn i (x ++ y) = x ++ firstn (i - length x) y.
Proof. intros A i x y H. rewrite firstn_app, firstn_all2 by auto. reflexivity. Qed.

Lemma aok_replaced : forall M A X b Y br, aok M A -> an_bns A = X ++ b :: Y -> aok M (replaced A X b Y br).
Proof.
  intros M A X b Y br K E. destruct (nbr_pos _ _ _ _ _ K E) as [Hp Hn].
  assert (L : 1 <= length b) by (destruct b; [congruence | simpl; lia]).
  constructor.
  - pose proof (ok_brs _ _ K) as H. rewrite brs_len in *. unfold subs in *. rewrite E in H. simpl.
    rewrite concat_app in *. simpl in *. rewrite !nbr_app in *. rewrite nbr_cons. simpl. lia.
  - pose proof (ok_bns _ _ K) as H. rewrite E in H. simpl. rewrite app_length in *. exact H.
  - pose proof (ok_subs _ _ K) as H. unfold subs in *. rewrite E in H. simpl. rewrite concat_app in *. simpl in *.
    rewrite !app_length in *. simpl. lia.
  - pose proof (ok_fls _ _ K) as H. unfold fls, subs in *. rewrite E in H. simpl. rewrite concat_app in *. simpl in *.
    rewrite !fls_of_app in *. unfold fls_of at 2. simpl. fold (fls_of (concat Y)). rewrite !app_length in *. lia.
  - pose proof (ok_nonempty _ _ K) as H. rewrite E in H. simpl. apply Forall_app in H. destruct H as [H1 H2]. inversion H2; subst.
    apply Forall_app. split; auto. constructor; auto. discriminate.
  - pose proof (ok_sub_nonempty _ _ K) as H. unfold subs in *. rewrite E in H. simpl. rewrite concat_app in *. simpl in *.
    apply Forall_app in H. destruct H as [H1 H2]. apply Forall_app in H2. destruct H2 as [H2 H3].
    apply Forall_app. split; auto. constructor; auto. discriminate.
  - simpl. apply Forall_map. eapply Forall_impl; [|exact (ok_piv _ _ K)]. intros a Ho.
    unfold off_ok in *. simpl. rewrite E in Ho. rewrite !app_length in *. simpl in *.
    destruct (Nat.leb_spec (ap_boff a) (length X)) as [C | C].
    + destruct Ho as [Ho | (H1 & H2 & H3)]; [left; auto | right]. repeat split; auto.
      rewrite firstn_app_l in * by auto. exact H3.
    + destruct Ho as [Ho | (H1 & H2 & H3)]; [lia | right]. repeat split; auto. simpl.
      rewrite firstn_app_r in * by lia. rewrite concat_app in *.
      destruct (ap_boff a - length X) as [|d] eqn:Ed; [lia|]. simpl in *. rewrite !nbr_app in *. rewrite nbr_cons. simpl. lia.
  - simpl. pose proof (ok_children _ _ K). destruct (an_piv A); [congruence | discriminate].
Qed.

Theorem replace_rep : forall M cfg n A X b Y q br, rep M n A -> aok M A -> an_bns A = X ++ b :: Y ->
  rq_bno q = cadd MAX_BUNDLES (n_sbn n) (length X) ->
  match replace_bundle_branches M cfg n (Some br) q with
  | None => record_counts cfg n (rq_bno q) (Some br) (n_piv n) q = None
  | Some (n', q') =>
      record_counts cfg n (rq_bno q) (Some br) (n_piv n) q = Some q' /\
      rep M n' (replaced A X b Y br) /\ aok M (replaced A X b Y br) /\
      n_id n' = n_id n /\ n_height n' = n_height n /\ n_pgen n' = n_pgen n /\ n_sbn n' = n_sbn n /\ n_ebn n' = n_ebn n
  end.
Proof.
  intros M cfg n A X b Y q br R K E Eq. pose proof (r_sbr _ _ _ R) as M0. assert (Mp : 0 < M) by lia.
  destruct (nbr_pos _ _ _ _ _ K E) as [Hp Hn].
  assert (Lb : 1 <= length b) by (destruct b; [congruence | simpl; lia]).
  pose proof (bundle_entry M n A X Y b R E) as B1.
  pose proof (start_branch_at M n A X Y b R K E) as B2.
  pose proof (end_branch_at M n A X Y b R K E) as B3.
  pose proof (branch_count_at M n A X Y b R K E) as B4.
  pose proof (subbundle_count_at M n A X Y b R K E) as B5.
  pose proof (end_filter_at M n A X Y b R K E) as B6.
  pose proof (bounds M A X Y b K E) as (Z1 & Z2 & Z3 & Z4).
  unfold replace_bundle_branches. rewrite Eq. rewrite B2, B3, B4, B5.
  set (o := length (an_whole A) + nbr (concat X)) in *. set (j := length (concat X)) in *.
  set (bno := cadd MAX_BUNDLES (n_sbn n) (length X)) in *.
  cbv zeta. cbn [bn_ssb bn_esb].
  rewrite B1. cbn [bn_ssb bn_esb].
  match goal with |- context[record_counts cfg ?x bno] => set (n7 := x) end.
  assert (Erc : forall l, record_counts cfg n7 bno (Some br) l q = record_counts cfg n bno (Some br) l q).
  { clear. generalize q. intros q0 l. revert q0. induction l as [|p r IH]; intros q0; simpl; auto. destruct r as [|p' r']; auto.
    replace (bundle_live_for_pivot n7 bno p) with (bundle_live_for_pivot n bno p) by reflexivity.
    destruct (bundle_live_for_pivot n bno p); [|apply IH]. destruct (_ =? _); [reflexivity | apply IH]. }
  replace (n_piv n7) with (n_piv n) by reflexivity.
  rewrite Erc. destruct (record_counts cfg n bno (Some br) (n_piv n) q) as [q'|]; [|reflexivity].
  split; [reflexivity|].
  destruct (r_piv _ _ _ R) as (ps & last & P1 & P2 & P3).
  rewrite (map_children_eq _ n7 ps last) by exact P1.
  set (f := fun p => _).
  match goal with |- rep M ?x _ /\ _ => set (n9 := x) end.
  split; [|split; [apply aok_replaced; auto | repeat split]].
  assert (LA : length (brs A) = o + nbr b + nbr (concat Y)).
  { rewrite brs_len, (subs_split A X Y b E), !nbr_app. unfold o. lia. }
  assert (LA' : length (brs (replaced A X b Y br)) = o + 1 + nbr (concat Y)).
  { rewrite brs_len. unfold subs. simpl. rewrite concat_app, !nbr_app. simpl. rewrite nbr_cons. simpl. unfold o. lia. }
  assert (LS : length (subs A) = j + length b + length (concat Y)).
  { rewrite (subs_split A X Y b E), !app_length. unfold j. lia. }
  assert (LS' : length (subs (replaced A X b Y br)) = j + 1 + length (concat Y)).
  { unfold subs. simpl. rewrite concat_app, app_length. simpl. unfold j. lia. }
  assert (EF : fls (replaced A X b Y br) = fls A).
  { unfold fls. rewrite (subs_split A X Y b E). unfold subs. simpl. rewrite concat_app, !fls_of_app. f_equal. }
  constructor.
  - exact M0.
  - apply R.
  - apply R.
  - apply R.
  - simpl. apply R.
  - unfold n9. simpl. rewrite (r_ebr _ _ _ R), LA, LA'. rewrite csub_cadd_amount by lia. f_equal. lia.
  - unfold n9. simpl. rewrite (r_ebn _ _ _ R), E, !app_length. reflexivity.
  - rewrite LS'. unfold n9. simpl. rewrite (r_esb _ _ _ R), LS. rewrite csub_cadd_amount by (auto; lia). f_equal. lia.
  - rewrite EF. apply R.
  - (* branches *)
    change (n_br n9) with (move_branches M (set_br (put (n_br n) (cadd M (n_sbr n) o) br) n) (cadd M (n_sbr n) (o + nbr b)) (nbr b - 1)).
    change (n_sbr n9) with (n_sbr n).
    unfold move_branches. simpl n_ebr. simpl n_br. rewrite (r_ebr _ _ _ R), LA, cwalk_cadd by lia.
    replace (o + nbr b + nbr (concat Y) - (o + nbr b)) with (nbr (concat Y)) by lia.
    pose proof (move_fold M (n_sbr n) (nbr b - 1) (nbr (concat Y)) (o + nbr b) (put (n_br n) (cadd M (n_sbr n) o) br) Mp ltac:(lia) ltac:(lia)) as (G1 & G2 & _).
    match goal with |- ring_is M ?h _ _ => set (g := h) in * end.
    intros i x Hi.
    assert (Eb' : brs (replaced A X b Y br) = (an_whole A ++ brs_of (concat X)) ++ br :: brs_of (concat Y)).
    { unfold brs, subs. simpl. rewrite concat_app, brs_of_app, app_assoc. reflexivity. }
    assert (Eb : brs A = (an_whole A ++ brs_of (concat X)) ++ brs_of b ++ brs_of (concat Y)).
    { unfold brs. rewrite (subs_split A X Y b E), !brs_of_app, !app_assoc. reflexivity. }
    assert (Lo : length (an_whole A ++ brs_of (concat X)) = o) by (rewrite app_length; reflexivity).
    rewrite Eb' in Hi.
    assert (Li : i < o + 1 + nbr (concat Y)).
    { assert (Hs : nth_error ((an_whole A ++ brs_of (concat X)) ++ br :: brs_of (concat Y)) i <> None) by congruence.
      apply nth_error_Some in Hs. rewrite app_length, Lo in Hs. simpl in Hs. unfold nbr at 1. lia. }
    destruct (Nat.lt_trichotomy i o) as [C | [C | C]].
    + rewrite G2 by lia. rewrite put_other by (intro Q; apply cadd_inj in Q; lia).
      apply (r_br _ _ _ R). rewrite Eb. rewrite nth_error_app1 in * by lia. exact Hi.
    + subst i. rewrite G2 by lia. rewrite put_same. rewrite nth_error_app2 in Hi by lia. rewrite Lo, Nat.sub_diag in Hi. simpl in Hi. congruence.
    + rewrite G1 by lia. rewrite put_other by (intro Q; apply cadd_inj in Q; lia).
      apply (r_br _ _ _ R). rewrite Eb. rewrite nth_error_app2 in Hi by lia. rewrite Lo in Hi.
      rewrite nth_error_app2 by lia. rewrite Lo. rewrite nth_error_app2 by (fold (nbr b); lia). fold (nbr b).
      destruct (i - o) as [|k] eqn:Ek; [lia|]. simpl in Hi. rewrite <- Hi. f_equal. lia.
  - rewrite EF. apply R.
  - (* subbundles *)
    set (s' := SB true (sb_sbr (n_sb n (cadd MAX_SUBBUNDLES (n_ssb n) j))) (cadd M (cadd M (n_sbr n) o) 1)
                  (sb_sfl (n_sb n (cadd MAX_SUBBUNDLES (n_ssb n) j))) (cadd MAX_SB_FILTERS (n_sfl n) (nfl (concat X) + nfl b))).
    assert (Es : n_sb n9 = fold_left
      (fun g i => let s := g i in let s2 := SB (sb_compacted s) (csub M (sb_sbr s) (nbr b - 1)) (csub M (sb_ebr s) (nbr b - 1)) (sb_sfl s) (sb_efl s) in
                  put (put g i s2) (csub MAX_SUBBUNDLES i (length b - 1)) s2)
      (cwalk MAX_SUBBUNDLES (cadd MAX_SUBBUNDLES (n_ssb n) (j + length b)) (n_esb n))
      (put (n_sb n) (cadd MAX_SUBBUNDLES (n_ssb n) j) s')).
    { unfold s'. rewrite <- B6, B1. reflexivity. }
    rewrite Es. clear Es. change (n_ssb n9) with (n_ssb n). change (n_sbr n9) with (n_sbr n). change (n_sfl n9) with (n_sfl n).
    rewrite (r_esb _ _ _ R), LS, cwalk_cadd by (auto; lia).
    replace (j + length b + length (concat Y) - (j + length b)) with (length (concat Y)) by lia.
    pose proof (shift_fold (fun s => SB (sb_compacted s) (csub M (sb_sbr s) (nbr b - 1)) (csub M (sb_ebr s) (nbr b - 1)) (sb_sfl s) (sb_efl s))
                  MAX_SUBBUNDLES (n_ssb n) (length b - 1) (length (concat Y)) (j + length b)
                  (put (n_sb n) (cadd MAX_SUBBUNDLES (n_ssb n) j) s') S0 ltac:(lia) ltac:(lia)) as (G1 & G2 & _).
    match goal with |- ring_is _ ?h _ _ => set (g := h) in * end.
    assert (Esub : subs (replaced A X b Y br) = concat X ++ AS true [br] (fls_of b) :: concat Y).
    { unfold subs. simpl. rewrite concat_app. reflexivity. }
    intros i x Hi.
    assert (Li : i < j + 1 + length (concat Y)).
    { rewrite <- LS'. rewrite <- (sub_entries_length M (n_sbr n) (n_sfl n) (subs (replaced A X b Y br)) (length (an_whole A)) 0).
      apply nth_error_Some. simpl an_whole in Hi. congruence. }
    rewrite Esub, sub_entries_app in Hi. simpl an_whole in Hi. cbn [sub_entries as_brs as_fls as_comp] in Hi.
    pose proof (r_sb _ _ _ R) as Rs. rewrite (subs_split A X Y b E), sub_entries_app in Rs.
    destruct (Nat.lt_trichotomy i j) as [C | [C | C]].
    + rewrite G2 by lia. rewrite put_other by (intro Q; apply cadd_inj in Q; auto; lia).
      apply Rs. rewrite nth_error_app1 in * by (rewrite sub_entries_length; fold j; lia). exact Hi.
    + subst i. rewrite G2 by lia. rewrite put_same. rewrite nth_error_app2 in Hi by (rewrite sub_entries_length; fold j; lia).
      rewrite sub_entries_length in Hi. fold j in Hi. rewrite Nat.sub_diag in Hi. simpl in Hi. injection Hi as <-.
      destruct b as [|s rb]; [congruence|].
      assert (Ej : n_sb n (cadd MAX_SUBBUNDLES (n_ssb n) j) =
        SB (as_comp s) (cadd M (n_sbr n) o) (cadd M (n_sbr n) (o + length (as_brs s))) (cadd MAX_SB_FILTERS (n_sfl n) (nfl (concat X))) (cadd MAX_SB_FILTERS (n_sfl n) (nfl (concat X) + length (as_fls s)))).
      { apply (sub_entry M n A (concat X) s (rb ++ concat Y) R). rewrite (subs_split A X Y _ E). reflexivity. }
      unfold s'. rewrite Ej. cbn [sb_sbr sb_sfl]. rewrite cadd_cadd by auto. f_equal.
    + rewrite G1 by lia. rewrite put_other by (intro Q; apply cadd_inj in Q; auto; lia).
      rewrite nth_error_app2 in Hi by (rewrite sub_entries_length; fold j; lia). rewrite sub_entries_length in Hi. fold j in Hi.
      destruct (i - j) as [|k] eqn:Ek; [lia|]. simpl in Hi.
      rewrite sub_entries_app in Rs. fold o in Hi, Rs. fold (nfl b) in Hi.
      assert (Z : forall l f b1 b2, b1 + (nbr b - 1) = b2 -> forall k x, nth_error (sub_entries M (n_sbr n) (n_sfl n) b1 f l) k = Some x ->
        exists y, nth_error (sub_entries M (n_sbr n) (n_sfl n) b2 f l) k = Some y /\
          x = SB (sb_compacted y) (csub M (sb_sbr y) (nbr b - 1)) (csub M (sb_ebr y) (nbr b - 1)) (sb_sfl y) (sb_efl y)).
      { clear - Z2 Mp Hp. induction l as [|s r IH]; intros f b1 b2 Eb k x H; [destruct k; discriminate|].
        destruct k as [|k]; simpl in *.
        - injection H as <-. eexists. split; [reflexivity|]. simpl. rewrite !csub_cadd_amount by lia. f_equal; f_equal; lia.
        - eapply IH; [|exact H]. lia. }
      destruct (Z (concat Y) _ (o + 1) (o + nbr b) ltac:(lia) k x Hi) as (y & Y1 & Y2).
      subst x. f_equal; try f_equal;
      (assert (Ey : n_sb n (cadd MAX_SUBBUNDLES (n_ssb n) (i + (length b - 1))) = y);
       [apply Rs; rewrite nth_error_app2 by (rewrite sub_entries_length; fold j; lia); rewrite sub_entries_length; fold j;
        rewrite nth_error_app2 by (rewrite sub_entries_length; lia); rewrite sub_entries_length;
        rewrite <- Y1; f_equal; lia | rewrite Ey; reflexivity]).
  - (* bundles *)
    assert (Eb : n_bn n9 = fold_left (fun g i => put g i (BN (csub MAX_SUBBUNDLES (bn_ssb (g i)) (length b - 1)) (csub MAX_SUBBUNDLES (bn_esb (g i)) (length b - 1))))
      (cwalk MAX_BUNDLES (cadd MAX_BUNDLES bno 1) (n_ebn n))
      (put (n_bn n) bno (BN (cadd MAX_SUBBUNDLES (n_ssb n) j) (cadd MAX_SUBBUNDLES (cadd MAX_SUBBUNDLES (n_ssb n) j) 1)))).
    { reflexivity. }
    rewrite Eb. clear Eb. change (n_ssb n9) with (n_ssb n). change (n_sbn n9) with (n_sbn n). simpl an_bns.
    unfold bno. rewrite !cadd_cadd by auto. rewrite (r_ebn _ _ _ R), E, app_length. simpl length.
    rewrite cwalk_cadd by (auto; lia).
    replace (length X + S (length Y) - (length X + 1)) with (length Y) by lia.
    pose proof (update_fold (fun v => BN (csub MAX_SUBBUNDLES (bn_ssb v) (length b - 1)) (csub MAX_SUBBUNDLES (bn_esb v) (length b - 1)))
       MAX_BUNDLES (n_sbn n) (length Y) (length X + 1)
       (put (n_bn n) (cadd MAX_BUNDLES (n_sbn n) (length X)) (BN (cadd MAX_SUBBUNDLES (n_ssb n) j) (cadd MAX_SUBBUNDLES (n_ssb n) (j + 1)))) B0 ltac:(lia)) as (G1 & G2).
    match goal with |- ring_is _ ?h _ _ => set (g := h) in * end.
    intros i x Hi.
    assert (Li : i < length X + S (length Y)).
    { assert (Hs : nth_error (bn_entries (n_ssb n) 0 (X ++ [AS true [br] (fls_of b)] :: Y)) i <> None) by congruence.
      apply nth_error_Some in Hs. rewrite bn_entries_length, app_length in Hs. exact Hs. }
    pose proof (r_bn _ _ _ R) as Rb. rewrite E, bn_entries_app in Rb. rewrite bn_entries_app in Hi. simpl in Hi, Rb. fold j in Hi, Rb.
    destruct (Nat.lt_trichotomy i (length X)) as [C | [C | C]].
    + rewrite G2 by lia. rewrite put_other by (intro Q; apply cadd_inj in Q; auto; lia).
      apply Rb. rewrite nth_error_app1 in * by (rewrite bn_entries_length; lia). exact Hi.
    + subst i. rewrite G2 by lia. rewrite put_same. rewrite nth_error_app2 in Hi by (rewrite bn_entries_length; lia).
      rewrite bn_entries_length, Nat.sub_diag in Hi. simpl in Hi. congruence.
    + rewrite G1 by lia. rewrite put_other by (intro Q; apply cadd_inj in Q; auto; lia).
      rewrite nth_error_app2 in Hi by (rewrite bn_entries_length; lia). rewrite bn_entries_length in Hi.
      destruct (i - length X) as [|k] eqn:Ek; [lia|]. simpl in Hi.
      assert (Z : forall l b1 b2, b1 + (length b - 1) = b2 -> forall k x, nth_error (bn_entries (n_ssb n) b1 l) k = Some x ->
        exists y, nth_error (bn_entries (n_ssb n) b2 l) k = Some y /\
          x = BN (csub MAX_SUBBUNDLES (bn_ssb y) (length b - 1)) (csub MAX_SUBBUNDLES (bn_esb y) (length b - 1))).
      { clear - Z1. induction l as [|s r IH]; intros b1 b2 Eb k x H; [destruct k; discriminate|].
        destruct k as [|k]; simpl in *.
        - injection H as <-. eexists. split; [reflexivity|]. simpl. rewrite !csub_cadd_amount by (auto; lia). f_equal; f_equal; lia.
        - eapply IH; [|exact H]. lia. }
      destruct (Z Y (j + 1) (j + length b) ltac:(lia) k x Hi) as (y & Y1 & Y2).
      assert (Ey : n_bn n (cadd MAX_BUNDLES (n_sbn n) i) = y).
      { apply Rb. rewrite nth_error_app2 by (rewrite bn_entries_length; lia). rewrite bn_entries_length, Ek. simpl. exact Y1. }
      rewrite Ey. congruence.
  - (* pivots *)
    exists (map f ps), last. split; [reflexivity|]. split; [exact P2|]. simpl.
    apply Forall2_map_l, Forall2_map_r. eapply Forall2_impl; [|exact (Forall2_with _ _ _ _ P3 (ok_piv _ _ K))].
    intros p a ((Q1 & Q2 & Q3 & Q4 & Q5) & Ho). pose proof (off_ok_le _ _ _ Ho) as [La _]. rewrite LA in La.
    unfold f, branch_live_for_pivot. change (n_ebr n7) with (n_ebr n). rewrite Q4, (r_ebr _ _ _ R), LA.
    rewrite (csub_cadd M (n_sbr n) (o + nbr b + nbr (concat Y)) (ap_off a)) by lia.
    destruct (Nat.leb_spec (ap_boff a) (length X)) as [C | C].
    + assert (Hle : ap_off a <= o).
      { destruct Ho as [[_ Ho] | (_ & _ & Ho)]; unfold o; [lia|]. rewrite E, firstn_app_l in Ho by auto.
        pose proof (nbr_firstn_le X (ap_boff a) (length X) C) as N. rewrite firstn_all in N. lia. }
      rewrite csub_cadd by lia.
      match goal with |- context[?x <? ?y] => replace (x <? y) with true by (symmetry; apply Nat.ltb_lt; lia) end.
      repeat split; auto.
    + assert (Hge : o + nbr b <= ap_off a).
      { destruct Ho as [[Ho _] | (_ & _ & Ho)]; [lia|]. rewrite E, firstn_app_r in Ho by lia.
        destruct (ap_boff a - length X) as [|k] eqn:Ek; [lia|]. simpl in Ho. rewrite concat_app in Ho. simpl in Ho.
        rewrite !nbr_app in Ho. unfold o. lia. }
      rewrite csub_cadd_back by lia.
      match goal with |- context[?x <? ?y] => replace (x <? y) with false by (symmetry; apply Nat.ltb_ge; lia) end.
      repeat split; simpl; auto. apply csub_cadd_amount; lia.
Qed.

(** ** A bundle compacted to nothing *)

(** The last bundle goes away *)
Definition vanished (A : anode) (X : list (list asub)) (b : list asub) : anode :=
  AN (an_whole A) X
     (map (fun p => if ap_boff p <=? length X then p
                    else AP (ap_key p) (ap_gen p) (ap_off p - nbr b) (ap_boff p - 1) (ap_filt p)) (an_piv A)) (an_hi A).

Lemma aok_vanished : forall M A X b, aok M A -> an_bns A = X ++ [b] -> aok M (vanished A X b).
Proof.
  intros M A X b K E. constructor.
  - pose proof (ok_brs _ _ K) as H. rewrite brs_len in *. unfold subs in *. rewrite E, concat_app, nbr_app in H. simpl. lia.
  - pose proof (ok_bns _ _ K) as H. rewrite E, app_length in H. simpl in *. lia.
  - pose proof (ok_subs _ _ K) as H. unfold subs in *. rewrite E, concat_app, app_length in H. simpl. lia.
  - pose proof (ok_fls _ _ K) as H. unfold fls, subs in *. rewrite E, concat_app, fls_of_app, app_length in H. simpl. lia.
  - pose proof (ok_nonempty _ _ K) as H. rewrite E in H. apply Forall_app in H. apply H.
  - pose proof (ok_sub_nonempty _ _ K) as H. unfold subs in *. rewrite E, concat_app in H. apply Forall_app in H. apply H.
  - simpl. apply Forall_map. eapply Forall_impl; [|exact (ok_piv _ _ K)]. intros a Ho.
    unfold off_ok in *. simpl. rewrite E, app_length in Ho. simpl in Ho.
    destruct (Nat.leb_spec (ap_boff a) (length X)) as [C | C].
    + destruct Ho as [Ho | (H1 & H2 & H3)]; [left; auto | right]. repeat split; auto.
      rewrite firstn_app_l in H3 by auto. exact H3.
    + destruct Ho as [Ho | (H1 & H2 & H3)]; [lia|]. simpl.
      rewrite firstn_app_r in H3 by lia. replace (ap_boff a - length X) with 1 in H3 by lia. simpl in H3.
      rewrite concat_app, nbr_app in H3. simpl in H3. rewrite app_nil_r in H3.
      replace (ap_boff a - 1) with (length X) by lia.
      destruct X as [|x0 X0]; [left; simpl in *; lia|]. right. rewrite firstn_all. simpl length. lia.
  - simpl. pose proof (ok_children _ _ K). destruct (an_piv A); [congruence | discriminate].
Qed.

Lemma set_br_id : forall n, set_br (n_br n) n = n. Proof. intros []. reflexivity. Qed.
Lemma set_fl_id : forall n, set_fl (n_fl n) n = n. Proof. intros []. reflexivity. Qed.
Lemma set_sb_id : forall n, set_sb (n_sb n) n = n. Proof. intros []. reflexivity. Qed.
Lemma set_bn_id : forall n, set_bn (n_bn n) n = n. Proof. intros []. reflexivity. Qed.

Theorem vanish_rep : forall M cfg n A X b q, rep M n A -> aok M A -> an_bns A = X ++ [b] ->
  rq_bno q = cadd MAX_BUNDLES (n_sbn n) (length X) ->
  match replace_bundle_branches M cfg n None q with
  | None => record_counts cfg n (rq_bno q) None (n_piv n) q = None
  | Some (n', q') =>
      record_counts cfg n (rq_bno q) None (n_piv n) q = Some q' /\
      rep M n' (vanished A X b) /\ aok M (vanished A X b) /\
      n_id n' = n_id n /\ n_height n' = n_height n /\ n_pgen n' = n_pgen n /\ n_sbn n' = n_sbn n
  end.
Proof.
  intros M cfg n A X b q R K E Eq. pose proof (r_sbr _ _ _ R) as M0. assert (Mp : 0 < M) by lia.
  destruct (nbr_pos _ _ _ _ _ K E) as [Hp Hn].
  assert (Lb : 1 <= length b) by (destruct b; [congruence | simpl; lia]).
  pose proof (bundle_entry M n A X [] b R E) as B1.
  pose proof (start_branch_at M n A X [] b R K E) as B2.
  pose proof (end_branch_at M n A X [] b R K E) as B3.
  pose proof (branch_count_at M n A X [] b R K E) as B4.
  pose proof (subbundle_count_at M n A X [] b R K E) as B5.
  pose proof (end_filter_at M n A X [] b R K E) as B6.
  pose proof (filter_count_at M n A X [] b R K E) as B7.
  pose proof (bounds M A X [] b K E) as (Z1 & Z2 & Z3 & Z4). simpl in Z1, Z2, Z3, Z4. rewrite nbr_nil in Z2. rewrite nfl_nil in Z3.
  assert (LA : length (brs A) = length (an_whole A) + nbr (concat X) + nbr b).
  { rewrite brs_len, (subs_split A X [] b E), !nbr_app. simpl. rewrite nbr_nil. lia. }
  assert (LS : length (subs A) = length (concat X) + length b).
  { rewrite (subs_split A X [] b E), !app_length. simpl. lia. }
  assert (LF : length (fls A) = nfl (concat X) + nfl b).
  { unfold fls. rewrite (subs_split A X [] b E), !fls_of_app, !app_length. simpl. unfold nfl. lia. }
  assert (LN : length (an_bns A) = length X + 1) by (rewrite E, app_length; reflexivity).
  set (o := length (an_whole A) + nbr (concat X)) in *. set (j := length (concat X)) in *.
  set (bno := cadd MAX_BUNDLES (n_sbn n) (length X)) in *.
  assert (W0 : forall m s i, 0 < m -> cwalk m (cadd m s i) (cadd m s i) = []).
  { intros m s i Hm. rewrite cwalk_cadd by lia. rewrite Nat.sub_diag. reflexivity. }
  set (bd := n_bn n bno) in *.
  assert (E1 : move_branches M n (bundle_end_branch n bd) (bundle_branch_count M n bd) = n_br n).
  { unfold move_branches. rewrite B3, (r_ebr _ _ _ R), LA, W0 by auto. reflexivity. }
  assert (E2 : move_filters n (bundle_end_filter n bd) (bundle_filter_count n bd) = n_fl n).
  { unfold move_filters. rewrite B6, (r_efl _ _ _ R), LF, W0 by auto. reflexivity. }
  set (n3 := set_efl (csub MAX_SB_FILTERS (n_efl n) (bundle_filter_count n bd)) n).
  set (n7 := set_esb (csub MAX_SUBBUNDLES (n_esb n) (bundle_subbundle_count bd)) n3).
  assert (E3 : move_subbundles M n3 (bn_esb bd) (bundle_subbundle_count bd) (bundle_branch_count M n bd) = n_sb n3).
  { unfold move_subbundles, n3. cbn [n_esb n_sb set_efl]. rewrite B1. cbn [bn_esb]. rewrite (r_esb _ _ _ R), LS, W0 by auto. reflexivity. }
  assert (E4 : shift_bundles n7 bno (bundle_subbundle_count bd) = n_bn n7).
  { unfold shift_bundles, bno, n7, n3. cbn [n_ebn n_bn set_efl set_esb]. rewrite cadd_cadd, (r_ebn _ _ _ R), LN, W0 by auto. reflexivity. }
  assert (E5 : vanish_bundles n7 bno = n_bn n7).
  { unfold vanish_bundles, bno, n7, n3. cbn [n_ebn n_bn set_efl set_esb]. rewrite (r_ebn _ _ _ R), LN, csub_cadd_amount by (auto; lia).
    replace (length X + 1 - 1) with (length X) by lia. rewrite W0 by auto. reflexivity. }
  unfold replace_bundle_branches. rewrite Eq. fold bd. cbv zeta.
  rewrite E1, set_br_id, E2, set_fl_id. fold n3. rewrite E3, set_sb_id.
  change (n_esb n3) with (n_esb n). fold n7. rewrite E4, set_bn_id, E5, set_bn_id.
  set (f1 := fun p => if csub MAX_BUNDLES (pv_sbn p) _ <? _ then _ else _).
  assert (Erc : forall l, record_counts cfg n7 bno None l q = record_counts cfg n bno None l q).
  { clear. generalize q. intros q0 l. revert q0. induction l as [|p r IH]; intros q0; simpl; auto. destruct r as [|p' r']; auto.
    replace (bundle_live_for_pivot n7 bno p) with (bundle_live_for_pivot n bno p) by reflexivity.
    destruct (bundle_live_for_pivot n bno p); [|apply IH]. destruct (_ =? _); [reflexivity | apply IH]. }
  replace (n_piv n7) with (n_piv n) by reflexivity.
  rewrite Erc. destruct (record_counts cfg n bno None (n_piv n) q) as [q'|]; [|reflexivity].
  split; [reflexivity|].
  destruct (r_piv _ _ _ R) as (ps & last & P1 & P2 & P3).
  rewrite (map_children_eq f1 n7 ps last) by exact P1.
  set (n8 := set_ebn _ _). set (f2 := fun p => if branch_live_for_pivot M n8 _ p then _ else _).
  rewrite (map_children_eq f2 n8 (map f1 ps) last) by reflexivity.
  match goal with |- rep M ?x _ /\ _ => set (n9 := x) end.
  assert (F9 : n_ebr n9 = csub M (n_ebr n) (bundle_branch_count M n bd) /\ n_ebn n9 = csub MAX_BUNDLES (n_ebn n) 1 /\
    n_esb n9 = csub MAX_SUBBUNDLES (n_esb n) (bundle_subbundle_count bd) /\ n_efl n9 = csub MAX_SB_FILTERS (n_efl n) (bundle_filter_count n bd) /\
    n_br n9 = n_br n /\ n_fl n9 = n_fl n /\ n_sb n9 = n_sb n /\ n_bn n9 = n_bn n /\ n_piv n9 = map f2 (map f1 ps) ++ [last]).
  { repeat split. }
  destruct F9 as (F1 & F2 & F3 & F4 & F5 & F6 & F7 & F8 & F10).
  split; [|split; [apply aok_vanished; auto | repeat split]].
  assert (EB : brs A = brs (vanished A X b) ++ brs_of b).
  { unfold brs. rewrite (subs_split A X [] b E). simpl. rewrite app_nil_r, brs_of_app, app_assoc. reflexivity. }
  assert (ES : subs A = subs (vanished A X b) ++ b).
  { rewrite (subs_split A X [] b E). simpl. rewrite app_nil_r. reflexivity. }
  assert (EF : fls A = fls (vanished A X b) ++ fls_of b).
  { unfold fls. rewrite ES, fls_of_app. reflexivity. }
  assert (LB' : length (brs (vanished A X b)) = o) by (unfold brs; rewrite app_length; reflexivity).
  assert (LS' : length (subs (vanished A X b)) = j) by reflexivity.
  assert (LF' : length (fls (vanished A X b)) = nfl (concat X)) by reflexivity.
  constructor.
  - exact M0.
  - apply R.
  - apply R.
  - apply R.
  - simpl. apply R.
  - rewrite F1, B4, LB', (r_ebr _ _ _ R), LA. change (n_sbr n9) with (n_sbr n). rewrite csub_cadd_amount by lia. f_equal. lia.
  - rewrite F2, (r_ebn _ _ _ R), LN. change (n_sbn n9) with (n_sbn n). rewrite csub_cadd_amount by (auto; lia). f_equal. simpl. lia.
  - rewrite F3, B5, LS', (r_esb _ _ _ R), LS. change (n_ssb n9) with (n_ssb n). rewrite csub_cadd_amount by (auto; lia). f_equal. lia.
  - rewrite F4, B7, LF', (r_efl _ _ _ R), LF. change (n_sfl n9) with (n_sfl n). rewrite csub_cadd_amount by (auto; lia). f_equal. lia.
  - rewrite F5. change (n_sbr n9) with (n_sbr n). pose proof (r_br _ _ _ R) as Z. rewrite EB in Z. apply ring_app in Z; auto. apply Z.
  - rewrite F6. change (n_sfl n9) with (n_sfl n). pose proof (r_fl _ _ _ R) as Z. rewrite EF in Z. apply ring_app in Z; auto. apply Z.
  - rewrite F7. change (n_sfl n9) with (n_sfl n). change (n_ssb n9) with (n_ssb n). change (n_sbr n9) with (n_sbr n).
    pose proof (r_sb _ _ _ R) as Z. rewrite ES, sub_entries_app in Z. apply ring_app in Z; auto. apply Z.
  - rewrite F8. change (n_ssb n9) with (n_ssb n). change (n_sbn n9) with (n_sbn n).
    pose proof (r_bn _ _ _ R) as Z. rewrite E, bn_entries_app in Z. apply ring_app in Z; auto. apply Z.
  - exists (map f2 (map f1 ps)), last. split; [exact F10|]. split; [exact P2|]. simpl.
    apply Forall2_map_l, Forall2_map_l, Forall2_map_r. eapply Forall2_impl; [|exact (Forall2_with _ _ _ _ P3 (ok_piv _ _ K))].
    intros p a ((Q1 & Q2 & Q3 & Q4 & Q5) & Ho). pose proof (off_ok_le _ _ _ Ho) as [La Lba]. rewrite LA in La. rewrite LN in Lba.
    assert (Hf1 : f1 p = if ap_boff a <=? length X then p else PV (pv_key p) (pv_gen p) (pv_sbr p) (csub MAX_BUNDLES (pv_sbn p) 1) (pv_filt p)).
    { unfold f1. change (n_ebn n7) with (n_ebn n). unfold bno. rewrite Q5, (r_ebn _ _ _ R), LN, !cadd_cadd by auto.
      rewrite (csub_cadd _ _ (length X + 1 + 1) (length X + 1)) by (auto; lia).
      destruct (Nat.leb_spec (ap_boff a) (length X)) as [C | C].
      - rewrite csub_cadd_back by (auto; lia).
        match goal with |- context[?x <? ?y] => replace (x <? y) with false by (symmetry; apply Nat.ltb_ge; lia) end. reflexivity.
      - rewrite csub_cadd by (auto; lia).
        match goal with |- context[?x <? ?y] => replace (x <? y) with true by (symmetry; apply Nat.ltb_lt; lia) end. reflexivity. }
    assert (Hs : pv_sbr (f1 p) = pv_sbr p) by (rewrite Hf1; destruct (_ <=? _); reflexivity).
    unfold f2, branch_live_for_pivot. rewrite Hs. change (n_ebr n8) with (n_ebr n). rewrite B2, B4, Q4, (r_ebr _ _ _ R), LA.
    rewrite (csub_cadd M (n_sbr n) (o + nbr b) (ap_off a)) by lia.
    rewrite Hf1. destruct (Nat.leb_spec (ap_boff a) (length X)) as [C | C].
    + assert (Hle : ap_off a <= o).
      { destruct Ho as [[_ Ho] | (_ & _ & Ho)]; unfold o; [lia|]. rewrite E, firstn_app_l in Ho by auto.
        pose proof (nbr_firstn_le X (ap_boff a) (length X) C) as N. rewrite firstn_all in N. lia. }
      rewrite csub_cadd by lia.
      match goal with |- context[?x <? ?y] => replace (x <? y) with true by (symmetry; apply Nat.ltb_lt; lia) end.
      repeat split; auto.
    + assert (Hge : o + nbr b <= ap_off a).
      { destruct Ho as [[Ho _] | (_ & _ & Ho)]; [lia|]. rewrite E, firstn_app_r in Ho by lia.
        destruct (ap_boff a - length X) as [|k] eqn:Ek; [lia|]. simpl in Ho. rewrite concat_app in Ho. simpl in Ho.
        rewrite !nbr_app in Ho. unfold o. lia. }
      rewrite csub_cadd_back by lia.
      match goal with |- context[?x <? ?y] => replace (x <? y) with false by (symmetry; apply Nat.ltb_ge; lia) end.
      repeat split; simpl; auto.
      * apply csub_cadd_amount; lia.
      * rewrite Q5. apply csub_cadd_amount; auto; lia.
Qed.
