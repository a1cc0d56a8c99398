(** * trunk_clear_bundle and trunk_replace_routing_filter on abstract nodes *)

From Coq Require Import List Arith NArith Lia Bool.
From Verif Require Import Base TrunkNode TrunkRing TrunkRep TrunkOps TrunkReset TrunkFlush.
Import ListNotations.

Lemma map_first_app : forall {A} (f : A -> A) l l', map_first (length l) f (l ++ l') = map f l ++ l'.
Proof. intros A f l l'. induction l as [|x r IH]; simpl; [destruct l'; reflexivity | rewrite IH; reflexivity]. Qed.

Lemma map_children_eq : forall f n ps last, n_piv n = ps ++ [last] -> map_children f n = set_piv (map f ps ++ [last]) n.
Proof.
  intros f n ps last E. unfold map_children. destruct (children_pivots_eq n ps last E) as [_ ->].
  rewrite E, map_first_app. reflexivity.
Qed.

Lemma Forall2_map_l : forall {A B C} (P : C -> B -> Prop) (f : A -> C) l l', Forall2 (fun a b => P (f a) b) l l' -> Forall2 P (map f l) l'.
Proof. intros A B C P f l l' F. induction F; simpl; constructor; auto. Qed.
Lemma Forall2_map_r : forall {A B C} (P : A -> C -> Prop) (f : B -> C) l l', Forall2 (fun a b => P a (f b)) l l' -> Forall2 P l (map f l').
Proof. intros A B C P f l l' F. induction F; simpl; constructor; auto. Qed.
Lemma Forall2_with : forall {A B} (P : A -> B -> Prop) (Q : B -> Prop) l l', Forall2 P l l' -> Forall Q l' -> Forall2 (fun a b => P a b /\ Q b) l l'.
Proof. intros A B P Q l l' F. induction F; intros G; inversion G; subst; constructor; auto. Qed.

(** The first bundle's branches become whole *)
Definition clear_first (A : anode) (b : list asub) (r : list (list asub)) : anode :=
  AN (an_whole A ++ brs_of b) r
     (map (fun p => AP (ap_key p) (ap_gen p) (ap_off p) (ap_boff p - 1) (ap_filt p)) (an_piv A)) (an_hi A).

Lemma brs_clear_first : forall A b r, an_bns A = b :: r -> brs (clear_first A b r) = brs A.
Proof. intros A b r E. unfold brs, subs. rewrite E. simpl. rewrite brs_of_app, app_assoc. reflexivity. Qed.

Lemma aok_clear_first : forall M A b r, an_bns A = b :: r -> aok M A -> aok M (clear_first A b r).
Proof.
  intros M A b r E K. constructor.
  - rewrite (brs_clear_first A b r E). apply K.
  - simpl. pose proof (ok_bns _ _ K) as H. rewrite E in H. simpl in H. lia.
  - pose proof (ok_subs _ _ K) as H. unfold subs in *. rewrite E in H. simpl in *. rewrite app_length in H. lia.
  - pose proof (ok_fls _ _ K) as H. unfold fls, subs in *. rewrite E in H. simpl in *. rewrite fls_of_app, app_length in H. lia.
  - pose proof (ok_nonempty _ _ K) as H. rewrite E in H. inversion H; auto.
  - pose proof (ok_sub_nonempty _ _ K) as H. unfold subs in *. rewrite E in H. simpl in H. apply Forall_app in H. apply H.
  - simpl. apply Forall_map. eapply Forall_impl; [|exact (ok_piv _ _ K)]. intros a H. simpl. unfold off_ok in *. simpl.
    rewrite app_length. fold (nbr b). rewrite E in H. simpl in H.
    destruct H as [[H1 H2] | (H1 & H2 & H3)]; [left; lia|].
    destruct (ap_boff a) as [|bo]; [lia|]. simpl in H3 |- *. rewrite nbr_app in H3. rewrite Nat.sub_0_r.
    destruct bo as [|bo]; [left; split; auto; simpl in H3; rewrite nbr_nil in H3; lia | right; lia].
  - simpl. pose proof (ok_children _ _ K). destruct (an_piv A); [congruence | discriminate].
Qed.

Theorem clear_bundle_rep : forall M n A b r i, rep M n A -> aok M A -> an_bns A = b :: r ->
  match clear_bundle n i with
  | None => i <> n_sbn n
  | Some n' => i = n_sbn n /\ rep M n' (clear_first A b r) /\ aok M (clear_first A b r) /\
      n_id n' = n_id n /\ n_height n' = n_height n /\ n_pgen n' = n_pgen n /\
      n_sbn n' = cadd MAX_BUNDLES (n_sbn n) 1 /\ n_ebn n' = n_ebn n
  end.
Proof.
  intros M n A b r i R K E. unfold clear_bundle. destruct (Nat.eqb_spec i (n_sbn n)) as [-> | N]; [|exact N].
  split; [reflexivity|]. pose proof (r_sbr _ _ _ R) as M0. assert (Mp : 0 < M) by lia.
  assert (Eb : an_bns A = [] ++ b :: r) by exact E.
  pose proof (bundle_entry M n A [] r b R Eb) as B1. simpl in B1. rewrite cadd_0 in B1 by apply R.
  pose proof (end_filter_at M n A [] r b R K Eb) as B2. simpl in B2. rewrite cadd_0 in B2 by apply R.
  pose proof (ok_bns _ _ K) as Hbn. rewrite E in Hbn. simpl in Hbn.
  pose proof (ok_brs _ _ K) as Hbr.
  set (n1 := inc_start_bundle (bundle_clear_subbundles n (n_bn n (n_sbn n)))).
  destruct (r_piv _ _ _ R) as (ps & last & P1 & P2 & P3).
  set (f := fun p => _).
  assert (Em : map_children f n1 = set_piv (map f ps ++ [last]) n1) by (apply map_children_eq; exact P1).
  rewrite Em. set (n2 := set_piv _ n1).
  assert (Hssb : n_ssb n2 = cadd MAX_SUBBUNDLES (n_ssb n) (length b)).
  { unfold n2, n1, bundle_clear_subbundles. rewrite B1. reflexivity. }
  assert (Hsfl : n_sfl n2 = cadd MAX_SB_FILTERS (n_sfl n) (nfl b)).
  { unfold n2, n1, bundle_clear_subbundles. rewrite B2. reflexivity. }
  assert (Hsbn : n_sbn n2 = cadd MAX_BUNDLES (n_sbn n) 1) by reflexivity.
  assert (Hf : Forall2 (piv_rep M n2) (map f ps) (an_piv (clear_first A b r))).
  { simpl. apply Forall2_map_l, Forall2_map_r. eapply Forall2_impl; [|exact (Forall2_with _ _ _ _ P3 (ok_piv _ _ K))].
    intros p a ((Q1 & Q2 & Q3 & Q4 & Q5) & Ho). pose proof (off_ok_le _ _ _ Ho) as [_ Lb]. rewrite E in Lb. simpl in Lb.
    unfold f, bundle_valid. replace (n_sbn n1) with (cadd MAX_BUNDLES (n_sbn n) 1) by reflexivity.
    replace (n_ebn n1) with (n_ebn n) by reflexivity. rewrite Q5, (r_ebn _ _ _ R), E.
    rewrite (csub_cadd _ _ (length (b :: r)) 1) by (auto; simpl; lia).
    destruct (ap_boff a) as [|bo] eqn:Ebo.
    - rewrite csub_cadd_back by (auto; lia). simpl length.
      match goal with |- context[?x <=? ?y] => replace (x <=? y) with false by (symmetry; apply Nat.leb_gt; lia) end.
      repeat split; simpl; auto. unfold n2. simpl. rewrite cadd_0; auto.
    - rewrite csub_cadd by (auto; lia). simpl length.
      match goal with |- context[?x <=? ?y] => replace (x <=? y) with true by (symmetry; apply Nat.leb_le; lia) end.
      repeat split; simpl; auto. unfold n2. simpl. rewrite cadd_cadd by auto. rewrite Q5. f_equal. lia. }
  assert (Ef : reset_start_frac_branch n2 = set_sfrac (cadd M (n_sbr n) (length (an_whole A ++ brs_of b))) n2).
  { unfold reset_start_frac_branch. rewrite Hsbn. replace (n_ebn n2) with (n_ebn n) by reflexivity.
    rewrite (r_ebn _ _ _ R), E. rewrite csub_cadd by (auto; simpl; lia). simpl length.
    destruct (Nat.eqb_spec (S (length r) - 1) 0) as [Z | Z].
    - f_equal. replace (n_ebr n2) with (n_ebr n) by reflexivity. rewrite (r_ebr _ _ _ R). f_equal.
      destruct r; [|simpl in Z; lia]. unfold brs, subs. rewrite E. simpl. rewrite app_nil_r. reflexivity.
    - f_equal. destruct r as [|c r']; [simpl in Z; lia|].
      assert (Ec : an_bns A = [b] ++ c :: r') by exact E.
      pose proof (start_branch_at M n A [b] r' c R K Ec) as Y. simpl in Y. rewrite app_nil_r in Y.
      unfold bundle_start_branch in *. replace (n_bn n2) with (n_bn n) by reflexivity. replace (n_sb n2) with (n_sb n) by reflexivity.
      rewrite Y, app_length. reflexivity. }
  rewrite Ef. split; [|split; [apply aok_clear_first; auto | repeat split]].
  assert (Ebrs : brs (clear_first A b r) = brs A) by (apply brs_clear_first; exact E).
  constructor; try (simpl; auto; fail).
  - unfold set_sfrac. cbn [n_ssb]. rewrite Hssb. auto.
  - unfold set_sfrac. cbn [n_sfl]. rewrite Hsfl. auto.
  - rewrite Ebrs. apply R.
  - unfold set_sfrac. cbn [n_ebn n_sbn]. rewrite Hsbn. replace (n_ebn n2) with (n_ebn n) by reflexivity.
    rewrite (r_ebn _ _ _ R), cadd_cadd, E by auto. reflexivity.
  - unfold set_sfrac. cbn [n_esb n_ssb]. rewrite Hssb, cadd_cadd by auto. replace (n_esb n2) with (n_esb n) by reflexivity.
    rewrite (r_esb _ _ _ R). f_equal. unfold subs. rewrite E. simpl. apply app_length.
  - unfold set_sfrac. cbn [n_efl n_sfl]. rewrite Hsfl, cadd_cadd by auto. replace (n_efl n2) with (n_efl n) by reflexivity.
    rewrite (r_efl _ _ _ R). f_equal. unfold fls, subs. rewrite E. simpl. rewrite fls_of_app, app_length. reflexivity.
  - rewrite Ebrs. apply R.
  - unfold set_sfrac. cbn [n_fl n_sfl]. rewrite Hsfl.
    pose proof (ring_skip _ _ _ _ (nfl b) F0 (r_fl _ _ _ R)) as Y. unfold fls, subs in *. rewrite E in Y. simpl in Y.
    rewrite fls_of_app in Y. unfold nfl in Y at 2. rewrite skipn_app_exact in Y. exact Y.
  - unfold set_sfrac. cbn [n_sb n_ssb n_sbr n_sfl]. rewrite Hssb, Hsfl.
    pose proof (ring_skip _ _ _ _ (length b) S0 (r_sb _ _ _ R)) as Y.
    unfold subs in Y. rewrite E in Y. simpl concat in Y. rewrite sub_entries_app in Y.
    rewrite <- (sub_entries_length M (n_sbr n) (n_sfl n) b (length (an_whole A)) 0) in Y at 2.
    rewrite skipn_app_exact in Y. simpl an_whole. rewrite app_length. fold (nbr b).
    replace (n_sbr n2) with (cadd M (n_sbr n) 0) by (unfold n2; simpl; apply cadd_0; auto).
    rewrite sub_entries_base by auto. rewrite Nat.add_0_r. exact Y.
  - unfold set_sfrac. cbn [n_bn n_sbn n_ssb]. rewrite Hssb, Hsbn, bn_entries_base, Nat.add_0_r.
    pose proof (ring_skip _ _ _ _ 1 B0 (r_bn _ _ _ R)) as Y. rewrite E in Y. exact Y.
  - exists (map f ps), last. split; [reflexivity|]. split; [exact P2 | exact Hf].
Qed.

(** ** New filters for the pivots *)

Definition set_filts (A : anode) (fs : list filt) : anode :=
  AN (an_whole A) (an_bns A)
     (map (fun pf => AP (ap_key (fst pf)) (ap_gen (fst pf)) (ap_off (fst pf)) (ap_boff (fst pf)) (snd pf)) (combine (an_piv A) fs)) (an_hi A).

Lemma bundle_live_for_pivot_eq : forall M n A p a j, rep M n A -> aok M A -> piv_rep M n p a -> off_ok A (ap_off a) (ap_boff a) ->
  j < length (an_bns A) -> bundle_live_for_pivot n (cadd MAX_BUNDLES (n_sbn n) j) p = (ap_boff a <=? j).
Proof.
  intros M n A p a j R K (_ & _ & _ & _ & Q5) Ho Hj. unfold bundle_live_for_pivot. rewrite Q5, (r_ebn _ _ _ R).
  apply off_ok_le in Ho. destruct Ho as [_ Lb]. pose proof (ok_bns _ _ K) as Hb.
  rewrite (csub_cadd _ _ (length (an_bns A)) (ap_boff a)) by (auto; lia).
  destruct (Nat.leb_spec (ap_boff a) j) as [C | C].
  - rewrite csub_cadd by (auto; lia). apply Nat.ltb_lt. lia.
  - rewrite csub_cadd_back by (auto; lia). apply Nat.ltb_ge. lia.
Qed.

Lemma bundle_live_eq : forall M n A j, rep M n A -> aok M A -> j < length (an_bns A) ->
  bundle_live n (cadd MAX_BUNDLES (n_sbn n) j) = true.
Proof.
  intros M n A j R K Hj. unfold bundle_live. pose proof (ok_bns _ _ K). rewrite (r_ebn _ _ _ R), !csub_base by (try apply R; lia).
  apply Nat.ltb_lt. lia.
Qed.
(** A live bundle number is that of a bundle *)
Lemma bundle_live_inv : forall M n A i, rep M n A -> aok M A -> i < MAX_BUNDLES -> bundle_live n i = true ->
  exists j, j < length (an_bns A) /\ i = cadd MAX_BUNDLES (n_sbn n) j.
Proof.
  intros M n A i R K Hi H. unfold bundle_live in H. pose proof (ok_bns _ _ K). pose proof (r_sbn _ _ _ R) as Hs.
  rewrite (r_ebn _ _ _ R), csub_base in H by (try apply R; lia). apply Nat.ltb_lt in H.
  exists (csub MAX_BUNDLES i (n_sbn n)). split; auto.
  Transparent csub cadd. unfold csub, cadd in *. Opaque csub cadd.
  destruct (Nat.le_gt_cases (n_sbn n) i) as [C | C].
  - replace (i + MAX_BUNDLES - n_sbn n) with ((i - n_sbn n) + 1 * MAX_BUNDLES) by lia.
    rewrite Nat.mod_add by lia. rewrite (Nat.mod_small (i - n_sbn n)) by lia. rewrite Nat.mod_small; lia.
  - rewrite (Nat.mod_small (i + MAX_BUNDLES - n_sbn n)) by lia.
    replace (n_sbn n + (i + MAX_BUNDLES - n_sbn n)) with (i + 1 * MAX_BUNDLES) by lia.
    rewrite Nat.mod_add by lia. rewrite Nat.mod_small; lia.
Qed.
