(** * Splits on abstract nodes *)

From Coq Require Import List Arith NArith Lia Bool.
From Verif Require Import Base TrunkNode TrunkRing TrunkRep TrunkOps TrunkReset TrunkFlush TrunkClear.
Import ListNotations.

(** ** Rebundling a leaf *)

Lemma csub_one : forall m s, s < m -> csub m s 1 < m /\ cadd m (csub m s 1) 1 = s.
Proof.
  intros m s H. Transparent csub cadd. unfold csub, cadd. Opaque csub cadd.
  split; [apply Nat.mod_upper_bound; lia|].
  rewrite Nat.add_mod_idemp_l by lia. replace (s + m - 1 + 1) with (s + 1 * m) by lia.
  rewrite Nat.mod_add by lia. apply Nat.mod_small. exact H.
Qed.

Lemma csub_self : forall m s, s < m -> csub m s s = 0.
Proof. intros m s H. pose proof (csub_base m s 0 H ltac:(lia)) as E. rewrite cadd_0 in E by exact H. exact E. Qed.

Lemma ring_cons : forall {A} m (f : nat -> A) s l x, s < m -> S (length l) <= m -> ring_is m f (cadd m s 1) l ->
  ring_is m (put f s x) s (x :: l).
Proof.
  intros A m f s l x Hs Hl R i y E. destruct i as [|i]; simpl in E.
  - injection E as ->. rewrite cadd_0 by auto. apply put_same.
  - assert (i < length l) by (apply nth_error_Some; congruence).
    rewrite put_other.
    + specialize (R i y E). rewrite cadd_cadd in R by lia. exact R.
    + intro Q. rewrite <- (cadd_0 m s) in Q at 2 by auto. apply cadd_inj in Q; lia.
Qed.

Lemma Forall2_firstn : forall {A B} (P : A -> B -> Prop) t l l', Forall2 P l l' -> Forall2 P (firstn t l) (firstn t l').
Proof. intros A B P t l l' F. revert t. induction F; intros [|t]; simpl; constructor; auto. Qed.
Lemma Forall2_skipn : forall {A B} (P : A -> B -> Prop) t l l', Forall2 P l l' -> Forall2 P (skipn t l) (skipn t l').
Proof. intros A B P t l l' F. revert t. induction F; intros [|t]; simpl; try constructor; auto. Qed.
Lemma firstn_app_l' : forall {A} i (x y : list A), i <= length x -> firstn i (x ++ y) = firstn i x.
Proof. intros A i x y H. rewrite firstn_app. replace (i - length x) with 0 by lia. apply app_nil_r. Qed.
Lemma skipn_app_l' : forall {A} i (x y : list A), i <= length x -> skipn i (x ++ y) = skipn i x ++ y.
Proof. intros A i x y H. rewrite skipn_app. replace (i - length x) with 0 by lia. reflexivity. Qed.

Definition rebundled (A : anode) (a : apiv) (g : nat) : anode :=
  match an_whole A with
  | [] => AN [] [subs A] [AP (ap_key a) g 0 0 (ap_filt a)] (an_hi A)
  | W => AN [] [AS false W [ap_filt a] :: subs A] [AP (ap_key a) g 0 0 []] (an_hi A)
  end.

Lemma rebundle_tail : forall M A0 n l bno p last,
  (* [n]: the node with the subbundles [l], all its branches, before the bundle is written *)
  n_sbr n < M -> bno < MAX_BUNDLES -> n_ssb n < MAX_SUBBUNDLES -> n_sfl n < MAX_SB_FILTERS ->
  n_ebr n = cadd M (n_sbr n) (nbr l) -> n_ebn n = cadd MAX_BUNDLES bno 1 ->
  n_esb n = cadd MAX_SUBBUNDLES (n_ssb n) (length l) -> n_efl n = cadd MAX_SB_FILTERS (n_sfl n) (nfl l) ->
  ring_is M (n_br n) (n_sbr n) (brs_of l) -> ring_is MAX_SB_FILTERS (n_fl n) (n_sfl n) (fls_of l) ->
  ring_is MAX_SUBBUNDLES (n_sb n) (n_ssb n) (sub_entries M (n_sbr n) (n_sfl n) 0 0 l) ->
  n_piv n = [p; last] -> pv_key last = an_hi A0 -> pv_sbr p = n_sbr n ->
  let n7 := set_sfrac (n_sbr n) (set_sbn bno (set_bn (put (n_bn n) bno (BN (n_ssb n) (n_esb n))) n)) in
  rep M (set_pgen (S (n_pgen n)) (set_pivot_at n7 0 (PV (pv_key p) (n_pgen n) (pv_sbr p) bno (pv_filt p))))
      (AN [] [l] [AP (pv_key p) (n_pgen n) 0 0 (pv_filt p)] (an_hi A0)).
Proof.
  intros M A0 n l bno p last H1 H2 H3 H4 H5 H6 H7 H8 H9 H10 H11 H12 H13 H14 n7.
  set (A1 := AN [] [l] _ _).
  assert (E1 : subs A1 = l) by (unfold subs; simpl; apply app_nil_r).
  assert (E2 : brs A1 = brs_of l) by (unfold brs; rewrite E1; reflexivity).
  assert (E3 : fls A1 = fls_of l) by (unfold fls; rewrite E1; reflexivity).
  constructor; rewrite ?E1, ?E2, ?E3; simpl; auto.
  - rewrite cadd_0; auto.
  - intros i x E. destruct i as [|i]; [|destruct i; discriminate]. injection E as <-. rewrite !cadd_0 by auto. rewrite put_same. rewrite H7. reflexivity.
  - exists [PV (pv_key p) (n_pgen n) (pv_sbr p) bno (pv_filt p)], last. rewrite H12. split; [reflexivity|]. split; [exact H13|].
    constructor; [|constructor]. repeat split; simpl; auto; rewrite cadd_0; auto.
Qed.

Definition rebundle_step (M : nat) (n1 : node) : option node :=
  if branch_is_whole M n1 (n_sbr n1) then
    match leaf_new_subbundle_at_head n1, get_pivot n1 0 with
    | Some (sno, n2), Some p =>
        let s := n_sb n2 sno in
        let s' := SB false (n_sbr n2) (n_sfrac n2) (sb_sfl s) (sb_efl s) in
        let n3 := set_sb (put (n_sb n2) sno s') n2 in
        let n4 := set_fl (put (n_fl n3) (cadd MAX_SB_FILTERS (sb_sfl s') 0) (pv_filt p)) n3 in
        Some (set_pivot_at n4 0 (PV (pv_key p) (pv_gen p) (pv_sbr p) (pv_sbn p) []))
    | _, _ => None
    end
  else Some n1.
Definition rebundle_end (bno : nat) (n5 : node) : option (nat * node) :=
  let n6 := set_bn (put (n_bn n5) bno (BN (n_ssb n5) (n_esb n5))) n5 in
  let n7 := set_sfrac (n_sbr n6) (set_sbn bno n6) in
  match get_pivot n7 0 with
  | None => None
  | Some p => Some (bno, set_pgen (S (n_pgen n7))
                           (set_pivot_at n7 0 (PV (pv_key p) (n_pgen n7) (pv_sbr p) bno (pv_filt p))))
  end.
Lemma leaf_rebundle_eq : forall M n, leaf_rebundle M n =
  match get_new_bundle n with
  | None => None
  | Some (bno, n1) => match rebundle_step M n1 with None => None | Some n5 => rebundle_end bno n5 end
  end.
Proof. reflexivity. Qed.

Lemma rebundle_end_eq : forall bno n p last, n_piv n = [p; last] ->
  rebundle_end bno n = Some (bno, set_pgen (S (n_pgen n)) (set_pivot_at (set_sfrac (n_sbr n) (set_sbn bno (set_bn (put (n_bn n) bno (BN (n_ssb n) (n_esb n))) n))) 0
     (PV (pv_key p) (n_pgen n) (pv_sbr p) bno (pv_filt p)))).
Proof. intros bno n p last E. unfold rebundle_end, get_pivot. simpl. rewrite E. reflexivity. Qed.

Lemma rebundle_step_whole : forall M n p last, n_piv n = [p; last] -> branch_is_whole M n (n_sbr n) = true ->
  let no := csub MAX_SUBBUNDLES (n_ssb n) 1 in
  let f0 := csub MAX_SB_FILTERS (n_sfl n) 1 in
  match rebundle_step M n with
  | None => no = n_esb n \/ f0 = n_efl n
  | Some n5 => no <> n_esb n /\ f0 <> n_efl n /\
      n_id n5 = n_id n /\ n_height n5 = n_height n /\ n_pgen n5 = n_pgen n /\
      n_sbr n5 = n_sbr n /\ n_ebr n5 = n_ebr n /\ n_ebn n5 = n_ebn n /\ n_ssb n5 = no /\ n_esb n5 = n_esb n /\
      n_sfl n5 = f0 /\ n_efl n5 = n_efl n /\ n_br n5 = n_br n /\
      (f0 < MAX_SB_FILTERS -> n_fl n5 = put (n_fl n) f0 (pv_filt p)) /\
      (forall i, n_sb n5 i = put (n_sb n) no (SB false (n_sbr n) (n_sfrac n) f0 (n_sfl n)) i) /\
      n_piv n5 = [PV (pv_key p) (pv_gen p) (pv_sbr p) (pv_sbn p) []; last]
  end.
Proof.
  intros M n p last Ep Ew no f0. unfold rebundle_step. rewrite Ew. unfold leaf_new_subbundle_at_head. fold no. rewrite SF. fold f0.
  unfold get_pivot. rewrite Ep. cbn [nth_error].
  destruct (Nat.eqb_spec no (n_esb n)) as [E1 | E1]; [left; exact E1|].
  destruct (Nat.eqb_spec f0 (n_efl n)) as [E2 | E2]; [right; exact E2|].
  split; [exact E1|]. split; [exact E2|].
  cbn [n_sb set_sb n_id n_height n_pgen n_sbr n_ebr n_ebn n_ssb n_esb n_sfl n_efl n_br n_fl n_piv set_fl set_pivot_at set_piv set_ssb set_sfl n_sfrac].
  rewrite put_same. cbn [sb_sfl sb_efl].
  repeat split; auto.
  - intro L. rewrite cadd_0 by exact L. reflexivity.
  - intro i. unfold put. destruct (i =? no); reflexivity.
  - rewrite Ep. reflexivity.
Qed.

Theorem leaf_rebundle_rep : forall M n A a, rep M n A -> aok M A -> an_piv A = [a] -> ap_off a = 0 -> ap_boff a = 0 ->
  brs A <> [] ->
  match leaf_rebundle M n with
  | None => S (length (an_bns A)) = MAX_BUNDLES \/ S (length (subs A)) = MAX_SUBBUNDLES \/ S (length (fls A)) = MAX_SB_FILTERS
  | Some (bno, n') =>
      bno = n_ebn n /\ rep M n' (rebundled A a (n_pgen n)) /\ aok M (rebundled A a (n_pgen n)) /\
      n_id n' = n_id n /\ n_height n' = n_height n /\ n_pgen n' = S (n_pgen n) /\ n_sbn n' = n_ebn n
  end.
Proof.
  intros M n A a R K Ep Eo Eb Hne. rewrite leaf_rebundle_eq.
  pose proof (get_new_bundle_rep M n A R K) as G.
  destruct (get_new_bundle n) as [[bno n1]|] eqn:E1; [|left; exact G].
  destruct G as (-> & _ & HB).
  assert (En1 : n1 = set_ebn (cadd MAX_BUNDLES (n_ebn n) 1) n).
  { unfold get_new_bundle in E1. destruct (_ =? _); inversion E1. reflexivity. }
  clear E1. pose proof (r_sbr _ _ _ R) as M0. assert (Mp : 0 < M) by lia.
  destruct (r_piv _ _ _ R) as (ps & last & P1 & P2 & P3). rewrite Ep in P3.
  inversion P3 as [|p a0 ps' as' Hp Hps]; subst ps a0 as'. inversion Hps; subst ps'. clear P3 Hps. simpl in P1.
  destruct Hp as (Q1 & Q2 & Q3 & Q4 & Q5). rewrite Eo, cadd_0 in Q4 by auto.
  pose proof (ok_brs _ _ K) as KB. pose proof (ok_subs _ _ K) as KS. pose proof (ok_fls _ _ K) as KF. pose proof (ok_bns _ _ K) as KN.
  assert (HbN : n_ebn n < MAX_BUNDLES) by (rewrite (r_ebn _ _ _ R); auto).
  pose proof (brs_len A) as LB.
  assert (Y0 : n_piv n1 = [p; last]) by (rewrite En1; exact P1).
  assert (Y1 : n_sbr n1 = n_sbr n) by (rewrite En1; reflexivity).
  assert (Y2 : n_ebr n1 = n_ebr n) by (rewrite En1; reflexivity).
  assert (Y3 : n_ebn n1 = cadd MAX_BUNDLES (n_ebn n) 1) by (rewrite En1; reflexivity).
  assert (Y4 : n_ssb n1 = n_ssb n) by (rewrite En1; reflexivity).
  assert (Y5 : n_esb n1 = n_esb n) by (rewrite En1; reflexivity).
  assert (Y6 : n_sfl n1 = n_sfl n) by (rewrite En1; reflexivity).
  assert (Y7 : n_efl n1 = n_efl n) by (rewrite En1; reflexivity).
  assert (Y8 : n_br n1 = n_br n) by (rewrite En1; reflexivity).
  assert (Y9 : n_fl n1 = n_fl n) by (rewrite En1; reflexivity).
  assert (Y10 : n_sb n1 = n_sb n) by (rewrite En1; reflexivity).
  assert (Y11 : n_sfrac n1 = n_sfrac n) by (rewrite En1; reflexivity).
  assert (Y12 : n_id n1 = n_id n) by (rewrite En1; reflexivity).
  assert (Y13 : n_height n1 = n_height n) by (rewrite En1; reflexivity).
  assert (Y14 : n_pgen n1 = n_pgen n) by (rewrite En1; reflexivity).
  clear En1.
  assert (Ew : branch_is_whole M n1 (n_sbr n1) = (0 <? length (an_whole A))).
  { unfold branch_is_whole. rewrite Y11, Y1, (r_sfrac _ _ _ R), csub_self, csub_base by lia. reflexivity. }
  pose proof (rebundle_step_whole M n1 p last Y0) as G. cbv zeta in G.
  unfold rebundled. destruct (an_whole A) as [|w W] eqn:EW.
  - clear G. assert (Es : rebundle_step M n1 = Some n1) by (unfold rebundle_step; rewrite Ew; reflexivity).
    rewrite Es, (rebundle_end_eq _ _ _ _ Y0).
    split; [reflexivity|]. rewrite <- Q1, <- Q3.
    assert (Hs : subs A <> []). { intro Z. unfold brs in Hne. rewrite EW, Z in Hne. apply Hne. reflexivity. }
    split; [|split; [|rewrite <- Y12, <- Y13, <- Y14; repeat split]].
    + rewrite <- Y14. apply (rebundle_tail M A n1 (subs A) (n_ebn n) p last); rewrite ?Y1, ?Y2, ?Y3, ?Y4, ?Y5, ?Y6, ?Y7, ?Y8, ?Y9, ?Y10; auto; try apply R.
      * rewrite (r_ebr _ _ _ R). unfold brs. rewrite EW. reflexivity.
      * pose proof (r_br _ _ _ R) as Z. unfold brs in Z. rewrite EW in Z. exact Z.
      * pose proof (r_sb _ _ _ R) as Z. rewrite EW in Z. exact Z.
    + constructor; unfold brs, fls, subs; simpl; rewrite ?app_nil_r; auto.
      * unfold brs in KB. rewrite EW in KB. exact KB.
      * lia.
      * apply (ok_sub_nonempty _ _ K).
      * constructor; auto. left. simpl. lia.
      * discriminate.
  - specialize (G Ew). rewrite Y4, Y5, Y6, Y7 in G.
    destruct (csub_one MAX_SUBBUNDLES (n_ssb n) (r_ssb _ _ _ R)) as [C1 C2].
    destruct (csub_one MAX_SB_FILTERS (n_sfl n) (r_sfl _ _ _ R)) as [C3 C4].
    remember (csub MAX_SUBBUNDLES (n_ssb n) 1) as no eqn:Eno. remember (csub MAX_SB_FILTERS (n_sfl n) 1) as f0 eqn:Ef0. clear Eno Ef0.
    assert (X1 : no = n_esb n <-> S (length (subs A)) = MAX_SUBBUNDLES).
    { rewrite (r_esb _ _ _ R), <- C2, cadd_cadd by auto.
      destruct (Nat.eq_dec (S (length (subs A))) MAX_SUBBUNDLES) as [Z | Z].
      - simpl. rewrite Z, cadd_full by auto. tauto.
      - split; [|tauto]. intro Q. symmetry in Q. apply Nat.eqb_eq in Q. rewrite cadd_eqb_base in Q by (auto; simpl; lia). apply Nat.eqb_eq in Q. lia. }
    assert (X2 : f0 = n_efl n <-> S (length (fls A)) = MAX_SB_FILTERS).
    { rewrite (r_efl _ _ _ R), <- C4, cadd_cadd by auto.
      destruct (Nat.eq_dec (S (length (fls A))) MAX_SB_FILTERS) as [Z | Z].
      - simpl. rewrite Z, cadd_full by auto. tauto.
      - split; [|tauto]. intro Q. symmetry in Q. apply Nat.eqb_eq in Q. rewrite cadd_eqb_base in Q by (auto; simpl; lia). apply Nat.eqb_eq in Q. lia. }
    destruct (rebundle_step M n1) as [n5|]; [|tauto].
    destruct G as (Z1 & Z2 & G3 & G4 & G5 & G6 & G7 & G8 & G9 & G10 & G11 & G12 & G13 & G14 & G15 & G16).
    rewrite (rebundle_end_eq _ _ _ _ G16).
    rewrite Y1 in G6. rewrite Y2 in G7. rewrite Y3 in G8. rewrite Y8 in G13. rewrite Y9 in G14. rewrite Y10, Y1, Y11 in G15. rewrite Y12 in G3. rewrite Y13 in G4. rewrite Y14 in G5.
    assert (Z1' : S (length (subs A)) <> MAX_SUBBUNDLES) by tauto. assert (Z2' : S (length (fls A)) <> MAX_SB_FILTERS) by tauto.
    split; [reflexivity|].
    remember (AS false (w :: W) [ap_filt a] :: subs A) as l eqn:El.
    assert (Lf : nfl l = S (length (fls A))) by (rewrite El; reflexivity).
    assert (Lb : nbr l = length (brs A)) by (rewrite El, nbr_cons; simpl; rewrite LB; reflexivity).
    assert (Ll : length l = S (length (subs A))) by (rewrite El; reflexivity).
    split; [|split; [|rewrite <- G3, <- G4, <- G5; repeat split]].
    + rewrite <- Q1, <- G5.
      apply (rebundle_tail M A n5 l (n_ebn n) (PV (pv_key p) (pv_gen p) (pv_sbr p) (pv_sbn p) []) last); auto;
        rewrite ?G6, ?G7, ?G8, ?G9, ?G10, ?G11, ?G12, ?G13; auto.
      * rewrite Lb. apply R.
      * rewrite (r_esb _ _ _ R), <- C2, cadd_cadd, Ll by auto. reflexivity.
      * rewrite (r_efl _ _ _ R), <- C4, cadd_cadd, Lf by auto. reflexivity.
      * pose proof (r_br _ _ _ R) as Z. unfold brs in Z. rewrite EW in Z. rewrite El. exact Z.
      * rewrite G14, El by auto. rewrite Q3. change (fls_of (AS false (w :: W) [ap_filt a] :: subs A)) with (ap_filt a :: fls A).
        apply ring_cons; auto. rewrite C4. apply R.
      * rewrite El. cbn [sub_entries as_comp as_brs as_fls].
        eapply ring_ext; [intros i _; apply G15|].
        replace (SB false (cadd M (n_sbr n) 0) (cadd M (n_sbr n) (0 + length (w :: W))) (cadd MAX_SB_FILTERS f0 0) (cadd MAX_SB_FILTERS f0 (0 + length [ap_filt a])))
          with (SB false (n_sbr n) (n_sfrac n) f0 (n_sfl n)).
        2: { rewrite !cadd_0 by auto. simpl. rewrite C4, (r_sfrac _ _ _ R), EW. reflexivity. }
        apply ring_cons; auto; [rewrite sub_entries_length; lia|]. rewrite C2.
        pose proof (r_sb _ _ _ R) as Z. rewrite EW in Z. rewrite <- C4 in Z.
        replace (n_sbr n) with (cadd M (n_sbr n) 0) in Z at 1 by (apply cadd_0; auto).
        rewrite sub_entries_base in Z by auto. exact Z.
    + constructor; unfold brs, fls, subs; cbn [an_whole an_bns an_piv concat app]; rewrite ?app_nil_r; auto.
      * fold (nbr l). rewrite Lb. auto.
      * simpl. lia.
      * lia.
      * fold (nfl l). rewrite Lf. lia.
      * constructor; [rewrite El; discriminate | auto].
      * rewrite El. constructor; [discriminate | apply (ok_sub_nonempty _ _ K)].
      * constructor; auto. left. simpl. lia.
      * discriminate.
Qed.

(** ** New key bounds for a leaf, and new identities *)

Lemma set_id_rep : forall M n A id, rep M n A -> rep M (set_id id n) A.
Proof. intros M n A id R. constructor; simpl; try apply R. Qed.

Theorem cut_leaf_rep : forall M n A a id lo hi, rep M n A -> aok M A -> an_piv A = [a] ->
  let A' := AN (an_whole A) (an_bns A) [AP lo (ap_gen a) (ap_off a) (ap_boff a) (ap_filt a)] hi in
  rep M (cut_leaf n id lo hi) A' /\ aok M A'.
Proof.
  intros M n A a id lo hi R K Ep A'.
  destruct (r_piv _ _ _ R) as (ps & last & P1 & P2 & P3). rewrite Ep in P3.
  inversion P3 as [|p a0 ps' as' Hp Hps]; subst. inversion Hps; subst. simpl in P1.
  split.
  - unfold cut_leaf. rewrite P1. apply set_id_rep. constructor; simpl; try apply R.
    exists [PV lo (pv_gen p) (pv_sbr p) (pv_sbn p) (pv_filt p)], (PV hi (pv_gen last) (pv_sbr last) (pv_sbn last) (pv_filt last)).
    split; [reflexivity|]. split; [reflexivity|]. constructor; [|constructor].
    destruct Hp as (Q1 & Q2 & Q3 & Q4 & Q5). repeat split; auto.
  - constructor; try apply K; simpl; [|discriminate]. constructor; auto.
    pose proof (ok_piv _ _ K) as Z. rewrite Ep in Z. inversion Z; auto.
Qed.

(** ** Splitting an index node *)

Definition left_half (A : anode) (t : nat) (k : key) : anode := AN (an_whole A) (an_bns A) (firstn t (an_piv A)) k.
Definition right_half (A : anode) (t : nat) : anode := AN (an_whole A) (an_bns A) (skipn t (an_piv A)) (an_hi A).

Lemma aok_sub_piv : forall M A ps k, aok M A -> (forall a, In a ps -> In a (an_piv A)) -> ps <> [] -> aok M (AN (an_whole A) (an_bns A) ps k).
Proof.
  intros M A ps k K H N. constructor; try apply K; simpl; auto.
  pose proof (ok_piv _ _ K) as Z. rewrite Forall_forall in *. intros a Ia. apply (Z a). auto.
Qed.

Theorem split_halves_rep : forall M n A l r, rep M n A -> aok M A -> 2 <= length (an_piv A) ->
  let t := length (an_piv A) / 2 in
  exists a L R, nth_error (an_piv A) t = Some a /\
    dropped (left_half A t (ap_key a)) L /\ dropped (right_half A t) R /\
    let (nl, nr) := split_halves M n l r in
    rep M nl L /\ aok M L /\ rep M nr R /\ aok M R /\
    n_id nl = l /\ n_id nr = r /\ n_height nl = n_height n /\ n_height nr = n_height n /\
    n_pgen nl = n_pgen n /\ n_pgen nr = n_pgen n /\ n_ebn nl = n_ebn n /\ n_ebn nr = n_ebn n /\
    (exists d, n_sbn nl = cadd MAX_BUNDLES (n_sbn n) d /\ length (an_bns L) = length (an_bns A) - d /\ d <= length (an_bns A)) /\
    (exists d, n_sbn nr = cadd MAX_BUNDLES (n_sbn n) d /\ length (an_bns R) = length (an_bns A) - d /\ d <= length (an_bns A)).
Proof.
  intros M n A l r R K H t.
  assert (Ht : 0 < t /\ t < length (an_piv A)).
  { unfold t. pose proof (Nat.div_mod (length (an_piv A)) 2 ltac:(lia)) as D.
    pose proof (Nat.mod_upper_bound (length (an_piv A)) 2 ltac:(lia)). lia. }
  assert (Et0 : length (an_piv A) / 2 = t) by reflexivity. clearbody t.
  destruct (nth_error (an_piv A) t) as [a|] eqn:Ea; [|apply nth_error_None in Ea; lia].
  destruct (r_piv _ _ _ R) as (ps & last & P1 & P2 & P3). pose proof (Forall2_length _ _ _ P3) as L3.
  destruct (Forall2_nth _ _ _ P3 t a Ea) as (p & Ep & Hp).
  assert (RL : rep M (set_piv (firstn (S t) (n_piv n)) n) (left_half A t (ap_key a))).
  { constructor; cbn -[firstn skipn]; try apply R. exists (firstn t ps), p. split; [|split].
    - rewrite P1, firstn_app_l' by lia.
      clear - Ep. generalize dependent t. intro t. revert ps. induction t as [|t IH]; intros ps Ep; destruct ps; simpl in *; try discriminate.
      + congruence.
      + f_equal. apply IH. exact Ep.
    - apply Hp.
    - apply Forall2_firstn. eapply Forall2_impl; [|exact P3]. intros x y Q. eapply piv_rep_ext; [| |exact Q]; reflexivity. }
  assert (RR : rep M (set_piv (skipn t (n_piv n)) n) (right_half A t)).
  { constructor; cbn -[firstn skipn]; try apply R. exists (skipn t ps), last. split; [|split].
    - rewrite P1, skipn_app_l' by lia. reflexivity.
    - exact P2.
    - apply Forall2_skipn. eapply Forall2_impl; [|exact P3]. intros x y Q. eapply piv_rep_ext; [| |exact Q]; reflexivity. }
  assert (KL : aok M (left_half A t (ap_key a))).
  { apply aok_sub_piv; auto.
    - intros x Ix. rewrite <- (firstn_skipn t (an_piv A)). apply in_or_app. auto.
    - intro Z. apply (f_equal (@length _)) in Z. rewrite firstn_length in Z. simpl in Z. lia. }
  assert (KR : aok M (right_half A t)).
  { apply aok_sub_piv; auto.
    - intros x Ix. rewrite <- (firstn_skipn t (an_piv A)). apply in_or_app. auto.
    - intro Z. apply (f_equal (@length _)) in Z. rewrite skipn_length in Z. simpl in Z. lia. }
  destruct (reset_rep M _ _ RL KL) as (p1 & I1 & A1 & B1 & C1 & D1 & D2 & D3 & D4 & D5 & D6 & D7).
  destruct (reset_rep M _ _ RR KR) as (p2 & I2 & A2 & B2 & C2 & F1 & F2 & F3 & F4 & F5 & F6 & F7).
  assert (O1 : off_ok (left_half A t (ap_key a)) (ap_off p1) (ap_boff p1)).
  { pose proof (ok_piv _ _ KL) as Z. rewrite Forall_forall in Z. auto. }
  assert (O2 : off_ok (right_half A t) (ap_off p2) (ap_boff p2)).
  { pose proof (ok_piv _ _ KR) as Z. rewrite Forall_forall in Z. auto. }
  exists a, (drop (ap_off p1) (ap_boff p1) (left_half A t (ap_key a))), (drop (ap_off p2) (ap_boff p2) (right_half A t)).
  split; [reflexivity|]. split; [exists (ap_off p1), (ap_boff p1); auto|]. split; [exists (ap_off p2), (ap_boff p2); auto|].
  unfold split_halves. assert (Et : num_children n / 2 = t).
  { destruct (children_pivots_eq n ps last P1) as [_ ->]. rewrite L3. exact Et0. }
  rewrite Et. split; [apply set_id_rep; exact B1|]. split; [exact C1|]. split; [apply set_id_rep; exact B2|]. split; [exact C2|].
  cbn [n_id n_height n_pgen n_ebn n_sbn set_id]. rewrite D2, D3, D4, D5, F2, F3, F4, F5.
  repeat (split; [reflexivity|]). split.
  - exists (ap_boff p1). apply off_ok_le in O1. simpl in O1. unfold drop. cbn [an_bns left_half right_half]. rewrite skipn_length. split; [reflexivity|]. split; [reflexivity | apply O1].
  - exists (ap_boff p2). apply off_ok_le in O2. simpl in O2. unfold drop. cbn [an_bns left_half right_half]. rewrite skipn_length. split; [reflexivity|]. split; [reflexivity | apply O2].
Qed.

(** ** A pivot for a new child *)

Definition pivot_added (A : anode) (i : nat) (a : apiv) (g : nat) (k : key) : anode :=
  AN (an_whole A) (an_bns A)
     (firstn i (an_piv A) ++ AP (ap_key a) g (ap_off a) (ap_boff a) (ap_filt a) ::
      AP k (ap_gen a) (ap_off a) (ap_boff a) (ap_filt a) :: skipn (S i) (an_piv A)) (an_hi A).

Theorem add_pivot_rep : forall M n A i a mp k, rep M n A -> aok M A -> nth_error (an_piv A) i = Some a ->
  match add_pivot mp n (S i) k with
  | None => mp <= S (length (an_piv A))
  | Some n' => rep M n' (pivot_added A i a (n_pgen n) k) /\ aok M (pivot_added A i a (n_pgen n) k) /\
      n_id n' = n_id n /\ n_height n' = n_height n /\ n_pgen n' = S (n_pgen n) /\ n_sbn n' = n_sbn n /\ n_ebn n' = n_ebn n
  end.
Proof.
  intros M n A i a mp k R K Ea. destruct (r_piv _ _ _ R) as (ps & last & P1 & P2 & P3). pose proof (Forall2_length _ _ _ P3) as L3.
  assert (L : i < length (an_piv A)) by (apply nth_error_Some; congruence).
  destruct (Forall2_nth _ _ _ P3 i a Ea) as (p & Ep & Hp).
  unfold add_pivot. destruct (children_pivots_eq n ps last P1) as [_ ->]. replace (S i =? 0) with false by reflexivity.
  replace (length ps <? S i) with false by (symmetry; apply Nat.ltb_ge; lia). cbn [orb].
  rewrite P1, app_length. simpl length.
  destruct (Nat.leb_spec mp (length ps + 1)) as [C | C]; [lia|].
  replace (S i - 1) with i by lia. unfold get_pivot. rewrite P1, nth_error_app1 by lia. rewrite Ep.
  split; [|split; [|repeat split]].
  - constructor; cbn -[firstn skipn]; try apply R. destruct Hp as (Q1 & Q2 & Q3 & Q4 & Q5).
    exists (firstn i ps ++ PV (pv_key p) (n_pgen n) (pv_sbr p) (pv_sbn p) (pv_filt p) :: PV k (pv_gen p) (pv_sbr p) (pv_sbn p) (pv_filt p) :: skipn (S i) ps), last.
    split; [|split; [exact P2|]].
    + rewrite firstn_app_l' by lia. rewrite skipn_app_l' by lia. rewrite <- app_assoc. reflexivity.
    + assert (P4 : Forall2 (piv_rep M (set_pgen (S (n_pgen n)) n)) ps (an_piv A)).
      { eapply Forall2_impl; [|exact P3]. intros x y Q. eapply piv_rep_ext; [| |exact Q]; reflexivity. }
      apply Forall2_app; [apply Forall2_firstn; exact P4|]. constructor; [repeat split; auto|]. constructor; [repeat split; auto|].
      apply Forall2_skipn. exact P4.
  - constructor; try apply K; simpl.
    + pose proof (ok_piv _ _ K) as Z. rewrite Forall_forall in Z.
      assert (Ha : off_ok A (ap_off a) (ap_boff a)) by (apply Z; eapply nth_error_In; eauto).
      apply Forall_app. split; [|constructor; [exact Ha|constructor; [exact Ha|]]]; apply Forall_forall; intros x Ix; apply (Z x).
      * rewrite <- (firstn_skipn i (an_piv A)). apply in_or_app. auto.
      * rewrite <- (firstn_skipn (S i) (an_piv A)). apply in_or_app. auto.
    + destruct (firstn i (an_piv A)); discriminate.
Qed.

(** ** New nodes *)

Definition empty_anode : anode := AN [] [] [AP KNegInf 0 0 0 []] KPosInf.

Lemma aok_empty : forall M, 0 < M -> aok M empty_anode.
Proof.
  intros M H. constructor; unfold brs, fls, subs; simpl; auto; try constructor; auto; try discriminate. left. simpl. lia.
Qed.

Lemma first_node_rep : forall M id h, 0 < M -> rep M (first_node id h) empty_anode.
Proof.
  intros M id h H. constructor; unfold brs, fls, subs; simpl; auto; try (rewrite cadd_0; auto; fail); try apply ring_nil.
  exists [PV KNegInf 0 0 0 []], (PV KPosInf 0 0 0 []). split; [reflexivity|]. split; [reflexivity|]. constructor; [|constructor].
  repeat split; simpl; rewrite cadd_0; auto.
Qed.
Lemma new_root_rep : forall M n, 0 < M -> rep M (new_root n) empty_anode.
Proof.
  intros M n H. constructor; unfold brs, fls, subs; simpl; auto; try (rewrite cadd_0; auto; fail); try apply ring_nil.
  exists [PV KNegInf 0 0 0 []], (PV KPosInf 0 0 0 []). split; [reflexivity|]. split; [reflexivity|]. constructor; [|constructor].
  repeat split; simpl; rewrite cadd_0; auto.
Qed.
