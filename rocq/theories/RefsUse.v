(** * References and uses *)
From Coq Require Import List NArith ZArith Arith Bool Lia.
From Verif Require Import Base Spec Search SearchProofs TrunkKeys Refs RefsSpec RefsCount RefsLedger RefsInv RefsFlush RefsSplit RefsJobs RefsProofs.
Import ListNotations.
Local Open Scope Z_scope.
Set Default Proof Using "All".
Section Use.
Variable d : data_config.
Variable TO : total_order (key_compare d).

Lemma pieces_iff : forall b r sl l hi, In (b, r) (pieces sl l hi) <->
  exists i p, nth_error l i = Some p /\ fst r = p_key p /\ snd r = match nth_error l (S i) with Some p' => p_key p' | None => hi end /\ In b (live_brs sl p).
Proof.
  intros b r sl l hi. induction l as [|p l IH]; cbn [pieces].
  - split; [intros [] | intros ([|i] & p & H & _); discriminate].
  - rewrite in_app_iff, IH. split.
    + intros [H|(i & p' & H1 & H2 & H3 & H4)].
      * apply in_map_iff in H. destruct H as (x & Q & H). inversion Q; subst. exists 0%nat, p. cbn. repeat split; auto. destruct l; reflexivity.
      * exists (S i), p'. auto.
    + intros ([|i] & p' & H1 & H2 & H3 & H4).
      * left. cbn in H1. inversion H1; subst. apply in_map_iff. exists b. split; auto. destruct r as [r1 r2]. cbn in *. subst. f_equal. f_equal. destruct l; reflexivity.
      * right. exists i, p'. auto.
Qed.
Lemma live_iff : forall b sl p, In b (live_brs sl p) <-> exists q x, nth_error sl q = Some x /\ (p_dead p <= q)%nat /\ In b (s_brs x).
Proof.
  intros b sl p. split.
  - intros H. unfold live_brs in H. apply in_flat_map in H. destruct H as (x & H1 & H2). apply In_nth_error in H1. destruct H1 as (k & H1).
    exists (p_dead p + k)%nat, x. split; [|split; auto; lia]. rewrite <- H1. symmetry. replace k with (p_dead p + k - p_dead p)%nat at 1 by lia. apply (nth_error_skipn d TO). lia.
  - intros (q & x & H1 & H2 & H3). eapply (live_brs_in d TO); eauto.
Qed.
Lemma refers_iff : forall s b r, refers s b r <-> In (b, r) (all_pieces (t_lev s)).
Proof.
  intros s b r. unfold refers, all_pieces. rewrite in_flat_map. split.
  - intros (lvl & n & i & p & sl & q & H1 & H2 & H3 & H4 & H5 & H6 & H7 & H8). exists n. split; [apply in_concat; eauto|].
    unfold node_pieces. apply pieces_iff. exists i, p. repeat split; auto. apply live_iff. eauto.
  - intros (n & H1 & H2). apply in_concat in H1. destruct H1 as (lvl & H1 & H3). apply pieces_iff in H2. destruct H2 as (i & p & H4 & H5 & H6 & H7).
    apply live_iff in H7. destruct H7 as (q & x & H7 & H8 & H9). exists lvl, n, i, p, x, q. auto 10.
Qed.

Lemma ext_of : forall l b e, extent_of d l b e -> exists lo hi, In (EvNew b lo hi) l /\ ext d lo hi e.
Proof. intros l b e (lo & hi & H1 & H2 & H3 & H4). exists lo, hi. split; auto. repeat split; apply Z.leb_le; auto. Qed.
Lemma counted : forall s b e, oreach d s -> extent_of d (t_led s) b e -> references d b e (t_led s) = Has (Z.to_nat (M d s b e)).
Proof. intros s b e R X. apply (oreach_inv d TO) in R. apply ext_of in X. destruct X as (lo & hi & X1 & X2). eapply i_cnt; eauto. Qed.
Lemma absent : forall s b e, oreach d s -> (forall lo hi, ~ In (EvNew b lo hi) (t_led s)) -> references d b e (t_led s) = Absent.
Proof.
  intros s b e R H. apply (oreach_inv d TO) in R. unfold references. apply (run_other d TO). intros v IV Q. destruct (proj1 (i_led _ _ R) v IV) as (lo & hi & X). rewrite Q in X. eapply H; eauto.
Qed.
Lemma kept : forall s b r e, oreach d s -> extent_of d (t_led s) b e -> refers s b r \/ reads s b r -> meets d r e = true ->
  exists n, references d b e (t_led s) = Has (S n).
Proof.
  intros s b r e R X U O. rewrite (counted s b e R X). pose proof (oreach_inv d TO _ R) as I.
  assert (1 <= M d s b e).
  { destruct U as [U|(j & J1 & J2 & J3)].
    - apply refers_iff in U. pose proof (M_pcs d TO s b e I). pose proof (cnt_in d TO b e r _ U O). unfold pcs in *. lia.
    - pose proof (M_jm d TO s b e j I J1). unfold jm in H. rewrite J2 in H. pose proof (cnt_in d TO b e r _ J3 O). lia. }
  exists (Z.to_nat (M d s b e - 1)). f_equal. lia.
Qed.
Lemma cnt_zero : forall b e l, (forall r, In (b, r) l -> meets d r e = false) -> cnt d b e l = 0.
Proof.
  intros b e l H. pose proof (cnt_nn d TO b e l). destruct (Z_le_dec 1 (cnt d b e l)) as [L|L]; [|lia]. apply (cnt_pos d TO) in L. destruct L as (r & L1 & L2).
  apply H in L1. unfold meets, before in L1. unfold ov, kleb in L2. congruence.
Qed.
Lemma freed : forall s b e, oreach d s -> extent_of d (t_led s) b e ->
  (forall r, refers s b r \/ reads s b r \/ In (b, r) (t_lost s) -> meets d r e = false) -> ~ places s b ->
  references d b e (t_led s) = Has 0.
Proof.
  intros s b e R X U P. rewrite (counted s b e R X). pose proof (oreach_inv d TO _ R) as I. f_equal.
  assert (A : pcs d b e (t_lev s) = 0) by (apply cnt_zero; intros r H; apply U; left; apply refers_iff; auto).
  assert (B : jsum d b e (t_jobs s) = 0).
  { assert (H : forall j, In j (t_jobs s) -> jm d b e j = 0).
    { intros j IJ. unfold jm. destruct (j_ph j) as [| |[b'|] pos reps lost] eqn:PH; auto.
      - apply cnt_zero. intros r H. apply U. right. left. exists j. auto.
      - destruct (Nat.eqb_spec b' b) as [->|]; auto. exfalso. apply P. exists j, pos, reps, lost. auto. }
    clear - H. induction (t_jobs s) as [|j l IH]; [reflexivity|]. cbn [jsum]. rewrite (H j (or_introl eq_refl)), IH by (intros; apply H; right; auto). reflexivity. }
  assert (C : tlsum d b e (t_lost s) = 0).
  { assert (H : forall r, In (b, r) (t_lost s) -> up d (fst r) e - up d (snd r) e = 0).
    { intros r H. pose proof (U r (or_intror (or_intror H))) as Q. pose proof (proj2 (i_lost _ _ I _ H)) as L. cbn [fst snd] in L.
      apply ext_of in X. destruct X as (lo & hi & _ & E & _). unfold up.
      change (meets d r e) with (kleb d (fst e) (snd r) && kleb d (fst r) (snd e)) in Q. apply andb_false_iff in Q. destruct Q as [Q|Q].
      - apply (kleb_false d TO) in Q. rewrite (proj2 (kleb_kle d TO (fst r) (snd e))), (proj2 (kleb_kle d TO (snd r) (snd e))) by ord TO. reflexivity.
      - rewrite Q. apply (kleb_false d TO) in Q. rewrite (proj2 (kleb_false d TO (snd r) (snd e))) by ord TO. reflexivity. }
    clear - H. induction (t_lost s) as [|[b' r] l IH]; [reflexivity|]. cbn [tlsum fst snd]. rewrite IH by (intros; apply H; right; auto).
    destruct (Nat.eqb_spec b' b) as [->|]; [|reflexivity]. rewrite (H r (or_introl eq_refl)). reflexivity. }
  unfold M. rewrite A, B, C. reflexivity.
Qed.

(** *** Nothing is lost if index nodes do not split under a request *)
Definition span (lv : list (list rnode)) (h : nat) (lo hi : key) : Prop :=
  exists l n, nth_error lv h = Some l /\ In n l /\ r_lo n = lo /\ r_hi n = hi.
Definition calm_job (lv : list (list rnode)) (j : job) : Prop :=
  match j_ph j with Placing _ pos reps lost => pos = j_lo j /\ reps = 0%nat /\ lost = [] | _ => True end /\
  (j_h j <> 0%nat -> span lv (j_h j) (j_lo j) (j_hi j)).
Definition calm (s : rst) : Prop := t_lost s = [] /\ forall j, In j (t_jobs s) -> calm_job (t_lev s) j.

Lemma span_put : forall lv h i n m h' lo hi, node_at lv h i = Some n -> r_lo m = r_lo n -> r_hi m = r_hi n -> span lv h' lo hi -> span (put lv h i [m]) h' lo hi.
Proof.
  intros lv h i n m h' lo hi H L R (l & x & B1 & B2 & B3 & B4). unfold node_at in H. unfold span, put.
  destruct (nth_error lv h) as [l0|] eqn:E; [|discriminate]. destruct (Nat.eq_dec h h') as [<-|N].
  - assert (l = l0) by congruence. subst l. exists (sub i [m] l0). rewrite (nth_error_sub_eq d TO _ _ _ _ _ E).
    destruct (sub_split d TO _ i [m] l0 n H) as (a & c & E1 & E2 & _). rewrite E2. rewrite E1 in B2. apply in_app_or in B2.
    destruct B2 as [B2|[B2|B2]].
    + exists x. repeat split; auto. apply in_or_app. auto.
    + subst x. exists m. repeat split; [apply in_or_app; right; left; auto | congruence | congruence].
    + exists x. repeat split; auto. apply in_or_app. right. right. auto.
  - exists l, x. rewrite (nth_error_sub_ne d TO _ _ _ _ (sub i [m] l0)); auto.
Qed.
Lemma span_put_ne : forall lv h i ns h' lo hi, h <> h' -> span lv h' lo hi -> span (put lv h i ns) h' lo hi.
Proof.
  intros lv h i ns h' lo hi N (l & x & B1 & B2 & B3 & B4). unfold span, put. destruct (nth_error lv h) as [l0|] eqn:E; [|exists l, x; auto].
  exists l, x. rewrite (nth_error_sub_ne d TO _ _ _ _ (sub i ns l0)); auto.
Qed.
Lemma calm_tree : forall s lv' js a b c, calm s -> js = t_jobs s -> (forall j h lo hi, In j (t_jobs s) -> h = j_h j -> h <> 0%nat -> span (t_lev s) h lo hi -> span lv' h lo hi) ->
  calm (Rst lv' js a b c (t_lost s)).
Proof.
  intros s lv' js a b c [C1 C2] -> S. split; [exact C1|]. cbn [t_jobs t_lev]. intros j IJ. destruct (C2 j IJ) as [X Y]. split; auto. intros Z. eapply S; eauto.
Qed.
Lemma calm_step : forall s o s', Inv d s -> calm s -> disturbs s o = false -> do d s o = Some s' -> calm s'.
Proof.
  intros s o s' I C DI H. destruct o; cbn [do] in H.
  - unfold incorporate in H. destruct (node_at _ _ _) as [n|] eqn:EN; [|discriminate]. destruct (fresh _ _); [|discriminate]. inversion H; subst.
    apply calm_tree; auto. intros. eapply span_put; eauto.
  - unfold flush in H. destruct (node_at (t_lev s) (S h) i) as [p|] eqn:EP; [|discriminate]. destruct (node_at (t_lev s) h c) as [ch|] eqn:EC; [|discriminate].
    destruct (nth_error (r_pivs p) j) as [q|] eqn:EQ; [|discriminate]. destruct (child_of d p j ch) eqn:CO; [|discriminate]. inversion H; subst.
    assert (OP : node_ok d p) by (eapply levels_node; eauto; [apply I | eapply node_at_in; eauto]).
    destruct (kill_ok d TO p j q ch OP EQ CO) as (_ & K1 & K2 & _).
    apply calm_tree; auto. intros. eapply span_put with (n := ch); eauto; [rewrite (node_at_put_ne d TO); auto|]. eapply span_put; eauto.
  - cbn [disturbs] in DI. unfold split_index in H. destruct h as [|h0]; [discriminate|]. set (h := S h0) in *.
    destruct (node_at (t_lev s) (S h) i) as [p|] eqn:EP; [|discriminate]. destruct (node_at (t_lev s) h c) as [ch|] eqn:EC; [|discriminate].
    destruct (skipn m (r_pivs ch)) as [|q l] eqn:EQ; [discriminate|]. destruct (_ && _ && _) eqn:CO; [|discriminate]. inversion H; subst.
    apply calm_tree; auto. intros jb h' lo hi IJ E NZ SP. assert (NH : h <> h').
    { intros Q. assert (existsb (fun j => j_h j =? h)%nat (t_jobs s) = true); [|congruence]. apply existsb_exists. exists jb. split; auto. apply Nat.eqb_eq. congruence. }
    apply span_put_ne; auto. unfold add_pivots. destruct (nth_error (r_pivs p) j) as [pj|] eqn:EJ.
    + eapply span_put; eauto. unfold r_lo. cbn [r_pivs r_hi]. destruct (r_pivs p) as [|x y]; [destruct j; discriminate|]. destruct j; cbn; [inversion EJ|]; reflexivity.
    + eapply span_put; eauto.
  - unfold split_leaf in H. destruct (node_at (t_lev s) 1 i) as [p|] eqn:EP; [|discriminate]. destruct (node_at (t_lev s) 0 c) as [ch|] eqn:EC; [|discriminate].
    destruct (r_pivs ch) as [|q [|? ?]] eqn:EQ; try discriminate. destruct (_ && _ && _) eqn:CO; [|discriminate]. inversion H; subst.
    apply calm_tree; auto. intros jb h' lo hi IJ E NZ SP. apply span_put_ne; auto. unfold add_pivots. destruct (nth_error (r_pivs p) j) as [pj|] eqn:EJ.
    + eapply span_put; eauto. unfold r_lo. cbn [r_pivs r_hi]. destruct (r_pivs p) as [|x y]; [destruct j; discriminate|]. destruct j; cbn; [inversion EJ|]; reflexivity.
    + eapply span_put; eauto.
  - unfold grow in H. destruct (t_lev s) as [|l0 lv0] eqn:EL; [discriminate|]. rewrite <- EL in *. inversion H; subst. apply calm_tree; auto.
    intros jb h lo hi _ _ _ (l & n & B1 & B2 & B3 & B4). exists l, n. split; auto. rewrite nth_error_app1; auto. apply nth_error_Some. congruence.
  - unfold enqueue in H. destruct (node_at (t_lev s) h c) as [n|] eqn:EN; [|discriminate]. destruct (nth_error (r_slots n) q) as [[[?|] bs]|]; try discriminate. inversion H; subst.
    destruct C as [C1 C2]. split; [exact C1|]. cbn [t_jobs t_lev]. intros j IJ. apply in_app_or in IJ. destruct IJ as [IJ|[<-|[]]].
    + destruct (C2 j IJ) as [X Y]. split; auto. intros Z. eapply span_put; eauto.
    + split; [exact Logic.I|]. cbn [j_h j_lo j_hi]. intros Z. eapply span_put; eauto. unfold node_at in EN. destruct (nth_error (t_lev s) h) as [l|] eqn:E; [|discriminate].
      exists l, n. repeat split; auto. eapply nth_error_In; eauto.
  - unfold start, find_job in H. destruct (find _ (t_jobs s)) as [j|] eqn:F; [|discriminate].
    destruct (find_split d TO t (t_jobs s) j (i_ids _ _ I) F) as (ID & a & c & EJ & SP & DR). destruct C as [C1 C2]. rewrite EJ in C2.
    destruct (j_ph j); try discriminate. destruct (j_live j); inversion H; subst; split; cbn [t_lost t_jobs t_lev]; auto; rewrite ?SP, ?DR; intros x IX.
    + apply (mid_cases d TO) in IX. destruct IX as [->|IX]; [|apply C2; apply (mid_in d TO); auto]. destruct (C2 j) as [_ Y]; [apply in_or_app; right; left; auto|]. split; [exact Logic.I | exact Y].
    + apply C2. apply (mid_in d TO); auto.
  - unfold fail, find_job in H. destruct (find _ (t_jobs s)) as [j|] eqn:F; [|discriminate].
    destruct (find_split d TO t (t_jobs s) j (i_ids _ _ I) F) as (ID & a & c & EJ & SP & DR). destruct C as [C1 C2]. rewrite EJ in C2.
    destruct (j_ph j); try discriminate. inversion H; subst; split; cbn [t_lost t_jobs t_lev]; auto; rewrite ?SP, ?DR; intros x IX. apply C2. apply (mid_in d TO); auto.
  - unfold merge, find_job in H. destruct (find _ (t_jobs s)) as [j|] eqn:F; [|discriminate].
    destruct (find_split d TO t (t_jobs s) j (i_ids _ _ I) F) as (ID & a & c & EJ & SP & DR). destruct C as [C1 C2]. rewrite EJ in C2.
    destruct (j_ph j); try discriminate. cbv zeta in H. rewrite SP in H.
    assert (Z : calm_job (t_lev s) (with_ph j (Placing ob (j_lo j) 0 []))). { destruct (C2 j) as [_ Y]; [apply in_or_app; right; left; auto|]. split; [cbn; auto | exact Y]. }
    destruct ob as [b|]; [destruct (fresh b _); [|discriminate]|]; inversion H; subst; split; cbn [t_lost t_jobs t_lev]; auto; intros x IX;
      apply (mid_cases d TO) in IX; (destruct IX as [->|IX]; [exact Z|apply C2; apply (mid_in d TO); auto]).
  - unfold replace, find_job in H. destruct (find _ (t_jobs s)) as [j|] eqn:F; [|discriminate].
    destruct (find_split d TO t (t_jobs s) j (i_ids _ _ I) F) as (ID & a & c' & EJ & SP & DR).
    assert (IJ : In j (t_jobs s)) by (rewrite EJ; apply in_or_app; right; left; auto). pose proof (i_jobs _ _ I j IJ) as (J1 & J2 & J3 & J4 & J5 & J6).
    destruct (j_ph j) as [| |ob pos reps lost] eqn:PH; try discriminate. destruct (node_at (t_lev s) (j_h j) c) as [n|] eqn:EN; [|discriminate].
    destruct C as [C1 C2]. destruct (C2 j IJ) as [C3 C4]. rewrite PH in C3. destruct C3 as (EPOS & ER & ELO). subst reps lost.
    assert (OTH : forall x, In x (a ++ c') -> In x (t_jobs s)) by (intros x IX; rewrite EJ; apply (mid_in d TO); auto).
    assert (DROP : forall lv nn jj ll, (forall h lo hi, span (t_lev s) h lo hi -> span lv h lo hi) -> calm (Rst lv (a ++ c') nn jj ll (t_lost s ++ []))).
    { intros lv nn jj ll S. split; cbn [t_lost t_jobs t_lev]; [rewrite C1; reflexivity|]. intros x IX. destruct (C2 x (OTH x IX)) as [X Y]. split; auto. }
    destruct (kltb d pos (r_lo n) || negb (kltb d pos (r_hi n))) eqn:POS; [discriminate|].
    apply orb_false_iff in POS. destruct POS as [P1 P2]. apply negb_false_iff in P2. apply (kltb_false d TO) in P1. apply (kltb_klt d TO) in P2.
    destruct ((j_h j =? 0)%nat && negb (r_id n =? j_node j)%nat). { inversion H; subst. rewrite DR. rewrite <- (app_nil_r (t_lost s)). apply DROP; auto. }
    cbv zeta in H. destruct (kltb d (r_hi n) (j_hi j)) eqn:CONT.
    + exfalso. destruct (j_h j =? 0)%nat eqn:HZ; cbn [andb] in H; [discriminate|]. apply Nat.eqb_neq in HZ. destruct (C4 HZ) as (l & m & M1 & M2 & M3 & M4).
      apply In_nth_error in M2. destruct M2 as (k & M2). apply (kltb_klt d TO) in CONT.
      assert (NM : node_at (t_lev s) (j_h j) k = Some m) by (unfold node_at; rewrite M1; exact M2).
      assert (EQ : r_hi n = r_lo m).
      { eapply bdry_inside; eauto; [apply I | eapply bdry_hi; eauto; apply I | rewrite M3, <- EPOS; ord TO | rewrite M4; auto]. }
      rewrite EQ, M3, <- EPOS in P2. ord TO.
    + rewrite andb_false_r in H. destruct (slot_live t n) as [q|].
      * assert (FM : flat_map (fun b : bid => map (fun r : krange => (b, r)) []) (opt ob) = []) by (destruct ob; reflexivity).
        rewrite FM in H. injection H as <-. rewrite DR. apply DROP. intros. eapply span_put; eauto.
      * destruct (j_h j =? 0)%nat; [discriminate|]. cbn [Nat.eqb] in H. inversion H; subst. rewrite DR. rewrite <- (app_nil_r (t_lost s)). apply DROP; auto.
  - unfold destroy in H. destruct (t_jobs s); [|discriminate]. inversion H; subst. destruct C as [C1 _]. split; [exact C1 | intros j []].
Qed.
Lemma creach_oreach : forall s, creach d s -> oreach d s.
Proof. induction 1; [constructor | econstructor; eauto]. Qed.
Lemma creach_calm : forall s, creach d s -> calm s.
Proof.
  induction 1 as [|s o s' R IH O D H]; [split; [reflexivity | intros j []]|]. eapply calm_step; eauto. apply (oreach_inv d TO). apply creach_oreach. exact R.
Qed.
Lemma creach_lost : forall s, creach d s -> t_lost s = [].
Proof. intros s R. apply creach_calm in R. apply R. Qed.
End Use.
