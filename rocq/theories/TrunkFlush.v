(** * trunk_pivot_clear and trunk_flush_into_bundle on abstract nodes *)

From Coq Require Import List Arith NArith Lia Bool.
From Verif Require Import Base TrunkNode TrunkRing TrunkRep TrunkOps TrunkReset.
Import ListNotations.

Definition set_nth {A} (i : nat) (x : A) (l : list A) : list A := firstn i l ++ x :: skipn (S i) l.
Definition with_piv (A : anode) (i : nat) (a : apiv) : anode :=
  AN (an_whole A) (an_bns A) (set_nth i a (an_piv A)) (an_hi A).
(** Pivot [i] past everything in the node, without a filter *)
Definition cleared (A : anode) (a : apiv) : apiv :=
  AP (ap_key a) (ap_gen a) (length (brs A)) (length (an_bns A)) [].

(** [A'] is [A] after dropping what no pivot uses *)
Definition dropped (A A' : anode) : Prop :=
  exists m d, off_ok A m d /\ Forall (fun p => m <= ap_off p /\ d <= ap_boff p) (an_piv A) /\ A' = drop m d A.

Lemma drop_0 : forall A, drop 0 0 A = A.
Proof.
  intros [W B P h]. unfold drop. simpl. f_equal. rewrite <- (map_id P) at 2. apply map_ext.
  intros []. simpl. rewrite !Nat.sub_0_r. reflexivity.
Qed.
Lemma dropped_refl : forall A, dropped A A.
Proof.
  intros A. exists 0, 0. split; [left; split; [reflexivity | lia]|]. split.
  - apply Forall_forall. intros. lia.
  - symmetry. apply drop_0.
Qed.

Lemma set_nth_length : forall {A} i (x : A) l, i < length l -> length (set_nth i x l) = length l.
Proof. intros A i x l H. unfold set_nth. rewrite app_length, firstn_length. cbn [length]. rewrite skipn_length. lia. Qed.

Lemma Forall_set_nth : forall {A} (P : A -> Prop) i x l, Forall P l -> P x -> Forall P (set_nth i x l).
Proof.
  intros A P i x l H Hx. unfold set_nth. apply Forall_app. split.
  - rewrite <- (firstn_skipn i l) in H. apply Forall_app in H. apply H.
  - constructor; auto. apply Forall_skipn'. exact H.
Qed.

Lemma Forall2_length : forall {A B} (P : A -> B -> Prop) l l', Forall2 P l l' -> length l = length l'.
Proof. intros A B P l l' F. induction F; simpl; congruence. Qed.

Lemma Forall2_nth : forall {A B} (P : A -> B -> Prop) l l', Forall2 P l l' -> forall i b, nth_error l' i = Some b ->
  exists a, nth_error l i = Some a /\ P a b.
Proof.
  intros A B P l l' F. induction F as [|x y l l' H F IH]; intros i b E; destruct i; simpl in *; try discriminate.
  - injection E as <-. eauto.
  - apply IH. exact E.
Qed.

Lemma Forall2_set_nth : forall {A B} (P : A -> B -> Prop) l l' i x y, Forall2 P l l' -> P x y -> i < length l ->
  Forall2 P (set_nth i x l) (set_nth i y l').
Proof.
  intros A B P l l' i x y F. revert i. induction F as [|a b l l' H F IH]; intros i Hx L; simpl in L; [lia|].
  destruct i as [|i]; unfold set_nth; simpl; constructor; auto. apply IH; auto. lia.
Qed.

Lemma set_nth_app : forall {A} i (x : A) l l', i < length l -> set_nth i x (l ++ l') = set_nth i x l ++ l'.
Proof.
  intros A i x l l' H. unfold set_nth. rewrite firstn_app, skipn_app.
  replace (i - length l) with 0 by lia. replace (S i - length l) with 0 by lia. simpl. rewrite app_nil_r, <- app_assoc. reflexivity.
Qed.

Lemma set_nth_nth : forall {A} i (x : A) l, nth_error l i = Some x -> set_nth i x l = l.
Proof.
  intros A i x l. revert l. induction i as [|i IH]; intros l E; destruct l as [|y r]; simpl in *; try discriminate; unfold set_nth; simpl.
  - congruence.
  - f_equal. apply IH. exact E.
Qed.

Lemma set_nth_set_nth : forall {A} i (x y : A) l, i < length l -> set_nth i x (set_nth i y l) = set_nth i x l.
Proof.
  intros A i x y l H. unfold set_nth. rewrite firstn_app, firstn_firstn, Nat.min_id, firstn_length.
  replace (i - Nat.min i (length l)) with 0 by lia. rewrite app_nil_r. f_equal. f_equal.
  rewrite skipn_app. rewrite skipn_all2 by (rewrite firstn_length; lia). rewrite firstn_length.
  replace (S i - Nat.min i (length l)) with 1 by lia. reflexivity.
Qed.

(** ** Reading a pivot *)

Lemma get_pivot_rep : forall M n A i a, rep M n A -> nth_error (an_piv A) i = Some a ->
  exists p, get_pivot n i = Some p /\ piv_rep M n p a.
Proof.
  intros M n A i a R E. destruct (r_piv _ _ _ R) as (ps & last & P1 & P2 & P3).
  destruct (Forall2_nth _ _ _ P3 i a E) as (p & Q1 & Q2). exists p. split; auto.
  unfold get_pivot. rewrite P1, nth_error_app1; auto. apply nth_error_Some. congruence.
Qed.

Lemma set_pivot_at_rep : forall M n A i p a, rep M n A -> i < length (an_piv A) -> piv_rep M n p a ->
  rep M (set_pivot_at n i p) (with_piv A i a).
Proof.
  intros M n A i p a R L H. destruct (r_piv _ _ _ R) as (ps & last & P1 & P2 & P3).
  constructor; simpl; try apply R.
  exists (set_nth i p ps), last. pose proof (Forall2_length _ _ _ P3) as L3. split; [|split; auto].
  - rewrite P1. change (set_nth i p (ps ++ [last]) = set_nth i p ps ++ [last]). apply set_nth_app. lia.
  - eapply Forall2_impl; [|apply (Forall2_set_nth _ _ _ _ _ _ P3 H); lia].
    intros. eapply piv_rep_ext; [| |eassumption]; reflexivity.
Qed.

Lemma aok_with_piv : forall M A i a, aok M A -> off_ok A (ap_off a) (ap_boff a) -> aok M (with_piv A i a).
Proof.
  intros M A i a K H. constructor; try apply K; simpl.
  - apply Forall_set_nth; auto. apply K.
  - unfold set_nth. destruct (firstn i (an_piv A)); discriminate.
Qed.

Lemma off_ok_end : forall A, off_ok A (length (brs A)) (length (an_bns A)).
Proof.
  intros A. unfold off_ok. rewrite brs_len. unfold subs. rewrite firstn_all.
  destruct (an_bns A); [left; simpl; rewrite nbr_nil; lia | right; simpl; lia].
Qed.

(** The filter of a pivot: nothing else depends on it *)
Lemma drop_with_piv : forall m d A i a, i < length (an_piv A) ->
  drop m d (with_piv A i a) =
  with_piv (drop m d A) i (AP (ap_key a) (ap_gen a) (ap_off a - m) (ap_boff a - d) (ap_filt a)).
Proof.
  intros m d A i a H. unfold drop, with_piv. simpl. f_equal. unfold set_nth.
  rewrite map_app. cbn [map]. rewrite firstn_map, skipn_map. reflexivity.
Qed.

Lemma with_piv_twice : forall A i a b, i < length (an_piv A) -> with_piv (with_piv A i a) i b = with_piv A i b.
Proof. intros A i a b H. unfold with_piv. simpl. rewrite set_nth_set_nth by auto. reflexivity. Qed.

Theorem pivot_clear_rep : forall M n A i a p, rep M n A -> aok M A ->
  nth_error (an_piv A) i = Some a -> get_pivot n i = Some p -> piv_rep M n p a ->
  exists A', dropped (with_piv A i (cleared A a)) A' /\
    let n' := pivot_clear M n i p in
    rep M n' A' /\ aok M A' /\ n_id n' = n_id n /\ n_height n' = n_height n /\ n_pgen n' = n_pgen n /\
    n_ebn n' = n_ebn n /\ exists d, n_sbn n' = cadd MAX_BUNDLES (n_sbn n) d /\ length (an_bns A') = length (an_bns A) - d /\ d <= length (an_bns A).
Proof.
  intros M n A i a p R K Ha Hp (Q1 & Q2 & Q3 & Q4 & Q5).
  assert (L : i < length (an_piv A)) by (apply nth_error_Some; congruence).
  unfold pivot_clear. set (p1 := PV _ _ _ _ (pv_filt p)). set (p2 := PV _ _ _ _ []).
  set (a1 := AP (ap_key a) (ap_gen a) (length (brs A)) (length (an_bns A)) (ap_filt a)).
  assert (R1 : rep M (set_pivot_at n i p1) (with_piv A i a1)).
  { apply set_pivot_at_rep; auto. repeat split; simpl; auto; apply R. }
  assert (K1 : aok M (with_piv A i a1)) by (apply aok_with_piv; auto; apply off_ok_end).
  assert (Kc : aok M (with_piv A i (cleared A a))) by (apply aok_with_piv; auto; apply off_ok_end).
  destruct (pv_sbr p =? n_sbr n).
  - destruct (reset_rep M _ _ R1 K1) as (p0 & I0 & Hall & R2 & K2 & E1 & E2 & E3 & E4 & E5 & E6 & E7).
    set (n2 := reset_start_branch M (set_pivot_at n i p1)) in *.
    set (m := ap_off p0) in *. set (d := ap_boff p0) in *.
    assert (H0 : off_ok (with_piv A i a1) m d).
    { pose proof (ok_piv _ _ K1) as Z. rewrite Forall_forall in Z. apply Z. exact I0. }
    assert (Hc : Forall (fun p => m <= ap_off p /\ d <= ap_boff p) (an_piv (with_piv A i (cleared A a)))).
    { unfold with_piv in *. simpl in *. unfold set_nth in *. apply Forall_app in Hall. destruct Hall as [Y1 Y2].
      inversion Y2; subst. apply Forall_app. split; auto. }
    exists (drop m d (with_piv A i (cleared A a))). split.
    { exists m, d. split; auto. }
    cbv zeta.
    assert (Hp2 : piv_rep M n2 p2 (AP (ap_key a) (ap_gen a) (length (brs A) - m) (length (an_bns A) - d) [])).
    { assert (Z : exists q, get_pivot n2 i = Some q /\ piv_rep M n2 q (AP (ap_key a) (ap_gen a) (length (brs A) - m) (length (an_bns A) - d) (ap_filt a))).
      { apply (get_pivot_rep M n2 _ i _ R2). rewrite drop_with_piv by auto. unfold with_piv. simpl. unfold set_nth.
        rewrite nth_error_app2 by (rewrite firstn_length, map_length; lia).
        rewrite firstn_length, map_length. replace (i - Nat.min i (length (an_piv A))) with 0 by lia. reflexivity. }
      destruct Z as (q & Z1 & Z2).
      assert (Eq : q = p1).
      { assert (Z3 : get_pivot (set_pivot_at n i p1) i = Some q) by (unfold get_pivot; rewrite <- E7; exact Z1).
        unfold get_pivot, set_pivot_at in Z3. simpl in Z3.
        assert (L2 : i < length (n_piv n)) by (apply nth_error_Some; unfold get_pivot in Hp; congruence).
        rewrite nth_error_app2 in Z3 by (rewrite firstn_length; lia). rewrite firstn_length in Z3.
        replace (i - Nat.min i (length (n_piv n))) with 0 in Z3 by lia. simpl in Z3. congruence. }
      subst q. destruct Z2 as (Z2 & Z3 & Z4 & Z5 & Z6). repeat split; auto. }
    split; [|split].
    + replace (drop m d (with_piv A i (cleared A a)))
        with (with_piv (drop m d (with_piv A i a1)) i (AP (ap_key a) (ap_gen a) (length (brs A) - m) (length (an_bns A) - d) [])).
      * apply set_pivot_at_rep; auto. unfold with_piv, drop. simpl. rewrite map_length, set_nth_length by auto. exact L.
      * rewrite !drop_with_piv by auto. simpl. apply with_piv_twice. simpl. rewrite map_length. exact L.
    + apply aok_drop; auto.
    + repeat split; auto. exists d. split; [exact E4|]. simpl. rewrite skipn_length. split; auto.
      apply off_ok_le in H0. apply H0.
  - exists (with_piv A i (cleared A a)). split; [apply dropped_refl|]. cbv zeta. split; [|split; [exact Kc|]].
    + replace (with_piv A i (cleared A a)) with (with_piv (with_piv A i a1) i (cleared A a)) by (apply with_piv_twice; auto).
      apply set_pivot_at_rep; auto.
      * unfold with_piv. simpl. rewrite set_nth_length by auto. exact L.
      * repeat split; simpl; auto; apply R.
    + repeat split; auto. exists 0. rewrite cadd_0 by apply R. simpl. split; [reflexivity | lia].
Qed.

(** ** Reading a subbundle *)

Lemma sub_entry : forall M n A x s y, rep M n A -> subs A = x ++ s :: y ->
  n_sb n (cadd MAX_SUBBUNDLES (n_ssb n) (length x)) =
  SB (as_comp s) (cadd M (n_sbr n) (length (an_whole A) + nbr x)) (cadd M (n_sbr n) (length (an_whole A) + nbr x + length (as_brs s)))
     (cadd MAX_SB_FILTERS (n_sfl n) (nfl x)) (cadd MAX_SB_FILTERS (n_sfl n) (nfl x + length (as_fls s))).
Proof.
  intros M n A x s y R H. apply (r_sb _ _ _ R). rewrite H, sub_entries_app.
  rewrite nth_error_app2 by (rewrite sub_entries_length; lia).
  rewrite sub_entries_length, Nat.sub_diag. simpl. reflexivity.
Qed.

Lemma sub_sizes : forall M A x s y, aok M A -> subs A = x ++ s :: y ->
  length (an_whole A) + nbr x + length (as_brs s) < M /\ nfl x + length (as_fls s) < MAX_SB_FILTERS.
Proof.
  intros M A x s y K E. pose proof (ok_brs _ _ K) as H1. pose proof (ok_fls _ _ K) as H2.
  rewrite brs_len, E, nbr_app, nbr_cons in H1. unfold fls in H2. rewrite E in H2.
  fold (nfl (x ++ s :: y)) in H2. rewrite nfl_app, nfl_cons in H2. lia.
Qed.

Lemma firstn_app_exact : forall {A} (x y : list A), firstn (length x) (x ++ y) = x.
Proof. intros. rewrite firstn_app, Nat.sub_diag, firstn_all. apply app_nil_r. Qed.

Lemma sub_branches : forall M n A x s y, rep M n A -> aok M A -> subs A = x ++ s :: y ->
  map (n_br n) (cwalk M (cadd M (n_sbr n) (length (an_whole A) + nbr x)) (cadd M (n_sbr n) (length (an_whole A) + nbr x + length (as_brs s)))) = as_brs s.
Proof.
  intros M n A x s y R K E. destruct (sub_sizes _ _ _ _ _ K E) as [H1 H2]. pose proof (ok_brs _ _ K) as H3.
  assert (Eb : brs A = (an_whole A ++ brs_of x) ++ as_brs s ++ brs_of y).
  { unfold brs. rewrite E, brs_of_app. unfold brs_of at 2. simpl. rewrite !app_assoc. reflexivity. }
  assert (L : length (an_whole A) + nbr x = length (an_whole A ++ brs_of x)) by (rewrite app_length; reflexivity).
  assert (Mp : 0 < M) by lia. rewrite (ring_walk _ _ _ _ _ _ Mp (r_br _ _ _ R)) by (rewrite ?brs_len, ?E, ?nbr_app, ?nbr_cons; lia).
  rewrite Eb, L, skipn_app_exact.
  replace (length (an_whole A ++ brs_of x) + length (as_brs s) - length (an_whole A ++ brs_of x)) with (length (as_brs s)) by lia.
  apply firstn_app_exact.
Qed.

Lemma sub_filters : forall M n A x s y ps, rep M n A -> aok M A -> subs A = x ++ s :: y ->
  ps = n_sb n (cadd MAX_SUBBUNDLES (n_ssb n) (length x)) ->
  sb_filter_count ps = length (as_fls s) /\ map (sb_filter n ps) (seq 0 (length (as_fls s))) = as_fls s.
Proof.
  intros M n A x s y ps R K E ->. rewrite (sub_entry _ _ _ _ _ _ R E). destruct (sub_sizes _ _ _ _ _ K E) as [H1 H2].
  split.
  - unfold sb_filter_count. cbn [sb_efl sb_sfl]. rewrite <- SF in *. rewrite csub_cadd by (auto; lia). lia.
  - unfold sb_filter. cbn [sb_sfl].
    assert (Ef : fls A = fls_of x ++ as_fls s ++ fls_of y).
    { unfold fls. rewrite E, fls_of_app. reflexivity. }
    assert (G : forall k, k <= length (as_fls s) ->
      map (fun off => n_fl n (cadd MAX_SB_FILTERS (cadd MAX_SB_FILTERS (n_sfl n) (nfl x)) off)) (seq 0 k) = firstn k (as_fls s)).
    { induction k as [|k IH]; intros Hk; [reflexivity|].
      rewrite seq_S, map_app, IH by lia. simpl.
      destruct (nth_error (as_fls s) k) as [f|] eqn:Q; [|apply nth_error_None in Q; lia].
      rewrite cadd_cadd by auto. rewrite (r_fl _ _ _ R (nfl x + k) f).
      - clear - Q. revert k Q. induction (as_fls s) as [|g r IH]; intros k Q; destruct k; simpl in *; try discriminate.
        + injection Q as ->. reflexivity.
        + f_equal. apply IH. exact Q.
      - rewrite Ef, nth_error_app2 by (unfold nfl; lia). unfold nfl. replace (length (fls_of x) + k - length (fls_of x)) with k by lia.
        rewrite nth_error_app1 by lia. exact Q. }
    rewrite G by lia. apply firstn_all.
Qed.

Lemma whole_from_eq : forall M n A, rep M n A -> aok M A -> forall fuel off, length (an_whole A) - off <= fuel -> off < M ->
  map (n_br n) (whole_from M n fuel (cadd M (n_sbr n) off)) = skipn off (an_whole A).
Proof.
  intros M n A R K. pose proof (ok_brs _ _ K) as H1. rewrite brs_len in H1. pose proof (r_sbr _ _ _ R) as H0.
  assert (Hw : forall o, o < M -> branch_is_whole M n (cadd M (n_sbr n) o) = (o <? length (an_whole A))).
  { intros o Ho. unfold branch_is_whole. rewrite (r_sfrac _ _ _ R), !csub_base by lia. reflexivity. }
  induction fuel as [|fuel IH]; intros off H2 H3; cbn [whole_from].
  - rewrite skipn_all2 by lia. reflexivity.
  - rewrite Hw by auto. destruct (Nat.ltb_spec off (length (an_whole A))) as [C | C].
    + cbn [map]. rewrite cadd_cadd by lia. rewrite Nat.add_1_r, IH by lia.
      destruct (nth_error (an_whole A) off) as [b|] eqn:Q; [|apply nth_error_None in Q; lia].
      rewrite (r_br _ _ _ R off b) by (unfold brs; rewrite nth_error_app1 by auto; exact Q).
      clear - Q. revert off Q. induction (an_whole A) as [|g r IH]; intros off Q; destruct off; simpl in *; try discriminate.
      * injection Q as ->. reflexivity.
      * apply IH. exact Q.
    + rewrite skipn_all2 by lia. reflexivity.
Qed.

(** ** The child's side *)

Definition frame (n n' : node) : Prop :=
  n_id n' = n_id n /\ n_height n' = n_height n /\ n_pgen n' = n_pgen n /\ n_sbn n' = n_sbn n /\ n_ssb n' = n_ssb n /\ n_piv n' = n_piv n.
Lemma frame_refl : forall n, frame n n.
Proof. intro. repeat split. Qed.
Lemma frame_trans : forall a b c, frame a b -> frame b c -> frame a c.
Proof. intros a b c (A1 & A2 & A3 & A4 & A5 & A6) (B1 & B2 & B3 & B4 & B5 & B6). repeat split; congruence. Qed.

Lemma add_branches_fields : forall M bs n, 0 < M -> exists g,
  add_branches M n bs = set_ebr (if bs then n_ebr n else cadd M (n_ebr n) (length bs)) (set_br g n) /\
  (forall s l, s < M -> n_ebr n = cadd M s (length l) -> length l + length bs <= M ->
     ring_is M (n_br n) s l -> ring_is M g s (l ++ bs)).
Proof. exact add_branches_eq. Qed.

Lemma copy_subbundle_rep : forall M parent P child A l x s y,
  rep M parent P -> aok M P -> subs P = x ++ s :: y -> rep_open M child A l ->
  length (subs A) + length l < MAX_SUBBUNDLES ->
  length (brs A) + nbr (l ++ [s]) < M -> length (fls A) + nfl (l ++ [s]) < MAX_SB_FILTERS -> as_brs s <> [] ->
  match copy_subbundle M parent (n_sb parent (cadd MAX_SUBBUNDLES (n_ssb parent) (length x))) child with
  | None => S (length (subs A) + length l) = MAX_SUBBUNDLES
  | Some c => S (length (subs A) + length l) < MAX_SUBBUNDLES /\ rep_open M c A (l ++ [s]) /\ frame child c
  end.
Proof.
  intros M parent P child A l x s y R K E O Hs Hb Hf Hne.
  destruct (sub_filters M parent P x s y _ R K E eq_refl) as [F1 F2].
  pose proof (sub_branches M parent P x s y R K E) as F3.
  pose proof (sub_entry M parent P x s y R E) as F4.
  set (ps := n_sb parent _) in *. unfold copy_subbundle. rewrite F1, get_new_subbundle_eq, (esb_full _ _ _ _ O Hs).
  destruct (Nat.eqb_spec (S (length (subs A) + length l)) MAX_SUBBUNDLES) as [Q | Q]; [exact Q|].
  split; [lia|]. rewrite F4. cbn [sb_sbr sb_ebr sb_compacted]. rewrite F3. rewrite <- F4.
  set (c1 := set_sb _ _). assert (Mp : 0 < M) by lia.
  destruct (add_branches_eq M (as_brs s) c1 Mp) as (g & G1 & G2). rewrite G1.
  replace (match as_brs s with [] => n_ebr c1 | _ :: _ => cadd M (n_ebr c1) (length (as_brs s)) end)
    with (cadd M (n_ebr child) (length (as_brs s))) by (destruct (as_brs s); [congruence | reflexivity]).
  rewrite nbr_app, nbr_cons, nbr_nil in Hb. rewrite nfl_app, nfl_cons, nfl_nil in Hf.
  set (c2 := set_ebr _ (set_br g c1)).
  assert (Es : n_sb c2 (n_esb child) = SB true (sb_sbr (n_sb child (n_esb child))) (sb_ebr (n_sb child (n_esb child))) (n_efl child) (cadd MAX_SB_FILTERS (n_efl child) (length (as_fls s)))).
  { unfold c2, c1. simpl. apply put_same. }
  rewrite Es. cbn [sb_sfl sb_efl]. set (c3 := set_sb _ c2).
  replace (n_ebr c2) with (cadd M (n_ebr child) (length (as_brs s))) by reflexivity.
  set (cs := SB (as_comp s) _ _ _ _).
  split; [|repeat split].
  replace (l ++ [s]) with (l ++ [AS (as_comp s) (as_brs s) (as_fls s)]) by (destruct s; reflexivity).
  eapply push_sub_open with (n := child) (c := as_comp s) (bl := as_brs s) (fl := as_fls s) (g := g)
    (h := copy_filters parent ps cs (length (as_fls s)) (n_fl c3)); auto; try reflexivity.
  - rewrite app_assoc. apply G2.
    + apply O.
    + unfold c1. simpl. rewrite (o_ebr _ _ _ _ O), app_length. reflexivity.
    + rewrite app_length. unfold nbr in Hb. lia.
    + apply O.
  - assert (Z : ring_is MAX_SB_FILTERS (copy_filters parent ps cs (length (as_fls s)) (n_fl c3)) (n_sfl child)
                  ((fls A ++ fls_of l) ++ map (sb_filter parent ps) (seq 0 (length (as_fls s))))).
    { apply copy_filters_ring; try apply O.
      - unfold cs. simpl. rewrite (o_efl _ _ _ _ O), app_length. reflexivity.
      - rewrite app_length. unfold nfl in Hf. lia. }
    rewrite F2, <- app_assoc in Z. exact Z.
  - intros i. unfold c3, cs, c2, c1. simpl. unfold put. destruct (i =? n_esb child); reflexivity.
Qed.

Lemma copy_subbundles_rep : forall M parent P A ss x child l,
  rep M parent P -> aok M P -> subs P = x ++ ss -> rep_open M child A l ->
  length (subs A) + length l < MAX_SUBBUNDLES ->
  length (brs A) + nbr (l ++ ss) < M -> length (fls A) + nfl (l ++ ss) < MAX_SB_FILTERS ->
  match copy_subbundles M parent (map (cadd MAX_SUBBUNDLES (n_ssb parent)) (seq (length x) (length ss))) child with
  | None => MAX_SUBBUNDLES <= length (subs A) + length l + length ss
  | Some c => length (subs A) + length l + length ss < MAX_SUBBUNDLES /\ rep_open M c A (l ++ ss) /\ frame child c
  end.
Proof.
  intros M parent P A ss. induction ss as [|s ss IH]; intros x child l R K E O Hs Hb Hf.
  - simpl. rewrite app_nil_r. split; [lia|]. split; auto. apply frame_refl.
  - cbn [length seq map copy_subbundles].
    assert (Hn : as_brs s <> []).
    { pose proof (ok_sub_nonempty _ _ K) as Z. rewrite E in Z. apply Forall_app in Z. destruct Z as [_ Z]. inversion Z; auto. }
    assert (H1 : length (brs A) + nbr (l ++ [s]) < M) by (rewrite nbr_app, nbr_cons in *; rewrite nbr_nil; lia).
    assert (H2 : length (fls A) + nfl (l ++ [s]) < MAX_SB_FILTERS) by (rewrite nfl_app, nfl_cons in *; rewrite nfl_nil; lia).
    pose proof (copy_subbundle_rep M parent P child A l x s ss R K E O Hs H1 H2 Hn) as C.
    destruct (copy_subbundle M parent _ child) as [c|]; [|lia].
    destruct C as (C1 & C2 & C3).
    specialize (IH (x ++ [s]) c (l ++ [s]) R K). rewrite <- !app_assoc in IH. simpl in IH.
    rewrite !app_length in IH. simpl in IH.
    replace (length x + 1) with (S (length x)) in IH by lia.
    specialize (IH E C2 ltac:(lia) Hb Hf).
    destruct (copy_subbundles M parent _ c) as [c'|]; [|lia].
    destruct IH as (I1 & I2 & I3). split; [lia|]. split; auto. eapply frame_trans; eauto.
Qed.

(** What a flush of the pivot [a] of [P] moves *)
Definition flushed (P : anode) (a : apiv) : list asub :=
  (if ap_off a <? length (an_whole P) then [AS false (skipn (ap_off a) (an_whole P)) [ap_filt a]] else []) ++
  concat (skipn (ap_boff a) (an_bns P)).

Theorem flush_rep : forall M parent P child C i a, rep M parent P -> aok M P -> rep M child C -> aok M C ->
  nth_error (an_piv P) i = Some a ->
  length (brs C) + nbr (flushed P a) < M -> length (fls C) + nfl (flushed P a) < MAX_SB_FILTERS ->
  match flush_into_bundle M parent i child with
  | None => S (length (an_bns C)) = MAX_BUNDLES \/ MAX_SUBBUNDLES <= length (subs C) + length (flushed P a) \/ flushed P a = []
  | Some (bno, parent', child') =>
      bno = n_ebn child /\ flushed P a <> [] /\
      rep M child' (add_bundle C (flushed P a)) /\ aok M (add_bundle C (flushed P a)) /\ frame child child' /\
      exists p, get_pivot parent i = Some p /\ piv_rep M parent p a /\ parent' = pivot_clear M parent i p
  end.
Proof.
  intros M parent P child C i a R K Rc Kc Ha Hb Hf.
  destruct (get_pivot_rep M parent P i a R Ha) as (p & Gp & Hp). unfold flush_into_bundle. rewrite Gp.
  pose proof Hp as (Q1 & Q2 & Q3 & Q4 & Q5).
  pose proof (get_new_bundle_rep M child C Rc Kc) as G.
  destruct (get_new_bundle child) as [[bno c0]|] eqn:E0; [|auto].
  destruct G as (-> & O & HB).
  assert (F0' : frame child c0). { unfold get_new_bundle in E0. destruct (_ =? _); inversion E0. repeat split. }
  assert (Mp : 0 < M) by lia.
  pose proof (ok_piv _ _ K) as Kp. rewrite Forall_forall in Kp. pose proof (Kp a (nth_error_In _ _ Ha)) as Ho.
  pose proof (off_ok_le _ _ _ Ho) as [Lo Lb]. pose proof (ok_brs _ _ K) as HPb. pose proof (ok_bns _ _ K) as HPn. pose proof (ok_subs _ _ K) as HPs.
  pose proof (ok_subs _ _ Kc) as HCs.
  set (pre := if ap_off a <? length (an_whole P) then [AS false (skipn (ap_off a) (an_whole P)) [ap_filt a]] else []).
  assert (Eflu : flushed P a = pre ++ concat (skipn (ap_boff a) (an_bns P))) by reflexivity.
  set (st1 := if branch_is_whole M parent (pv_sbr p) then _ else _).
  assert (H1 : match st1 with
               | None => S (length (subs C)) = MAX_SUBBUNDLES /\ pre <> []
               | Some (f, c4) => f = cadd MAX_SUBBUNDLES (n_ssb child) (length (subs C)) /\ length (subs C) + length pre < MAX_SUBBUNDLES /\
                                 rep_open M c4 C pre /\ frame child c4
               end).
  { unfold st1, branch_is_whole. rewrite Q4, (r_sfrac _ _ _ R). pose proof (brs_len P).
    rewrite !csub_base by (try apply R; lia). subst pre. rewrite Eflu in Hb, Hf.
    destruct (Nat.ltb_spec (ap_off a) (length (an_whole P))) as [Cw | Cw].
    - rewrite get_new_subbundle_eq, (esb_full _ _ _ _ O) by (simpl; lia).
      simpl length. rewrite Nat.add_0_r.
      destruct (Nat.eqb_spec (S (length (subs C))) MAX_SUBBUNDLES) as [Z | Z]; [split; [exact Z | discriminate]|].
      rewrite (whole_from_eq M parent P R K) by lia.
      set (bl := skipn (ap_off a) (an_whole P)). assert (Hbl : bl <> []).
      { unfold bl. intro Y. apply (f_equal (@length _)) in Y. rewrite skipn_length in Y. simpl in Y. lia. }
      match goal with |- context[add_branches M ?x bl] => set (c1 := x) end. cbv zeta.
      destruct (add_branches_eq M bl c1 Mp) as (g & G1 & G2). rewrite G1.
      replace (match bl with [] => n_ebr c1 | _ :: _ => cadd M (n_ebr c1) (length bl) end)
        with (cadd M (n_ebr c0) (length bl)) by (destruct bl; [congruence | reflexivity]).
      set (c2 := set_ebr _ (set_br g c1)).
      assert (Es : n_sb c2 (n_esb c0) = SB true (sb_sbr (n_sb c0 (n_esb c0))) (sb_ebr (n_sb c0 (n_esb c0))) (n_efl c0) (cadd MAX_SB_FILTERS (n_efl c0) 1)).
      { unfold c2, c1. simpl. apply put_same. }
      cbv zeta. rewrite Es. cbn [sb_sfl sb_efl].
      split; [rewrite (o_esb _ _ _ _ O); simpl; rewrite Nat.add_0_r; f_equal; apply F0'|].
      split; [lia|]. split.
      + change [AS false bl [ap_filt a]] with ([] ++ [AS false bl [ap_filt a]]).
        eapply push_sub_open with (n := c0) (g := g); auto; try reflexivity.
        * simpl. lia.
        * simpl. apply G2; try apply O.
          -- unfold c1. simpl. rewrite (o_ebr _ _ _ _ O), nbr_nil, Nat.add_0_r. reflexivity.
          -- rewrite nbr_app, nbr_cons in Hb. simpl in Hb. fold bl in Hb. lia.
          -- pose proof (o_br _ _ _ _ O) as Y. simpl in Y. rewrite app_nil_r in Y. exact Y.
        * simpl. rewrite cadd_0 by (rewrite (o_efl _ _ _ _ O); apply cadd_lt; auto).
          rewrite (o_efl _ _ _ _ O), nfl_nil, Nat.add_0_r. rewrite Q3. apply ring_push; try apply O.
          -- rewrite nfl_app, nfl_cons in Hf. simpl in Hf. lia.
          -- pose proof (o_fl _ _ _ _ O) as Y. simpl in Y. rewrite app_nil_r in Y. exact Y.
        * intros j. simpl. unfold put. destruct (j =? n_esb c0); reflexivity.
      + eapply frame_trans; [exact F0'|]. repeat split.
    - split; [rewrite (o_esb _ _ _ _ O); simpl; rewrite Nat.add_0_r; f_equal; apply F0'|].
      split; [simpl; lia|]. split; auto. }
  clearbody st1. destruct st1 as [[fsb c4]|].
  2: { right. left. destruct H1 as [H1 H2]. rewrite Eflu, app_length. destruct pre; [congruence|]. simpl. lia. }
  destruct H1 as (-> & H2 & O4 & F4). rewrite Eflu in Hb, Hf.
  set (ss := concat (skipn (ap_boff a) (an_bns P))) in *.
  set (x := concat (firstn (ap_boff a) (an_bns P))).
  assert (Es : subs P = x ++ ss) by (apply subs_at).
  pose proof (copy_subbundles_rep M parent P C ss x c4 pre R K Es O4 ltac:(lia) Hb Hf) as H3.
  set (st2 := if pivot_bundle_count parent p =? 0 then _ else _).
  assert (E2 : st2 = copy_subbundles M parent (map (cadd MAX_SUBBUNDLES (n_ssb parent)) (seq (length x) (length ss))) c4).
  { unfold st2, pivot_bundle_count, pivot_start_subbundle. rewrite Q5, (r_ebn _ _ _ R). rewrite csub_cadd by (auto; lia).
    rewrite cadd_eqb by (auto; lia).
    destruct (Nat.eqb_spec (length (an_bns P) - ap_boff a) 0) as [Z | Z].
    - unfold ss. rewrite skipn_all2 by lia. reflexivity.
    - replace (ap_boff a =? length (an_bns P)) with false by (symmetry; apply Nat.eqb_neq; lia).
      destruct (nth_split_bns (an_bns P) (ap_boff a) ltac:(lia)) as (b & Eb).
      pose proof (bundle_entry M parent P _ _ _ R Eb) as Y. rewrite firstn_length, Nat.min_l in Y by lia.
      rewrite Y. cbn [bn_ssb]. fold x. rewrite (r_esb _ _ _ R).
      assert (L : length (subs P) = length x + length ss) by (rewrite Es, app_length; reflexivity).
      rewrite cwalk_cadd by (auto; lia). f_equal. f_equal. f_equal. lia. }
  rewrite E2. clear E2. clearbody st2.
  destruct (copy_subbundles M parent _ c4) as [c5|]; [|rewrite Eflu, app_length; lia].
  destruct H3 as (H3 & O5 & F5).
  assert (Ecmp : (cadd MAX_SUBBUNDLES (n_ssb child) (length (subs C)) =? n_esb c5) = (length (pre ++ ss) =? 0)).
  { rewrite (o_esb _ _ _ _ O5). replace (n_ssb c5) with (n_ssb child) by (symmetry; apply (frame_trans _ _ _ F4 F5)).
    rewrite app_length. rewrite cadd_eqb by (auto; lia).
    destruct (Nat.eqb_spec (length pre + length ss) 0); [apply Nat.eqb_eq | apply Nat.eqb_neq]; lia. }
  rewrite Ecmp. destruct (Nat.eqb_spec (length (pre ++ ss)) 0) as [Z | Z].
  { right. right. rewrite Eflu. apply length_zero_iff_nil. exact Z. }
  split; [reflexivity|]. rewrite Eflu.
  assert (Hne : pre ++ ss <> []) by (intro Y; rewrite Y in Z; apply Z; reflexivity).
  split; [exact Hne|].
  pose proof (frame_trans _ _ _ F4 F5) as F6.
  split; [|split; [|split]].
  - replace (n_ssb child) with (n_ssb c5) by apply F6. apply close_rep; auto.
    replace (n_sbn c5) with (n_sbn child) by (symmetry; apply F6). apply Rc.
  - apply aok_add; auto.
    + apply Forall_app. split.
      * unfold pre. destruct (Nat.ltb_spec (ap_off a) (length (an_whole P))); constructor; [|constructor].
        simpl. intro Y. apply (f_equal (@length _)) in Y. rewrite skipn_length in Y. simpl in Y. lia.
      * pose proof (ok_sub_nonempty _ _ K) as Y. rewrite Es in Y. apply Forall_app in Y. apply Y.
    + rewrite app_length. lia.
  - destruct F6 as (Y1 & Y2 & Y3 & Y4 & Y5 & Y6). repeat split; simpl; auto.
  - exists p. auto.
Qed.
