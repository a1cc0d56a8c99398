(** * The effect of splits on the views *)

From Coq Require Import List Arith NArith ZArith Lia Bool Sorted Permutation.
From Verif Require Import Base Spec Spec_Merge Search.
From Verif Require Import TrunkNode TrunkRing TrunkRep TrunkOps TrunkReset TrunkFlush TrunkClear TrunkReplace TrunkSplit.
From Verif Require Import TrunkAlpha TrunkKeys TrunkView TrunkTree TrunkShape TrunkEffects TrunkInstall.
Import ListNotations.

(** ** Lists *)

Lemma pairs_split : forall {A} (l : list A) i a b, nth_error (pairs l) i = Some (a, b) ->
  exists X Y, l = X ++ a :: b :: Y /\ length X = i.
Proof.
  intros A l i a b E. apply pairs_nth in E. destruct E as [E1 E2].
  destruct (nth_error_split _ _ E1) as (X & Y & -> & L). exists X.
  rewrite nth_error_app2 in E2 by lia. replace (S i - length X) with 1 in E2 by lia. destruct Y as [|y Y]; [discriminate|].
  cbn in E2. injection E2 as ->. exists Y. auto.
Qed.
Lemma pairs_mid : forall {A} (X Y : list A) a b, pairs (X ++ a :: b :: Y) = pairs (X ++ [a]) ++ (a, b) :: pairs (b :: Y).
Proof. intros. rewrite (pairs_app X (b :: Y) a). reflexivity. Qed.
Lemma pairs_mids : forall {A} (X Y ks : list A) a b,
  pairs (X ++ a :: ks ++ b :: Y) = pairs (X ++ [a]) ++ pairs (a :: ks ++ [b]) ++ pairs (b :: Y).
Proof.
  intros. rewrite (pairs_app X (ks ++ b :: Y) a). f_equal. rewrite app_comm_cons, (pairs_app (a :: ks) Y b). reflexivity.
Qed.
Lemma Forall2_mid : forall {A B} (P : A -> B -> Prop) l X y Y, Forall2 P l (X ++ y :: Y) ->
  exists x, nth_error l (length X) = Some x /\ P x y /\ Forall2 P (firstn (length X) l) X /\ Forall2 P (skipn (S (length X)) l) Y.
Proof.
  intros A B P l X. revert l. induction X as [|z X IH]; intros l y Y H; inversion H; subst; cbn [app length] in *.
  - exists x. simpl. auto.
  - destruct (IH _ _ _ H4) as (w & E & Pw & F1 & F2). exists w. cbn [nth_error firstn]. repeat split; auto.
Qed.
Lemma Forall2_app3 : forall {A B} (P : A -> B -> Prop) a b c x y z, Forall2 P a x -> Forall2 P b y -> Forall2 P c z ->
  Forall2 P (a ++ b ++ c) (x ++ y ++ z).
Proof. intros. apply Forall2_app; auto. apply Forall2_app; auto. Qed.

Lemma app_inj_both : forall {A} (x y : list A) x' y', x ++ y = x' ++ y' -> length x = length x' -> x = x' /\ y = y'.
Proof.
  intros A x. induction x as [|a x IH]; intros y [|b x'] y' E L; cbn in *; try lia; auto.
  injection E as -> E. destruct (IH y x' y' E) as [-> ->]; auto.
Qed.

Section SplitEff.
Variables (M mp : nat) (cfg : data_config).
Hypothesis TO : total_order (key_compare cfg).
Local Notation klt := (klt cfg).
Local Notation kle := (kle cfg).
Local Notation alpha := (alpha M).
Local Notation nwf := (nwf M mp cfg).
Local Notation twf := (twf M mp cfg).
Local Notation nview := (nview M cfg).
Local Notation view_at := (view_at M cfg).

(** ** A node with one child replaced by several *)

Lemma split_kids : forall h n kids a b X Y lo hi n' A' ks cs, twf (S h) (Tr n kids) a b ->
  akeys (alpha n) = X ++ lo :: hi :: Y -> nwf (S h) n' A' -> akeys A' = X ++ lo :: ks ++ hi :: Y ->
  Forall2 (fun c ab => twf h c (fst ab) (snd ab)) cs (pairs (lo :: ks ++ [hi])) ->
  let t' := Tr n' (firstn (length X) kids ++ cs ++ skipn (S (length X)) kids) in
  twf (S h) t' a b /\
  (forall e k, kle a k -> klt k b -> klt k lo \/ kle hi k -> view_at (S e) k t' = view_at (S e) k (Tr n kids)) /\
  (forall e j c x y k, nth_error cs j = Some c -> nth_error (pairs (lo :: ks ++ [hi])) j = Some (x, y) ->
     kle x k -> klt k y -> view_at (S e) k t' = view_at e k c).
Proof.
  intros h n kids a b X Y lo hi n' A' ks cs T Ek W' Ek' Fc t'.
  pose proof (twf_nwf _ _ _ _ _ _ _ T) as (W & Ea & Eb). cbn [t_node] in *. destruct T as (_ & _ & _ & Fk). cbn [t_node t_kids] in Fk.
  rewrite Ek, pairs_mid in Fk. pose proof (pairs_length X lo) as LX.
  destruct (Forall2_mid _ _ _ _ _ Fk) as (c0 & Ec0 & _ & Fl & Fr). rewrite LX in *.
  pose proof (nwf_alpha _ _ _ _ _ _ W') as EA.
  assert (Ends : an_lo A' = a /\ an_hi A' = b).
  { rewrite <- Ea, <- Eb. split.
    - rewrite !an_lo_eq, Ek, Ek'. destruct X; reflexivity.
    - unfold akeys in Ek, Ek'. apply (f_equal (fun l => last l KPosInf)) in Ek. apply (f_equal (fun l => last l KPosInf)) in Ek'.
      rewrite last_last in Ek, Ek'. rewrite Ek, Ek'. clear.
      replace (X ++ lo :: ks ++ hi :: Y) with ((X ++ lo :: ks) ++ hi :: Y) by (rewrite <- app_assoc; reflexivity).
      replace (X ++ lo :: hi :: Y) with ((X ++ [lo]) ++ hi :: Y) by (rewrite <- app_assoc; reflexivity).
      assert (G : forall Z, last (Z ++ hi :: Y) KPosInf = last (hi :: Y) KPosInf).
      { intro Z. induction Z as [|z Z IH]; auto. cbn [app last] in *. rewrite <- IH at 1. destruct (Z ++ hi :: Y) eqn:Q; [destruct Z; discriminate | reflexivity]. }
      rewrite !G. reflexivity. }
  destruct Ends as [Elo Ehi].
  assert (Ekids : pairs (akeys A') = pairs (X ++ [lo]) ++ pairs (lo :: ks ++ [hi]) ++ pairs (hi :: Y)) by (rewrite Ek'; apply pairs_mids).
  assert (T' : twf (S h) t' a b).
  { unfold t'. cbn [TrunkShape.twf t_node t_kids]. rewrite EA. split; [exact W'|]. split; [exact Elo|]. split; [exact Ehi|].
    rewrite Ekids. apply Forall2_app3; auto. }
  assert (Lm : length (pairs (lo :: ks ++ [hi])) = S (length ks)) by (rewrite app_comm_cons, pairs_length; reflexivity).
  assert (Lc : length cs = S (length ks)).
  { assert (Q : length cs = length (pairs (lo :: ks ++ [hi]))) by (clear - Fc; induction Fc; simpl; congruence).
    rewrite Q. exact Lm. }
  assert (LX2 : length X < length kids) by (apply nth_error_Some; congruence).
  assert (Lf : length (firstn (length X) kids) = length X) by (apply firstn_length_le; lia).
  split; [exact T'|]. split.
  - intros e k H1 H2 Ho. unfold TrunkShape.view_at. cbn [subtree_at t_node t_kids].
    destruct (route_cell M mp cfg TO (S h) n (alpha n) k W) as (i & x & y & Er & Ei & Hx & Hy); [rewrite Ea; exact H1 | rewrite Eb; exact H2 |].
    rewrite Er. rewrite Ek, pairs_mid in Ei.
    destruct (lt_eq_lt_dec i (length X)) as [[Q|Q]|Q].
    + rewrite nth_error_app1 in Ei by lia.
      assert (Ei' : nth_error (pairs (akeys A')) i = Some (x, y)) by (rewrite Ekids, nth_error_app1 by lia; exact Ei).
      unfold t'. cbn [t_node t_kids]. rewrite (route_at M mp cfg TO (S h) n' A' k i x y W' Ei' Hx Hy).
      rewrite nth_error_app1 by lia. rewrite <- (firstn_skipn (length X) kids) at 2. rewrite nth_error_app1 by lia. reflexivity.
    + subst i. rewrite nth_error_app2, LX, Nat.sub_diag in Ei by lia. cbn [nth_error] in Ei. injection Ei as -> ->. exfalso. destruct Ho; ord TO.
    + rewrite nth_error_app2, LX in Ei by lia. destruct (i - length X) as [|z] eqn:Z; [lia|]. cbn [nth_error] in Ei.
      assert (Ei' : nth_error (pairs (akeys A')) (i + length ks) = Some (x, y)).
      { rewrite Ekids, nth_error_app2 by lia. rewrite nth_error_app2 by lia. rewrite LX, Lm. replace (i + length ks - length X - S (length ks)) with z by lia. exact Ei. }
      unfold t'. cbn [t_node t_kids]. rewrite (route_at M mp cfg TO (S h) n' A' k _ x y W' Ei' Hx Hy).
      rewrite nth_error_app2 by lia. rewrite nth_error_app2 by lia. rewrite Lf, Lc.
      replace (i + length ks - length X - S (length ks)) with z by lia. rewrite nth_error_skipn. replace (S (length X) + z) with i by lia. reflexivity.
  - intros e j c x y k Ej Exy Hx Hy. unfold TrunkShape.view_at. cbn [subtree_at t_node t_kids].
    assert (Lj : j < length cs) by (apply nth_error_Some; congruence).
    assert (Ei' : nth_error (pairs (akeys A')) (length X + j) = Some (x, y)).
    { rewrite Ekids, nth_error_app2 by lia. rewrite nth_error_app1 by lia.
      rewrite LX. replace (length X + j - length X) with j by lia. exact Exy. }
    unfold t'. cbn [t_node t_kids]. rewrite (route_at M mp cfg TO (S h) n' A' k _ x y W' Ei' Hx Hy).
    rewrite nth_error_app2 by lia. rewrite Lf. replace (length X + j - length X) with j by lia. rewrite nth_error_app1 by lia. rewrite Ej. reflexivity.
Qed.

(** ** Adding pivots *)

Definition with_pgen (v : view) (g : nat) : view :=
  VW (v_id v) (v_nlo v) (v_nhi v) g (v_lo v) (v_hi v) (v_gen v) (v_bno v) (v_whole v) (v_bns v) (v_filt v).
(** The same contents in a smaller cell *)
Record cell_in (v v' : view) : Prop := {
  ci_id : v_id v' = v_id v; ci_nlo : v_nlo v' = v_nlo v; ci_nhi : v_nhi v' = v_nhi v; ci_pgen : v_pgen v <= v_pgen v';
  ci_lo : kle (v_lo v) (v_lo v'); ci_hi : kle (v_hi v') (v_hi v);
  ci_gen : v_gen v' = v_gen v \/ v_pgen v <= v_gen v';
  ci_bno : v_bno v' = v_bno v; ci_whole : v_whole v' = v_whole v; ci_bns : v_bns v' = v_bns v; ci_filt : v_filt v' = v_filt v
}.
Lemma cell_in_trans : forall a b c, cell_in a b -> cell_in b c -> cell_in a c.
Proof.
  intros a b c [] []. constructor; try congruence; try lia; try ord TO.
Qed.
Lemma cell_in_pgen : forall v g, v_pgen v <= g -> cell_in v (with_pgen v g).
Proof. intros v g L. assert (v_lo v = v_lo v) by auto. assert (v_hi v = v_hi v) by auto. constructor; cbn; auto; ord TO. Qed.

Lemma add_pivot_effect : forall ht n A X Y lo hi k n', nwf ht n A -> ht <> 0 -> akeys A = X ++ lo :: hi :: Y ->
  klt lo k -> klt k hi -> add_pivot mp n (S (length X)) k = Some n' ->
  exists A', nwf ht n' A' /\ akeys A' = X ++ lo :: k :: hi :: Y /\ n_id n' = n_id n /\ n_pgen n <= n_pgen n' /\
    forall x, kle (an_lo A) x -> klt x (an_hi A) -> exists v v', nview n x = Some v /\ nview n' x = Some v' /\ cell_in v v' /\
      (klt x lo \/ kle hi x -> v' = with_pgen v (n_pgen n')).
Proof.
  intros ht n A X Y lo hi k n' W Hz Ek H1 H2 Ea. pose proof (w_rep _ _ _ _ _ _ W) as R. pose proof (w_aok _ _ _ _ _ _ W) as K.
  assert (Ei : nth_error (pairs (akeys A)) (length X) = Some (lo, hi)).
  { rewrite Ek, pairs_mid, nth_error_app2 by (rewrite pairs_length; lia). rewrite pairs_length, Nat.sub_diag. reflexivity. }
  destruct (aviews_at n A _ _ _ Ei) as (a & Epa & Eka & _).
  pose proof (add_pivot_rep M n A (length X) a mp k R K Epa) as P. rewrite Ea in P.
  destruct P as (R' & K' & E1 & E2 & E3 & E4 & E5).
  destruct (nth_error_split _ _ Epa) as (PX & PY & EP & LP).
  assert (EA' : pivot_added A (length X) a (n_pgen n) k =
      AN (an_whole A) (an_bns A) (PX ++ AP (ap_key a) (n_pgen n) (ap_off a) (ap_boff a) (ap_filt a) :: AP k (ap_gen a) (ap_off a) (ap_boff a) (ap_filt a) :: PY) (an_hi A)).
  { unfold pivot_added. rewrite EP. f_equal. rewrite <- LP. rewrite firstn_app_l', firstn_all by lia. f_equal. f_equal. f_equal.
    replace (S (length PX)) with (length PX + 1) by lia. rewrite skipn_app, skipn_all2 by lia.
    replace (length PX + 1 - length PX) with 1 by lia. reflexivity. }
  rewrite EA' in *.
  set (A' := AN (an_whole A) (an_bns A) (PX ++ AP (ap_key a) (n_pgen n) (ap_off a) (ap_boff a) (ap_filt a) :: AP k (ap_gen a) (ap_off a) (ap_boff a) (ap_filt a) :: PY) (an_hi A)) in *.
  assert (EX : X = map ap_key PX /\ hi :: Y = map ap_key PY ++ [an_hi A]).
  { unfold akeys in Ek. rewrite EP, map_app, <- app_assoc in Ek. cbn [map app] in Ek. rewrite Eka in Ek.
    assert (L : length (map ap_key PX) = length X) by (rewrite map_length; exact LP).
    apply app_inj_both in Ek; [|exact L]. destruct Ek as [<- Ek]. injection Ek as Ek. auto. }
  destruct EX as [EX EY].
  assert (Ek' : akeys A' = X ++ lo :: k :: hi :: Y).
  { unfold akeys, A'. cbn [an_piv an_hi]. rewrite map_app, <- app_assoc. cbn [map app ap_key]. rewrite EX, Eka, EY. reflexivity. }
  assert (Slo : StronglySorted klt (akeys A')).
  { pose proof (w_sorted _ _ _ _ _ _ W) as Sx. rewrite Ek in Sx. rewrite Ek'. apply ss_app in Sx. destruct Sx as (S1 & S2 & S3).
    inversion S2 as [|? ? S2' F2]; subst. inversion S2' as [|? ? S2'' F3]; subst. inversion F2 as [|? ? L1 F2']; subst.
    apply ss_app. split; [exact S1|]. split.
    - constructor; [constructor; [exact S2'|]|].
      + constructor; [exact H2|]. eapply Forall_impl; [|exact F3]. intros z Hz'. cbn in Hz'. ord TO.
      + constructor; [exact H1|]. exact F2.
    - intros u w Iu Iw. destruct Iw as [<-|[<-|Iw]]; [apply S3; auto; left; auto | | apply S3; auto; right; exact Iw].
      pose proof (S3 u (ap_key a) Iu (or_introl eq_refl)). ord TO. }
  assert (W' : nwf ht n' A').
  { constructor; auto.
    - rewrite E2. apply W.
    - pose proof (w_gens _ _ _ _ _ _ W) as G. pose proof (w_pgen _ _ _ _ _ _ W) as Gl. rewrite EP in G, Gl. unfold A'. cbn [an_piv]. rewrite map_app in *. cbn [map ap_gen] in *.
      apply (Permutation_NoDup (l := n_pgen n :: map ap_gen PX ++ ap_gen a :: map ap_gen PY)).
      + apply Permutation_middle.
      + constructor; [|exact G]. intro Iz. rewrite <- (map_cons ap_gen), <- map_app in Iz. apply in_map_iff in Iz. destruct Iz as (z & Ez & Iz).
        rewrite Forall_forall in Gl. specialize (Gl z Iz). lia.
    - pose proof (w_pgen _ _ _ _ _ _ W) as Gl. rewrite EP in Gl. unfold A'. cbn [an_piv]. rewrite E3. apply Forall_app in Gl. destruct Gl as [G1 G2].
      inversion G2 as [|? ? G3 G4]; subst. apply Forall_app. split; [eapply Forall_impl; [|exact G1]; cbn; lia|].
      constructor; [cbn; lia|]. constructor; [cbn; lia|]. eapply Forall_impl; [|exact G4]; cbn; lia.
    - unfold add_pivot in Ea. destruct ((S (length X) =? 0) || (num_children n <? S (length X)) || (mp <=? length (n_piv n))) eqn:G; [discriminate|].
      apply orb_false_elim in G. destruct G as [_ G]. apply Nat.leb_gt in G.
      destruct (akeys_eq M n A R) as [Q _]. apply (f_equal (@length _)) in Q. rewrite map_length, akeys_length, EP in Q.
      unfold A'. cbn [an_piv]. rewrite app_length in *. cbn [length] in *. lia.
    - contradiction. }
  exists A'. split; [exact W'|]. split; [exact Ek'|]. split; [exact E1|]. split; [lia|].
  intros x Hl Hh.
  destruct (nview_at M mp cfg TO ht n A x W Hl Hh) as (i & p & b & _ & Ep & Eb & Ev & Hp & Hb).
  assert (Elo : an_lo A' = an_lo A) by (rewrite !an_lo_eq, Ek, Ek'; destruct X; reflexivity).
  exists (view_of n A p b). rewrite Ek, pairs_mid in Eb.
  assert (Same : forall i', nth_error (an_piv A') i' = Some p -> nth_error (pairs (akeys A')) i' = Some (ap_key p, b) ->
     nview n' x = Some (with_pgen (view_of n A p b) (n_pgen n'))).
  { intros i' Q1 Q2. rewrite (nview_char M mp cfg TO ht n' A' x i' p b W' Q1 Q2 Hp Hb). f_equal. unfold view_of, with_pgen.
    cbn [v_id v_nlo v_nhi v_pgen v_lo v_hi v_gen v_bno v_whole v_bns v_filt]. rewrite E1, E4, Elo. reflexivity. }
  pose proof (pairs_length X lo) as LX.
  assert (Pc : v_pgen (view_of n A p b) <= n_pgen n') by (cbn; lia).
  destruct (lt_eq_lt_dec i (length X)) as [[Q|Q]|Q].
  - exists (with_pgen (view_of n A p b) (n_pgen n')). split; [exact Ev|]. split; [|split; [apply cell_in_pgen; exact Pc | auto]].
    apply (Same i).
    + unfold A'. cbn [an_piv]. rewrite nth_error_app1 by lia. rewrite EP, nth_error_app1 in Ep by lia. exact Ep.
    + rewrite Ek', (pairs_mid X (hi :: Y)). rewrite nth_error_app1 in * by lia. exact Eb.
  - subst i. rewrite nth_error_app2, LX, Nat.sub_diag in Eb by lia. cbn [nth_error] in Eb. injection Eb as Eb1 ->.
    assert (p = a) by congruence. subst p.
    destruct (kle_lt_dec cfg TO k x) as [Hk|Hk].
    + set (p' := AP k (ap_gen a) (ap_off a) (ap_boff a) (ap_filt a)) in *.
      assert (V : nview n' x = Some (view_of n' A' p' b)).
      { apply (nview_char M mp cfg TO ht n' A' x (S (length X)) p' b W').
        - unfold A'. cbn [an_piv]. rewrite nth_error_app2 by lia. rewrite LP. replace (S (length X) - length X) with 1 by lia. reflexivity.
        - rewrite Ek', (pairs_mid X (b :: Y)), nth_error_app2 by lia. rewrite LX. replace (S (length X) - length X) with 1 by lia. reflexivity.
        - exact Hk.
        - exact Hb. }
      eexists. split; [exact Ev|]. split; [exact V|]. split; [|intros [?|?]; exfalso; ord TO].
      assert (b = b) by auto. constructor; cbn [view_of v_id v_nlo v_nhi v_pgen v_lo v_hi v_gen v_bno v_whole v_bns v_filt p' ap_key ap_gen ap_off ap_boff ap_filt];
        rewrite ?E1, ?E4, ?Elo; auto; try ord TO; lia.
    + set (p' := AP (ap_key a) (n_pgen n) (ap_off a) (ap_boff a) (ap_filt a)) in *.
      assert (V : nview n' x = Some (view_of n' A' p' k)).
      { apply (nview_char M mp cfg TO ht n' A' x (length X) p' k W').
        - unfold A'. cbn [an_piv]. rewrite nth_error_app2 by lia. rewrite LP, Nat.sub_diag. reflexivity.
        - rewrite Ek', (pairs_mid X (b :: Y)), nth_error_app2 by lia. rewrite LX, Nat.sub_diag. cbn [nth_error p' ap_key]. rewrite Eka. reflexivity.
        - exact Hp.
        - exact Hk. }
      eexists. split; [exact Ev|]. split; [exact V|]. split; [|intros [?|?]; exfalso; ord TO].
      assert (ap_key a = ap_key a) by auto. constructor; cbn [view_of v_id v_nlo v_nhi v_pgen v_lo v_hi v_gen v_bno v_whole v_bns v_filt p' ap_key ap_gen ap_off ap_boff ap_filt];
        rewrite ?E1, ?E4, ?Elo; auto; try ord TO; lia.
  - exists (with_pgen (view_of n A p b) (n_pgen n')). split; [exact Ev|]. split; [|split; [apply cell_in_pgen; exact Pc | auto]].
    rewrite nth_error_app2, LX in Eb by lia. destruct (i - length X) as [|z] eqn:Z; [lia|]. cbn [nth_error] in Eb.
    apply (Same (S i)).
    + unfold A'. cbn [an_piv]. rewrite nth_error_app2 by lia. rewrite LP. replace (S i - length X) with (S (S z)) by lia. cbn [nth_error].
      rewrite EP, nth_error_app2, LP, Z in Ep by lia. exact Ep.
    + rewrite Ek', (pairs_mid X (hi :: Y)), nth_error_app2 by lia. rewrite LX. replace (S i - length X) with (S (S z)) by lia. exact Eb.
Qed.

Theorem add_pivots_effect : forall ht ks n A X Y lo hi n', nwf ht n A -> ht <> 0 -> akeys A = X ++ lo :: hi :: Y ->
  StronglySorted klt (lo :: ks ++ [hi]) -> add_pivots mp n (S (length X)) ks = Some n' ->
  exists A', nwf ht n' A' /\ akeys A' = X ++ lo :: ks ++ hi :: Y /\ n_id n' = n_id n /\ n_pgen n <= n_pgen n' /\
    forall x, kle (an_lo A) x -> klt x (an_hi A) -> exists v v', nview n x = Some v /\ nview n' x = Some v' /\ cell_in v v' /\
      (klt x lo \/ kle hi x -> v' = with_pgen v (n_pgen n')).
Proof.
  intros ht ks. induction ks as [|k ks IH]; intros n A X Y lo hi n' W Hz Ek Sk Ea; cbn [add_pivots] in Ea.
  - injection Ea as <-. exists A. split; [exact W|]. split; [exact Ek|]. split; [reflexivity|]. split; [lia|]. intros x Hl Hh.
    destruct (nview_at M mp cfg TO ht n A x W Hl Hh) as (i & p & b & _ & Ep & Eb & Ev & Hp & Hb).
    assert (Q : view_of n A p b = with_pgen (view_of n A p b) (n_pgen n)) by reflexivity.
    exists (view_of n A p b), (view_of n A p b). split; [exact Ev|]. split; [exact Ev|]. split; [|intros _; exact Q].
    rewrite Q at 2. apply cell_in_pgen. cbn. lia.
  - destruct (add_pivot mp n (S (length X)) k) as [n1|] eqn:E1; [|discriminate].
    cbn [app] in Sk. inversion Sk as [|? ? Sk' F1]; subst. inversion F1 as [|? ? L1 F1']; subst. inversion Sk' as [|? ? Sk'' F2]; subst.
    assert (L2 : klt k hi) by (rewrite Forall_forall in F2; apply F2; apply in_app_iff; right; left; reflexivity).
    destruct (add_pivot_effect ht n A X Y lo hi k n1 W Hz Ek L1 L2 E1) as (A1 & W1 & Ek1 & I1 & G1 & V1).
    assert (Ek1' : akeys A1 = (X ++ [lo]) ++ k :: hi :: Y) by (rewrite <- app_assoc; exact Ek1).
    replace (S (S (length X))) with (S (length (X ++ [lo]))) in Ea by (rewrite app_length; cbn; lia).
    destruct (IH n1 A1 (X ++ [lo]) Y k hi n' W1 Hz Ek1' Sk' Ea) as (A' & W' & Ek' & I' & G' & V').
    exists A'. split; [exact W'|]. split; [rewrite Ek', <- app_assoc; reflexivity|]. split; [congruence|]. split; [lia|].
    assert (Elo : an_lo A1 = an_lo A) by (rewrite !an_lo_eq, Ek, Ek1; destruct X; reflexivity).
    assert (Ehi : an_hi A1 = an_hi A).
    { assert (G : forall B, an_hi B = last (akeys B) KPosInf) by (intro B; unfold akeys; rewrite last_last; reflexivity).
      rewrite !G, Ek, Ek1. clear. induction X as [|z X IHx]; [destruct Y; reflexivity|]. cbn [app last].
      destruct (X ++ lo :: k :: hi :: Y) eqn:Q1; [destruct X; discriminate|]. destruct (X ++ lo :: hi :: Y) eqn:Q2; [destruct X; discriminate|]. exact IHx. }
    intros x Hl Hh. destruct (V1 x Hl Hh) as (v & v1 & Ev & Ev1 & C1 & S1). rewrite <- Elo in Hl. rewrite <- Ehi in Hh.
    destruct (V' x Hl Hh) as (v2 & v' & Ev2 & Ev' & C2 & S2). rewrite Ev1 in Ev2. injection Ev2 as <-.
    exists v, v'. split; [exact Ev|]. split; [exact Ev'|]. split; [eapply cell_in_trans; eauto|].
    intro Ho. rewrite S2, (S1 Ho) by (destruct Ho; [left; ord TO | right; auto]). reflexivity.
Qed.

(** ** The leaves *)

Definition v_rebundled (v : view) : list asub :=
  match v_whole v with [] => concat (v_bns v) | W => AS false W [v_filt v] :: concat (v_bns v) end.
Record leaf_cut (v v' : view) : Prop := {
  lc_nlo : kle (v_nlo v) (v_nlo v'); lc_nhi : kle (v_nhi v') (v_nhi v);
  lc_pgen : v_pgen v' = S (v_pgen v); lc_gen : v_gen v' = v_pgen v;
  lc_bno : v_bno v' = v_end v; lc_whole : v_whole v' = []; lc_bns : v_bns v' = [v_rebundled v];
  lc_filt : v_filt v' = match v_whole v with [] => v_filt v | _ => [] end
}.

Lemma leaf_view : forall n A k, nwf 0 n A -> kle (an_lo A) k -> klt k (an_hi A) ->
  exists a, an_piv A = [a] /\ nview n k = Some (view_of n A a (an_hi A)) /\ ap_off a = 0 /\ ap_boff a = 0.
Proof.
  intros n A k W Hl Hh. destruct (w_leaf _ _ _ _ _ _ W eq_refl) as (a & Ea & O1 & O2).
  destruct (nview_at M mp cfg TO 0 n A k W Hl Hh) as (i & p & b & _ & Ep & Eb & Ev & Hp & Hb).
  assert (Ek : akeys A = [ap_key a; an_hi A]) by (unfold akeys; rewrite Ea; reflexivity). rewrite Ek in Eb.
  destruct i as [|[|i]]; cbn in Eb; try discriminate. injection Eb as Q1 <-. rewrite Ea in Ep. cbn in Ep. injection Ep as <-. exists a. auto.
Qed.

Lemma leaf_cut_effect : forall n A n1 bno id lo hi, nwf 0 n A -> leaf_rebundle M n = Some (bno, n1) -> brs A <> [] ->
  kle (an_lo A) lo -> klt lo hi -> kle hi (an_hi A) ->
  exists A', nwf 0 (cut_leaf n1 id lo hi) A' /\ an_lo A' = lo /\ an_hi A' = hi /\
    forall k, kle lo k -> klt k hi -> exists v v', nview n k = Some v /\ nview (cut_leaf n1 id lo hi) k = Some v' /\ leaf_cut v v' /\ v_id v' = id.
Proof.
  intros n A n1 bno id lo hi W Er Nz L1 L2 L3.
  destruct (w_leaf _ _ _ _ _ _ W eq_refl) as (a & Ea & O1 & O2).
  pose proof (leaf_rebundle_rep M n A a (w_rep _ _ _ _ _ _ W) (w_aok _ _ _ _ _ _ W) Ea O1 O2 Nz) as P. rewrite Er in P.
  destruct P as (Eb & R1 & K1 & E1 & E2 & E3 & E4).
  assert (Epv : exists f, an_piv (rebundled A a (n_pgen n)) = [AP (ap_key a) (n_pgen n) 0 0 f] /\ an_whole (rebundled A a (n_pgen n)) = [] /\
     an_bns (rebundled A a (n_pgen n)) = [match an_whole A with [] => subs A | W0 => AS false W0 [ap_filt a] :: subs A end] /\
     f = match an_whole A with [] => ap_filt a | _ => [] end).
  { unfold rebundled. destruct (an_whole A); eexists; repeat split. }
  destruct Epv as (f & Ep & Ew & Eb1 & Ef).
  destruct (cut_leaf_rep M n1 (rebundled A a (n_pgen n)) _ id lo hi R1 K1 Ep) as [R2 K2]. cbn [ap_gen ap_off ap_boff ap_filt] in R2, K2.
  rewrite Ew, Eb1 in R2, K2.
  set (A' := AN [] [match an_whole A with [] => subs A | W0 => AS false W0 [ap_filt a] :: subs A end] [AP lo (n_pgen n) 0 0 f] hi) in *.
  assert (W' : nwf 0 (cut_leaf n1 id lo hi) A').
  { constructor; auto.
    - unfold cut_leaf. cbn [set_id set_piv n_height]. rewrite E2. apply W.
    - unfold akeys, A'. cbn. constructor; [constructor; [constructor | constructor] | constructor; [exact L2 | constructor]].
    - unfold A'. cbn. constructor; [auto | constructor].
    - unfold A'. cbn [an_piv]. unfold cut_leaf. cbn [set_id set_piv n_pgen]. rewrite E3. constructor; [cbn; lia | constructor].
    - pose proof (w_count _ _ _ _ _ _ W) as C. rewrite Ea in C. exact C.
    - intros _. eexists. split; [reflexivity|]. auto. }
  exists A'. split; [exact W'|]. split; [reflexivity|]. split; [reflexivity|]. intros k Hl Hh.
  destruct (leaf_view n A k W) as (a2 & Ea2 & Ev & _ & _); [ord TO | ord TO |]. assert (a2 = a) by congruence. subst a2.
  destruct (leaf_view _ A' k W' Hl Hh) as (a3 & Ea3 & Ev' & _ & _). cbn in Ea3. injection Ea3 as <-.
  eexists. eexists. split; [exact Ev|]. split; [exact Ev'|].
  assert (Sz : n_sbn (cut_leaf n1 id lo hi) = n_ebn n) by (unfold cut_leaf; cbn [set_id set_piv n_sbn]; exact E4).
  split; [constructor|]; cbn [view_of v_id v_nlo v_nhi v_pgen v_lo v_hi v_gen v_bno v_whole v_bns v_filt A' an_lo an_hi an_piv an_whole an_bns ap_key ap_gen ap_off ap_boff ap_filt hd].
  - exact L1.
  - exact L3.
  - unfold cut_leaf. cbn [set_id set_piv n_pgen]. exact E3.
  - reflexivity.
  - rewrite Sz. unfold v_end. cbn [view_of v_bno v_bns]. rewrite O2, cadd_cadd by auto. rewrite cadd_0 by (rewrite (r_ebn _ _ _ (w_rep _ _ _ _ _ _ W)); auto).
    rewrite (r_ebn _ _ _ (w_rep _ _ _ _ _ _ W)). reflexivity.
  - reflexivity.
  - unfold v_rebundled. cbn [view_of v_bns v_whole v_filt]. rewrite O1, O2. reflexivity.
  - rewrite O1. exact Ef.
  - reflexivity.
Qed.

Lemma cut_leaves_ok : forall n A n1 bno, nwf 0 n A -> leaf_rebundle M n = Some (bno, n1) -> brs A <> [] ->
  forall ks id, StronglySorted klt ks -> (forall k, In k ks -> kle (an_lo A) k /\ kle k (an_hi A)) ->
  Forall2 (fun c ab => twf 0 c (fst ab) (snd ab)) (cut_leaves n1 id ks) (pairs ks) /\
  (forall j x y c, nth_error (cut_leaves n1 id ks) j = Some c -> nth_error (pairs ks) j = Some (x, y) ->
     forall k, kle x k -> klt k y -> exists v v', nview n k = Some v /\ view_at 0 k c = Some v' /\ leaf_cut v v' /\ v_id v' = id + j).
Proof.
  intros n A n1 bno W Er Nz ks. induction ks as [|x ks IH]; intros id Sk Hin.
  - split; [constructor | intros [|j] x y c; discriminate].
  - destruct ks as [|y ks].
    + split; [constructor | intros [|j] x0 y c; discriminate].
    + inversion Sk as [|? ? Sk' F1]; subst. inversion F1 as [|? ? L1 F1']; subst.
      destruct (IH (S id) Sk') as [I1 I2]; [intros k Ik; apply Hin; right; exact Ik|].
      destruct (Hin x (or_introl eq_refl)) as [X1 X2]. destruct (Hin y (or_intror (or_introl eq_refl))) as [Y1 Y2].
      destruct (leaf_cut_effect n A n1 bno id x y W Er Nz X1 L1 Y2) as (A' & W' & Ea & Eb & V).
      pose proof (nwf_alpha _ _ _ _ _ _ W') as EA.
      cbn [cut_leaves pairs]. split.
      * constructor; [|exact I1]. cbn [fst snd TrunkShape.twf t_node t_kids]. rewrite EA. auto.
      * intros [|j] x0 y0 c Ec Exy k Hk1 Hk2; cbn [nth_error] in Ec, Exy.
        -- injection Ec as <-. injection Exy as <- <-. destruct (V k Hk1 Hk2) as (v & v' & Ev & Ev' & C & Ei).
           exists v, v'. split; [exact Ev|]. split; [exact Ev'|]. split; [exact C|]. lia.
        -- destruct (I2 j x0 y0 c Ec Exy k Hk1 Hk2) as (v & v' & Ev & Ev' & C & Ei). exists v, v'. split; [exact Ev|]. split; [exact Ev'|]. split; [exact C|]. lia.
Qed.

(** ** The halves of an index node *)

Definition v_half (v : view) (id : nat) (nlo nhi : key) : view :=
  VW id nlo nhi (v_pgen v) (v_lo v) (v_hi v) (v_gen v) (v_bno v) (v_whole v) (v_bns v) (v_filt v).

Lemma nodup_app_mid : forall (x y z : list nat), NoDup (x ++ y ++ z) -> NoDup y.
Proof.
  intros x y z H. induction x as [|a x IH]; [|inversion H; auto]. cbn [app] in H. revert H. induction y as [|b y IHy]; intro H; [constructor|].
  inversion H as [|? ? N H']; subst. constructor; [|auto]. intro I. apply N. apply in_app_iff. auto.
Qed.
Lemma ss_seg : forall X Y Z, StronglySorted klt (X ++ Y ++ Z) -> StronglySorted klt Y.
Proof. intros X Y Z H. apply ss_app in H. destruct H as (_ & H & _). apply ss_app in H. apply H. Qed.

Lemma half_effect : forall h c A P ps Q hi Z l L d, nwf h c A -> h <> 0 -> an_piv A = P ++ ps ++ Q -> ps <> [] ->
  akeys A = map ap_key P ++ map ap_key ps ++ hi :: Z -> dropped (AN (an_whole A) (an_bns A) ps hi) L -> rep M l L -> aok M L ->
  n_height l = n_height c -> n_pgen l = n_pgen c -> n_sbn l = cadd MAX_BUNDLES (n_sbn c) d ->
  length (an_bns L) = length (an_bns A) - d -> d <= length (an_bns A) ->
  nwf h l L /\ akeys L = map ap_key ps ++ [hi] /\
  forall k, kle (an_lo L) k -> klt k hi -> exists v, nview c k = Some v /\ nview l k = Some (v_half v (n_id l) (an_lo L) hi).
Proof.
  intros h c A P ps Q hi Z l L d W Hz EP Nz Ek D R K Eh Eg Es El Ld.
  destruct (dropped_shape _ _ D) as [D1 D2]. cbn [an_piv] in D2.
  assert (D1' : akeys L = map ap_key ps ++ [hi]) by (rewrite D1; reflexivity).
  assert (W' : nwf h l L).
  { constructor; auto.
    - rewrite Eh. apply W.
    - rewrite D1'. pose proof (w_sorted _ _ _ _ _ _ W) as Sx. rewrite Ek in Sx.
      replace (map ap_key P ++ map ap_key ps ++ hi :: Z) with (map ap_key P ++ (map ap_key ps ++ [hi]) ++ Z) in Sx by (rewrite <- (app_assoc (map ap_key ps)); reflexivity).
      eapply ss_seg; eauto.
    - rewrite D2. pose proof (w_gens _ _ _ _ _ _ W) as G. rewrite EP, !map_app in G. apply nodup_app_mid in G. exact G.
    - rewrite gens_lt_map, D2, Eg, <- gens_lt_map. pose proof (w_pgen _ _ _ _ _ _ W) as G. rewrite EP in G. apply Forall_app in G. destruct G as [_ G]. apply Forall_app in G. apply G.
    - pose proof (w_count _ _ _ _ _ _ W) as C. rewrite EP, !app_length in C. assert (Q0 : length (an_piv L) = length ps) by (apply (f_equal (@length _)) in D2; rewrite !map_length in D2; exact D2). lia.
    - contradiction. }
  split; [exact W'|]. split; [exact D1'|]. intros k Hl Hh.
  assert (Ehi : an_hi L = hi).
  { unfold akeys in D1'. apply app_inj_tail in D1'. apply D1'. }
  destruct (nview_at M mp cfg TO h l L k W' Hl) as (i & p' & b & _ & Ep & Eb & Ev & Hp & Hb); [rewrite Ehi; exact Hh|].
  destruct D as (m & d' & Om & Fm & EL). cbn [an_bns an_piv] in *.
  assert (d' = d). { subst L. apply off_ok_le in Om. cbn [an_bns drop] in Om, El. rewrite skipn_length in El. lia. } subst d'.
  pose proof Ep as Ep0. rewrite EL in Ep. cbn [drop an_piv] in Ep. rewrite nth_error_map in Ep.
  destruct (nth_error ps i) as [p|] eqn:Eps; [|discriminate]. cbn [option_map] in Ep. injection Ep as Ep.
  assert (Ekp : ap_key p' = ap_key p) by (rewrite <- Ep; reflexivity). rewrite Ekp in *.
  assert (Li : i < length ps) by (apply nth_error_Some; congruence).
  exists (view_of c A p b). split.
  - apply (nview_char M mp cfg TO h c A k (length P + i) p b W); auto.
    + rewrite EP, nth_error_app2, nth_error_app1 by lia. replace (length P + i - length P) with i by lia. exact Eps.
    + rewrite D1' in Eb. apply pairs_nth in Eb. destruct Eb as [Eb1 Eb2]. apply pairs_nth. rewrite Ek.
      assert (G : forall x y, x < S (length ps) -> nth_error (map ap_key ps ++ [hi]) x = Some y -> nth_error (map ap_key P ++ map ap_key ps ++ hi :: Z) (length P + x) = Some y).
      { intros x y Lx Ey. rewrite nth_error_app2 by (rewrite map_length; lia). rewrite map_length. replace (length P + x - length P) with x by lia.
        replace (map ap_key ps ++ hi :: Z) with ((map ap_key ps ++ [hi]) ++ Z) by (rewrite <- app_assoc; reflexivity).
        rewrite nth_error_app1 by (rewrite app_length, map_length; cbn; lia). exact Ey. }
      split; [apply G; auto; lia|]. replace (S (length P + i)) with (length P + S i) by lia. apply G; auto. lia.
  - rewrite Ev. f_equal. rewrite <- Ep.
    rewrite Forall_forall in Fm. destruct (Fm p (nth_error_In _ _ Eps)) as [Fc1 Fc2].
    pose proof (drop_view (set_id (n_id l) c) l (AN (an_whole A) (an_bns A) ps hi) m d p b eq_refl Eg Es Fc1 Fc2) as V. rewrite EL at 1. rewrite V.
    unfold view_of, v_half. cbn [v_id v_nlo v_nhi v_pgen v_lo v_hi v_gen v_bno v_whole v_bns v_filt an_whole an_bns an_hi set_id n_id n_pgen n_sbn].
    f_equal. rewrite !an_lo_eq, D1'. reflexivity.
Qed.

Lemma twf_part : forall h c A ckids lo hi P (ps : list apiv) Q l L, twf (S h) (Tr c ckids) lo hi -> alpha c = A ->
  akeys A = map ap_key P ++ akeys L ++ Q -> length ps = length (an_piv L) -> nwf (S h) l L ->
  let s := firstn (length ps) (skipn (length P) ckids) in
  twf (S h) (Tr l s) (an_lo L) (an_hi L) /\
  forall e k, kle (an_lo L) k -> klt k (an_hi L) -> view_at (S e) k (Tr l s) = view_at (S e) k (Tr c ckids).
Proof.
  intros h c A ckids lo hi P ps Q l L T EA Ek Lps W' s.
  pose proof (twf_nwf _ _ _ _ _ _ _ T) as (W & _ & _). destruct T as (_ & _ & _ & Fk). cbn [t_node t_kids] in *. rewrite EA in *.
  pose proof (nwf_alpha _ _ _ _ _ _ W') as EL.
  assert (Nth : forall i x y, nth_error (pairs (akeys L)) i = Some (x, y) -> nth_error (pairs (akeys A)) (length P + i) = Some (x, y)).
  { intros i x y E. apply pairs_nth in E. destruct E as [E1 E2]. apply pairs_nth. rewrite Ek.
    assert (LL : S i < length (akeys L)) by (apply nth_error_Some; congruence).
    assert (G : forall j, j < length (akeys L) -> nth_error (map ap_key P ++ akeys L ++ Q) (length P + j) = nth_error (akeys L) j).
    { intros j Lj. rewrite nth_error_app2 by (rewrite map_length; lia). rewrite map_length. replace (length P + j - length P) with j by lia.
      apply nth_error_app1. exact Lj. }
    split; [rewrite G by lia; exact E1|]. replace (S (length P + i)) with (length P + S i) by lia. rewrite G by lia. exact E2. }
  assert (Lk : length ckids = length (pairs (akeys A))) by (clear - Fk; induction Fk; simpl; congruence).
  assert (Lz : length P + length (an_piv L) <= length (pairs (akeys A))).
  { rewrite cells_length. pose proof (akeys_length A) as Q1. rewrite Ek, !app_length, map_length, akeys_length in Q1. lia. }
  assert (Kid : forall i, i < length ps -> nth_error s i = nth_error ckids (length P + i)).
  { intros i Li. unfold s. rewrite <- nth_error_skipn. set (z := skipn (length P) ckids). rewrite <- (firstn_skipn (length ps) z) at 2.
    rewrite nth_error_app1; auto. rewrite firstn_length_le; auto. unfold z. rewrite skipn_length. lia. }
  assert (Ls : length s = length (pairs (akeys L))).
  { rewrite cells_length, <- Lps. unfold s. apply firstn_length_le. rewrite skipn_length. lia. }
  split.
  - cbn [TrunkShape.twf t_node t_kids]. rewrite EL. split; [exact W'|]. split; [reflexivity|]. split; [reflexivity|].
    assert (G : forall i c' ab, nth_error s i = Some c' -> nth_error (pairs (akeys L)) i = Some ab -> twf h c' (fst ab) (snd ab)).
    { intros i c' [x y] E1 E2. assert (Li : i < length ps) by (rewrite Lps, <- cells_length; apply nth_error_Some; congruence).
      rewrite (Kid i Li) in E1. apply Nth in E2. destruct (Forall2_nth2 _ _ _ _ _ Fk E2) as (c2 & Ec2 & Tc). congruence. }
    clear - G Ls. revert G Ls. generalize (pairs (akeys L)) as z. generalize s as w. clear. intro w. induction w as [|x w IH]; intros [|y z] G Ls; cbn in Ls; try lia; constructor.
    + exact (G 0 x y eq_refl eq_refl).
    + apply IH; [|lia]. intros i c' ab E1 E2. exact (G (S i) c' ab E1 E2).
  - intros e k Hl Hh. unfold TrunkShape.view_at. cbn [subtree_at t_node t_kids].
    destruct (route_cell M mp cfg TO (S h) l L k W' Hl Hh) as (i & x & y & Er & Ei & Hx & Hy).
    rewrite Er, (route_at M mp cfg TO (S h) c A k (length P + i) x y W (Nth _ _ _ Ei) Hx Hy).
    assert (Li : i < length ps) by (rewrite Lps, <- cells_length; apply nth_error_Some; congruence).
    rewrite (Kid i Li). reflexivity.
Qed.

Theorem halves_effect : forall h c ckids lo hi lid rid, twf (S h) (Tr c ckids) lo hi -> 2 <= length (an_piv (alpha c)) ->
  let (l, r) := split_halves M c lid rid in
  let x := num_children c / 2 in
  exists mid, min_key r = mid /\ klt lo mid /\ klt mid hi /\
    twf (S h) (Tr l (firstn x ckids)) lo mid /\ twf (S h) (Tr r (skipn x ckids)) mid hi /\
    (forall k, kle lo k -> klt k mid -> exists v, nview c k = Some v /\ nview l k = Some (v_half v lid lo mid)) /\
    (forall k, kle mid k -> klt k hi -> exists v, nview c k = Some v /\ nview r k = Some (v_half v rid mid hi)) /\
    (forall e k, kle lo k -> klt k mid -> view_at (S e) k (Tr l (firstn x ckids)) = view_at (S e) k (Tr c ckids)) /\
    (forall e k, kle mid k -> klt k hi -> view_at (S e) k (Tr r (skipn x ckids)) = view_at (S e) k (Tr c ckids)).
Proof.
  intros h c ckids lo hi lid rid T L2. pose proof (twf_nwf _ _ _ _ _ _ _ T) as (W & Elo & Ehi). cbn [t_node] in *.
  set (A := alpha c) in *.
  destruct (split_halves_rep M c A lid rid (w_rep _ _ _ _ _ _ W) (w_aok _ _ _ _ _ _ W) L2) as (a & L & R & Ea & DL & DR & P).
  destruct (split_halves M c lid rid) as [l r]. destruct P as (RL & KL & RR & KR & Il & Ir & Hl & Hr & Gl & Gr & _ & _ & (dl & Sl & Ll & Ml) & (dr & Sr & Lr & Mr)).
  set (t := length (an_piv A) / 2) in *.
  assert (Lt : 1 <= t /\ t < length (an_piv A)).
  { unfold t. pose proof (Nat.div_mod (length (an_piv A)) 2 ltac:(lia)). pose proof (Nat.mod_upper_bound (length (an_piv A)) 2 ltac:(lia)). lia. }
  assert (Nc : num_children c = length (an_piv A)).
  { destruct (akeys_eq M c A (w_rep _ _ _ _ _ _ W)) as [Q _]. apply (f_equal (@length _)) in Q. rewrite map_length, akeys_length in Q. unfold num_children. lia. }
  destruct (nth_error_split _ _ Ea) as (PX & PY & EP & LP).
  assert (F1 : firstn t (an_piv A) = PX) by (rewrite EP, <- LP, firstn_app_l', firstn_all by lia; reflexivity).
  assert (F2 : skipn t (an_piv A) = a :: PY) by (rewrite EP, <- LP, skipn_app_l', skipn_all by lia; reflexivity).
  unfold left_half in DL. unfold right_half in DR. rewrite F1 in DL. rewrite F2 in DR.
  assert (Ek : akeys A = map ap_key PX ++ ap_key a :: map ap_key PY ++ [an_hi A]).
  { unfold akeys. rewrite EP, map_app, <- app_assoc. reflexivity. }
  destruct (half_effect (S h) c A [] PX (a :: PY) (ap_key a) (map ap_key PY ++ [an_hi A]) l L dl W ltac:(lia) EP ltac:(destruct PX; [simpl in LP; lia | discriminate]) Ek DL RL KL Hl Gl Sl Ll Ml) as (WL & EkL & VL).
  destruct (half_effect (S h) c A PX (a :: PY) [] (an_hi A) [] r R dr W ltac:(lia) ltac:(rewrite app_nil_r; exact EP) ltac:(discriminate) Ek DR RR KR Hr Gr Sr Lr Mr) as (WR & EkR & VR).
  assert (ELl : an_lo L = lo). { rewrite <- Elo, !an_lo_eq, EkL, Ek. destruct PX; [simpl in LP; lia | reflexivity]. }
  assert (ELh : an_hi L = ap_key a). { unfold akeys in EkL at 1. apply app_inj_tail in EkL. apply EkL. }
  assert (ERl : an_lo R = ap_key a). { rewrite an_lo_eq, EkR. reflexivity. }
  assert (ERh : an_hi R = hi). { unfold akeys in EkR at 1. apply app_inj_tail in EkR. rewrite <- Ehi. apply EkR. }
  assert (LkL : length PX = length (an_piv L)) by (apply (f_equal (@length _)) in EkL; rewrite akeys_length, app_length, map_length in EkL; cbn in EkL; lia).
  assert (LkR : length (a :: PY) = length (an_piv R)) by (apply (f_equal (@length _)) in EkR; rewrite akeys_length, app_length, map_length in EkR; cbn in *; lia).
  destruct (twf_part h c A ckids lo hi [] PX (map ap_key PY ++ [an_hi A]) l L T eq_refl ltac:(rewrite Ek, EkL, <- app_assoc; reflexivity) LkL WL) as [TL VVL].
  destruct (twf_part h c A ckids lo hi PX (a :: PY) [] r R T eq_refl ltac:(rewrite Ek, EkR, app_nil_r; reflexivity) LkR WR) as [TR VVR].
  assert (Lck : length ckids = length (an_piv A)).
  { destruct T as (_ & _ & _ & Fk). cbn [t_node t_kids] in Fk. fold A in Fk. rewrite <- cells_length. clear - Fk. induction Fk; simpl; congruence. }
  cbn [length skipn] in TL, VVL. rewrite LP in *.
  assert (Eall : firstn (length (a :: PY)) (skipn t ckids) = skipn t ckids).
  { apply firstn_all2. rewrite skipn_length, Lck, EP, app_length. lia. }
  rewrite Eall in *. rewrite ELl, ELh, ERl, ERh in *. cbv zeta. rewrite Nc. fold t.
  exists (ap_key a). split; [destruct (rep_min_max M r R RR) as [-> _]; exact ERl|].
  split; [apply (twf_lt _ _ _ _ _ _ _ TL)|]. split; [apply (twf_lt _ _ _ _ _ _ _ TR)|]. split; [exact TL|]. split; [exact TR|].
  split; [intros k H1 H2; destruct (VL k H1 H2) as (v & E1 & E2); exists v; rewrite <- Il; auto|].
  split; [intros k H1 H2; rewrite <- Ehi in H2; destruct (VR k H1 H2) as (v & E1 & E2); exists v; rewrite Ir in E2; rewrite Ehi in E2; auto|]. auto.
Qed.

End SplitEff.
