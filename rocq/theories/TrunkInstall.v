(** * Vanishing bundles, and building and installing filters *)

From Coq Require Import List Arith NArith ZArith Lia Bool Sorted.
From Verif Require Import Base Spec Spec_Merge Search.
From Verif Require Import TrunkNode TrunkRing TrunkRep TrunkOps TrunkReset TrunkFlush TrunkClear TrunkReplace TrunkSplit.
From Verif Require Import TrunkAlpha TrunkKeys TrunkView TrunkTree TrunkShape TrunkEffects.
Import ListNotations.

(** ** Positions of generations *)

Lemma gpos_from : forall gens g left pos, let p := generation_to_pos_from gens g pos left in
  pos <= p <= pos + left /\ (p < pos + left -> gens p = g) /\ (forall i, pos <= i -> i < p -> gens i <> g).
Proof.
  intros gens g left. induction left as [|l IH]; intros pos; cbn [generation_to_pos_from].
  - repeat split; try lia.
  - destruct (Nat.eqb_spec (gens pos) g) as [E|E].
    + split; [lia|]. split; [auto|]. intros. lia.
    + destruct (IH (S pos)) as (H1 & H2 & H3). split; [lia|]. split.
      * intro. apply H2. lia.
      * intros i L1 L2. destruct (Nat.eq_dec i pos) as [->|Z]; [exact E|]. apply H3; lia.
Qed.
Lemma gpos_found : forall q g, generation_to_pos q g <> MAX_PIVOTS ->
  generation_to_pos q g < MAX_PIVOTS /\ rq_gens q (generation_to_pos q g) = g.
Proof.
  intros q g H. unfold generation_to_pos in *. destruct (gpos_from (rq_gens q) g MAX_PIVOTS 0) as (H1 & H2 & _).
  simpl in *. split; [lia|]. apply H2. lia.
Qed.
Lemma gpos_first : forall q g i, i < MAX_PIVOTS -> rq_gens q i = g -> (forall j, j < i -> rq_gens q j <> g) -> generation_to_pos q g = i.
Proof.
  intros q g i L E F. unfold generation_to_pos. destruct (gpos_from (rq_gens q) g MAX_PIVOTS 0) as (H1 & H2 & H3).
  cbn [Nat.add] in *. set (p := generation_to_pos_from (rq_gens q) g 0 MAX_PIVOTS) in *. clearbody p.
  destruct (lt_eq_lt_dec p i) as [[Q|Q]|Q]; auto; exfalso.
  - apply (F p Q). apply H2. lia.
  - apply (H3 i); auto. lia.
Qed.
Lemma gpos_ext : forall q q' g, (forall i, rq_gens q i = rq_gens q' i) -> generation_to_pos q g = generation_to_pos q' g.
Proof.
  intros q q' g H. unfold generation_to_pos. generalize 0 as pos. induction MAX_PIVOTS as [|l IH]; intro pos; cbn [generation_to_pos_from]; auto.
  rewrite H, IH. reflexivity.
Qed.

(** ** Installing filters *)

Definition set_new (s : scratch) (f : nat -> filt) : scratch :=
  Scr (sc_lo s) (sc_hi s) (sc_build s) (sc_old s) (sc_value s) f.
Definition with_filter (n : node) (q : req) (s : scratch) (p : pivot) : pivot :=
  if bundle_live_for_pivot n (rq_bno q) p
  then PV (pv_key p) (pv_gen p) (pv_sbr p) (pv_sbn p) (sc_new s (generation_to_pos q (pv_gen p)))
  else p.

Lemma replace_pivots_spec : forall n q k ps s ps' s', NoDup (map pv_gen (firstn k ps)) ->
  replace_pivots n q k ps s = Some (ps', s') ->
  ps' = map_first k (with_filter n q s) ps /\
  (exists f, s' = set_new s f /\ forall i, (forall p, In p (firstn k ps) -> generation_to_pos q (pv_gen p) <> i) -> f i = sc_new s i) /\
  (forall p, In p (firstn k ps) -> bundle_live_for_pivot n (rq_bno q) p = true -> generation_to_pos q (pv_gen p) <> MAX_PIVOTS).
Proof.
  intros n q k. induction k as [|k IH]; intros ps s ps' s' ND E.
  - assert (E' : Some (ps, s) = Some (ps', s')) by (destruct ps; exact E). injection E' as <- <-. cbn [firstn map_first] in *.
    split; [destruct ps; reflexivity|]. split; [exists (sc_new s); split; [destruct s; reflexivity | auto] | contradiction].
  - destruct ps as [|p r].
    + cbn [replace_pivots] in E. injection E as <- <-. cbn [firstn map_first].
      split; [reflexivity|]. split; [exists (sc_new s); split; [destruct s; reflexivity | auto] | contradiction].
    + cbn [replace_pivots] in E. cbn [firstn map] in ND. inversion ND as [|? ? Nin ND']; subst.
      set (pos := generation_to_pos q (pv_gen p)) in *.
      set (s1 := Scr (sc_lo s) (sc_hi s) (sc_build s) (sc_old s) (sc_value s) (put (sc_new s) pos [])) in *.
      assert (Same : forall x, In x (firstn k r) -> generation_to_pos q (pv_gen x) <> MAX_PIVOTS -> generation_to_pos q (pv_gen x) <> pos).
      { intros x Ix Nx Ex. destruct (gpos_found q _ Nx) as [_ G1]. rewrite Ex in G1, Nx. unfold pos in *.
        destruct (gpos_found q _ Nx) as [_ G2]. rewrite G1 in G2. apply Nin. rewrite <- G2. apply in_map. exact Ix. }
      assert (Wf : forall ps1, (forall x, In x (firstn k ps1) -> In x (firstn k r)) ->
         (forall x, In x (firstn k ps1) -> bundle_live_for_pivot n (rq_bno q) x = true -> generation_to_pos q (pv_gen x) <> MAX_PIVOTS) ->
         map_first k (with_filter n q s1) ps1 = map_first k (with_filter n q s) ps1).
      { clear - Same. revert r Same. induction k as [|k IHk]; intros r Same ps1 Sub Ok; [destruct ps1; reflexivity|].
        destruct ps1 as [|x ps1]; [reflexivity|]. cbn [map_first]. f_equal.
        - unfold with_filter. destruct (bundle_live_for_pivot n (rq_bno q) x) eqn:Lx; auto. f_equal.
          unfold s1. cbn [sc_new]. unfold put. destruct (Nat.eqb_spec (generation_to_pos q (pv_gen x)) pos) as [Q|Q]; auto.
          exfalso. eapply Same; [|apply Ok; [left; reflexivity | exact Lx] | exact Q]. apply Sub. left. reflexivity.
        - assert (G : forall r', (forall x0, In x0 (firstn k r') -> generation_to_pos q (pv_gen x0) <> MAX_PIVOTS -> generation_to_pos q (pv_gen x0) <> pos) ->
            (forall x0, In x0 (firstn k ps1) -> In x0 (firstn k r')) -> map_first k (with_filter n q s1) ps1 = map_first k (with_filter n q s) ps1).
          { intros r' S1 S2. apply (IHk r' S1 ps1 S2). intros x0 I0. apply Ok. right. exact I0. }
          apply (G ps1); [|intros x0 I0; exact I0]. intros x0 I0. apply Same. apply Sub. right. exact I0. }
      destruct (bundle_live_for_pivot n (rq_bno q) p) eqn:Lp.
      * destruct (Nat.eqb_spec pos MAX_PIVOTS) as [Z|Z]; [discriminate|].
        destruct (replace_pivots n q k r s1) as [[r' s2]|] eqn:Er; [|discriminate]. injection E as <- <-.
        destruct (IH r s1 r' s2 ND' Er) as (H1 & (f & -> & H2) & H3). split; [|split].
        -- cbn [map_first]. f_equal; [unfold with_filter; rewrite Lp; reflexivity|]. rewrite H1. apply Wf; auto.
        -- exists f. split; [reflexivity|]. intros i Hi. rewrite H2 by (intros x Ix; apply Hi; right; exact Ix).
           unfold s1. cbn [sc_new]. unfold put. destruct (Nat.eqb_spec i pos) as [Q|Q]; auto. exfalso. apply (Hi p); [left; reflexivity | symmetry; exact Q].
        -- intros x [<-|Ix] Lx; [exact Z | apply H3; auto].
      * destruct (replace_pivots n q k r (if pos =? MAX_PIVOTS then s else s1)) as [[r' s2]|] eqn:Er; [|discriminate]. injection E as <- <-.
        destruct (IH _ _ _ _ ND' Er) as (H1 & (f & -> & H2) & H3). split; [|split].
        -- cbn [map_first]. f_equal; [unfold with_filter; rewrite Lp; reflexivity|]. rewrite H1.
           destruct (pos =? MAX_PIVOTS); [reflexivity | apply Wf; auto].
        -- exists f. split; [destruct (pos =? MAX_PIVOTS); reflexivity|]. intros i Hi. rewrite H2 by (intros x Ix; apply Hi; right; exact Ix).
           destruct (pos =? MAX_PIVOTS); auto.
           unfold s1. cbn [sc_new]. unfold put. destruct (Nat.eqb_spec i pos) as [Q|Q]; auto. exfalso. apply (Hi p); [left; reflexivity | symmetry; exact Q].
        -- intros x [<-|Ix] Lx; [congruence | apply H3; auto].
Qed.

Global Opaque MAX_PIVOTS.
Section Install.
Variables (M mp : nat) (cfg : data_config).
Hypothesis TO : total_order (key_compare cfg).
Local Notation klt := (klt cfg).
Local Notation kle := (kle cfg).
Local Notation nwf := (nwf M mp cfg).
Local Notation nview := (nview M cfg).

Lemma vbundle_back : forall ht n A p X Y b hi, nwf ht n A -> In p (an_piv A) -> an_bns A = X ++ b :: Y ->
  vbundle (cadd MAX_BUNDLES (n_sbn n) (length X)) (view_of n A p hi) = if ap_boff p <=? length X then Some b else None.
Proof.
  intros ht n A p X Y b hi W Ip EA. unfold vbundle. cbn [view_of v_bns v_bno].
  pose proof (piv_off_ok _ _ _ _ _ _ _ W Ip) as Op. pose proof (off_ok_le _ _ _ Op) as [L1 L2].
  pose proof (ok_bns _ _ (w_aok _ _ _ _ _ _ W)) as Kb. pose proof (r_sbn _ _ _ (w_rep _ _ _ _ _ _ W)) as Sb.
  assert (Lb : length (an_bns A) = length X + S (length Y)) by (rewrite EA, app_length; reflexivity).
  destruct (Nat.leb_spec (ap_boff p) (length X)) as [Q|Q].
  - rewrite csub_cadd by (auto; lia). rewrite EA, (skipn_app_l' _ X) by exact Q.
    rewrite nth_error_app2 by (rewrite skipn_length; lia). rewrite skipn_length, Nat.sub_diag. reflexivity.
  - rewrite csub_wrap by (auto; lia). apply nth_error_None. rewrite skipn_length. lia.
Qed.
Lemma vbundle_dead : forall ht n A p bno hi, nwf ht n A -> In p (an_piv A) -> bno < MAX_BUNDLES -> bundle_live n bno = false ->
  vbundle bno (view_of n A p hi) = None.
Proof.
  intros ht n A p bno hi W Ip Lb D.
  destruct (vbundle bno (view_of n A p hi)) as [b|] eqn:E; auto. exfalso.
  unfold vbundle in E. cbn [view_of v_bns v_bno] in E.
  pose proof (piv_off_ok _ _ _ _ _ _ _ W Ip) as Op. pose proof (off_ok_le _ _ _ Op) as [L1 L2].
  pose proof (r_sbn _ _ _ (w_rep _ _ _ _ _ _ W)) as Sb.
  assert (L : csub MAX_BUNDLES bno (cadd MAX_BUNDLES (n_sbn n) (ap_boff p)) < length (skipn (ap_boff p) (an_bns A))) by (apply nth_error_Some; congruence).
  rewrite skipn_length in L. set (j := csub MAX_BUNDLES bno (cadd MAX_BUNDLES (n_sbn n) (ap_boff p))) in *.
  assert (Eb : bno = cadd MAX_BUNDLES (n_sbn n) (ap_boff p + j)).
  { unfold j. rewrite <- cadd_cadd by auto. symmetry.
    assert (Lc : cadd MAX_BUNDLES (n_sbn n) (ap_boff p) < MAX_BUNDLES) by auto.
    set (c := cadd MAX_BUNDLES (n_sbn n) (ap_boff p)) in *. clearbody c. clear - Lb Lc.
    Transparent csub cadd. unfold csub, cadd. Opaque csub cadd. rewrite Nat.add_mod_idemp_r by lia.
    replace (c + (bno + MAX_BUNDLES - c)) with (bno + 1 * MAX_BUNDLES) by lia. rewrite Nat.mod_add by lia. apply Nat.mod_small. exact Lb. }
  rewrite Eb, (bundle_live_eq M n A) in D; [discriminate | apply W | apply W | lia].
Qed.

(** ** A bundle with no output, the last one *)

Lemma vanish_effect : forall ht n A X b q n' q', nwf ht n A -> an_bns A = X ++ [b] ->
  rq_bno q = cadd MAX_BUNDLES (n_sbn n) (length X) -> replace_bundle_branches M cfg n None q = Some (n', q') ->
  record_counts cfg n (rq_bno q) None (n_piv n) q = Some q' /\
  exists A', nwf ht n' A' /\ akeys A' = akeys A /\
    forall k, kle (an_lo A) k -> klt k (an_hi A) -> exists v, nview n k = Some v /\
      match vbundle (rq_bno q) v with
      | Some b' => b' = b /\ exists r, v_bns v = r ++ [b] /\ nview n' k = Some (v_with v (v_bno v) (v_whole v) r (v_filt v))
      | None => v_bns v = [] /\ v_whole v = [] /\ nview n' k = Some (v_with v (rq_bno q) (v_whole v) (v_bns v) (v_filt v))
      end.
Proof.
  intros ht n A X b q n' q' W EA Eb Er.
  pose proof (vanish_rep M cfg n A X b q (w_rep _ _ _ _ _ _ W) (w_aok _ _ _ _ _ _ W) EA Eb) as P. rewrite Er in P.
  destruct P as (Ec & R & K & E1 & E2 & E3 & E4). split; [exact Ec|].
  exists (vanished A X b).
  assert (W' : nwf ht n' (vanished A X b)).
  { unfold vanished. apply (nwf_map M mp cfg ht n A); auto; intros p; destruct (Nat.leb_spec (ap_boff p) (length X)); cbn; auto; lia. }
  assert (Ek : akeys (vanished A X b) = akeys A).
  { unfold vanished. apply akeys_map. intro p. destruct (ap_boff p <=? length X); reflexivity. }
  split; [exact W'|]. split; [exact Ek|]. intros k Hl Hh.
  destruct (nview_step M mp cfg TO ht n A n' _ k W W' Ek Hl Hh) as (i & p & p' & hi & _ & Ep & Ep' & _ & _ & _ & Ev & Ev' & Ip & _).
  exists (view_of n A p hi). split; [exact Ev|]. rewrite Ev'.
  unfold vanished in Ep'. cbn [an_piv] in Ep'. rewrite nth_error_map, Ep in Ep'. cbn [option_map] in Ep'. injection Ep' as <-.
  pose proof (piv_off_ok _ _ _ _ _ _ _ W Ip) as Op. pose proof (off_ok_le _ _ _ Op) as [L1 L2].
  assert (Elo : an_lo (vanished A X b) = an_lo A) by (rewrite !an_lo_eq, Ek; reflexivity).
  rewrite Eb, (vbundle_back ht n A p X [] b hi W Ip EA).
  assert (Lb : length (an_bns A) = S (length X)) by (rewrite EA, app_length; simpl; lia).
  destruct (Nat.leb_spec (ap_boff p) (length X)) as [Q|Q].
  - split; [reflexivity|]. exists (skipn (ap_boff p) X). cbn [view_of v_bns]. split; [rewrite EA; apply skipn_app_l'; exact Q|].
    f_equal. unfold view_of, v_with. cbn [v_id v_nlo v_nhi v_pgen v_lo v_hi v_gen v_bno v_whole v_bns v_filt].
    rewrite E1, E3, E4, Elo. unfold vanished. cbn [an_whole an_bns an_hi]. reflexivity.
  - assert (Bz : ap_boff p = S (length X)) by lia.
    assert (Wz : skipn (ap_off p) (an_whole A) = []).
    { destruct Op as [[Z _]|(_ & _ & Eo)]; [lia|]. apply skipn_all2. lia. }
    cbn [view_of v_bns v_whole]. split; [apply skipn_all2; lia|]. split; [exact Wz|]. f_equal. unfold view_of, v_with.
    cbn [v_id v_nlo v_nhi v_pgen v_lo v_hi v_gen v_bno v_whole v_bns v_filt ap_key ap_gen ap_off ap_boff ap_filt].
    rewrite E1, E3, E4, Elo, Wz. unfold vanished. cbn [an_whole an_bns an_hi]. f_equal.
    + f_equal. lia.
    + destruct Op as [[Z _]|(_ & _ & Eo)]; [lia|]. apply skipn_all2. rewrite Eo, EA, Bz.
      rewrite firstn_all2 by (rewrite app_length; simpl; lia). rewrite concat_app, nbr_app. cbn [concat]. rewrite nbr_app, nbr_nil. lia.
    + rewrite !skipn_all2; auto; lia.
Qed.

(** ** The filters installed and the bundle cleared *)

Lemma set_piv_same : forall n, set_piv (n_piv n) n = n. Proof. intros []. reflexivity. Qed.
Lemma map_first_id : forall {A} (f : A -> A) k l, (forall x, In x (firstn k l) -> f x = x) -> map_first k f l = l.
Proof.
  intros A f k. induction k as [|k IH]; intros [|x l] H; cbn [map_first]; auto. f_equal; [apply H; left; reflexivity|].
  apply IH. intros y I. apply H. right. exact I.
Qed.

Theorem install_effect : forall ht n A q s n' s', nwf ht n A -> rq_bno q < MAX_BUNDLES ->
  replace_filters n q s = Some (n', s') ->
  (exists f, s' = set_new s f /\
     forall i, (forall p, In p (an_piv A) -> generation_to_pos q (ap_gen p) <> i) -> f i = sc_new s i) /\
  (forall p, In p (an_piv A) -> forall hi, vbundle (rq_bno q) (view_of n A p hi) <> None -> generation_to_pos q (ap_gen p) <> MAX_PIVOTS) /\
  exists A', nwf ht n' A' /\ akeys A' = akeys A /\
    forall k, kle (an_lo A) k -> klt k (an_hi A) -> exists v, nview n k = Some v /\
      match vbundle (rq_bno q) v with
      | Some b => v_bno v = rq_bno q /\
          exists r, v_bns v = b :: r /\
          nview n' k = Some (v_with v (cadd MAX_BUNDLES (v_bno v) 1) (v_whole v ++ brs_of b) r (sc_new s (generation_to_pos q (v_gen v))))
      | None => nview n' k = Some v
      end.
Proof.
  intros ht n A q s n' s' W Lb E. pose proof (w_rep _ _ _ _ _ _ W) as R. pose proof (w_aok _ _ _ _ _ _ W) as K.
  destruct (r_piv _ _ _ R) as (ps & last & Ep & El & F). destruct (children_pivots_eq _ _ _ Ep) as [C1 C2].
  unfold replace_filters in E.
  destruct (replace_pivots n q (num_children n) (n_piv n) s) as [[ps' s2]|] eqn:Er; [|discriminate].
  assert (Fn : firstn (num_children n) (n_piv n) = ps) by exact C1.
  assert (Gs : map pv_gen ps = map ap_gen (an_piv A)).
  { clear - F. induction F as [|p a ps l (_ & H & _) F IH]; simpl; auto. rewrite H, IH. reflexivity. }
  destruct (replace_pivots_spec n q (num_children n) (n_piv n) s ps' s2) as (H1 & (f & H2 & H3) & H4); [rewrite Fn, Gs; apply W | exact Er |].
  rewrite Fn in *.
  assert (Inp : forall a, In a (an_piv A) -> exists p, In p ps /\ piv_rep M n p a).
  { intros a Ia. apply In_nth_error in Ia. destruct Ia as (i & Ei). destruct (Forall2_nth _ _ _ F i a Ei) as (p & Ei' & Hp). exists p. split; auto. eapply nth_error_In; eauto. }
  assert (Ina : forall p, In p ps -> exists a, In a (an_piv A) /\ piv_rep M n p a).
  { clear - F. induction F as [|p a ps l H F IH]; intros x I; [contradiction|]. destruct I as [<-|I]; [exists a; split; [left; reflexivity | exact H]|].
    destruct (IH x I) as (y & Iy & Hy). exists y. split; [right; exact Iy | exact Hy]. }
  destruct (bundle_live n (rq_bno q)) eqn:Lv.
  - destruct (bundle_live_inv M n A _ R K Lb Lv) as (j & Lj & Ej).
    destruct (nth_split_list (an_bns A) j [] Lj) as (X & Y & EA & LX). set (b := nth j (an_bns A) []) in *. clearbody b. subst j.
    assert (Lvp : forall p a, piv_rep M n p a -> In a (an_piv A) -> bundle_live_for_pivot n (rq_bno q) p = (ap_boff a <=? length X)).
    { intros p a Hp Ia. rewrite Ej. apply (bundle_live_for_pivot_eq M n A); auto. apply (piv_off_ok _ _ _ _ _ _ _ W Ia). }
    set (g := fun a : apiv => if ap_boff a <=? length X then AP (ap_key a) (ap_gen a) (ap_off a) (ap_boff a) (sc_new s (generation_to_pos q (ap_gen a))) else a).
    set (A1 := AN (an_whole A) (an_bns A) (map g (an_piv A)) (an_hi A)).
    set (n1 := set_piv ps' n) in *.
    assert (Eps : ps' = map (with_filter n q s) ps ++ [last]).
    { rewrite H1, C2, Ep. apply map_first_app. }
    assert (R1 : rep M n1 A1).
    { constructor; try apply R. exists (map (with_filter n q s) ps), last. split; [exact Eps|]. split; [exact El|].
      apply Forall2_map_l. apply Forall2_map_r.
      assert (Fi : Forall2 (fun p a => piv_rep M n p a /\ In a (an_piv A)) ps (an_piv A)) by (apply Forall2_with; [exact F | apply Forall_forall; auto]).
      clear - Fi Lvp. eapply Forall2_impl; [|exact Fi]. intros p a [Hp Ia]. unfold with_filter, g. rewrite (Lvp p a Hp Ia).
      destruct Hp as (Q1 & Q2 & Q3 & Q4 & Q5).
      destruct (ap_boff a <=? length X); unfold piv_rep; cbn [pv_key pv_gen pv_filt pv_sbr pv_sbn ap_key ap_gen ap_filt ap_off ap_boff]; rewrite ?Q2; auto 8. }
    assert (K1 : aok M A1).
    { destruct K as [K1 K2 K3 K4 K5 K6 K7 K8]. constructor; auto.
      - unfold A1. cbn [an_piv]. apply Forall_map. eapply Forall_impl; [|exact K7]. intros a Ha. unfold g. destruct (ap_boff a <=? length X); exact Ha.
      - unfold A1. cbn [an_piv]. destruct (an_piv A); [congruence | discriminate]. }
    change (bundle_live n1 (rq_bno q)) with (bundle_live n (rq_bno q)) in E. rewrite Lv in E.
    destruct (clear_bundle n1 (rq_bno q)) as [n2|] eqn:Ecl; [|discriminate]. injection E as -> <-.
    destruct (an_bns A) as [|b0 r0] eqn:EB; [destruct X; discriminate EA|].
    assert (EB1 : an_bns A1 = b0 :: r0) by reflexivity.
    pose proof (clear_bundle_rep M n1 A1 b0 r0 (rq_bno q) R1 K1 EB1) as P. rewrite Ecl in P.
    destruct P as (Es & R2 & K2 & E1 & E2 & E3 & E4 & E5).
    change (n_sbn n1) with (n_sbn n) in *. change (n_id n1) with (n_id n) in *. change (n_height n1) with (n_height n) in *. change (n_pgen n1) with (n_pgen n) in *.
    assert (LX0 : length X = 0).
    { pose proof (r_sbn _ _ _ R) as Sb. pose proof (ok_bns _ _ K) as Kb. rewrite EB in Kb. rewrite Es in Ej.
      rewrite <- (cadd_0 MAX_BUNDLES (n_sbn n) Sb) in Ej at 1. apply cadd_inj in Ej; auto; lia. }
    destruct X as [|? ?]; [|discriminate]. cbn [app] in EA. injection EA as <- <-.
    split; [exists f; split; auto; intros i Hi; apply H3; intros p Ip; destruct (Ina p Ip) as (a & Ia & (_ & Q2 & _)); rewrite Q2; auto|].
    split.
    { intros a Ia hi Hv. destruct (Inp a Ia) as (p & Ip & Hp). destruct Hp as (Q1 & Q2 & Q3 & Q4 & Q5). rewrite <- Q2. apply H4; auto.
      rewrite (Lvp p a) by (unfold piv_rep; auto 8). rewrite Ej in Hv. rewrite (vbundle_back ht n A a [] r0 b0 hi W Ia EB) in Hv.
      destruct (ap_boff a <=? length []); congruence. }
    set (g2 := fun p : apiv => AP (ap_key p) (ap_gen p) (ap_off p) (ap_boff p - 1) (ap_filt p)).
    assert (EC : clear_first A1 b0 r0 = AN (an_whole A ++ brs_of b0) r0 (map (fun a => g2 (g a)) (an_piv A)) (an_hi A)).
    { unfold clear_first, A1. cbn [an_whole an_piv an_hi]. rewrite map_map. reflexivity. }
    rewrite EC in *.
    assert (G1 : forall a, ap_key (g2 (g a)) = ap_key a /\ ap_gen (g2 (g a)) = ap_gen a /\ ap_off (g2 (g a)) = ap_off a /\ ap_boff (g2 (g a)) = ap_boff a - 1 /\
               ap_filt (g2 (g a)) = if ap_boff a <=? 0 then sc_new s (generation_to_pos q (ap_gen a)) else ap_filt a).
    { intro a. unfold g2, g. cbn [length]. destruct (ap_boff a <=? 0); cbn; auto. }
    eexists. assert (W' : nwf ht n' (AN (an_whole A ++ brs_of b0) r0 (map (fun a => g2 (g a)) (an_piv A)) (an_hi A))).
    { apply (nwf_map M mp cfg ht n A); auto; intros a; destruct (G1 a) as (Z1 & Z2 & Z3 & Z4 & _); auto. intros O1 O2. rewrite Z3, Z4. lia. }
    split; [exact W'|]. assert (Ek : akeys (AN (an_whole A ++ brs_of b0) r0 (map (fun a => g2 (g a)) (an_piv A)) (an_hi A)) = akeys A) by (apply akeys_map; apply G1).
    split; [exact Ek|]. intros k Hl Hh.
    destruct (nview_step M mp cfg TO ht n A n' _ k W W' Ek Hl Hh) as (i & a & a' & hi & _ & Ea & Ea' & _ & _ & _ & Ev & Ev' & Ia & _).
    exists (view_of n A a hi). split; [exact Ev|]. rewrite Ev'.
    cbn [an_piv] in Ea'. rewrite nth_error_map, Ea in Ea'. cbn [option_map] in Ea'. injection Ea' as <-.
    pose proof (piv_off_ok _ _ _ _ _ _ _ W Ia) as Op. pose proof (off_ok_le _ _ _ Op) as [L1 L2]. rewrite EB in L2. cbn [length] in L2.
    destruct (G1 a) as (Z1 & Z2 & Z3 & Z4 & Z5).
    assert (Elo : an_lo (AN (an_whole A ++ brs_of b0) r0 (map (fun a => g2 (g a)) (an_piv A)) (an_hi A)) = an_lo A) by (rewrite !an_lo_eq, Ek; reflexivity).
    assert (Vb : vbundle (rq_bno q) (view_of n A a hi) = if ap_boff a <=? 0 then Some b0 else None) by (rewrite Ej; exact (vbundle_back ht n A a [] r0 b0 hi W Ia EB)).
    rewrite Vb. clear Vb.
    destruct (Nat.leb_spec (ap_boff a) 0) as [Q|Q].
    + assert (Bz : ap_boff a = 0) by lia. destruct Op as [[_ Ow]|[? _]]; [|lia].
      split; [cbn [view_of v_bno]; rewrite Bz, cadd_0, Es by apply (r_sbn _ _ _ R); reflexivity|].
      exists r0. split; [cbn [view_of v_bns]; rewrite EB, Bz; reflexivity|].
      f_equal. unfold view_of, v_with. cbn [v_id v_nlo v_nhi v_pgen v_lo v_hi v_gen v_bno v_whole v_bns v_filt an_whole an_bns an_hi].
      rewrite Z1, Z2, Z3, Z4, Z5, E1, E3, E4, Elo, Bz. cbn [Nat.sub skipn]. f_equal.
      * rewrite !cadd_cadd by auto. f_equal.
      * apply skipn_app_l'. exact Ow.
    + f_equal. unfold view_of. cbn [v_id v_nlo v_nhi v_pgen v_lo v_hi v_gen v_bno v_whole v_bns v_filt an_whole an_bns an_hi].
      rewrite Z1, Z2, Z3, Z4, Z5, E1, E3, E4, Elo, EB. f_equal.
      * rewrite cadd_cadd by auto. f_equal. lia.
      * destruct Op as [[Zb _]|(_ & _ & Eo)]; [lia|]. rewrite !skipn_all2; auto; [rewrite Eo; lia|].
        rewrite app_length, Eo, EB. destruct (ap_boff a) as [|z]; [lia|]. cbn [firstn concat]. rewrite nbr_app. unfold nbr. lia.
      * destruct (ap_boff a) as [|z]; [lia|]. cbn [Nat.sub skipn]. rewrite Nat.sub_0_r. reflexivity.
  - assert (Dead : forall p, In p ps -> bundle_live_for_pivot n (rq_bno q) p = false).
    { intros p Ip. destruct (Ina p Ip) as (a & Ia & Hp). destruct Hp as (Q1 & Q2 & Q3 & Q4 & Q5).
      pose proof (piv_off_ok _ _ _ _ _ _ _ W Ia) as Op. pose proof (off_ok_le _ _ _ Op) as [L1 L2]. pose proof (ok_bns _ _ K) as Kb.
      pose proof (vbundle_dead ht n A a (rq_bno q) KPosInf W Ia Lb Lv) as V. unfold vbundle in V. cbn [view_of v_bns v_bno] in V.
      apply nth_error_None in V. rewrite skipn_length in V. unfold bundle_live_for_pivot. rewrite Q5, (r_ebn _ _ _ R).
      apply Nat.ltb_ge. rewrite (csub_cadd MAX_BUNDLES (n_sbn n) (length (an_bns A)) (ap_boff a)) by (auto; lia). exact V. }
    assert (Eps : set_piv ps' n = n).
    { rewrite H1, map_first_id; [apply set_piv_same|]. intros x Ix. rewrite Fn in Ix. unfold with_filter. rewrite (Dead x Ix). reflexivity. }
    rewrite Eps, Lv in E. injection E as <- <-.
    split; [exists f; split; auto; intros i Hi; apply H3; intros p Ip; destruct (Ina p Ip) as (a & Ia & (_ & Q2 & _)); rewrite Q2; auto|].
    split; [intros a Ia hi Hv; exfalso; apply Hv; apply (vbundle_dead ht); auto|].
    exists A. split; [exact W|]. split; [reflexivity|]. intros k Hl Hh.
    destruct (nview_at M mp cfg TO ht n A k W Hl Hh) as (i & a & hi & _ & Ea & _ & Ev & _ & _).
    exists (view_of n A a hi). split; [exact Ev|]. rewrite (vbundle_dead ht n A a (rq_bno q) hi W (nth_error_In _ _ Ea) Lb Lv). exact Ev.
Qed.

(** ** Building filters *)

Lemma whole_count : forall ht n A a p, nwf ht n A -> In a (an_piv A) -> piv_rep M n p a ->
  pivot_whole_branch_count M n p = length (skipn (ap_off a) (an_whole A)).
Proof.
  intros ht n A a p W Ia (_ & _ & _ & Q4 & _). pose proof (w_rep _ _ _ _ _ _ W) as R. pose proof (w_aok _ _ _ _ _ _ W) as K.
  pose proof (piv_off_ok _ _ _ _ _ _ _ W Ia) as Op. pose proof (off_ok_le _ _ _ Op) as [L1 L2].
  pose proof (ok_brs _ _ K) as Kb. pose proof (r_sbr _ _ _ R) as Sb.
  assert (Lw : length (an_whole A) <= length (brs A)) by (unfold brs; rewrite app_length; lia).
  assert (L0 : forall i, i < M -> csub M (cadd M (n_sbr n) i) (n_sbr n) = i).
  { intros i Li. rewrite <- (cadd_0 M (n_sbr n) Sb) at 2. rewrite csub_cadd by lia. lia. }
  unfold pivot_whole_branch_count, branch_is_whole. rewrite Q4, (r_sfrac _ _ _ R), !L0 by lia. rewrite skipn_length.
  destruct (Nat.ltb_spec (ap_off a) (length (an_whole A))); [apply csub_cadd; lia | lia].
Qed.

Definition sum_out (q : req) (i : nat) : nat := fold_right (fun j a => rq_out q j + a) 0 (seq 0 i).
Lemma fp_from_spec : forall q g left pos start,
  fp_bounds_from q g pos left start = (generation_to_pos_from (rq_gens q) g pos left,
    start + fold_right (fun j a => rq_out q j + a) 0 (seq pos (generation_to_pos_from (rq_gens q) g pos left - pos))).
Proof.
  intros q g left. induction left as [|l IH]; intros pos start; cbn [fp_bounds_from generation_to_pos_from].
  - rewrite Nat.sub_diag. cbn. f_equal. lia.
  - destruct (rq_gens q pos =? g); [rewrite Nat.sub_diag; cbn; f_equal; lia|]. rewrite IH. f_equal.
    destruct (gpos_from (rq_gens q) g l (S pos)) as (H & _). set (z := generation_to_pos_from (rq_gens q) g (S pos) l) in *. clearbody z.
    replace (z - pos) with (S (z - S pos)) by lia. cbn [seq fold_right]. lia.
Qed.
Lemma fp_bounds_spec : forall q g a b, fp_bounds q g = Some (a, b) ->
  a = sum_out q (generation_to_pos q g) /\ b = a + rq_out q (generation_to_pos q g).
Proof.
  intros q g a b E. unfold fp_bounds in E. rewrite fp_from_spec in E. fold (generation_to_pos q g) in E.
  destruct (S (generation_to_pos q g) =? MAX_PIVOTS); [discriminate|]. injection E as <- <-. rewrite Nat.sub_0_r. split; reflexivity.
Qed.

Lemma prepare_spec : forall n q ps s s', NoDup (map pv_gen ps) -> prepare_pivots M n q ps s = Some s' ->
  sc_lo s' = sc_lo s /\ sc_hi s' = sc_hi s /\
  (forall p, In p ps -> bundle_live_for_pivot n (rq_bno q) p = true ->
     let pos := generation_to_pos q (pv_gen p) in
     pos < MAX_PIVOTS /\ sc_build s' pos = true /\ sc_old s' pos = pv_filt p /\ sc_value s' pos = pivot_whole_branch_count M n p) /\
  (forall i, (forall p, In p ps -> generation_to_pos q (pv_gen p) <> i) ->
     sc_build s' i = sc_build s i /\ sc_old s' i = sc_old s i /\ sc_value s' i = sc_value s i).
Proof.
  intros n q ps. induction ps as [|p ps IH]; intros s s' ND E; cbn [prepare_pivots] in E.
  - injection E as <-. repeat split; auto; contradiction.
  - cbn [map] in ND. inversion ND as [|? ? Nin ND']; subst.
    assert (Sep : forall x, In x ps -> generation_to_pos q (pv_gen p) <> MAX_PIVOTS -> generation_to_pos q (pv_gen x) <> generation_to_pos q (pv_gen p)).
    { intros x Ix Np Ex. destruct (gpos_found q _ Np) as [_ G1]. rewrite <- Ex in G1, Np. destruct (gpos_found q _ Np) as [_ G2].
      apply Nin. rewrite <- G1, G2. apply in_map. exact Ix. }
    destruct (bundle_live_for_pivot n (rq_bno q) p) eqn:Lp.
    + destruct (Nat.eqb_spec (generation_to_pos q (pv_gen p)) MAX_PIVOTS) as [Z|Z]; [discriminate|].
      destruct (IH _ _ ND' E) as (H1 & H2 & H3 & H4). split; [exact H1|]. split; [exact H2|]. split.
      * intros x [<-|Ix] Lx; [|apply H3; auto]. cbv zeta. split; [apply (proj1 (gpos_found q _ Z))|].
        destruct (H4 (generation_to_pos q (pv_gen p))) as (K1 & K2 & K3); [intros y Iy; apply Sep; auto|].
        rewrite K1, K2, K3. cbn [sc_build sc_old sc_value]. unfold put. rewrite Nat.eqb_refl. auto.
      * intros i Hi. destruct (H4 i) as (K1 & K2 & K3); [intros x Ix; apply Hi; right; exact Ix|].
        rewrite K1, K2, K3. cbn [sc_build sc_old sc_value]. unfold put.
        assert (Ni : i <> generation_to_pos q (pv_gen p)) by (intro Q; apply (Hi p); [left; reflexivity | auto]).
        apply Nat.eqb_neq in Ni. rewrite Ni. auto.
    + destruct (IH _ _ ND' E) as (H1 & H2 & H3 & H4). split; [exact H1|]. split; [exact H2|]. split.
      * intros x [<-|Ix] Lx; [congruence | apply H3; auto].
      * intros i Hi. apply H4. intros x Ix. apply Hi. right. exact Ix.
Qed.

Lemma build_spec : forall q left pos s s', build_filters_from q s pos left = Some s' ->
  (exists f, s' = set_new s f) /\
  (forall i, i < pos \/ sc_build s i = false -> sc_new s' i = sc_new s i) /\
  (forall i, pos <= i -> i < pos + left -> sc_build s i = true -> exists a b, fp_bounds q (rq_gens q i) = Some (a, b) /\ sc_new s' i = filt_add (sc_old s i) (firstn (b - a) (skipn a (rq_fps q))) (sc_value s i)).
Proof.
  intros q left. induction left as [|l IH]; intros pos s s' E; cbn [build_filters_from] in E.
  - injection E as <-. split; [exists (sc_new s); destruct s; reflexivity|]. split; [auto|]. intros. lia.
  - destruct (sc_build s pos) eqn:B.
    + destruct (fp_bounds q (rq_gens q pos)) as [[a b]|] eqn:Fp; [|discriminate].
      destruct (IH _ _ _ E) as ((f & ->) & H2 & H3). split; [exists f; reflexivity|]. cbn [sc_build sc_old sc_value sc_new] in *. split.
      * intros i Hi. rewrite H2 by (destruct Hi; [left; lia | auto]). unfold put.
        assert (Ni : i <> pos) by (intro; subst; destruct Hi; [lia | congruence]). apply Nat.eqb_neq in Ni. rewrite Ni. reflexivity.
      * intros i L1 L2 Bi. destruct (Nat.eq_dec i pos) as [->|Z].
        -- exists a, b. split; [exact Fp|]. rewrite H2 by (left; lia). unfold put. rewrite Nat.eqb_refl. reflexivity.
        -- apply H3; auto; lia.
    + destruct (IH _ _ _ E) as ((f & ->) & H2 & H3). split; [exists f; reflexivity|]. split.
      * intros i Hi. apply H2. destruct Hi; [left; lia | auto].
      * intros i L1 L2 Bi. destruct (Nat.eq_dec i pos) as [->|Z]; [congruence|]. apply H3; auto; lia.
Qed.

Theorem build_effect : forall ht n A q s s', nwf ht n A -> rq_bno q = n_sbn n ->
  prepare_build_filter M n q = Some s -> build_filters q s = Some s' ->
  rq_height q = n_height n /\ sc_lo s' = an_lo A /\ sc_hi s' = an_hi A /\
  forall k v b, kle (an_lo A) k -> klt k (an_hi A) -> nview n k = Some v -> vbundle (rq_bno q) v = Some b ->
    v_bno v = rq_bno q /\ generation_to_pos q (v_gen v) < MAX_PIVOTS /\ sc_new s' (generation_to_pos q (v_gen v)) =
      filt_add (v_filt v) (firstn (rq_out q (generation_to_pos q (v_gen v))) (skipn (sum_out q (generation_to_pos q (v_gen v))) (rq_fps q)))
               (length (v_whole v)).
Proof.
  intros ht n A q s s' W Eb Ep Es. pose proof (w_rep _ _ _ _ _ _ W) as R. pose proof (w_aok _ _ _ _ _ _ W) as K.
  unfold prepare_build_filter in Ep. destruct ((rq_height q =? n_height n) && (rq_bno q =? n_sbn n)) eqn:G; [|discriminate].
  apply andb_prop in G. destruct G as [G _]. apply Nat.eqb_eq in G. split; [exact G|].
  destruct (r_piv _ _ _ R) as (ps & last & Epv & El & F). destruct (children_pivots_eq _ _ _ Epv) as [C1 C2]. rewrite C1 in Ep.
  assert (Gs : map pv_gen ps = map ap_gen (an_piv A)).
  { clear - F. induction F as [|p a ps l (_ & H & _) F IH]; simpl; auto. rewrite H, IH. reflexivity. }
  destruct (prepare_spec n q ps _ s ltac:(rewrite Gs; apply W) Ep) as (H1 & H2 & H3 & H4).
  unfold build_filters in Es. destruct (build_spec q MAX_PIVOTS 0 s s' Es) as ((f & Ef) & B2 & B3).
  destruct (rep_min_max _ _ _ R) as [Rm Rx].
  split; [rewrite Ef; cbn [set_new sc_lo]; rewrite H1; exact Rm|]. split; [rewrite Ef; cbn [set_new sc_hi]; rewrite H2; exact Rx|].
  intros k v b Hl Hh Ev Vb.
  destruct (nview_at M mp cfg TO ht n A k W Hl Hh) as (i & a & hi & _ & Ea & _ & Ev' & _ & _).
  rewrite Ev in Ev'. injection Ev' as ->. pose proof (nth_error_In _ _ Ea) as Ia.
  destruct (Forall2_nth _ _ _ F i a Ea) as (p & Eip & Hp). pose proof Hp as (Q1 & Q2 & Q3 & Q4 & Q5).
  pose proof (piv_off_ok _ _ _ _ _ _ _ W Ia) as Op. pose proof (off_ok_le _ _ _ Op) as [L1 L2]. pose proof (ok_bns _ _ K) as Kb.
  destruct (an_bns A) as [|b0 r0] eqn:EB.
  { exfalso. unfold vbundle in Vb. cbn [view_of v_bns] in Vb. rewrite EB, skipn_nil in Vb. destruct (csub _ _ _); discriminate. }
  assert (Vb' : vbundle (rq_bno q) (view_of n A a hi) = if ap_boff a <=? 0 then Some b0 else None).
  { rewrite Eb, <- (cadd_0 MAX_BUNDLES (n_sbn n) (r_sbn _ _ _ R)). exact (vbundle_back ht n A a [] r0 b0 hi W Ia EB). }
  rewrite Vb in Vb'. destruct (Nat.leb_spec (ap_boff a) 0) as [Z|Z]; [|discriminate]. injection Vb' as <-.
  assert (Bz : ap_boff a = 0) by lia.
  cbn [view_of v_bno v_gen v_filt v_whole]. split; [rewrite Bz, cadd_0, Eb by apply R; reflexivity|].
  assert (Lp : bundle_live_for_pivot n (rq_bno q) p = true).
  { unfold bundle_live_for_pivot. rewrite Q5, Bz, cadd_0, Eb, (r_ebn _ _ _ R), EB by apply R.
    rewrite <- (cadd_0 MAX_BUNDLES (n_sbn n) (r_sbn _ _ _ R)) at 1 2 4. rewrite !csub_cadd by (auto; try apply R; cbn [length] in *; lia). reflexivity. }
  destruct (H3 p (nth_error_In _ _ Eip) Lp) as (P1 & P2 & P3 & P4). rewrite Q2 in *. split; [exact P1|].
  destruct (B3 (generation_to_pos q (ap_gen a)) (Nat.le_0_l _) ltac:(lia) P2) as (x & y & Fp & Fv).
  destruct (gpos_found q (ap_gen a)) as [_ Gp]; [lia|]. rewrite Gp in Fp. destruct (fp_bounds_spec _ _ _ _ Fp) as [-> ->].
  rewrite Fv, P3, P4, Q3. f_equal; [f_equal; lia|]. apply (whole_count ht n A a p W Ia Hp).
Qed.

End Install.
