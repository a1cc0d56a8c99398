(** * A lookup in a tree finds the leaf by one sorted list of separators *)

From Coq Require Import List ZArith NArith Arith Bool Lia Sorting.Sorted.
From Verif Require Import Base Spec Spec_Range Codec Search SearchProofs DataProofs CountProofs Page PageProofs PageBytes Btree
  BtreeLeafProofs BtreeProofs BtreeMapProofs.
Import ListNotations.

Section Flat.
  Variable cfg : data_config.
  Variable ord : bytes -> bytes -> Z.
  Hypothesis TO : total_order ord.
  Variable D : bytes -> Prop.
  Hypothesis AG : agrees cfg ord D.

  Notation klt := (klt ord). Notation kle := (kle ord). Notation below := (below ord). Notation ss := (ss ord).

  Definition inD (k : key) : Prop := match k with KUser b => D b | _ => True end.
  Definition okey (k1 k2 : key) : Z := data_key_compare (DataConfig ord (key_hash cfg) (merge_fns cfg)) k1 k2.

  Lemma okey_sgn : forall a b, inD a -> inD b -> Z.sgn (data_key_compare cfg a b) = Z.sgn (okey a b).
  Proof.
    intros [|a|] [|b|] Ha Hb; try reflexivity. cbn. now apply AG.
  Qed.
  Lemma cmp_lt0 : forall a b, inD a -> inD b -> (data_key_compare cfg a b <? 0)%Z = (okey a b <? 0)%Z.
  Proof.
    intros a b Ha Hb. pose proof (okey_sgn a b Ha Hb).
    destruct (Z.ltb_spec (data_key_compare cfg a b) 0), (Z.ltb_spec (okey a b) 0); try reflexivity; lia.
  Qed.
  Lemma cmp_gt0 : forall a b, inD a -> inD b -> (0 <? data_key_compare cfg a b)%Z = (0 <? okey a b)%Z.
  Proof.
    intros a b Ha Hb. pose proof (okey_sgn a b Ha Hb).
    destruct (Z.ltb_spec 0 (data_key_compare cfg a b)), (Z.ltb_spec 0 (okey a b)); try reflexivity; lia.
  Qed.
  Lemma cmp_eq0 : forall a b, inD a -> inD b -> (data_key_compare cfg a b =? 0)%Z = (okey a b =? 0)%Z.
  Proof.
    intros a b Ha Hb. pose proof (okey_sgn a b Ha Hb).
    destruct (Z.eqb_spec (data_key_compare cfg a b) 0), (Z.eqb_spec (okey a b) 0); try reflexivity; lia.
  Qed.

  Lemma okey_lt : forall a k, key_lt ord a k = (okey (KUser a) k <? 0)%Z.
  Proof. intros a [|b|]; reflexivity. Qed.
  Lemma okey_le : forall a k, key_le ord a k = (okey (KUser a) k <=? 0)%Z.
  Proof. intros a [|b|]; reflexivity. Qed.
  Lemma okey_TO : total_order okey.
  Proof. apply data_key_compare_total. exact TO. Qed.
  Lemma bound_le_okey : forall a b, bound_le ord a b <-> (okey a b <= 0)%Z.
  Proof. intros [|a|] [|b|]; cbn; lia || tauto. Qed.

  (** Keys below bounds, along a sorted list. *)
  Lemma klt_key_lt : forall a b k, klt a b -> key_lt ord b k = true -> key_lt ord a k = true.
  Proof.
    intros a b [|c|] H; cbn; [auto| |auto]. rewrite !Z.ltb_lt. intros X. eapply klt_trans; eauto.
  Qed.
  Lemma klt_key_le : forall a b k, klt a b -> key_le ord b k = true -> key_le ord a k = true.
  Proof.
    intros a b [|c|] H; cbn; [auto| |auto]. rewrite !Z.leb_le. intros X. apply (klt_kle ord TO).
    eapply klt_kle_trans; eauto.
  Qed.
  Lemma lt_closed : forall l k, ss l -> closed (fun a => key_lt ord a k) l.
  Proof. intros l k H. eapply closed_sorted; [exact H|]. intros a b _ _ Hab. now apply klt_key_lt. Qed.
  Lemma le_closed : forall l k, ss l -> closed (fun a => key_le ord a k) l.
  Proof. intros l k H. eapply closed_sorted; [exact H|]. intros a b _ _ Hab. now apply klt_key_le. Qed.
  Lemma key_lt_le : forall a k, key_lt ord a k = true -> key_le ord a k = true.
  Proof. intros a [|b|]; cbn; auto. rewrite Z.ltb_lt, Z.leb_le. lia. Qed.
  Lemma key_le_bound : forall a k1 k2, key_le ord a k1 = true -> bound_le ord k1 k2 -> key_le ord a k2 = true.
  Proof.
    intros a k1 k2. rewrite !okey_le, bound_le_okey, !Z.leb_le. apply (cmp_le_trans _ okey_TO).
  Qed.
  Lemma key_lt_bound : forall a k1 k2, key_lt ord a k1 = true -> bound_le ord k1 k2 -> key_lt ord a k2 = true.
  Proof.
    intros a k1 k2. rewrite !okey_lt, bound_le_okey, !Z.ltb_lt. apply (cmp_lt_le_trans _ okey_TO).
  Qed.

  Lemma find_agree_key : forall l k, Forall D l -> inD k ->
    btree_find cfg (map KUser l) k = btree_find (DataConfig ord (key_hash cfg) (merge_fns cfg)) (map KUser l) k.
  Proof.
    intros l k Hl Hk. unfold btree_find.
    assert (X : forall fuel lo hi, btree_find_loop cfg (map KUser l) k fuel lo hi =
      btree_find_loop (DataConfig ord (key_hash cfg) (merge_fns cfg)) (map KUser l) k fuel lo hi); [|apply X].
    induction fuel as [|fuel IH]; intros lo hi; [reflexivity|]. cbn [btree_find_loop].
    destruct (lo <? hi)%nat; [|reflexivity]. unfold key_at. rewrite nth_error_map.
    destruct (nth_error l ((lo + hi) / 2)) as [x|] eqn:En; [|reflexivity]. cbn [option_map].
    assert (Dx : inD (KUser x)) by (rewrite Forall_forall in Hl; apply Hl; eapply nth_error_In; eauto).
    rewrite (cmp_eq0 _ _ Dx Hk), (cmp_lt0 _ _ Dx Hk). unfold okey. now rewrite !IH.
  Qed.

  (** The page search counts. *)
  Lemma find_counts : forall l k, ss l -> Forall D l -> inD k ->
    exists found : bool, btree_find cfg (map KUser l) k = Some ((Z.of_nat (cnt (fun a => key_le ord a k) l) - 1)%Z, found) /\
      cnt (fun a => key_le ord a k) l = cnt (fun a => key_lt ord a k) l + (if found then 1 else 0) /\
      (found = true -> exists b, k = KUser b /\ nth_error l (cnt (fun a => key_lt ord a k) l) = Some b).
  Proof.
    intros l k H Hl Hk. rewrite (find_agree_key l k Hl Hk). unfold btree_find.
    destruct (btree_find_loop_spec (DataConfig ord (key_hash cfg) (merge_fns cfg)) TO (S (length (map KUser l))) (map KUser l) k 0 (length (map KUser l)))
      as (idx & found & E & Bd & Sp & F1 & F2); try lia.
    - eapply ss_increasing; eauto.
    - intros i x Hi Hx. assert (nth_error (map KUser l) i = None) by (now apply nth_error_None). congruence.
    - exists found. rewrite E. rewrite map_length in Bd.
      assert (Hc : Z.of_nat (cnt (fun a => key_le ord a k) l) = (idx + 1)%Z).
      { pose proof (cnt_le_length _ (fun a => key_le ord a k) l) as HL. pose proof (fun i x => cnt_nth _ _ l i x (le_closed l k H)) as X. cbv beta in X.
        assert (Y : forall i x, nth_error l i = Some x -> ((Z.of_nat i <= idx)%Z <-> i < cnt (fun a => key_le ord a k) l)).
        { intros i x Hx. rewrite <- (X i x Hx), okey_le, Z.leb_le. apply Sp. now rewrite nth_error_map, Hx. }
        clear X. destruct (Z.lt_trichotomy (Z.of_nat (cnt (fun a => key_le ord a k) l)) (idx + 1)) as [Hlt|[He|Hgt]]; [exfalso|exact He|exfalso].
        - destruct (nth_error l (cnt (fun a => key_le ord a k) l)) as [x|] eqn:Ex.
          + apply Y in Ex. lia.
          + apply nth_error_None in Ex. lia.
        - destruct (nth_error l (Z.to_nat (idx + 1))) as [x|] eqn:Ex.
          + apply Y in Ex. lia.
          + apply nth_error_None in Ex. lia. }
      split; [f_equal; f_equal; lia|].
      assert (Hle : cnt (fun a => key_lt ord a k) l <= cnt (fun a => key_le ord a k) l)
        by (apply cnt_mono; intros; now apply key_lt_le).
      destruct found.
      + destruct (proj1 F1 eq_refl) as (i & Hi & Hx). rewrite nth_error_map in Hx.
        destruct (nth_error l i) as [b|] eqn:Eb; [|discriminate]. cbn in Hx. injection Hx as <-.
        assert (Hi2 : cnt (fun a => key_lt ord a (KUser b)) l = i).
        { pose proof (fun i x => cnt_nth _ _ l i x (lt_closed l (KUser b) H)) as X. cbv beta in X.
          destruct (Nat.lt_trichotomy (cnt (fun a => key_lt ord a (KUser b)) l) i) as [Hlt|[He|Hgt]]; [exfalso|exact He|exfalso].
          - destruct (nth_error l (cnt (fun a => key_lt ord a (KUser b)) l)) as [x|] eqn:Ex.
            + assert (Y : klt x b).
              { apply nth_error_split in Eb. destruct Eb as (A & B & -> & <-).
                apply ss_app in H. destruct H as (_ & _ & H). apply H; [|now left].
                rewrite nth_error_app1 in Ex by exact Hlt. now apply nth_error_In in Ex. }
              assert (key_lt ord x (KUser b) = true) as Z1 by (cbn; now apply Z.ltb_lt).
              apply (X _ _ Ex) in Z1. lia.
            + apply nth_error_None in Ex. assert (i < length l) by (apply nth_error_Some; congruence). lia.
          - apply (X i b Eb) in Hgt. cbn in Hgt. apply Z.ltb_lt in Hgt. now apply (klt_irrefl ord TO) in Hgt. }
        split; [rewrite Hi2; lia|]. intros _. exists b. split; [reflexivity|]. now rewrite Hi2.
      + split; [|discriminate]. rewrite Nat.add_0_r. apply cnt_ext. intros x Hx.
        rewrite okey_le, okey_lt. destruct (Z.leb_spec (okey (KUser x) k) 0), (Z.ltb_spec (okey (KUser x) k) 0); try reflexivity; try lia.
        exfalso. assert (Hz : okey (KUser x) k = 0%Z) by lia. apply (to_eq _ okey_TO) in Hz. subst k.
        assert (false = true) by (apply F2; now apply in_map). discriminate.
  Qed.

  Variables P K M : N.
  Hypothesis DK : forall k, (blen k <= K)%N -> D k.
  Notation inv := (inv ord P K M). Notation seg := (seg ord).

  (** The separators [ps] of the leaves [ls]: between [lo] and [hi], one per
      leaf, leaf j between separators j and j+1. *)
  Fixpoint sepd (ps : list bytes) (ls : list leaf) (lo : bytes) (hi : option bytes) : Prop :=
    match ps, ls with
    | [], [] => True
    | p :: ps', l :: ls' =>
        kle lo p /\ pg_cont (lf_page l) <> [] /\ ss (map fst (pg_cont (lf_page l))) /\ Forall (ent_ok K M) (pg_cont (lf_page l)) /\ D p /\
        (let hi' := match ps' with [] => hi | q :: _ => Some q end in
         below p hi' /\ forall e, In e (pg_cont (lf_page l)) -> kle p (fst e) /\ below (fst e) hi') /\
        sepd ps' ls' p hi
    | _, _ => False
    end.

  Lemma sepd_length : forall ps ls lo hi, sepd ps ls lo hi -> length ps = length ls.
  Proof.
    induction ps as [|p ps IH]; intros [|l ls] lo hi H; cbn in *; try tauto. destruct H as (_ & _ & _ & _ & _ & _ & H). f_equal. eauto.
  Qed.
  Lemma sepd_weaken : forall ps ls lo lo' hi, sepd ps ls lo hi -> kle lo' lo -> sepd ps ls lo' hi.
  Proof.
    intros [|p ps] [|l ls] lo lo' hi H Hl; cbn [sepd] in *; try tauto. destruct H as (H & R). split; [|exact R].
    eapply kle_trans; eauto.
  Qed.
  Lemma sepd_app : forall ps1 ls1 p ps2 ls2 lo hi,
    sepd ps1 ls1 lo (Some p) -> sepd (p :: ps2) ls2 p hi -> kle lo p -> sepd (ps1 ++ p :: ps2) (ls1 ++ ls2) lo hi.
  Proof.
    induction ps1 as [|q ps1 IH]; intros [|l ls1] p ps2 ls2 lo hi H1 H2 Hl; cbn [app]; try (cbn in H1; tauto).
    - eapply sepd_weaken; eauto.
    - cbn [sepd] in H1. destruct H1 as (A1 & A2 & A3 & A4 & A4' & (A5 & A6) & A7). cbn [sepd].
      split; [exact A1|]. split; [exact A2|]. split; [exact A3|]. split; [exact A4|]. split; [exact A4'|].
      assert (Hqp : kle q p).
      { destruct ps1 as [|r ps1]; [apply (klt_kle ord TO), A5|]. destruct ls1; [cbn in A7; tauto|].
        clear - A7 TO. revert q r l0 ls1 A7. induction ps1 as [|s ps1 IH]; intros q r l ls H; cbn [sepd] in H.
        - destruct H as (H & _ & _ & _ & _ & (H' & _) & _). eapply kle_trans; [exact TO|exact H|]. apply (klt_kle ord TO), H'.
        - destruct H as (H & _ & _ & _ & _ & (H' & _) & H2). destruct ls as [|l' ls]; [cbn in H2; tauto|].
          eapply kle_trans; [exact TO|exact H|]. apply (IH r s l' ls H2). }
      split.
      + destruct ps1; cbn [app]; auto.
      + apply IH; assumption.
  Qed.
  (** replacing the first separator by a smaller one *)
  Lemma sepd_lower : forall p ps ls lo hi lo', sepd (p :: ps) ls lo hi -> kle lo' p -> D lo' -> sepd (lo' :: ps) ls lo' hi.
  Proof.
    intros p ps [|l ls] lo hi lo' H Hl HD; cbn [sepd] in *; [tauto|].
    destruct H as (A1 & A2 & A3 & A4 & A4' & (A5 & A6) & A7).
    split; [apply (kle_refl ord TO)|]. split; [exact A2|]. split; [exact A3|]. split; [exact A4|]. split; [exact HD|].
    split; [split|].
    - destruct ps as [|q ps]; [|eapply kle_klt_trans; eauto].
      destruct hi; cbn in *; [eapply kle_klt_trans; eauto|trivial].
    - intros e He. destruct (A6 e He) as [X Y]. split; [eapply kle_trans; eauto|exact Y].
    - eapply sepd_weaken; eauto.
  Qed.
  Lemma sepd_sorted : forall ps ls lo hi, sepd ps ls lo hi -> ss ps /\ Forall (fun p => D p /\ kle lo p /\ below p hi) ps.
  Proof.
    induction ps as [|p ps IH]; intros [|l ls] lo hi H; cbn [sepd] in H; try tauto.
    - split; constructor.
    - destruct H as (A1 & _ & _ & _ & A4 & (A5 & _) & A7). destruct (IH _ _ _ A7) as [S1 S2].
      destruct ps as [|q ps].
      + split; [repeat constructor|]. constructor; [auto|constructor].
      + split.
        * apply ss_cons. split; [exact S1|]. intros y [<-|Hy]; [exact A5|]. apply ss_cons in S1.
          eapply klt_trans; [exact TO|exact A5|]. now apply S1.
        * constructor; [|eapply Forall_impl; [|exact S2]; cbn; intros x (X1 & X2 & X3); split; [exact X1|split; [eapply kle_trans; eauto|exact X3]]].
          split; [exact A4|]. split; [exact A1|]. inversion S2; subst. destruct H1 as (_ & _ & X).
          eapply kle_below; [exact TO|apply (klt_kle ord TO); exact A5|exact X].
  Qed.

  Lemma descend_spec : forall T (p : page (ient T)) k, ss (map ie_key (pg_cont p)) -> Forall D (map ie_key (pg_cont p)) ->
    inD k -> pg_cont p <> [] ->
    descend_idx cfg p k = Some (pred (cnt (fun a => key_le ord a k) (map ie_key (pg_cont p)))).
  Proof.
    intros T p k Hs Hd Hk Hne. unfold descend_idx.
    destruct (find_counts _ k Hs Hd Hk) as (f & E & _).
    assert (Hm : index_keys p = map KUser (map ie_key (pg_cont p))) by (unfold index_keys; rewrite map_map; reflexivity).
    assert (Hlen : pg_num p = length (pg_cont p)) by (symmetry; apply cont_length).
    destruct k as [|b|].
    1, 2: unfold find_pivot; rewrite Hm, E; f_equal; unfold clamp0; lia.
    rewrite cnt_all by reflexivity. rewrite map_length, <- Hlen. destruct (pg_num p) eqn:En; [|reflexivity].
    destruct (pg_cont p); [congruence|discriminate].
  Qed.

  Lemma flat : forall h t lo hi, inv h t lo hi -> D lo ->
    exists ps, sepd (lo :: ps) (leaves h t) lo hi /\
      forall k, inD k -> lookup_leaf cfg h t k = nth_error (leaves h t) (cnt (fun a => key_le ord a k) ps).
  Proof.
    induction h as [|h IH]; intros t lo hi H HDl.
    - destruct H as (_ & H0 & H1 & H2 & H3). exists []. split; [|reflexivity].
      change (leaves 0 t) with [t]. cbn [sepd]. split; [apply (kle_refl ord TO)|]. split; [exact H0|]. split; [exact H1|].
      split; [exact H3|]. split; [exact HDl|]. split; [|exact I]. split; [|exact H2].
      destruct (pg_cont (lf_page t)) as [|e es] eqn:Ec; [congruence|]. destruct (H2 e (or_introl eq_refl)) as [X Y].
      eapply kle_below; eauto.
    - destruct H as (Hok & Hne & Hf & s0 & Hle & Hs).
      change (leaves (S h) t) with (lvs (pg_cont (t : page (ient (tree h))))).
      assert (HD : Forall D (map ie_key (pg_cont (t : page (ient (tree h)))))).
      { rewrite Forall_forall in *. intros x Hx. apply in_map_iff in Hx. destruct Hx as (e & <- & He). apply DK, Hf, He. }
      destruct (seg_keys ord TO _ _ _ _ Hs Hne) as (s & Es & Hss & _). injection Es as <-.
      (* one list of separators for the children in [es] *)
      assert (X : forall es s1 hi1, seg (inv h) es (Some s1) hi1 -> es <> [] -> Forall D (map ie_key es) -> ss (map ie_key es) ->
        exists ps, sepd (s1 :: ps) (lvs es) s1 hi1 /\
          forall k, inD k ->
            match nth_error es (pred (cnt (fun a => key_le ord a k) (map ie_key es))) with
            | Some e => lookup_leaf cfg h (ie_child e) k
            | None => None
            end = nth_error (lvs es) (cnt (fun a => key_le ord a k) ps)).
      { induction es as [|e es IHes]; intros s1 hi1 Hsg Hn HDe Hse; [congruence|].
        cbn [BtreeProofs.seg] in Hsg. destruct Hsg as (mid & Eq & Hb & Hi & Hsg). injection Eq as ->.
        inversion HDe as [|? ? HDk HDes]; subst. cbn [map] in Hse. apply ss_cons in Hse. destruct Hse as (Hse & Hgt).
        destruct (IH _ _ _ Hi HDk) as (p1 & Sp1 & L1). pose proof (sepd_length _ _ _ _ Sp1) as Len1. cbn [length] in Len1.
        change (lvs (e :: es)) with (leaves h (ie_child e) ++ lvs es).
        destruct es as [|e2 es].
        - cbn [BtreeProofs.seg] in Hsg. subst mid. exists p1. change (lvs []) with (@nil leaf). rewrite app_nil_r.
          split; [exact Sp1|]. intros k Hk. cbn [map]. rewrite cnt_cons, cnt_nil.
          replace (pred _) with 0 by (destruct (key_le ord (ie_key e) k); reflexivity). cbn [nth_error]. now apply L1.
        - pose proof (seg_head ord TO _ _ _ _ _ Hsg) as ->.
          destruct (IHes _ _ Hsg ltac:(discriminate) HDes Hse) as (p2 & Sp2 & L2).
          exists (p1 ++ ie_key e2 :: p2). split.
          + change (sepd ((ie_key e :: p1) ++ ie_key e2 :: p2) (leaves h (ie_child e) ++ lvs (e2 :: es)) (ie_key e) hi1).
            apply sepd_app; [exact Sp1|exact Sp2|]. apply (klt_kle ord TO), Hgt. now left.
          + intros k Hk. cbn [map]. rewrite cnt_cons, cnt_app.
            specialize (L2 k Hk). cbn [map] in L2.
            destruct (key_le ord (ie_key e2) k) eqn:E2.
            * (* at or beyond e2 *)
              assert (E1 : key_le ord (ie_key e) k = true) by (eapply klt_key_le; [apply Hgt; now left|exact E2]).
              rewrite E1. rewrite cnt_cons, E2 in L2 |- *. cbn [Nat.add pred nth_error] in L2 |- *. rewrite L2.
              assert (Hall : cnt (fun a => key_le ord a k) p1 = length p1).
              { apply cnt_all. intros x Hx. eapply klt_key_le; [|exact E2].
                destruct (sepd_sorted _ _ _ _ Sp1) as [_ F]. inversion F; subst. rewrite Forall_forall in H2. apply H2, Hx. }
              rewrite Hall, cnt_cons, E2. rewrite nth_error_app2 by lia. f_equal. lia.
            * assert (Z : cnt (fun a => key_le ord a k) (map ie_key (e2 :: es)) = 0).
              { cbn [map]. apply closed_false; [|exact E2]. apply le_closed. exact Hse. }
              cbn [map] in Z. rewrite Z.
              replace (pred _) with 0 by (destruct (key_le ord (ie_key e) k); reflexivity). cbn [nth_error].
              assert (Z2 : cnt (fun a => key_le ord a k) (ie_key e2 :: p2) = 0).
              { apply closed_false; [|exact E2]. apply le_closed. apply (sepd_sorted _ _ _ _ Sp2). }
              rewrite Z2, Nat.add_0_r, (L1 k Hk). symmetry. apply nth_error_app1.
              pose proof (cnt_le_length _ (fun a => key_le ord a k) p1). lia. }
      destruct (X _ _ _ Hs Hne HD Hss) as (ps & Sp & L). exists ps. split.
      + eapply sepd_lower; eauto.
      + intros k Hk. cbn [lookup_leaf].
        rewrite (descend_spec _ (t : page (ient (tree h))) k Hss HD Hk Hne). rewrite <- (L k Hk).
        unfold get_child. destruct (nth_error _ _); reflexivity.
  Qed.
End Flat.
