(** * Counting the tuples of a packed branch *)

From Coq Require Import List ZArith NArith Arith Bool Lia Sorting.Sorted.
From Verif Require Import Base Spec Spec_Range Codec Search SearchProofs DataProofs CountProofs Page PageProofs PageBytes Btree
  BtreeLeafProofs BtreeProofs BtreeMapProofs BtreeRunProofs BtreeFlatProofs BtreeIterProofs BtreeScanProofs Pack PackProofs.
Import ListNotations.
Local Open Scope N_scope.

Section Rank.
  Variable cfg : data_config.
  Variable ord : bytes -> bytes -> Z.
  Hypothesis TO : total_order ord.
  Variable D : bytes -> Prop.
  Hypothesis AG : agrees cfg ord D.
  Variables P K M : N.
  Hypothesis DK : forall k, blen k <= K -> D k.

  Notation good := (good P K M).

  Lemma ent_sorted : forall l : list lent, ss ord (map fst l) -> StronglySorted (fun a b : lent => klt ord (fst a) (fst b)) l.
  Proof.
    induction l as [|a l IH]; intros H; [constructor|]. cbn [map] in H. apply ss_cons in H. destruct H as [H1 H2]. apply ss_cons.
    split; [auto|]. intros y Hy. apply H2. now apply in_map.
  Qed.
  Lemma ent_closed : forall (l : list lent) k, ss ord (map fst l) -> closed (fun e : lent => key_lt ord (fst e) k) l.
  Proof.
    intros l k H. eapply closed_sorted; [exact (ent_sorted l H)|]. intros a b _ _ Hab. cbv beta. now apply (klt_key_lt ord TO).
  Qed.

  Lemma good_keys : forall h t, good h t -> Forall (fun e : lent => blen (fst e) <= K) (entries h t).
  Proof.
    induction h as [|h IH]; intros t Hg.
    - rewrite entries_0. destruct Hg as (_ & _ & H). eapply Forall_impl; [|exact H]. intros e He. apply He.
    - rewrite (entries_S h t). destruct Hg as (_ & _ & _ & H). rewrite Forall_forall in *. intros e He.
      apply in_flat_map in He. destruct He as (x & Hx & He). destruct (H x Hx) as (_ & Hgx & _).
      specialize (IH _ Hgx). rewrite Forall_forall in IH. auto.
  Qed.

  Lemma good_least : forall h t, good h t -> ss ord (map fst (entries h t)) ->
    exists k, first_key h t = Some k /\ forall e, In e (entries h t) -> kle ord k (fst e).
  Proof.
    intros h t Hg Hs. destruct (good_first P K M h t Hg) as (k & m & r & E1 & E2 & _). exists k. split; [exact E1|].
    rewrite E2 in *. cbn [map fst] in Hs. apply ss_cons in Hs. destruct Hs as [_ Hs].
    intros e [<-|He]; [apply (kle_refl ord TO)|]. apply (klt_kle ord TO). apply Hs. now apply in_map.
  Qed.

  Lemma index_rank_exact : forall h (es : list (ient (tree h))) pre,
    Forall (fun e => bounded (entries h (ie_child e)) -> ie_stats e = exact (entries h (ie_child e))) es ->
    bounded (pre ++ flat_map (fun e => entries h (ie_child e)) es) ->
    index_rank (exact pre) es = exact (pre ++ flat_map (fun e => entries h (ie_child e)) es).
  Proof.
    intros h es. induction es as [|e es IH]; intros pre Hf Hb; cbn [flat_map] in *.
    - now rewrite app_nil_r.
    - inversion Hf as [|? ? H1 H2]; subst. unfold index_rank in *. cbn [fold_left]. rewrite app_assoc in Hb.
      pose proof (bounded_app _ _ Hb) as [Hb1 _]. pose proof (bounded_app _ _ Hb1) as [_ Hb2].
      rewrite (H1 Hb2), accumulate_exact by exact Hb1. rewrite IH by assumption. now rewrite <- app_assoc.
  Qed.

  Lemma leaf_rank_exact : forall es pre, bounded (pre ++ es) -> leaf_rank (exact pre) es = exact (pre ++ es).
  Proof.
    intros es pre Hb. unfold leaf_rank.
    assert (X : forall es n kb mb, kb + kbytes es < unknown_counter -> mb + mbytes es < unknown_counter ->
       fold_left (fun s e => PStats (ps_kvs s) (add_unknown (ps_kbytes s) (blen (fst e)))
                                    (add_unknown (ps_mbytes s) (blen (m_data (snd e))))) es (PStats n kb mb)
       = PStats n (kb + kbytes es) (mb + mbytes es)).
    { clear. induction es as [|e es IH]; intros n kb mb H1 H2.
      - cbn [fold_left kbytes mbytes fold_right]. now rewrite !N.add_0_r.
      - cbn [fold_left ps_kvs ps_kbytes ps_mbytes]. cbn [kbytes mbytes fold_right] in *. fold (kbytes es) (mbytes es) in *.
        rewrite !add_exact by lia. rewrite IH by lia. f_equal; lia. }
    unfold bounded in Hb. rewrite app_length, kbytes_app, mbytes_app in Hb. unfold exact at 1 2 3. rewrite X by lia.
    cbn [ps_kvs ps_kbytes ps_mbytes]. unfold exact. rewrite app_length, kbytes_app, mbytes_app.
    unfold unknown_counter in Hb. rewrite N.mod_small by (change (2 ^ 32) with 4294967296; lia). f_equal; lia.
  Qed.

  Lemma rank_leaf_spec : forall h t k pre, good h t -> ss ord (map fst (entries h t)) -> inD D k ->
    bounded (pre ++ entries h t) ->
    exists l A B, rank_leaf cfg h t k (exact pre) = Some (l, exact (pre ++ A)) /\
      entries h t = A ++ pg_cont (lf_page l) ++ B /\
      (forall e, In e A -> key_lt ord (fst e) k = true) /\ (forall e, In e B -> key_lt ord (fst e) k = false).
  Proof.
    induction h as [|h IH]; intros t k pre Hg Hs Hk Hb.
    - exists t, [], []. rewrite !app_nil_r. cbn [app rank_leaf]. rewrite entries_0. split; [reflexivity|].
      split; [reflexivity|]. split; intros e [].
    - destruct (good_first P K M (S h) t Hg) as (k0 & m0 & r0 & _ & Ef & _).
      assert (Hinv : inv ord P K M (S h) t k0 None).
      { apply (good_inv ord TO); [exact Hg|exact Hs|]. intros e He. split; [|exact I].
        rewrite Ef in *. cbn [map fst] in Hs. apply ss_cons in Hs. destruct Hs as [_ Hs].
        destruct He as [<-|He]; [apply (kle_refl ord TO)|]. apply (klt_kle ord TO). apply Hs. now apply in_map. }
      destruct Hinv as (_ & Hne & Hfit & s0 & _ & Hseg). destruct (seg_keys ord TO _ _ _ _ Hseg Hne) as (_ & _ & Hss & _ & _).
      clear Hseg s0 k0 m0 r0 Ef.
      assert (HD : Forall D (map ie_key (pg_cont (t : page (ient (tree h)))))).
      { rewrite Forall_forall in *. intros x Hx. apply in_map_iff in Hx. destruct Hx as (e & <- & He). apply DK. apply (Hfit e He). }
      cbn [rank_leaf]. rewrite (descend_spec cfg ord TO D AG _ _ k Hss HD Hk Hne).
      destruct Hg as (_ & _ & _ & Hkids). rewrite (entries_S h t) in Hs, Hb |- *.
      unfold get_child. remember (pg_cont (t : page (ient (tree h)))) as es eqn:Ees.
      remember (cnt (fun a => key_le ord a k) (map ie_key es)) as c eqn:Ec.
      assert (Hc : (c <= length es)%nat) by (subst c; etransitivity; [apply cnt_le_length|now rewrite map_length]).
      assert (Hlen : (0 < length es)%nat) by (destruct es; [congruence|cbn; lia]).
      destruct (nth_error es (pred c)) as [e|] eqn:Ee; [|apply nth_error_None in Ee; lia].
      destruct (nth_error_split _ _ Ee) as (X & Y & Eq & HlX).
      rewrite <- HlX. rewrite Eq, firstn_app_all.
      pose proof Hkids as Hkids'. rewrite Eq in Hkids'. apply Forall_app in Hkids'. destruct Hkids' as [HkX HkY].
      inversion HkY as [|? ? He HkY']; subst x l.
      rewrite Eq, flat_map_app in Hs, Hb. cbn [flat_map] in Hs, Hb. rewrite !map_app in Hs. apply ss_app in Hs. destruct Hs as (SX & S1 & SXe).
      apply ss_app in S1. destruct S1 as (Se & SY & SeY).
      destruct He as (Hfe & Hge & Hfk & Hst).
      assert (HbX : bounded (pre ++ flat_map (fun e => entries h (ie_child e)) X)).
      { rewrite app_assoc in Hb. apply bounded_app in Hb. apply Hb. }
      rewrite index_rank_exact; [|eapply Forall_impl; [|exact HkX]; intros x Hx; apply Hx|exact HbX].
      destruct (IH (ie_child e) k (pre ++ flat_map (fun e => entries h (ie_child e)) X) Hge Se Hk) as (l & A & B & E1 & E2 & HA & HB).
      { rewrite !app_assoc in Hb. apply bounded_app in Hb. apply Hb. }
      rewrite E1. exists l, (flat_map (fun e => entries h (ie_child e)) X ++ A), (B ++ flat_map (fun e => entries h (ie_child e)) Y).
      split; [now rewrite <- app_assoc|]. split; [rewrite flat_map_app; cbn [flat_map]; rewrite E2, <- !app_assoc; reflexivity|].
      pose proof (fun i x => cnt_nth _ _ (map ie_key es) i x (le_closed ord TO _ k Hss)) as Hcn. cbv beta in Hcn. rewrite <- Ec in Hcn.
      destruct (good_first P K M h _ Hge) as (ke & me & re & Fe & Ene & _). rewrite Hfk in Fe. injection Fe as <-.
      split.
      + intros x Hx. apply in_app_or in Hx. destruct Hx as [Hx|Hx]; [|now apply HA].
        assert (Hc0 : (0 < length X)%nat) by (destruct X; [destruct Hx|cbn; lia]).
        assert (Hle : key_le ord (ie_key e) k = true) by (apply (Hcn (pred c)); [now rewrite nth_error_map, Ee|lia]).
        assert (Hlt : klt ord (fst x) (ie_key e)).
        { apply SXe; [now apply in_map|]. apply in_or_app. left. rewrite Ene. now left. }
        destruct k as [|b|]; [discriminate| |reflexivity]. cbn in *. apply Z.leb_le in Hle. apply Z.ltb_lt. eapply klt_kle_trans; eauto.
      + intros x Hx. apply in_app_or in Hx. destruct Hx as [Hx|Hx]; [now apply HB|].
        apply in_flat_map in Hx. destruct Hx as (y & Hy & Hx). apply In_nth_error in Hy. destruct Hy as (j & Hj).
        assert (Hj2 : nth_error es (length X + S j) = Some y).
        { rewrite Eq, nth_error_app2 by lia. now replace (length X + S j - length X)%nat with (S j) by lia. }
        assert (Hle : key_le ord (ie_key y) k = false).
        { destruct (key_le ord (ie_key y) k) eqn:El; [|reflexivity]. exfalso.
          apply (Hcn (length X + S j)%nat) in El; [lia|]. now rewrite nth_error_map, Hj2. }
        rewrite Forall_forall in Hkids. destruct (Hkids y (nth_error_In _ _ Hj2)) as (_ & Hgy & Hfy & _).
        assert (Sy : ss ord (map fst (entries h (ie_child y)))).
        { apply nth_error_In in Hj. apply in_split in Hj. destruct Hj as (Y1 & Y2 & ->). rewrite flat_map_app in SY. cbn [flat_map] in SY.
          rewrite !map_app in SY. apply ss_app in SY. destruct SY as (_ & SY & _). apply ss_app in SY. apply SY. }
        destruct (good_least h _ Hgy Sy) as (ky & Fy & Hly). rewrite Hfy in Fy. injection Fy as <-.
        specialize (Hly x Hx). destruct (key_lt ord (fst x) k) eqn:El; [|reflexivity]. exfalso.
        assert (key_le ord (ie_key y) k = true); [|congruence].
        destruct k as [|b|]; [discriminate| |reflexivity]. cbn in *. apply Z.leb_le. apply Z.ltb_lt in El.
        apply (klt_kle ord TO). eapply kle_klt_trans; eauto.
  Qed.

  Lemma get_rank_spec : forall t k, good (bt_h t) (bt_tree t) -> ss ord (map fst (bt_entries t)) -> inD D k ->
    bounded (bt_entries t) ->
    get_rank cfg t k = Some (exact (filter (fun e : lent => key_lt ord (fst e) k) (bt_entries t))).
  Proof.
    intros t k Hg Hs Hk Hb. unfold get_rank. change zero_stats with (exact []).
    destruct (rank_leaf_spec (bt_h t) (bt_tree t) k [] Hg Hs Hk Hb) as (l & A & B & E1 & E2 & HA & HB).
    rewrite E1. cbn [app]. unfold find_tuple, leaf_keys.
    replace (map (fun e : lent => KUser (fst e)) (pg_cont (lf_page l))) with (map KUser (map fst (pg_cont (lf_page l))))
      by (rewrite map_map; reflexivity).
    change (bt_entries t) with (entries (bt_h t) (bt_tree t)) in *.
    pose proof (good_keys _ _ Hg) as HK. rewrite E2 in Hs, Hb, HK |- *.
    rewrite !map_app in Hs. apply ss_app in Hs. destruct Hs as (_ & Hs & _). apply ss_app in Hs. destruct Hs as (Hs & _ & _).
    rewrite !Forall_app in HK. destruct HK as (_ & HK & _).
    assert (HD : Forall D (map fst (pg_cont (lf_page l)))).
    { rewrite Forall_forall in *. intros x Hx. apply in_map_iff in Hx. destruct Hx as (e & <- & He). apply DK, HK, He. }
    destruct (find_counts cfg ord TO D AG _ k Hs HD Hk) as (f & E3 & E4 & _). rewrite E3. rewrite !cnt_map in E4.
    rewrite cnt_map.
    replace (Z.to_nat (if f then _ else _)) with (cnt (fun e : lent => key_lt ord (fst e) k) (pg_cont (lf_page l)))
      by (destruct f; lia).
    rewrite <- cnt_firstn by (apply ent_closed; exact Hs).
    rewrite !filter_app.
    assert (FA : filter (fun e : lent => key_lt ord (fst e) k) A = A).
    { clear - HA. induction A as [|a A IH]; [reflexivity|]. cbn [filter]. rewrite HA by (now left). f_equal. apply IH. intros; apply HA. now right. }
    assert (FB : filter (fun e : lent => key_lt ord (fst e) k) B = []).
    { clear - HB. induction B as [|a B IH]; [reflexivity|]. cbn [filter]. rewrite HB by (now left). apply IH. intros; apply HB. now right. }
    rewrite FA, FB, app_nil_r. f_equal. apply leaf_rank_exact.
    rewrite <- (firstn_skipn (cnt (fun e : lent => key_lt ord (fst e) k) (pg_cont (lf_page l))) (pg_cont (lf_page l))) in Hb.
    rewrite <- cnt_firstn in Hb by (apply ent_closed; exact Hs).
    rewrite <- !app_assoc in Hb. rewrite app_assoc in Hb. apply bounded_app in Hb. apply Hb.
  Qed.

  Lemma count_in_range_spec : forall t mn mx, good (bt_h t) (bt_tree t) -> ss ord (map fst (bt_entries t)) ->
    inD D mn -> inD D mx -> bounded (bt_entries t) ->
    count_in_range cfg t mn mx = Some (exact (range ord mn mx (bt_entries t))).
  Proof.
    intros t mn mx Hg Hs H1 H2 Hb. unfold count_in_range. rewrite !get_rank_spec by assumption.
    remember (bt_entries t) as E eqn:EE. f_equal. unfold range, in_range.
    pose proof (ent_closed E mn Hs) as Cn. pose proof (ent_closed E mx Hs) as Cx.
    rewrite (cnt_firstn _ _ E Cn), (cnt_firstn _ _ E Cx).
    remember (cnt (fun e : lent => key_lt ord (fst e) mn) E) as a eqn:Ea. remember (cnt (fun e : lent => key_lt ord (fst e) mx) E) as b eqn:Eb.
    assert (La : (a <= length E)%nat) by (subst; apply cnt_le_length). assert (Lb : (b <= length E)%nat) by (subst; apply cnt_le_length).
    unfold exact at 1 2. cbn [ps_kvs]. rewrite !firstn_length_le by assumption.
    destruct (N.ltb_spec (N.of_nat a) (N.of_nat b)) as [Hlt|Hge].
    - assert (Hab : (a <= b)%nat) by lia.
      rewrite (filter_segment _ (fun e => key_lt ord (fst e) mn) (fun e => key_lt ord (fst e) mx) E Cn Cx) by lia.
      rewrite <- Ea, <- Eb. remember (firstn (b - a) (skipn a E)) as R eqn:ER.
      assert (EB : firstn b E = firstn a E ++ R).
      { subst R. replace b with (a + (b - a))%nat at 1 by lia. generalize (b - a)%nat. clear. revert a.
        induction E as [|x E IH]; intros [|a] d; cbn; try reflexivity; [now rewrite firstn_nil|]. f_equal. apply IH. }
      assert (HbB : bounded (firstn a E ++ R)).
      { rewrite <- EB. rewrite <- (firstn_skipn b E) in Hb. apply bounded_app in Hb. apply Hb. }
      rewrite EB. unfold exact. rewrite !app_length, !kbytes_app, !mbytes_app. cbn [ps_kbytes ps_mbytes].
      destruct HbB as (B1 & B2 & B3). rewrite ?app_length, kbytes_app, mbytes_app in *.
      assert (Lr : length R = (b - a)%nat) by (subst R; rewrite firstn_length_le; [reflexivity|rewrite skipn_length; lia]).
      unfold unknown_counter in *. change (2 ^ 32) with 4294967296.
      f_equal; [rewrite ?Lr, ?(firstn_length_le E La) in *; cbn [ps_kvs]; lia| |];
      match goal with |- (?x + ?y + ?c - ?x) mod ?c = ?y => replace (x + y + c - x) with (y + 1 * c) by lia; rewrite N.mod_add by lia; apply N.mod_small; lia end.
    - assert (Hall : filter (fun e : lent => negb (key_lt ord (fst e) mn) && key_lt ord (fst e) mx) E = []).
      { destruct (filter _ E) as [|x L] eqn:Ef; [reflexivity|exfalso].
        assert (Hx : In x (filter (fun e : lent => negb (key_lt ord (fst e) mn) && key_lt ord (fst e) mx) E)) by (rewrite Ef; now left).
        apply filter_In in Hx. destruct Hx as [Hx Hp]. apply andb_prop in Hp. destruct Hp as [Hp1 Hp2]. apply negb_true_iff in Hp1.
        apply In_nth_error in Hx. destruct Hx as (i & Hi).
        pose proof (cnt_nth _ _ E i x Cx Hi) as Y1. pose proof (cnt_nth _ _ E i x Cn Hi) as Y2. cbv beta in *.
        rewrite <- Eb in Y1. rewrite <- Ea in Y2. apply Y1 in Hp2. assert (Hia : (i < a)%nat) by lia. apply Y2 in Hia. congruence. }
      rewrite Hall. reflexivity.
  Qed.
End Rank.
