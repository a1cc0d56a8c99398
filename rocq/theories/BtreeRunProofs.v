(** * Whole insertions and sequences of insertions *)

From Coq Require Import List ZArith NArith Arith Bool Lia Sorting.Sorted.
From Verif Require Import Base Spec Codec Search SearchProofs DataProofs Page PageProofs PageBytes Btree
  BtreeLeafProofs BtreeProofs BtreeMapProofs.
Import ListNotations.
Local Open Scope N_scope.

Definition bt_entries (t : bt) : list lent := entries (bt_h t) (bt_tree t).
Definition bt_leaves (t : bt) : list leaf := leaves (bt_h t) (bt_tree t).
Definition bt_lookup (cfg : data_config) (t : bt) (k : bytes) : option (option message) :=
  btree_lookup cfg (bt_h t) (bt_tree t) k.

Section Run.
  Variable cfg : data_config.
  Variable ord : bytes -> bytes -> Z.
  Hypothesis TO : total_order ord.
  Variable D : bytes -> Prop.
  Hypothesis AG : agrees cfg ord D.
  Variables P K M : N.
  Hypothesis DK : forall k, blen k <= K -> D k.
  Hypothesis HK : 2 * K + P / 23 + 90 <= P / 4.
  Hypothesis HM : 2 * (6 + K + M) + 50 <= P.

  Notation klt := (klt ord). Notation kle := (kle ord). Notation below := (below ord). Notation ss := (ss ord).
  Notation inv := (inv ord P K M). Notation seg := (seg ord).

  Definition bt_ok (t : bt) : Prop :=
    match t with
    | Bt O root en =>
        let p := lf_page (root : leaf) in
        page_ok lsz P p /\ ss (map fst (pg_cont p)) /\ Forall (ent_ok K M) (pg_cont p) /\
        (pg_cont p = [] -> pg_next p = P) /\ chained en [lf_addr (root : leaf)]
    | Bt (S h) root en =>
        (exists lo, inv (S h) root lo None) /\ chained en (map lf_addr (leaves (S h) root))
    end.

  Lemma grow_root_spec : forall h (t : tree h) k0, first_key h t = Some k0 -> blen k0 <= K ->
    exists r : page (ient (tree h)), grow_root P h t = Some r /\ page_ok isz P r /\
      pg_cont r = [IEnt k0 unknown_stats t] /\ big_room K r.
  Proof.
    intros h t k0 Hf Hl. unfold grow_root. rewrite Hf.
    pose proof (P_360 P K M HK HM) as HP. pose proof (N.mul_div_le P 4 ltac:(lia)) as X4.
    assert (H37 : sizeof_btree_hdr <= P) by (unfold sizeof_btree_hdr; lia).
    assert (HK3 : 3 * K + 200 <= P).
    { revert X4 HK. generalize (P / 4), (P / 23). intros; lia. }
    destruct (set_index_end isz P (pg_empty P) (IEnt k0 unknown_stats t) (pg_empty_ok _ _ H37))
      as [[_ L]|(p' & E & Ok & C & _ & Nx & _)].
    - exfalso. change (P < off_end 1 + isz (IEnt k0 unknown_stats t)) in L.
      unfold off_end, sizeof_btree_hdr, isz, sizeof_index_entry in L. cbn [ie_key] in L. lia.
    - change (pg_num (pg_empty P : page (ient (tree h)))) with 0%nat in E.
      rewrite E. cbn [must]. exists p'. split; [reflexivity|]. split; [exact Ok|]. split; [exact C|].
      unfold big_room. rewrite <- cont_length, C, Nx. cbn [length app pg_cont pg_ents map pg_empty pg_next].
      unfold off_end, sizeof_btree_hdr, isz, sizeof_index_entry. cbn [ie_key]. lia.
  Qed.

  Lemma insert_index_root_spec : forall h (root : tree (S h)) lo k m en,
    inv (S h) root lo None -> blen k <= K -> blen (m_data m) <= M ->
    mergeable cfg M (ents (leaves (S h) root)) k m ->
    exists h' r' en' u s, insert_index_root cfg P h root k m en = Some (Bt (S h') r' en', u) /\
      inv (S h') r' s None /\ rel cfg k m u (leaves (S h) root) (leaves (S h') r') en en'.
  Proof.
    intros h root lo k m en (Rok & Rne & Rf & s0 & Hlo & Rseg) Hlk Hlm Hmg.
    change (tree (S h)) with (page (ient (tree h))) in root. unfold insert_index_root.
    destruct (find_pivot_posn cfg ord TO D AG K DK (inv h) root k s0 None Rseg Rne Rf (DK k Hlk) I) as (ci & f & Ef & Hpos). rewrite Ef.
    destruct ((ci <? 0)%Z || index_is_full P root) eqn:Ecase.
    2:{ apply orb_false_iff in Ecase. destruct Ecase as [E1 E2]. apply Z.ltb_ge in E1.
        destruct Hpos as [[-> _]|[_ Hpos]]; [lia|].
        destruct (insert_below_spec cfg ord TO D AG P K M HK HM DK h root (Z.to_nat ci) k m en s0 None) as (c2 & en' & u & Eb & Hd & Hrel); auto.
        { split; [exact Rok|]. split; [exact Rf|]. split; [now apply (not_full_room P K M HK HM)|exact Hpos]. }
        rewrite Eb. exists h, c2, en', u, s0. split; [reflexivity|]. split; [|exact Hrel].
        eapply done_inv; [exact Hd|]. now apply (kle_refl ord TO). }
    assert (Hmin : exists root1 need s1,
      (if (ci <? 0)%Z then match set_min_key root k with
                            | PAbort => None | PFalse => Some (root, true) | PTrue c => Some (c, false) end
       else Some (root, false)) = Some (root1, need) /\
      page_ok isz P root1 /\ Forall (key_fits K) (pg_cont root1) /\
      goal ord (inv h) need (pg_cont root1) (Z.to_nat ci) k s1 None /\
      leaves (S h) root1 = leaves (S h) root /\ (need = true -> index_is_full P root1 = true)).
    { destruct Hpos as [[-> Hks]|[Hn Hpos]].
      - change (-1 <? 0)%Z with true. cbv iota. change (Z.to_nat (-1)) with 0%nat.
        destruct (pg_cont root) as [|e0 B0] eqn:Ecc; [congruence|].
        pose proof (set_min_key_spec _ P root e0 B0 k Rok Ecc) as X.
        destruct (set_min_key root k) as [| |c1]; [destruct X| |].
        + exists root, true, s0. split; [reflexivity|]. rewrite Ecc. split; [exact Rok|]. split; [exact Rf|].
          split; [cbn [goal]; auto|]. split; [reflexivity|]. intros _.
          unfold index_is_full. apply N.ltb_lt. pose proof (K_div8 P K M HK HM). unfold off_end, sizeof_index_entry in *. lia.
        + destruct X as (Ok1 & C1 & _ & _). exists c1, false, k. split; [reflexivity|]. split; [exact Ok1|].
          rewrite C1. inversion Rf; subst. split; [constructor; [exact Hlk|assumption]|]. split; [|split; [|discriminate]].
          * cbn [goal]. cbn [BtreeProofs.seg] in Rseg. destruct Rseg as (m1 & Es & Hb & Hi & Rseg). injection Es as ->.
            exists [], (IEnt k (ie_stats e0) (ie_child e0)), B0, m1. cbn [app ie_key ie_child BtreeProofs.seg length].
            split; [reflexivity|]. split; [reflexivity|]. split; [reflexivity|].
            split; [eapply inv_weaken; [exact TO|exact Hi|now apply (klt_kle ord TO)]|]. split; [exact Rseg|].
            split; [now apply (kle_refl ord TO)|]. eapply kle_below; [exact TO|apply (klt_kle ord TO); exact Hks|exact Hb].
          * rewrite !leaves_S, C1, Ecc. reflexivity.
      - destruct (Z.ltb_spec ci 0); [lia|]. exists root, false, s0. split; [reflexivity|]. split; [exact Rok|].
        split; [exact Rf|]. split; [exact Hpos|]. split; [reflexivity|discriminate]. }
    destruct Hmin as (root1 & need & s1 & Emin & Ok1 & F1 & G1 & Lv1 & Hneed).
    cbv beta zeta.
    match goal with |- context [match ?x with Some _ => _ | None => None end] =>
      replace x with (Some (root1, need) : option (tree (S h) * bool)) by (symmetry; exact Emin) end.
    clear Emin Ecase Hpos Ef. rewrite <- Lv1 in Hmg.
    destruct (index_is_full P root1) eqn:Efull.
    - destruct (goal_seg ord TO _ _ _ _ _ _ _ G1) as [Sg1 Ne1].
      destruct (pg_cont root1) as [|e1 B1] eqn:Ec1; [congruence|].
      assert (Hk1 : first_key (S h) root1 = Some (ie_key e1)).
      { cbn [first_key]. rewrite Ec1. reflexivity. }
      assert (Hs1 : s1 = ie_key e1) by (apply (seg_head ord TO) in Sg1; congruence).
      assert (Hf1 : blen (ie_key e1) <= K) by (inversion F1; assumption).
      destruct (grow_root_spec (S h) root1 (ie_key e1) Hk1 Hf1) as (root2 & Eg & Ok2 & C2 & Big).
      rewrite Eg.
      assert (Hinv1 : inv (S h) root1 (ie_key e1) None).
      { cbn [BtreeProofs.inv]. split; [exact Ok1|]. rewrite Ec1. split; [discriminate|]. split; [exact F1|].
        exists s1. split; [rewrite Hs1; now apply (kle_refl ord TO)|exact Sg1]. }
      assert (G2 : goal ord (inv (S h)) need (pg_cont root2) 0 k (ie_key e1) None).
      { rewrite C2. destruct need; cbn [goal].
        - destruct G1 as (_ & G1 & _). split; [reflexivity|]. split; [now rewrite <- Hs1|]. split; [|discriminate].
          exists None. cbn [ie_key ie_child]. split; [reflexivity|]. split; [exact I|]. split; [exact Hinv1|reflexivity].
        - exists [], (IEnt (ie_key e1) unknown_stats root1), [], None. cbn [app ie_key ie_child BtreeProofs.seg length below].
          split; [reflexivity|]. split; [reflexivity|]. split; [reflexivity|]. split; [exact Hinv1|]. split; [reflexivity|].
          split; [|exact I]. apply (posn_le ord TO) in G1. now rewrite <- Hs1. }
      assert (F2 : Forall (key_fits K) (pg_cont root2)) by (rewrite C2; constructor; [exact Hf1|constructor]).
      assert (Hlow : exists lo2, kle lo2 (ie_key e1) /\ kle lo2 k).
      { destruct need; cbn [goal] in G1.
        - exists k. split; [apply (klt_kle ord TO); rewrite <- Hs1; tauto|now apply (kle_refl ord TO)].
        - exists s1. split; [rewrite Hs1; now apply (kle_refl ord TO)|now apply (posn_le ord TO) in G1]. }
      destruct Hlow as (lo2 & Hl1 & Hl2).
      destruct (finish_spec ord TO P K M HK HM (S h) root2 need 0 k (ie_key e1) None lo2 Ok2 F2 G2 Hlk Hl1 Hl2) as (c1 & s2 & Efin & Hrd & _ & Lv2 & _).
      { destruct need; [exact Big|now apply (big_room_room P K M HK HM)]. }
      change (tree (S (S h))) with (page (ient (tree (S h)))). rewrite Efin.
      assert (Hmc : mergeable cfg M (ents (leaves (S (S h)) c1)) k m).
      { rewrite Lv2, (leaves_S (S h) root2), C2.
        change (lvs [IEnt (ie_key e1) unknown_stats (root1 : tree (S h))]) with (leaves (S h) root1 ++ []).
        now rewrite app_nil_r. }
      clear Hmg. rename Hmc into Hmg.
      destruct (insert_below_spec cfg ord TO D AG P K M HK HM DK (S h) c1 0 k m en s2 None Hrd Hlk Hlm Hmg) as (r' & en' & u & Eb & Hd & Hrel).
      rewrite Eb. exists (S h), r', en', u, s2. split; [reflexivity|].
      split; [eapply done_inv; [exact Hd|now apply (kle_refl ord TO)]|].
      rewrite Lv2 in Hrel. rewrite (leaves_S (S h) root2), C2 in Hrel.
      change (lvs [IEnt (ie_key e1) unknown_stats (root1 : tree (S h))]) with (leaves (S h) root1 ++ []) in Hrel.
      rewrite app_nil_r, Lv1 in Hrel. exact Hrel.
    - destruct need; [specialize (Hneed eq_refl); congruence|]. cbn [goal] in G1.
      destruct (insert_below_spec cfg ord TO D AG P K M HK HM DK h root1 (Z.to_nat ci) k m en s1 None) as (c2 & en' & u & Eb & Hd & Hrel); auto.
      { split; [exact Ok1|]. split; [exact F1|]. split; [now apply (not_full_room P K M HK HM)|exact G1]. }
      rewrite Eb. exists h, c2, en', u, s1. split; [reflexivity|]. rewrite <- Lv1. split; [|exact Hrel].
      eapply done_inv; [exact Hd|]. now apply (kle_refl ord TO).
  Qed.

  Lemma env_rel_chained : forall l l' en en', chained en l -> env_rel l l' en en' -> chained en' l'.
  Proof.
    intros l l' en en' H [(-> & ->)|(X & a & Y & -> & -> & ->)]; [exact H|]. now apply chained_split.
  Qed.

  Hypothesis HMmax : M <= max_msg P.

  Lemma btree_insert_spec : forall t k m, bt_ok t ->
    blen k <= K -> blen (m_data m) <= M -> mergeable cfg M (bt_entries t) k m ->
    exists u t', btree_insert cfg P t k m = Some (BOk u, t') /\ bt_ok t' /\
      upserted cfg k m u (bt_entries t) (bt_entries t').
  Proof.
    intros [h root en] k m Hok Hlk Hlm Hmg. unfold btree_insert.
    pose proof (K_div8 P K M HK HM) as HK8.
    destruct (N.ltb_spec (max_key P) (blen k)); [lia|].
    destruct (N.ltb_spec (max_msg P) (blen (m_data m))); [lia|].
    assert (Hfin : forall h (root : tree (S h)) lo en, inv (S h) root lo None ->
      chained en (map lf_addr (leaves (S h) root)) ->
      mergeable cfg M (ents (leaves (S h) root)) k m ->
      exists u t', match insert_index_root cfg P h root k m en with None => None | Some (t', u) => Some (BOk u, t') end
                   = Some (BOk u, t') /\ bt_ok t' /\
        upserted cfg k m u (ents (leaves (S h) root)) (bt_entries t')).
    { intros h0 root0 lo0 en0 Hi Hc Hmg0.
      destruct (insert_index_root_spec h0 root0 lo0 k m en0 Hi Hlk Hlm Hmg0) as (h' & r' & en' & u & s & E & Hi' & Hrel).
      rewrite E. exists u, (Bt (S h') r' en'). split; [reflexivity|]. destruct Hrel as [R1 R2]. split.
      - split; [eauto|]. eapply env_rel_chained; eauto.
      - exact R1. }
    destruct h as [|h].
    - cbn [bt_ok] in Hok. change (tree 0) with leaf in root. destruct Hok as (Pok & Pss & Pf & Pe & Pc).
      unfold bt_entries in Hmg. cbn [bt_h bt_tree] in Hmg. unfold entries in Hmg. cbn [leaves flat_map] in Hmg.
      rewrite app_nil_r in Hmg.
      destruct (create_spec_spec cfg ord TO D AG K M DK (lf_page root) k m Pss Pf Hmg Hlk Hlm)
        as (sp & A & B & Ecs & Hsp & Hspk & HA & HB & Hspm & Hup & Hst).
      rewrite Ecs.
      destruct (target_good ord TO K M _ _ _ _ k Hsp Hspk Pss Pf HA HB Hlk Hspm) as (Tss & Tf & Tin).
      pose proof (try_perform_spec P (lf_page root) sp A B Pok Hsp) as Tp.
      destruct (try_perform (lf_page root) sp) as [| |p'] eqn:Etp.
      + destruct Tp.
      + (* the root splits *)
        assert (Hne : pg_cont (lf_page root) <> []).
        { intros Ec. assert (Hd : is_state sp <> StillExists /\ A = [] /\ B = []).
          { destruct Hsp as [_ Hsp]. rewrite Ec in Hsp. destruct (is_state sp).
            - symmetry in Hsp; apply app_eq_nil in Hsp; split; [discriminate|tauto].
            - destruct Hsp as [old Hsp]. destruct A; discriminate.
            - symmetry in Hsp. apply app_eq_nil in Hsp. split; [discriminate|tauto]. }
          destruct Hd as (Hd & HdA & HdB). rewrite HdA, HdB in *.
          destruct (try_perform_defragmented P (lf_page root) sp [] [] Pok Hsp Hd) as (p' & Ep & _).
          - cbn [app]. rewrite (Pe Ec). change (sum_sz lsz []) with 0. lia.
          - cbn [app length]. change (sum_sz lsz []) with 0. unfold off_end, sizeof_btree_hdr.
            assert (lsz (is_ent sp) <= 6 + K + M); [|lia]. apply (ent_ok_lsz P K M HK HM). rewrite Forall_forall in Tf. apply Tf. left. reflexivity.
          - congruence. }
        destruct (pg_cont (lf_page root)) as [|[k0 m0] es] eqn:Ec; [congruence|].
        set (child := Leaf (e_fresh en) (lf_page root)).
        assert (Hk0 : blen k0 <= K) by (inversion Pf as [|? ? [X _] _]; subst; exact X).
        destruct (grow_root_spec 0 child k0) as (root1 & Eg & Ok1 & C1 & _); auto.
        { cbn [first_key]. unfold child. cbn [lf_page]. rewrite Ec. reflexivity. }
        rewrite Eg.
        assert (Hil : inv 0 child k0 None).
        { split; [exact Pok|]. unfold child. cbn [lf_page]. rewrite Ec. split; [discriminate|]. split; [exact Pss|].
          split; [|exact Pf]. intros e He. split; [|exact I]. destruct He as [<-|He]; [now apply (kle_refl ord TO)|].
          cbn [map fst] in Pss. apply ss_cons in Pss. destruct Pss as [_ Pss]. apply (klt_kle ord TO), Pss. now apply in_map. }
        destruct (Hfin 0%nat root1 k0 (Env (upd_link (e_links en) (e_fresh en) (e_links en (lf_addr root))) (e_fresh en + 1)))
          as (u & t' & E & Ht' & Hup').
        { cbn [BtreeProofs.inv]. split; [exact Ok1|]. rewrite C1. split; [discriminate|].
          split; [constructor; [exact Hk0|constructor]|]. exists k0. split; [now apply (kle_refl ord TO)|].
          exists None. cbn [ie_key ie_child]. split; [reflexivity|]. split; [exact I|]. split; [exact Hil|reflexivity]. }
        { rewrite (leaves_S 0 root1), C1. cbn [lvs flat_map ie_child leaves app map].
          destruct Pc as (_ & Pc1 & Pc2 & Pc3). unfold child. cbn [lf_addr].
          split; [constructor; [intros []|constructor]|]. cbn [e_fresh e_links].
          split; [intros a [<-|[]]; lia|]. split; [lia|].
          intros X a Y EX. destruct X as [|x X]; [|destruct X; discriminate]. cbn [app] in EX. injection EX as <- <-.
          unfold upd_link. rewrite N.eqb_refl. rewrite (Pc3 [] (lf_addr root) [] eq_refl). reflexivity. }
        { rewrite (leaves_S 0 root1), C1. cbn [lvs flat_map ie_child leaves app map]. unfold ents. cbn [flat_map].
          rewrite app_nil_r. unfold child. cbn [lf_page]. rewrite Ec. exact Hmg. }
        exists u, t'. split; [exact E|]. split; [exact Ht'|].
        rewrite (leaves_S 0 root1), C1 in Hup'. exact Hup'.
      + destruct Tp as (Ok' & C' & _).
        eexists _, _. split; [reflexivity|]. split.
        * cbn [bt_ok lf_page lf_addr]. rewrite C'. split; [exact Ok'|]. split; [exact Tss|]. split; [exact Tf|].
          split; [intros X; destruct A; discriminate|exact Pc].
        * unfold bt_entries. cbn [bt_h bt_tree]. unfold entries. cbn [leaves flat_map lf_page].
          rewrite !app_nil_r, C'. exact Hup.
    - cbn [bt_ok] in Hok. destruct Hok as ((lo & Hi) & Hc). exact (Hfin h root lo en Hi Hc Hmg).
  Qed.

  Lemma btree_create_ok : bt_ok (btree_create P).
  Proof.
    unfold btree_create, bt_ok. cbn [lf_page lf_addr].
    pose proof (P_360 P K M HK HM). split; [apply pg_empty_ok; unfold sizeof_btree_hdr; lia|].
    split; [constructor|]. split; [constructor|]. split; [reflexivity|].
    split; [constructor; [intros []|constructor]|]. cbn [e_fresh e_links].
    split; [intros a [<-|[]]; lia|]. split; [lia|].
    intros X a Y EX. destruct X as [|x X]; [|destruct X; discriminate]. cbn [app] in EX. injection EX as <- <-. reflexivity.
  Qed.

  Lemma bt_ok_sorted : forall t, bt_ok t -> ss (map fst (bt_entries t)).
  Proof.
    intros [[|h] root en] H; cbn [bt_ok] in H; unfold bt_entries; cbn [bt_h bt_tree].
    - unfold entries. cbn [leaves flat_map]. rewrite app_nil_r. tauto.
    - destruct H as ((lo & Hi) & _). now apply (inv_good ord TO P K M (S h) root lo None).
  Qed.

  Lemma bt_ok_chained : forall t, bt_ok t -> chained (bt_env t) (map lf_addr (bt_leaves t)).
  Proof.
    intros [[|h] root en] H; cbn [bt_ok] in H; unfold bt_leaves; cbn [bt_h bt_tree bt_env]; tauto.
  Qed.

  Lemma bt_lookup_spec : forall t k, bt_ok t -> D k -> bt_lookup cfg t k = Some (map_get (bt_entries t) k).
  Proof.
    intros t k H HDk. pose proof (bt_ok_sorted t H) as Hs. destruct t as [[|h] root en]; cbn [bt_ok] in H.
    - unfold bt_lookup, bt_entries in *. cbn [bt_h bt_tree] in *. unfold btree_lookup. cbn [lookup_leaf].
      unfold entries in *. cbn [leaves flat_map] in *. rewrite app_nil_r in *.
      destruct (find_tuple_spec cfg ord TO D AG K M DK (lf_page root) k Hs ltac:(tauto) HDk) as [(m & i & -> & -> & X)|(i & -> & X)].
      + f_equal. symmetry. now apply (map_get_in ord TO).
      + f_equal. symmetry. now apply map_get_none.
    - destruct H as ((lo & Hi) & _). exact (lookup_spec cfg ord TO D AG P K M DK (S h) root lo k Hi HDk).
  Qed.
End Run.

(** ** Sequences of insertions *)

(** Insert the writes in order, collecting the results. *)
Fixpoint insert_all (cfg : data_config) (P : N) (t : bt) (ops : list (bytes * message))
  : option (list bstatus * bt) :=
  match ops with
  | [] => Some ([], t)
  | (k, m) :: r =>
      match btree_insert cfg P t k m with
      | None => None
      | Some (s, t1) => match insert_all cfg P t1 r with
                        | None => None
                        | Some (ss, t2) => Some (s :: ss, t2)
                        end
      end
  end.

(** The writes that are within the inline limits. *)
Definition accepted (P : N) (o : bytes * message) : bool :=
  (blen (fst o) <=? P / 8) && (blen (m_data (snd o)) <=? 35 * P / 100).

(** The messages written to [k], oldest first. *)
Definition messages_for (k : bytes) (ops : list (bytes * message)) : list message :=
  map snd (filter (fun o => if list_eq_dec N.eq_dec (fst o) k then true else false) ops).

(** Their merge. *)
Definition merged (cfg : data_config) (k : bytes) (ms : list message) : option message :=
  fold_left (fun acc m => match acc with
                          | None => Some m
                          | Some old => data_merge_tuples cfg k old m
                          end) ms None.

(** What each insertion reports, given the writes before it. *)
Fixpoint reports (P : N) (pre ops : list (bytes * message)) : list bstatus :=
  match ops with
  | [] => []
  | o :: r =>
      if accepted P o
      then BOk (match messages_for (fst o) pre with [] => true | _ => false end)
             :: reports P (pre ++ [o]) r
      else BBadParam :: reports P pre r
  end.

Lemma messages_for_app : forall k a b, messages_for k (a ++ b) = messages_for k a ++ messages_for k b.
Proof. intros. unfold messages_for. now rewrite filter_app, map_app. Qed.

Lemma messages_for_one : forall k k' m, messages_for k' [(k, m)] = if beqb k k' then [m] else [].
Proof. intros. unfold messages_for, beqb. cbn [filter fst]. destruct (list_eq_dec N.eq_dec k k'); reflexivity. Qed.

Lemma merged_snoc : forall cfg k ms m, merged cfg k (ms ++ [m]) =
  match merged cfg k ms with None => Some m | Some old => data_merge_tuples cfg k old m end.
Proof. intros. unfold merged. now rewrite fold_left_app. Qed.

Lemma messages_for_in : forall k m ops, In m (messages_for k ops) -> In (k, m) ops.
Proof.
  intros k m ops H. unfold messages_for in H. apply in_map_iff in H. destruct H as ([k' m'] & E & H).
  apply filter_In in H. cbn [fst snd] in *. destruct H as [H X]. subst m'.
  destruct (list_eq_dec N.eq_dec k' k); [now subst k'|discriminate].
Qed.

(** Merging allowed messages never fails. *)
Lemma merged_defined : forall cfg k ms, Forall (msg_allowed cfg) ms -> ms <> [] ->
  exists m, merged cfg k ms = Some m /\ msg_allowed cfg m.
Proof.
  intros cfg k ms. induction ms as [|m ms IH] using rev_ind; intros H Hne; [congruence|].
  rewrite merged_snoc. rewrite Forall_app in H. destruct H as [H1 H2]. inversion H2; subst.
  destruct ms as [|a ms].
  - exists m. auto.
  - destruct (IH H1 ltac:(discriminate)) as (o & -> & Ho).
    destruct (data_merge_defined cfg k o m H3) as (m' & Em). exists m'. split; [exact Em|].
    exact (data_merge_allowed cfg k o m m' H3 Em).
Qed.

Lemma merged_meaning : forall cfg k ms m v, lawful_merge cfg -> merged cfg k ms = Some m ->
  Forall (msg_allowed cfg) ms -> apply_msg cfg k m v = replay cfg k ms v.
Proof.
  intros cfg k ms. induction ms as [|x ms IH] using rev_ind; intros m v L E H; [discriminate|].
  rewrite merged_snoc in E. rewrite Forall_app in H. destruct H as [H1 H2]. inversion H2; subst.
  unfold replay. rewrite fold_left_app. cbn [fold_left]. fold (replay cfg k ms v).
  destruct ms as [|a ms].
  - cbn in E. injection E as ->. reflexivity.
  - destruct (merged_defined cfg k (a :: ms) H1 ltac:(discriminate)) as (o & Eo & Ho).
    rewrite Eo in E. rewrite (data_merge_meaning cfg k o x m v L E). f_equal. now apply IH.
Qed.

Lemma merged_nil_iff : forall cfg k ms, Forall (msg_allowed cfg) ms -> merged cfg k ms = None <-> ms = [].
Proof.
  intros cfg k ms H. split; [|intros ->; reflexivity]. intros E. destruct ms as [|a ms]; [reflexivity|].
  destruct (merged_defined cfg k (a :: ms) H ltac:(discriminate)) as (o & Eo & _). congruence.
Qed.

Section Seq.
  Variable cfg : data_config.
  Variable ord : bytes -> bytes -> Z.
  Hypothesis TO : total_order ord.
  Variable D : bytes -> Prop.
  Hypothesis AG : agrees cfg ord D.
  Variables P K : N.
  Hypothesis DK : forall k, blen k <= K -> D k.
  Hypothesis HK : 2 * K + P / 23 + 90 <= P / 4.
  Notation M := (max_msg P).

  Lemma HM_of_HK : 2 * (6 + K + M) + 50 <= P.
  Proof.
    unfold max_msg. pose proof (N.mul_div_le P 4 ltac:(lia)) as X. pose proof (N.mul_div_le (35 * P) 100 ltac:(lia)) as Y.
    pose proof (N.mul_succ_div_gt P 23 ltac:(lia)) as Z.
    revert HK X Y Z. generalize (P / 4), (P / 23), (35 * P / 100). intros; lia.
  Qed.

  Lemma K_le_max : K <= P / 8.
  Proof. exact (K_div8 P K M HK HM_of_HK). Qed.

  Definition seq_ok (pre : list (bytes * message)) (t : bt) : Prop :=
    bt_ok ord P K M t /\ forall k, map_get (bt_entries t) k = merged cfg k (messages_for k pre).

  Lemma insert_all_spec : forall ops pre t,
    seq_ok pre t ->
    Forall (fun o => msg_allowed cfg (snd o)) (pre ++ ops) ->
    Forall (fun o => accepted P o = true -> blen (fst o) <= K) ops ->
    (forall a b k m, ops = a ++ b -> merged cfg k (messages_for k (pre ++ filter (accepted P) a)) = Some m ->
                     blen (m_data m) <= M) ->
    exists t', insert_all cfg P t ops = Some (reports P pre ops, t') /\
               seq_ok (pre ++ filter (accepted P) ops) t'.
  Proof.
    pose proof HM_of_HK as HM. pose proof K_le_max as HK8.
    induction ops as [|[k m] ops IH]; intros pre t Hs Hal HF Hfit.
    - exists t. cbn [insert_all reports filter]. rewrite app_nil_r. auto.
    - cbn [insert_all reports filter]. destruct (accepted P (k, m)) eqn:Ea.
      + assert (Hk : blen k <= K) by (inversion HF; subst; auto).
        assert (Hm : blen (m_data m) <= M).
        { unfold accepted in Ea. apply andb_true_iff in Ea. destruct Ea as [_ Ea]. apply N.leb_le in Ea. exact Ea. }
        assert (Ham : msg_allowed cfg m).
        { rewrite Forall_app in Hal. destruct Hal as [_ Hal]. inversion Hal; subst. assumption. }
        destruct Hs as [Hok Hmap].
        assert (Hsnoc : forall k', merged cfg k' (messages_for k' (pre ++ [(k, m)])) =
                 if beqb k k' then match map_get (bt_entries t) k with
                                   | None => Some m | Some old => data_merge_tuples cfg k old m end
                 else map_get (bt_entries t) k').
        { intros k'. rewrite messages_for_app, messages_for_one. destruct (beqb k k') eqn:Eb.
          - apply beqb_true in Eb. subst k'. rewrite merged_snoc, Hmap. reflexivity.
          - rewrite app_nil_r, Hmap. reflexivity. }
        assert (Hmg : mergeable cfg M (bt_entries t) k m).
        { intros old Ho. apply (map_get_in ord TO) in Ho; [|now apply (bt_ok_sorted ord TO P K M)].
          destruct (data_merge_defined cfg k old m Ham) as (m' & Em). exists m'. split; [exact Em|].
          apply (Hfit [(k, m)] ops k m' eq_refl). cbn [filter]. rewrite Ea. rewrite Hsnoc.
          assert (Eb : beqb k k = true) by (now apply beqb_true). rewrite Eb, Ho. exact Em. }
        destruct (btree_insert_spec cfg ord TO D AG P K M DK HK HM ltac:(lia) t k m Hok Hk Hm Hmg) as (u & t1 & E & Hok1 & Hup).
        rewrite E.
        assert (Hnew : seq_ok (pre ++ [(k, m)]) t1).
        { split; [exact Hok1|]. intros k'. rewrite Hsnoc.
          now apply (map_get_upserted cfg ord TO k m u _ _ k'); [apply (bt_ok_sorted ord TO P K M)|apply (bt_ok_sorted ord TO P K M)|]. }
        destruct (IH (pre ++ [(k, m)]) t1 Hnew) as (t' & E' & Hs').
        { rewrite <- app_assoc. exact Hal. }
        { inversion HF; assumption. }
        { intros a b k' m' Eq Em. apply (Hfit ((k, m) :: a) b k' m'); [now rewrite Eq|].
          cbn [filter]. rewrite Ea. rewrite <- app_assoc in Em. exact Em. }
        rewrite E'. exists t'. split.
        * do 3 f_equal. f_equal.
          destruct (map_get_upserted cfg ord TO k m u _ _ k (bt_ok_sorted ord TO P K M _ Hok) (bt_ok_sorted ord TO P K M _ Hok1) Hup) as [Hu _].
          rewrite Hmap in Hu. rewrite merged_nil_iff in Hu.
          -- cbn [fst]. destruct (messages_for k pre); destruct u; try reflexivity.
             ++ exfalso. destruct Hu as [_ Hu]. specialize (Hu eq_refl). discriminate.
             ++ exfalso. destruct Hu as [Hu _]. specialize (Hu eq_refl). discriminate.
          -- rewrite Forall_forall in *. intros x Hx. apply messages_for_in in Hx.
             apply (Hal (k, x)). apply in_or_app. now left.
        * rewrite <- app_assoc in Hs'. exact Hs'.
      + assert (Hb : btree_insert cfg P t k m = Some (BBadParam, t)).
        { unfold btree_insert. unfold accepted in Ea. apply andb_false_iff in Ea. cbn [fst snd] in Ea. unfold max_key, max_msg.
          destruct (N.ltb_spec (P / 8) (blen k)); [reflexivity|].
          destruct (N.ltb_spec (35 * P / 100) (blen (m_data m))); [reflexivity|].
          exfalso. destruct Ea as [Ea|Ea]; apply N.leb_gt in Ea; lia. }
        rewrite Hb. destruct (IH pre t Hs) as (t' & E' & Hs').
        { rewrite Forall_app in *. destruct Hal as [A B]. inversion B; subst. auto. }
        { inversion HF; assumption. }
        { intros a b k' m' Eq Em. apply (Hfit ((k, m) :: a) b k' m'); [now rewrite Eq|].
          cbn [filter]. rewrite Ea. exact Em. }
        rewrite E'. exists t'. auto.
  Qed.

  Lemma seq_ok_create : seq_ok [] (btree_create P).
  Proof.
    split; [apply (btree_create_ok ord P K M HK HM_of_HK); lia|]. intros k. reflexivity.
  Qed.
End Seq.
