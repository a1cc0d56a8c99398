(** * The B-tree as a map: lookups, the root, sequences of insertions *)

From Coq Require Import List ZArith NArith Arith Bool Lia Sorting.Sorted.
From Verif Require Import Base Spec Codec Search SearchProofs DataProofs Page PageProofs PageBytes Btree BtreeLeafProofs BtreeProofs.
Import ListNotations.
Local Open Scope N_scope.

Definition beqb (a b : bytes) : bool := if list_eq_dec N.eq_dec a b then true else false.
Lemma beqb_true : forall a b, beqb a b = true <-> a = b.
Proof. intros. unfold beqb. destruct (list_eq_dec N.eq_dec a b); split; congruence. Qed.

Section Map.
  Variable cfg : data_config.
  Variable ord : bytes -> bytes -> Z.
  Hypothesis TO : total_order ord.
  Variable D : bytes -> Prop.
  Hypothesis AG : agrees cfg ord D.
  Variables P K M : N.
  Hypothesis DK : forall k, blen k <= K -> D k.

  Notation klt := (klt ord). Notation kle := (kle ord). Notation below := (below ord). Notation ss := (ss ord).
  Notation inv := (inv ord P K M). Notation seg := (seg ord).

  (** ** Contents are sorted *)
  Lemma ents_app : forall a b, ents (a ++ b) = ents a ++ ents b.
  Proof. intros. apply flat_map_app. Qed.

  Definition good (l : list lent) (lo : bytes) (hi : option bytes) : Prop :=
    ss (map fst l) /\ (forall e, In e l -> kle lo (fst e) /\ below (fst e) hi) /\ Forall (ent_ok K M) l.

  Lemma inv_good : forall h t lo hi, inv h t lo hi -> good (entries h t) lo hi.
  Proof.
    induction h as [|h IH]; intros t lo hi H.
    - destruct H as (_ & _ & H1 & H2 & H3). unfold entries. cbn [leaves flat_map]. rewrite app_nil_r.
      split; [exact H1|]. split; assumption.
    - destruct H as (_ & _ & _ & s0 & Hle & Hs).
      assert (X : forall es lo' hi', seg (inv h) es lo' hi' -> 
        match es with [] => True | _ => exists s, lo' = Some s /\ good (ents (lvs es)) s hi' end).
      { induction es as [|e es IHe]; intros lo' hi' Hs'; [exact I|].
        cbn [BtreeProofs.seg] in Hs'. destruct Hs' as (mid & -> & Hb & Hi & Hs').
        exists (ie_key e). split; [reflexivity|].
        change (ents (lvs (e :: es))) with (ents (leaves h (ie_child e) ++ lvs es)). rewrite ents_app.
        destruct (IH _ _ _ Hi) as (G1 & G2 & G3). change (ents (leaves h (ie_child e))) with (entries h (ie_child e)).
        pose proof (seg_keys ord TO (inv h) es mid hi' Hs') as SK. specialize (IHe mid hi' Hs').
        destruct es as [|e2 es].
        - cbn in Hs'. subst mid. change (ents (lvs [])) with (@nil lent). rewrite app_nil_r. split; [exact G1|]. split; assumption.
        - destruct IHe as (s & -> & E1 & E2 & E3). destruct (SK ltac:(discriminate)) as (s' & Es & _ & _ & Hsb).
          injection Es as <-. cbn in Hb.
          split; [|split].
          + rewrite map_app. apply ss_app. split; [exact G1|]. split; [exact E1|]. intros x y Hx Hy.
            apply in_map_iff in Hx. destruct Hx as (a & <- & Ha). apply in_map_iff in Hy. destruct Hy as (b & <- & Hb').
            destruct (G2 a Ha) as [_ A2]. destruct (E2 b Hb') as [B1 _]. cbn in A2. eapply klt_kle_trans; eauto.
          + intros x Hx. apply in_app_or in Hx. destruct Hx as [Hx|Hx].
            * destruct (G2 x Hx) as [A1 A2]. split; [exact A1|]. cbn in A2. eapply kle_below; [exact TO| |exact Hsb].
              now apply klt_kle.
            * destruct (E2 x Hx) as [B1 B2]. split; [|exact B2]. eapply kle_trans; [exact TO| |exact B1]. now apply klt_kle.
          + rewrite Forall_app. auto. }
      specialize (X _ _ _ Hs). change (entries (S h) t) with (ents (lvs (pg_cont (t : page (ient (tree h)))))).
      destruct (pg_cont (t : page (ient (tree h)))) as [|e es].
      + change (ents (lvs [])) with (@nil lent). split; [constructor|]. split; [intros ? []|constructor].
      + destruct X as (s & Es & G1 & G2 & G3). injection Es as <-. split; [exact G1|]. split; [|exact G3].
        intros x Hx. destruct (G2 x Hx). split; [|assumption]. eapply kle_trans; eauto.
  Qed.

  Lemma seg_good : forall h es s hi, seg (inv h) es (Some s) hi ->
    (forall e, In e (ents (lvs es)) -> kle s (fst e) /\ below (fst e) hi).
  Proof.
    intros h es. induction es as [|a es IH]; intros s hi H e He; [destruct He|].
    cbn [BtreeProofs.seg] in H. destruct H as (mid & Es & Hb & Hi & Hs). injection Es as ->.
    change (lvs (a :: es)) with (leaves h (ie_child a) ++ lvs es) in He. rewrite ents_app in He.
    pose proof (seg_keys ord TO (inv h) es mid hi Hs) as SK.
    apply in_app_or in He. destruct He as [He|He].
    - destruct (inv_good h _ _ _ Hi) as (_ & G & _). destruct (G e He) as [G1 G2]. split; [exact G1|].
      destruct es as [|b es]; [cbn in Hs; now subst mid|].
      destruct (SK ltac:(discriminate)) as (s' & -> & _ & _ & Hsb). eapply kle_below; [exact TO| |exact Hsb].
      now apply klt_kle.
    - destruct es as [|b es]; [destruct He|].
      destruct (SK ltac:(discriminate)) as (s' & -> & _ & _ & Hsb). destruct (IH _ _ Hs e He) as [G1 G2].
      split; [|exact G2]. eapply kle_trans; [exact TO| |exact G1]. now apply klt_kle.
  Qed.

  (** ** Lookup *)
  Lemma lookup_leaf_spec : forall h t lo hi k, inv h t lo hi -> D k -> below k hi ->
    exists l, lookup_leaf cfg h t (KUser k) = Some l /\ ss (map fst (pg_cont (lf_page l))) /\
      Forall (ent_ok K M) (pg_cont (lf_page l)) /\
      (forall m, In (k, m) (entries h t) <-> In (k, m) (pg_cont (lf_page l))).
  Proof.
    induction h as [|h IH]; intros t lo hi k H HDk Hk.
    - exists t. split; [reflexivity|]. destruct H as (_ & _ & H & _ & H0). split; [exact H|]. split; [exact H0|].
      intros m. unfold entries. cbn [leaves flat_map]. now rewrite app_nil_r.
    - destruct H as (Hok & Hne & Hf & s0 & Hle & Hs). cbn [lookup_leaf]. unfold descend_idx.
      destruct (find_pivot_posn cfg ord TO D AG K DK (inv h) (t : page (ient (tree h))) k s0 hi Hs Hne Hf HDk Hk) as (i & f & Ef & Hp).
      rewrite Ef. unfold clamp0.
      change (entries (S h) t) with (ents (lvs (pg_cont (t : page (ient (tree h)))))).
      destruct Hp as [[-> Hks]|[Hi (A & e & B & mid & Ec & Eci & HA & HI & HB & Hek & Hkm)]].
      + change (Z.to_nat (-1)) with 0%nat. unfold get_child.
        destruct (pg_cont (t : page (ient (tree h)))) as [|e es] eqn:Ec; [congruence|]. cbn [nth_error].
        cbn [BtreeProofs.seg] in Hs. destruct Hs as (mid & Es & Hb & Hi & Hs). injection Es as ->.
        destruct (IH (ie_child e) (ie_key e) mid k Hi HDk) as (l & El & Hss & Hfe & Hin).
        { eapply kle_below; [exact TO|apply (klt_kle ord TO); exact Hks|exact Hb]. }
        exists l. split; [exact El|]. split; [exact Hss|]. split; [exact Hfe|]. intros m. rewrite <- Hin.
        change (lvs (e :: es)) with (leaves h (ie_child e) ++ lvs es). rewrite ents_app, in_app_iff.
        split; [intros [X|X]; [exact X|exfalso]|auto].
        destruct es as [|b es]; [destruct X|]. pose proof (seg_head ord TO _ _ _ _ _ Hs) as ->.
        destruct (seg_good _ _ _ _ Hs _ X) as [Y _]. cbn in Y, Hb.
        apply (klt_irrefl ord TO k). eapply klt_kle_trans; [exact TO| |exact Y]. eapply klt_trans; eauto.
      + rewrite Eci. rewrite (get_child_mid _ (t : page (ient (tree h))) A e B Ec).
        destruct (IH (ie_child e) (ie_key e) mid k HI HDk Hkm) as (l & El & Hss & Hfe & Hin).
        exists l. split; [exact El|]. split; [exact Hss|]. split; [exact Hfe|]. intros m. rewrite <- Hin, Ec, lvs_app, ents_app, in_app_iff.
        change (lvs (e :: B)) with (leaves h (ie_child e) ++ lvs B). rewrite ents_app, in_app_iff.
        split; [|auto]. intros [X|[X|X]]; [exfalso|exact X|exfalso].
        * destruct (seg_good _ _ _ _ HA _ X) as [_ Y]. cbn in Y.
          apply (klt_irrefl ord TO k). eapply klt_kle_trans; eauto.
        * destruct B as [|b B]; [destruct X|]. pose proof (seg_head ord TO _ _ _ _ _ HB) as ->.
          destruct (seg_good _ _ _ _ HB _ X) as [Y _]. cbn in Y, Hkm.
          apply (klt_irrefl ord TO k). eapply klt_kle_trans; eauto.
  Qed.

  Lemma find_tuple_spec : forall (p : page lent) k, ss (map fst (pg_cont p)) -> Forall (ent_ok K M) (pg_cont p) -> D k ->
    (exists m i, find_tuple cfg p (KUser k) = Some (i, true) /\ nth_error (pg_cont p) (Z.to_nat i) = Some (k, m) /\ In (k, m) (pg_cont p)) \/
    (exists i, find_tuple cfg p (KUser k) = Some (i, false) /\ forall m, ~ In (k, m) (pg_cont p)).
  Proof.
    intros p k H HF HDk. unfold find_tuple, leaf_keys.
    assert (Hmap : map (fun e : lent => KUser (fst e)) (pg_cont p) = map KUser (map fst (pg_cont p)))
      by (rewrite map_map; reflexivity).
    assert (HD : Forall D (map fst (pg_cont p))).
    { rewrite Forall_forall in *. intros x Hx. apply in_map_iff in Hx. destruct Hx as (e & <- & He). apply DK, HF, He. }
    rewrite Hmap. destruct (find_cut cfg ord TO D AG _ k H HD HDk) as [(A & B & El & Ef & HA & HB)|(A & B & El & Ef & HA & HB)]; rewrite Ef.
    - left. destruct (map_fst_cut _ _ _ El) as (A' & B1 & Ec & EA & EB).
      destruct B1 as [|[k0 m] B']; [discriminate|]. cbn in EB. injection EB as -> EB.
      exists m, (Z.of_nat (length A)). split; [reflexivity|]. rewrite Nat2Z.id, <- EA, map_length, Ec, nth_error_app2, Nat.sub_diag by lia.
      split; [reflexivity|]. apply in_or_app. right. now left.
    - right. exists (Z.of_nat (length A) - 1)%Z. split; [reflexivity|]. intros m X.
      apply (in_map fst) in X. cbn in X. rewrite El in X. apply in_app_or in X.
      destruct X as [X|X]; [apply HA in X|apply HB in X]; now apply (klt_irrefl ord TO) in X.
  Qed.

  Lemma ss_unique : forall (l : list lent) k m m', ss (map fst l) -> In (k, m) l -> In (k, m') l -> m = m'.
  Proof.
    intros l k m m' H. induction l as [|[a x] l IH]; intros H1 H2; [destruct H1|].
    cbn [map fst] in H. apply ss_cons in H. destruct H as [H H'].
    assert (X : forall y, In (a, y) l -> False).
    { intros y Hy. apply (in_map fst) in Hy. apply H' in Hy. now apply (klt_irrefl ord TO) in Hy. }
    destruct H1 as [H1|H1], H2 as [H2|H2].
    - congruence.
    - injection H1 as <- <-. exfalso; eauto.
    - injection H2 as <- <-. exfalso; eauto.
    - auto.
  Qed.

  (** A sorted list of entries as a map. *)
  Fixpoint map_get (l : list lent) (k : bytes) : option message :=
    match l with
    | [] => None
    | (a, m) :: r => if beqb a k then Some m else map_get r k
    end.
  Lemma map_get_in : forall l k m, ss (map fst l) -> (map_get l k = Some m <-> In (k, m) l).
  Proof.
    induction l as [|[a x] l IH]; intros k m H; cbn [map_get]; [split; [discriminate|intros []]|].
    cbn [map fst] in H. apply ss_cons in H. destruct H as [H H'].
    destruct (beqb a k) eqn:E.
    - apply beqb_true in E. subst a. split; [intros X; injection X as ->; now left|].
      intros [X|X]; [congruence|]. apply (in_map fst) in X. apply H' in X. now apply (klt_irrefl ord TO) in X.
    - rewrite (IH k m H). split; [intros; now right|]. intros [X|X]; [|exact X].
      injection X as -> ->. assert (beqb k k = true) by (now apply beqb_true). congruence.
  Qed.
  Lemma map_get_none : forall l k, map_get l k = None <-> forall m, ~ In (k, m) l.
  Proof.
    induction l as [|[a x] l IH]; intros k; cbn [map_get].
    - split; [intros _ m []|reflexivity].
    - destruct (beqb a k) eqn:E.
      + apply beqb_true in E. subst a. split; [discriminate|]. intros X. exfalso. apply (X x). now left.
      + rewrite IH. split; intros H m X.
        * destruct X as [X|X]; [|now apply (H m)]. injection X as -> ->.
          assert (beqb k k = true) by (now apply beqb_true). congruence.
        * apply (H m). now right.
  Qed.

  Lemma lookup_spec : forall h t lo k, inv h t lo None -> D k ->
    btree_lookup cfg h t k = Some (map_get (entries h t) k).
  Proof.
    intros h t lo k H HDk. destruct (lookup_leaf_spec h t lo None k H HDk I) as (l & El & Hss & Hfe & Hin).
    unfold btree_lookup. rewrite El. destruct (inv_good _ _ _ _ H) as (G & _).
    destruct (find_tuple_spec (lf_page l) k Hss Hfe HDk) as [(m & i & -> & -> & X)|(i & -> & X)].
    - f_equal. symmetry. apply map_get_in; [exact G|]. now apply Hin.
    - f_equal. symmetry. apply map_get_none. intros m Y. apply Hin in Y. now apply (X m).
  Qed.

  Lemma map_get_upserted : forall k m u l l' k', ss (map fst l) -> ss (map fst l') ->
    upserted cfg k m u l l' ->
    (u = true <-> map_get l k = None) /\
    map_get l' k' = (if beqb k k' then
                       match map_get l k with None => Some m | Some old => data_merge_tuples cfg k old m end
                     else map_get l k').
  Proof.
    intros k m u l l' k' Hs Hs' (A & B & H).
    assert (Hother : forall x y y' A B, beqb x k' = false -> map_get (A ++ (x, y) :: B) k' = map_get (A ++ (x, y') :: B) k').
    { intros x y y' A0 B0 Hb. induction A0 as [|[a b] A0 IH]; cbn [app map_get]; [now rewrite Hb|]. destruct (beqb a k'); auto. }
    assert (Hother2 : forall x y A B, beqb x k' = false -> map_get (A ++ (x, y) :: B) k' = map_get (A ++ B) k').
    { intros x y A0 B0 Hb. induction A0 as [|[a b] A0 IH]; cbn [app map_get]; [now rewrite Hb|]. destruct (beqb a k'); auto. }
    destruct H as [(-> & -> & ->)|(-> & old & m' & -> & Em & ->)].
    - assert (Hnone : map_get (A ++ B) k = None).
      { apply map_get_none. intros x Hx. rewrite map_app in Hs'. cbn [map fst] in Hs'.
        apply ss_app in Hs'. destruct Hs' as (S1 & S2 & S3). apply ss_cons in S2. destruct S2 as [S2 S4].
        apply in_app_or in Hx. destruct Hx as [Hx|Hx]; apply (in_map fst) in Hx; cbn in Hx.
        - specialize (S3 k k Hx (or_introl eq_refl)). now apply (klt_irrefl ord TO) in S3.
        - apply S4 in Hx. now apply (klt_irrefl ord TO) in Hx. }
      split; [tauto|]. destruct (beqb k k') eqn:E.
      + apply beqb_true in E. subst k'. rewrite Hnone. apply map_get_in; [exact Hs'|]. apply in_or_app. right. now left.
      + now apply Hother2.
    - assert (Hold : map_get (A ++ (k, old) :: B) k = Some old).
      { apply map_get_in; [exact Hs|]. apply in_or_app. right. now left. }
      split; [rewrite Hold; split; discriminate|]. destruct (beqb k k') eqn:E.
      + apply beqb_true in E. subst k'. rewrite Hold, Em. apply map_get_in; [exact Hs'|]. apply in_or_app. right. now left.
      + now apply Hother.
  Qed.

  (** ** The leaf chain *)
  Definition chained (en : env) (l : list N) : Prop :=
    NoDup l /\ (forall a, In a l -> 0 < a < e_fresh en) /\ 0 < e_fresh en /\
    (forall X a Y, l = X ++ a :: Y -> e_links en a = (last X 0, hd 0 Y)).

  Lemma last_in : forall (X : list N) d, X <> [] -> In (last X d) X.
  Proof.
    intros X d H. destruct (exists_last H) as (Y & a & ->). rewrite last_last. apply in_or_app. right. now left.
  Qed.

  Lemma last_mid : forall (X : list N) a Y, last (X ++ a :: Y) 0 = last (a :: Y) 0.
  Proof.
    intros X a Y. induction X as [|y X IH]; [reflexivity|].
    change ((y :: X) ++ a :: Y) with (y :: (X ++ a :: Y)). rewrite <- IH. destruct X; reflexivity.
  Qed.

  Lemma chained_split : forall en X a Y, chained en (X ++ a :: Y) ->
    chained (fst (link_split en a)) (X ++ a :: e_fresh en :: Y).
  Proof.
    intros en X a Y (Hnd & Hpos & Hfr & Hl). pose proof (Hl X a Y eq_refl) as Ha.
    assert (Hf : ~ In (e_fresh en) (X ++ a :: Y)) by (intros H; apply Hpos in H; lia).
    unfold link_split. rewrite Ha. cbn [fst].
    remember (e_fresh en) as b eqn:Eb. remember (last X 0) as pa eqn:Epa. remember (hd 0 Y) as na eqn:Ena.
    assert (Hnd' : NoDup (X ++ a :: b :: Y)).
    { change (X ++ a :: b :: Y) with (X ++ [a] ++ b :: Y). rewrite app_assoc. apply NoDup_Add with (a := b) (l := (X ++ [a]) ++ Y).
      - apply Add_app.
      - rewrite <- app_assoc. split; [exact Hnd|exact Hf]. }
    split; [exact Hnd'|]. cbn [e_fresh e_links]. split; [|split; [lia|]].
    - intros x Hx. assert (Hx' : x = b \/ In x (X ++ a :: Y)).
      { rewrite in_app_iff in *. cbn in *. intuition. }
      destruct Hx' as [->|Hx']; [lia|]. apply Hpos in Hx'. lia.
    - intros X' x Y' E.
      assert (Hab : a <> b) by (intros ->; apply Hf, in_or_app; right; now left).
      assert (HnaX : forall z, In z X -> z <> na \/ na = 0).
      { intros z Hz. destruct Y as [|y Y]; cbn in Ena; [auto|]. left. intros ->. subst na.
        apply (NoDup_remove_2 (X ++ [a]) Y y); [rewrite <- app_assoc; exact Hnd|].
        rewrite <- app_assoc. apply in_or_app. now left. }
      assert (Hna_a : na <> a).
      { destruct Y as [|y Y]; cbn in Ena.
        - subst na. specialize (Hpos a (in_elt a X _)). lia.
        - subst na. intros ->. apply NoDup_remove_2 in Hnd. apply Hnd, in_or_app. right. now left. }
      (* where is x? *)
      destruct (Nat.lt_trichotomy (length X') (length X)) as [L|[L|L]].
      + (* in X *)
        assert (EX : exists X2, X = X' ++ x :: X2 /\ Y' = X2 ++ a :: b :: Y).
        { assert (nth_error X (length X') = Some x).
          { rewrite <- (nth_error_app1 X (a :: b :: Y)) by lia. rewrite E, nth_error_app2, Nat.sub_diag by lia. reflexivity. }
          apply nth_error_split in H. destruct H as (l1 & l2 & E1 & E2).
          rewrite E1, <- app_assoc in E. cbn [app] in E.
          assert (l1 = X').
          { pose proof (f_equal (firstn (length X')) E) as F. rewrite <- E2 in F at 1. rewrite !firstn_app_all in F. exact F. }
          subst l1. apply app_inv_head in E. injection E as E. eauto. }
        destruct EX as (X2 & EX & ->).
        assert (Hx : In x X) by (rewrite EX; apply in_or_app; right; now left).
        assert (Hxa : x <> a). { intros ->. apply NoDup_remove_2 in Hnd. apply Hnd, in_or_app. now left. }
        assert (Hxb : x <> b). { intros ->. apply Hf, in_or_app. now left. }
        unfold upd_link. destruct (N.eqb_spec x a); [congruence|]. destruct (N.eqb_spec x b); [congruence|].
        assert (Hl1 : (if na =? 0 then e_links en else fun y => if y =? na then (b, snd (e_links en na)) else e_links en y) x = e_links en x).
        { destruct (N.eqb_spec na 0); [reflexivity|]. destruct (N.eqb_spec x na) as [->|]; [|reflexivity].
          destruct (HnaX na Hx); congruence. }
        change ((if na =? 0 then e_links en else fun y => if y =? na then (b, snd (e_links en na)) else e_links en y) x = (last X' 0, hd 0 (X2 ++ a :: b :: Y))).
        rewrite Hl1. rewrite (Hl X' x (X2 ++ a :: Y)) by (rewrite EX, <- app_assoc; reflexivity).
        f_equal. destruct X2; reflexivity.
      + (* x = a *)
        assert (EX : X' = X /\ x = a /\ Y' = b :: Y).
        { assert (F1 : X = X').
          { pose proof (f_equal (firstn (length X)) E) as F. rewrite firstn_app_all in F. rewrite <- L in F. now rewrite firstn_app_all in F. }
          subst X'. apply app_inv_head in E. injection E as -> E. auto. }
        destruct EX as (-> & -> & ->). unfold upd_link. rewrite N.eqb_refl. cbn [hd]. now rewrite Epa.
      + (* after a *)
        assert (EX : exists X2, X' = X ++ a :: X2 /\ b :: Y = X2 ++ x :: Y').
        { assert (F1 : X = firstn (length X) X').
          { pose proof (f_equal (firstn (length X)) E) as F. rewrite firstn_app_all in F. rewrite firstn_app_le in F by lia. exact F. }
          assert (E' : X' = X ++ skipn (length X) X') by (rewrite F1 at 1; now rewrite firstn_skipn).
          rewrite E', <- app_assoc in E. apply app_inv_head in E.
          destruct (skipn (length X) X') as [|z X2] eqn:Ez.
          { pose proof (f_equal (@length N) E') as Q. rewrite app_nil_r in Q. lia. }
          cbn [app] in E. injection E as -> E. exists X2. split; [exact E'|exact E]. }
        destruct EX as (X2 & -> & EX).
        rewrite last_mid. destruct X2 as [|z X2]; cbn [app] in EX; injection EX as E1 E2.
        * subst x Y'. unfold upd_link. destruct (N.eqb_spec b a); [congruence|]. rewrite N.eqb_refl. cbn [last]. now rewrite Ena.
        * subst z.
          assert (HxY : In x Y) by (rewrite E2; apply in_or_app; right; now left).
          assert (Hxa : x <> a). { intros ->. apply NoDup_remove_2 in Hnd. apply Hnd, in_or_app. now right. }
          assert (Hxb : x <> b). { intros ->. apply Hf, in_or_app. right. now right. }
          unfold upd_link. destruct (N.eqb_spec x a); [congruence|]. destruct (N.eqb_spec x b); [congruence|].
          change (last (a :: b :: X2) 0) with (last (b :: X2) 0).
          change ((if na =? 0 then e_links en else fun y => if y =? na then (b, snd (e_links en na)) else e_links en y) x = (last (b :: X2) 0, hd 0 Y')).
          destruct X2 as [|w X2].
          -- (* x is the old next leaf *)
             cbn [app] in E2. subst Y. cbn [hd] in Ena. subst na.
             destruct (N.eqb_spec x 0).
             { assert (Hx0 : In x (X ++ a :: x :: Y')) by (rewrite in_app_iff; cbn; auto). apply Hpos in Hx0. lia. }
             rewrite N.eqb_refl. rewrite (Hl (X ++ [a]) x Y') by (rewrite <- app_assoc; reflexivity). reflexivity.
          -- assert (Hxn : x <> na).
             { subst Y. cbn [hd app] in Ena. subst na. intros ->.
               apply (NoDup_remove_2 (X ++ [a]) (X2 ++ w :: Y') w); [rewrite <- app_assoc; exact Hnd|].
               rewrite in_app_iff. right. apply in_elt. }
             assert (Hl1 : (if na =? 0 then e_links en else fun y => if y =? na then (b, snd (e_links en na)) else e_links en y) x = e_links en x).
             { destruct (N.eqb_spec na 0); [reflexivity|]. destruct (N.eqb_spec x na); [congruence|reflexivity]. }
             rewrite Hl1. rewrite (Hl (X ++ a :: w :: X2) x Y') by (subst Y; rewrite <- app_assoc; reflexivity).
             f_equal. change (last (b :: w :: X2) 0) with (last (w :: X2) 0). rewrite last_mid. reflexivity.
  Qed.
End Map.
