(** * A B-tree iterator is a cursor over a range of the sorted entries *)

From Coq Require Import List ZArith NArith Arith Bool Lia Sorting.Sorted.
From Verif Require Import Base Spec Spec_Range Spec_Merge Codec Search SearchProofs DataProofs CountProofs Page PageProofs PageBytes Btree
  BtreeLeafProofs BtreeProofs BtreeMapProofs BtreeRunProofs BtreeFlatProofs BtreeIter.
Import ListNotations.

Notation lcont := (fun l : leaf => pg_cont (lf_page l)).

(** What the iterator needs of a tree. *)
Record wf_tree (cfg : data_config) (ord : bytes -> bytes -> Z) (D : bytes -> Prop) (t : bt) : Prop := {
  wt_sorted : ss ord (map fst (bt_entries t));
  wt_dom : Forall (fun e => D (fst e)) (bt_entries t);
  wt_full : (2 <= length (bt_leaves t)) -> Forall (fun l => lcont l <> []) (bt_leaves t);
  wt_chain : chained (bt_env t) (map lf_addr (bt_leaves t));
  wt_find : exists ps, length (bt_leaves t) = S (length ps) /\
    (forall k, inD D k -> lookup_leaf cfg (bt_h t) (bt_tree t) k =
                          nth_error (bt_leaves t) (cnt (fun a => key_le ord a k) ps)) /\
    (forall j l e i p, nth_error (bt_leaves t) j = Some l -> In e (lcont l) -> nth_error ps i = Some p ->
       (i < j -> kle ord p (fst e)) /\ (j <= i -> klt ord (fst e) p)) /\
    ss ord ps
}.

(** ** Trees made by insertions are such trees *)
Section Wf.
  Variable cfg : data_config.
  Variable ord : bytes -> bytes -> Z.
  Hypothesis TO : total_order ord.
  Variable D : bytes -> Prop.
  Hypothesis AG : agrees cfg ord D.
  Variables P K M : N.
  Hypothesis DK : forall k, (blen k <= K)%N -> D k.

  Lemma sepd_bounds : forall ps ls lo hi, sepd ord D K M ps ls lo hi ->
    forall j l e i p, nth_error ls j = Some l -> In e (lcont l) -> nth_error ps i = Some p ->
      (i <= j -> kle ord p (fst e)) /\ (j < i -> klt ord (fst e) p).
  Proof.
    induction ps as [|q ps IH]; intros [|l0 ls] lo hi H j l e i p Hj He Hi; cbn [sepd] in H; try tauto.
    { now destruct i. }
    destruct H as (A1 & A2 & A3 & A4 & A4' & (A5 & A6) & A7).
    destruct (sepd_sorted ord TO D K M _ _ _ _ A7) as [S1 S2].
    destruct j as [|j]; cbn [nth_error] in Hj.
    - injection Hj as <-. destruct (A6 e He) as [X Y]. destruct i as [|i]; cbn [nth_error] in Hi.
      + injection Hi as <-. split; [auto|lia].
      + split; [lia|]. intros _. destruct ps as [|r ps]; [now destruct i|].
        destruct i as [|i]; cbn [nth_error] in Hi; [injection Hi as <-; exact Y|].
        apply nth_error_In in Hi. apply ss_cons in S1. eapply klt_trans; [exact TO|exact Y|]. now apply S1.
    - destruct i as [|i]; cbn [nth_error] in Hi.
      + injection Hi as <-. split; [|lia]. intros _.
        destruct ps as [|r ps]; [destruct ls; [now destruct j|cbn in A7; tauto]|].
        destruct (IH _ _ _ A7 j l e 0 r Hj He eq_refl) as [X _]. specialize (X ltac:(lia)).
        apply (klt_kle ord TO). eapply klt_kle_trans; [exact TO|exact A5|exact X].
      + destruct (IH _ _ _ A7 j l e i p Hj He Hi) as [X Y]. split; intros; [apply X|apply Y]; lia.
  Qed.

  Lemma sepd_full : forall ps ls lo hi, sepd ord D K M ps ls lo hi -> Forall (fun l => lcont l <> []) ls.
  Proof.
    induction ps as [|p ps IH]; intros [|l ls] lo hi H; cbn [sepd] in H; [constructor|destruct H|destruct H|].
    destruct H as (_ & H & _ & _ & _ & _ & H'). constructor; [exact H|]. eapply IH; eauto.
  Qed.

  Lemma bt_ok_wf : forall t, bt_ok ord P K M t -> wf_tree cfg ord D t.
  Proof.
    intros t H. pose proof (bt_ok_sorted ord TO P K M t H) as Hs. pose proof (bt_ok_chained ord P K M t H) as Hc.
    assert (Hdom : Forall (fun e => D (fst e)) (bt_entries t)).
    { rewrite Forall_forall. intros e He. apply DK.
      destruct t as [[|h] r en]; cbn [bt_ok] in H; unfold bt_entries in He; cbn [bt_h bt_tree] in He.
      - destruct H as (_ & _ & F & _). unfold entries in He. cbn [leaves flat_map] in He. rewrite app_nil_r in He.
        rewrite Forall_forall in F. now apply F.
      - destruct H as ((lo & H) & _). apply (inv_good ord TO P K M) in H. destruct H as (_ & _ & F).
        rewrite Forall_forall in F. now apply F. }
    destruct t as [[|h] r en]; cbn [bt_ok] in H.
    - constructor; auto.
      + cbn. lia.
      + exists []. split; [reflexivity|]. split; [reflexivity|]. split; [|constructor]. intros j l e i p _ _ Hi. now destruct i.
    - destruct H as ((lo & H) & _). destruct H as (B1 & B2 & B3 & s0 & B4 & B5).
      assert (Ds0 : D s0).
      { destruct (pg_cont (r : page (ient (tree h)))) as [|e es] eqn:Ec; [congruence|].
        destruct B5 as (mid & X & _). injection X as ->. inversion B3; subst. now apply DK. }
      assert (H : inv ord P K M (S h) r s0 None).
      { split; [exact B1|]. split; [exact B2|]. split; [exact B3|]. exists s0. split; [apply (kle_refl ord TO)|exact B5]. }
      destruct (flat cfg ord TO D AG P K M DK (S h) r s0 None H Ds0) as (ps & Sp & L).
      pose proof (sepd_length ord D K M _ _ _ _ Sp) as Len. cbn [length] in Len.
      destruct (sepd_sorted ord TO D K M _ _ _ _ Sp) as [S1 _].
      constructor; auto.
      + intros _. exact (sepd_full _ _ _ _ Sp).
      + exists ps. split; [symmetry; exact Len|]. split; [exact L|]. split; [|now apply ss_cons in S1].
        intros j l e i p Hj He Hi.
        destruct (sepd_bounds _ _ _ _ Sp j l e (S i) p Hj He Hi) as [X Y]. split; intros; [apply X|apply Y]; lia.
  Qed.
End Wf.

(** ** Positions *)
Lemma concat_nth_split : forall A (LL : list (list A)) j c, nth_error LL j = Some c ->
  concat LL = concat (firstn j LL) ++ c ++ concat (skipn (S j) LL).
Proof.
  intros A LL. induction LL as [|x LL IH]; intros [|j] c H; try discriminate; cbn [nth_error] in H.
  - injection H as ->. reflexivity.
  - cbn [concat firstn skipn]. rewrite (IH j c H) at 1. now rewrite <- app_assoc.
Qed.

Lemma firstn_S_nth : forall A (LL : list A) j c, nth_error LL j = Some c -> firstn (S j) LL = firstn j LL ++ [c].
Proof.
  intros A LL. induction LL as [|x LL IH]; intros [|j] c H; try discriminate; cbn [nth_error] in H.
  - injection H as ->. reflexivity.
  - change (x :: firstn (S j) LL = x :: (firstn j LL ++ [c])). f_equal. now apply IH.
Qed.

Section Iter.
  Variable cfg : data_config.
  Variable ord : bytes -> bytes -> Z.
  Hypothesis TO : total_order ord.
  Variable D : bytes -> Prop.
  Hypothesis AG : agrees cfg ord D.
  Variable t : bt.
  Hypothesis WF : wf_tree cfg ord D t.

  Let LS := bt_leaves t.
  Let LL := map lcont LS.
  Let E := bt_entries t.

  Definition off (j : nat) : nat := length (concat (firstn j LL)).
  Definition lt_cnt (k : key) : nat := cnt (fun e : lent => key_lt ord (fst e) k) E.
  Definition le_cnt (k : key) : nat := cnt (fun e : lent => key_le ord (fst e) k) E.

  Lemma E_concat : E = concat LL.
  Proof. unfold E, LL, LS, bt_entries, bt_leaves, entries. now rewrite flat_map_concat_map. Qed.

  Lemma off_S : forall j l, nth_error LS j = Some l -> off (S j) = off j + length (lcont l).
  Proof.
    intros j l H. unfold off. rewrite (firstn_S_nth _ LL j (lcont l)) by (unfold LL; now rewrite nth_error_map, H).
    rewrite concat_app, app_length. cbn [concat]. now rewrite app_nil_r.
  Qed.
  Lemma off_0 : off 0 = 0.
  Proof. reflexivity. Qed.
  Lemma off_mono : forall i j, i <= j -> off i <= off j.
  Proof.
    intros i j H. unfold off. replace j with (i + (j - i)) by lia.
    generalize (j - i). intros d. clear. generalize LL. induction i as [|i IH]; intros L; [apply Nat.le_0_l|].
    destruct L as [|x L]; [apply le_n|]. cbn [Nat.add firstn concat]. rewrite !app_length.
    specialize (IH L). lia.
  Qed.
  Lemma nth_E : forall j l i, nth_error LS j = Some l -> i < length (lcont l) -> nth_error E (off j + i) = nth_error (lcont l) i.
  Proof.
    intros j l i H Hi. rewrite E_concat, (concat_nth_split _ LL j (lcont l)) by (unfold LL; now rewrite nth_error_map, H).
    unfold off. rewrite nth_error_app2 by lia. rewrite nth_error_app1 by lia. f_equal. lia.
  Qed.

  Lemma sortedE : StronglySorted (fun a b : lent => klt ord (fst a) (fst b)) E.
  Proof.
    pose proof (wt_sorted _ _ _ _ WF) as H. fold E in H. clear - H. induction E as [|a l IH]; [constructor|].
    cbn [map] in H. apply ss_cons in H. destruct H as [H1 H2]. apply ss_cons. split; [auto|].
    intros y Hy. apply H2. now apply in_map.
  Qed.
  Lemma ltE_closed : forall k, closed (fun e : lent => key_lt ord (fst e) k) E.
  Proof.
    intros k. eapply closed_sorted; [exact sortedE|]. intros a b _ _ Hab. cbv beta. now apply (klt_key_lt ord TO).
  Qed.
  Lemma leE_closed : forall k, closed (fun e : lent => key_le ord (fst e) k) E.
  Proof.
    intros k. eapply closed_sorted; [exact sortedE|]. intros a b _ _ Hab. cbv beta. now apply (klt_key_le ord TO).
  Qed.

  Lemma local_cnt : forall p j l, closed p E -> nth_error LS j = Some l ->
    cnt p (lcont l) = Nat.min (length (lcont l)) (cnt p E - off j).
  Proof.
    intros p j l Hp H. rewrite E_concat in *.
    rewrite (concat_nth_split _ LL j (lcont l)) in * by (unfold LL; now rewrite nth_error_map, H).
    now apply cnt_mid.
  Qed.

  Lemma leaf_sorted : forall j l, nth_error LS j = Some l -> ss ord (map fst (lcont l)) /\ Forall D (map fst (lcont l)).
  Proof.
    intros j l H. assert (HL : nth_error LL j = Some (lcont l)) by (unfold LL; now rewrite nth_error_map, H).
    pose proof (wt_sorted _ _ _ _ WF) as Hs. fold E in Hs. pose proof (wt_dom _ _ _ _ WF) as Hd. fold E in Hd.
    rewrite E_concat, (concat_nth_split _ LL j _ HL) in Hs, Hd. rewrite !map_app in Hs.
    apply ss_app in Hs. destruct Hs as (_ & Hs & _). apply ss_app in Hs. split; [apply Hs|].
    rewrite !Forall_app in Hd. destruct Hd as (_ & Hd & _). rewrite Forall_forall in *. intros x Hx.
    apply in_map_iff in Hx. destruct Hx as (e & <- & He). auto.
  Qed.

  (** Searching leaf [j]. *)
  Lemma find_tuple_counts : forall j l k, nth_error LS j = Some l -> inD D k ->
    exists found : bool, find_tuple cfg (lf_page l) k =
        Some ((Z.of_nat (Nat.min (length (lcont l)) (le_cnt k - off j)) - 1)%Z, found) /\
      Nat.min (length (lcont l)) (le_cnt k - off j) =
        Nat.min (length (lcont l)) (lt_cnt k - off j) + (if found then 1 else 0) /\
      (found = true -> exists e, nth_error (lcont l) (Nat.min (length (lcont l)) (lt_cnt k - off j)) = Some e /\ k = KUser (fst e)).
  Proof.
    intros j l k H Hk. destruct (leaf_sorted j l H) as [Hs Hd].
    destruct (find_counts cfg ord TO D AG _ k Hs Hd Hk) as (f & E1 & E2 & E3).
    unfold find_tuple, leaf_keys. assert (Hm : map (fun e : lent => KUser (fst e)) (lcont l) = map KUser (map fst (lcont l)))
      by (rewrite map_map; reflexivity). rewrite Hm.
    assert (L1 : cnt (fun a => key_le ord a k) (map fst (lcont l)) = Nat.min (length (lcont l)) (le_cnt k - off j)).
    { rewrite cnt_map. unfold le_cnt. apply local_cnt; [apply leE_closed|exact H]. }
    assert (L2 : cnt (fun a => key_lt ord a k) (map fst (lcont l)) = Nat.min (length (lcont l)) (lt_cnt k - off j)).
    { rewrite cnt_map. unfold lt_cnt. apply local_cnt; [apply ltE_closed|exact H]. }
    rewrite L1, L2 in *. exists f. split; [exact E1|]. split; [exact E2|]. intros Hf. destruct (E3 Hf) as (b & -> & Hb).
    rewrite nth_error_map in Hb.
    match type of Hb with option_map _ ?x = _ => destruct x as [e|] eqn:Ee; [|discriminate] end.
    injection Hb as <-. exists e. split; reflexivity.
  Qed.

  Definition rule_pos (rule : comparison_mode) (k : key) : Z :=
    match rule with
    | LessThan => Z.of_nat (lt_cnt k) - 1
    | LessThanOrEqual => Z.of_nat (le_cnt k) - 1
    | GreaterThanOrEqual => Z.of_nat (lt_cnt k)
    | GreaterThan => Z.of_nat (le_cnt k)
    end.

  Lemma find_key_spec : forall j l k rule, nth_error LS j = Some l -> inD D k ->
    off j <= lt_cnt k -> le_cnt k <= off (S j) ->
    exists found, find_key_in_node cfg l k rule = Some ((rule_pos rule k - Z.of_nat (off j))%Z, found).
  Proof.
    intros j l k rule H Hk H1 H2. destruct (find_tuple_counts j l k H Hk) as (f & E1 & E2 & _).
    rewrite (off_S j l H) in H2.
    assert (Hll : lt_cnt k <= le_cnt k) by (apply cnt_mono; intros; now apply (key_lt_le ord)).
    rewrite !Nat.min_r in E1, E2 by lia.
    unfold find_key_in_node. rewrite E1. exists f. f_equal. f_equal. unfold rule_pos. destruct rule, f; lia.
  Qed.

  (** A lookup. *)
  Lemma lookup_pos : exists f : key -> nat, (forall k1 k2, bound_le ord k1 k2 -> f k1 <= f k2) /\
    forall k, inD D k -> exists l,
    lookup_leaf cfg (bt_h t) (bt_tree t) k = Some l /\ nth_error LS (f k) = Some l /\
    off (f k) <= lt_cnt k /\ le_cnt k <= off (S (f k)).
  Proof.
    destruct (wt_find _ _ _ _ WF) as (ps & Hlen & Hlk & Hb & Hps). fold LS in Hlen, Hlk, Hb.
    exists (fun k => cnt (fun a => key_le ord a k) ps). split.
    { intros k1 k2 Hk. apply cnt_mono. intros x _ Hx. eapply (key_le_bound cfg ord TO); eauto. }
    intros k Hk. remember (cnt (fun a => key_le ord a k) ps) as j eqn:Ej.
    pose proof (cnt_le_length _ (fun a => key_le ord a k) ps) as Hj. rewrite <- Ej in Hj.
    destruct (nth_error LS j) as [l|] eqn:El; [|apply nth_error_None in El; lia].
    exists l. split; [rewrite (Hlk k Hk), <- Ej; exact El|]. split; [reflexivity|].
    pose proof (fun i x => cnt_nth _ _ ps i x (le_closed ord TO ps k Hps)) as Hc. cbv beta in Hc. rewrite <- Ej in Hc.
    assert (Hin : forall i li e, nth_error LS i = Some li -> In e (lcont li) ->
      (i < j -> key_lt ord (fst e) k = true) /\ (j < i -> key_le ord (fst e) k = false)).
    { intros i li e Hi He. split; intros Hij.
      - destruct (nth_error ps (j - 1)) as [p|] eqn:Ep; [|apply nth_error_None in Ep; lia].
        assert (key_le ord p k = true) by (apply (Hc _ _ Ep); lia).
        destruct (Hb i li e (j - 1) p Hi He Ep) as [_ X]. specialize (X ltac:(lia)).
        destruct k as [|b|]; [discriminate| |reflexivity]. cbn in *. apply Z.ltb_lt. apply Z.leb_le in H.
        eapply klt_kle_trans; eauto.
      - destruct (nth_error ps j) as [p|] eqn:Ep; [|apply nth_error_None in Ep; assert (i < length LS) by (apply nth_error_Some; congruence); lia].
        destruct (Hb i li e j p Hi He Ep) as [X _]. specialize (X Hij).
        destruct (key_le ord (fst e) k) eqn:Ee; [|reflexivity]. exfalso.
        assert (key_le ord p k = true).
        { destruct k as [|b|]; [discriminate| |reflexivity]. cbn in *. apply Z.leb_le. apply Z.leb_le in Ee. eapply kle_trans; eauto. }
        apply (Hc _ _ Ep) in H. lia. }
    assert (HL : nth_error LL j = Some (lcont l)) by (unfold LL; now rewrite nth_error_map, El).
    assert (HIn : forall n e, In e (concat (firstn n LL)) -> exists i li, i < n /\ nth_error LS i = Some li /\ In e (lcont li)).
    { intros n e He. apply in_concat in He. destruct He as (c & Hc1 & Hc2). apply In_nth_error in Hc1. destruct Hc1 as (i & Hi).
      assert (Hin2 : i < n) by (apply Nat.lt_le_trans with (length (firstn n LL)); [apply nth_error_Some; congruence|apply firstn_le_length]).
      assert (Hi2 : nth_error LL i = Some c).
      { rewrite <- (firstn_skipn n LL). rewrite nth_error_app1; [exact Hi|]. apply nth_error_Some. congruence. }
      unfold LL in Hi2. rewrite nth_error_map in Hi2. destruct (nth_error LS i) as [li|] eqn:Eli; [|discriminate].
      cbn in Hi2. injection Hi2 as <-. exists i, li. auto. }
    assert (HIn2 : forall n e, In e (concat (skipn n LL)) -> exists i li, n <= i /\ nth_error LS i = Some li /\ In e (lcont li)).
    { intros n e He. apply in_concat in He. destruct He as (c & Hc1 & Hc2). apply In_nth_error in Hc1. destruct Hc1 as (i & Hi).
      assert (Hi2 : nth_error LL (n + i) = Some c).
      { rewrite <- Hi. clear. revert n. induction LL as [|x L IH]; intros [|n]; try reflexivity; [now destruct i|]. cbn. apply IH. }
      unfold LL in Hi2. rewrite nth_error_map in Hi2. destruct (nth_error LS (n + i)) as [li|] eqn:Eli; [|discriminate].
      cbn in Hi2. injection Hi2 as <-. exists (n + i), li. split; [lia|auto]. }
    split.
    - unfold lt_cnt, off. rewrite E_concat, (concat_nth_split _ LL j _ HL), cnt_app.
      rewrite (cnt_all _ _ (concat (firstn j LL))); [lia|]. intros e He. destruct (HIn _ _ He) as (i & li & Hi & Hli & Hle).
      now apply (Hin i li e Hli Hle).
    - unfold le_cnt. rewrite (off_S j l El). unfold off. rewrite E_concat, (concat_nth_split _ LL j _ HL), !cnt_app.
      rewrite (cnt_none _ _ (concat (skipn (S j) LL))).
      + pose proof (cnt_le_length _ (fun e : lent => key_le ord (fst e) k) (concat (firstn j LL))).
        pose proof (cnt_le_length _ (fun e : lent => key_le ord (fst e) k) (lcont l)). lia.
      + intros e He. destruct (HIn2 _ _ He) as (i & li & Hi & Hli & Hle). now apply (Hin i li e Hli Hle).
  Qed.

  (** ** The chain of leaves *)
  Lemma addr_inj : forall i j l l', nth_error LS i = Some l -> nth_error LS j = Some l' -> lf_addr l = lf_addr l' -> i = j.
  Proof.
    intros i j l l' Hi Hj He. destruct (wt_chain _ _ _ _ WF) as (Hnd & _). fold LS in Hnd.
    rewrite NoDup_nth_error in Hnd. apply Hnd.
    - rewrite map_length. apply nth_error_Some. congruence.
    - rewrite !nth_error_map, Hi, Hj. cbn. now rewrite He.
  Qed.
  Lemma leaf_at_nth : forall j l, nth_error LS j = Some l -> leaf_at t (lf_addr l) = Some l.
  Proof.
    intros j l H. unfold leaf_at. change (leaves (bt_h t) (bt_tree t)) with LS.
    destruct (find (fun x => N.eqb (lf_addr x) (lf_addr l)) LS) as [x|] eqn:Ef.
    - apply find_some in Ef. destruct Ef as [Hin Hx]. apply N.eqb_eq in Hx. apply In_nth_error in Hin. destruct Hin as (i & Hi).
      assert (i = j) by (eapply addr_inj; eauto). subst i. congruence.
    - exfalso. pose proof (find_none _ _ Ef l (nth_error_In _ _ H)) as X. cbv beta in X. now rewrite N.eqb_refl in X.
  Qed.
  Lemma links_nth : forall j l, nth_error LS j = Some l ->
    prev_addr t (lf_addr l) = last (map lf_addr (firstn j LS)) 0%N /\ next_addr t (lf_addr l) = hd 0%N (map lf_addr (skipn (S j) LS)).
  Proof.
    intros j l H. destruct (wt_chain _ _ _ _ WF) as (_ & _ & _ & Hl). fold LS in Hl.
    specialize (Hl (map lf_addr (firstn j LS)) (lf_addr l) (map lf_addr (skipn (S j) LS))).
    unfold prev_addr, next_addr. rewrite Hl; [auto|]. rewrite <- map_cons, <- map_app. f_equal.
    rewrite <- (firstn_skipn j LS) at 1. f_equal. clear - H. revert j H. induction LS as [|x L IH]; intros [|j] H; try discriminate; cbn in *.
    - now injection H as ->.
    - now apply IH.
  Qed.
  Lemma next_nth : forall j l l', nth_error LS j = Some l -> nth_error LS (S j) = Some l' -> next_addr t (lf_addr l) = lf_addr l'.
  Proof.
    intros j l l' H H'. destruct (links_nth j l H) as [_ ->]. clear - H'. revert j H'.
    induction LS as [|x L IH]; intros j H'; [discriminate|]. destruct j as [|j]; cbn [nth_error] in H'.
    - destruct L; [discriminate|]. cbn in *. now injection H' as ->.
    - exact (IH j H').
  Qed.
  Lemma prev_nth : forall j l l', nth_error LS j = Some l' -> nth_error LS (S j) = Some l -> prev_addr t (lf_addr l) = lf_addr l'.
  Proof.
    intros j l l' H' H. destruct (links_nth (S j) l H) as [-> _]. rewrite (firstn_S_nth _ LS j l' H'), map_app. cbn [map]. apply last_last.
  Qed.
  Lemma addr_pos : forall j l, nth_error LS j = Some l -> lf_addr l <> 0%N.
  Proof.
    intros j l H. destruct (wt_chain _ _ _ _ WF) as (_ & Hp & _). fold LS in Hp.
    specialize (Hp (lf_addr l) (in_map _ _ _ (nth_error_In _ _ H))). lia.
  Qed.
  Lemma prev_zero : forall j l, nth_error LS j = Some l -> N.eqb (prev_addr t (lf_addr l)) 0 = Nat.eqb j 0.
  Proof.
    intros [|j] l H.
    - destruct (links_nth 0 l H) as [-> _]. reflexivity.
    - destruct (nth_error LS j) as [l'|] eqn:E'.
      + rewrite (prev_nth j l l' E' H). apply N.eqb_neq. eapply addr_pos; eauto.
      + apply nth_error_None in E'. assert (S j < length LS) by (apply nth_error_Some; congruence). lia.
  Qed.
  Lemma nonempty_nth : forall j l, nth_error LS j = Some l -> 2 <= length LS -> 0 < length (lcont l).
  Proof.
    intros j l H H2. pose proof (wt_full _ _ _ _ WF H2) as F. rewrite Forall_forall in F.
    specialize (F l (nth_error_In _ _ H)). destruct (lcont l); [congruence|cbn; lia].
  Qed.
  Lemma lt_le_cnt : forall k, lt_cnt k <= le_cnt k <= S (lt_cnt k).
  Proof.
    intros k. split; [apply cnt_mono; intros; now apply (key_lt_le ord)|].
    destruct (Nat.le_gt_cases (le_cnt k) (S (lt_cnt k))) as [H|H]; [exact H|exfalso].
    assert (HL : le_cnt k <= length E) by apply cnt_le_length.
    destruct (nth_error E (lt_cnt k)) as [a|] eqn:Ea; [|apply nth_error_None in Ea; lia].
    destruct (nth_error E (S (lt_cnt k))) as [b|] eqn:Eb; [|apply nth_error_None in Eb; lia].
    assert (Ha : key_lt ord (fst a) k = false).
    { destruct (key_lt ord (fst a) k) eqn:X; [|reflexivity]. apply (cnt_nth _ _ E _ a (ltE_closed k) Ea) in X. unfold lt_cnt in *. lia. }
    assert (Hb : key_le ord (fst b) k = true) by (apply (cnt_nth _ _ E _ b (leE_closed k) Eb); exact H).
    assert (Hab : klt ord (fst a) (fst b)).
    { pose proof sortedE as Hs. apply nth_error_split in Ea. destruct Ea as (A & B & HE & Hn). rewrite HE, <- Hn in Eb.
      rewrite nth_error_app2 in Eb by lia. replace (S (length A) - length A) with 1 in Eb by lia. cbn [nth_error] in Eb.
      rewrite HE in Hs. apply ss_app in Hs. destruct Hs as (_ & Hs & _). apply ss_cons in Hs. destruct Hs as (_ & Hs). apply Hs. destruct B; [discriminate|]. injection Eb as <-. now left. }
    destruct k as [|c|]; cbn in *; try discriminate. apply Z.ltb_ge in Ha. apply Z.leb_le in Hb.
    assert (klt ord (fst a) c) by (eapply klt_kle_trans; eauto). unfold BtreeProofs.klt in *. lia.
  Qed.
  Lemma lt_cnt_mono : forall k1 k2, bound_le ord k1 k2 -> lt_cnt k1 <= lt_cnt k2.
  Proof. intros k1 k2 H. apply cnt_mono. intros x _ Hx. eapply (key_lt_bound cfg ord TO); eauto. Qed.
  Lemma le_cnt_mono : forall k1 k2, bound_le ord k1 k2 -> le_cnt k1 <= le_cnt k2.
  Proof. intros k1 k2 H. apply cnt_mono. intros x _ Hx. eapply (key_le_bound cfg ord TO); eauto. Qed.
  Lemma le_lt_cnt : forall k1 k2, bound_lt ord k1 k2 -> le_cnt k1 <= lt_cnt k2.
  Proof.
    intros k1 k2 H. apply cnt_mono. intros x _. rewrite (okey_le cfg), (okey_lt cfg).
    unfold bound_lt in H. rewrite (bound_le_okey cfg) in H. rewrite Z.leb_le, Z.ltb_lt. intros Hx.
    eapply (cmp_le_lt_trans _ (okey_TO cfg ord TO)); [exact Hx|]. apply (cmp_lt_gt _ (okey_TO cfg ord TO)). lia.
  Qed.

  (** ** The invariant of an iterator over [mn, mx) *)
  Variables mn mx : key.
  Hypothesis Dmn : inD D mn.
  Hypothesis Dmx : inD D mx.
  Hypothesis Hrange : bound_le ord mn mx.
  Let lo := lt_cnt mn.
  Let hi := lt_cnt mx.

  Lemma lo_hi : lo <= hi.
  Proof. now apply lt_cnt_mono. Qed.

  Record at_ (it : bit) (j : nat) (l : leaf) : Prop := {
    a_min : i_min it = mn;
    a_leaf : nth_error LS j = Some l;
    a_curr : i_curr it = lf_addr l;
    a_end : exists je le, nth_error LS je = Some le /\ i_end it = lf_addr le /\
              (0 <= i_end_idx it <= num_entries le)%Z /\ (Z.of_nat (off je) + i_end_idx it = Z.of_nat hi)%Z /\
              j <= je /\ (j < je -> (i_idx it < num_entries l)%Z) /\ (j = je -> (i_idx it <= i_end_idx it)%Z)
  }.
  Definition cm_exact (it : bit) (j : nat) (l : leaf) : Prop :=
    (i_curr_min it = (-1)%Z /\ 0 < j /\ lo <= off j /\ (0 <= i_idx it)%Z) \/
    (0 <= i_curr_min it <= num_entries l /\ Z.of_nat (off j) + i_curr_min it = Z.of_nat lo /\ i_curr_min it - 1 <= i_idx it)%Z.
  Definition cm_fwd (it : bit) : Prop := (-1 <= i_curr_min it <= i_idx it /\ 0 <= i_idx it)%Z.
  Definition gpos (it : bit) (j : nat) : Z := (Z.of_nat (off j) + i_idx it)%Z.

  Lemma eqb_addr : forall i j l l', nth_error LS i = Some l -> nth_error LS j = Some l' -> N.eqb (lf_addr l) (lf_addr l') = Nat.eqb i j.
  Proof.
    intros i j l l' Hi Hj. destruct (Nat.eqb_spec i j) as [->|Hne].
    - apply N.eqb_eq. congruence.
    - apply N.eqb_neq. intros X. apply Hne. eapply addr_inj; eauto.
  Qed.

  Lemma next_step : forall it j l, at_ it j l -> (gpos it j < Z.of_nat hi)%Z -> (-1 <= i_idx it)%Z ->
    exists it' j' l', it_next t it = Some it' /\ at_ it' j' l' /\ (gpos it' j' = gpos it j + 1)%Z /\
      (cm_exact it j l -> cm_exact it' j' l') /\ (cm_fwd it -> cm_fwd it').
  Proof.
    intros it j l [H1 H2 H3 (je & le & E1 & E2 & E3 & E4 & E5 & E6 & E7)] Hg Hi.
    unfold it_next. rewrite H3, (leaf_at_nth j l H2). cbv zeta. unfold gpos in *.
    remember (set_pos it (lf_addr l) (i_idx it + 1) (i_curr_min it)) as it1 eqn:Eit.
    assert (F1 : i_idx it1 = (i_idx it + 1)%Z) by (subst it1; reflexivity).
    assert (F2 : i_curr_min it1 = i_curr_min it) by (subst it1; reflexivity).
    assert (F3 : i_curr it1 = lf_addr l) by (subst it1; reflexivity).
    assert (F4 : i_end it1 = i_end it) by (subst it1; reflexivity).
    assert (F5 : i_end_idx it1 = i_end_idx it) by (subst it1; reflexivity).
    assert (F6 : i_min it1 = mn) by (subst it1; exact H1).
    destruct ((i_idx it1 =? num_entries l)%Z && it_can_next it1) eqn:Ec.
    - apply andb_true_iff in Ec. destruct Ec as [Ec1 Ec2]. apply Z.eqb_eq in Ec1.
      assert (Hlt : j < je).
      { destruct (Nat.eq_dec j je) as [->|]; [exfalso|lia]. specialize (E7 eq_refl).
        unfold it_can_next in Ec2. rewrite F3, F4, E2, (eqb_addr je je l le H2 E1), Nat.eqb_refl in Ec2. cbn [negb orb] in Ec2.
        apply andb_true_iff in Ec2. destruct Ec2 as [Ec2 _]. apply Z.ltb_lt in Ec2.
        assert (l = le) by congruence. subst le. lia. }
      destruct (nth_error LS (S j)) as [l2|] eqn:El2; [|apply nth_error_None in El2; assert (je < length LS) by (apply nth_error_Some; congruence); lia].
      unfold next_leaf. rewrite F3, (next_nth j l l2 H2 El2), (leaf_at_nth (S j) l2 El2).
      assert (Hl2 : 2 <= length LS) by (assert (S j < length LS) by (apply nth_error_Some; congruence); lia).
      pose proof (nonempty_nth (S j) l2 El2 Hl2) as Hne. pose proof (off_S j l H2) as HoS. unfold num_entries in *.
      exists (set_pos it1 (lf_addr l2) 0 (-1)), (S j), l2. split; [reflexivity|]. split; [|split; [|split]].
      + constructor; cbn [set_pos i_min i_curr i_idx i_end i_end_idx]; auto.
        exists je, le. rewrite F4, F5. unfold num_entries. repeat split; auto; lia.
      + cbn [set_pos i_idx]. rewrite HoS. lia.
      + intros X. left. cbn [set_pos i_curr_min i_idx]. split; [reflexivity|]. split; [lia|]. split; [|lia].
        rewrite HoS. destruct X as [X|X]; unfold num_entries in X; lia.
      + intros _. unfold cm_fwd. cbn [set_pos i_curr_min i_idx]. lia.
    - exists it1, j, l. split; [reflexivity|]. split; [|split; [|split]].
      + constructor; auto. exists je, le. rewrite F4, F5, F1. repeat split; auto; try lia.
        * intros Hlt. specialize (E6 Hlt). destruct (Z.eq_dec (i_idx it + 1) (num_entries l)) as [Heq|]; [exfalso|lia].
          rewrite F1, Heq, Z.eqb_refl in Ec. cbn [andb] in Ec. unfold it_can_next in Ec.
          rewrite F3, F4, E2, (eqb_addr j je l le H2 E1) in Ec. destruct (Nat.eqb_spec j je); [lia|]. discriminate.
        * intros ->. lia.
      + rewrite F1. lia.
      + intros X. unfold cm_exact in *. rewrite F1, F2. destruct X as [X|X]; [left|right]; lia.
      + intros X. unfold cm_fwd in *. rewrite F1, F2. lia.
  Qed.

  Lemma prev_leaf_spec : forall it j l l', i_min it = mn -> nth_error LS j = Some l' -> nth_error LS (S j) = Some l ->
    i_curr it = lf_addr l -> lo <= off (S j) ->
    exists c, prev_leaf cfg t it = Some (set_pos it (lf_addr l') (num_entries l' - 1) c) /\
      ((c = (-1)%Z /\ 0 < j /\ lo <= off j) \/ (0 <= c <= num_entries l' /\ Z.of_nat (off j) + c = Z.of_nat lo)%Z).
  Proof.
    intros it j l l' H1 Hl' Hl Hc Hlo. unfold prev_leaf. rewrite Hc, (prev_nth j l l' Hl' Hl).
    cbn [walk_to]. rewrite (leaf_at_nth j l' Hl'), (next_nth j l' l Hl' Hl), N.eqb_refl.
    assert (Hl2 : 2 <= length LS) by (assert (S j < length LS) by (apply nth_error_Some; congruence); lia).
    pose proof (nonempty_nth j l' Hl' Hl2) as Hne. pose proof (off_S j l' Hl') as HoS.
    destruct (nth_error (lcont l') 0) as [[k0 m0]|] eqn:E0; [|apply nth_error_None in E0; lia].
    assert (Dk0 : inD D (KUser k0)).
    { destruct (leaf_sorted j l' Hl') as [_ F]. rewrite Forall_forall in F. apply F. apply nth_error_In in E0.
      change k0 with (fst (k0, m0)). now apply in_map. }
    rewrite H1, (cmp_lt0 cfg ord D AG mn (KUser k0) Dmn Dk0), (prev_zero j l' Hl').
    assert (En : nth_error E (off j) = Some (k0, m0)).
    { rewrite <- (Nat.add_0_r (off j)). rewrite (nth_E j l' 0 Hl' Hne). exact E0. }
    pose proof (cnt_nth _ _ E _ _ (ltE_closed mn) En) as Hc1. cbn [fst] in Hc1. fold (lt_cnt mn) in Hc1. fold lo in Hc1.
    pose proof (cnt_nth _ _ E _ _ (leE_closed mn) En) as Hc2. cbn [fst] in Hc2. fold (le_cnt mn) in Hc2.
    pose proof (lt_le_cnt mn) as Hll. fold lo in Hll. unfold num_entries.
    destruct (Z.ltb_spec (okey cfg ord mn (KUser k0)) 0) as [Hlt|Hge].
    - assert (Hk : key_le ord k0 mn = false).
      { rewrite (okey_le cfg). apply Z.leb_gt. apply (cmp_lt_gt _ (okey_TO cfg ord TO)) in Hlt. lia. }
      assert (Hlo2 : lo <= off j).
      { destruct (Nat.le_gt_cases lo (off j)) as [X|X]; [exact X|]. apply Hc1 in X. apply (key_lt_le ord) in X. congruence. }
      rewrite Z.eqb_refl, andb_true_r. eexists. split; [reflexivity|].
      destruct (Nat.eqb_spec j 0) as [->|Hj].
      + right. rewrite off_0 in *. lia.
      + left. lia.
    - assert (Hk : key_le ord k0 mn = true).
      { rewrite (okey_le cfg). apply Z.leb_le. apply (cmp_ge_le _ (okey_TO cfg ord TO)). lia. }
      apply Hc2 in Hk.
      destruct (find_tuple_counts j l' mn Hl' Dmn) as (f & E1 & E2 & _). fold lo in E2. rewrite E1.
      assert (Ex : (if f then Z.of_nat (Nat.min (length (lcont l')) (le_cnt mn - off j)) - 1
                    else Z.of_nat (Nat.min (length (lcont l')) (le_cnt mn - off j)) - 1 + 1)%Z =
                   Z.of_nat (Nat.min (length (lcont l')) (lo - off j))) by (destruct f; lia).
      rewrite Ex. replace (Z.of_nat (Nat.min (length (lcont l')) (lo - off j)) =? -1)%Z with false by (symmetry; apply Z.eqb_neq; lia).
      rewrite andb_false_r. eexists. split; [reflexivity|]. right. lia.
  Qed.

  Lemma prev_step : forall it j l, at_ it j l -> cm_exact it j l -> (Z.of_nat lo <= gpos it j)%Z ->
    exists it' j' l', it_prev cfg t it = Some it' /\ at_ it' j' l' /\ (gpos it' j' = gpos it j - 1)%Z /\ cm_exact it' j' l'.
  Proof.
    intros it j l [H1 H2 H3 (je & le & E1 & E2 & E3 & E4 & E5 & E6 & E7)] Hx Hg.
    unfold it_prev, gpos in *. cbv zeta. rewrite H3.
    remember (set_pos it (lf_addr l) (i_idx it - 1) (i_curr_min it)) as it1 eqn:Eit.
    assert (F1 : i_idx it1 = (i_idx it - 1)%Z) by (subst it1; reflexivity).
    assert (F2 : i_curr_min it1 = i_curr_min it) by (subst it1; reflexivity).
    assert (F3 : i_curr it1 = lf_addr l) by (subst it1; reflexivity).
    assert (F4 : i_end it1 = i_end it) by (subst it1; reflexivity).
    assert (F5 : i_end_idx it1 = i_end_idx it) by (subst it1; reflexivity).
    assert (F6 : i_min it1 = mn) by (subst it1; exact H1).
    rewrite F1, F2. destruct ((i_curr_min it =? -1)%Z && (i_idx it - 1 =? -1)%Z) eqn:Ec.
    - apply andb_true_iff in Ec. destruct Ec as [Ec1 Ec2]. apply Z.eqb_eq in Ec1, Ec2.
      destruct Hx as [(_ & X2 & X3 & _)|X]; [|lia]. destruct j as [|j]; [lia|].
      destruct (nth_error LS j) as [l'|] eqn:El'; [|apply nth_error_None in El'; assert (S j < length LS) by (apply nth_error_Some; congruence); lia].
      destruct (prev_leaf_spec it1 j l l' F6 El' H2 F3 X3) as (c & -> & Hc).
      assert (Hl2 : 2 <= length LS) by (assert (S j < length LS) by (apply nth_error_Some; congruence); lia).
      pose proof (nonempty_nth j l' El' Hl2) as Hne. pose proof (off_S j l' El') as HoS.
      exists (set_pos it1 (lf_addr l') (num_entries l' - 1) c), j, l'. split; [reflexivity|]. unfold num_entries in *. split; [|split].
      + constructor; cbn [set_pos i_min i_curr i_idx i_end i_end_idx]; auto.
        exists je, le. rewrite F4, F5. unfold num_entries. repeat split; auto; lia.
      + cbn [set_pos i_idx]. rewrite HoS. lia.
      + unfold cm_exact, num_entries. cbn [set_pos i_curr_min i_idx]. destruct Hc as [Hc|Hc]; [left|right]; lia.
    - exists it1, j, l. split; [reflexivity|]. split; [|split].
      + constructor; auto. exists je, le. rewrite F4, F5, F1. repeat split; auto; lia.
      + rewrite F1. lia.
      + unfold cm_exact in *. rewrite F1, F2. destruct Hx as [X|X]; [left|right; lia].
        destruct (Z.eqb_spec (i_curr_min it) (-1)); [|lia]. destruct (Z.eqb_spec (i_idx it - 1) (-1)); [discriminate|]. lia.
  Qed.

  (** ** What the iterator shows *)
  Lemma obs_exact : forall it j l, at_ it j l -> cm_exact it j l ->
    (lo < hi -> it_can_prev it = (Z.of_nat lo <=? gpos it j)%Z /\ it_can_next it = (gpos it j <? Z.of_nat hi)%Z) /\
    (lo = hi -> it_can_curr it = false).
  Proof.
    intros it j l [H1 H2 H3 (je & le & E1 & E2 & E3 & E4 & E5 & E6 & E7)] Hx.
    assert (Heq : N.eqb (i_curr it) (i_end it) = Nat.eqb j je) by (rewrite H3, E2; now apply eqb_addr).
    assert (HoS : off (S j) = off j + length (lcont l)) by now apply off_S.
    assert (Hmono : j < je -> off (S j) <= off je) by (intros; apply off_mono; lia).
    unfold it_can_curr, it_can_next, it_can_prev, gpos. rewrite Heq. unfold num_entries, cm_exact in *.
    destruct (Nat.eqb_spec j je) as [Ej|Ej]; cbn [negb orb andb];
    destruct (Z.leb_spec (i_curr_min it) (i_idx it)), (Z.eqb_spec (i_curr_min it) (i_end_idx it)), (Z.ltb_spec (i_idx it) (i_end_idx it));
      cbn [negb orb andb]; (split; [intros Hlt; split; symmetry; (apply Z.leb_le || apply Z.leb_gt || apply Z.ltb_lt || apply Z.ltb_ge); subst; lia|]);
      intros He; try reflexivity; exfalso; subst; lia.
  Qed.

  Lemma obs_fwd : forall it j l, at_ it j l -> cm_fwd it ->
    it_can_next it = (gpos it j <? Z.of_nat hi)%Z /\ it_can_curr it = (gpos it j <? Z.of_nat hi)%Z.
  Proof.
    intros it j l [H1 H2 H3 (je & le & E1 & E2 & E3 & E4 & E5 & E6 & E7)] Hx.
    assert (Heq : N.eqb (i_curr it) (i_end it) = Nat.eqb j je) by (rewrite H3, E2; now apply eqb_addr).
    assert (HoS : off (S j) = off j + length (lcont l)) by now apply off_S.
    assert (Hmono : j < je -> off (S j) <= off je) by (intros; apply off_mono; lia).
    unfold it_can_curr, it_can_next, it_can_prev, gpos. rewrite Heq. unfold num_entries, cm_fwd in *.
    destruct (Nat.eqb_spec j je) as [Ej|Ej]; cbn [negb orb andb];
    destruct (Z.leb_spec (i_curr_min it) (i_idx it)), (Z.eqb_spec (i_curr_min it) (i_end_idx it)), (Z.ltb_spec (i_idx it) (i_end_idx it));
      cbn [negb orb andb]; try (exfalso; lia); split; symmetry; (apply Z.ltb_lt || apply Z.ltb_ge); subst; lia.
  Qed.

  Lemma obs_curr : forall it j l, at_ it j l -> (0 <= i_idx it)%Z -> (gpos it j < Z.of_nat hi)%Z ->
    it_curr t it = nth_error E (Z.to_nat (gpos it j)).
  Proof.
    intros it j l [H1 H2 H3 (je & le & E1 & E2 & E3 & E4 & E5 & E6 & E7)] Hi Hg.
    unfold it_curr. rewrite H3, (leaf_at_nth j l H2). destruct (Z.ltb_spec (i_idx it) 0); [lia|].
    unfold gpos in *. unfold num_entries in *.
    assert (Hlt : (i_idx it < Z.of_nat (length (lcont l)))%Z).
    { destruct (Nat.eq_dec j je) as [->|]; [|lia]. assert (l = le) by congruence. subst le. lia. }
    replace (Z.to_nat (Z.of_nat (off j) + i_idx it)) with (off j + Z.to_nat (i_idx it)) by lia.
    symmetry. apply (nth_E j l); [exact H2|lia].
  Qed.

  (** ** Creating an iterator *)
  Definition rule_ok (rule : comparison_mode) (start : key) : Prop :=
    match rule with GreaterThan => bound_lt ord start mx | _ => True end.

  Lemma find_end_spec : exists f : key -> nat, (forall k1 k2, bound_le ord k1 k2 -> f k1 <= f k2) /\
    (forall k, inD D k -> exists l, lookup_leaf cfg (bt_h t) (bt_tree t) k = Some l /\ nth_error LS (f k) = Some l /\
       off (f k) <= lt_cnt k /\ le_cnt k <= off (S (f k))) /\
    exists le, nth_error LS (f mx) = Some le /\
      find_end cfg t mx = Some (lf_addr le, (Z.of_nat hi - Z.of_nat (off (f mx)))%Z) /\
      off (f mx) <= hi <= off (f mx) + length (lcont le).
  Proof.
    destruct lookup_pos as (f & Hm & Hf). exists f. split; [exact Hm|]. split; [exact Hf|].
    destruct (Hf mx Dmx) as (le & L1 & L2 & L3 & L4). exists le. split; [exact L2|].
    pose proof (off_S _ le L2) as HoS. pose proof (lt_le_cnt mx) as Hll. fold hi in L3, Hll.
    split; [|lia]. unfold find_end. rewrite L1.
    destruct (find_key_spec (f mx) le mx GreaterThanOrEqual L2 Dmx L3 L4) as (fd & Ef).
    cbn [rule_pos] in Ef. fold hi in Ef.
    destruct mx as [|b|] eqn:Emx; try (rewrite Ef; reflexivity).
    f_equal. f_equal. unfold num_entries, hi, lt_cnt. rewrite cnt_all by reflexivity.
    unfold le_cnt in L4. rewrite cnt_all in L4 by reflexivity. rewrite HoS in L4.
    assert (off (f KPosInf) + length (lcont le) <= length E).
    { rewrite E_concat, (concat_nth_split _ LL (f KPosInf) (lcont le)) by (unfold LL; now rewrite nth_error_map, L2).
      rewrite !app_length. unfold off. lia. }
    lia.
  Qed.

  Lemma init_spec : forall start rule, inD D start -> bound_le ord mn start -> bound_le ord start mx -> rule_ok rule start ->
    exists it j l, find_bounds cfg t mn mx start rule = Some it /\ at_ it j l /\
      gpos it j = rule_pos rule start /\
      ((rule = GreaterThanOrEqual \/ rule = GreaterThan) -> cm_fwd it) /\
      (cm_exact it j l \/
       ((rule = GreaterThanOrEqual \/ rule = GreaterThan) /\ (lo < off j) /\ i_idx it = 0%Z /\ i_curr_min it = 0%Z /\
        le_cnt start = off j)).
  Proof.
    intros start rule Ds Hs1 Hs2 Hrule.
    destruct find_end_spec as (f & Hm & Hf & le & Hle & Efe & Hhi).
    destruct (Hf start Ds) as (l & L1 & L2 & L3 & L4).
    remember (f start) as j eqn:Ej. remember (f mx) as je eqn:Eje.
    assert (Hjj : j <= je) by (subst; now apply Hm).
    pose proof (off_S j l L2) as HoS.
    pose proof (lt_cnt_mono _ _ Hs1) as HloS. fold lo in HloS.
    pose proof (lt_cnt_mono _ _ Hs2) as HhiS. fold hi in HhiS.
    pose proof (lt_le_cnt start) as Hll. pose proof (lt_le_cnt mn) as Hllm. fold lo in Hllm.
    assert (Hrp : (rule_pos rule start <= Z.of_nat hi)%Z).
    { destruct rule; cbn [rule_pos rule_ok] in *; try lia.
      pose proof (le_lt_cnt _ _ Hrule) as X. fold hi in X. lia. }
    assert (Hrp2 : (Z.of_nat (off j) - 1 <= rule_pos rule start <= Z.of_nat (off (S j)))%Z /\ (Z.of_nat lo - 1 <= rule_pos rule start)%Z)
      by (destruct rule; cbn [rule_pos]; lia).
    assert (Hrp3 : (rule = GreaterThanOrEqual \/ rule = GreaterThan) -> (Z.of_nat (off j) <= rule_pos rule start /\ Z.of_nat lo <= rule_pos rule start)%Z)
      by (intros [-> | ->]; cbn [rule_pos]; lia).
    cbv beta in Hhi, HoS. unfold find_bounds. rewrite L1, Efe.
    (* the minimum index *)
    destruct (find_tuple_counts j l mn L2 Dmn) as (fd & E1 & E2 & E3). fold lo in E2, E3.
    assert (Etmp : find_key_in_node cfg l mn GreaterThanOrEqual = Some (Z.of_nat (Nat.min (length (lcont l)) (lo - off j)), fd)).
    { unfold find_key_in_node. rewrite E1. f_equal. f_equal. destruct fd; lia. }
    rewrite Etmp. rewrite Nat.min_r in * by lia.
    destruct (find_key_spec j l start rule L2 Ds L3 L4) as (fs & ->).
    rewrite (prev_zero j l L2).
    remember (let cm := if negb fd && (Z.of_nat (lo - off j) =? 0)%Z then (Z.of_nat (lo - off j) - 1)%Z else Z.of_nat (lo - off j) in
              if (cm =? -1)%Z && Nat.eqb j 0 then 0%Z else cm) as cm eqn:Ecm. cbv zeta in Ecm |- *.
    assert (Hcm : (cm = (-1)%Z /\ 0 < j /\ lo <= off j) \/ (0 <= cm <= num_entries l /\ Z.of_nat (off j) + cm = Z.of_nat lo)%Z).
    { rewrite Ecm. clear Ecm. unfold num_entries. destruct fd; cbn [negb andb].
      - destruct (E3 eq_refl) as (e & He & Hk). clear E3.
        assert (Hlt : lo - off j < length (lcont l)) by (apply nth_error_Some; congruence).
        assert (Hn : nth_error E (off j + (lo - off j)) = Some e) by (rewrite (nth_E j l (lo - off j) L2 Hlt); exact He).
        assert (X : off j + (lo - off j) < le_cnt mn).
        { apply (cnt_nth _ _ E _ _ (leE_closed mn) Hn). rewrite Hk. cbn. apply Z.leb_le. rewrite (cmp_refl _ TO). lia. }
        replace (Z.of_nat (lo - off j) =? -1)%Z with false by (symmetry; apply Z.eqb_neq; lia). cbn [andb]. right. lia.
      - clear E3. destruct (Z.eqb_spec (Z.of_nat (lo - off j)) 0) as [Hz|Hz].
        + rewrite Hz. cbn [Z.sub Z.opp Z.add Z.pos_sub]. rewrite Z.eqb_refl. cbn [andb].
          destruct (Nat.eqb_spec j 0) as [->|Hj].
          * right. rewrite off_0 in *. lia.
          * left. lia.
        + replace (Z.of_nat (lo - off j) =? -1)%Z with false by (symmetry; apply Z.eqb_neq; lia). cbn [andb]. right. lia. }
    clear Ecm Etmp E1 E2 E3. cbn [i_curr i_end i_idx].
    rewrite (eqb_addr j je l le L2 Hle).
    destruct (negb (Nat.eqb j je) && (rule_pos rule start - Z.of_nat (off j) =? num_entries l)%Z) eqn:Ec.
    - (* past the last entry of a leaf that is not the end leaf *)
      apply andb_true_iff in Ec. destruct Ec as [Ec1 Ec2]. apply negb_true_iff, Nat.eqb_neq in Ec1. apply Z.eqb_eq in Ec2.
      destruct (nth_error LS (S j)) as [l2|] eqn:El2; [|apply nth_error_None in El2; assert (je < length LS) by (apply nth_error_Some; congruence); lia].
      unfold next_leaf. cbn [i_curr]. rewrite (next_nth j l l2 L2 El2), (leaf_at_nth (S j) l2 El2). cbn [option_map set_pos i_curr i_idx i_curr_min andb Z.eqb].
      assert (Hl2 : 2 <= length LS) by (assert (S j < length LS) by (apply nth_error_Some; congruence); lia).
      pose proof (nonempty_nth (S j) l2 El2 Hl2) as Hne. unfold num_entries in *.
      eexists _, (S j), l2. split; [reflexivity|]. split; [|split; [|split]].
      + constructor; cbn [set_pos i_min i_max i_curr i_idx i_curr_min i_end i_end_idx]; auto. exists je, le. unfold num_entries. repeat split; auto; lia.
      + unfold gpos. cbn [set_pos i_idx i_min i_max i_curr i_curr_min i_end i_end_idx]. lia.
      + intros _. unfold cm_fwd. cbn [set_pos i_min i_max i_curr i_idx i_curr_min i_end i_end_idx]. lia.
      + destruct (Nat.eq_dec lo (off (S j))) as [Heq|Hne2].
        * left. right. cbn [set_pos i_min i_max i_curr i_idx i_curr_min i_end i_end_idx]. unfold num_entries. lia.
        * assert (Hlo2 : lo <= off (S j)) by lia. pose proof (off_mono j je Hjj).
          destruct rule; cbn [rule_pos] in *; try (exfalso; lia).
          -- right. split; [now right|]. split; [lia|]. repeat split; lia.
          -- right. split; [now left|]. split; [lia|]. repeat split; lia.
    - cbn [i_curr_min i_idx].
      assert (Hidx : j < je -> (rule_pos rule start - Z.of_nat (off j) < num_entries l)%Z).
      { intros Hlt. destruct (Nat.eqb_spec j je); [lia|]. cbn [negb andb] in Ec. apply Z.eqb_neq in Ec. unfold num_entries in *. lia. }
      destruct ((cm =? -1)%Z && (rule_pos rule start - Z.of_nat (off j) =? -1)%Z) eqn:Ep.
      + apply andb_true_iff in Ep. destruct Ep as [Ep1 Ep2]. apply Z.eqb_eq in Ep1, Ep2.
        destruct Hcm as [(_ & Hj & Hlo)|Hcm]; [|lia]. destruct j as [|j]; [lia|].
        destruct (nth_error LS j) as [l'|] eqn:El'; [|apply nth_error_None in El'; assert (S j < length LS) by (apply nth_error_Some; congruence); lia].
        remember (BIt mn mx (lf_addr l) (rule_pos rule start - Z.of_nat (off (S j))) cm (lf_addr le) (Z.of_nat hi - Z.of_nat (off je))) as it0 eqn:Eit.
        destruct (prev_leaf_spec it0 j l l' ltac:(now subst) El' L2 ltac:(now subst) Hlo) as (c & -> & Hc).
        assert (Hl2 : 2 <= length LS) by (assert (S j < length LS) by (apply nth_error_Some; congruence); lia).
        pose proof (nonempty_nth j l' El' Hl2) as Hne. pose proof (off_S j l' El') as HoS'. unfold num_entries in *.
        eexists _, j, l'. split; [reflexivity|]. split; [|split; [|split]].
        * subst it0. constructor; cbn [set_pos i_min i_curr i_idx i_end i_end_idx]; auto.
          exists je, le. unfold num_entries. repeat split; auto; lia.
        * unfold gpos. cbn [set_pos i_idx]. lia.
        * intros X. specialize (Hrp3 X). lia.
        * left. unfold cm_exact, num_entries. cbn [set_pos i_curr_min i_idx]. destruct Hc as [Hc|Hc]; [left|right]; lia.
      + eexists _, j, l. split; [reflexivity|].
        assert (Hp : cm = (-1)%Z -> (0 <= rule_pos rule start - Z.of_nat (off j))%Z).
        { intros ->. destruct (Z.eqb_spec (rule_pos rule start - Z.of_nat (off j)) (-1)); [discriminate|]. lia. }
        split; [|split; [|split]].
        * constructor; cbn [set_pos i_min i_max i_curr i_idx i_curr_min i_end i_end_idx]; auto. exists je, le. unfold num_entries in *. repeat split; auto; try lia.
          intros Hj. rewrite <- Hj in *. lia.
        * unfold gpos. cbn [set_pos i_idx i_min i_max i_curr i_curr_min i_end i_end_idx]. lia.
        * intros X. specialize (Hrp3 X). unfold cm_fwd. cbn [set_pos i_min i_max i_curr i_idx i_curr_min i_end i_end_idx]. lia.
        * left. unfold cm_exact. cbn [i_curr_min i_idx]. unfold num_entries in *. destruct Hcm as [Hcm|Hcm]; [left|right]; lia.
  Qed.

  (** ** Scans *)
  Lemma hi_le : hi <= length E.
  Proof. apply cnt_le_length. Qed.

  Lemma fwd_scan : forall n it j l, at_ it j l -> cm_fwd it -> (Z.of_nat hi - gpos it j <= Z.of_nat n)%Z ->
    exists it', it_scan n (it_next t) t it =
      Some (firstn (hi - Z.to_nat (gpos it j)) (skipn (Z.to_nat (gpos it j)) E), it').
  Proof.
    induction n as [|n IH]; intros it j l Ha Hf Hn; cbn [it_scan]; destruct (obs_fwd it j l Ha Hf) as [_ Hc]; rewrite Hc.
    - destruct (Z.ltb_spec (gpos it j) (Z.of_nat hi)); [lia|]. cbn [negb].
      replace (hi - Z.to_nat (gpos it j)) with 0 by lia. eauto.
    - destruct (Z.ltb_spec (gpos it j) (Z.of_nat hi)) as [Hlt|Hge]; cbn [negb].
      + assert (Hi : (0 <= i_idx it)%Z) by (unfold cm_fwd in Hf; lia).
        assert (Hg : (0 <= gpos it j)%Z) by (unfold gpos; lia).
        rewrite (obs_curr it j l Ha Hi Hlt).
        destruct (next_step it j l Ha Hlt ltac:(lia)) as (it' & j' & l' & -> & Ha' & Hg' & _ & Hf').
        destruct (IH it' j' l' Ha' (Hf' Hf) ltac:(lia)) as (r & ->). rewrite Hg'.
        pose proof hi_le as Hhl.
        destruct (nth_error E (Z.to_nat (gpos it j))) as [e|] eqn:Ee; [|apply nth_error_None in Ee; lia].
        exists r. f_equal. f_equal. apply nth_error_split in Ee. destruct Ee as (A & B & HE & HA).
        replace (Z.to_nat (gpos it j + 1)) with (S (length A)) by lia. rewrite <- HA. rewrite HE.
        assert (X : forall (x : lent) A B, skipn (length A) (A ++ x :: B) = x :: B) by (intros; rewrite skipn_app, skipn_all, Nat.sub_diag; reflexivity).
        assert (Y : forall (x : lent) A B, skipn (S (length A)) (A ++ x :: B) = B).
        { intros x A0 B0. change (x :: B0) with ([x] ++ B0). rewrite app_assoc.
          replace (S (length A0)) with (length (A0 ++ [x])) by (rewrite app_length; cbn; lia).
          rewrite skipn_app, skipn_all, Nat.sub_diag. reflexivity. }
        rewrite X, Y. replace (hi - length A) with (S (hi - S (length A))) by lia. reflexivity.
      + replace (hi - Z.to_nat (gpos it j)) with 0 by lia. eauto.
  Qed.

  Lemma back_scan : forall n it j l, at_ it j l -> cm_exact it j l -> (gpos it j < Z.of_nat hi)%Z ->
    (gpos it j - Z.of_nat lo < Z.of_nat n)%Z ->
    exists it', it_scan n (it_prev cfg t) t it =
      Some (rev (firstn (Z.to_nat (gpos it j + 1 - Z.of_nat lo)) (skipn lo E)), it').
  Proof.
    induction n as [|n IH]; intros it j l Ha Hx Hh Hn; cbn [it_scan]; destruct (obs_exact it j l Ha Hx) as [Hc1 Hc2].
    - assert (Hc : it_can_curr it = false).
      { destruct (Nat.eq_dec lo hi) as [He|He]; [auto|]. pose proof lo_hi. destruct (Hc1 ltac:(lia)) as [Hp Hq].
        unfold it_can_curr. rewrite Hp. destruct (Z.leb_spec (Z.of_nat lo) (gpos it j)); [lia|]. apply andb_false_r. }
      rewrite Hc. cbn [negb]. replace (Z.to_nat (gpos it j + 1 - Z.of_nat lo)) with 0 by lia. eauto.
    - assert (Hlow : (Z.of_nat lo - 1 <= gpos it j)%Z).
      { unfold gpos, cm_exact in *. lia. }
      destruct (Z.leb_spec (Z.of_nat lo) (gpos it j)) as [Hle|Hgt].
      + assert (Hlt : lo < hi) by lia. destruct (Hc1 Hlt) as [Hp Hq]. unfold it_can_curr. rewrite Hp, Hq.
        destruct (Z.ltb_spec (gpos it j) (Z.of_nat hi)); [|lia]. destruct (Z.leb_spec (Z.of_nat lo) (gpos it j)); [|lia]. cbn [negb andb].
        assert (Hi : (0 <= i_idx it)%Z).
        { unfold gpos, cm_exact in *. lia. }
        rewrite (obs_curr it j l Ha Hi Hh).
        destruct (prev_step it j l Ha Hx Hle) as (it' & j' & l' & -> & Ha' & Hg' & Hx').
        destruct (IH it' j' l' Ha' Hx' ltac:(lia) ltac:(lia)) as (r & ->). rewrite Hg'.
        pose proof hi_le as Hhl.
        destruct (nth_error E (Z.to_nat (gpos it j))) as [e|] eqn:Ee; [|apply nth_error_None in Ee; lia].
        exists r. f_equal. f_equal.
        replace (Z.to_nat (gpos it j - 1 + 1 - Z.of_nat lo)) with (Z.to_nat (gpos it j) - lo) by lia.
        replace (Z.to_nat (gpos it j + 1 - Z.of_nat lo)) with (S (Z.to_nat (gpos it j) - lo)) by lia.
        assert (Hnth : nth_error (skipn lo E) (Z.to_nat (gpos it j) - lo) = Some e).
        { rewrite <- Ee. clear - Hle. replace (Z.to_nat (gpos it j)) with (lo + (Z.to_nat (gpos it j) - lo)) at 2 by lia.
          generalize (Z.to_nat (gpos it j) - lo). generalize lo E. intros a L n0. revert L. induction a as [|a IHa]; intros [|x L]; try reflexivity; [now destruct n0|].
          cbn. apply IHa. }
        rewrite (firstn_S_nth _ _ _ _ Hnth), rev_app_distr. reflexivity.
      + replace (Z.to_nat (gpos it j + 1 - Z.of_nat lo)) with 0 by lia.
        assert (Hc : it_can_curr it = false).
        { destruct (Nat.eq_dec lo hi) as [He|He]; [auto|]. pose proof lo_hi. destruct (Hc1 ltac:(lia)) as [Hp Hq].
          unfold it_can_curr. rewrite Hp. destruct (Z.leb_spec (Z.of_nat lo) (gpos it j)); [lia|]. apply andb_false_r. }
        rewrite Hc. cbn [negb]. eauto.
  Qed.

  Lemma moves_cursor : forall ms it j l i', at_ it j l -> cm_exact it j l ->
    cursor (Z.of_nat hi - Z.of_nat lo) ms (gpos it j - Z.of_nat lo) = Some i' ->
    exists it' j' l', it_moves cfg t ms it = Some it' /\ at_ it' j' l' /\ cm_exact it' j' l' /\ (gpos it' j' - Z.of_nat lo = i')%Z.
  Proof.
    induction ms as [|m ms IH]; intros it j l i' Ha Hx Hc; cbn [cursor it_moves] in *.
    - injection Hc as <-. exists it, j, l. auto.
    - destruct m.
      + destruct (Z.ltb_spec (gpos it j - Z.of_nat lo) (Z.of_nat hi - Z.of_nat lo)); [|discriminate].
        destruct (next_step it j l Ha ltac:(lia)) as (it' & j' & l' & -> & Ha' & Hg' & Hx' & _).
        { unfold cm_exact in Hx. lia. }
        apply (IH it' j' l'); auto. rewrite Hg'. rewrite <- Hc. f_equal. lia.
      + destruct (Z.leb_spec 0 (gpos it j - Z.of_nat lo)); [|discriminate].
        destruct (prev_step it j l Ha Hx ltac:(lia)) as (it' & j' & l' & -> & Ha' & Hg' & Hx').
        apply (IH it' j' l'); auto. rewrite Hg'. rewrite <- Hc. f_equal. lia.
  Qed.

  Lemma range_E : range ord mn mx E = firstn (hi - lo) (skipn lo E).
  Proof.
    unfold range, in_range.
    assert (X : forall (a b : lent -> bool) L, filter (fun e => a e && b e) L = filter a (filter b L)).
    { intros a b L. induction L as [|x L IH]; [reflexivity|]. cbn [filter]. destruct (b x) eqn:Eb; cbn [filter andb].
      - rewrite andb_true_r. destruct (a x); now rewrite IH.
      - rewrite andb_false_r. exact IH. }
    rewrite (X (fun e => negb (key_lt ord (fst e) mn)) (fun e => key_lt ord (fst e) mx)).
    rewrite (cnt_firstn _ _ E (ltE_closed mx)). fold (lt_cnt mx). fold hi.
    pose proof (ltE_closed mn) as Hcl. rewrite <- (firstn_skipn hi E) in Hcl. apply closed_app in Hcl. destruct Hcl as [Hcl _].
    rewrite (cnt_skipn _ (fun e : lent => key_lt ord (fst e) mn) _ Hcl).
    assert (Hlc : cnt (fun e : lent => key_lt ord (fst e) mn) (firstn hi E) = lo).
    { pose proof (ltE_closed mn) as Hc2. rewrite <- (firstn_skipn hi E) in Hc2.
      pose proof (cnt_mid _ (fun e : lent => key_lt ord (fst e) mn) [] (firstn hi E) (skipn hi E)) as Y. cbn [app length] in Y.
      rewrite (Y Hc2), (firstn_skipn hi E). fold (lt_cnt mn). fold lo. rewrite firstn_length_le by apply hi_le. pose proof lo_hi. lia. }
    rewrite Hlc. pose proof lo_hi. pose proof hi_le. apply skipn_firstn_comm.
  Qed.
End Iter.
