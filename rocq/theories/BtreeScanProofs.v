(** * Scans and cursors over a B-tree, for any bounds and start *)

From Coq Require Import List ZArith NArith Arith Bool Lia Sorting.Sorted.
From Verif Require Import Base Spec Spec_Range Spec_Merge Codec Search SearchProofs DataProofs CountProofs Page PageProofs PageBytes Btree
  BtreeLeafProofs BtreeProofs BtreeMapProofs BtreeRunProofs BtreeFlatProofs BtreeIter BtreeIterProofs.
Import ListNotations.

Lemma skipn_skipn' : forall A (l : list A) a b, skipn a (skipn b l) = skipn (b + a) l.
Proof. intros A l a b. revert l. induction b as [|b IH]; intros [|x l]; try reflexivity; [now destruct a|apply IH]. Qed.

Lemma filter_ext_in' : forall A (p q : A -> bool) l, (forall x, p x = q x) -> filter p l = filter q l.
Proof. intros A p q l H. induction l as [|x l IH]; [reflexivity|]. cbn. now rewrite H, IH. Qed.

Lemma filter_band : forall A (p q : A -> bool) L, filter (fun e => p e && q e) L = filter p (filter q L).
Proof.
  intros A a b L. induction L as [|x L IH]; [reflexivity|]. cbn [filter]. destruct (b x) eqn:Eb; cbn [filter andb].
  - rewrite andb_true_r. destruct (a x); now rewrite IH.
  - rewrite andb_false_r. exact IH.
Qed.

(** Two downward closed predicates cut out a segment. *)
Lemma filter_segment : forall A (p q : A -> bool) l, closed p l -> closed q l -> cnt p l <= cnt q l ->
  filter (fun e => negb (p e) && q e) l = firstn (cnt q l - cnt p l) (skipn (cnt p l) l).
Proof.
  intros A p q l Hp Hq Hle. rewrite (filter_band _ (fun e => negb (p e)) q), (cnt_firstn _ _ l Hq).
  remember (cnt q l) as n. assert (Hn : n <= length l) by (subst; apply cnt_le_length).
  pose proof Hp as Hcl. rewrite <- (firstn_skipn n l) in Hcl. pose proof Hcl as Hc2. apply closed_app in Hcl. destruct Hcl as [Hcl _].
  rewrite (cnt_skipn _ p _ Hcl).
  assert (Hlc : cnt p (firstn n l) = cnt p l).
  { pose proof (cnt_mid _ p [] (firstn n l) (skipn n l)) as Y. cbn [app length] in Y.
    rewrite (Y Hc2), (firstn_skipn n l), firstn_length_le by exact Hn. lia. }
  rewrite Hlc. apply skipn_firstn_comm.
Qed.

Section Scan.
  Variable cfg : data_config.
  Variable ord : bytes -> bytes -> Z.
  Hypothesis TO : total_order ord.
  Variable D : bytes -> Prop.
  Hypothesis AG : agrees cfg ord D.
  Variable t : bt.
  Hypothesis WF : wf_tree cfg ord D t.
  Let E := bt_entries t.
  Let OT := okey_TO cfg ord TO.

  Lemma bound_total : forall a b, bound_lt ord a b -> bound_le ord a b.
  Proof.
    intros a b H. unfold bound_lt in H. rewrite (bound_le_okey cfg ord) in *.
    pose proof (to_antisym _ OT) as Ha. pose proof (Ha a b). lia.
  Qed.
  Lemma bound_refl : forall a, bound_le ord a a.
  Proof. intros a. rewrite (bound_le_okey cfg ord). rewrite (cmp_refl _ OT). lia. Qed.
  Lemma bound_lt_okey : forall a b, bound_lt ord a b <-> (okey cfg ord a b < 0)%Z.
  Proof.
    intros a b. unfold bound_lt. rewrite (bound_le_okey cfg ord).
    pose proof (to_antisym _ OT) as Ha. pose proof (Ha a b). pose proof (Ha b a). lia.
  Qed.

  Lemma clamp : forall mn mx start rule, inD D mn -> inD D mx -> inD D start ->
    exists mx' s, it_init cfg t mn mx start rule = find_bounds cfg t mn mx' s rule /\
      inD D mx' /\ inD D s /\ bound_le ord mn mx' /\ bound_le ord mn s /\ bound_le ord s mx' /\
      ((mx' = mx /\ bound_le ord mn mx) \/ (mx' = mn /\ bound_le ord mx mn)) /\
      (s = start \/ (s = mn /\ bound_le ord start mn) \/ (s = mx' /\ bound_lt ord mx' start)).
  Proof.
    intros mn mx start rule H1 H2 H3. unfold it_init.
    rewrite !(cmp_gt0 cfg ord D AG), !(cmp_lt0 cfg ord D AG) by auto.
    remember (if (0 <? okey cfg ord mn mx)%Z then mn else mx) as mx' eqn:Em.
    assert (Hm : inD D mx' /\ bound_le ord mn mx' /\ ((mx' = mx /\ bound_le ord mn mx) \/ (mx' = mn /\ bound_le ord mx mn))).
    { subst mx'. destruct (Z.ltb_spec 0 (okey cfg ord mn mx)).
      - split; [auto|]. split; [apply bound_refl|]. right. split; [auto|]. apply bound_total. apply bound_lt_okey.
        pose proof (to_antisym _ OT) as Ha. apply Ha. lia.
      - split; [auto|]. assert (bound_le ord mn mx) by (apply (bound_le_okey cfg ord); lia). auto. }
    destruct Hm as (Hm1 & Hm2 & Hm3). clear Em.
    remember (if (okey cfg ord start mn <? 0)%Z then mn else start) as s1 eqn:Es.
    assert (Hs : inD D s1 /\ bound_le ord mn s1 /\ (s1 = start \/ (s1 = mn /\ bound_le ord start mn))).
    { subst s1. destruct (Z.ltb_spec (okey cfg ord start mn) 0).
      - split; [auto|]. split; [apply bound_refl|]. right. split; [auto|]. apply (bound_le_okey cfg ord). lia.
      - split; [auto|]. split; [|auto]. apply (bound_le_okey cfg ord). pose proof (to_antisym _ OT) as Ha. pose proof (Ha mn start). pose proof (Ha start mn). lia. }
    destruct Hs as (Hs1 & Hs2 & Hs3). clear Es.
    rewrite (cmp_gt0 cfg ord D AG) by auto.
    destruct (Z.ltb_spec 0 (okey cfg ord s1 mx')).
    - assert (bound_lt ord mx' s1) by (apply bound_lt_okey; pose proof (to_antisym _ OT) as Ha; apply Ha; lia).
      exists mx', mx'. repeat (split; [solve [auto | apply bound_refl]|]).
      destruct Hs3 as [->|[-> _]]; [auto|]. exfalso. apply H0. exact Hm2.
    - exists mx', s1. repeat (split; [solve [auto | apply (bound_le_okey cfg ord); lia]|]). tauto.
  Qed.

  Lemma bound_trans : forall a b c, bound_le ord a b -> bound_le ord b c -> bound_le ord a c.
  Proof. intros a b c. rewrite !(bound_le_okey cfg ord). apply (cmp_le_trans _ OT). Qed.

  (** A key at or above a bound. *)
  Definition ge (a : bytes) (k : key) : Prop := (okey cfg ord k (KUser a) <= 0)%Z.
  Lemma key_lt_ge : forall a k, key_lt ord a k = false <-> ge a k.
  Proof.
    intros a k. rewrite (okey_lt cfg ord), Z.ltb_ge. unfold ge. pose proof (to_antisym _ OT) as Ha.
    pose proof (Ha (KUser a) k). pose proof (Ha k (KUser a)). lia.
  Qed.
  Lemma ge_bound : forall a k1 k2, ge a k2 -> bound_le ord k1 k2 -> ge a k1.
  Proof. intros a k1 k2 H H2. unfold ge in *. rewrite (bound_le_okey cfg ord) in H2. eapply (cmp_le_trans _ OT); eauto. Qed.

  Ltac by_bounds :=
    repeat match goal with
           | |- context [key_lt ord ?a ?k] =>
               let X := fresh "X" in destruct (key_lt ord a k) eqn:X; try apply key_lt_ge in X
           end; cbn [negb andb]; try reflexivity; exfalso;
    repeat match goal with
           | H : key_lt ord ?a ?k = true |- _ =>
               rewrite (okey_lt cfg ord), Z.ltb_lt in H
           | H : ge _ _ |- _ => unfold ge in H
           | H : bound_le ord _ _ |- _ => rewrite (bound_le_okey cfg ord) in H
           | H : bound_lt ord _ _ |- _ => rewrite bound_lt_okey in H
           end.

  Lemma start_range : forall mn mx start mx' s a,
    bound_le ord mn s -> bound_le ord s mx' ->
    (mx' = mx /\ bound_le ord mn mx) \/ (mx' = mn /\ bound_le ord mx mn) ->
    s = start \/ (s = mn /\ bound_le ord start mn) \/ (s = mx' /\ bound_lt ord mx' start) ->
    negb (key_lt ord a s) && key_lt ord a mx' =
    negb (key_lt ord a start) && (negb (key_lt ord a mn) && key_lt ord a mx).
  Proof.
    intros mn mx start mx' s a H1 H2 H3 H4.
    pose proof (cmp_le_trans _ OT) as T1. pose proof (cmp_lt_le_trans _ OT) as T2.
    pose proof (fun x y z => cmp_le_lt_trans _ OT x y z) as T3. pose proof (to_trans _ OT) as T4.
    assert (N : forall x, (okey cfg ord x x < 0)%Z -> False) by (intros x X; rewrite (cmp_refl _ OT) in X; lia).
    assert (W : forall x y, (okey cfg ord x y < 0)%Z -> (okey cfg ord x y <= 0)%Z) by (intros; lia).
    destruct H3 as [[-> H3]|[-> H3]], H4 as [->|[[-> H4]|[-> H4]]]; by_bounds; eauto 6.
  Qed.

  Lemma start_range_lt : forall mn mx start mx' s a,
    bound_le ord mn s -> bound_le ord s mx' ->
    (mx' = mx /\ bound_le ord mn mx) \/ (mx' = mn /\ bound_le ord mx mn) ->
    s = start \/ (s = mn /\ bound_le ord start mn) \/ (s = mx' /\ bound_lt ord mx' start) ->
    negb (key_lt ord a mn) && key_lt ord a s =
    key_lt ord a start && (negb (key_lt ord a mn) && key_lt ord a mx).
  Proof.
    intros mn mx start mx' s a H1 H2 H3 H4.
    pose proof (cmp_le_trans _ OT) as T1. pose proof (cmp_lt_le_trans _ OT) as T2.
    pose proof (fun x y z => cmp_le_lt_trans _ OT x y z) as T3. pose proof (to_trans _ OT) as T4.
    assert (N : forall x, (okey cfg ord x x < 0)%Z -> False) by (intros x X; rewrite (cmp_refl _ OT) in X; lia).
    assert (W : forall x y, (okey cfg ord x y < 0)%Z -> (okey cfg ord x y <= 0)%Z) by (intros; lia).
    destruct H3 as [[-> H3]|[-> H3]], H4 as [->|[[-> H4]|[-> H4]]]; by_bounds; eauto 6.
  Qed.

  (** The position, among the tuples of the range, at which the iterator
      starts; and the starts for which it is the right one. *)
  Definition start_pos (rule : comparison_mode) (start : key) (R : list lent) : Z :=
    match rule with
    | LessThan => Z.of_nat (length (filter (fun e => key_lt ord (fst e) start) R)) - 1
    | LessThanOrEqual => Z.of_nat (length (filter (fun e => key_le ord (fst e) start) R)) - 1
    | GreaterThanOrEqual => Z.of_nat (length (filter (fun e => key_lt ord (fst e) start) R))
    | GreaterThan => Z.of_nat (length (filter (fun e => key_le ord (fst e) start) R))
    end.
  Definition start_ok (rule : comparison_mode) (mn mx start : key) : Prop :=
    match rule with
    | GreaterThanOrEqual | LessThan => True
    | GreaterThan | LessThanOrEqual => bound_le ord mn start /\ bound_lt ord start mx
    end.

  Let lo mn := lt_cnt ord t mn.

  Lemma range_seg : forall mn mx, bound_le ord mn mx ->
    range ord mn mx E = firstn (lo mx - lo mn) (skipn (lo mn) E).
  Proof.
    intros mn mx H. unfold range, in_range, lo, lt_cnt. apply filter_segment.
    - eapply ltE_closed; eauto.
    - eapply ltE_closed; eauto.
    - apply (lt_cnt_mono cfg ord TO t mn mx H).
  Qed.

  Lemma range_split : forall mn mx, bound_le ord mn mx -> exists A B, E = A ++ range ord mn mx E ++ B.
  Proof.
    intros mn mx H. rewrite (range_seg mn mx H).
    exists (firstn (lo mn) E), (skipn (lo mx - lo mn) (skipn (lo mn) E)). now rewrite !firstn_skipn.
  Qed.

  Lemma range_closed : forall mn mx p, bound_le ord mn mx -> closed p E -> closed p (range ord mn mx E).
  Proof.
    intros mn mx p H Hc. destruct (range_split mn mx H) as (A & B & Eq). rewrite Eq in Hc.
    apply closed_app in Hc. destruct Hc as [_ Hc]. now apply closed_app in Hc.
  Qed.

  Lemma range_length : forall mn mx, bound_le ord mn mx -> length (range ord mn mx E) = lo mx - lo mn.
  Proof.
    intros mn mx H. rewrite (range_seg mn mx H), firstn_length, skipn_length.
    pose proof (cnt_le_length _ (fun e : lent => key_lt ord (fst e) mx) E). unfold lo, lt_cnt. fold E. lia.
  Qed.

  Lemma range_clamped : forall mn mx mx',
    (mx' = mx /\ bound_le ord mn mx) \/ (mx' = mn /\ bound_le ord mx mn) ->
    range ord mn mx E = range ord mn mx' E.
  Proof.
    intros mn mx mx' [[-> _]|[-> H]]; [reflexivity|]. unfold range, in_range. apply filter_ext_in'. intros e.
    destruct (key_lt ord (fst e) mn) eqn:X; [reflexivity|]. cbn [negb andb].
    destruct (key_lt ord (fst e) mx) eqn:Y; [|reflexivity].
    pose proof (key_lt_bound cfg ord TO _ _ _ Y H). congruence.
  Qed.

  Lemma lt_in_range : forall mn mx start mx' s,
    bound_le ord mn s -> bound_le ord s mx' ->
    (mx' = mx /\ bound_le ord mn mx) \/ (mx' = mn /\ bound_le ord mx mn) ->
    s = start \/ (s = mn /\ bound_le ord start mn) \/ (s = mx' /\ bound_lt ord mx' start) ->
    length (filter (fun e => key_lt ord (fst e) start) (range ord mn mx E)) = lo s - lo mn.
  Proof.
    intros mn mx start mx' s H1 H2 H3 H4. unfold range. rewrite <- filter_band.
    rewrite <- (range_length mn s H1). unfold range, in_range. f_equal. apply filter_ext_in'. intros e. symmetry.
    apply (start_range_lt mn mx start mx' s (fst e)); auto.
  Qed.

  Lemma le_in_range : forall mn mx start, bound_le ord mn start -> bound_lt ord start mx ->
    length (filter (fun e => key_le ord (fst e) start) (range ord mn mx E)) = le_cnt ord t start - lo mn.
  Proof.
    intros mn mx start H1 H2. unfold range. rewrite <- filter_band.
    transitivity (length (filter (fun e => negb (key_lt ord (fst e) mn) && key_le ord (fst e) start) E)).
    - f_equal. apply filter_ext_in'. intros e. unfold in_range.
      destruct (key_le ord (fst e) start) eqn:X; cbn [andb]; [|now rewrite andb_false_r].
      rewrite andb_true_r. replace (key_lt ord (fst e) mx) with true; [apply andb_true_r|]. symmetry.
      rewrite (okey_le cfg ord), Z.leb_le in X. apply bound_lt_okey in H2.
      rewrite (okey_lt cfg ord). apply Z.ltb_lt. eapply (cmp_le_lt_trans _ OT); eauto.
    - rewrite filter_segment; [|eapply ltE_closed; eauto|eapply leE_closed; eauto|].
      + rewrite firstn_length, skipn_length.
        pose proof (cnt_le_length _ (fun e : lent => key_le ord (fst e) start) E). unfold lo, lt_cnt, le_cnt. fold E. lia.
      + pose proof (lt_cnt_mono cfg ord TO t mn start H1). pose proof (lt_le_cnt cfg ord TO D t WF start).
        unfold lt_cnt, le_cnt in *. fold E in H, H0. lia.
  Qed.

  (** The key the iterator is asked to start at, or one below all, is where
      it starts. *)
  Definition start_exact (rule : comparison_mode) (mn mx start : key) : Prop :=
    match rule with
    | LessThan | LessThanOrEqual => True
    | GreaterThanOrEqual =>
        bound_le ord start mn \/ (bound_le ord start mx /\ exists k, start = KUser k /\ In k (map fst E))
    | GreaterThan => False
    end.

  Lemma start_spec : forall mn mx start rule, inD D mn -> inD D mx -> inD D start -> start_ok rule mn mx start ->
    exists mx' it j l, it_init cfg t mn mx start rule = Some it /\ inD D mx' /\ bound_le ord mn mx' /\
      range ord mn mx E = range ord mn mx' E /\
      at_ ord t mn mx' it j l /\
      (gpos t it j = Z.of_nat (lo mn) + start_pos rule start (range ord mn mx E))%Z /\
      (gpos t it j <= Z.of_nat (lo mx'))%Z /\
      ((rule = GreaterThanOrEqual \/ rule = GreaterThan) -> cm_fwd it) /\
      ((rule = LessThanOrEqual \/ rule = LessThan) -> (gpos t it j < Z.of_nat (lo mx'))%Z \/ lo mx' = 0) /\
      (start_exact rule mn mx start -> cm_exact ord t mn it j l).
  Proof.
    intros mn mx start rule D1 D2 D3 Hok.
    destruct (clamp mn mx start rule D1 D2 D3) as (mx' & s & -> & D2' & D3' & B1 & B2 & B3 & C1 & C2).
    assert (Hs : (rule = GreaterThan \/ rule = LessThanOrEqual) -> s = start /\ mx' = mx).
    { intros Hr. assert (Hb : bound_le ord mn start /\ bound_lt ord start mx) by (destruct Hr as [-> | ->]; exact Hok).
      destruct Hb as [Hb1 Hb2]. assert (Hm : mx' = mx).
      { destruct C1 as [[-> _]|[-> C1]]; [reflexivity|]. exfalso. apply Hb2. eapply bound_trans; eauto. }
      subst mx'. split; [|reflexivity]. destruct C2 as [->|[[-> X]|[-> X]]]; [reflexivity| |].
      - destruct (Z.eq_dec (okey cfg ord start mn) 0) as [Z0|Z0]; [apply (to_eq _ OT) in Z0; auto|].
        exfalso. rewrite (bound_le_okey cfg ord) in *. pose proof (to_antisym _ OT start mn). lia.
      - exfalso. apply X. now apply bound_total. }
    assert (Hro : rule_ok ord mx' rule s).
    { destruct rule; cbn [rule_ok]; trivial. destruct Hs as [-> ->]; auto. apply Hok. }
    destruct (init_spec cfg ord TO D AG t WF mn mx' D1 D2' B1 s rule D3' B2 B3 Hro) as (it & j & l & Ei & Ha & Hg & Hf & Hx).
    pose proof (lt_cnt_mono cfg ord TO t _ _ B2) as M1. pose proof (lt_cnt_mono cfg ord TO t _ _ B3) as M2.
    pose proof (lt_le_cnt cfg ord TO D t WF s) as M3.
    assert (Hpos : (gpos t it j = Z.of_nat (lo mn) + start_pos rule start (range ord mn mx E))%Z /\ (gpos t it j <= Z.of_nat (lo mx'))%Z /\
      ((rule = LessThanOrEqual \/ rule = LessThan) -> (gpos t it j < Z.of_nat (lo mx'))%Z \/ lo mx' = 0)).
    { rewrite Hg. unfold lo. pose proof (lt_in_range mn mx start mx' s B2 B3 C1 C2) as L1. unfold lo in L1.
      assert (L2 : rule = GreaterThan \/ rule = LessThanOrEqual ->
        length (filter (fun e => key_le ord (fst e) start) (range ord mn mx E)) = le_cnt ord t start - lt_cnt ord t mn /\
        s = start /\ le_cnt ord t start <= lt_cnt ord t mx').
      { intros Hr. destruct (Hs Hr) as [-> ->].
        assert (Hb : bound_le ord mn start /\ bound_lt ord start mx) by (destruct Hr as [-> | ->]; exact Hok).
        split; [apply le_in_range; apply Hb|]. split; [reflexivity|]. apply (le_lt_cnt cfg ord TO). apply Hb. }
      destruct rule; cbn [rule_pos start_pos].
      - rewrite L1. split; [lia|]. split; [lia|]. intros _. destruct (lt_cnt ord t mx'); [auto|]. left. lia.
      - destruct L2 as (L2 & -> & L3); [auto|]. rewrite L2. split; [lia|]. split; [lia|]. intros _. destruct (lt_cnt ord t mx'); [auto|]. left. lia.
      - destruct L2 as (L2 & -> & L3); [auto|]. rewrite L2. split; [lia|]. split; [lia|]. intros [?|?]; discriminate.
      - rewrite L1. split; [lia|]. split; [lia|]. intros [?|?]; discriminate. }
    destruct Hpos as (P1 & P2 & P3).
    exists mx', it, j, l. split; [exact Ei|]. split; [exact D2'|]. split; [exact B1|]. split; [now apply range_clamped|].
    split; [exact Ha|]. split; [exact P1|]. split; [exact P2|]. split; [exact Hf|]. split; [exact P3|].
    intros He. destruct Hx as [Hx|(Hr & X1 & X2 & X3 & X4)]; [exact Hx|]. exfalso.
    destruct Hr as [-> | ->]; [|exact He]. cbn [start_exact] in He. cbn [rule_pos] in Hg.
    assert (Hgj : gpos t it j = Z.of_nat (off t j)) by (unfold gpos; lia).
    destruct He as [He|(Hle & k & -> & Hin)].
    - destruct C2 as [->|[[-> _]|[-> X]]].
      + pose proof (lt_cnt_mono cfg ord TO t _ _ He). lia.
      + lia.
      + apply X. eapply bound_trans; eauto.
    - destruct C2 as [->|[[-> X]|[-> X]]].
      + assert (lt_cnt ord t (KUser k) < le_cnt ord t (KUser k)); [|lia].
        apply in_map_iff in Hin. destruct Hin as (e & <- & Hin). apply In_nth_error in Hin. destruct Hin as (n & Hn).
        pose proof (cnt_nth _ _ E n e (ltE_closed cfg ord TO D t WF (KUser (fst e))) Hn) as Y1.
        pose proof (cnt_nth _ _ E n e (leE_closed cfg ord TO D t WF (KUser (fst e))) Hn) as Y2.
        cbn [key_lt key_le] in Y1, Y2. rewrite (cmp_refl _ TO) in Y1, Y2. cbn in Y1, Y2.
        unfold lt_cnt, le_cnt, lt_cnt. fold E.
        assert (~ n < cnt (fun e0 : lent => key_lt ord (fst e0) (KUser (fst e))) E) by (intros Z1; apply Y1 in Z1; discriminate).
        assert (n < cnt (fun e0 : lent => key_le ord (fst e0) (KUser (fst e))) E) by (apply Y2; reflexivity).
        cbn [key_lt key_le] in *. lia.
      + lia.
      + apply X. destruct C1 as [[-> _]|[-> C1]]; [exact Hle|]. eapply bound_trans; eauto.
  Qed.

  Lemma filter_ge_range : forall mn mx p, bound_le ord mn mx -> closed p E ->
    filter (fun e => negb (p e)) (range ord mn mx E) =
    skipn (length (filter p (range ord mn mx E))) (range ord mn mx E).
  Proof. intros mn mx p H Hc. apply (cnt_skipn _ p). now apply range_closed. Qed.

  Lemma filter_lt_range : forall mn mx p, bound_le ord mn mx -> closed p E ->
    filter p (range ord mn mx E) =
    firstn (length (filter p (range ord mn mx E))) (range ord mn mx E).
  Proof. intros mn mx p H Hc. apply (cnt_firstn _ p). now apply range_closed. Qed.

  Lemma forward_scan : forall mn mx start rule, inD D mn -> inD D mx -> inD D start -> start_ok rule mn mx start ->
    rule = GreaterThanOrEqual \/ rule = GreaterThan ->
    exists it it', it_init cfg t mn mx start rule = Some it /\
      it_scan (length E) (it_next t) t it =
      Some (skipn (Z.to_nat (start_pos rule start (range ord mn mx E))) (range ord mn mx E), it').
  Proof.
    intros mn mx start rule D1 D2 D3 Hok Hr.
    destruct (start_spec mn mx start rule D1 D2 D3 Hok) as (mx' & it & j & l & Ei & D2' & B1 & Er & Ha & Hg & Hg2 & Hf & _ & _).
    assert (Hp : (0 <= start_pos rule start (range ord mn mx E))%Z) by (destruct Hr as [-> | ->]; cbn [start_pos]; lia).
    destruct (fwd_scan cfg ord D t WF mn mx' D1 B1 (length E) it j l Ha (Hf Hr)) as (it' & Es).
    { pose proof (hi_le ord t mx'). fold E in H. lia. }
    exists it, it'. split; [exact Ei|]. rewrite Es. f_equal. f_equal. rewrite Er at 2. rewrite (range_seg mn mx' B1).
    fold E. unfold lo in *. rewrite skipn_firstn_comm, skipn_skipn'. f_equal; [lia|]. f_equal. lia.
  Qed.

  Lemma backward_scan : forall mn mx start rule, inD D mn -> inD D mx -> inD D start -> start_ok rule mn mx start ->
    rule = LessThanOrEqual \/ rule = LessThan ->
    exists it it', it_init cfg t mn mx start rule = Some it /\
      it_scan (length E) (it_prev cfg t) t it =
      Some (rev (firstn (Z.to_nat (start_pos rule start (range ord mn mx E) + 1)) (range ord mn mx E)), it').
  Proof.
    intros mn mx start rule D1 D2 D3 Hok Hr.
    destruct (start_spec mn mx start rule D1 D2 D3 Hok) as (mx' & it & j & l & Ei & D2' & B1 & Er & Ha & Hg & Hg2 & _ & Hl & Hx).
    assert (Hx' : cm_exact ord t mn it j l) by (apply Hx; destruct Hr as [-> | ->]; exact I). clear Hx.
    pose proof (hi_le ord t mx') as Hh. fold E in Hh. pose proof (range_length mn mx' B1) as Hlen.
    assert (Hlt : (gpos t it j < Z.of_nat (lo mx'))%Z).
    { destruct (Hl Hr) as [X|X]; [exact X|].
      assert (Hp : (start_pos rule start (range ord mn mx E) < 0)%Z).
      { rewrite X in Hlen. rewrite <- Er in Hlen. destruct (range ord mn mx E); [|discriminate].
        destruct Hr as [-> | ->]; cbn; lia. }
      pose proof (lt_cnt_mono cfg ord TO t _ _ B1). unfold lo in *. lia. }
    destruct (back_scan cfg ord TO D AG t WF mn mx' D1 B1 (length E) it j l Ha Hx' Hlt) as (it' & Es).
    { unfold lo in *. destruct E eqn:EE; cbn [length] in *; lia. }
    exists it, it'. split; [exact Ei|]. rewrite Es. f_equal. f_equal. f_equal. rewrite Er at 2. rewrite (range_seg mn mx' B1).
    rewrite firstn_firstn. fold E. unfold lo in *. f_equal. lia.
  Qed.

  (** What the user sees at position [i] of [n] tuples [R]. *)
  Definition shows (it : bit) (R : list lent) (i : Z) : Prop :=
    (R <> [] -> it_can_prev it = (0 <=? i)%Z /\ it_can_next it = (i <? Z.of_nat (length R))%Z) /\
    (R = [] -> it_can_curr it = false) /\
    ((0 <= i < Z.of_nat (length R))%Z -> it_curr t it = nth_error R (Z.to_nat i)).

  Lemma nth_skipn : forall A (l : list A) a n, nth_error (skipn a l) n = nth_error l (a + n).
  Proof. intros A l a. revert l. induction a as [|a IH]; intros [|x l] n; try reflexivity; [now destruct n|apply IH]. Qed.
  Lemma nth_firstn : forall A (l : list A) a n, n < a -> nth_error (firstn a l) n = nth_error l n.
  Proof. intros A l. induction l as [|x l IH]; intros [|a] n H; try reflexivity; [lia|]. destruct n; [reflexivity|]. cbn. apply IH. lia. Qed.

  Lemma cursor_spec : forall mn mx start rule ms i, inD D mn -> inD D mx -> inD D start -> start_ok rule mn mx start ->
    start_exact rule mn mx start ->
    let R := range ord mn mx E in
    cursor (Z.of_nat (length R)) ms (start_pos rule start R) = Some i ->
    exists it it', it_init cfg t mn mx start rule = Some it /\ it_moves cfg t ms it = Some it' /\ shows it' R i.
  Proof.
    intros mn mx start rule ms i D1 D2 D3 Hok He R Hc.
    destruct (start_spec mn mx start rule D1 D2 D3 Hok) as (mx' & it & j & l & Ei & D2' & B1 & Er & Ha & Hg & _ & _ & _ & Hx).
    pose proof (range_length mn mx' B1) as Hlen. rewrite <- Er in Hlen. fold R in Hlen.
    pose proof (lt_cnt_mono cfg ord TO t _ _ B1) as HM. pose proof (hi_le ord t mx') as Hh. fold E in Hh.
    destruct (moves_cursor cfg ord TO D AG t WF mn mx' D1 ms it j l i Ha (Hx He)) as (it' & j' & l' & Em & Ha' & Hx' & Hi').
    { fold R in Hg. rewrite Hg. rewrite <- Hc. unfold lo in *. f_equal; lia. }
    exists it, it'. split; [exact Ei|]. split; [exact Em|].
    destruct (obs_exact cfg ord D t WF mn mx' D1 B1 it' j' l' Ha' Hx') as [O1 O2]. unfold lo in Hlen.
    split; [|split].
    - intros HR. assert (Hlt : lt_cnt ord t mn < lt_cnt ord t mx') by (destruct R; [now destruct HR|cbn [length] in Hlen; lia]).
      destruct (O1 Hlt) as [X Y]. rewrite X, Y. rewrite <- Hi', Hlen. split.
      + destruct (Z.leb_spec (Z.of_nat (lt_cnt ord t mn)) (gpos t it' j')), (Z.leb_spec 0 (gpos t it' j' - Z.of_nat (lt_cnt ord t mn))); auto; lia.
      + destruct (Z.ltb_spec (gpos t it' j') (Z.of_nat (lt_cnt ord t mx'))),
          (Z.ltb_spec (gpos t it' j' - Z.of_nat (lt_cnt ord t mn)) (Z.of_nat (lt_cnt ord t mx' - lt_cnt ord t mn))); auto; lia.
    - intros HR. rewrite HR in Hlen. apply O2. cbn [length] in Hlen. lia.
    - intros Hrange. rewrite Hlen in Hrange.
      assert (Hidx : (0 <= i_idx it')%Z) by (unfold cm_exact, gpos in *; lia).
      rewrite (obs_curr cfg ord D t WF mn mx' it' j' l' Ha' Hidx) by lia.
      unfold R. rewrite Er, (range_seg mn mx' B1). unfold lo. rewrite nth_firstn by lia. rewrite nth_skipn. fold E. f_equal. lia.
  Qed.
End Scan.
