(** * Merge iterators over disjoint sources are cursors *)

From Coq Require Import List ZArith NArith Bool Lia Permutation Sorted Arith Wf_nat.
From Verif Require Import Base Spec Spec_Merge DataProofs Merge MergeProofs MergeRunProofs MergeScanProofs.
Import ListNotations.
Local Open Scope Z_scope.

Lemma split_sorted : forall (ord : bytes -> bytes -> Z), total_order ord -> forall (W : list (bytes * message)) i k d,
  ascending ord W -> nth_error W i = Some (k, d) ->
  (forall p, In p (skipn (S i) W) <-> In p W /\ ord k (fst p) < 0) /\
  (forall p, In p (firstn i W) <-> In p W /\ ord (fst p) k < 0).
Proof.
  intros ord TO W. induction W as [|w W IH]; intros i k d HS E; [destruct i; discriminate|].
  inversion HS as [|? ? HS' HF]; subst. rewrite Forall_forall in HF. destruct i as [|i].
  - cbn in E. injection E as ->. cbn [skipn firstn fst] in *. split; intros p; cbn [In].
    + split; [intros H; split; [now right|now apply HF]|]. intros [[<-|H] Hlt]; [|exact H].
      exfalso. now apply (o_irr ord TO k).
    + split; [intros []|]. intros [[<-|H] Hlt]; [now apply (o_irr ord TO k)|].
      specialize (HF p H). apply (o_irr ord TO k). now apply (o_trans ord TO _ (fst p)).
  - cbn [nth_error] in E. destruct (IH i k d HS' E) as [A B]. 
    assert (ord (fst w) k < 0) as Hwk by (apply nth_error_In in E; exact (HF (k, d) E)).
    cbn [skipn]. split; intros p.
    + change (skipn (S i) (w :: W)) with (skipn i W) in *. rewrite A. cbn [In]. split; [tauto|].
      intros [[<-|H] Hlt]; [|auto]. exfalso. apply (o_irr ord TO k). now apply (o_trans ord TO _ (fst w)).
    + cbn [firstn In]. rewrite B. split; [intros [<-|H]; tauto|]. tauto.
Qed.

Lemma upward : forall (ord : bytes -> bytes -> Z) (P : bytes * message -> Prop) (W : list (bytes * message)),
  (forall p, In p W -> P p \/ ~ P p) ->
  (forall p q, In p W -> In q W -> P p -> ord (fst p) (fst q) < 0 -> P q) ->
  ascending ord W ->
  exists j, (j <= length W)%nat /\ forall p, In p (skipn j W) <-> In p W /\ P p.
Proof.
  intros ord P W. induction W as [|w W IH]; intros Hd Hu HS; [exists O; split; [reflexivity|]; cbn; tauto|].
  inversion HS as [|? ? HS' HF]; subst. rewrite Forall_forall in HF.
  destruct (Hd w (or_introl eq_refl)) as [Hp|Hp].
  - exists O. split; [cbn; lia|]. intros p. cbn [skipn]. split; [|tauto]. intros H. split; [exact H|].
    destruct H as [<-|H]; [exact Hp|]. apply (Hu w p); auto; [now left|now right].
  - destruct (IH (fun p H => Hd p (or_intror H)) (fun p q H1 H2 => Hu p q (or_intror H1) (or_intror H2)) HS') as (j & Hj & Hi).
    exists (S j). split; [cbn [length]; lia|]. intros p. cbn [skipn]. rewrite Hi. cbn [In]. split; [tauto|].
    intros [[<-|H] Hpp]; [contradiction|auto].
Qed.

Section Cursor.
  Variable cfg : data_config.
  Variable ord : bytes -> bytes -> Z.
  Hypothesis TO : total_order ord.
  Variable D : bytes -> Prop.
  Hypothesis AG : agrees cfg ord D.
  Variable srcs : list src.
  Hypothesis SC : sources cfg ord D srcs.
  Variable md : mode.
  Hypothesis Hmd : md <> Raw.

  Let n := length srcs.
  Let ITS := map s_items srcs.

  Hypothesis DJ : forall s1 s2 k m1 m2, In s1 (seqs_of n) -> In s2 (seqs_of n) ->
    In (k, m1) (at_seq ITS s1) -> In (k, m2) (at_seq ITS s2) -> s1 = s2.

  Variable W : list (bytes * message).
  Hypothesis WS : ascending ord W.
  Definition from (R : Z -> list (bytes * message)) (k : bytes) (d : message) : Prop :=
    exists s m, In s (seqs_of n) /\ In (k, m) (R s) /\ finish cfg md k m = Some d /\ kept md d = true.
  Hypothesis WI : forall k d, In (k, d) W <-> from (at_seq ITS) k d.

  (** [R] gives part of each source, in the direction's order. *)
  Definition part (f : bool) (R : Z -> list (bytes * message)) : Prop :=
    forall s, In s (seqs_of n) ->
      StronglySorted (fun a b => dord ord f (fst a) (fst b) < 0) (R s) /\
      forall p, In p (R s) -> In p (at_seq ITS s).

  Lemma flat_map_single : forall {A B} (f : A -> list B) l x, NoDup l -> In x l ->
    (forall y, In y l -> y <> x -> f y = []) -> flat_map f l = f x.
  Proof.
    intros A B f l x Hn. induction Hn as [|a l Ha Hn IH]; intros Hx Hy; [destruct Hx|]. cbn [flat_map].
    destruct Hx as [->|Hx].
    - assert (flat_map f l = []) as ->; [|apply app_nil_r]. clear IH Hn.
      induction l as [|b l IH]; [reflexivity|]. cbn [flat_map]. rewrite (Hy b); [|right; now left|intros ->; apply Ha; now left].
      apply IH; [intros H; apply Ha; now right|]. intros y Hy'. apply Hy. destruct Hy' as [<-|H]; [now left|right; now right].
    - rewrite (Hy a); [|now left|intros ->; contradiction]. apply IH; [exact Hx|]. intros y H. apply Hy. now right.
  Qed.

  Lemma dj_spec : forall f R L, part f R -> 
    StronglySorted (fun a b => dord ord f (fst a) (fst b) < 0) L -> (forall k d, In (k, d) L <-> from R k d) ->
    spec_out cfg ord f (seqs_of n) md R L.
  Proof.
    intros f R L HP HS HL. split; [exact HS|]. intros k d. rewrite HL. 
    assert (forall s m, In s (seqs_of n) -> In (k, m) (R s) -> msgs (seqs_of n) R k = [m]) as H1.
    { intros s m Hs Hm. unfold msgs. rewrite (flat_map_single _ _ s).
      - apply (messages_single ord TO f); [now apply HP|exact Hm].
      - apply seqs_nodup. apply seqs_sorted.
      - exact Hs.
      - intros s' Hs' Hne. apply messages_none. intros m' Hm'. apply Hne. apply (DJ s' s k m' m); auto; now apply HP. }
    split.
    - intros (s & m & Hs & Hm & Hf & Hk). exists m. rewrite (H1 s m Hs Hm). auto.
    - intros (c & Hc & Hf & Hk). assert (exists m, In m (msgs (seqs_of n) R k)) as (m & Hm).
      { destruct (msgs (seqs_of n) R k) as [|m r]; [discriminate|]. exists m. now left. }
      apply msgs_in in Hm. destruct Hm as (s & Hs & Hm). rewrite (H1 s m Hs Hm) in Hc. injection Hc as <-. exists s, m. auto.
  Qed.

  (** ** States *)

  Notation INV := (fun f => inv ord D f (at_seq ITS) (seqs_of n)).
  Notation POS := (fun f => pos ord D f (at_seq ITS) (seqs_of n)).
  Notation END := (fun f => at_end ord D f (at_seq ITS) (seqs_of n)).
  Notation SET := (fun f => settled cfg ord D f (at_seq ITS) (seqs_of n) md).

  Definition cur (st : mi) (i : Z) : Prop :=
    m_mode st = md /\ exists f,
      (exists k d Rn, POS f st k d Rn /\ 0 <= i < Z.of_nat (length W) /\ nth_error W (Z.to_nat i) = Some (k, d)) \/
      (END f st /\ i = if f then Z.of_nat (length W) else -1).

  (** What is at and after position [j], in the direction's order. *)
  Definition Wf (f : bool) (j : Z) : list (bytes * message) :=
    if f then skipn (Z.to_nat j) W else rev (firstn (Z.to_nat (j + 1)) W).

  Lemma inv_item : forall f st live dead R x p, INV f st live dead R -> In x (live ++ dead) ->
    (In p (at_seq ITS (o_seq x)) <-> In p (done f (o_src x)) \/ In p (rest f (o_src x))).
  Proof.
    intros f st live dead R x p I0 Hx. pose proof (i_src _ _ _ _ _ _ _ _ _ I0) as Hs. rewrite Forall_forall in Hs.
    rewrite <- (i_items _ _ _ _ _ _ _ _ _ I0 x Hx). rewrite <- in_app_iff.
    rewrite (done_rest ord D f _ (Hs x Hx)). destruct f; [reflexivity|]. apply in_rev.
  Qed.

  Lemma inv_part : forall f st live dead R, INV f st live dead R -> part f R.
  Proof.
    intros f st live dead R I0 s Hs. destruct (inv_arr_in _ _ _ _ _ _ _ _ _ _ I0 Hs) as (x & Hx & Ex & Ok & Er).
    rewrite <- Er. split; [now apply (rest_sorted ord D)|]. intros p Hp. rewrite <- Ex. apply (inv_item _ _ _ _ _ _ _ I0 Hx). now right.
  Qed.

  Lemma part_allowed : forall f R, part f R -> allowed_R cfg (seqs_of n) R.
  Proof.
    intros f R HP s b Hs Hb. apply (HP s Hs) in Hb. apply at_seq_in in Hb. destruct Hb as (l & Hl & Hb).
    exact (allowed_items cfg ord D srcs SC l s b Hl Hb Hs).
  Qed.

  Lemma dj_bits : forall f st live dead R, INV f st live dead R -> Forall (fun x => o_eq x = false) live.
  Proof.
    intros f st live dead R I0.
    assert (forall x, In x live -> exists m, In (key_of x, m) (at_seq ITS (o_seq x))) as HK.
    { intros x Hx. pose proof (in_or_app live dead x (or_introl Hx)) as Hxa.
      pose proof (i_live _ _ _ _ _ _ _ _ _ I0) as Hl. rewrite Forall_forall in Hl. destruct (Hl x Hx) as (Cc & k & m & Ec & Ek & _).
      pose proof (i_src _ _ _ _ _ _ _ _ _ I0) as Hs. rewrite Forall_forall in Hs.
      destruct (rest_step ord D f _ (Hs x Hxa) Cc) as (k' & m' & Ec' & Er & _). exists m.
      apply (inv_item _ _ _ _ _ _ _ I0 Hxa). right. rewrite Er. left. unfold key_of. rewrite Ek. congruence. }
    assert (NoDup (map o_seq live)) as Hn.
    { pose proof (i_nodup _ _ _ _ _ _ _ _ _ I0) as H. rewrite map_app in H. clear - H.
      induction (map o_seq live) as [|a l IH]; [constructor|]. cbn [app] in H. inversion H; subst. constructor; [|auto].
      intros Hi. apply H2. apply in_or_app. now left. }
    assert (forall x, In x live -> In (o_seq x) (seqs_of n)) as Hsq.
    { intros x Hx. apply (i_seqs _ _ _ _ _ _ _ _ _ I0). apply in_map. apply in_or_app. now left. }
    pose proof (i_bits _ _ _ _ _ _ _ _ _ I0) as HB. clear I0.
    induction live as [|x [|y t] IH]; [constructor| |].
    - constructor; [exact HB|constructor].
    - cbn [bits] in HB. destruct HB as [B1 B2]. cbn [map] in Hn. inversion Hn as [|? ? Hx Hn']; subst. constructor.
      + destruct (o_eq x) eqn:E; [|reflexivity]. exfalso. pose proof (proj1 B1 eq_refl) as Ek.
        destruct (HK x (or_introl eq_refl)) as (m1 & H1). destruct (HK y (or_intror (or_introl eq_refl))) as (m2 & H2).
        rewrite <- Ek in H2. apply Hx. left. symmetry. apply (DJ _ _ _ _ _ (Hsq x (or_introl eq_refl)) (Hsq y (or_intror (or_introl eq_refl))) H1 H2).
      + apply IH; auto. intros w Hw. apply HK. now right. intros w Hw. apply Hsq. now right.
  Qed.

  Lemma keys_around : forall f st z t dead R, INV f st (z :: t) dead R ->
    forall x k' m, In x ((z :: t) ++ dead) ->
      (In (k', m) (done f (o_src x)) <-> In (k', m) (at_seq ITS (o_seq x)) /\ dord ord f k' (key_of z) < 0) /\
      (In (k', m) (if o_seq x =? o_seq z then tl (R (o_seq x)) else R (o_seq x)) <->
       In (k', m) (at_seq ITS (o_seq x)) /\ dord ord f (key_of z) k' < 0).
  Proof.
    intros f st z t dead R I0 x k' m Hx.
    pose proof (dord_total ord f TO) as TD.
    pose proof (i_src _ _ _ _ _ _ _ _ _ I0) as Hs. rewrite Forall_forall in Hs.
    assert (In z ((z :: t) ++ dead)) as Hz by now left.
    destruct (R_head _ _ _ _ _ _ _ _ _ _ z I0 (or_introl eq_refl)) as (mz & rz & ERz & _ & _ & _ & Hsz & Hgz).
    assert (In (key_of z, mz) (rest f (o_src z))) as Hzr by (rewrite (i_R _ _ _ _ _ _ _ _ _ I0 z Hz), ERz; now left).
    assert (In (o_seq x) (seqs_of n)) as Hsx by (apply (i_seqs _ _ _ _ _ _ _ _ _ I0); now apply in_map).
    assert (In (key_of z, mz) (at_seq ITS (o_seq z))) as Hzi by (apply (inv_item _ _ _ _ _ _ _ I0 Hz); now right).
    assert (forall b, In b (rest f (o_src x)) -> dord ord f (key_of z) (fst b) <= 0) as Hmin.
    { intros b Hb. rewrite (i_R _ _ _ _ _ _ _ _ _ I0 x Hx) in Hb. now apply (R_min _ TO _ _ _ _ _ _ _ _ _ _ _ I0 Hsx Hb). }
    assert (forall m', In (key_of z, m') (at_seq ITS (o_seq x)) -> o_seq x = o_seq z) as Hsame.
    { intros m' H. exact (DJ _ _ _ _ _ Hsx Hsz H Hzi). }
    assert (forall a, In a (done f (o_src x)) -> dord ord f (fst a) (key_of z) < 0) as Hdone.
    { intros a Ha. pose proof (i_cut _ _ _ _ _ _ _ _ _ I0 x z a _ Hx Hz Ha Hzr) as C. cbn [fst] in C.
      destruct (Z.eq_dec (dord ord f (fst a) (key_of z)) 0) as [E|E]; [|lia]. exfalso. apply (to_eq _ TD) in E.
      assert (o_seq x = o_seq z) as Eq.
      { destruct a as [ka ma]. cbn [fst] in E. subst ka. apply (Hsame ma). apply (inv_item _ _ _ _ _ _ _ I0 Hx). now left. }
      assert (x = z) as ->.
      { pose proof (i_nodup _ _ _ _ _ _ _ _ _ I0) as Hn. clear - Hn Hx Hz Eq. induction ((z :: t) ++ dead) as [|w l IH]; [destruct Hx|].
        cbn [map] in Hn. inversion Hn; subst. destruct Hx as [->|Hx], Hz as [->|Hz]; auto.
        - exfalso. apply H1. rewrite Eq. now apply in_map.
        - exfalso. apply H1. rewrite <- Eq. now apply in_map. }
      pose proof (all_sorted ord D f _ (Hs z Hz)) as HA. apply SS_app in HA. destruct HA as (_ & _ & HA).
      specialize (HA _ _ Ha Hzr). cbn [fst] in HA. rewrite E in HA. exact (o_irr _ TD _ HA). }
    split; split.
    - intros H. split; [apply (inv_item _ _ _ _ _ _ _ I0 Hx); now left|]. exact (Hdone _ H).
    - intros [H Hlt]. apply (inv_item _ _ _ _ _ _ _ I0 Hx) in H. destruct H as [H|H]; [exact H|]. exfalso.
      specialize (Hmin _ H). cbn [fst] in Hmin. apply (o_irr _ TD k'). now apply (o_lt_le _ TD _ (key_of z)).
    - intros H. assert (In (k', m) (R (o_seq x))) as HR.
      { destruct (Z.eqb_spec (o_seq x) (o_seq z)); [|exact H]. destruct (R (o_seq x)); [destruct H|now right]. }
      rewrite <- (i_R _ _ _ _ _ _ _ _ _ I0 x Hx) in HR.
      split; [apply (inv_item _ _ _ _ _ _ _ I0 Hx); now right|].
      specialize (Hmin _ HR). cbn [fst] in Hmin. destruct (Z.eq_dec (dord ord f (key_of z) k') 0) as [E|E]; [|lia]. exfalso.
      apply (to_eq _ TD) in E. subst k'.
      assert (o_seq x = o_seq z) as Eq by (apply (Hsame m); apply (inv_item _ _ _ _ _ _ _ I0 Hx); now right).
      rewrite Eq, Z.eqb_refl, ERz in H. cbn [tl] in H. specialize (Hgz _ H). cbn [fst] in Hgz. exact (o_irr _ TD _ Hgz).
    - intros [H Hlt]. apply (inv_item _ _ _ _ _ _ _ I0 Hx) in H. destruct H as [H|H].
      + exfalso. specialize (Hdone _ H). cbn [fst] in Hdone. apply (o_irr _ TD k'). now apply (o_trans _ TD _ (key_of z)).
      + rewrite (i_R _ _ _ _ _ _ _ _ _ I0 x Hx) in H. destruct (Z.eqb_spec (o_seq x) (o_seq z)) as [Eq|]; [|exact H].
        rewrite Eq, ERz in *. cbn [tl]. destruct H as [H|H]; [|exact H]. injection H as <- _. exfalso. exact (o_irr _ TD _ Hlt).
  Qed.

  Lemma Wf_sorted : forall f j, StronglySorted (fun a b => dord ord f (fst a) (fst b) < 0) (Wf f j).
  Proof.
    intros f j. unfold Wf. destruct f.
    - now apply SS_skipn.
    - apply (SS_rev (fun a b : bytes * message => ord (fst a) (fst b) < 0)); [intros a b H; exact H|]. now apply SS_firstn.
  Qed.

  Lemma spec_eq : forall f R L1 L2, spec_out cfg ord f (seqs_of n) md R L1 -> spec_out cfg ord f (seqs_of n) md R L2 -> L1 = L2.
  Proof. intros f R L1 L2. apply (spec_unique cfg ord TO srcs). Qed.

  Lemma pos_part : forall f st k d Rn, POS f st k d Rn -> part f Rn.
  Proof.
    intros f st k d Rn (z & t & dead & R' & I0 & _ & _ & _ & _ & _ & _ & HR & _) s Hs.
    destruct (inv_part _ _ _ _ _ I0 s Hs) as [A B]. rewrite (HR s Hs). destruct (s =? o_seq z); [|split; assumption].
    destruct (R' s) as [|p r]; [split; assumption|]. cbn [tl]. split; [now inversion A|]. intros q Hq. apply B. now right.
  Qed.

  (** Landing on position [j]. *)
  Lemma land : forall f st R m j, SET f st R m -> spec_out cfg ord f (seqs_of n) md R (Wf f j) ->
    (if f then 0 <= j <= Z.of_nat (length W) else -1 <= j < Z.of_nat (length W)) -> cur st j.
  Proof.
    intros f st R m j HS HW Hj. destruct HS as [(He & Hm & HL)|(k & d & Rn & Hp & Ha & Hm & _ & Hlift)].
    - split; [exact Hm|]. exists f. right. split; [exact He|]. pose proof (spec_eq _ _ _ _ HW HL) as E. unfold Wf in E. destruct f.
      + apply (f_equal (@length _)) in E. rewrite skipn_length in E. cbn [length] in E. lia.
      + apply (f_equal (@length _)) in E. rewrite rev_length, firstn_length in E. cbn [length] in E. lia.
    - split; [exact Hm|]. exists f. left. exists k, d, Rn. split; [exact Hp|].
      destruct (advance_step cfg ord TO D AG f (at_seq ITS) (seqs_of n) (seqs_sorted n) st k d Rn Hp Ha ltac:(congruence)) as (st1 & _ & HS1).
      rewrite Hm in HS1. destruct (scan_settled cfg ord TO D AG srcs f md st1 Rn Hmd HS1) as (L & HL & _).
      pose proof (spec_eq _ _ _ _ HW (Hlift L HL)) as E. unfold Wf in E. destruct f.
      + assert (nth_error (skipn (Z.to_nat j) W) 0 = Some (k, d)) as E1 by (rewrite E; reflexivity).
        assert (nth_error W (Z.to_nat j) = Some (k, d)) as E2.
        { rewrite <- E1. clear. generalize (Z.to_nat j). intros a. revert a. induction W as [|w l IH]; intros [|a]; try reflexivity. cbn [skipn nth_error]. apply IH. }
        split; [|exact E2]. assert (Z.to_nat j < length W)%nat by (apply nth_error_Some; congruence). lia.
      + apply (f_equal (@rev _)) in E. rewrite rev_involutive in E. cbn [rev] in E.
        assert (j <> -1) as Hne. { intros ->. cbn in E. destruct (rev L); discriminate. }
        split; [lia|]. replace (Z.to_nat (j + 1)) with (S (Z.to_nat j)) in E by lia.
        destruct (nth_error W (Z.to_nat j)) as [w|] eqn:Ew; [|apply nth_error_None in Ew; lia].
        assert (firstn (S (Z.to_nat j)) W = firstn (Z.to_nat j) W ++ [w]) as E3.
        { clear - Ew. revert Ew. generalize (Z.to_nat j). induction W as [|a l IH]; intros [|i] Ew; try discriminate.
          - cbn in Ew. injection Ew as ->. reflexivity.
          - cbn [nth_error] in Ew. change (firstn (S (S i)) (a :: l)) with (a :: firstn (S i) l). rewrite (IH i Ew). reflexivity. }
        rewrite E3 in E. apply app_inj_tail in E. destruct E as [_ ->]. reflexivity.
  Qed.

  Lemma seq_arr : forall f st live dead R s, INV f st live dead R -> In s (seqs_of n) -> exists x, In x (live ++ dead) /\ o_seq x = s.
  Proof. intros f st live dead R s I0 Hs. destruct (inv_arr_in _ _ _ _ _ _ _ _ _ _ I0 Hs) as (x & Hx & Ex & _). eauto. Qed.

  Lemma dord_neg : forall f a b, dord ord (negb f) a b = dord ord f b a.
  Proof. intros [|] a b; reflexivity. Qed.

  (** Ahead of a positioned iterator. *)
  Lemma after_pos : forall f st k d Rn i, POS f st k d Rn -> 0 <= i < Z.of_nat (length W) -> nth_error W (Z.to_nat i) = Some (k, d) ->
    spec_out cfg ord f (seqs_of n) md Rn (Wf f (if f then i + 1 else i - 1)).
  Proof.
    intros f st k d Rn i Hp Hi Ew. apply dj_spec; [now apply (pos_part _ st k d)|apply Wf_sorted|].
    destruct Hp as (z & t & dead & R' & I0 & Kz & _ & _ & _ & _ & _ & HR & _).
    destruct (split_sorted ord TO W _ _ _ WS Ew) as [A B].
    intros k' d'. transitivity (In (k', d') W /\ dord ord f k k' < 0).
    { unfold Wf. destruct f.
      - replace (Z.to_nat (i + 1)) with (S (Z.to_nat i)) by lia. apply A.
      - replace (Z.to_nat (i - 1 + 1)) with (Z.to_nat i) by lia. rewrite <- in_rev. apply B. }
    rewrite WI. unfold from. split.
    - intros ((s & m & Hs & Hm & Hf & Hk) & Hlt). exists s, m. split; [exact Hs|]. split; [|auto]. rewrite (HR s Hs).
      destruct (seq_arr _ _ _ _ _ _ I0 Hs) as (x & Hx & Ex). rewrite <- Ex in *. rewrite <- Kz in Hlt.
      now apply (keys_around _ _ _ _ _ _ I0 x k' m Hx).
    - intros (s & m & Hs & Hm & Hf & Hk). rewrite (HR s Hs) in Hm. destruct (seq_arr _ _ _ _ _ _ I0 Hs) as (x & Hx & Ex). rewrite <- Ex in *.
      apply (keys_around _ _ _ _ _ _ I0 x k' m Hx) in Hm. rewrite Kz in Hm. split; [|tauto]. exists (o_seq x), m. tauto.
  Qed.

  Lemma behind_part : forall f st live dead R R2, INV f st live dead R ->
    (forall x, In x (live ++ dead) -> R2 (o_seq x) = rev (done f (o_src x))) -> part (negb f) R2.
  Proof.
    intros f st live dead R R2 I0 HR2 s Hs. destruct (seq_arr _ _ _ _ _ _ I0 Hs) as (x & Hx & Ex). rewrite <- Ex, (HR2 x Hx).
    pose proof (i_src _ _ _ _ _ _ _ _ _ I0) as Hsr. rewrite Forall_forall in Hsr. split.
    - pose proof (all_sorted ord D f _ (Hsr x Hx)) as HA. apply SS_app in HA. destruct HA as (HA & _).
      apply (SS_rev (fun a b : bytes * message => dord ord f (fst a) (fst b) < 0)); [|exact HA]. intros a b H. now rewrite dord_neg.
    - intros p Hp. apply in_rev in Hp. apply (inv_item _ _ _ _ _ _ _ I0 Hx). now left.
  Qed.

  Lemma behind_pos : forall f st k d Rn R2 z t dead R' i, INV f st (z :: t) dead R' -> key_of z = k -> POS f st k d Rn ->
    0 <= i < Z.of_nat (length W) -> nth_error W (Z.to_nat i) = Some (k, d) ->
    (forall x, In x ((z :: t) ++ dead) -> R2 (o_seq x) = rev (done f (o_src x))) ->
    spec_out cfg ord (negb f) (seqs_of n) md R2 (Wf (negb f) (if f then i - 1 else i + 1)).
  Proof.
    intros f st k d Rn R2 z t dead R' i I0 Kz Hp Hi Ew HR2. apply dj_spec; [now apply (behind_part f st (z :: t) dead R')|apply Wf_sorted|].
    destruct (split_sorted ord TO W _ _ _ WS Ew) as [A B].
    intros k' d'. transitivity (In (k', d') W /\ dord ord f k' k < 0).
    { unfold Wf. destruct f; cbn [negb].
      - replace (Z.to_nat (i - 1 + 1)) with (Z.to_nat i) by lia. rewrite <- in_rev. apply B.
      - replace (Z.to_nat (i + 1)) with (S (Z.to_nat i)) by lia. apply A. }
    rewrite WI. unfold from. split.
    - intros ((s & m & Hs & Hm & Hf & Hk) & Hlt). exists s, m. split; [exact Hs|]. split; [|auto].
      destruct (seq_arr _ _ _ _ _ _ I0 Hs) as (x & Hx & Ex). rewrite <- Ex in *. rewrite (HR2 x Hx), <- in_rev. rewrite <- Kz in Hlt.
      now apply (keys_around _ _ _ _ _ _ I0 x k' m Hx).
    - intros (s & m & Hs & Hm & Hf & Hk). destruct (seq_arr _ _ _ _ _ _ I0 Hs) as (x & Hx & Ex). rewrite <- Ex in *. rewrite (HR2 x Hx), <- in_rev in Hm.
      apply (keys_around _ _ _ _ _ _ I0 x k' m Hx) in Hm. rewrite Kz in Hm. split; [|tauto]. exists (o_seq x), m. tauto.
  Qed.

  Lemma behind_end : forall f st dead R R2, INV f st [] dead R ->
    (forall x, In x ([] ++ dead) -> R2 (o_seq x) = rev (done f (o_src x))) ->
    spec_out cfg ord (negb f) (seqs_of n) md R2 (Wf (negb f) (if f then Z.of_nat (length W) - 1 else 0)).
  Proof.
    intros f st dead R R2 I0 HR2. apply dj_spec; [now apply (behind_part f st [] dead R)|apply Wf_sorted|].
    intros k' d'. transitivity (In (k', d') W).
    { unfold Wf. destruct f; cbn [negb]; [|reflexivity]. rewrite <- in_rev.
      replace (Z.to_nat (Z.of_nat (length W) - 1 + 1)) with (length W) by lia. now rewrite firstn_all. }
    rewrite WI. unfold from.
    assert (forall x m, In x ([] ++ dead) -> (In (k', m) (at_seq ITS (o_seq x)) <-> In (k', m) (done f (o_src x)))) as HD.
    { intros x m Hx. rewrite (inv_item _ _ _ _ _ _ _ I0 Hx). pose proof (i_dead _ _ _ _ _ _ _ _ _ I0) as Hd. rewrite Forall_forall in Hd.
      rewrite rest_dead by now apply (Hd x Hx). cbn [In]. tauto. }
    split; intros (s & m & Hs & Hm & Hfk); exists s, m; (split; [exact Hs|]); (split; [|exact Hfk]);
      destruct (seq_arr _ _ _ _ _ _ I0 Hs) as (x & Hx & Ex); rewrite <- Ex in *.
    - rewrite (HR2 x Hx), <- in_rev. now apply (HD x m Hx).
    - rewrite (HR2 x Hx), <- in_rev in Hm. now apply (HD x m Hx).
  Qed.

  (** One step. *)
  Lemma cur_step : forall st i (f : bool), cur st i -> (if f then i < Z.of_nat (length W) else 0 <= i) ->
    exists st', step cfg f st = Some st' /\ cur st' (if f then i + 1 else i - 1).
  Proof.
    intros st i f [Em (g & [(k & d & Rn & Hp & Hi & Ew)|[He Ei]])] Hl.
    - pose proof Hp as Hp0. destruct Hp0 as (z & t & dead & R' & I0 & Kz & _). destruct (Bool.bool_dec f g) as [->|Hne].
      + pose proof (part_allowed _ _ (pos_part _ _ _ _ _ Hp)) as Ha.
        destruct (advance_step cfg ord TO D AG g (at_seq ITS) (seqs_of n) (seqs_sorted n) st k d Rn Hp Ha ltac:(congruence)) as (st1 & E & HS1).
        exists st1. split; [pose proof (i_fwd _ _ _ _ _ _ _ _ _ I0) as Ef; unfold step, merge_next, merge_prev; destruct g; rewrite Ef; exact E|]. rewrite Em in HS1.
        apply (land g st1 Rn _ _ HS1); [now apply (after_pos g st k d)|]. destruct g; lia.
      + assert (f = negb g) as -> by (clear - Hne; destruct f, g; try reflexivity; now elim Hne).
        destruct (turn_settled cfg ord TO D AG srcs SC g st _ _ _ I0 (dj_bits _ _ _ _ _ I0) ltac:(congruence)) as (st1 & R2 & E & HS1 & HR2 & _).
        exists st1. split; [destruct g; exact E|]. rewrite Em in HS1. apply (land (negb g) st1 R2 _ _ HS1).
        * replace (if negb g then i + 1 else i - 1) with (if g then i - 1 else i + 1) by (destruct g; reflexivity).
          now apply (behind_pos g st k d Rn R2 z t dead R').
        * destruct g; cbn [negb]; lia.
    - pose proof He as (dead & R' & I0 & _). destruct (Bool.bool_dec f g) as [->|Hne]; [destruct g; lia|].
      assert (f = negb g) as -> by (clear - Hne; destruct f, g; try reflexivity; now elim Hne).
      destruct (turn_settled cfg ord TO D AG srcs SC g st _ _ _ I0 ltac:(constructor) ltac:(congruence)) as (st1 & R2 & E & HS1 & HR2 & _).
      exists st1. split; [destruct g; exact E|]. rewrite Em in HS1. apply (land (negb g) st1 R2 _ _ HS1).
      + replace (if negb g then i + 1 else i - 1) with (if g then Z.of_nat (length W) - 1 else 0) by (destruct g; cbn [negb]; lia).
        now apply (behind_end g st dead R').
      + destruct g; cbn [negb]; lia.
  Qed.

  Fixpoint run (ms : list move) (st : mi) : option mi :=
    match ms with
    | [] => Some st
    | m :: r => match (match m with Next => merge_next cfg st | Prev => merge_prev cfg st end) with
                | None => None
                | Some st' => run r st'
                end
    end.

  Lemma cur_run : forall ms st i j, cur st i -> cursor (Z.of_nat (length W)) ms i = Some j ->
    exists st', run ms st = Some st' /\ cur st' j.
  Proof.
    induction ms as [|m ms IH]; intros st i j Hc E; cbn [cursor run] in *.
    - injection E as ->. eauto.
    - destruct m.
      + destruct (Z.ltb_spec i (Z.of_nat (length W))); [|discriminate].
        destruct (cur_step st i true Hc ltac:(assumption)) as (st1 & E1 & Hc1). change (step cfg true st) with (merge_next cfg st) in E1. rewrite E1.
        exact (IH st1 _ j Hc1 E).
      + destruct (Z.leb_spec 0 i); [|discriminate].
        destruct (cur_step st i false Hc ltac:(assumption)) as (st1 & E1 & Hc1). change (step cfg false st) with (merge_prev cfg st) in E1. rewrite E1.
        exact (IH st1 _ j Hc1 E).
  Qed.

  (** What can be observed at a position. *)
  Lemma cur_observe : forall st i, cur st i ->
    -1 <= i <= Z.of_nat (length W) /\
    (0 <= i < Z.of_nat (length W) -> m_can_next st = true /\ m_can_prev st = true /\
       exists k d, nth_error W (Z.to_nat i) = Some (k, d) /\ merge_curr st = (Some k, Some d)) /\
    (i = Z.of_nat (length W) -> m_can_next st = false /\ (W <> [] -> m_can_prev st = true)) /\
    (i = -1 -> m_can_prev st = false /\ (W <> [] -> m_can_next st = true)).
  Proof.
    intros st i [Em (g & [(k & d & Rn & Hp & Hi & Ew)|[He Ei]])].
    - destruct Hp as (z & t & dead & R' & I0 & Kz & _ & Ck & Cd & Cp & Cn & _). split; [lia|]. split; [|split; lia].
      intros _. split; [exact Cn|]. split; [exact Cp|]. exists k, d. split; [exact Ew|]. unfold merge_curr. now rewrite Ck, Cd.
    - destruct He as (dead & R' & I0 & Hc & Hf). 
      assert (W <> [] -> Nat.eqb (total_items (m_arr st)) 0 = false) as HT.
      { intros Hne. apply Nat.eqb_neq. rewrite (total_inv _ _ _ _ _ (seqs_sorted n) _ _ _ _ I0). intros E0.
        destruct W as [|[k d] r]; [congruence|]. destruct (proj1 (WI k d) (or_introl eq_refl)) as (s & m & Hs & Hm & _).
        assert (forall l, In s l -> (length (at_seq ITS s) <= fold_right (fun s m => (length (at_seq ITS s) + m)%nat) O l)%nat) as Hle.
        { induction l as [|a l IH]; intros H; [destruct H|]. cbn [fold_right]. destruct H as [->|H]; [lia|]. specialize (IH H). lia. }
        specialize (Hle _ Hs). unfold all_items in E0. rewrite E0 in Hle. destruct (at_seq ITS s); [destruct Hm|cbn [length] in Hle; lia]. }
      destruct g; subst i; (split; [lia|]); (split; [lia|]); split; intros H; try lia; split; try exact Hc; intros Hne; rewrite Hf, (HT Hne); reflexivity.
  Qed.
End Cursor.

Section CursorTop.
  Variable cfg : data_config.
  Variable ord : bytes -> bytes -> Z.
  Hypothesis TO : total_order ord.
  Variable D : bytes -> Prop.
  Hypothesis AG : agrees cfg ord D.
  Variable srcs : list src.
  Hypothesis SC : sources cfg ord D srcs.
  Variable md : mode.
  Hypothesis Hmd : md <> Raw.
  Hypothesis Hn : (length srcs < MAX_MERGE_ARITY)%nat.
  Hypothesis DJ : forall i j s1 s2 k m1 m2, nth_error srcs i = Some s1 -> nth_error srcs j = Some s2 ->
    In (k, m1) (s_items s1) -> In (k, m2) (s_items s2) -> i = j.

  Let n := length srcs.
  Let ITS := map s_items srcs.

  Lemma nth_at_seq : forall (f : src -> list (bytes * message)) s, In s (seqs_of n) ->
    exists q, nth_error srcs (Z.to_nat s) = Some q /\ at_seq (map f srcs) s = f q.
  Proof.
    intros f s Hs. apply seqs_in in Hs. destruct (nth_error srcs (Z.to_nat s)) as [q|] eqn:E.
    - exists q. split; [reflexivity|]. unfold at_seq. now apply nth_map_error.
    - apply nth_error_None in E. fold n in E. lia.
  Qed.
  Lemma src_at_seq : forall (f : src -> list (bytes * message)) q, In q srcs ->
    exists s, In s (seqs_of n) /\ at_seq (map f srcs) s = f q.
  Proof.
    intros f q Hq. destruct (In_nth_error _ _ Hq) as (j & Ej). exists (Z.of_nat j). split.
    - apply seqs_in. assert (j < length srcs)%nat by (apply nth_error_Some; congruence). fold n in H. lia.
    - unfold at_seq. rewrite Nat2Z.id. now apply nth_map_error.
  Qed.

  Lemma DJ' : forall s1 s2 k m1 m2, In s1 (seqs_of n) -> In s2 (seqs_of n) ->
    In (k, m1) (at_seq ITS s1) -> In (k, m2) (at_seq ITS s2) -> s1 = s2.
  Proof.
    intros s1 s2 k m1 m2 H1 H2 I1 I2. destruct (nth_at_seq s_items s1 H1) as (q1 & E1 & F1). destruct (nth_at_seq s_items s2 H2) as (q2 & E2 & F2).
    unfold ITS in I1, I2. rewrite F1 in I1. rewrite F2 in I2. pose proof (DJ _ _ _ _ _ _ _ E1 E2 I1 I2) as E.
    apply seqs_in in H1, H2. lia.
  Qed.

  (** The tuples of the sources, resolved, in order. *)
  Definition tuples_of (W : list (bytes * message)) : Prop :=
    ascending ord W /\
    forall k d, In (k, d) W <-> exists s m, In s srcs /\ In (k, m) (s_items s) /\ finish cfg md k m = Some d /\ kept md d = true.

  Lemma from_srcs : forall (f : src -> list (bytes * message)) k d, from cfg srcs md (at_seq (map f srcs)) k d <->
    exists s m, In s srcs /\ In (k, m) (f s) /\ finish cfg md k m = Some d /\ kept md d = true.
  Proof.
    intros f k d. unfold from. fold n. split.
    - intros (s & m & Hs & Hm & H). destruct (nth_at_seq f s Hs) as (q & E & F). rewrite F in Hm. exists q, m.
      split; [now apply nth_error_In in E|auto].
    - intros (q & m & Hq & Hm & H). destruct (src_at_seq f q Hq) as (s & Hs & F). exists s, m. rewrite F. auto.
  Qed.

  Definition rewind (s : src) : src := Src (s_items s) 0.

  Lemma tuples_exist : exists W, tuples_of W.
  Proof.
    assert (sources cfg ord D (map rewind srcs)) as SC2.
    { constructor; intros s; intros; repeat match goal with H : In _ (map rewind srcs) |- _ => apply in_map_iff in H; destruct H as (? & <- & H) end; cbn [rewind s_items s_pos] in *.
      - now apply (sc_sorted _ _ _ _ SC).
      - now apply (sc_dom _ _ _ _ SC x).
      - now apply (sc_allowed _ _ _ _ SC x).
      - unfold src_len. lia.
      - cbn [Z.to_nat firstn] in *. contradiction. }
    destruct (forward_scan cfg ord TO D AG (map rewind srcs) SC2 md Hmd ltac:(now rewrite map_length)) as (st & L & _ & HL & _).
    exists L. destruct HL as [A B]. split; [exact A|]. intros k d. rewrite B. rewrite map_length. fold n.
    assert (map ahead (map rewind srcs) = ITS) as -> by (rewrite map_map; reflexivity).
    rewrite <- (from_srcs s_items k d). fold ITS.
    assert (forall W', (forall k d, In (k, d) W' <-> from cfg srcs md (at_seq ITS) k d) -> True) by trivial.
    unfold from. fold n. 
    assert (forall s m, In s (seqs_of n) -> In (k, m) (at_seq ITS s) -> msgs (seqs_of n) (at_seq ITS) k = [m]) as H1.
    { intros s m Hs Hm. unfold msgs. rewrite (flat_map_single _ _ s).
      - apply (messages_single ord TO true); [|exact Hm]. now apply (at_seq_items cfg ord D srcs SC).
      - apply seqs_nodup. apply seqs_sorted.
      - exact Hs.
      - intros s' Hs' Hne. apply messages_none. intros m' Hm'. apply Hne. exact (DJ' s' s k m' m Hs' Hs Hm' Hm). }
    split.
    - intros (c & Hc & Hfk). assert (exists m, In m (msgs (seqs_of n) (at_seq ITS) k)) as (m & Hm).
      { destruct (msgs (seqs_of n) (at_seq ITS) k) as [|m r]; [discriminate|]. exists m. now left. }
      apply msgs_in in Hm. destruct Hm as (s & Hs & Hm). rewrite (H1 s m Hs Hm) in Hc. injection Hc as <-. exists s, m. auto.
    - intros (s & m & Hs & Hm & Hfk). exists m. rewrite (H1 s m Hs Hm). auto.
  Qed.

  Lemma cursor_scan : exists W st i, tuples_of W /\ merge_create cfg md srcs = Some (Some st) /\ (i <= length W)%nat /\
    (forall p, In p (skipn i W) <-> In p W /\ exists s m, In s srcs /\ In (fst p, m) (ahead s)) /\
    forall ms j, cursor (Z.of_nat (length W)) ms (Z.of_nat i) = Some j ->
      exists st', run cfg ms st = Some st' /\ 
        (0 <= j < Z.of_nat (length W) -> m_can_next st' = true /\ m_can_prev st' = true /\
           exists k d, nth_error W (Z.to_nat j) = Some (k, d) /\ merge_curr st' = (Some k, Some d)) /\
        (j = Z.of_nat (length W) -> m_can_next st' = false /\ (W <> [] -> m_can_prev st' = true)) /\
        (j = -1 -> m_can_prev st' = false /\ (W <> [] -> m_can_next st' = true)).
  Proof.
    destruct tuples_exist as (W & WS & WI). destruct (create_settled cfg ord TO D AG srcs SC md Hmd Hn) as (st & E & HS).
    assert (forall k d, In (k, d) W <-> from cfg srcs md (at_seq ITS) k d) as WI' by (intros; rewrite WI; symmetry; apply (from_srcs s_items)).
    assert (forall s p, In s srcs -> In p (ahead s) -> In p (s_items s)) as Hah by (intros s p _; apply skipn_incl).
    assert (forall s p, In s srcs -> In p (s_items s) -> In p (ahead s) \/ In p (firstn (Z.to_nat (s_pos s)) (s_items s))) as Hsplit.
    { intros s p _ Hp. rewrite <- (firstn_skipn (Z.to_nat (s_pos s)) (s_items s)) in Hp. apply in_app_or in Hp. unfold ahead. tauto. }
    set (P := fun p : bytes * message => exists s m, In s srcs /\ In (fst p, m) (ahead s)).
    destruct (upward ord P W) as (i & Hi & HP); [| |exact WS|].
    - intros [k d] Hp. apply WI in Hp. destruct Hp as (s & m & Hs & Hm & _). destruct (Hsplit s _ Hs Hm) as [Ha|Hb].
      + left. exists s, m. auto.
      + right. intros (s' & m' & Hs' & Hm'). cbn [fst] in Hm'.
        pose proof (sc_cut _ _ _ _ SC s s' _ _ Hs Hs' Hb Hm') as C.
        destruct (In_nth_error _ _ Hs) as (a & Ea). destruct (In_nth_error _ _ Hs') as (b & Eb).
        pose proof (DJ _ _ _ _ _ _ _ Ea Eb Hm (Hah _ _ Hs' Hm')) as <-. assert (s = s') as <- by congruence.
        pose proof (sc_sorted _ _ _ _ SC s Hs) as HSS. unfold ascending in HSS.
        rewrite <- (firstn_skipn (Z.to_nat (s_pos s)) (s_items s)) in HSS. apply SS_app in HSS. destruct HSS as (_ & _ & HSS).
        specialize (HSS _ _ Hb Hm'). cbn [fst] in HSS. exact (o_irr ord TO _ HSS).
    - intros [k d] [k' d'] Hp Hq (s & m & Hs & Hm) Hlt. cbn [fst] in *. apply WI in Hq. destruct Hq as (s' & m' & Hs' & Hm' & _).
      exists s', m'. split; [exact Hs'|]. cbn [fst]. destruct (Hsplit s' _ Hs' Hm') as [Ha|Hb]; [exact Ha|]. exfalso.
      pose proof (sc_cut _ _ _ _ SC s' s _ _ Hs' Hs Hb Hm) as C. cbn [fst] in C.
      apply (o_irr ord TO k). now apply (o_lt_le ord TO _ k').
    - exists W, st, i. split; [split; assumption|]. split; [exact E|]. split; [exact Hi|]. split; [exact HP|].
      assert (cur ord D srcs md W st (Z.of_nat i)) as Hc.
      { apply (land cfg ord TO D AG srcs md Hmd W true st _ _ (Z.of_nat i) HS); [|lia].
        apply (dj_spec cfg ord TO srcs md DJ' true).
        - intros s Hs. destruct (nth_at_seq ahead s Hs) as (q & Eq & F). destruct (nth_at_seq s_items s Hs) as (q' & Eq' & F'). assert (q' = q) as -> by congruence.
          rewrite F, F'. apply nth_error_In in Eq. split; [|intros p Hp; now apply Hah]. apply SS_skipn. now apply (sc_sorted _ _ _ _ SC).
        - apply (Wf_sorted ord W WS true (Z.of_nat i)).
        - intros k d. unfold Wf. rewrite Nat2Z.id, HP, (from_srcs ahead). unfold P. cbn [fst]. split.
          + intros [Hw (s & m & Hs & Hm)]. apply WI in Hw. destruct Hw as (s' & m' & Hs' & Hm' & Hfk).
            exists s', m'. split; [exact Hs'|]. split; [|exact Hfk].
            destruct (In_nth_error _ _ Hs) as (a & Ea). destruct (In_nth_error _ _ Hs') as (b & Eb).
            pose proof (DJ _ _ _ _ _ _ _ Ea Eb (Hah _ _ Hs Hm) Hm') as <-. assert (s = s') as <- by congruence.
            assert (m = m') as <-; [|exact Hm].
            pose proof (messages_single ord TO true _ k m (sc_sorted _ _ _ _ SC s Hs) (Hah _ _ Hs Hm)) as M1.
            pose proof (messages_single ord TO true _ k m' (sc_sorted _ _ _ _ SC s Hs) Hm') as M2. congruence.
          + intros (s & m & Hs & Hm & Hfk). split; [|eauto]. apply WI. exists s, m. auto. }
      intros ms j Ej. destruct (cur_run cfg ord TO D AG srcs SC md Hmd DJ' W WS WI' ms st _ j Hc Ej) as (st' & Er & Hc').
      exists st'. split; [exact Er|]. apply (cur_observe cfg ord D srcs md W WS WI' st' j Hc').
  Qed.
End CursorTop.
