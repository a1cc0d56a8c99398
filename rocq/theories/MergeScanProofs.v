(** * Whole scans of a merge iterator *)

From Coq Require Import List ZArith NArith Bool Lia Permutation Sorted Arith Wf_nat.
From Verif Require Import Base Spec Spec_Merge DataProofs Merge MergeProofs MergeRunProofs.
Import ListNotations.
Local Open Scope Z_scope.

Definition seqs_of (n : nat) : list Z := map Z.of_nat (seq 0 n).
Definition at_seq (ls : list (list (bytes * message))) (s : Z) : list (bytes * message) :=
  nth (Z.to_nat s) ls [].

Lemma seqs_sorted : forall n, StronglySorted Z.lt (seqs_of n).
Proof.
  unfold seqs_of. intros n. generalize O as a. induction n as [|n IH]; intros a; cbn [seq map]; constructor; [apply IH|].
  rewrite Forall_forall. intros z Hz. apply in_map_iff in Hz. destruct Hz as (j & <- & Hj). apply in_seq in Hj. lia.
Qed.
Lemma seqs_in : forall n s, In s (seqs_of n) <-> 0 <= s < Z.of_nat n.
Proof.
  intros n s. unfold seqs_of. rewrite in_map_iff. split.
  - intros (j & <- & Hj). apply in_seq in Hj. lia.
  - intros H. exists (Z.to_nat s). split; [lia|]. apply in_seq. lia.
Qed.

Lemma init_oits_in : forall l i x, In x (init_oits i l) <->
  exists j s, nth_error l j = Some s /\ x = OIt (i + Z.of_nat j) s None None false.
Proof.
  induction l as [|s l IH]; intros i x; cbn [init_oits].
  - split; [intros []|]. intros (j & s & H & _). destruct j; discriminate.
  - cbn [In]. rewrite IH. split.
    + intros [<-|(j & s' & H & ->)]; [exists O, s; split; [reflexivity|f_equal; lia]|]. exists (S j), s'. split; [exact H|f_equal; lia].
    + intros (j & s' & H & ->). destruct j as [|j]; [left; cbn in H; injection H as ->; f_equal; lia|].
      right. exists j, s'. split; [exact H|f_equal; lia].
Qed.

Lemma init_oits_seqs : forall l, map o_seq (init_oits 0 l) = seqs_of (length l).
Proof.
  intros l. unfold seqs_of. change 0 with (Z.of_nat 0) at 1. generalize O as a.
  induction l as [|s l IH]; intros a; [reflexivity|]. cbn [init_oits map length seq o_seq]. f_equal.
  replace (Z.of_nat a + 1) with (Z.of_nat (S a)) by lia. apply IH.
Qed.

Lemma messages_of_source : forall k l, messages_of k l = source_messages k l.
Proof.
  intros k l. unfold messages_of. induction l as [|[k' m] l IH]; [reflexivity|]. cbn [filter source_messages fst].
  destruct (bytes_eq_dec k k') as [->|N].
  - rewrite (proj2 (keyb_iff k' k') eq_refl). cbn [map snd]. now rewrite IH.
  - destruct (keyb k k') eqn:E; [apply keyb_iff in E; congruence|]. exact IH.
Qed.

Lemma msgs_at_seq : forall ls k, msgs (seqs_of (length ls)) (at_seq ls) k = key_messages k ls.
Proof.
  intros ls k. unfold msgs, key_messages, seqs_of. rewrite flat_map_concat_map, map_map. f_equal.
  assert (forall a pre, length pre = a ->
    map (fun x => messages_of k (at_seq (pre ++ ls) (Z.of_nat x))) (seq a (length ls)) = map (source_messages k) ls) as H.
  { induction ls as [|l ls IH]; intros a p Hp; [reflexivity|]. cbn [length seq map]. f_equal.
    - unfold at_seq. rewrite Nat2Z.id, app_nth2, Hp, Nat.sub_diag by lia. apply messages_of_source.
    - specialize (IH (S a) (p ++ [l]) ltac:(rewrite app_length, Hp; cbn [length]; lia)). rewrite <- IH.
      apply map_ext. intros j. now rewrite <- app_assoc. }
  exact (H O [] eq_refl).
Qed.

(** Sources on which a forward iteration can start. *)
Record sources (cfg : data_config) (ord : bytes -> bytes -> Z) (D : bytes -> Prop) (l : list src) : Prop := {
  sc_sorted : forall s, In s l -> ascending ord (s_items s);
  sc_dom : forall s p, In s l -> In p (s_items s) -> D (fst p);
  sc_allowed : forall s p, In s l -> In p (s_items s) -> msg_allowed cfg (snd p);
  sc_pos : forall s, In s l -> 0 <= s_pos s <= src_len s;
  sc_cut : forall s s' a b, In s l -> In s' l ->
           In a (firstn (Z.to_nat (s_pos s)) (s_items s)) -> In b (skipn (Z.to_nat (s_pos s')) (s_items s')) ->
           ord (fst a) (fst b) <= 0
}.

(** What is ahead of a source, and what is behind. *)
Definition ahead (s : src) : list (bytes * message) := skipn (Z.to_nat (s_pos s)) (s_items s).

Lemma rest_ahead : forall s, 0 <= s_pos s <= src_len s -> rest true s = ahead s.
Proof.
  intros s H. unfold rest, ahead. destruct (src_can_curr s) eqn:E; [reflexivity|].
  symmetry. apply skipn_all2. assert (~ (0 <= s_pos s < src_len s)) by (rewrite <- can_curr_iff; congruence).
  unfold src_len in *. lia.
Qed.

Lemma nth_map_error : forall {A B} (f : A -> B) l j s d, nth_error l j = Some s -> nth j (map f l) d = f s.
Proof.
  intros A B f l. induction l as [|a l IH]; intros [|j] s d H; try discriminate; cbn in *; [congruence|]. now apply IH.
Qed.

Lemma drain_more : forall n m can step st r, (n <= m)%nat -> drain can step n st = Some r -> drain can step m st = Some r.
Proof.
  induction n as [|n IH]; intros m can step st r H E.
  - destruct m as [|m]; [exact E|]. cbn [drain] in *. destruct (negb (can st)); [exact E|discriminate].
  - destruct m as [|m]; [lia|]. cbn [drain] in *. destruct (negb (can st)); [exact E|].
    destruct (step st) as [st'|]; [|discriminate]. destruct (drain can step n st') as [[l e]|] eqn:Ed; [|discriminate].
    now rewrite (IH m can step st' (l, e) ltac:(lia) Ed).
Qed.

Section Scan.
  Variable cfg : data_config.
  Variable ord : bytes -> bytes -> Z.
  Hypothesis TO : total_order ord.
  Variable D : bytes -> Prop.
  Hypothesis AG : agrees cfg ord D.
  Variable srcs : list src.
  Hypothesis SC : sources cfg ord D srcs.

  Let n := length srcs.
  Let ITS := map s_items srcs.
  Let RS := map ahead srcs.

  Lemma init_src_ok : forall s, In s srcs -> src_ok ord D true s.
  Proof.
    intros s Hs. constructor.
    - now apply (sc_sorted _ _ _ _ SC).
    - rewrite Forall_forall. intros p Hp. now apply (sc_dom _ _ _ _ SC s).
    - now apply (sc_pos _ _ _ _ SC).
  Qed.

  Lemma init_pre : pre ord D true (at_seq ITS) (seqs_of n) (init_oits 0 srcs) (at_seq RS).
  Proof.
    assert (forall x, In x (init_oits 0 srcs) -> In (o_src x) srcs /\ o_eq x = false /\
      at_seq ITS (o_seq x) = s_items (o_src x) /\ at_seq RS (o_seq x) = ahead (o_src x)) as H.
    { intros x Hx. apply init_oits_in in Hx. destruct Hx as (j & s & E & ->). cbn [o_src o_eq o_seq].
      split; [now apply nth_error_In in E|]. split; [reflexivity|]. unfold at_seq, ITS, RS.
      replace (Z.to_nat (0 + Z.of_nat j)) with j by lia. split; now apply nth_map_error. }
    constructor.
    - rewrite Forall_forall. intros x Hx. now apply H.
    - rewrite init_oits_seqs. apply FinFun.Injective_map_NoDup; [intros a b; lia|]. apply seq_NoDup.
    - rewrite Forall_forall. intros x Hx. apply init_src_ok. now apply H.
    - intros x Hx. destruct (H x Hx) as (Hs & _ & _ & ->). apply rest_ahead. now apply (sc_pos _ _ _ _ SC).
    - intros x Hx. destruct (H x Hx) as (_ & _ & -> & _). reflexivity.
    - intros x y a b Hx Hy Ha Hb. destruct (H x Hx) as (Hsx & _). destruct (H y Hy) as (Hsy & _).
      rewrite rest_ahead in Hb by now apply (sc_pos _ _ _ _ SC). unfold dord.
      now apply (sc_cut _ _ _ _ SC (o_src x) (o_src y)).
    - intros s. rewrite init_oits_seqs. reflexivity.
  Qed.

  Lemma at_seq_in : forall ls s b, In b (at_seq ls s) -> exists l, In l ls /\ In b l.
  Proof.
    intros ls s b H. unfold at_seq in H. destruct (nth_in_or_default (Z.to_nat s) ls []) as [E|E]; [eauto|].
    rewrite E in H. destruct H.
  Qed.

  Lemma skipn_incl : forall {A} i (l : list A) x, In x (skipn i l) -> In x l.
  Proof. intros A i l x H. rewrite <- (firstn_skipn i l). apply in_or_app. now right. Qed.

  Lemma allowed_items : forall l s b, In l (map s_items srcs) -> In b l -> In s (seqs_of n) -> msg_allowed cfg (snd b).
  Proof.
    intros l s b Hl Hb _. apply in_map_iff in Hl. destruct Hl as (q & <- & Hq). now apply (sc_allowed _ _ _ _ SC q).
  Qed.

  Lemma init_allowed : allowed_R cfg (seqs_of n) (at_seq RS).
  Proof.
    intros s b Hs Hb. apply at_seq_in in Hb. destruct Hb as (l & Hl & Hb). apply in_map_iff in Hl. destruct Hl as (q & <- & Hq).
    unfold ahead in Hb. apply skipn_incl in Hb. now apply (sc_allowed _ _ _ _ SC q).
  Qed.

  Lemma create_settled : forall md, md <> Raw -> (n < MAX_MERGE_ARITY)%nat ->
    exists st, merge_create cfg md srcs = Some (Some st) /\
      settled cfg ord D true (at_seq ITS) (seqs_of n) md st (at_seq RS) (Rsize (seqs_of n) (at_seq RS)).
  Proof.
    intros md Hm Hn. unfold merge_create. fold n. destruct (Nat.leb_spec MAX_MERGE_ARITY n); [lia|].
    destruct (setup_spec cfg ord TO D AG true (at_seq ITS) (seqs_of n) (seqs_sorted n)
                (MI md true (init_oits 0 srcs) O false false None None 0) (at_seq RS) eq_refl init_pre init_allowed Hm) as (st & E & HS).
    rewrite E. exists st. split; [reflexivity|exact HS].
  Qed.

  Lemma Rsize_at_seq : forall ls, Rsize (seqs_of (length ls)) (at_seq ls) = length (concat ls).
  Proof.
    intros ls. unfold Rsize, seqs_of.
    assert (forall a p, length p = a ->
      fold_right (fun s m => (length (at_seq (p ++ ls) s) + m)%nat) O (map Z.of_nat (seq a (length ls))) = length (concat ls)) as H.
    { induction ls as [|l ls IH]; intros a p Hp; [reflexivity|]. cbn [length seq map fold_right concat]. rewrite app_length. f_equal.
      - unfold at_seq. rewrite Nat2Z.id, app_nth2, Hp, Nat.sub_diag by lia. reflexivity.
      - rewrite <- (IH (S a) (p ++ [l])) by (rewrite app_length, Hp; cbn [length]; lia). now rewrite <- app_assoc. }
    exact (H O [] eq_refl).
  Qed.

  (** ** What a scan in direction [fwd] returns *)

  Lemma RS_len : length RS = n.
  Proof. unfold RS, n. apply map_length. Qed.

  Definition out (L : list (bytes * message)) := map (fun p => (Some (fst p), Some (snd p))) L.

  Lemma spec_unique : forall fwd md R L1 L2, spec_out cfg ord fwd (seqs_of n) md R L1 ->
    spec_out cfg ord fwd (seqs_of n) md R L2 -> L1 = L2.
  Proof.
    intros fwd md R L1 L2 [A1 B1] [A2 B2].
    apply (SS_unique (fun a b => dord ord fwd (fst a) (fst b) < 0)); try assumption.
    - intros a H. now apply (o_irr (dord ord fwd) (dord_total ord fwd TO) (fst a)).
    - intros a b c H1 H2. now apply (o_trans (dord ord fwd) (dord_total ord fwd TO) _ (fst b)).
    - intros [k d]. rewrite B1, B2. reflexivity.
  Qed.

  (** Any direction, from a settled state. *)
  Lemma scan_settled : forall fwd md st R, md <> Raw ->
    settled cfg ord D fwd (at_seq ITS) (seqs_of n) md st R (Rsize (seqs_of n) R) ->
    exists L, spec_out cfg ord fwd (seqs_of n) md R L /\
      forall c f, c = can fwd \/ c = merge_can_curr -> (Rsize (seqs_of n) R <= f)%nat ->
      exists st', drain c (step cfg fwd) f st = Some (out L, st') /\
        at_end ord D fwd (at_seq ITS) (seqs_of n) st' /\ m_mode st' = md.
  Proof.
    intros fwd md st R Hm HS.
    pose proof (fun c Hc f => drain_spec cfg ord TO D AG fwd (at_seq ITS) (seqs_of n) (seqs_sorted n) _ c Hc md st _ f HS Hm) as HD.
    destruct (HD (can fwd) ltac:(now left) _ (Nat.le_refl _)) as (L & st' & ED & HL & He & Hmd).
    exists L. split; [exact HL|]. intros c f Hc Hf.
    destruct (HD c Hc f Hf) as (L2 & st2 & ED2 & HL2 & He2 & Hmd2).
    exists st2. rewrite (spec_unique _ _ _ _ _ HL HL2). auto.
  Qed.

  Lemma forward_scan : forall md, md <> Raw -> (n < MAX_MERGE_ARITY)%nat ->
    exists st L, merge_create cfg md srcs = Some (Some st) /\
      spec_out cfg ord true (seqs_of n) md (at_seq RS) L /\
      forall c f, c = m_can_next \/ c = merge_can_curr -> (length (concat RS) <= f)%nat ->
      exists st', drain c (merge_next cfg) f st = Some (out L, st') /\
        at_end ord D true (at_seq ITS) (seqs_of n) st' /\ m_mode st' = md.
  Proof.
    intros md Hm Hn. destruct (create_settled md Hm Hn) as (st & E & HS).
    destruct (scan_settled true md st _ Hm HS) as (L & HL & HD).
    exists st, L. split; [exact E|]. split; [exact HL|]. intros c f Hc Hf. apply (HD c f Hc).
    rewrite <- RS_len, Rsize_at_seq. exact Hf.
  Qed.

  (** ** Turning round *)

  Lemma turn_pre : forall fwd st live dead R,
    inv ord D fwd (at_seq ITS) (seqs_of n) st live dead R ->
    Forall (fun x => o_eq x = false) live ->
    pre ord D (negb fwd) (at_seq ITS) (seqs_of n) (map (turn_oit (negb fwd)) (m_arr st))
        (fun s => match find (fun x => o_seq x =? s) (m_arr st) with
                  | Some x => rev (done fwd (o_src x)) | None => [] end).
  Proof.
    intros fwd st live dead R I0 Hb. rewrite (i_arr _ _ _ _ _ _ _ _ _ I0).
    pose proof (i_src _ _ _ _ _ _ _ _ _ I0) as Hs. rewrite Forall_forall in Hs.
    assert (map o_seq (map (turn_oit (negb fwd)) (live ++ dead)) = map o_seq (live ++ dead)) as Em by (rewrite map_map; reflexivity).
    constructor.
    - rewrite Forall_forall. intros x Hx. apply in_map_iff in Hx. destruct Hx as (y & <- & Hy). cbn [turn_oit o_eq].
      apply in_app_or in Hy. destruct Hy as [Hy|Hy].
      + rewrite Forall_forall in Hb. now apply Hb.
      + pose proof (i_dead _ _ _ _ _ _ _ _ _ I0) as Hd. rewrite Forall_forall in Hd. now apply (Hd y Hy).
    - rewrite Em. apply I0.
    - rewrite Forall_forall. intros x Hx. apply in_map_iff in Hx. destruct Hx as (y & <- & Hy). cbn [turn_oit o_src].
      now apply turn_view, Hs.
    - intros x Hx. apply in_map_iff in Hx. destruct Hx as (y & <- & Hy). cbn [turn_oit o_src o_seq].
      rewrite (proj1 (proj2 (turn_view ord D fwd _ (Hs y Hy)))).
      assert (find (fun x => o_seq x =? o_seq y) (live ++ dead) = Some y) as ->; [|reflexivity].
      pose proof (i_nodup _ _ _ _ _ _ _ _ _ I0) as Hn. clear - Hn Hy. induction (live ++ dead) as [|a l IH]; [destruct Hy|].
      cbn [map] in Hn. inversion Hn; subst. cbn [find]. destruct Hy as [->|Hy]; [now rewrite Z.eqb_refl|].
      destruct (Z.eqb_spec (o_seq a) (o_seq y)) as [E|_]; [|now apply IH].
      exfalso. apply H1. rewrite E. now apply in_map.
    - intros x Hx. apply in_map_iff in Hx. destruct Hx as (y & <- & Hy). cbn [turn_oit o_src o_seq].
      rewrite (proj2 (proj2 (turn_view ord D fwd _ (Hs y Hy)))). now apply I0.
    - intros x y a b Hx Hy Ha Hb'. apply in_map_iff in Hx. destruct Hx as (x' & <- & Hx). apply in_map_iff in Hy. destruct Hy as (y' & <- & Hy).
      cbn [turn_oit o_src] in *. destruct (turn_view ord D fwd _ (Hs y' Hy)) as (_ & Er & _). rewrite Er in Hb'. apply in_rev in Hb'.
      destruct (turn_view ord D fwd _ (Hs x' Hx)) as (Ox & Erx & Eix).
      assert (In a (rest fwd (o_src x'))) as Ha'.
      { pose proof (done_rest ord D _ _ (Hs x' Hx)) as A1. pose proof (done_rest ord D _ _ Ox) as A2. rewrite Erx, Eix in A2.
        assert (done (negb fwd) (turn_src (negb fwd) (o_src x')) = rev (rest fwd (o_src x'))) as A3.
        { apply (f_equal (@rev _)) in A1. rewrite rev_app_distr in A1.
          apply (app_inv_tail (rev (done fwd (o_src x')))). rewrite A1, A2. destruct fwd; cbn [negb]; [reflexivity|now rewrite rev_involutive]. }
        rewrite A3 in Ha. now apply in_rev in Ha. }
      pose proof (i_cut _ _ _ _ _ _ _ _ _ I0 y' x' b a Hy Hx Hb' Ha') as C. unfold dord in *. destruct fwd; exact C.
    - intros s. rewrite Em. apply I0.
  Qed.

  Lemma turn_settled : forall fwd st live dead R,
    inv ord D fwd (at_seq ITS) (seqs_of n) st live dead R ->
    Forall (fun x => o_eq x = false) live -> m_mode st <> Raw ->
    exists st' R2, (if fwd then merge_prev cfg st else merge_next cfg st) = Some st' /\
      settled cfg ord D (negb fwd) (at_seq ITS) (seqs_of n) (m_mode st) st' R2 (Rsize (seqs_of n) R2) /\
      (forall x, In x (live ++ dead) -> R2 (o_seq x) = rev (done fwd (o_src x))) /\
      allowed_R cfg (seqs_of n) R2.
  Proof.
    intros fwd st live dead R I0 Hb Hm.
    pose proof (turn_pre _ _ _ _ _ I0 Hb) as HP.
    set (R2 := fun s => match find (fun x => o_seq x =? s) (m_arr st) with
                  | Some x => rev (done fwd (o_src x)) | None => [] end) in *.
    assert (allowed_R cfg (seqs_of n) R2) as Ha.
    { intros s b Hs Hb'. unfold R2 in Hb'. destruct (find _ (m_arr st)) as [x|] eqn:Ef; [|destruct Hb'].
      apply find_some in Ef. destruct Ef as [Hx _]. rewrite (i_arr _ _ _ _ _ _ _ _ _ I0) in Hx. apply in_rev in Hb'.
      pose proof (i_src _ _ _ _ _ _ _ _ _ I0) as Hsr. rewrite Forall_forall in Hsr.
      assert (In b (s_items (o_src x))) as Hbi.
      { pose proof (done_rest ord D _ _ (Hsr x Hx)) as E. assert (In b (done fwd (o_src x) ++ rest fwd (o_src x))) as H by (apply in_or_app; now left).
        rewrite E in H. destruct fwd; [exact H|now apply in_rev in H]. }
      rewrite (i_items _ _ _ _ _ _ _ _ _ I0 x Hx) in Hbi. apply at_seq_in in Hbi. destruct Hbi as (l & Hl & Hbl).
      now apply (allowed_items l s). }
    destruct (setup_spec cfg ord TO D AG (negb fwd) (at_seq ITS) (seqs_of n) (seqs_sorted n)
               (set_arr (set_fwd st (negb fwd)) (map (turn_oit (negb fwd)) (m_arr st)) (m_rem st)) R2 eq_refl HP Ha Hm) as (st' & E & HS).
    exists st', R2. split; [|split; [exact HS|split; [|exact Ha]]].
    - pose proof (i_fwd _ _ _ _ _ _ _ _ _ I0) as Ef. unfold merge_prev, merge_next. destruct fwd; rewrite Ef; exact E.
    - intros x Hx. assert (In (turn_oit (negb fwd) x) (map (turn_oit (negb fwd)) (m_arr st))) as Hx'.
      { apply in_map. now rewrite (i_arr _ _ _ _ _ _ _ _ _ I0). }
      pose proof (p_R _ _ _ _ _ _ _ HP _ Hx') as ER. cbn [turn_oit o_src o_seq] in ER. rewrite <- ER.
      pose proof (i_src _ _ _ _ _ _ _ _ _ I0) as Hsr. rewrite Forall_forall in Hsr.
      now apply (turn_view ord D fwd), Hsr.
  Qed.

  (** ** Meaning *)

  Lemma spec_messages_allowed : forall ls k, (forall l p, In l ls -> In p l -> msg_allowed cfg (snd p)) ->
    Forall (msg_allowed cfg) (key_messages k ls).
  Proof.
    intros ls k H. rewrite Forall_forall. intros m Hm. unfold key_messages in Hm. apply in_concat in Hm.
    destruct Hm as (q & Hq & Hm). apply in_map_iff in Hq. destruct Hq as (l & <- & Hl). rewrite <- messages_of_source in Hm.
    apply messages_of_in in Hm. exact (H l (k, m) Hl Hm).
  Qed.

  Definition kvs (L : list (bytes * bytes)) : list (bytes * message) := map (fun p => (fst p, Msg MInsert (snd p))) L.

  Lemma full_meaning : forall fwd R ls L, lawful_merge cfg ->
    (forall l p, In l ls -> In p l -> msg_allowed cfg (snd p)) ->
    (forall k, msgs (seqs_of n) R k = key_messages k ls) ->
    spec_out cfg ord fwd (seqs_of n) Full R L ->
    exists L2, L = kvs L2 /\ StronglySorted (fun a b => dord ord fwd (fst a) (fst b) < 0) L2 /\
      forall k v, In (k, v) L2 <-> replay cfg k (key_messages k ls) None = Some v.
  Proof.
    intros fwd R ls L LM Hal HM [HS HL].
    assert (forall k d, In (k, d) L <-> exists v, d = Msg MInsert v /\ replay cfg k (key_messages k ls) None = Some v) as HI.
    { intros k d. rewrite HL, HM. split.
      - intros (c & Hc & Hf & Hk). cbn [finish] in Hf. destruct (data_merge_final_meaning cfg k c d LM Hf) as [Hd Hv].
        rewrite (collapse_meaning cfg k _ c None LM Hc) in Hv. destruct d as [cl v]. unfold kept in Hk. unfold value_of in Hv. unfold is_definitive in Hd.
        cbn [m_class m_data] in *. destruct cl; try discriminate. exists v. split; [reflexivity|now symmetry].
      - intros (v & -> & Hr).
        destruct (collapse_defined cfg k (key_messages k ls) (spec_messages_allowed ls k Hal)) as (c & Hc & Hca).
        { intros E. rewrite E in Hr. discriminate. }
        exists c. split; [exact Hc|]. destruct (data_merge_final_defined cfg k c Hca) as (d & Hd).
        destruct (data_merge_final_meaning cfg k c d LM Hd) as [Hdd Hv]. rewrite (collapse_meaning cfg k _ c None LM Hc), Hr in Hv.
        destruct d as [cl w]. unfold value_of in Hv. cbn [m_class m_data] in Hv. destruct cl; try discriminate. injection Hv as ->.
        split; [exact Hd|reflexivity]. }
    exists (map (fun p => (fst p, m_data (snd p))) L).
    assert (L = kvs (map (fun p => (fst p, m_data (snd p))) L)) as EL.
    { unfold kvs. rewrite map_map. rewrite <- (map_id L) at 1. apply map_ext_in. intros [k d] Hp. cbn [fst snd].
      apply HI in Hp. destruct Hp as (v & -> & _). reflexivity. }
    split; [exact EL|]. split.
    - apply (SS_map (fun p => (fst p, m_data (snd p))) (fun a b => dord ord fwd (fst a) (fst b) < 0)). exact HS.
    - intros k v. rewrite in_map_iff. split.
      + intros ([k' d] & E & Hp). cbn [fst snd] in E. injection E as -> <-. apply HI in Hp. destruct Hp as (v & -> & H). exact H.
      + intros H. exists (k, Msg MInsert v). split; [reflexivity|]. apply HI. eauto.
  Qed.

  Lemma inter_meaning : forall fwd R ls L, lawful_merge cfg ->
    (forall l p, In l ls -> In p l -> msg_allowed cfg (snd p)) ->
    (forall k, msgs (seqs_of n) R k = key_messages k ls) ->
    spec_out cfg ord fwd (seqs_of n) Intermediate R L ->
    (forall k, In k (map fst L) <-> key_messages k ls <> []) /\
    forall k d v, In (k, d) L -> apply_msg cfg k d v = replay cfg k (key_messages k ls) v.
  Proof.
    intros fwd R ls L LM Hal HM [HS HL].
    assert (forall k d, In (k, d) L <-> collapse cfg k (key_messages k ls) = Some d) as HI.
    { intros k d. rewrite HL, HM. cbn [finish kept]. split; [intros (c & Hc & Hf & _); congruence|]. intros H. eauto. }
    split.
    - intros k. rewrite in_map_iff. split.
      + intros ([k' d] & <- & Hp). cbn [fst]. apply HI in Hp. intros E. rewrite E in Hp. discriminate.
      + intros H. destruct (collapse_defined cfg k _ (spec_messages_allowed ls k Hal) H) as (c & Hc & _).
        exists (k, c). split; [reflexivity|]. now apply HI.
    - intros k d v Hp. apply HI in Hp. now apply collapse_meaning.
  Qed.

  (** ** Back from the end *)

  Lemma messages_single : forall fwd l k m, StronglySorted (fun a b : bytes * message => dord ord fwd (fst a) (fst b) < 0) l ->
    In (k, m) l -> messages_of k l = [m].
  Proof.
    intros fwd l k m HS. induction HS as [|[k' m'] l HS IH HF]; intros H; [destruct H|].
    rewrite Forall_forall in HF. cbn [messages_of filter map fst] in *. unfold messages_of. cbn [filter fst].
    destruct (keyb k k') eqn:E.
    - apply keyb_iff in E. subst k'. cbn [map snd].
      assert (forall p, In p l -> keyb k (fst p) = false) as Hn.
      { intros p Hp. apply keyb_false. intros Ek. specialize (HF p Hp). cbn [fst] in HF. rewrite Ek in HF.
        exact (o_irr (dord ord fwd) (dord_total ord fwd TO) _ HF). }
      assert (filter (fun p : bytes * message => keyb k (fst p)) l = []) as ->.
      { clear - Hn. induction l as [|p l IH]; [reflexivity|]. cbn [filter]. rewrite (Hn p) by now left. apply IH. intros q Hq. apply Hn. now right. }
      cbn [map]. destruct H as [H|H]; [congruence|]. specialize (Hn _ H). apply keyb_false in Hn. now cbn [fst] in Hn.
    - apply IH. destruct H as [H|H]; [|exact H]. injection H as -> ->. apply keyb_false in E. congruence.
  Qed.

  Lemma messages_none : forall k l, (forall m, ~ In (k, m) l) -> messages_of k l = [].
  Proof.
    intros k l H. destruct (messages_of k l) as [|m r] eqn:E; [reflexivity|]. exfalso. apply (H m). apply messages_of_in. rewrite E. now left.
  Qed.

  Lemma messages_rev : forall l k, ascending ord l -> messages_of k (rev l) = messages_of k l.
  Proof.
    intros l k HS. destruct (messages_of k l) as [|m r] eqn:E.
    - apply messages_none. intros m Hm. apply in_rev in Hm. apply messages_of_in in Hm. rewrite E in Hm. destruct Hm.
    - assert (In (k, m) l) as Hm by (apply messages_of_in; rewrite E; now left).
      rewrite (messages_single true l k m HS Hm) in E. injection E as <-.
      apply (messages_single false); [|now apply in_rev in Hm || (apply in_rev; now rewrite rev_involutive)].
      apply (SS_rev (fun a b : bytes * message => ord (fst a) (fst b) < 0)); [|exact HS]. intros a b H. exact H.
  Qed.

  Lemma at_seq_items : forall s, In s (seqs_of n) -> ascending ord (at_seq ITS s).
  Proof.
    intros s Hs. unfold at_seq. destruct (nth_in_or_default (Z.to_nat s) ITS []) as [H|H]; [|rewrite H; constructor].
    unfold ITS in H at 2. apply in_map_iff in H. destruct H as (q & E & Hq). rewrite <- E. now apply (sc_sorted _ _ _ _ SC).
  Qed.

  Lemma ITS_len : length ITS = n.
  Proof. unfold ITS, n. apply map_length. Qed.

  (** After a whole forward scan, a whole backward scan. *)
  Lemma back_scan : forall md st, md <> Raw -> m_mode st = md ->
    at_end ord D true (at_seq ITS) (seqs_of n) st ->
    exists st2 L, merge_prev cfg st = Some st2 /\
      spec_out cfg ord false (seqs_of n) md (at_seq ITS) L /\
      forall c f, c = m_can_prev \/ c = merge_can_curr -> (length (concat ITS) <= f)%nat ->
      exists st3, drain c (merge_prev cfg) f st2 = Some (out L, st3) /\
        at_end ord D false (at_seq ITS) (seqs_of n) st3 /\ m_mode st3 = md.
  Proof.
    intros md st Hm Emd (dead & R & I0 & _). 
    destruct (turn_settled true st [] dead R I0 ltac:(constructor) ltac:(congruence)) as (st2 & R2 & E & HS & HR & _).
    cbn [negb] in HS. rewrite Emd in HS. destruct (scan_settled false md st2 R2 Hm HS) as (L & HL & HD).
    assert (forall s, In s (seqs_of n) -> R2 s = rev (at_seq ITS s)) as HR2.
    { intros s Hs. apply (i_seqs _ _ _ _ _ _ _ _ _ I0) in Hs. apply in_map_iff in Hs. destruct Hs as (x & <- & Hx).
      rewrite (HR x Hx). rewrite <- (i_items _ _ _ _ _ _ _ _ _ I0 x Hx).
      pose proof (i_src _ _ _ _ _ _ _ _ _ I0) as Hsr. rewrite Forall_forall in Hsr.
      pose proof (done_rest ord D true _ (Hsr x Hx)) as Ed. cbn [app] in Hx.
      pose proof (i_dead _ _ _ _ _ _ _ _ _ I0) as Hd. rewrite Forall_forall in Hd. rewrite rest_dead, app_nil_r in Ed by now apply (Hd x Hx).
      now rewrite Ed. }
    exists st2, L. split; [exact E|]. split.
    - destruct HL as [A B]. split; [exact A|]. intros k d. rewrite B.
      assert (msgs (seqs_of n) R2 k = msgs (seqs_of n) (at_seq ITS) k) as ->; [|reflexivity].
      unfold msgs. clear - HR2 TO SC. pose proof (fun s => at_seq_items s) as HA.
      assert (forall l, (forall s, In s l -> In s (seqs_of n)) -> flat_map (fun s => messages_of k (R2 s)) l = flat_map (fun s => messages_of k (at_seq ITS s)) l) as H; [|now apply H].
      induction l as [|s l IH]; intros Hl; [reflexivity|]. cbn [flat_map]. rewrite IH by (intros s' Hs'; apply Hl; now right).
      rewrite HR2, messages_rev by (try apply HA; apply Hl; now left). reflexivity.
    - intros c f Hc Hf. apply (HD c f Hc).
      assert (Rsize (seqs_of n) R2 = length (concat ITS)) as ->; [|exact Hf].
      rewrite <- Rsize_at_seq, ITS_len. unfold Rsize.
      assert (forall l, (forall s, In s l -> In s (seqs_of n)) -> fold_right (fun s m => (length (R2 s) + m)%nat) O l = fold_right (fun s m => (length (at_seq ITS s) + m)%nat) O l) as H; [|now apply H].
      induction l as [|s l IH]; intros Hl; [reflexivity|]. cbn [fold_right]. rewrite IH by (intros s' Hs'; apply Hl; now right).
      rewrite HR2 by (apply Hl; now left). now rewrite rev_length.
  Qed.

  Lemma spec_rev : forall md R L, spec_out cfg ord true (seqs_of n) md R L -> spec_out cfg ord false (seqs_of n) md R (rev L).
  Proof.
    intros md R L [A B]. split.
    - apply (SS_rev (fun a b : bytes * message => ord (fst a) (fst b) < 0)); [|exact A]. intros a b H. exact H.
    - intros k d. rewrite <- B. symmetry. apply in_rev.
  Qed.
End Scan.
