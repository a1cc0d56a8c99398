(** * C05, C06, C07, C33: merging sorted sources

    A source is a sorted list of (key, message) with a position in it; the
    sources are given oldest first.  [drain] is a caller that reads the current
    tuple and steps until a flag says stop.  The hypotheses [sources] are in
    MergeScanProofs.v: ascending keys, messages that the configuration allows,
    and positions that cut all the sources at the same key (all 0, or all at
    the first key that is at least some bound). *)

From Coq Require Import List ZArith NArith Bool Lia Sorting.Sorted Permutation.
From Verif Require Import Base Spec Spec_Merge DataProofs Merge MergeProofs MergeRunProofs
  MergeScanProofs MergeCursorProofs MergeRawProofs Witness.
Import ListNotations.
Local Open Scope Z_scope.

Definition setting (cfg : data_config) (ord : bytes -> bytes -> Z) (D : bytes -> Prop) (srcs : list src) : Prop :=
  total_order ord /\ agrees cfg ord D /\ sources cfg ord D srcs /\ (length srcs < 1024)%nat.

(** What a caller that reads [L] has seen. *)
Definition seen (L : list (bytes * message)) : list (option bytes * option message) :=
  map (fun p => (Some (fst p), Some (snd p))) L.
Definition values (L : list (bytes * bytes)) : list (bytes * message) :=
  map (fun p => (fst p, Msg MInsert (snd p))) L.

Lemma ahead_allowed : forall cfg ord D srcs, sources cfg ord D srcs ->
  forall l p, In l (map ahead srcs) -> In p l -> msg_allowed cfg (snd p).
Proof.
  intros cfg ord D srcs SC l p Hl Hp. apply in_map_iff in Hl. destruct Hl as (s & <- & Hs).
  apply (sc_allowed _ _ _ _ SC s); [exact Hs|]. unfold ahead in Hp. now apply skipn_incl in Hp.
Qed.
Lemma items_allowed : forall cfg ord D srcs, sources cfg ord D srcs ->
  forall l p, In l (map s_items srcs) -> In p l -> msg_allowed cfg (snd p).
Proof.
  intros cfg ord D srcs SC l p Hl Hp. apply in_map_iff in Hl. destruct Hl as (s & <- & Hs).
  now apply (sc_allowed _ _ _ _ SC s).
Qed.

(** ** C07: a scan returns the dictionary that the sources describe *)

Theorem C07_full_merge_is_the_dictionary :
  forall cfg ord D srcs, setting cfg ord D srcs -> lawful_merge cfg ->
    exists st L, merge_create cfg Full srcs = Some (Some st) /\
      merged_view cfg ord (map ahead srcs) L /\
      forall c f, c = m_can_next \/ c = merge_can_curr -> (length (concat (map ahead srcs)) <= f)%nat ->
      exists st', drain c (merge_next cfg) f st = Some (seen (values L), st') /\ m_can_next st' = false.
Proof.
  intros cfg ord D srcs (TO & AG & SC & Hn) LM.
  destruct (forward_scan cfg ord TO D AG srcs SC Full ltac:(discriminate) Hn) as (st & L & E & HL & HD).
  assert (forall k, msgs (seqs_of (length srcs)) (at_seq (map ahead srcs)) k = key_messages k (map ahead srcs)) as HMS
    by (intros k; rewrite <- (map_length ahead srcs); apply msgs_at_seq).
  destruct (full_meaning cfg ord srcs true _ (map ahead srcs) L LM (ahead_allowed _ _ _ _ SC) HMS HL) as (L2 & -> & HS & HI).
  exists st, L2. split; [exact E|]. split; [split; assumption|].
  intros c f Hc Hf. destruct (HD c f Hc Hf) as (st' & Ed & (dead & R & _ & He & _) & _). exists st'. split; [exact Ed|exact He].
Qed.
Print Assumptions C07_full_merge_is_the_dictionary.

Theorem C07_intermediate_merge_keeps_every_effect :
  forall cfg ord D srcs, setting cfg ord D srcs -> lawful_merge cfg ->
    exists st L, merge_create cfg Intermediate srcs = Some (Some st) /\
      merged_messages cfg ord (map ahead srcs) L /\
      forall c f, c = m_can_next \/ c = merge_can_curr -> (length (concat (map ahead srcs)) <= f)%nat ->
      exists st', drain c (merge_next cfg) f st = Some (seen L, st') /\ m_can_next st' = false.
Proof.
  intros cfg ord D srcs (TO & AG & SC & Hn) LM.
  destruct (forward_scan cfg ord TO D AG srcs SC Intermediate ltac:(discriminate) Hn) as (st & L & E & HL & HD).
  assert (forall k, msgs (seqs_of (length srcs)) (at_seq (map ahead srcs)) k = key_messages k (map ahead srcs)) as HMS
    by (intros k; rewrite <- (map_length ahead srcs); apply msgs_at_seq).
  destruct (inter_meaning cfg ord srcs true _ (map ahead srcs) L LM (ahead_allowed _ _ _ _ SC) HMS HL) as (HK & HM).
  exists st, L. split; [exact E|]. split; [split; [apply HL|split; assumption]|].
  intros c f Hc Hf. destruct (HD c f Hc Hf) as (st' & Ed & (dead & R & _ & He & _) & _). exists st'. split; [exact Ed|exact He].
Qed.
Print Assumptions C07_intermediate_merge_keeps_every_effect.

(** Without resolving, every tuple of every source comes out once, in order. *)
Theorem C07_raw_merge_is_a_sorted_permutation :
  forall cfg ord D srcs, setting cfg ord D srcs ->
    exists st L, merge_create cfg Raw srcs = Some (Some st) /\
      Permutation L (concat (map ahead srcs)) /\
      StronglySorted (fun a b => ord (fst a) (fst b) <= 0) L /\
      forall f, (length (concat (map ahead srcs)) <= f)%nat ->
      exists st', drain m_can_next (merge_next cfg) f st = Some (seen L, st').
Proof. intros cfg ord D srcs (TO & AG & SC & Hn). exact (raw_scan cfg ord TO D AG srcs SC Hn). Qed.
Print Assumptions C07_raw_merge_is_a_sorted_permutation.

(** Too many sources are refused, with no other effect. *)
Theorem C07_too_many_sources_refused :
  forall cfg md srcs, (1024 <= length srcs)%nat -> merge_create cfg md srcs = Some None.
Proof. intros cfg md srcs H. unfold merge_create. destruct (Nat.leb_spec MAX_MERGE_ARITY (length srcs)); [reflexivity|]. unfold MAX_MERGE_ARITY in *. lia. Qed.
Print Assumptions C07_too_many_sources_refused.

(** Three sources with every kind of message for the same keys. *)
Definition ex_srcs : list src :=
  [Src [([1%N], Msg MInsert [10%N]); ([2%N], Msg MInsert [20%N]); ([4%N], Msg MUpdate [40%N])] 0;
   Src [([2%N], Msg MUpdate [21%N]); ([3%N], Msg MInsert [30%N])] 0;
   Src [([1%N], Msg MDelete []); ([2%N], Msg MUpdate [22%N]); ([4%N], Msg MUpdate [41%N]); ([5%N], Msg MDelete [])] 0].
Definition D1 (k : bytes) : Prop := True.

Lemma append_agrees : agrees append_cfg lex_compare D1.
Proof. intros a b _ _. reflexivity. Qed.

Ltac asc := unfold ascending; repeat (constructor; cbn [fst]; try reflexivity).

Lemma ex_sources : sources append_cfg lex_compare D1 ex_srcs.
Proof.
  constructor.
  - intros s Hs. cbn [ex_srcs In] in Hs. destruct Hs as [<-|[<-|[<-|[]]]]; asc.
  - intros; exact I.
  - intros s p _ _. apply append_cfg_allowed.
  - intros s Hs. cbn [ex_srcs In] in Hs. destruct Hs as [<-|[<-|[<-|[]]]]; vm_compute; split; discriminate.
  - intros s s' a b Hs _ Ha _. cbn [ex_srcs In] in Hs. destruct Hs as [<-|[<-|[<-|[]]]]; destruct Ha.
Qed.

Example C07_setting_met : setting append_cfg lex_compare D1 ex_srcs /\ lawful_merge append_cfg.
Proof.
  split; [|exact append_cfg_lawful].
  split; [exact lex_compare_total|]. split; [exact append_agrees|]. split; [exact ex_sources|]. cbn. lia.
Qed.
Example C07_scan_example :
  match merge_create append_cfg Full ex_srcs with
  | Some (Some st) => option_map fst (drain m_can_next (merge_next append_cfg) 10 st)
  | _ => None
  end = Some (seen (values [([2%N], [20%N; 21%N; 22%N]); ([3%N], [30%N]); ([4%N], [40%N; 41%N])])).
Proof. vm_compute. reflexivity. Qed.

(** ** C06: nothing deleted or half merged is returned *)

Theorem C06_full_merge_returns_only_values :
  forall cfg ord D srcs, setting cfg ord D srcs -> lawful_merge cfg ->
    exists st, merge_create cfg Full srcs = Some (Some st) /\
      forall f out st', (length (concat (map ahead srcs)) <= f)%nat ->
        drain merge_can_curr (merge_next cfg) f st = Some (out, st') ->
        forall k m, In (k, m) out -> exists k' v, k = Some k' /\ m = Some (Msg MInsert v) /\
          replay cfg k' (key_messages k' (map ahead srcs)) None = Some v.
Proof.
  intros cfg ord D srcs HS LM. destruct (C07_full_merge_is_the_dictionary cfg ord D srcs HS LM) as (st & L & E & [_ HL] & HD).
  exists st. split; [exact E|]. intros f out0 st' Hf Ed k m Hi.
  destruct (HD merge_can_curr f ltac:(now right) Hf) as (st2 & Ed2 & _). rewrite Ed in Ed2. injection Ed2 as -> _.
  unfold seen in Hi. apply in_map_iff in Hi. destruct Hi as ([k1 m1] & E1 & Hi). unfold values in Hi. apply in_map_iff in Hi.
  destruct Hi as ([k2 v2] & E2 & Hi). cbn [fst snd] in *. injection E2 as <- <-. injection E1 as <- <-.
  exists k2, v2. split; [reflexivity|]. split; [reflexivity|]. now apply HL.
Qed.
Print Assumptions C06_full_merge_returns_only_values.

(** ** C05: back from the end *)

(** After a scan to the end, stepping back returns the same tuples in
    reverse.  (With sources that did not start at their first tuple, stepping
    back goes on to the tuples before.) *)
Theorem C05_backward_scan_mirrors_forward :
  forall cfg ord D srcs, setting cfg ord D srcs -> lawful_merge cfg ->
    exists st st1 L, merge_create cfg Full srcs = Some (Some st) /\
      (exists F, forall f, (length (concat (map ahead srcs)) <= f)%nat ->
                 drain merge_can_curr (merge_next cfg) f st = Some (F, st1)) /\
      merged_view cfg ord (map s_items srcs) L /\
      exists st2, merge_prev cfg st1 = Some st2 /\
        forall c f, c = m_can_prev \/ c = merge_can_curr -> (length (concat (map s_items srcs)) <= f)%nat ->
        exists st3, drain c (merge_prev cfg) f st2 = Some (seen (values (rev L)), st3) /\ m_can_prev st3 = false.
Proof.
  intros cfg ord D srcs (TO & AG & SC & Hn) LM.
  destruct (forward_scan cfg ord TO D AG srcs SC Full ltac:(discriminate) Hn) as (st & L0 & E & HL0 & HD).
  destruct (HD merge_can_curr _ ltac:(now right) (le_n _)) as (st1 & Ed & He & Hm).
  destruct (back_scan cfg ord TO D AG srcs SC Full st1 ltac:(discriminate) Hm He) as (st2 & L & E2 & HL & HD2).
  assert (forall k, msgs (seqs_of (length srcs)) (at_seq (map s_items srcs)) k = key_messages k (map s_items srcs)) as HMS
    by (intros k; rewrite <- (map_length s_items srcs); apply msgs_at_seq).
  destruct (full_meaning cfg ord srcs false _ (map s_items srcs) L LM (items_allowed _ _ _ _ SC) HMS HL) as (L2 & -> & HS & HI).
  exists st, st1, (rev L2). split; [exact E|]. split.
  { exists (out L0). intros f Hf. exact (drain_more _ _ _ _ _ _ Hf Ed). }
  split.
  { split.
    - apply (SS_rev (fun a b : bytes * bytes => dord ord false (fst a) (fst b) < 0)); [|exact HS]. intros a b H. exact H.
    - intros k v. rewrite <- in_rev. apply HI. }
  exists st2. split; [exact E2|]. rewrite rev_involutive.
  intros c f Hc Hf. destruct (HD2 c f Hc Hf) as (st3 & E3 & (dead & R & _ & He3 & _) & _). exists st3. split; [exact E3|exact He3].
Qed.
Print Assumptions C05_backward_scan_mirrors_forward.

Example C05_example :
  match merge_create append_cfg Full ex_srcs with
  | Some (Some st) =>
      match drain merge_can_curr (merge_next append_cfg) 10 st with
      | Some (_, st1) => match merge_prev append_cfg st1 with
                         | Some st2 => option_map fst (drain merge_can_curr (merge_prev append_cfg) 10 st2)
                         | None => None
                         end
      | None => None
      end
  | _ => None
  end = Some (seen (values [([4%N], [40%N; 41%N]); ([3%N], [30%N]); ([2%N], [20%N; 21%N; 22%N])])).
Proof. vm_compute. reflexivity. Qed.

(** Started with the sources at their greatest tuples below a bound, the
    iterator is created forwards (merge.c:563), so it does not stand on the
    greatest tuple below the bound and skips it on the way back.
    trunk_range_iterator_prev (trunk.c:6496-6502) starts it that way. *)
Theorem C05_start_below_a_bound_refuted :
  ~ (forall cfg ord D srcs st k,
       total_order ord -> agrees cfg ord D ->
       (forall s, In s srcs -> ascending ord (s_items s) /\ (0 <= s_pos s < src_len s)) ->
       (* each source at its last tuple *)
       (forall s, In s srcs -> s_pos s = src_len s - 1) ->
       merge_create cfg Full srcs = Some (Some st) ->
       (exists s m, In s srcs /\ In (k, m) (s_items s) /\ m_class m = MInsert) ->
       (forall s p, In s srcs -> In p (s_items s) -> ord (fst p) k <= 0) ->
       cur_key st = Some k).
Proof.
  intros H.
  set (srcs := [Src [([1%N], Msg MInsert [10%N]); ([9%N], Msg MInsert [90%N])] 1;
                Src [([2%N], Msg MInsert [20%N]); ([3%N], Msg MInsert [30%N])] 1]).
  destruct (merge_create append_cfg Full srcs) as [[st|]|] eqn:E; vm_compute in E; try discriminate.
  specialize (H append_cfg lex_compare D1 srcs st [9%N] lex_compare_total append_agrees).
  assert (cur_key st = Some [9%N]) as HC.
  { apply H.
    - intros s Hs. cbn [srcs In] in Hs. destruct Hs as [<-|[<-|[]]]; (split; [asc|vm_compute; split; [discriminate|reflexivity]]).
    - intros s Hs. cbn [srcs In] in Hs. destruct Hs as [<-|[<-|[]]]; reflexivity.
    - exact E.
    - exists (Src [([1%N], Msg MInsert [10%N]); ([9%N], Msg MInsert [90%N])] 1), (Msg MInsert [90%N]).
      split; [now left|]. split; [right; now left|reflexivity].
    - intros s p Hs Hp. cbn [srcs In] in Hs. destruct Hs as [<-|[<-|[]]]; cbn [s_items In] in Hp; destruct Hp as [<-|[<-|[]]]; vm_compute; discriminate. }
  injection E as <-. discriminate.
Qed.
Print Assumptions C05_start_below_a_bound_refuted.

(** ** C33: stepping back and forth *)

(** If no key is in two sources, the iterator is a cursor: whatever the steps,
    at position [j] of the resolved tuples [W] it shows the tuple [j], can move
    both ways, and at either end it can only move back. *)
Theorem C33_disjoint_sources_are_a_cursor :
  forall cfg ord D srcs md, setting cfg ord D srcs -> md <> Raw ->
    (forall i j s1 s2 k m1 m2, nth_error srcs i = Some s1 -> nth_error srcs j = Some s2 ->
       In (k, m1) (s_items s1) -> In (k, m2) (s_items s2) -> i = j) ->
    exists W st i, ascending ord W /\
      (forall k d, In (k, d) W <->
         exists s m, In s srcs /\ In (k, m) (s_items s) /\
           match md with
           | Full => data_merge_tuples_final cfg k m = Some d /\ m_class d <> MDelete
           | _ => d = m
           end) /\
      merge_create cfg md srcs = Some (Some st) /\ (i <= length W)%nat /\
      (forall p, In p (skipn i W) <-> In p W /\ exists s m, In s srcs /\ In (fst p, m) (ahead s)) /\
      forall ms j, cursor (Z.of_nat (length W)) ms (Z.of_nat i) = Some j ->
        exists st', run cfg ms st = Some st' /\
          (0 <= j < Z.of_nat (length W) -> m_can_next st' = true /\ m_can_prev st' = true /\
             exists k d, nth_error W (Z.to_nat j) = Some (k, d) /\ merge_curr st' = (Some k, Some d)) /\
          (j = Z.of_nat (length W) -> m_can_next st' = false /\ (W <> [] -> m_can_prev st' = true)) /\
          (j = -1 -> m_can_prev st' = false /\ (W <> [] -> m_can_next st' = true)).
Proof.
  intros cfg ord D srcs md (TO & AG & SC & Hn) Hmd DJ.
  destruct (cursor_scan cfg ord TO D AG srcs SC md Hmd Hn DJ) as (W & st & i & [WS WI] & E & Hi & HP & HR).
  exists W, st, i. split; [exact WS|]. split; [|split; [exact E|split; [exact Hi|split; [exact HP|exact HR]]]].
  intros k d. rewrite WI. split; intros (s & m & Hs & Hm & H); exists s, m; (split; [exact Hs|]); (split; [exact Hm|]); destruct md; try contradiction.
  - destruct H as [H _]. cbn [finish] in H. congruence.
  - destruct H as [H1 H2]. cbn [finish] in H1. split; [exact H1|]. unfold kept in H2. destruct (m_class d); congruence.
  - subst d. split; reflexivity.
  - destruct H as [H1 H2]. split; [exact H1|]. unfold kept. destruct (m_class d); congruence.
Qed.
Print Assumptions C33_disjoint_sources_are_a_cursor.

Definition ex_disjoint : list src :=
  [Src [([1%N], Msg MInsert [10%N]); ([5%N], Msg MDelete [])] 0;
   Src [([2%N], Msg MUpdate [20%N]); ([7%N], Msg MInsert [70%N])] 0].
Example C33_disjoint_example :
  match merge_create append_cfg Full ex_disjoint with
  | Some (Some st) => option_map merge_curr (run append_cfg [Next; Next; Next; Prev; Prev; Next; Prev; Prev] st)
  | _ => None
  end = Some (Some [1%N], Some (Msg MInsert [10%N]))
  /\ cursor 3 [Next; Next; Next; Prev; Prev; Next; Prev; Prev] 0 = Some (-1 + 1).
Proof. vm_compute. split; reflexivity. Qed.

(** In general not: if the current key is in two sources, a step back returns
    the current key again, with the newer source's message alone. *)
Theorem C33_next_then_prev_refuted :
  ~ (forall cfg ord D srcs st st1 st2, setting cfg ord D srcs -> lawful_merge cfg ->
       merge_create cfg Full srcs = Some (Some st) -> merge_can_curr st = true ->
       merge_next cfg st = Some st1 -> merge_can_curr st1 = true ->
       merge_prev cfg st1 = Some st2 -> merge_curr st2 = merge_curr st).
Proof.
  intros H.
  set (srcs := [Src [([1%N], Msg MInsert [1%N]); ([5%N], Msg MInsert [5%N])] 0; Src [([5%N], Msg MUpdate [6%N])] 0]).
  destruct (merge_create append_cfg Full srcs) as [[st|]|] eqn:E; vm_compute in E; try discriminate.
  destruct (merge_next append_cfg st) as [st1|] eqn:E1; [|injection E as <-; vm_compute in E1; discriminate].
  destruct (merge_prev append_cfg st1) as [st2|] eqn:E2; [|injection E as <-; vm_compute in E1; injection E1 as <-; vm_compute in E2; discriminate].
  assert (merge_curr st2 = merge_curr st) as HC.
  { apply (H append_cfg lex_compare D1 srcs st st1 st2).
    - split; [exact lex_compare_total|]. split; [exact append_agrees|]. split; [|cbn; lia]. constructor.
      + intros s Hs. cbn [srcs In] in Hs. destruct Hs as [<-|[<-|[]]]; asc.
      + intros; exact I.
      + intros s p _ _. apply append_cfg_allowed.
      + intros s Hs. cbn [srcs In] in Hs. destruct Hs as [<-|[<-|[]]]; vm_compute; split; discriminate.
      + intros s s' a b Hs _ Ha _. cbn [srcs In] in Hs. destruct Hs as [<-|[<-|[]]]; destruct Ha.
    - exact append_cfg_lawful.
    - exact E.
    - injection E as <-. reflexivity.
    - exact E1.
    - injection E as <-. vm_compute in E1. injection E1 as <-. reflexivity.
    - exact E2. }
  injection E as <-. vm_compute in E1. injection E1 as <-. vm_compute in E2. injection E2 as <-. discriminate.
Qed.
Print Assumptions C33_next_then_prev_refuted.

(** Worse, setup_ordered_iterators leaves the next_key_equal bit of the last
    iterator as it was (merge.c:458-470); after a turn the iterator can claim
    to be valid with no key, and the step after that is undefined. *)
Theorem C33_valid_iterator_has_a_tuple_refuted :
  exists cfg ord D srcs ms st st',
    setting cfg ord D srcs /\ lawful_merge cfg /\
    merge_create cfg Full srcs = Some (Some st) /\
    run cfg ms st = Some st' /\ merge_can_curr st' = true /\
    cur_key st' = None /\ merge_prev cfg st' = None.
Proof.
  set (srcs := [Src [([3%N], Msg MInsert [3%N]); ([9%N], Msg MInsert [9%N])] 0;
                Src [([2%N], Msg MInsert [2%N]); ([9%N], Msg MInsert [90%N])] 0;
                Src [([4%N], Msg MInsert [4%N]); ([5%N], Msg MInsert [5%N])] 0]).
  destruct (merge_create append_cfg Full srcs) as [[st|]|] eqn:E; vm_compute in E; try discriminate.
  destruct (run append_cfg [Next; Next; Next; Prev; Prev; Prev] st) as [st'|] eqn:E1; [|injection E as <-; vm_compute in E1; discriminate].
  exists append_cfg, lex_compare, D1, srcs, [Next; Next; Next; Prev; Prev; Prev], st, st'.
  split; [|split; [exact append_cfg_lawful|split; [exact E|split; [exact E1|]]]].
  - split; [exact lex_compare_total|]. split; [exact append_agrees|]. split; [|cbn; lia]. constructor.
    + intros s Hs. cbn [srcs In] in Hs. destruct Hs as [<-|[<-|[<-|[]]]]; asc.
    + intros; exact I.
    + intros s p _ _. apply append_cfg_allowed.
    + intros s Hs. cbn [srcs In] in Hs. destruct Hs as [<-|[<-|[<-|[]]]]; vm_compute; split; discriminate.
    + intros s s' a b Hs _ Ha _. cbn [srcs In] in Hs. destruct Hs as [<-|[<-|[<-|[]]]]; destruct Ha.
  - injection E as <-. vm_compute in E1. injection E1 as <-. vm_compute. auto.
Qed.
Print Assumptions C33_valid_iterator_has_a_tuple_refuted.
