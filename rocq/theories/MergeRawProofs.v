(** * Merging without resolving: MERGE_RAW *)

From Coq Require Import List ZArith NArith Bool Lia Permutation Sorted Arith Wf_nat.
From Verif Require Import Base Spec Spec_Merge DataProofs Merge MergeProofs MergeRunProofs MergeScanProofs.
Import ListNotations.
Local Open Scope Z_scope.

Section Raw.
  Variable cfg : data_config.
  Variable ord : bytes -> bytes -> Z.
  Hypothesis TO : total_order ord.
  Variable D : bytes -> Prop.
  Hypothesis AG : agrees cfg ord D.
  Variable srcs : list src.
  Hypothesis SC : sources cfg ord D srcs.

  Let n := length srcs.
  Let ITS := map s_items srcs.
  Let RS := map ahead srcs.

  Notation INV := (inv ord D true (at_seq ITS) (seqs_of n)).

  Definition all (R : Z -> list (bytes * message)) : list (bytes * message) := flat_map R (seqs_of n).

  Lemma all_upd : forall R s p r, In s (seqs_of n) -> R s = p :: r ->
    Permutation (all R) (p :: all (upd R s (tl (R s)))).
  Proof.
    intros R s p r Hs E. unfold all. pose proof (seqs_nodup (seqs_of n) (seqs_sorted n)) as Hn.
    rewrite E. cbn [tl]. induction (seqs_of n) as [|a l IH]; [destruct Hs|]. inversion Hn as [|? ? Ha Hn']; subst. cbn [flat_map].
    destruct Hs as [->|Hs].
    - unfold upd at 1. rewrite Z.eqb_refl, E. cbn [app]. constructor. apply Permutation_app_head.
      assert (flat_map (upd R s r) l = flat_map R l) as ->; [|reflexivity]. clear - Ha.
      induction l as [|b l IH]; [reflexivity|]. cbn [flat_map]. unfold upd at 1. destruct (Z.eqb_spec b s) as [->|]; [elim Ha; now left|].
      rewrite IH; [reflexivity|]. intros H. apply Ha. now right.
    - unfold upd at 1. destruct (Z.eqb_spec a s) as [->|]; [contradiction|]. rewrite (IH Hs Hn'). symmetry. apply Permutation_middle.
  Qed.

  Lemma all_nil : forall st dead R, INV st [] dead R -> all R = [].
  Proof.
    intros st dead R I0. unfold all. assert (forall s, In s (seqs_of n) -> R s = []) as H.
    { intros s Hs. destruct (inv_arr_in _ _ _ _ _ _ _ _ _ _ I0 Hs) as (x & Hx & _ & _ & Er).
      pose proof (i_dead _ _ _ _ _ _ _ _ _ I0) as Hd. rewrite Forall_forall in Hd. now rewrite <- Er, rest_dead by now apply (Hd x Hx). }
    clear - H. induction (seqs_of n) as [|a l IH]; [reflexivity|]. cbn [flat_map]. rewrite H by now left. apply IH. intros s Hs. apply H. now right.
  Qed.

  (** The state after advance_one_loop. *)
  Definition shown (st : mi) (live dead : list oit) (R : Z -> list (bytes * message)) : Prop :=
    INV st live dead R /\ m_mode st = Raw /\
    match live with
    | [] => m_can_next st = false
    | x :: _ => m_can_next st = true /\ m_can_prev st = true /\ cur_key st = o_key x /\ cur_data st = o_data x
    end.

  Lemma show : forall st live dead R, INV st live dead R -> m_mode st = Raw ->
    (live <> [] -> m_can_prev st = true /\ m_can_next st = true) ->
    exists st', advance_one_loop cfg st = Some (st', false) /\ shown st' live dead R.
  Proof.
    intros st live dead R I0 Em Hc. unfold advance_one_loop. rewrite (i_rem _ _ _ _ _ _ _ _ _ I0), (i_arr _ _ _ _ _ _ _ _ _ I0), (i_fwd _ _ _ _ _ _ _ _ _ I0), Em.
    destruct live as [|x t]; cbn [length app merge_messages negb].
    - eexists. split; [reflexivity|]. split; [|split; [exact Em|reflexivity]]. now apply (inv_same _ _ _ _ _ st); try apply I0.
    - destruct (Hc ltac:(discriminate)) as [Cp Cn]. eexists. split; [reflexivity|].
      split; [now apply (inv_same _ _ _ _ _ st)|]. split; [exact Em|]. cbn [set_curr m_can_prev m_can_next cur_key cur_data]. auto.
  Qed.

  Lemma raw_drain : forall m f st live dead R c, c = m_can_next \/ c = merge_can_curr ->
    shown st live dead R -> length (all R) = m -> (m <= f)%nat ->
    exists L st', drain c (merge_next cfg) f st = Some (out L, st') /\ Permutation L (all R) /\
      StronglySorted (fun a b => ord (fst a) (fst b) <= 0) L.
  Proof.
    induction m as [m IH] using lt_wf_ind. intros f st live dead R c Hcan (I0 & Em & Hl) Hm Hf. destruct live as [|x t].
    - exists [], st. rewrite (all_nil _ _ _ I0). split; [|split; constructor].
      assert (c st = false) as Ec by (destruct Hcan as [-> | ->]; [exact Hl|unfold merge_can_curr; now rewrite Hl]).
      destruct f; cbn [drain]; rewrite Ec; reflexivity.
    - destruct Hl as (Cn & Cp & Ck & Cd).
      destruct (R_head _ _ _ _ _ _ _ _ _ _ x I0 (or_introl eq_refl)) as (mx & rx & ER & Dx & Kx & _ & Hsx & _).
      pose proof (all_upd R (o_seq x) _ _ Hsx ER) as HP.
      assert (c st = true) as Ec by (destruct Hcan as [-> | ->]; [exact Cn|unfold merge_can_curr; now rewrite Cn, Cp]).
      assert (INV (set_curr st None None) (x :: t) dead R) as I1 by now apply (inv_same _ _ _ _ _ st).
      destruct (advance_spec cfg ord TO D AG true (at_seq ITS) (seqs_of n) _ _ _ _ _ I1) as (st1 & live1 & dead1 & E1 & J & Est1 & _).
      destruct (show st1 live1 dead1 _ J ltac:(rewrite Est1; exact Em) ltac:(intros _; rewrite Est1; auto)) as (st2 & E2 & HS2).
      pose proof (Permutation_length HP) as Hlen. cbn [length] in Hlen.
      destruct f as [|f]; [lia|]. cbn [drain]. rewrite Ec. cbn [negb]. unfold merge_next at 1. rewrite (i_fwd _ _ _ _ _ _ _ _ _ I0). cbn [negb].
      unfold merge_advance. cbn [advance_helper]. rewrite E1, E2.
      destruct (IH (length (all (upd R (o_seq x) (tl (R (o_seq x)))))) ltac:(lia) f st2 live1 dead1 _ c Hcan HS2 eq_refl ltac:(lia)) as (L & st' & ED & HPL & HSL). rewrite ED.
      exists ((key_of x, mx) :: L), st'. split; [unfold merge_curr; rewrite Ck, Cd, Kx, Dx; reflexivity|]. split.
      + rewrite HP. now constructor.
      + constructor; [exact HSL|]. rewrite Forall_forall. intros b Hb. apply (Permutation_in _ HPL) in Hb.
        assert (In b (all R)) as Hb' by (apply (Permutation_in _ (Permutation_sym HP)); now right).
        unfold all in Hb'. apply in_flat_map in Hb'. destruct Hb' as (s & Hs & Hb').
        exact (R_min ord TO D true _ _ _ _ _ _ _ _ _ I0 Hs Hb').
  Qed.

  Lemma raw_scan : (n < MAX_MERGE_ARITY)%nat ->
    exists st L, merge_create cfg Raw srcs = Some (Some st) /\ Permutation L (concat RS) /\
      StronglySorted (fun a b => ord (fst a) (fst b) <= 0) L /\
      forall f, (length (concat RS) <= f)%nat -> exists st', drain m_can_next (merge_next cfg) f st = Some (out L, st').
  Proof.
    intros Hn. unfold merge_create. fold n. destruct (Nat.leb_spec MAX_MERGE_ARITY n); [lia|].
    destruct (setup_inv cfg ord TO D AG true (at_seq ITS) (seqs_of n) (seqs_sorted n)
                (MI Raw true (init_oits 0 srcs) O false false None None 0) (at_seq RS) eq_refl (init_pre cfg ord D srcs SC)) as (st1 & live & dead & I0 & Em & Hc & _ & Es).
    rewrite Es. destruct (show st1 live dead _ I0 Em Hc) as (st2 & E2 & HS2). rewrite E2.
    assert (all (at_seq RS) = concat RS) as Ea.
    { unfold all, seqs_of, n. rewrite <- (map_length ahead srcs). fold RS. rewrite flat_map_concat_map, map_map.
      assert (forall a p, length p = a -> map (fun x => at_seq (p ++ RS) (Z.of_nat x)) (seq a (length RS)) = RS) as H1.
      { clear. induction RS as [|l ls IH]; intros a p Hp; [reflexivity|]. cbn [length seq map]. f_equal.
        - unfold at_seq. rewrite Nat2Z.id, app_nth2, Hp, Nat.sub_diag by lia. reflexivity.
        - rewrite <- (IH (S a) (p ++ [l])) at 2 by (rewrite app_length, Hp; cbn [length]; lia). now rewrite <- app_assoc. }
      f_equal. exact (H1 O [] eq_refl). }
    destruct (raw_drain _ (length (concat RS)) st2 live dead _ m_can_next ltac:(now left) HS2 eq_refl ltac:(now rewrite Ea)) as (L & st' & ED & HP & HSL).
    rewrite Ea in HP. exists st2, L. split; [reflexivity|]. split; [exact HP|]. split; [exact HSL|].
    intros f Hf. exists st'. exact (drain_more _ _ _ _ _ _ Hf ED).
  Qed.
End Raw.
