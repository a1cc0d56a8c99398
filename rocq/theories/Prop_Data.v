(** * C03, C31, C32: merging, key order, encodings *)

From Coq Require Import List ZArith NArith Bool Lia.
From Verif Require Import Base Codec Spec DataProofs CodecProofs Witness.
Import ListNotations.

(** ** C03: merge timing is unobservable *)

(** A way of grouping merges: [Join older newer]. *)
Inductive grouping := One (m : message) | Join (older newer : grouping).

Fixpoint messages_of (t : grouping) : list message :=
  match t with One m => [m] | Join a b => messages_of a ++ messages_of b end.

(** Evaluate a grouping with the code's pairwise merge. *)
Fixpoint merge_grouping (cfg : data_config) (k : bytes) (t : grouping) : option message :=
  match t with
  | One m => Some m
  | Join a b =>
      match merge_grouping cfg k a, merge_grouping cfg k b with
      | Some old, Some new => data_merge_tuples cfg k old new
      | _, _ => None
      end
  end.

Lemma replay_app : forall cfg k a b v,
  replay cfg k (a ++ b) v = replay cfg k b (replay cfg k a v).
Proof. intros. unfold replay. apply fold_left_app. Qed.

Lemma grouping_meaning : forall cfg k t,
  lawful_merge cfg -> Forall (msg_allowed cfg) (messages_of t) ->
  exists m, merge_grouping cfg k t = Some m /\ msg_allowed cfg m /\
            forall v, apply_msg cfg k m v = replay cfg k (messages_of t) v.
Proof.
  intros cfg k t L. induction t as [m|a IHa b IHb]; simpl; intros H.
  - inversion H; subst. exists m. auto.
  - apply Forall_app in H. destruct H as [Ha Hb].
    destruct (IHa Ha) as [x [Ex [Ax Mx]]]. destruct (IHb Hb) as [y [Ey [Ay My]]].
    rewrite Ex, Ey. destruct (data_merge_defined cfg k x y Ay) as [m Em].
    exists m. split; [auto|]. split; [eapply data_merge_allowed; eauto|].
    intros v. rewrite (data_merge_meaning cfg k x y m v L Em), Mx, My.
    now rewrite replay_app.
Qed.

Theorem C03_merge_timing_unobservable :
  forall cfg k t,
    lawful_merge cfg -> Forall (msg_allowed cfg) (messages_of t) ->
    exists m r,
      merge_grouping cfg k t = Some m /\
      data_merge_tuples_final cfg k m = Some r /\
      is_definitive r = true /\
      value_of r = replay cfg k (messages_of t) None.
Proof.
  intros cfg k t L H.
  destruct (grouping_meaning cfg k t L H) as [m [E [A M]]].
  destruct (data_merge_final_defined cfg k m A) as [r Er].
  destruct (data_merge_final_meaning cfg k m r L Er) as [D V].
  exists m, r. repeat split; auto. now rewrite V, M.
Qed.

(** Two groupings of the same messages give the same value. *)
Theorem C03_groupings_agree :
  forall cfg k t1 t2 m1 m2 r1 r2,
    lawful_merge cfg -> Forall (msg_allowed cfg) (messages_of t1) ->
    messages_of t1 = messages_of t2 ->
    merge_grouping cfg k t1 = Some m1 -> merge_grouping cfg k t2 = Some m2 ->
    data_merge_tuples_final cfg k m1 = Some r1 ->
    data_merge_tuples_final cfg k m2 = Some r2 ->
    value_of r1 = value_of r2.
Proof.
  intros cfg k t1 t2 m1 m2 r1 r2 L A E E1 E2 F1 F2.
  destruct (C03_merge_timing_unobservable cfg k t1 L A) as [m [r [H1 [H2 [_ H3]]]]].
  rewrite E in A.
  destruct (C03_merge_timing_unobservable cfg k t2 L A) as [m' [r' [H1' [H2' [_ H3']]]]].
  congruence.
Qed.

(** A later definitive message hides everything older, with no law at all. *)
Theorem C03_definitive_hides_older :
  forall cfg k old new, is_definitive new = true ->
    data_merge_tuples cfg k old new = Some new.
Proof. intros. unfold data_merge_tuples. now rewrite H. Qed.

Example C03_example :
  let u x := Msg MUpdate [x] in
  let t1 := Join (Join (One (Msg MInsert [1%N])) (One (u 2%N))) (One (u 3%N)) in
  let t2 := Join (One (Msg MInsert [1%N])) (Join (One (u 2%N)) (One (u 3%N))) in
  lawful_merge append_cfg /\ Forall (msg_allowed append_cfg) (messages_of t1) /\
  messages_of t1 = messages_of t2 /\
  merge_grouping append_cfg [9%N] t2 = Some (Msg MInsert [1; 2; 3]%N) /\
  replay append_cfg [9%N] (messages_of t1) None = Some [1; 2; 3]%N.
Proof.
  split; [apply append_cfg_lawful|]. split; [|repeat split].
  repeat constructor; simpl; discriminate.
Qed.

(** ** C31: key order *)

(** Dictionary order on byte strings: a proper prefix comes first. *)
Inductive dict_lt : bytes -> bytes -> Prop :=
| dict_prefix : forall y b, dict_lt [] (y :: b)
| dict_head : forall x y a b, (x < y)%N -> dict_lt (x :: a) (y :: b)
| dict_tail : forall x a b, dict_lt a b -> dict_lt (x :: a) (x :: b).

Lemma dict_lt_lexc : forall a b, dict_lt a b <-> lexc a b = Lt.
Proof.
  split.
  - induction 1; simpl; auto.
    + destruct (N.compare_spec x y); auto; lia.
    + now rewrite N.compare_refl.
  - revert b. induction a as [|x a IH]; destruct b as [|y b]; simpl; intros H;
      try discriminate; [constructor|].
    destruct (N.compare_spec x y); try discriminate; subst;
      [apply dict_tail; auto|apply dict_head; auto].
Qed.

(** For strings whose length fits an int (keys are far shorter), the default
    comparator is dictionary order: negative, zero and positive exactly when
    the first string is smaller, equal, greater. *)
Theorem C31_default_order :
  forall a b, (blen a < 2 ^ 31)%N -> (blen b < 2 ^ 31)%N ->
    ((slice_lex_cmp a b < 0)%Z <-> dict_lt a b) /\
    ((slice_lex_cmp a b = 0)%Z <-> a = b) /\
    ((slice_lex_cmp a b > 0)%Z <-> dict_lt b a).
Proof.
  intros a b Ha Hb. rewrite !dict_lt_lexc.
  split; [now apply slice_lex_cmp_lt|]. split; [now apply slice_lex_cmp_eq|].
  rewrite slice_lex_cmp_gt by assumption. rewrite (lexc_antisym a b).
  destruct (lexc b a); simpl; split; congruence.
Qed.

Theorem C31_dict_total :
  (forall a, ~ dict_lt a a) /\
  (forall a b c, dict_lt a b -> dict_lt b c -> dict_lt a c) /\
  (forall a b, dict_lt a b \/ a = b \/ dict_lt b a).
Proof.
  repeat split; intros.
  - rewrite dict_lt_lexc. intros E. pose proof (proj2 (lexc_eq a a) eq_refl). congruence.
  - rewrite dict_lt_lexc in *. eapply lexc_trans; eauto.
  - rewrite !dict_lt_lexc, <- lexc_eq. rewrite (lexc_antisym b a).
    destruct (lexc a b); auto.
Qed.

(** Extending any total order on user keys with the two infinities is a total
    order that agrees with it and bounds it. *)
Theorem C31_infinite_keys :
  forall cfg, total_order (key_compare cfg) ->
    total_order (data_key_compare cfg) /\
    (forall a b, data_key_compare cfg (KUser a) (KUser b) = key_compare cfg a b) /\
    (forall k, k <> KNegInf -> (data_key_compare cfg KNegInf k < 0)%Z) /\
    (forall k, k <> KPosInf -> (data_key_compare cfg k KPosInf < 0)%Z).
Proof.
  intros cfg [E A T]. split; [constructor|repeat split].
  - intros [|a|] [|b|]; simpl; split; intros H; try discriminate; auto.
    + f_equal. now apply E.
    + injection H as ->. now apply E.
  - intros [|a|] [|b|]; simpl; try lia. apply A.
  - intros [|a|] [|b|] [|c|]; simpl; try lia. apply T.
  - intros [|a|] H; simpl; try lia. congruence.
  - intros [|a|] H; simpl; try lia. congruence.
Qed.

(** Without the length bound the claim is false of the code: the length
    difference is truncated to an int. *)
Lemma slice_lex_cmp_wraps : forall a, blen a = (2 ^ 32)%N -> slice_lex_cmp a [] = 0%Z.
Proof. intros a H. unfold slice_lex_cmp. rewrite H. reflexivity. Qed.

Lemma bytes_of_any_length : forall n, exists a : bytes, blen a = n.
Proof.
  intros n. exists (repeat 0%N (N.to_nat n)). unfold blen.
  rewrite repeat_length. apply N2Nat.id.
Qed.

Theorem C31_default_order_unbounded_refuted :
  exists a b, a <> b /\ slice_lex_cmp a b = 0%Z.
Proof.
  destruct (bytes_of_any_length (2 ^ 32)) as [a H]. exists a, []. split.
  - intros ->. discriminate H.
  - now apply slice_lex_cmp_wraps.
Qed.

Example C31_example : dict_lt [1; 2]%N [1; 2; 0]%N /\ (slice_lex_cmp [1; 2]%N [1; 2; 0]%N < 0)%Z
  /\ total_order (key_compare append_cfg).
Proof.
  split; [do 2 apply dict_tail; constructor|]. split; [reflexivity|apply lex_compare_total].
Qed.

(** ** C32: encodings *)

Theorem C32_key_roundtrip :
  forall k rest, (key_length k < 2 ^ 16 - 2)%N ->
    ondisk_key_to_key (copy_key_to_ondisk_key k ++ rest) = Some k /\
    blen (copy_key_to_ondisk_key k) = (3 + key_length k)%N.
Proof. intros. split; [now apply key_roundtrip|apply key_size]. Qed.

Theorem C32_tuple_roundtrip :
  forall old_key_flags k m rest, (blen k < 2 ^ 16)%N -> (blen (m_data m) < 2 ^ 16)%N ->
    ondisk_tuple_decode (copy_tuple_to_ondisk_tuple old_key_flags k m ++ rest) = Some (k, m) /\
    blen (copy_tuple_to_ondisk_tuple old_key_flags k m) = (6 + blen k + blen (m_data m))%N.
Proof. intros. split; [now apply tuple_roundtrip|apply tuple_size]. Qed.

(** The bound in the key round trip is sharp: a key of 65534 bytes would be
    read back as +infinity. *)
Theorem C32_key_bound_sharp :
  exists k, key_length k = (2 ^ 16 - 2)%N /\
    ondisk_key_to_key (copy_key_to_ondisk_key k) = Some KPosInf.
Proof.
  destruct (bytes_of_any_length (2 ^ 16 - 2)) as [a H]. exists (KUser a).
  split; [exact H|]. cbn [copy_key_to_ondisk_key]. rewrite H. reflexivity.
Qed.

Example C32_example :
  ondisk_tuple_decode
    (copy_tuple_to_ondisk_tuple 77 [104; 105]%N (Msg MUpdate [1; 2; 3]%N) ++ [9]%N)
  = Some ([104; 105]%N, Msg MUpdate [1; 2; 3]%N).
Proof. reflexivity. Qed.

Print Assumptions C03_merge_timing_unobservable.
Print Assumptions C03_groupings_agree.
Print Assumptions C03_definitive_hides_older.
Print Assumptions C31_default_order.
Print Assumptions C31_dict_total.
Print Assumptions C31_infinite_keys.
Print Assumptions C31_default_order_unbounded_refuted.
Print Assumptions C32_key_roundtrip.
Print Assumptions C32_tuple_roundtrip.
Print Assumptions C32_key_bound_sharp.
