(** * A decision procedure for comparisons of keys

    The keys in a finite list can be replaced by their ranks. *)

From Coq Require Import List Arith NArith ZArith Lia Bool.
From Verif Require Import Base Spec Search SearchProofs.
Import ListNotations.

Definition klt (cfg : data_config) (a b : key) : Prop := (data_key_compare cfg a b < 0)%Z.
Definition kle (cfg : data_config) (a b : key) : Prop := (data_key_compare cfg a b <= 0)%Z.

Lemma rank : forall cfg, total_order (key_compare cfg) -> forall l : list key, exists f : key -> Z,
  forall a b, In a l -> In b l -> (klt cfg a b <-> (f a < f b)%Z) /\ (kle cfg a b <-> (f a <= f b)%Z) /\ (a = b <-> f a = f b).
Proof.
  intros cfg TO0 l. pose proof (data_key_compare_total cfg TO0) as TO.
  exists (fun x => Z.of_nat (length (filter (fun y => (data_key_compare cfg y x <? 0)%Z) l))).
  assert (S1 : forall a, ~ klt cfg a a).
  { intros a H. unfold klt in H. assert (data_key_compare cfg a a = 0%Z) by (apply (to_eq _ TO); reflexivity). lia. }
  assert (S2 : forall a b, In a l -> klt cfg a b ->
     length (filter (fun y => (data_key_compare cfg y a <? 0)%Z) l) < length (filter (fun y => (data_key_compare cfg y b <? 0)%Z) l)).
  { intros a b I Hab.
    assert (Mono : forall l', length (filter (fun y => (data_key_compare cfg y a <? 0)%Z) l') <= length (filter (fun y => (data_key_compare cfg y b <? 0)%Z) l')).
    { induction l' as [|y r IH]; simpl; auto. destruct (Z.ltb_spec (data_key_compare cfg y a) 0) as [Hy|Hy].
      - assert (Q : (data_key_compare cfg y b < 0)%Z) by (exact (to_trans _ TO _ _ _ Hy Hab)). apply Z.ltb_lt in Q. rewrite Q. simpl. lia.
      - destruct (data_key_compare cfg y b <? 0)%Z; simpl; lia. }
    clear - I Hab Mono S1 TO. induction l as [|y r IH]; [contradiction|]. simpl.
    destruct I as [-> | I].
    - specialize (S1 a). unfold klt in *. destruct (Z.ltb_spec (data_key_compare cfg a a) 0); [contradiction|].
      apply Z.ltb_lt in Hab. rewrite Hab. simpl. specialize (Mono r). lia.
    - specialize (IH I). destruct (Z.ltb_spec (data_key_compare cfg y a) 0) as [Hy|Hy].
      + assert (Q : (data_key_compare cfg y b < 0)%Z) by (exact (to_trans _ TO _ _ _ Hy Hab)). apply Z.ltb_lt in Q. rewrite Q. simpl. lia.
      + destruct (data_key_compare cfg y b <? 0)%Z; simpl; lia. }
  intros a b Ia Ib.
  assert (T : klt cfg a b \/ a = b \/ klt cfg b a).
  { unfold klt. pose proof (to_eq _ TO a b). pose proof (to_antisym _ TO b a).
    destruct (Z.lt_trichotomy (data_key_compare cfg a b) 0) as [C|[C|C]]; [left; exact C | right; left; apply H; exact C | right; right; lia]. }
  assert (Le : kle cfg a b <-> klt cfg a b \/ a = b).
  { unfold kle, klt. pose proof (to_eq _ TO a b) as Q. split; [intro; destruct (Z.eq_dec (data_key_compare cfg a b) 0); [right; apply Q; auto | left; lia] | intros [?|?]; [lia | apply Q in H; lia]]. }
  assert (As : klt cfg b a -> ~ klt cfg a b). { intros H1 H2. apply (S1 a). exact (to_trans _ TO _ _ _ H2 H1). }
  destruct T as [T|[T|T]].
  - pose proof (S2 a b Ia T). assert (a <> b) by (intros ->; exact (S1 _ T)). repeat split; intros; auto; try lia; try (apply Le; auto); try contradiction; try (exfalso; lia).
  - subst b. repeat split; intros; auto; try lia; try (exfalso; eapply S1; eauto; fail); try (apply Le; auto).
  - pose proof (S2 b a Ib T). assert (a <> b) by (intros ->; exact (S1 _ T)). repeat split; intros; auto; try lia; try (apply Le; auto); try contradiction; try (exfalso; lia).
    + exfalso. eapply As; eauto.
    + apply Le in H1. destruct H1 as [H1|H1]; [exfalso; eapply As; eauto | contradiction].
Qed.

Ltac memk x l := lazymatch l with | x :: _ => constr:(true) | _ :: ?r => memk x r | nil => constr:(false) end.
Ltac addk l x k := let b := memk x l in match b with false => let r := k constr:(x :: l) in r end.
Ltac gather l :=
  match goal with
  | H : klt _ ?x ?y |- _ => let r := addk l x gather in r
  | H : klt _ ?x ?y |- _ => let r := addk l y gather in r
  | H : kle _ ?x ?y |- _ => let r := addk l x gather in r
  | H : kle _ ?x ?y |- _ => let r := addk l y gather in r
  | H : @eq key ?x ?y |- _ => let r := addk l x gather in r
  | H : @eq key ?x ?y |- _ => let r := addk l y gather in r
  | H : ~ (@eq key ?x ?y) |- _ => let r := addk l x gather in r
  | H : ~ (@eq key ?x ?y) |- _ => let r := addk l y gather in r
  | H : ~ klt _ ?x ?y |- _ => let r := addk l x gather in r
  | H : ~ klt _ ?x ?y |- _ => let r := addk l y gather in r
  | H : ~ kle _ ?x ?y |- _ => let r := addk l x gather in r
  | H : ~ kle _ ?x ?y |- _ => let r := addk l y gather in r
  | |- klt _ ?x ?y => let r := addk l x gather in r
  | |- klt _ ?x ?y => let r := addk l y gather in r
  | |- kle _ ?x ?y => let r := addk l x gather in r
  | |- kle _ ?x ?y => let r := addk l y gather in r
  | |- @eq key ?x ?y => let r := addk l x gather in r
  | |- @eq key ?x ?y => let r := addk l y gather in r
  | _ => l
  end.
Ltac in_list := first [left; reflexivity | right; in_list].
(** [ord TO]: the goal follows from the comparisons of keys in the context *)
Ltac ord TO :=
  try match goal with |- ~ _ => intro end;
  let l := gather constr:(@nil key) in
  let f := fresh "f" in let Hf := fresh "Hf" in
  destruct (rank _ TO l) as (f & Hf);
  repeat match goal with
  | H : klt _ ?x ?y |- _ => apply (proj1 (Hf x y ltac:(in_list) ltac:(in_list))) in H
  | H : kle _ ?x ?y |- _ => apply (proj1 (proj2 (Hf x y ltac:(in_list) ltac:(in_list)))) in H
  | H : @eq key ?x ?y |- _ => apply (proj2 (proj2 (Hf x y ltac:(in_list) ltac:(in_list)))) in H
  | H : ~ klt _ ?x ?y |- _ => rewrite (proj1 (Hf x y ltac:(in_list) ltac:(in_list))) in H
  | H : ~ kle _ ?x ?y |- _ => rewrite (proj1 (proj2 (Hf x y ltac:(in_list) ltac:(in_list)))) in H
  | H : ~ (@eq key ?x ?y) |- _ => rewrite (proj2 (proj2 (Hf x y ltac:(in_list) ltac:(in_list)))) in H
  end;
  match goal with
  | |- klt _ ?x ?y => apply (proj1 (Hf x y ltac:(in_list) ltac:(in_list)))
  | |- kle _ ?x ?y => apply (proj1 (proj2 (Hf x y ltac:(in_list) ltac:(in_list))))
  | |- @eq key ?x ?y => apply (proj2 (proj2 (Hf x y ltac:(in_list) ltac:(in_list))))
  | |- False => idtac
  end; clear Hf; lia.

Lemma kle_lt_dec : forall cfg, total_order (key_compare cfg) -> forall a b, {kle cfg a b} + {klt cfg b a}.
Proof.
  intros cfg TO0 a b. pose proof (data_key_compare_total cfg TO0) as TO. unfold kle, klt.
  destruct (Z_le_dec (data_key_compare cfg a b) 0) as [C|C]; [left; exact C|]. right.
  pose proof (to_antisym _ TO b a). lia.
Qed.
Lemma klt_neg_inf : forall cfg b, klt cfg KNegInf (KUser b).
Proof. intros. unfold klt. simpl. lia. Qed.
Lemma klt_pos_inf : forall cfg b, klt cfg (KUser b) KPosInf.
Proof. intros. unfold klt. simpl. lia. Qed.
Lemma kle_neg_inf : forall cfg k, kle cfg KNegInf k.
Proof. intros cfg []; unfold kle; simpl; lia. Qed.
Lemma kle_pos_inf : forall cfg k, kle cfg k KPosInf.
Proof. intros cfg []; unfold kle; simpl; lia. Qed.
