(** * Proofs about circular indices *)

From Coq Require Import Arith Bool List Lia.
From Verif Require Import Ring.
Import ListNotations.

Lemma mod_bound : forall cap x, 0 < cap -> x mod cap < cap.
Proof. intros. apply Nat.mod_upper_bound. lia. Qed.

Lemma mod_add_cap : forall cap x, 0 < cap -> (x + cap) mod cap = x mod cap.
Proof. intros. replace (x + cap) with (x + 1 * cap) by lia. apply Nat.mod_add. lia. Qed.

(** distance from [y mod cap] up to [x mod cap] for y <= x < y + cap *)
Lemma ring_sub_abs : forall cap x y, 0 < cap -> y <= x < y + cap ->
  ring_sub cap (x mod cap) (y mod cap) = x - y.
Proof.
  intros cap x y Hc H. unfold ring_sub.
  pose proof (Nat.div_mod x cap ltac:(lia)). pose proof (Nat.div_mod y cap ltac:(lia)).
  pose proof (mod_bound cap x Hc). pose proof (mod_bound cap y Hc).
  set (a := x mod cap) in *. set (b := y mod cap) in *.
  set (p := x / cap) in *. set (q := y / cap) in *.
  assert (p = q \/ p = S q).
  { destruct (Nat.eq_dec p q); auto. right.
    assert (q <= p) by (unfold p, q; apply Nat.div_le_mono; lia).
    assert (cap * (p - q) < 2 * cap) by nia. nia. }
  destruct H4; subst p.
  - replace (a + cap - b) with ((x - y) + cap) by nia.
    rewrite mod_add_cap by lia. apply Nat.mod_small. nia.
  - replace (a + cap - b) with (x - y) by nia. apply Nat.mod_small. lia.
Qed.

Lemma ring_add_abs : forall cap x o, 0 < cap -> ring_add cap (x mod cap) o = (x + o) mod cap.
Proof. intros. unfold ring_add. apply Nat.add_mod_idemp_l. lia. Qed.

Lemma ring_in_range_abs : forall cap x s e, 0 < cap ->
  s <= e < s + cap -> s <= x < s + cap ->
  ring_in_range cap (x mod cap) (s mod cap) (e mod cap) = (x <? e).
Proof.
  intros. unfold ring_in_range. rewrite !ring_sub_abs by lia.
  destruct (Nat.ltb_spec (x - s) (e - s)), (Nat.ltb_spec x e); auto; lia.
Qed.

Lemma ring_slot_inj : forall cap s x y, 0 < cap ->
  s <= x < s + cap -> s <= y < s + cap -> x mod cap = y mod cap -> x = y.
Proof.
  intros cap s x y Hc Hx Hy E.
  pose proof (ring_sub_abs cap x s Hc ltac:(lia)). pose proof (ring_sub_abs cap y s Hc ltac:(lia)).
  rewrite E in H. lia.
Qed.

Definition ring_wf {A} (cap : nat) (r : ring A) : Prop := r_start r < cap /\ r_end r < cap.

Lemma ring_sub_small : forall cap a b, a < cap -> b < cap ->
  ring_sub cap a b = if b <=? a then a - b else a + cap - b.
Proof.
  intros. unfold ring_sub. destruct (Nat.leb_spec b a).
  - replace (a + cap - b) with (a - b + cap) by lia. rewrite mod_add_cap by lia.
    apply Nat.mod_small. lia.
  - apply Nat.mod_small. lia.
Qed.

Lemma ring_add_small : forall cap a o, a < cap -> o <= cap ->
  ring_add cap a o = if a + o <? cap then a + o else a + o - cap.
Proof.
  intros. unfold ring_add. destruct (Nat.ltb_spec (a + o) cap).
  - now apply Nat.mod_small.
  - replace (a + o) with (a + o - cap + cap) at 1 by lia. rewrite mod_add_cap by lia.
    apply Nat.mod_small. lia.
Qed.

Lemma ring_count_lt : forall A cap (r : ring A), 0 < cap -> ring_count cap r < cap.
Proof. intros. unfold ring_count, ring_sub. now apply mod_bound. Qed.

Ltac ring_cases :=
  repeat match goal with
  | H : context [if ?a <=? ?b then _ else _] |- _ => destruct (Nat.leb_spec a b)
  | H : context [if ?a <? ?b then _ else _] |- _ => destruct (Nat.ltb_spec a b)
  | |- context [if ?a <=? ?b then _ else _] => destruct (Nat.leb_spec a b)
  | |- context [if ?a <? ?b then _ else _] => destruct (Nat.ltb_spec a b)
  end.

Lemma ring_push_spec : forall A cap (r : ring A) v,
  ring_wf cap r -> ring_count cap r + 1 < cap ->
  ring_wf cap (ring_push cap r v) /\
  ring_count cap (ring_push cap r v) = ring_count cap r + 1 /\
  ring_contents cap (ring_push cap r v) = ring_contents cap r ++ [v].
Proof.
  intros A cap r v [Hs He] Hn.
  assert (C: ring_count cap (ring_push cap r v) = ring_count cap r + 1).
  { unfold ring_count in *. simpl. rewrite ring_add_small by lia.
    rewrite ring_sub_small in Hn |- * by (ring_cases; lia).
    rewrite ring_sub_small by lia. ring_cases; lia. }
  split; [split; simpl; auto|split; auto].
  - unfold ring_add. apply mod_bound. lia.
  - unfold ring_contents. rewrite C, seq_app, map_app. simpl seq. f_equal.
    + apply map_ext_in. intros i Hi. apply in_seq in Hi. simpl. unfold ring_set.
      destruct (Nat.eqb_spec (ring_add cap (r_start r) i) (r_end r)); auto.
      exfalso. unfold ring_count in *. rewrite ring_sub_small in Hi, Hn by lia.
      rewrite ring_add_small in e by (ring_cases; lia). ring_cases; lia.
    + simpl. f_equal. unfold ring_set.
      replace (ring_add cap (r_start r) (ring_count cap r)) with (r_end r).
      * now rewrite Nat.eqb_refl.
      * unfold ring_count. rewrite ring_sub_small by lia.
        rewrite ring_add_small by (ring_cases; lia). ring_cases; lia.
Qed.

Lemma ring_pop_spec : forall A cap (r : ring A),
  ring_wf cap r -> 0 < ring_count cap r ->
  ring_wf cap (ring_pop cap r) /\
  ring_count cap (ring_pop cap r) = ring_count cap r - 1 /\
  ring_contents cap r = r_slots r (r_start r) :: ring_contents cap (ring_pop cap r).
Proof.
  intros A cap r [Hs He] Hn.
  assert (C: ring_count cap (ring_pop cap r) = ring_count cap r - 1).
  { unfold ring_count in *. simpl. rewrite ring_add_small by lia.
    rewrite ring_sub_small in Hn |- * by (ring_cases; lia).
    rewrite ring_sub_small by lia. ring_cases; lia. }
  split; [split; simpl; auto|split; auto].
  - unfold ring_add. apply mod_bound. lia.
  - unfold ring_contents. rewrite C.
    pose proof (ring_count_lt A cap r ltac:(lia)).
    replace (ring_count cap r) with (1 + (ring_count cap r - 1)) at 1 by lia.
    rewrite seq_app, map_app. simpl seq at 1. simpl map at 1. simpl app.
    replace (ring_add cap (r_start r) 0) with (r_start r)
      by (unfold ring_add; rewrite Nat.add_0_r, Nat.mod_small; auto).
    f_equal. rewrite <- seq_shift, map_map. apply map_ext_in. intros i Hi. apply in_seq in Hi.
    simpl. f_equal. rewrite !ring_add_small by (try rewrite ring_add_small; ring_cases; lia).
    ring_cases; lia.
Qed.

Lemma ring_push_front_spec : forall A cap (r : ring A) v,
  ring_wf cap r -> ring_count cap r + 1 < cap ->
  ring_wf cap (ring_push_front cap r v) /\
  ring_count cap (ring_push_front cap r v) = ring_count cap r + 1 /\
  ring_contents cap (ring_push_front cap r v) = v :: ring_contents cap r.
Proof.
  intros A cap r v [Hs He] Hn.
  assert (S: ring_sub cap (r_start r) 1 < cap) by (unfold ring_sub; apply mod_bound; lia).
  assert (W: ring_wf cap (ring_push_front cap r v)) by (split; simpl; auto).
  assert (C: ring_count cap (ring_push_front cap r v) = ring_count cap r + 1).
  { unfold ring_count in *. cbn [r_start r_end ring_push_front].
    rewrite ring_sub_small by lia. rewrite ring_sub_small in Hn by lia.
    rewrite (ring_sub_small cap (r_end r) (r_start r)) by lia.
    rewrite ring_sub_small by lia. ring_cases; lia. }
  split; [auto|]. split; [auto|].
  destruct (ring_pop_spec A cap (ring_push_front cap r v) W ltac:(lia)) as [_ [_ P]].
  rewrite P. clear P. cbn [r_slots r_start ring_push_front].
  unfold ring_set at 1. rewrite Nat.eqb_refl. f_equal.
  unfold ring_contents.
  assert (B: ring_add cap (ring_sub cap (r_start r) 1) 1 = r_start r).
  { rewrite (ring_sub_small cap (r_start r) 1) by lia.
    rewrite ring_add_small by (ring_cases; lia). ring_cases; lia. }
  assert (D: ring_count cap (ring_pop cap (ring_push_front cap r v)) = ring_count cap r).
  { unfold ring_count. cbn [r_start r_end ring_push_front ring_pop]. now rewrite B. }
  rewrite D. apply map_ext_in. intros i Hi. apply in_seq in Hi.
  cbn [r_start r_end r_slots ring_push_front ring_pop]. rewrite B. unfold ring_set.
  destruct (Nat.eqb_spec (ring_add cap (r_start r) i) (ring_sub cap (r_start r) 1)); auto.
  exfalso. pose proof (ring_count_lt A cap r ltac:(lia)).
  rewrite ring_add_small in e by lia. rewrite ring_sub_small in e by lia. ring_cases; lia.
Qed.
