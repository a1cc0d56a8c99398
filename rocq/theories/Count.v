(** * Counting over initial segments of the naturals

    Shared by the concurrency models; nothing here is specific to one. *)

From Coq Require Import List Arith Bool Lia.
Import ListNotations.

Definition upd {A} (f : nat -> A) (t : nat) (v : A) : nat -> A :=
  fun j => if Nat.eqb j t then v else f j.

(** Number of i < n with [p i]. *)
Fixpoint cnt (p : nat -> bool) (n : nat) : nat :=
  match n with
  | O => 0
  | S n' => (if p n' then 1 else 0) + cnt p n'
  end.

Definition b2n (b : bool) : nat := if b then 1 else 0.

Lemma upd_same : forall {A} (f : nat -> A) t v, upd f t v t = v.
Proof. intros. unfold upd. now rewrite Nat.eqb_refl. Qed.
Lemma upd_other : forall {A} (f : nat -> A) t v u, u <> t -> upd f t v u = f u.
Proof. intros. unfold upd. destruct (Nat.eqb_spec u t); congruence. Qed.

Lemma cnt_ext : forall p q n, (forall i, i < n -> p i = q i) -> cnt p n = cnt q n.
Proof.
  induction n; intros H; cbn; [reflexivity|].
  rewrite (H n) by lia. rewrite IHn; [reflexivity|]. intros; apply H; lia.
Qed.

(** Changing one position. *)
Lemma cnt_change : forall p q n t, t < n -> (forall i, i <> t -> p i = q i) ->
  cnt q n + b2n (p t) = cnt p n + b2n (q t).
Proof.
  induction n; intros t Ht H; [lia|]. cbn [cnt].
  destruct (Nat.eq_dec t n) as [->|].
  - rewrite (cnt_ext q p n). 2: { intros; symmetry; apply H; lia. }
    unfold b2n. destruct (p n), (q n); lia.
  - rewrite (H n) by lia. specialize (IHn t ltac:(lia) H). lia.
Qed.

Lemma cnt_zero : forall p n, cnt p n = 0 <-> (forall i, i < n -> p i = false).
Proof.
  induction n; cbn; split; intros.
  - lia. - reflexivity.
  - destruct (p n) eqn:E; [cbn in H; lia|]. cbn in H. destruct (Nat.eq_dec i n) as [->|]; [assumption|].
    apply IHn; [assumption | lia].
  - rewrite (H n) by lia. cbn. apply IHn. intros; apply H; lia.
Qed.

Lemma cnt_le : forall p n, cnt p n <= n.
Proof. induction n; cbn; [lia|]. destruct (p n); lia. Qed.

Lemma cnt_pos : forall p n i, i < n -> p i = true -> 0 < cnt p n.
Proof.
  intros p n i Hi Hp. destruct (cnt p n) eqn:E; [|lia].
  rewrite (proj1 (cnt_zero p n) E i Hi) in Hp. discriminate.
Qed.

Lemma cnt_all_false : forall n, cnt (fun _ => false) n = 0.
Proof. intros. now apply cnt_zero. Qed.

Lemma cnt_full : forall p n, cnt p n = n -> forall i, i < n -> p i = true.
Proof.
  induction n; intros H i Hi; [lia|]. cbn in H. pose proof (cnt_le p n).
  destruct (p n) eqn:E; [|lia]. destruct (Nat.eq_dec i n) as [->|]; [assumption|].
  apply IHn; lia.
Qed.
