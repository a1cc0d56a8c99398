(** * Counting the elements of a sorted list that satisfy a downward closed predicate *)

From Coq Require Import List Arith Bool Lia Sorting.Sorted.
Import ListNotations.

Definition cnt {A} (p : A -> bool) (l : list A) : nat := length (filter p l).

Lemma cnt_nil : forall A (p : A -> bool), cnt p [] = 0.
Proof. reflexivity. Qed.
Lemma cnt_cons : forall A (p : A -> bool) a l, cnt p (a :: l) = (if p a then 1 else 0) + cnt p l.
Proof. intros. unfold cnt. cbn [filter]. destruct (p a); reflexivity. Qed.
Lemma cnt_app : forall A (p : A -> bool) a b, cnt p (a ++ b) = cnt p a + cnt p b.
Proof. intros. unfold cnt. now rewrite filter_app, app_length. Qed.
Lemma cnt_le_length : forall A (p : A -> bool) l, cnt p l <= length l.
Proof. intros A p l. induction l as [|a l IH]; [apply le_n|]. rewrite cnt_cons. cbn [length]. destruct (p a); lia. Qed.
Lemma cnt_ext : forall A (p q : A -> bool) l, (forall x, In x l -> p x = q x) -> cnt p l = cnt q l.
Proof.
  intros A p q l H. induction l as [|a l IH]; [reflexivity|]. rewrite !cnt_cons, (H a) by (now left).
  rewrite IH; [reflexivity|]. intros. apply H. now right.
Qed.
Lemma cnt_all : forall A (p : A -> bool) l, (forall x, In x l -> p x = true) -> cnt p l = length l.
Proof.
  intros A p l H. induction l as [|a l IH]; [reflexivity|]. rewrite cnt_cons, (H a) by (now left).
  cbn [length]. rewrite IH; [reflexivity|]. intros. apply H. now right.
Qed.
Lemma cnt_none : forall A (p : A -> bool) l, (forall x, In x l -> p x = false) -> cnt p l = 0.
Proof.
  intros A p l H. induction l as [|a l IH]; [reflexivity|]. rewrite cnt_cons, (H a) by (now left).
  apply IH. intros. apply H. now right.
Qed.
Lemma cnt_map : forall A B (f : A -> B) (p : B -> bool) l, cnt p (map f l) = cnt (fun x => p (f x)) l.
Proof. intros A B f p l. induction l as [|a l IH]; [reflexivity|]. cbn [map]. now rewrite !cnt_cons, IH. Qed.
Lemma cnt_mono : forall A (p q : A -> bool) l, (forall x, In x l -> p x = true -> q x = true) -> cnt p l <= cnt q l.
Proof.
  intros A p q l H. induction l as [|a l IH]; [apply le_n|]. rewrite !cnt_cons.
  assert (cnt p l <= cnt q l) by (apply IH; intros; apply H; [now right|assumption]).
  destruct (p a) eqn:Ea; [rewrite (H a (or_introl eq_refl) Ea); lia|]. destruct (q a); lia.
Qed.

(** [p] is closed downwards along [l]. *)
Definition closed {A} (p : A -> bool) (l : list A) : Prop :=
  forall X a Y b Z, l = X ++ a :: Y ++ b :: Z -> p b = true -> p a = true.

Lemma closed_sorted : forall A (R : A -> A -> Prop) p l, StronglySorted R l ->
  (forall a b, In a l -> In b l -> R a b -> p b = true -> p a = true) -> closed p l.
Proof.
  intros A R p l H HR X a Y b Z El Hb. subst l.
  assert (Hab : R a b).
  { clear HR Hb. induction X as [|x X IH]; cbn [app] in H; inversion H; subst; [|auto].
    rewrite Forall_forall in H3. apply H3. apply in_or_app. right. now left. }
  apply (HR a b); try assumption; apply in_or_app; right; [now left|].
  right. apply in_or_app. right. now left.
Qed.

Lemma closed_tail : forall A (p : A -> bool) a l, closed p (a :: l) -> closed p l.
Proof. intros A p a l H X b Y c Z E. apply (H (a :: X) b Y c Z). now rewrite E. Qed.

Lemma closed_app : forall A (p : A -> bool) a b, closed p (a ++ b) -> closed p a /\ closed p b.
Proof.
  intros A p a b H. split.
  - intros X x Y y Z E. apply (H X x Y y (Z ++ b)). rewrite E. now rewrite <- app_assoc, <- app_comm_cons, <- app_assoc.
  - intros X x Y y Z E. apply (H (a ++ X) x Y y Z). rewrite E. now rewrite <- app_assoc.
Qed.

Lemma closed_false : forall A (p : A -> bool) a l, closed p (a :: l) -> p a = false -> cnt p (a :: l) = 0.
Proof.
  intros A p a l H Ha. apply cnt_none. intros x [<-|Hx]; [assumption|].
  destruct (p x) eqn:Ex; [|reflexivity]. exfalso.
  apply in_split in Hx. destruct Hx as (Y & Z & ->). rewrite (H [] a Y x Z eq_refl Ex) in Ha. discriminate.
Qed.

(** The i-th element satisfies [p] iff i is below the count. *)
Lemma cnt_nth : forall A (p : A -> bool) l i x, closed p l -> nth_error l i = Some x ->
  p x = true <-> i < cnt p l.
Proof.
  intros A p l. induction l as [|a l IH]; intros i x H E; [now destruct i|].
  destruct (p a) eqn:Ea.
  - rewrite cnt_cons, Ea. destruct i as [|i]; cbn [nth_error] in E.
    + injection E as <-. split; [lia|auto].
    + rewrite (IH i x (closed_tail _ _ _ _ H) E). lia.
  - rewrite (closed_false _ _ _ _ H Ea). split; [|lia]. intros Hx. exfalso.
    destruct i as [|i]; cbn [nth_error] in E; [congruence|].
    apply nth_error_In, in_split in E. destruct E as (Y & Z & ->).
    rewrite (H [] a Y x Z eq_refl Hx) in Ea. discriminate.
Qed.

Lemma cnt_firstn : forall A (p : A -> bool) l, closed p l -> filter p l = firstn (cnt p l) l.
Proof.
  intros A p l H. induction l as [|a l IH]; [reflexivity|]. destruct (p a) eqn:Ea.
  - rewrite cnt_cons, Ea. cbn [filter firstn Nat.add]. rewrite Ea, <- IH by (eapply closed_tail; eauto). reflexivity.
  - pose proof (closed_false _ _ _ _ H Ea) as E0. unfold cnt in E0 |- *.
    destruct (filter p (a :: l)); [reflexivity|discriminate].
Qed.

Lemma cnt_skipn : forall A (p : A -> bool) l, closed p l -> filter (fun x => negb (p x)) l = skipn (cnt p l) l.
Proof.
  intros A p l H. induction l as [|a l IH]; [reflexivity|]. destruct (p a) eqn:Ea.
  - rewrite cnt_cons, Ea. cbn [filter skipn Nat.add]. rewrite Ea. cbn [negb]. apply IH. eapply closed_tail; eauto.
  - rewrite (closed_false _ _ _ _ H Ea). cbn [skipn].
    assert (X : forall m, (forall x, In x m -> p x = false) -> filter (fun x => negb (p x)) m = m).
    { induction m as [|b m IHm]; intros Hm; [reflexivity|]. cbn [filter]. rewrite (Hm b) by (now left). cbn [negb].
      f_equal. apply IHm. intros; apply Hm; now right. }
    apply X. intros x Hx. destruct (p x) eqn:Ex; [|reflexivity]. exfalso.
    destruct Hx as [<-|Hx]; [congruence|]. apply in_split in Hx. destruct Hx as (Y & Z & ->).
    rewrite (H [] a Y x Z eq_refl Ex) in Ea. discriminate.
Qed.

(** Counting in a middle part. *)
Lemma cnt_mid : forall A (p : A -> bool) a m b, closed p (a ++ m ++ b) ->
  cnt p m = Nat.min (length m) (cnt p (a ++ m ++ b) - length a).
Proof.
  intros A p a m b H. rewrite !cnt_app.
  pose proof (cnt_le_length _ p a). pose proof (cnt_le_length _ p m).
  destruct (Nat.eq_dec (cnt p a) (length a)) as [Ea|Ea].
  - destruct (Nat.eq_dec (cnt p m) (length m)) as [Em|Em]; [lia|].
    assert (cnt p b = 0); [|lia]. apply cnt_none. intros y Hy. destruct (p y) eqn:Ey; [exfalso|reflexivity].
    apply Em. apply cnt_all. intros x Hx. apply in_split in Hx, Hy. destruct Hx as (u & v & ->), Hy as (u' & v' & ->).
    apply (H (a ++ u) x (v ++ u') y v'); [|assumption]. repeat (rewrite <- ?app_assoc; cbn [app]); reflexivity.
  - assert (X : forall y, In y (m ++ b) -> p y = false).
    { intros y Hy. destruct (p y) eqn:Ey; [exfalso|reflexivity]. apply Ea, cnt_all. intros x Hx.
      apply in_split in Hx, Hy. destruct Hx as (u & v & ->), Hy as (u' & v' & Hy). rewrite Hy in H.
      apply (H u x (v ++ u') y v'); [|assumption]. repeat (rewrite <- ?app_assoc; cbn [app]); reflexivity. }
    rewrite (cnt_none _ p m), (cnt_none _ p b); [lia| |]; intros y Hy; apply X, in_or_app; auto.
Qed.
