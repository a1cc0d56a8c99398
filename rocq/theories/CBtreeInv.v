(** The invariant of the tree under concurrent insertions, and facts about sorted
    entries and pivots. *)
From Coq Require Import List Arith Bool Lia Sorting.Sorted.
Import ListNotations.
From Verif Require Import CBtree.
Local Open Scope nat_scope.

(** ** Ranges. *)
Definition ge_lo (lo : option nat) (k : nat) := match lo with Some l => l <= k | None => True end.
Definition lt_hi (hi : option nat) (k : nat) := match hi with Some h => k < h | None => True end.
Definition inr (lo hi : option nat) (k : nat) := ge_lo lo k /\ lt_hi hi k.

(** What is known of a page in the tree: its height and range. *)
Definition ghost := nat -> option (nat * option nat * option nat).

Definition hdk {A} (l : list (nat * A)) (d : option nat) : option nat :=
  match l with (k, _) :: _ => Some k | [] => d end.

(** The children of an index divide its range; [B]: the pivot a page is under, 0 for the
    root: no key in the page is smaller. *)
Fixpoint kids (G : ghost) (B : nat -> nat) (h : nat) (lo hi : option nat) (ps : list (nat * nat))
  {struct ps} : Prop :=
  match ps with
  | [] => True
  | (p, c) :: r => (G c = Some (h, lo, hdk r hi) /\ B c = p) /\ kids G B h (hdk r hi) hi r
  end.

Definition nxt_ok (G : ghost) (hi nx : option nat) : Prop :=
  match nx, hi with
  | None, None => True
  | Some b, Some x => exists hb, G b = Some (0, Some x, hb)
  | _, _ => False
  end.
Definition prv_ok (G : ghost) (lo pv : option nat) : Prop :=
  match pv, lo with
  | None, None => True
  | Some b, Some x => exists lb, G b = Some (0, lb, Some x)
  | _, _ => False
  end.

(** The first entry of a leaf but the first is its pivot (2647-2650); only the root is
    empty. *)
Definition hd_ok (lo hi : option nat) (es : list (nat * list nat)) : Prop :=
  match es, lo with
  | [], _ => lo = None /\ hi = None
  | (k, _) :: _, Some x => k = x
  | _ :: _, None => True
  end.

Definition node_ok (G : ghost) (B : nat -> nat) (m : nat -> list nat) (b h : nat) (lo hi : option nat) (n : node) : Prop :=
  match n with
  | Leaf es pv nx =>
      h = 0 /\ StronglySorted lt (map fst es) /\ (forall k, In k (map fst es) -> inr lo hi k /\ b <= k) /\
      (forall k, inr lo hi k -> getk k es = m k) /\ nxt_ok G hi nx /\ prv_ok G lo pv /\ hd_ok lo hi es
  | Index h' ps =>
      exists h0, h = S h0 /\ h' = S h0 /\ ps <> [] /\ StronglySorted lt (map fst ps) /\
      (forall k, In k (map fst ps) -> inr lo hi k /\ b <= k) /\ kids G B h0 lo hi ps
  end.

Record tree (ef : nat -> node) (G : ghost) (B : nat -> nat) (m : nat -> list nat) (nx : nat) : Prop := {
  t_root : B 0 = 0 /\ exists h, G 0 = Some (h, None, None) /\
             forall a h' lo hi, G a = Some (h', lo, hi) -> h' <= h;
  t_lt   : forall a x, G a = Some x -> a < nx;
  t_ok   : forall a h lo hi, G a = Some (h, lo, hi) -> node_ok G B m (B a) h lo hi (ef a);
  t_ne   : forall a h lo hi, G a = Some (h, lo, hi) -> exists k, inr lo hi k;
  t_uniq : forall a b h lo hi lo' hi' k,
             G a = Some (h, lo, hi) -> G b = Some (h, lo', hi') ->
             inr lo hi k -> inr lo' hi' k -> a = b
}.

(** ** Sorted lists of keys. *)
Lemma ss_app : forall l r, StronglySorted lt (l ++ r) <->
  StronglySorted lt l /\ StronglySorted lt r /\ (forall x y, In x l -> In y r -> x < y).
Proof.
  induction l as [|a l IH]; cbn [app]; intros r.
  - split; [intros H; repeat split; [constructor|auto|intros x y []]|tauto].
  - split.
    + intros H. inversion H as [|? ? Hs Hf]; subst. apply IH in Hs. destruct Hs as (H1 & H2 & H3).
      rewrite Forall_app in Hf. destruct Hf as [F1 F2]. repeat split; auto.
      * constructor; auto.
      * rewrite Forall_forall in F2. intros x y [->|Hx] Hy; auto.
    + intros (H1 & H2 & H3). inversion H1; subst. constructor.
      * apply IH. repeat split; auto. intros; apply H3; cbn; auto.
      * rewrite Forall_app. split; auto. rewrite Forall_forall. intros; apply H3; cbn; auto.
Qed.

Lemma getk_notin : forall es k, ~ In k (map fst es) -> getk k es = [].
Proof.
  induction es as [|[k' v] r IH]; cbn; auto. intros k H. destruct (k' =? k) eqn:E.
  - apply Nat.eqb_eq in E. tauto.
  - apply IH. tauto.
Qed.

Lemma getk_app : forall l r k, (forall x, In x (map fst l) -> x <> k) -> getk k (l ++ r) = getk k r.
Proof.
  induction l as [|[k' v] l IH]; cbn; auto. intros r k H.
  destruct (k' =? k) eqn:E; [apply Nat.eqb_eq in E; exfalso; eapply H; eauto|].
  apply IH. intros; apply H; auto.
Qed.

Lemma getk_app_l : forall l r k, (forall x, In x (map fst r) -> x <> k) -> getk k (l ++ r) = getk k l.
Proof.
  induction l as [|[k' v] l IH]; cbn; intros r k H.
  - apply getk_notin. intros Hi. eapply H; eauto.
  - destruct (k' =? k); auto.
Qed.

Lemma in_setk : forall es k v x, In x (map fst (setk k v es)) -> x = k \/ In x (map fst es).
Proof.
  induction es as [|[k' v'] r IH]; cbn [setk getk map fst In]; intros k v x H.
  - destruct H; auto.
  - destruct (k <? k'); cbn [setk getk map fst In] in H; [destruct H as [->|[->|H]]; auto|].
    destruct (k =? k') eqn:E; cbn [setk getk map fst In] in H.
    + apply Nat.eqb_eq in E. subst. destruct H; auto.
    + destruct H as [->|H]; auto. apply IH in H. tauto.
Qed.

Lemma setk_sorted : forall es k v, StronglySorted lt (map fst es) -> StronglySorted lt (map fst (setk k v es)).
Proof.
  induction es as [|[k' v'] r IH]; cbn [setk getk map fst In]; intros k v H.
  - repeat constructor.
  - inversion H as [|? ? Hs Hf]; subst. destruct (k <? k') eqn:E.
    + apply Nat.ltb_lt in E. cbn. constructor; auto. constructor; auto.
      rewrite Forall_forall in *. intros x Hx. specialize (Hf x Hx). lia.
    + apply Nat.ltb_ge in E. destruct (k =? k') eqn:E'; cbn.
      * apply Nat.eqb_eq in E'. subst. auto.
      * apply Nat.eqb_neq in E'. constructor; auto. rewrite Forall_forall in *.
        intros x Hx. apply in_setk in Hx. destruct Hx as [->|Hx]; [lia|auto].
Qed.

Lemma getk_setk : forall es k v x, StronglySorted lt (map fst es) ->
  getk x (setk k v es) = if x =? k then v else getk x es.
Proof.
  induction es as [|[k' v'] r IH]; cbn [setk getk map fst In]; intros k v x H.
  - rewrite (Nat.eqb_sym k x). auto.
  - inversion H as [|? ? Hs Hf]; subst. destruct (k <? k') eqn:E.
    + cbn. rewrite (Nat.eqb_sym k x). destruct (x =? k) eqn:E1; auto.
    + destruct (k =? k') eqn:E'; cbn.
      * apply Nat.eqb_eq in E'. subst. rewrite (Nat.eqb_sym k' x). destruct (x =? k'); auto.
      * destruct (k' =? x) eqn:E1.
        -- apply Nat.eqb_eq in E1. subst. rewrite Nat.eqb_sym, E'. auto.
        -- apply IH; auto.
Qed.

Lemma setk_in : forall es k v, In k (map fst (setk k v es)).
Proof.
  induction es as [|[k' v'] r IH]; cbn [setk getk map fst In]; intros k v; auto.
  destruct (k <? k'); cbn; auto. destruct (k =? k'); cbn; auto.
Qed.

(** ** Pivots. *)
Lemma rank_le : forall ps k, rank k ps <= length ps.
Proof. induction ps as [|[p c] r IH]; cbn; intros k; auto. destruct (p <=? k); [|lia]. specialize (IH k). lia. Qed.

(** Where a key is routed. *)
Definition slot (k : nat) (ps : list (nat * nat)) : nat := zero (find k ps).

Lemma slot_pred : forall k ps, slot k ps = pred (rank k ps).
Proof. intros. unfold slot, find. destruct (rank k ps); reflexivity. Qed.

Lemma slot_lt : forall k ps, ps <> [] -> slot k ps < length ps.
Proof.
  intros k ps H. rewrite slot_pred. pose proof (rank_le ps k).
  destruct ps; [tauto|]. cbn [length] in *. lia.
Qed.

Lemma slot_nth : forall k ps, ps <> [] -> exists pk c, nth_error ps (slot k ps) = Some (pk, c).
Proof.
  intros k ps H. destruct (nth_error ps (slot k ps)) as [[pk c]|] eqn:E; eauto.
  apply nth_error_None in E. pose proof (slot_lt k ps H). lia.
Qed.

(** The child a key is routed to has it in its range. *)
Lemma slot_kid : forall G B h ps lo hi k pk c,
  kids G B h lo hi ps -> inr lo hi k -> StronglySorted lt (map fst ps) ->
  nth_error ps (slot k ps) = Some (pk, c) ->
  exists lo' hi', G c = Some (h, lo', hi') /\ inr lo' hi' k /\ B c = pk.
Proof.
  induction ps as [|[p1 c1] r IH]; intros lo hi k pk c K R S N.
  - destruct (slot k []); discriminate.
  - cbn [kids] in K. destruct K as [[K1 KB] K2]. rewrite slot_pred in N. cbn [rank] in N.
    assert (Here : nth_error ((p1, c1) :: r) 0 = Some (pk, c) -> lt_hi (hdk r hi) k ->
                   exists lo' hi', G c = Some (h, lo', hi') /\ inr lo' hi' k /\ B c = pk).
    { intros E H. cbn in E. injection E as -> ->. exists lo, (hdk r hi). split; auto.
      split; [|auto]. split; [apply R|auto]. }
    cbn [map fst] in S. inversion S as [|? ? S1 S2]; subst.
    destruct (B c1 <=? k) eqn:E1; cbn [pred] in N.
    + destruct r as [|[p2 c2] r'].
      * cbn [rank] in N. apply Here; auto. cbn. apply R.
      * cbn [rank] in N. destruct (p2 <=? k) eqn:E2.
        -- cbn in N. pose proof E2 as E3. apply Nat.leb_le in E3.
           apply (IH (Some p2) hi k pk c); auto.
           ++ split; [exact E3|apply R].
           ++ rewrite slot_pred. cbn [rank]. rewrite E2. cbn [pred]. exact N.
        -- apply Here; auto. cbn. apply Nat.leb_gt in E2. auto.
    + apply Here; auto. cbn in N. destruct r as [|[p2 c2] r']; cbn; [apply R|].
      apply Nat.leb_gt in E1. inversion S2; subst. cbn in *. lia.
Qed.

Lemma find_slot : forall k ps i, find k ps = Some i -> slot k ps = i.
Proof. intros k ps i H. unfold slot. rewrite H. reflexivity. Qed.

Lemma find_ne : forall k ps i, find k ps = Some i -> ps <> [].
Proof. intros k [|] i H; [discriminate|congruence]. Qed.

Lemma rank_nth : forall ps k i, i < rank k ps -> exists p c, nth_error ps i = Some (p, c) /\ p <= k.
Proof.
  induction ps as [|[p c] r IH]; cbn [rank]; intros k i H; [lia|].
  destruct (p <=? k) eqn:E; [|lia]. destruct i.
  - exists p, c. split; auto. apply Nat.leb_le; auto.
  - cbn. apply IH. lia.
Qed.

Lemma find_nth : forall k ps i, find k ps = Some i -> exists p c, nth_error ps i = Some (p, c) /\ p <= k.
Proof. intros k ps i. unfold find. destruct (rank k ps) eqn:E; [discriminate|]. intros [= <-]. apply rank_nth. lia. Qed.

Lemma find_none : forall k ps, find k ps = None -> ps <> [] -> exists p c r, ps = (p, c) :: r /\ k < p.
Proof.
  intros k [|[p c] r] H N; [tauto|]. exists p, c, r. split; auto.
  unfold find in H. cbn [rank] in H. destruct (p <=? k) eqn:E; [discriminate|]. apply Nat.leb_gt; auto.
Qed.

(** Lowering the first pivot does not change where a key is routed. *)
Lemma find_lowered : forall k ps, ps <> [] -> StronglySorted lt (map fst ps) ->
  find k (lowered (find k ps) k ps) = Some (slot k ps).
Proof.
  intros k ps H S. unfold slot. unfold lowered. destruct (find k ps) eqn:E; auto.
  destruct (find_none k ps E H) as (p & c & r & -> & L). cbn [lower].
  unfold find. cbn [rank zero]. rewrite Nat.leb_refl.
  destruct r as [|[p2 c2] r]; auto. cbn [rank].
  cbn in S. inversion S as [|? ? S1 S2]; subst. inversion S2; subst.
  replace (p2 <=? k) with false by (symmetry; apply Nat.leb_gt; lia). auto.
Qed.

Lemma lowered_ne : forall j k ps, ps <> [] -> lowered j k ps <> [].
Proof. intros [|] k [|[] ?] H; cbn; congruence. Qed.

Lemma lowered_sorted : forall k ps, StronglySorted lt (map fst ps) ->
  StronglySorted lt (map fst (lowered (find k ps) k ps)).
Proof.
  intros k ps S. unfold lowered. destruct (find k ps) eqn:E; auto.
  destruct ps as [|q ps]; auto. destruct (find_none k (q :: ps) E ltac:(congruence)) as (p & c & r & Eq & L).
  injection Eq as -> ->. cbn in *. inversion S as [|? ? S1 S2]; subst. constructor; auto.
  rewrite Forall_forall in *. intros x Hx. specialize (S2 x Hx). lia.
Qed.

Lemma lowered_in : forall k ps x, In x (map fst (lowered (find k ps) k ps)) -> x = k \/ In x (map fst ps).
Proof.
  intros k ps x. unfold lowered. destruct (find k ps); auto.
  destruct ps as [|[p c] r]; cbn; [tauto|]. intuition.
Qed.

Lemma lowered_snd : forall j k ps, map snd (lowered j k ps) = map snd ps.
Proof. intros [|] k [|[p c] r]; reflexivity. Qed.

(** *** Dividing and extending an index. *)
Lemma hdk_app : forall {A} (l : list (nat * A)) p c r d, hdk (l ++ (p, c) :: r) d = hdk l (Some p).
Proof. intros A [|[] ?] *; reflexivity. Qed.

Lemma kids_app : forall G B h l lo hi p c r,
  kids G B h lo hi (l ++ (p, c) :: r) <->
  kids G B h lo (Some p) l /\ kids G B h (match l with [] => lo | _ => Some p end) hi ((p, c) :: r).
Proof.
  induction l as [|[p1 c1] l IH]; intros lo hi p c r.
  - cbn [app kids]. tauto.
  - cbn [app]. change (kids G B h lo hi ((p1, c1) :: l ++ (p, c) :: r)) with
      ((G c1 = Some (h, lo, hdk (l ++ (p, c) :: r) hi) /\ B c1 = p1) /\
       kids G B h (hdk (l ++ (p, c) :: r) hi) hi (l ++ (p, c) :: r)).
    rewrite hdk_app. rewrite IH. cbn [kids].
    destruct l as [|[p2 c2] l]; cbn [hdk kids]; tauto.
Qed.

Lemma kids_ext : forall G B G' B' h hi ps lo,
  (forall c, In c (map snd ps) -> G' c = G c /\ B' c = B c) -> kids G B h lo hi ps -> kids G' B' h lo hi ps.
Proof.
  induction ps as [|[p c] r IH]; intros lo E K; auto.
  cbn [kids] in *. destruct K as [K1 K2]. split.
  - destruct (E c) as [-> ->]; [cbn; auto|auto].
  - apply IH; auto. intros; apply E; cbn; auto.
Qed.

Lemma kids_in : forall G B h hi ps lo c, kids G B h lo hi ps -> In c (map snd ps) ->
  exists lo' hi', G c = Some (h, lo', hi').
Proof.
  induction ps as [|[p c1] r IH]; intros lo c K H; cbn in *; [tauto|].
  destruct K as [[K1 _] K2]. destruct H as [->|H]; eauto.
Qed.

Lemma head_le : forall (r : list (nat * nat)) p c x, StronglySorted lt (map fst ((p, c) :: r)) ->
  In x (map fst ((p, c) :: r)) -> p <= x.
Proof.
  intros r p c x S H. cbn in *. inversion S; subst. destruct H as [->|H]; auto.
  rewrite Forall_forall in *. specialize (H3 x H). lia.
Qed.

(** A child's range lies in its parent's. *)
Lemma kids_sub : forall G B h ps lo hi c lo' hi' k,
  kids G B h lo hi ps -> StronglySorted lt (map fst ps) -> (forall x, In x (map fst ps) -> inr lo hi x) ->
  In c (map snd ps) -> G c = Some (h, lo', hi') -> inr lo' hi' k -> inr lo hi k.
Proof.
  induction ps as [|[p c1] r IH]; intros lo hi c lo' hi' k K S I H E R; [destruct H|].
  cbn [kids map fst snd] in *. destruct K as [[K1 _] K2]. pose proof S as S0. inversion S as [|? ? S1 S2]; subst. destruct H as [->|H].
  - rewrite E in K1. injection K1 as -> ->. destruct R as [R1 R2]. split; auto.
    destruct r as [|[p2 c2] r]; cbn [hdk] in *; auto.
    destruct (I p2) as [_ Hh]; [cbn; auto|]. destruct hi; cbn in *; auto. lia.
  - destruct r as [|[p2 c2] r]; [destruct H|]. cbn [hdk] in K2.
    assert (R' : inr (Some p2) hi k).
    { apply (IH (Some p2) hi c lo' hi' k); auto. intros x Hx. split.
      - cbn. apply (head_le r p2 c2); auto.
      - apply I. right. auto. }
    destruct R' as [R1 R2]. split; auto. destruct (I p2) as [Hl _]; [cbn; auto|].
    destruct lo; cbn in *; auto. lia.
Qed.

Lemma rank_app : forall l r k,
  rank k (l ++ r) = if rank k l =? length l then length l + rank k r else rank k l.
Proof.
  induction l as [|[p c] l IH]; cbn; intros r k; auto.
  destruct (p <=? k); auto. rewrite IH. cbn. destruct (rank k l =? length l); auto.
Qed.

Lemma rank_full : forall l k, rank k l < length l ->
  exists p c, nth_error l (rank k l) = Some (p, c) /\ k < p.
Proof.
  induction l as [|[p c] l IH]; cbn; intros k L; [lia|].
  destruct (p <=? k) eqn:E.
  - destruct (IH k) as (p' & c' & N & Q); auto; [lia|]. exists p', c'. auto.
  - exists p, c. split; auto. apply Nat.leb_gt; auto.
Qed.

(** A cut at [(pk, x)]: routed to the left or to the right half. *)
Lemma find_cut : forall l pk x r k j,
  StronglySorted lt (map fst (l ++ (pk, x) :: r)) -> l <> [] ->
  find k (l ++ (pk, x) :: r) = Some j ->
  (j < length l /\ k < pk /\ find k l = Some j) \/
  (length l <= j /\ pk <= k /\ find k ((pk, x) :: r) = Some (j - length l)).
Proof.
  intros l pk x r k j S N F. unfold find in *. rewrite rank_app in F.
  rewrite map_app in S. apply ss_app in S. destruct S as (S1 & S2 & S3).
  assert (LN : 0 < length l) by (destruct l; [tauto|cbn; lia]).
  destruct (rank k l =? length l) eqn:E.
  - apply Nat.eqb_eq in E. cbn [rank] in *. destruct (pk <=? k) eqn:E1.
    + apply Nat.leb_le in E1. right. replace (length l + S (rank k r)) with (S (length l + rank k r)) in F by lia.
      injection F as <-. repeat split; auto; try lia. f_equal. lia.
    + apply Nat.leb_gt in E1. left. rewrite E. destruct (length l) eqn:EL; [lia|]. rewrite Nat.add_0_r in F.
      injection F as <-. repeat split; auto; lia.
  - apply Nat.eqb_neq in E. pose proof (rank_le l k). destruct (rank_full l k) as (p & c & Hn & Hk); [lia|].
    assert (Q : p < pk).
    { apply S3; [|cbn; auto]. apply nth_error_In in Hn. apply in_map_iff. exists (p, c); auto. }
    left. destruct (rank k l) eqn:ER; [discriminate|]. injection F as <-. repeat split; lia.
Qed.

(** ** Changes of the tree. *)
Section TREE.
Variables (ef : nat -> node) (G : ghost) (B : nat -> nat) (m : nat -> list nat) (nx : nat).
Hypothesis T : tree ef G B m nx.

Lemma node_ok_leaf : forall a h lo hi es pv n, G a = Some (h, lo, hi) -> ef a = Leaf es pv n ->
  h = 0 /\ StronglySorted lt (map fst es) /\ (forall k, In k (map fst es) -> inr lo hi k /\ B a <= k) /\
  (forall k, inr lo hi k -> getk k es = m k) /\ nxt_ok G hi n /\ prv_ok G lo pv /\ hd_ok lo hi es.
Proof. intros a h lo hi es pv n Ga E. pose proof (t_ok _ _ _ _ _ T _ _ _ _ Ga) as H. rewrite E in H. exact H. Qed.

Lemma node_ok_index : forall a h lo hi h' ps, G a = Some (h, lo, hi) -> ef a = Index h' ps ->
  exists h0, h = S h0 /\ h' = S h0 /\ ps <> [] /\ StronglySorted lt (map fst ps) /\
      (forall k, In k (map fst ps) -> inr lo hi k /\ B a <= k) /\ kids G B h0 lo hi ps.
Proof. intros a h lo hi es pv Ga E. pose proof (t_ok _ _ _ _ _ T _ _ _ _ Ga) as H. rewrite E in H. exact H. Qed.

(** A page has one parent. *)
Lemma one_parent : forall a b h lo hi h1 ps h' lo' hi' h2 ps' c,
  G a = Some (h, lo, hi) -> ef a = Index h1 ps -> In c (map snd ps) ->
  G b = Some (h', lo', hi') -> ef b = Index h2 ps' -> In c (map snd ps') -> a = b.
Proof.
  intros a b h lo hi hh ps h' lo' hi' hh' ps' c Ga Ea Ia Gb Eb Ib.
  destruct (node_ok_index _ _ _ _ _ _ Ga Ea) as (h0 & -> & _ & _ & S1 & I1 & K1).
  destruct (node_ok_index _ _ _ _ _ _ Gb Eb) as (h1 & -> & _ & _ & S2 & I2 & K2).
  destruct (kids_in _ _ _ _ _ _ _ K1 Ia) as (l1 & u1 & G1).
  destruct (kids_in _ _ _ _ _ _ _ K2 Ib) as (l2 & u2 & G2).
  rewrite G1 in G2. injection G2 as <- <- <-.
  destruct (t_ne _ _ _ _ _ T _ _ _ _ G1) as (k & R).
  eapply (t_uniq _ _ _ _ _ T a b _ _ _ _ _ k); eauto.
  - eapply kids_sub; eauto. intros; apply I1; auto.
  - eapply kids_sub; eauto. intros; apply I2; auto.
Qed.

(** A page occurs once among the children of its parent. *)
Lemma kids_nodup : forall h ps lo hi, kids G B h lo hi ps ->
  StronglySorted lt (map fst ps) -> (forall k, In k (map fst ps) -> inr lo hi k) -> NoDup (map snd ps).
Proof.
  intros h ps. induction ps as [|[p c] r IH]; intros lo hi K S I; [constructor|].
  cbn [map snd fst kids] in *. destruct K as [[K1 KB] K2]. inversion S as [|? ? S1 S2]; subst. constructor.
  - intros Hc. destruct r as [|[p2 c2] r]; [destruct Hc|]. cbn [hdk] in *.
    destruct (t_ne _ _ _ _ _ T _ _ _ _ K1) as (k & R).
    assert (R' : inr (Some p2) hi k).
    { apply (kids_sub G B h ((p2, c2) :: r) (Some p2) hi c lo (Some p2)); auto.
      intros x Hx. split; [|apply I; right; auto]. cbn. apply (head_le r p2 c2); auto. }
    destruct R as [_ R]. destruct R' as [R' _]. cbn in *. lia.
  - apply (IH (hdk r hi) hi); auto. intros k Hk. split; [|apply I; right; auto].
    destruct r as [|[p2 c2] r]; [destruct Hk|]. cbn. apply (head_le r p2 c2); auto.
Qed.

(** The root is nobody's child. *)
Lemma root_not_kid : forall a h lo hi h1 ps, G a = Some (h, lo, hi) -> ef a = Index h1 ps -> ~ In 0 (map snd ps).
Proof.
  intros a h lo hi h1 ps Ga Ea Hi. destruct (node_ok_index _ _ _ _ _ _ Ga Ea) as (h0 & -> & _ & _ & _ & _ & K).
  destruct (kids_in _ _ _ _ _ _ _ K Hi) as (l & u & G0).
  destruct (t_root _ _ _ _ _ T) as (_ & h' & G0' & Hh). rewrite G0 in G0'. injection G0' as <- _ _.
  apply Hh in Ga. lia.
Qed.

Lemma hd_setk : forall lo hi hi' es k v, hd_ok lo hi es -> ge_lo lo k -> hd_ok lo hi' (setk k v es).
Proof.
  intros lo hi hi' [|[k' v'] es] k v H R; cbn [hd_ok setk] in *.
  - destruct H as [-> _]. auto.
  - destruct (k <? k') eqn:E; cbn [hd_ok].
    + destruct lo as [x|]; auto. apply Nat.ltb_lt in E. cbn in R. lia.
    + destruct (k =? k') eqn:E2; cbn [hd_ok]; auto. destruct lo as [x|]; auto. apply Nat.eqb_eq in E2. congruence.
Qed.

(** *** An insertion into a leaf. *)
Lemma tree_perform : forall a es pv n k v h lo hi m',
  G a = Some (h, lo, hi) -> inr lo hi k -> B a <= k -> ef a = Leaf es pv n ->
  m' k = v -> (forall x, x <> k -> m' x = m x) ->
  tree (upd ef a (Leaf (setk k v es) pv n)) G B m' nx.
Proof.
  intros a es pv n k v h lo hi m' Ga R Bk E M1 M2.
  destruct (node_ok_leaf _ _ _ _ _ _ _ Ga E) as (-> & S & I & V & N & P & HD).
  constructor; try apply T.
  - intros b h' lo' hi' Gb. unfold upd. destruct (b =? a) eqn:Eb.
    + apply Nat.eqb_eq in Eb. subst b. rewrite Ga in Gb. injection Gb as <- <- <-. cbn.
      split; [auto|]. split; [apply setk_sorted; auto|].
      split; [|split; [|split; [auto|split; [auto|eapply hd_setk; [exact HD|apply R]]]]].
      * intros x H. apply in_setk in H. destruct H as [->|H]; [auto|apply I; auto].
      * intros x Rx. rewrite getk_setk; auto. destruct (x =? k) eqn:Ex.
        -- apply Nat.eqb_eq in Ex. subst x. auto.
        -- apply Nat.eqb_neq in Ex. rewrite M2; auto.
    + apply Nat.eqb_neq in Eb. pose proof (t_ok _ _ _ _ _ T _ _ _ _ Gb) as H.
      destruct (ef b) as [es' pv' n'|h'' ps'] eqn:E'; auto. cbn in *.
      destruct H as (-> & S' & I' & V' & N' & P'). split; [auto|]. split; [auto|]. split; [auto|]. split; [|auto].
      intros x Rx. rewrite M2; auto. intros ->. apply Eb. eapply (t_uniq _ _ _ _ _ T b a); eauto.
Qed.

(** *** A pivot lowered. *)
Lemma tree_lower : forall a h ps k lo hi h1,
  G a = Some (h, lo, hi) -> inr lo hi k -> B a <= k -> ef a = Index h1 ps ->
  exists B', tree (upd ef a (Index h1 (lowered (find k ps) k ps))) G B' m nx /\
             (forall b, B' b <= B b) /\ (forall b, ~ In b (map snd ps) -> B' b = B b).
Proof.
  intros a h ps k lo hi h1 Ga R Bk E.
  destruct (find k ps) as [j|] eqn:F.
  { exists B. split; auto. constructor; try apply T. intros b h' lo' hi' Gb. unfold upd. destruct (b =? a) eqn:Eb; [|apply T; auto].
    apply Nat.eqb_eq in Eb. subst b. cbn [lowered]. rewrite <- E. apply T; auto. }
  destruct (node_ok_index _ _ _ _ _ _ Ga E) as (h0 & -> & -> & NE & S & I & K).
  destruct (find_none k ps F NE) as (p & c & r & -> & L).
  cbn [lowered lower]. cbn [kids] in K. destruct K as [[K1 KB] K2].
  assert (NC : ~ In c (map snd r)).
  { assert (ND : NoDup (map snd ((p, c) :: r))).
    { apply (kids_nodup h0 _ lo hi); [cbn; auto|auto|]. intros; apply I; auto. }
    cbn in ND. inversion ND; auto. }
  assert (Lb : forall b, upd B c k b <= B b).
  { intros b. unfold upd. destruct (b =? c) eqn:Eb; auto. apply Nat.eqb_eq in Eb. subst b. lia. }
  exists (upd B c k). split; [|split; [auto|]].
  2:{ intros b Hb. unfold upd. destruct (b =? c) eqn:Eb; auto. apply Nat.eqb_eq in Eb. subst b. cbn in Hb. tauto. }
  assert (Bo : forall b, b <> c -> upd B c k b = B b).
  { intros b Hb. unfold upd. apply Nat.eqb_neq in Hb. rewrite Hb. auto. }
  assert (C0 : c <> 0).
  { intros ->. apply (root_not_kid _ _ _ _ _ _ Ga E). cbn. auto. }
  constructor; try apply T.
  - destruct (t_root _ _ _ _ _ T) as (B0 & h' & G0 & Hh). split; [rewrite Bo; auto|eauto].
  - intros b h' lo' hi' Gb. change (upd ef a ?x b) with (if b =? a then x else ef b). destruct (b =? a) eqn:Eb.
    + apply Nat.eqb_eq in Eb. subst b. rewrite Ga in Gb. injection Gb as <- <- <-.
      exists h0. split; [auto|]. split; [auto|]. split; [congruence|]. split; [|split].
      * cbn in *. inversion S as [|? ? S1 S2]; subst. constructor; auto.
        rewrite Forall_forall in *. intros x Hx. specialize (S2 x Hx). lia.
      * intros x Hx. cbn in Hx. destruct Hx as [<-|Hx].
        -- split; auto. specialize (Lb a). lia.
        -- destruct (I x) as [I1 I2]; [cbn; auto|]. split; auto. specialize (Lb a). lia.
      * cbn [kids]. split; [split; [auto|unfold upd; rewrite Nat.eqb_refl; auto]|].
        eapply kids_ext; [|exact K2]. intros d Hd. split; auto. apply Bo. intros ->. tauto.
    + apply Nat.eqb_neq in Eb. pose proof (t_ok _ _ _ _ _ T _ _ _ _ Gb) as O.
      specialize (Lb b). destruct (ef b) as [es pv x|h2 ps2] eqn:Eb2; cbn in O |- *.
      * destruct O as (-> & S' & I' & V' & N' & P'). split; [auto|]. split; [auto|]. split; [|auto].
        intros x0 Hx. destruct (I' x0 Hx). split; auto. lia.
      * destruct O as (h3 & -> & -> & NE' & S' & I' & K'). exists h3. split; [auto|]. split; [auto|]. split; [auto|]. split; [auto|]. split.
        -- intros x0 Hx. destruct (I' x0 Hx). split; auto. lia.
        -- eapply kids_ext; [|exact K']. intros d Hd. split; auto. apply Bo. intros ->. apply Eb.
           eapply (one_parent b a); eauto. cbn. auto.
Qed.

(** *** The root grows. *)
Lemma tree_grow : forall n,
  grown (ef 0) nx = Some n ->
  exists G' B' k0, tree (upd (upd ef nx (ef 0)) 0 n) G' B' m (S nx) /\
    (forall a, a <> 0 -> a <> nx -> G' a = G a) /\ (forall a, a <> nx -> B' a = B a) /\
    n = Index (S (height (ef 0))) [(k0, nx)] /\
    (forall k c r, pivots (ef 0) = (k, c) :: r -> k0 = k).
Proof.
  intros n Hg. destruct (t_root _ _ _ _ _ T) as (B0 & h & G0 & Hh).
  assert (NX : 0 < nx) by (eapply (t_lt _ _ _ _ _ T); eauto).
  assert (Gnx : G nx = None).
  { destruct (G nx) eqn:E; auto. apply (t_lt _ _ _ _ _ T) in E. lia. }
  set (k0 := match ef 0 with Leaf es _ _ => match hdk es None with Some k => k | None => 0 end
             | Index _ ps => match hdk ps None with Some k => k | None => 0 end end).
  assert (height (ef 0) = h /\ n = Index (S h) [(k0, nx)] /\
          (forall x, In x (match ef 0 with Leaf es _ _ => map fst es | Index _ ps => map fst ps end) -> k0 <= x)) as (Hht & -> & Hk0).
  { pose proof (t_ok _ _ _ _ _ T _ _ _ _ G0) as O. unfold grown in Hg. unfold k0.
    destruct (ef 0) as [[|[k v] es] pv x|h' [|[k c] ps]]; try discriminate; injection Hg as <-; cbn in *.
    - destruct O as (-> & S & _). split; [auto|]. split; [auto|]. inversion S; subst. intros x0 [->|Hx]; auto.
      rewrite Forall_forall in *. specialize (H2 x0 Hx). lia.
    - destruct O as (h0 & -> & -> & _ & S & _). split; [auto|]. split; [auto|]. inversion S; subst. intros x0 [->|Hx]; auto.
      rewrite Forall_forall in *. specialize (H2 x0 Hx). lia. }
  set (G' := upd (upd G 0 (Some (S h, None, None))) nx (Some (h, None, None))).
  set (B' := upd B nx k0).
  assert (G'0 : G' 0 = Some (S h, None, None)).
  { unfold G', upd. replace (0 =? nx) with false by (symmetry; apply Nat.eqb_neq; lia). reflexivity. }
  assert (G'n : G' nx = Some (h, None, None)) by (unfold G', upd; rewrite Nat.eqb_refl; reflexivity).
  assert (G'o : forall a, a <> 0 -> a <> nx -> G' a = G a).
  { intros a H1 H2. unfold G', upd. apply Nat.eqb_neq in H1, H2. rewrite H1, H2. auto. }
  assert (B'n : B' nx = k0) by (unfold B', upd; rewrite Nat.eqb_refl; reflexivity).
  assert (B'o : forall a, a <> nx -> B' a = B a).
  { intros a H. unfold B', upd. apply Nat.eqb_neq in H. rewrite H. auto. }
  assert (top : forall a lo hi, G a = Some (h, lo, hi) -> a = 0).
  { intros a lo hi Ga. destruct (t_ne _ _ _ _ _ T _ _ _ _ Ga) as (k & R).
    eapply (t_uniq _ _ _ _ _ T a 0 h); eauto. split; cbn; auto. }
  assert (old : forall a x, G a = Some x -> a <> nx) by (intros a x Ga ->; congruence).
  exists G', B', k0. split; [|split; [auto|split; [auto|split]]].
  2:{ rewrite Hht. auto. }
  2:{ intros k c r Hp. unfold k0. destruct (ef 0); cbn in Hp; [discriminate|]. rewrite Hp. auto. }
  constructor.
  - split; [rewrite B'o; [auto|lia]|]. exists (S h). split; auto. intros a h' lo hi Ga. destruct (Nat.eq_dec a 0) as [->|H1]; [rewrite G'0 in Ga; injection Ga; lia|].
    destruct (Nat.eq_dec a nx) as [->|H2]; [rewrite G'n in Ga; injection Ga; lia|].
    rewrite G'o in Ga; auto. apply Hh in Ga. lia.
  - intros a x Ga. destruct (Nat.eq_dec a 0) as [->|H1]; [lia|]. destruct (Nat.eq_dec a nx) as [->|H2]; [lia|].
    rewrite G'o in Ga; auto. apply (t_lt _ _ _ _ _ T) in Ga. lia.
  - intros a h' lo hi Ga. unfold upd at 1. destruct (a =? 0) eqn:E0.
    + apply Nat.eqb_eq in E0. subst a. rewrite G'0 in Ga. injection Ga as <- <- <-. cbn.
      exists h. split; [auto|]. split; [auto|]. split; [congruence|]. split; [repeat constructor|]. split; [|auto].
      intros k _. split; [split; cbn; auto|]. rewrite B'o; [lia|lia].
    + apply Nat.eqb_neq in E0. unfold upd. destruct (a =? nx) eqn:E1.
      * apply Nat.eqb_eq in E1. subst a. rewrite G'n in Ga. injection Ga as <- <- <-. rewrite B'n.
        pose proof (t_ok _ _ _ _ _ T _ _ _ _ G0) as O. destruct (ef 0) as [es pv x|h' ps]; cbn in *.
        -- destruct O as (-> & S & I & V & N & P). split; [auto|]. split; [auto|]. split; [|split; [auto|]].
           ++ intros x0 Hx. split; [apply I; auto|auto].
           ++ split; [destruct x; tauto|destruct pv; tauto].
        -- destruct O as (h0 & -> & -> & NE & S & I & K). exists h0. split; [auto|]. split; [auto|]. split; [auto|]. split; [auto|]. split.
           ++ intros x0 Hx. split; [apply I; auto|auto].
           ++ eapply kids_ext; [|exact K]. intros c Hc. destruct (kids_in _ _ _ _ _ _ _ K Hc) as (l & u & Gc).
              split; [|apply B'o; eapply old; eauto].
              apply G'o; [|eapply old; eauto]. intros ->. rewrite G0 in Gc. injection Gc. lia.
      * apply Nat.eqb_neq in E1. rewrite G'o in Ga; auto.
        assert (Hl : h' < h).
        { pose proof (Hh _ _ _ _ Ga). destruct (Nat.eq_dec h' h) as [->|]; [|lia].
          exfalso. apply E0. eapply top; eauto. }
        rewrite B'o; auto.
        pose proof (t_ok _ _ _ _ _ T _ _ _ _ Ga) as O. destruct (ef a) as [es pv x|h2 ps]; cbn in *.
        -- destruct O as (-> & S & I & V & N & P & HD). split; [auto|]. split; [auto|]. split; [auto|]. split; [auto|]. split; [|split; [|exact HD]].
           ++ destruct x as [b|], hi as [y|]; cbn in *; auto. destruct N as (hb & Gb). exists hb. rewrite G'o; auto; [|eapply old; eauto].
              intros ->. congruence.
           ++ destruct pv as [b|], lo as [y|]; cbn in *; auto. destruct P as (lb & Gb). exists lb. rewrite G'o; auto; [|eapply old; eauto].
              intros ->. congruence.
        -- destruct O as (h0 & -> & -> & NE & S & I & K). exists h0. split; [auto|]. split; [auto|]. split; [auto|]. split; [auto|]. split; [auto|].
           eapply kids_ext; [|exact K]. intros c Hc. destruct (kids_in _ _ _ _ _ _ _ K Hc) as (l & u & Gc).
           split; [|apply B'o; eapply old; eauto].
           apply G'o; [|eapply old; eauto]. intros ->. rewrite G0 in Gc. injection Gc. lia.
  - intros a h' lo hi Ga. destruct (Nat.eq_dec a 0) as [->|H1]; [rewrite G'0 in Ga; injection Ga as <- <- <-; exists 0; split; cbn; auto|].
    destruct (Nat.eq_dec a nx) as [->|H2]; [rewrite G'n in Ga; injection Ga as <- <- <-; exists 0; split; cbn; auto|].
    rewrite G'o in Ga; auto. eapply (t_ne _ _ _ _ _ T); eauto.
  - intros a b h' lo hi lo' hi' k Ga Gb Ra Rb.
    destruct (Nat.eq_dec a 0) as [->|A1]; destruct (Nat.eq_dec b 0) as [->|B1]; auto.
    + rewrite G'0 in Ga. injection Ga as <- <- <-. destruct (Nat.eq_dec b nx) as [->|B2]; [rewrite G'n in Gb; injection Gb; lia|].
      rewrite G'o in Gb; auto. apply Hh in Gb. lia.
    + rewrite G'0 in Gb. injection Gb as <- <- <-. destruct (Nat.eq_dec a nx) as [->|B2]; [rewrite G'n in Ga; injection Ga; lia|].
      rewrite G'o in Ga; auto. apply Hh in Ga. lia.
    + destruct (Nat.eq_dec a nx) as [->|A2]; destruct (Nat.eq_dec b nx) as [->|B2]; auto.
      * rewrite G'n in Ga. injection Ga as <- <- <-. rewrite G'o in Gb; auto. exfalso. apply B1. eapply top; eauto.
      * rewrite G'n in Gb. injection Gb as <- <- <-. rewrite G'o in Ga; auto. exfalso. apply A1. eapply top; eauto.
      * rewrite G'o in Ga, Gb; auto. eapply (t_uniq _ _ _ _ _ T a b); eauto.
Qed.

(** *** A page is divided at [pk]. *)
Section DIVIDE.
Variables (p c rc h hp : nat) (plo phi lo hi : option nat) (l r : list (nat * nat)) (pc pk : nat) (L R : node).
Hypothesis Gp : G p = Some (hp, plo, phi).
Hypothesis Ep : ef p = Index hp (l ++ (pc, c) :: r).
Hypothesis Gc : G c = Some (h, lo, hi).
Hypothesis Grc : G rc = None.
Hypothesis RC : rc < nx.
Hypothesis Pin : inr lo hi pk.
Hypothesis Low : exists x, inr lo hi x /\ B c <= x /\ x < pk.

Definition Gd : ghost := upd (upd G c (Some (h, lo, Some pk))) rc (Some (h, Some pk, hi)).
Definition Bd : nat -> nat := upd B rc pk.

Lemma div_c_rc : c <> rc.
Proof using Gc Grc. intros E. pose proof Gc as H. rewrite E in H. congruence. Qed.
Lemma div_p_rc : p <> rc.
Proof using Gp Grc. intros E. pose proof Gp as H. rewrite E in H. congruence. Qed.

Lemma div_facts : exists h0, hp = S h0 /\ h = h0 /\ StronglySorted lt (map fst (l ++ (pc, c) :: r)) /\
  (forall k, In k (map fst (l ++ (pc, c) :: r)) -> inr plo phi k /\ B p <= k) /\
  kids G B h0 plo (Some pc) l /\ lo = match l with [] => plo | _ => Some pc end /\ hi = hdk r phi /\ B c = pc /\
  kids G B h0 (hdk r phi) phi r /\ NoDup (map snd (l ++ (pc, c) :: r)).
Proof using T Gp Ep Gc.
  destruct (node_ok_index _ _ _ _ _ _ Gp Ep) as (h0 & Eh & _ & NE & S & I & K).
  assert (ND : NoDup (map snd (l ++ (pc, c) :: r))) by (eapply kids_nodup; eauto; intros; apply I; auto).
  apply kids_app in K. destruct K as [K1 [[K2 K3] K4]]. rewrite Gc in K2. injection K2 as K2h K2l K2u.
  exists h0. repeat (split; [auto|]). auto.
Qed.

Lemma div_c0 : c <> 0.
Proof using T Gp Ep. intros E. apply (root_not_kid _ _ _ _ _ _ Gp Ep). rewrite E, map_app, in_app_iff. cbn. auto. Qed.

Lemma Gd_c : Gd c = Some (h, lo, Some pk).
Proof using Gc Grc. unfold Gd, upd. pose proof div_c_rc as H. apply Nat.eqb_neq in H. rewrite H, Nat.eqb_refl. auto. Qed.
Lemma Gd_rc : Gd rc = Some (h, Some pk, hi).
Proof. unfold Gd, upd. rewrite Nat.eqb_refl. auto. Qed.
Lemma Gd_o : forall a, a <> c -> a <> rc -> Gd a = G a.
Proof. intros a H1 H2. unfold Gd, upd. apply Nat.eqb_neq in H1, H2. rewrite H1, H2. auto. Qed.
Lemma Bd_rc : Bd rc = pk.
Proof. unfold Bd, upd. rewrite Nat.eqb_refl. auto. Qed.
Lemma Bd_o : forall a, a <> rc -> Bd a = B a.
Proof. intros a H. unfold Bd, upd. apply Nat.eqb_neq in H. rewrite H. auto. Qed.
Lemma G_old : forall a x, G a = Some x -> a <> rc.
Proof using Grc. intros a x H E. rewrite E in H. congruence. Qed.

Lemma div_parent : node_ok Gd Bd m (Bd p) hp plo phi (Index hp (insert_at (S (length l)) (pk, rc) (l ++ (pc, c) :: r))).
Proof using T Gp Ep Gc Grc RC Pin Low.
  destruct div_facts as (h0 & Ehp & Eh & S & I & K1 & El & Eu & Eb & K2 & ND).
  assert (EI : insert_at (Datatypes.S (length l)) (pk, rc) (l ++ (pc, c) :: r) = l ++ (pc, c) :: (pk, rc) :: r).
  { unfold insert_at. rewrite firstn_app, skipn_app.
    replace (Datatypes.S (length l) - length l) with 1 by lia.
    rewrite (firstn_all2 l) by lia. rewrite (skipn_all2 l) by lia. cbn [firstn skipn app]. rewrite <- app_assoc. reflexivity. }
  rewrite EI. destruct Low as (x & (X1 & X2) & X3 & X4).
  exists h0. split; [auto|]. split; [auto|]. split; [destruct l; cbn; congruence|].
  rewrite (Bd_o p div_p_rc).
  assert (Ipk : inr plo phi pk).
  { destruct (node_ok_index _ _ _ _ _ _ Gp Ep) as (h1 & Eh1 & _ & _ & _ & _ & KK).
    assert (h1 = h0) by lia. subst h1.
    eapply (kids_sub G B h0 (l ++ (pc, c) :: r) plo phi c); eauto.
    - intros y Hy. apply I. auto.
    - rewrite map_app, in_app_iff. cbn. auto.
    - rewrite Gc. congruence. }
  split; [|split].
  - rewrite map_app in *. cbn [map fst] in *. apply ss_app in S. destruct S as (S1 & S2 & S3).
    inversion S2 as [|? ? S4 S5]; subst. rewrite Forall_forall in S5.
    assert (Q : forall y, In y (map fst r) -> pk < y).
    { intros y Hy. destruct r as [|[p2 c2] r']; [destruct Hy|]. destruct Pin as [_ P2]. cbn [hdk] in P2. cbn in P2.
      pose proof (head_le r' p2 c2 y S4 Hy). lia. }
    apply ss_app. split; [auto|]. split.
    + constructor; [constructor; auto|].
      * rewrite Forall_forall. auto.
      * rewrite Forall_forall. intros y [<-|Hy]; [lia|]. apply S5; auto.
    + intros a b Ha [<-|[<-|Hb]].
      * apply S3; cbn; auto.
      * assert (a < B c) by (apply S3; cbn; auto). lia.
      * apply S3; cbn; auto.
  - intros k Hk. rewrite map_app, in_app_iff in Hk. cbn in Hk.
    destruct Hk as [Hk|[<-|[<-|Hk]]].
    + apply I. rewrite map_app, in_app_iff. auto.
    + apply I. rewrite map_app, in_app_iff. cbn. auto.
    + split; auto. assert (B p <= pc) by (apply I; rewrite map_app, in_app_iff; cbn; auto). lia.
    + apply I. rewrite map_app, in_app_iff. cbn. auto.
  - assert (D1 : ~ In c (map snd l) /\ ~ In c (map snd r)).
    { rewrite map_app in ND. cbn in ND. apply NoDup_remove_2 in ND. rewrite in_app_iff in ND. tauto. }
    apply kids_app. split.
    + eapply kids_ext; [|exact K1]. intros d Hd. destruct (kids_in _ _ _ _ _ _ _ K1 Hd) as (a & b & Gd).
      split; [apply Gd_o|apply Bd_o]; try (eapply G_old; eauto). intros ->. tauto.
    + cbn [kids hdk]. split; [split|split; [split|]].
      * rewrite Gd_c. rewrite <- El. congruence.
      * rewrite Bd_o; auto. apply div_c_rc.
      * rewrite Gd_rc. congruence.
      * apply Bd_rc.
      * eapply kids_ext; [|exact K2]. intros d Hd. destruct (kids_in _ _ _ _ _ _ _ K2 Hd) as (a & b & Gd).
        split; [apply Gd_o|apply Bd_o]; try (eapply G_old; eauto). intros ->. tauto.
Qed.

(** Index pages other than the parent. *)
Lemma div_index : forall a ha loa hia h1 ps, a <> p -> a <> c -> a <> rc ->
  G a = Some (ha, loa, hia) -> ef a = Index h1 ps -> node_ok Gd Bd m (Bd a) ha loa hia (ef a).
Proof using T Gp Ep Grc.
  intros a ha loa hia h1 ps Np Nc Nr Ga Ea. pose proof (t_ok _ _ _ _ _ T _ _ _ _ Ga) as O. rewrite Ea in *. cbn in O |- *.
  destruct O as (h0 & -> & -> & NE & S & I & K). exists h0. rewrite (Bd_o a Nr).
  split; [auto|]. split; [auto|]. split; [auto|]. split; [auto|]. split; [auto|].
  eapply kids_ext; [|exact K]. intros d Hd. destruct (kids_in _ _ _ _ _ _ _ K Hd) as (x & y & Gd).
  split; [apply Gd_o|apply Bd_o]; try (eapply G_old; eauto). intros ->. apply Np.
  eapply (one_parent a p); eauto. rewrite map_app, in_app_iff. cbn. auto.
Qed.

Variables (ef2 : nat -> node) (m2 : nat -> list nat).
Hypothesis Nodes : forall a ha loa hia, Gd a = Some (ha, loa, hia) -> node_ok Gd Bd m2 (Bd a) ha loa hia (ef2 a).

Lemma tree_divide : tree ef2 Gd Bd m2 nx.
Proof using T Gp Ep Gc Grc RC Pin Low Nodes.
  destruct Low as (x & (X1 & X2) & X3 & X4).
  constructor; auto.
  - destruct (t_root _ _ _ _ _ T) as (B0 & h' & G0 & Hh). split.
    + rewrite Bd_o; auto. eapply G_old; eauto.
    + exists h'. split.
      * rewrite Gd_o; auto; [intros E; apply div_c0; auto|eapply G_old; eauto].
      * intros a h1 l1 u1 Ga. destruct (Nat.eq_dec a c) as [->|N1]; [rewrite Gd_c in Ga; injection Ga as <- <- <-; eauto|].
        destruct (Nat.eq_dec a rc) as [->|N2]; [rewrite Gd_rc in Ga; injection Ga as <- <- <-; eauto|].
        rewrite Gd_o in Ga; eauto.
  - intros a y Ga. destruct (Nat.eq_dec a c) as [->|N1]; [eapply (t_lt _ _ _ _ _ T); eauto|].
    destruct (Nat.eq_dec a rc) as [->|N2]; auto. rewrite Gd_o in Ga; auto. eapply (t_lt _ _ _ _ _ T); eauto.
  - intros a h1 l1 u1 Ga. destruct (Nat.eq_dec a c) as [->|N1].
    { rewrite Gd_c in Ga. injection Ga as <- <- <-. exists x. split; auto. }
    destruct (Nat.eq_dec a rc) as [->|N2].
    { rewrite Gd_rc in Ga. injection Ga as <- <- <-. exists pk. split; [cbn; auto|apply Pin]. }
    rewrite Gd_o in Ga; auto. eapply (t_ne _ _ _ _ _ T); eauto.
  - assert (part : forall a ha la ua k, Gd a = Some (ha, la, ua) -> inr la ua k ->
       (a <> c /\ a <> rc /\ G a = Some (ha, la, ua)) \/
       (a = c /\ ha = h /\ inr lo hi k /\ k < pk) \/ (a = rc /\ ha = h /\ inr lo hi k /\ pk <= k)).
    { intros a ha la ua k Ga Ra. destruct (Nat.eq_dec a c) as [->|N1].
      { rewrite Gd_c in Ga. injection Ga as <- <- <-. right. left. destruct Ra as [Ra Rb]. cbn in Rb. repeat split; auto.
        destruct hi as [u|]; cbn in *; auto. destruct Pin as [_ Pb]. cbn in Pb. lia. }
      destruct (Nat.eq_dec a rc) as [->|N2].
      { rewrite Gd_rc in Ga. injection Ga as <- <- <-. right. right. destruct Ra as [Ra Rb]. cbn in Ra. repeat split; auto.
        destruct lo as [u|]; cbn in *; auto. lia. }
      left. rewrite Gd_o in Ga; auto. }
    intros a b h1 la ua lb ub k Ga Gb Ra Rb.
    destruct (part _ _ _ _ _ Ga Ra) as [(N1 & N2 & Ga')|[(-> & Eh & Ra' & Ka)|(-> & Eh & Ra' & Ka)]];
    destruct (part _ _ _ _ _ Gb Rb) as [(N3 & N4 & Gb')|[(-> & Eh' & Rb' & Kb)|(-> & Eh' & Rb' & Kb)]]; auto; try lia; subst.
    + eapply (t_uniq _ _ _ _ _ T a b); eauto.
    + exfalso. apply N1. eapply (t_uniq _ _ _ _ _ T a c); eauto.
    + exfalso. apply N1. eapply (t_uniq _ _ _ _ _ T a c); eauto.
    + exfalso. apply N3. symmetry. eapply (t_uniq _ _ _ _ _ T c b); eauto.
    + exfalso. apply N3. symmetry. eapply (t_uniq _ _ _ _ _ T c b); eauto.
Qed.
End DIVIDE.
End TREE.
