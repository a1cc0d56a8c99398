(** * The shape of the trunk, and what every key sees at every height

    In a well-formed tree every key has one view at every height; replacing a
    subtree changes the views of the keys in its range only. *)

From Coq Require Import List Arith NArith ZArith Lia Bool Sorted.
From Verif Require Import Base Spec Search SearchProofs Prop_Search.
From Verif Require Import TrunkNode TrunkRing TrunkRep TrunkReset TrunkFlush TrunkClear TrunkAlpha TrunkKeys TrunkView TrunkTree.
Import ListNotations.

Fixpoint pairs {A} (l : list A) : list (A * A) :=
  match l with
  | x :: ((y :: _) as r) => (x, y) :: pairs r
  | _ => []
  end.
Definition akeys (A : anode) : list key := map ap_key (an_piv A) ++ [an_hi A].
Definition aviews (n : node) (A : anode) : list view :=
  map (fun ac => view_of n A (fst ac) (snd (snd ac))) (combine (an_piv A) (pairs (akeys A))).

(** ** Lists *)

Lemma pairs_cons : forall {A} (x : A) l, l <> [] -> exists y r, l = y :: r /\ pairs (x :: l) = (x, y) :: pairs l.
Proof. intros A x [|y r] H; [congruence|]. eauto. Qed.
Lemma pairs_length : forall {A} (l : list A) x, length (pairs (l ++ [x])) = length l.
Proof. intros A l x. induction l as [|y r IH]; auto. destruct r as [|z r]; auto. simpl in *. rewrite IH. reflexivity. Qed.
Lemma pairs_nth : forall {A} (l : list A) i a b,
  nth_error (pairs l) i = Some (a, b) <-> nth_error l i = Some a /\ nth_error l (S i) = Some b.
Proof.
  intros A l. induction l as [|x r IH]; intros i a b.
  - destruct i; simpl; split; [discriminate | intros [? ?]; discriminate | discriminate | intros [? ?]; discriminate].
  - destruct r as [|y r].
    + destruct i as [|[|i]]; simpl; split; try discriminate; intros [? ?]; discriminate.
    + destruct i as [|i].
      * simpl. split; [intros [= -> ->]; auto | intros [[= ->] [= ->]]; reflexivity].
      * change (pairs (x :: y :: r)) with ((x, y) :: pairs (y :: r)). simpl nth_error at 1. rewrite IH. simpl. reflexivity.
Qed.
Lemma pairs_in : forall {A} (l : list A) a b, In (a, b) (pairs l) -> In a l /\ In b l.
Proof.
  intros A l a b H. apply In_nth_error in H. destruct H as (i & H). apply pairs_nth in H. destruct H as [H1 H2].
  split; eapply nth_error_In; eauto.
Qed.
Lemma pairs_app : forall {A} (x y : list A) m, pairs (x ++ m :: y) = pairs (x ++ [m]) ++ pairs (m :: y).
Proof.
  intros A x y m. induction x as [|a r IH]; [reflexivity|]. destruct r as [|b r].
  - simpl. destruct y; reflexivity.
  - change (pairs ((a :: b :: r) ++ m :: y)) with ((a, b) :: pairs ((b :: r) ++ m :: y)). rewrite IH. reflexivity.
Qed.
Lemma map_snd_combine : forall {A B} (l : list A) (l' : list B), length l = length l' -> map snd (combine l l') = l'.
Proof. intros A B l. induction l as [|x r IH]; intros [|y r'] H; simpl in *; try lia; auto. rewrite IH by lia. reflexivity. Qed.
Lemma nth_error_combine : forall {A B} (l : list A) (l' : list B) i,
  nth_error (combine l l') i = match nth_error l i, nth_error l' i with Some a, Some b => Some (a, b) | _, _ => None end.
Proof.
  intros A B l. induction l as [|x r IH]; intros [|y r'] [|i]; simpl; auto.
  - destruct (nth_error r i); reflexivity.
Qed.

Section Order.
Context {A : Type} (R : A -> A -> Prop).
Lemma ss_app : forall x y, StronglySorted R (x ++ y) <->
  StronglySorted R x /\ StronglySorted R y /\ (forall a b, In a x -> In b y -> R a b).
Proof.
  induction x as [|a r IH]; intros y; simpl.
  - split; [intro H; repeat split; auto; [constructor | contradiction] | intros (_ & H & _); exact H].
  - split.
    + intro H. apply StronglySorted_inv in H. destruct H as [H1 H2]. apply IH in H1. destruct H1 as (H3 & H4 & H5).
      apply Forall_app in H2. destruct H2 as [H6 H7]. repeat split; auto.
      * constructor; auto.
      * intros c b [<- | I] J; auto. rewrite Forall_forall in H7. auto.
    + intros (H1 & H2 & H3). apply StronglySorted_inv in H1. destruct H1 as [H4 H5]. constructor.
      * apply IH. repeat split; auto.
      * apply Forall_app. split; auto. apply Forall_forall. auto.
Qed.
Lemma ss_nth : forall l, StronglySorted R l -> forall i j a b, i < j -> nth_error l i = Some a -> nth_error l j = Some b -> R a b.
Proof.
  intros l H. induction H as [|x r H IH F]; intros i j a b L Ea Eb; [destruct i; discriminate|].
  destruct j as [|j]; [lia|]. destruct i as [|i]; simpl in *.
  - injection Ea as ->. rewrite Forall_forall in F. apply F. eapply nth_error_In; eauto.
  - eapply IH; [|exact Ea|exact Eb]. lia.
Qed.
End Order.

Section Shape.
Variables (M mp : nat) (cfg : data_config).
Hypothesis TO : total_order (key_compare cfg).
Local Notation klt := (klt cfg).
Local Notation kle := (kle cfg).
Local Notation alpha := (alpha M).

Definition nviews (n : node) : list view := aviews n (alpha n).
Definition nview (n : node) (k : key) : option view :=
  match route cfg n k with Some i => nth_error (nviews n) i | None => None end.
Definition view_at (d : nat) (k : key) (t : tree) : option view :=
  match subtree_at cfg d k t with Some s => nview (t_node s) k | None => None end.

Record nwf (ht : nat) (n : node) (A : anode) : Prop := {
  w_rep : rep M n A;
  w_aok : aok M A;
  w_height : n_height n = ht;
  w_sorted : StronglySorted klt (akeys A);
  w_gens : NoDup (map ap_gen (an_piv A));
  w_pgen : Forall (fun a => ap_gen a < n_pgen n) (an_piv A);
  w_count : S (length (an_piv A)) <= mp;
  w_leaf : ht = 0 -> exists a, an_piv A = [a] /\ ap_off a = 0 /\ ap_boff a = 0
}.
Fixpoint twf (ht : nat) (t : tree) (lo hi : key) : Prop :=
  let A := alpha (t_node t) in
  nwf ht (t_node t) A /\ an_lo A = lo /\ an_hi A = hi /\
  match ht with
  | O => t_kids t = []
  | S h' => Forall2 (fun c ab => twf h' c (fst ab) (snd ab)) (t_kids t) (pairs (akeys A))
  end.

Lemma nwf_alpha : forall ht n A, nwf ht n A -> alpha n = A.
Proof. intros ht n A W. apply alpha_eq; [apply (w_rep _ _ _ W) | apply (w_aok _ _ _ W)]. Qed.

(** ** One node *)

Lemma akeys_eq : forall n A, rep M n A -> map pv_key (n_piv n) = akeys A /\ map pv_key (children_pivots n) = map ap_key (an_piv A).
Proof.
  intros n A R. destruct (r_piv _ _ _ R) as (ps & last & E & L & F). destruct (children_pivots_eq _ _ _ E) as [C _].
  assert (Q : map pv_key ps = map ap_key (an_piv A)).
  { clear - F. induction F as [|p a ps l (H & _) F IH]; simpl; auto. rewrite H, IH. reflexivity. }
  rewrite C, E, map_app. simpl. unfold akeys. rewrite Q, L. auto.
Qed.
Lemma an_lo_eq : forall A, an_lo A = nth 0 (akeys A) KPosInf.
Proof. intros [W B [|a r] hi]; reflexivity. Qed.
Lemma rep_min_max : forall n A, rep M n A -> min_key n = an_lo A /\ max_key n = an_hi A.
Proof.
  intros n A R. destruct (akeys_eq _ _ R) as [E _]. destruct (r_piv _ _ _ R) as (ps & last & Ep & L & F).
  destruct (children_pivots_eq _ _ _ Ep) as [_ C]. split.
  - unfold min_key, pivot_key, get_pivot. rewrite an_lo_eq, <- E. destruct (n_piv n); reflexivity.
  - unfold max_key, pivot_key, get_pivot. rewrite C, Ep, nth_error_app2, Nat.sub_diag by lia. exact L.
Qed.

Lemma akeys_length : forall A, length (akeys A) = S (length (an_piv A)).
Proof. intros. unfold akeys. rewrite app_length, map_length. simpl. lia. Qed.
Lemma cells_length : forall A, length (pairs (akeys A)) = length (an_piv A).
Proof. intros. unfold akeys. rewrite pairs_length. apply map_length. Qed.
Lemma akeys_piv : forall A i, i < length (an_piv A) -> nth_error (akeys A) i = option_map ap_key (nth_error (an_piv A) i).
Proof. intros A i L. unfold akeys. rewrite nth_error_app1 by (rewrite map_length; exact L). apply nth_error_map. Qed.
Lemma akeys_hi : forall A, nth_error (akeys A) (length (an_piv A)) = Some (an_hi A).
Proof. intros A. unfold akeys. rewrite nth_error_app2 by (rewrite map_length; lia). rewrite map_length, Nat.sub_diag. reflexivity. Qed.

(** The cell of a key *)
Lemma route_cell : forall ht n A k, nwf ht n A -> kle (an_lo A) k -> klt k (an_hi A) ->
  exists i a b, route cfg n k = Some i /\ nth_error (pairs (akeys A)) i = Some (a, b) /\ kle a k /\ klt k b.
Proof.
  intros ht n A k W Hl Hh. pose proof (w_rep _ _ _ W) as R. destruct (akeys_eq _ _ R) as [_ Ek].
  pose proof (ok_children _ _ (w_aok _ _ _ W)) as Nz.
  assert (I0 : increasing cfg (map ap_key (an_piv A))).
  { intros i j a b L Ea Eb. pose proof (w_sorted _ _ _ W) as S0. unfold akeys in S0. apply ss_app in S0. destruct S0 as [S0 _].
    exact (ss_nth _ _ S0 i j a b L Ea Eb). }
  destruct (nth_error (map ap_key (an_piv A)) 0) as [k0|] eqn:E0; [|destruct (an_piv A); [congruence|discriminate]].
  assert (L0 : kle k0 k). { destruct A as [? ? [|a0 r] ?]; simpl in *; [congruence|]. injection E0 as <-. exact Hl. }
  destruct (C12_route_less_than_or_equal cfg (map ap_key (an_piv A)) k k0 TO I0 E0 L0) as (c & Ec & Lc & Hc).
  rewrite map_length in Lc. unfold route. rewrite Ek, Ec.
  destruct (nth_error (an_piv A) c) as [p|] eqn:Ep; [|apply nth_error_None in Ep; lia].
  assert (Ea : nth_error (akeys A) c = Some (ap_key p)) by (rewrite akeys_piv by exact Lc; rewrite Ep; reflexivity).
  assert (Ha : kle (ap_key p) k). { apply (Hc c (ap_key p)); [rewrite nth_error_map, Ep; reflexivity | lia]. }
  destruct (Nat.eq_dec (S c) (length (an_piv A))) as [Z | Z].
  - exists c, (ap_key p), (an_hi A). repeat split; auto. apply pairs_nth. split; auto. rewrite Z. apply akeys_hi.
  - destruct (nth_error (an_piv A) (S c)) as [p'|] eqn:Ep'; [|apply nth_error_None in Ep'; lia].
    exists c, (ap_key p), (ap_key p'). repeat split; auto.
    + apply pairs_nth. split; auto. rewrite akeys_piv by lia. rewrite Ep'. reflexivity.
    + destruct (kle_lt_dec cfg TO (ap_key p') k) as [Q|Q]; auto.
      exfalso. assert (S c <= c); [|lia]. apply (Hc (S c) (ap_key p')); [rewrite nth_error_map, Ep'; reflexivity | exact Q].
Qed.

Lemma cell_unique : forall ks i j a b a' b' k, StronglySorted klt ks ->
  nth_error (pairs ks) i = Some (a, b) -> nth_error (pairs ks) j = Some (a', b') ->
  kle a k -> klt k b -> kle a' k -> klt k b' -> i = j.
Proof.
  intros ks i j a b a' b' k S0 E1 E2 H1 H2 H3 H4. apply pairs_nth in E1. apply pairs_nth in E2. destruct E1 as [E1 E1'], E2 as [E2 E2'].
  destruct (lt_eq_lt_dec i j) as [[L|L]|L]; auto; exfalso.
  - assert (b = a' \/ klt b a').
    { destruct (Nat.eq_dec (S i) j) as [<-|Z]; [left; congruence | right]. apply (ss_nth _ _ S0 (S i) j); auto. lia. }
    destruct H as [H|H]; ord TO.
  - assert (b' = a \/ klt b' a).
    { destruct (Nat.eq_dec (S j) i) as [<-|Z]; [left; congruence | right]. apply (ss_nth _ _ S0 (S j) i); auto. lia. }
    destruct H as [H|H]; ord TO.
Qed.
Lemma cell_in_range : forall A a b, StronglySorted klt (akeys A) -> In (a, b) (pairs (akeys A)) -> kle (an_lo A) a /\ kle b (an_hi A) /\ klt a b.
Proof.
  intros A a b S0 I. apply In_nth_error in I. destruct I as (i & E). apply pairs_nth in E. destruct E as [E1 E2].
  assert (E0 : nth_error (akeys A) 0 = Some (an_lo A)) by (destruct A as [? ? [|x r] ?]; reflexivity).
  pose proof (akeys_hi A) as Eh.
  assert (Ls : S i < length (akeys A)) by (apply nth_error_Some; congruence). rewrite akeys_length in Ls.
  repeat split.
  - destruct i as [|i]; [replace a with (an_lo A) by congruence; assert (an_lo A = an_lo A) by reflexivity; ord TO|].
    assert (klt (an_lo A) a) by (apply (ss_nth _ _ S0 0 (S i)); auto; lia). ord TO.
  - destruct (Nat.eq_dec (S i) (length (an_piv A))) as [Z|Z].
    + rewrite Z in E2. assert (b = an_hi A) by congruence. ord TO.
    + assert (klt b (an_hi A)) by (apply (ss_nth _ _ S0 (S i) (length (an_piv A))); auto; lia). ord TO.
  - apply (ss_nth _ _ S0 i (S i)); auto.
Qed.
Lemma route_at : forall ht n A k i a b, nwf ht n A -> nth_error (pairs (akeys A)) i = Some (a, b) -> kle a k -> klt k b ->
  route cfg n k = Some i.
Proof.
  intros ht n A k i a b W E Ha Hb. pose proof (w_sorted _ _ _ W) as S0.
  destruct (cell_in_range A a b S0 (nth_error_In _ _ E)) as (H1 & H2 & _).
  destruct (route_cell ht n A k W) as (j & a' & b' & Er & Ej & H3 & H4); [ord TO | ord TO |].
  rewrite Er. f_equal. exact (cell_unique _ _ _ _ _ _ _ _ S0 Ej E H3 H4 Ha Hb).
Qed.

(** Views *)

Lemma nviews_eq : forall n A, rep M n A -> aok M A -> nviews n = aviews n A.
Proof. intros n A R K. unfold nviews. rewrite (alpha_eq _ _ _ R K). reflexivity. Qed.
Lemma aviews_nth : forall n A i, nth_error (aviews n A) i =
  match nth_error (an_piv A) i, nth_error (pairs (akeys A)) i with
  | Some p, Some ab => Some (view_of n A p (snd ab))
  | _, _ => None
  end.
Proof.
  intros. unfold aviews. rewrite nth_error_map, nth_error_combine.
  destruct (nth_error (an_piv A) i), (nth_error (pairs (akeys A)) i); reflexivity.
Qed.
Lemma aviews_at : forall n A i a b, nth_error (pairs (akeys A)) i = Some (a, b) ->
  exists p, nth_error (an_piv A) i = Some p /\ ap_key p = a /\ nth_error (aviews n A) i = Some (view_of n A p b).
Proof.
  intros n A i a b E. rewrite aviews_nth, E.
  assert (L : i < length (an_piv A)) by (rewrite <- cells_length; apply nth_error_Some; congruence).
  destruct (nth_error (an_piv A) i) as [p|] eqn:Ep; [|apply nth_error_None in Ep; lia].
  exists p. repeat split; auto. apply pairs_nth in E. destruct E as [E _]. rewrite akeys_piv, Ep in E by exact L. simpl in E. congruence.
Qed.
Lemma nview_at : forall ht n A k, nwf ht n A -> kle (an_lo A) k -> klt k (an_hi A) ->
  exists i p b, route cfg n k = Some i /\ nth_error (an_piv A) i = Some p /\ nth_error (pairs (akeys A)) i = Some (ap_key p, b) /\
    nview n k = Some (view_of n A p b) /\ kle (ap_key p) k /\ klt k b.
Proof.
  intros ht n A k W Hl Hh. destruct (route_cell ht n A k W Hl Hh) as (i & a & b & Er & Ei & Ha & Hb).
  destruct (aviews_at n A i a b Ei) as (p & Ep & <- & Ev). exists i, p, b. repeat split; auto.
  unfold nview. rewrite Er, (nviews_eq n A (w_rep _ _ _ W) (w_aok _ _ _ W)). exact Ev.
Qed.
Lemma nview_char : forall ht n A k i p b, nwf ht n A -> nth_error (an_piv A) i = Some p ->
  nth_error (pairs (akeys A)) i = Some (ap_key p, b) -> kle (ap_key p) k -> klt k b -> nview n k = Some (view_of n A p b).
Proof.
  intros ht n A k i p b W Ep Ei Ha Hb. unfold nview. rewrite (route_at ht n A k i _ b W Ei Ha Hb).
  rewrite (nviews_eq n A (w_rep _ _ _ W) (w_aok _ _ _ W)), aviews_nth, Ep, Ei. reflexivity.
Qed.

(** ** Trees *)

Lemma twf_nwf : forall ht t lo hi, twf ht t lo hi ->
  nwf ht (t_node t) (alpha (t_node t)) /\ an_lo (alpha (t_node t)) = lo /\ an_hi (alpha (t_node t)) = hi.
Proof. intros [|ht] t lo hi H; destruct H as (H1 & H2 & H3 & _); auto. Qed.
Lemma twf_lt : forall ht t lo hi, twf ht t lo hi -> klt lo hi.
Proof.
  intros ht t lo hi T. apply twf_nwf in T. destruct T as (W & <- & <-).
  pose proof (ok_children _ _ (w_aok _ _ _ W)) as Nz. pose proof (w_sorted _ _ _ W) as S0.
  eapply (ss_nth _ _ S0 0 (length (an_piv (alpha (t_node t))))); [|destruct (alpha (t_node t)) as [? ? [|x r] ?]; reflexivity | apply akeys_hi].
  destruct (an_piv (alpha (t_node t))); [congruence | simpl; lia].
Qed.

Lemma Forall2_nth2 : forall {A B} (P : A -> B -> Prop) l l' i b, Forall2 P l l' -> nth_error l' i = Some b ->
  exists a, nth_error l i = Some a /\ P a b.
Proof. intros. eapply Forall2_nth; eauto. Qed.

(** The child of a key *)
Lemma child_at : forall ht t lo hi k, twf (S ht) t lo hi -> kle lo k -> klt k hi ->
  exists i c a b, route cfg (t_node t) k = Some i /\ nth_error (t_kids t) i = Some c /\
    nth_error (pairs (akeys (alpha (t_node t)))) i = Some (a, b) /\ twf ht c a b /\ kle a k /\ klt k b.
Proof.
  intros ht t lo hi k T Hl Hh. pose proof (twf_nwf _ _ _ _ T) as (W & El & Eh). destruct T as (_ & _ & _ & F).
  subst lo hi.
  destruct (route_cell _ _ _ k W Hl Hh) as (i & a & b & Er & Ei & Ha & Hb).
  destruct (Forall2_nth2 _ _ _ _ _ F Ei) as (c & Ec & Tc). exists i, c, a, b. simpl in Tc. auto 8.
Qed.

Lemma subtree_ok : forall d ht t lo hi k, twf ht t lo hi -> kle lo k -> klt k hi -> d <= ht ->
  exists s a b, subtree_at cfg d k t = Some s /\ twf (ht - d) s a b /\ kle lo a /\ kle a k /\ klt k b /\ kle b hi.
Proof.
  induction d as [|d IH]; intros ht t lo hi k T Hl Hh L.
  - exists t, lo, hi. rewrite Nat.sub_0_r. assert (lo = lo) by reflexivity. assert (hi = hi) by reflexivity. repeat split; auto; ord TO.
  - destruct ht as [|ht]; [lia|]. destruct (child_at _ _ _ _ k T Hl Hh) as (i & c & a & b & Er & Ec & Ei & Tc & Ha & Hb).
    destruct (IH ht c a b k Tc Ha Hb ltac:(lia)) as (s & a' & b' & Es & Ts & H1 & H2 & H3 & H4).
    pose proof (twf_nwf _ _ _ _ T) as (W & El & Eh).
    destruct (cell_in_range _ a b (w_sorted _ _ _ W) (nth_error_In _ _ Ei)) as (H5 & H6 & _). rewrite El in H5. rewrite Eh in H6.
    exists s, a', b'. simpl. rewrite Er, Ec. repeat split; auto; ord TO.
Qed.

Lemma subtree_add : forall d1 d2 k x,
  subtree_at cfg (d1 + d2) k x = match subtree_at cfg d1 k x with Some y => subtree_at cfg d2 k y | None => None end.
Proof.
  induction d1 as [|d1 IH]; intros d2 k x; simpl; auto. destruct (route cfg (t_node x) k); auto. destruct (nth_error (t_kids x) n); auto.
Qed.

(** All keys in the range of a subtree lead to it *)
Lemma subtree_range : forall d ht t lo hi k k' s a b, twf ht t lo hi -> kle lo k -> klt k hi -> d <= ht ->
  subtree_at cfg d k t = Some s -> twf (ht - d) s a b -> kle a k' -> klt k' b -> subtree_at cfg d k' t = Some s.
Proof.
  induction d as [|d IH]; intros ht t lo hi k k' s a b T Hl Hh L E Ts Ha Hb; [exact E|].
  destruct ht as [|ht]; [lia|]. simpl in E |- *.
  destruct (child_at _ _ _ _ k T Hl Hh) as (i & c & a' & b' & Er & Ec & Ei & Tc & Ha' & Hb').
  rewrite Er, Ec in E.
  destruct (subtree_ok d ht c a' b' k Tc Ha' Hb' ltac:(lia)) as (s' & a2 & b2 & Es & Ts2 & H1 & H2 & H3 & H4).
  assert (s' = s) by congruence. subst s'.
  simpl in Ts. pose proof (twf_nwf _ _ _ _ Ts) as (_ & Q1 & Q2). pose proof (twf_nwf _ _ _ _ Ts2) as (_ & Q3 & Q4).
  assert (a2 = a) by congruence. assert (b2 = b) by congruence. subst a2 b2.
  pose proof (twf_nwf _ _ _ _ T) as (W & _ & _).
  rewrite (route_at _ _ _ k' i a' b' W Ei) by ord TO. rewrite Ec.
  apply (IH ht c a' b' k k' s a b); auto; lia.
Qed.

Lemma view_at_ok : forall d ht t lo hi k, twf ht t lo hi -> kle lo k -> klt k hi -> d <= ht ->
  exists v, view_at d k t = Some v /\ kle lo (v_nlo v) /\ kle (v_nlo v) (v_lo v) /\ kle (v_lo v) k /\
            klt k (v_hi v) /\ kle (v_hi v) (v_nhi v) /\ kle (v_nhi v) hi.
Proof.
  intros d ht t lo hi k T Hl Hh L. destruct (subtree_ok d ht t lo hi k T Hl Hh L) as (s & a & b & Es & Ts & H1 & H2 & H3 & H4).
  pose proof (twf_nwf _ _ _ _ Ts) as (W & Ea & Eb). unfold view_at. rewrite Es.
  destruct (nview_at _ _ _ k W) as (i & p & b' & Er & Ep & Ei & Ev & Hp & Hb); [rewrite Ea; auto | rewrite Eb; auto |].
  destruct (cell_in_range _ _ _ (w_sorted _ _ _ W) (nth_error_In _ _ Ei)) as (H5 & H6 & _).
  exists (view_of (t_node s) (alpha (t_node s)) p b'). rewrite Ea in H5. rewrite Eb in H6. cbn [view_of v_nlo v_nhi v_lo v_hi]. rewrite Ea, Eb. auto 10.
Qed.

(** Replacing a subtree *)
Theorem put_at_ok : forall d ht t lo hi target s a b s', twf ht t lo hi -> kle lo target -> klt target hi -> d <= ht ->
  subtree_at cfg d target t = Some s -> twf (ht - d) s a b -> twf (ht - d) s' a b ->
  exists t', put_at cfg d target s' t = Some t' /\ twf ht t' lo hi /\
    (d <> 0 -> t_node t' = t_node t) /\
    (forall k, kle a k -> klt k b -> subtree_at cfg d k t' = Some s') /\
    (forall e k, kle lo k -> klt k hi -> klt k a \/ kle b k -> view_at e k t' = view_at e k t) /\
    (forall e k, kle a k -> klt k b -> d <= e -> view_at e k t' = view_at (e - d) k s') /\
    (forall e k, kle a k -> klt k b -> e < d -> view_at e k t' = view_at e k t).
Proof.
  induction d as [|d IH]; intros ht t lo hi target s a b s' T Hl Hh L E Ts Ts'.
  - cbn [subtree_at] in E. injection E as ->. rewrite Nat.sub_0_r in *.
    pose proof (twf_nwf _ _ _ _ T) as (_ & Q1 & Q2). pose proof (twf_nwf _ _ _ _ Ts) as (_ & Q3 & Q4).
    assert (a = lo) by congruence. assert (b = hi) by congruence. clear Q1 Q2 Q3 Q4. subst a b.
    exists s'. cbn [put_at subtree_at]. split; [reflexivity|]. split; [exact Ts'|]. split; [congruence|]. split; [reflexivity|]. repeat split.
    + intros e k H1 H2 [H3|H3]; exfalso; ord TO.
    + intros e k _ _ _. rewrite Nat.sub_0_r. reflexivity.
    + intros. lia.
  - destruct ht as [|ht]; [lia|]. cbn [put_at subtree_at] in *. cbn [Nat.sub] in *.
    destruct (child_at _ _ _ _ target T Hl Hh) as (i & c & a' & b' & Er & Ec & Ei & Tc & Ha' & Hb').
    rewrite Er, Ec in *.
    destruct (subtree_ok d ht c a' b' target Tc Ha' Hb' ltac:(lia)) as (s2 & a2 & b2 & Es & Ts2 & R1 & R2 & R3 & R4).
    assert (s2 = s) by congruence. subst s2.
    pose proof (twf_nwf _ _ _ _ Ts) as (_ & Q1 & Q2). pose proof (twf_nwf _ _ _ _ Ts2) as (_ & Q3 & Q4).
    assert (a2 = a) by congruence. assert (b2 = b) by congruence. clear Q1 Q2 Q3 Q4 Ts2 Es. subst a2 b2.
    destruct (IH ht c a' b' target s a b s' Tc Ha' Hb' ltac:(lia) E Ts Ts') as (c' & Ep & Tc' & _ & P1 & P2 & P3 & P4).
    rewrite Ep. eexists. split; [reflexivity|].
    assert (Lk : i < length (t_kids t)) by (apply nth_error_Some; congruence).
    assert (Li : length (firstn i (t_kids t)) = i) by (apply firstn_length_le; lia).
    assert (Ni : nth_error (firstn i (t_kids t) ++ c' :: skipn (S i) (t_kids t)) i = Some c').
    { rewrite nth_error_app2 by lia. rewrite Li, Nat.sub_diag. reflexivity. }
    assert (Nj : forall j, j <> i -> nth_error (firstn i (t_kids t) ++ c' :: skipn (S i) (t_kids t)) j = nth_error (t_kids t) j).
    { intros j Hj. destruct (lt_dec j i) as [Q|Q].
      - rewrite nth_error_app1 by lia. rewrite <- (firstn_skipn i (t_kids t)) at 2. rewrite nth_error_app1 by lia. reflexivity.
      - rewrite nth_error_app2 by lia. rewrite Li. destruct (j - i) as [|z] eqn:Z; [lia|]. cbn [nth_error].
        rewrite nth_error_skipn. f_equal. lia. }
    pose proof (twf_nwf _ _ _ _ T) as (W & El & Eh).
    assert (T' : twf (S ht) (Tr (t_node t) (firstn i (t_kids t) ++ c' :: skipn (S i) (t_kids t))) lo hi).
    { destruct T as (T1 & T2 & T3 & T4). simpl. repeat split; auto; try (apply T1).
      rewrite <- (set_nth_nth i (a', b') (pairs (akeys (alpha (t_node t))))) by exact Ei.
      apply (Forall2_set_nth _ (t_kids t) _ i c' (a', b')); auto. }
    assert (Rt : forall k, kle lo k -> klt k hi -> exists j cj aj bj, route cfg (t_node t) k = Some j /\ nth_error (t_kids t) j = Some cj /\
       nth_error (pairs (akeys (alpha (t_node t)))) j = Some (aj, bj) /\ twf ht cj aj bj /\ kle aj k /\ klt k bj).
    { intros k H1 H2. apply (child_at _ _ _ _ k T H1 H2). }
    destruct (cell_in_range _ _ _ (w_sorted _ _ _ W) (nth_error_In _ _ Ei)) as (H5 & H6 & _). rewrite El in H5. rewrite Eh in H6.
    assert (Hk : forall k, kle a k -> klt k b -> route cfg (t_node t) k = Some i).
    { intros k H1 H2. apply (route_at _ _ _ k i a' b' W Ei); ord TO. }
    split; [exact T'|]. split; [reflexivity|]. split; [|split; [|split]].
    + intros k H1 H2. cbn [subtree_at t_node t_kids]. rewrite (Hk k H1 H2), Ni. apply P1; auto.
    + intros e k H1 H2 Ho. unfold view_at. destruct e as [|e]; [reflexivity|].
      cbn [subtree_at t_node t_kids]. destruct (Rt k H1 H2) as (j & cj & aj & bj & Ej & Ecj & Eij & Tj & H3 & H4).
      rewrite Ej. destruct (Nat.eq_dec j i) as [->|Z].
      * rewrite Ni, Ec. assert (cj = c) by congruence. assert ((aj, bj) = (a', b')) by congruence. subst cj. injection H0 as -> ->.
        apply (P2 e k H3 H4 Ho).
      * rewrite Nj by exact Z. reflexivity.
    + intros e k H1 H2 He. unfold view_at. destruct e as [|e]; [lia|].
      cbn [subtree_at t_node t_kids]. rewrite (Hk k H1 H2), Ni. exact (P3 e k H1 H2 ltac:(lia)).
    + intros e k H1 H2 He. unfold view_at. destruct e as [|e]; [reflexivity|].
      cbn [subtree_at t_node t_kids]. rewrite (Hk k H1 H2), Ni, Ec. exact (P4 e k H1 H2 ltac:(lia)).
Qed.

Lemma subtree_nodes : forall d ht t lo hi target s a b s' t', twf ht t lo hi -> kle lo target -> klt target hi -> d <= ht ->
  subtree_at cfg d target t = Some s -> twf (ht - d) s a b -> twf (ht - d) s' a b -> put_at cfg d target s' t = Some t' ->
  forall e, e < d -> exists x y, subtree_at cfg e target t = Some x /\ subtree_at cfg e target t' = Some y /\ t_node x = t_node y.
Proof.
  induction d as [|d IH]; intros ht t lo hi target s a b s' t' T Hl Hh L E Ts Ts' Ep e He; [lia|].
  destruct ht as [|ht]; [lia|].
  destruct (put_at_ok (S d) (S ht) t lo hi target s a b s' T Hl Hh L E Ts Ts') as (t2 & E2 & T2 & N2 & _).
  assert (t2 = t') by congruence. subst t2.
  destruct e as [|e]; [exists t, t'; simpl; rewrite N2 by lia; auto|].
  destruct (child_at _ _ _ _ target T Hl Hh) as (i & c & a' & b' & Er & Ec & Ei & Tc & Ha' & Hb').
  cbn [subtree_at put_at] in *. cbn [Nat.sub] in *. rewrite Er, Ec in *.
  destruct (put_at cfg d target s' c) as [c'|] eqn:Ep'; [|discriminate]. injection Ep as <-. cbn [t_node t_kids].
  rewrite Er. assert (Lk : i < length (t_kids t)) by (apply nth_error_Some; congruence).
  rewrite nth_error_app2 by (rewrite firstn_length_le; lia). rewrite firstn_length_le, Nat.sub_diag by lia. cbn [nth_error].
  eapply (IH ht c a' b'); eauto; lia.
Qed.

(** Replacing a node by one with the same cells *)
Theorem put_node_ok : forall d ht t lo hi target n n' A', twf ht t lo hi -> kle lo target -> klt target hi -> d <= ht ->
  node_at cfg d target t = Some n -> nwf (ht - d) n' A' -> akeys A' = akeys (alpha n) ->
  exists t', put_node cfg d target n' t = Some t' /\ twf ht t' lo hi /\
    nwf (ht - d) n (alpha n) /\ kle lo (an_lo A') /\ kle (an_lo A') target /\ klt target (an_hi A') /\ kle (an_hi A') hi /\
    (forall e k, kle lo k -> klt k hi -> view_at e k t' =
       (if e =? d then if (if kle_lt_dec cfg TO (an_lo A') k then if kle_lt_dec cfg TO (an_hi A') k then false else true else false) then nview n' k else view_at e k t else view_at e k t)) /\
    (forall k, kle (an_lo A') k -> klt k (an_hi A') -> view_at d k t = nview n k) /\
    (forall e, e <> d -> e <= ht -> node_at cfg e target t' = node_at cfg e target t) /\
    node_at cfg d target t' = Some n'.
Proof.
  intros d ht t lo hi target n n' A' T Hl Hh L En W' Ek. unfold node_at, put_node in *.
  destruct (subtree_ok d ht t lo hi target T Hl Hh L) as (s & a & b & Es & Ts & R1 & R2 & R3 & R4).
  rewrite Es in *. injection En as En.
  pose proof (twf_nwf _ _ _ _ Ts) as (W & Q1 & Q2).
  assert (Lo : an_lo A' = a) by (rewrite <- Q1, !an_lo_eq, Ek, En; reflexivity).
  assert (Hi : an_hi A' = b).
  { rewrite <- Q2, En. assert (Len : length (an_piv A') = length (an_piv (alpha n))).
    { apply (f_equal (@length _)) in Ek. rewrite !akeys_length in Ek. lia. }
    pose proof (akeys_hi A') as Z1. rewrite Ek, Len, akeys_hi in Z1. congruence. }
  pose proof (nwf_alpha _ _ _ W') as EA.
  assert (Ts' : twf (ht - d) (Tr n' (t_kids s)) a b).
  { destruct (ht - d) as [|z]; destruct Ts as (T1 & T2 & T3 & T4); cbn [twf t_node t_kids] in *; rewrite EA; split; auto; split; auto; split; auto.
    rewrite Ek, <- En. exact T4. }
  destruct (put_at_ok d ht t lo hi target s a b _ T Hl Hh L Es Ts Ts') as (t' & E' & T' & _ & P1 & P2 & P3 & P4).
  assert (Rn : forall k, route cfg n' k = route cfg n k).
  { intro k. unfold route. destruct (akeys_eq _ _ (w_rep _ _ _ W')) as [_ Z1]. rewrite En in W. destruct (akeys_eq _ _ (w_rep _ _ _ W)) as [_ Z2].
    rewrite Z1, Z2. f_equal. unfold akeys in Ek. apply app_inj_tail in Ek. apply Ek. }
  exists t'. split; [exact E'|]. split; [exact T'|]. split; [rewrite <- En; exact W|]. rewrite Lo, Hi. do 4 (split; [auto|]).
  split; [|split; [|split]].
  - intros e k H1 H2. destruct (kle_lt_dec cfg TO a k) as [Ha|Ha]; [|rewrite (P2 e k H1 H2 (or_introl Ha)); destruct (e =? d); reflexivity].
    destruct (kle_lt_dec cfg TO b k) as [Hb|Hb]; [rewrite (P2 e k H1 H2 (or_intror Hb)); destruct (e =? d); reflexivity|].
    destruct (Nat.eqb_spec e d) as [->|Z].
    + rewrite (P3 d k Ha Hb ltac:(lia)), Nat.sub_diag. reflexivity.
    + destruct (lt_dec e d) as [Q|Q]; [apply (P4 e k Ha Hb Q)|]. rewrite (P3 e k Ha Hb ltac:(lia)).
      assert (Esk : subtree_at cfg d k t = Some s) by (exact (subtree_range d ht t lo hi target k s a b T Hl Hh L Es Ts Ha Hb)).
      unfold view_at. replace e with (d + (e - d)) at 2 by lia.
      rewrite subtree_add, Esk. destruct (e - d) as [|z] eqn:Ez; [lia|]. cbn [subtree_at t_node t_kids]. rewrite Rn, En. reflexivity.
  - intros k H1 H2. unfold view_at. rewrite (subtree_range d ht t lo hi target k s a b T Hl Hh L Es Ts H1 H2), En. reflexivity.
  - intros e He Le. destruct (lt_dec e d) as [Q|Q].
    + destruct (subtree_nodes d ht t lo hi target s a b _ t' T Hl Hh L Es Ts Ts' E' e Q) as (x & y & -> & -> & ->). reflexivity.
    + specialize (P1 target R2 R3).
      replace e with (d + (e - d)) by lia. rewrite !subtree_add, P1, Es. destruct (e - d) as [|z] eqn:Ez; [lia|]. cbn [subtree_at t_node t_kids]. rewrite Rn, En. reflexivity.
  - rewrite (P1 target R2 R3). reflexivity.
Qed.

End Shape.
