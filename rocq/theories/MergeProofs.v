(** * Proofs about the merge iterator *)

From Coq Require Import List ZArith NArith Bool Lia Permutation Sorted Arith.
From Verif Require Import Base Spec DataProofs Merge.
Import ListNotations.
Local Open Scope Z_scope.

(** ** Merging the messages of one key *)

(** The merge of messages given oldest first: newer ones are merged first. *)
Fixpoint collapse (cfg : data_config) (k : bytes) (ms : list message) : option message :=
  match ms with
  | [] => None
  | m :: r => match r with
              | [] => Some m
              | _ => match collapse cfg k r with
                     | None => None
                     | Some acc => data_merge_tuples cfg k m acc
                     end
              end
  end.

Lemma collapse_cons : forall cfg k m m' r,
  collapse cfg k (m :: m' :: r) =
  match collapse cfg k (m' :: r) with None => None | Some acc => data_merge_tuples cfg k m acc end.
Proof. reflexivity. Qed.

Lemma collapse_defined : forall cfg k ms, Forall (msg_allowed cfg) ms -> ms <> [] ->
  exists m, collapse cfg k ms = Some m /\ msg_allowed cfg m.
Proof.
  induction ms as [|m ms IH]; intros H Hn; [congruence|]. inversion H; subst.
  destruct ms as [|m' r]; [exists m; auto|].
  rewrite collapse_cons. destruct (IH H3 ltac:(discriminate)) as (a & -> & Ha).
  destruct (data_merge_defined cfg k m a Ha) as (x & Ex). exists x. split; [exact Ex|].
  exact (data_merge_allowed cfg k m a x Ha Ex).
Qed.

Lemma collapse_meaning : forall cfg k ms m v, lawful_merge cfg ->
  collapse cfg k ms = Some m -> apply_msg cfg k m v = replay cfg k ms v.
Proof.
  induction ms as [|x ms IH]; intros m v L E; [discriminate|].
  destruct ms as [|y r]; [cbn in E; injection E as ->; reflexivity|].
  rewrite collapse_cons in E. destruct (collapse cfg k (y :: r)) as [a|] eqn:Ea; [|discriminate].
  rewrite (data_merge_meaning cfg k x a m v L E).
  change (replay cfg k (x :: y :: r) v) with (replay cfg k (y :: r) (apply_msg cfg k x v)).
  now apply IH.
Qed.

(** What is returned for a key: [Full] resolves the message. *)
Definition finish (cfg : data_config) (md : mode) (k : bytes) (d : message) : option message :=
  match md with Full => data_merge_tuples_final cfg k d | _ => Some d end.
Definition kept (md : mode) (d : message) : bool :=
  match md, m_class d with Full, MDelete => false | _, _ => true end.

(** ** Lists *)

Lemma skipn_nth : forall {A} (l : list A) n, (n < length l)%nat ->
  exists x, nth_error l n = Some x /\ skipn n l = x :: skipn (S n) l.
Proof.
  induction l as [|a l IH]; intros n H; [cbn in H; lia|].
  destruct n as [|n]; [exists a; split; reflexivity|].
  cbn [length] in H. destruct (IH n ltac:(lia)) as (x & E & F). exists x. split; [exact E|]. exact F.
Qed.

Lemma firstn_nth : forall {A} (l : list A) n x, nth_error l n = Some x ->
  firstn (S n) l = firstn n l ++ [x].
Proof.
  induction l as [|a l IH]; intros n x H; [destruct n; discriminate|].
  destruct n as [|n]; [cbn in H; now injection H as ->|].
  cbn [nth_error] in H. cbn [firstn app]. f_equal. now apply IH.
Qed.

Lemma SS_app : forall {A} (P : A -> A -> Prop) l1 l2,
  StronglySorted P (l1 ++ l2) <->
  StronglySorted P l1 /\ StronglySorted P l2 /\ (forall a b, In a l1 -> In b l2 -> P a b).
Proof.
  induction l1 as [|x l1 IH]; intros l2; cbn [app].
  - split; [intros H; repeat split; [constructor|exact H|intros a b []]|tauto].
  - split.
    + intros H. inversion H; subst. apply IH in H2. destruct H2 as (A1 & A2 & A3).
      rewrite Forall_app in H3. destruct H3 as [B1 B2]. rewrite Forall_forall in B2.
      repeat split; [constructor; assumption|exact A2|].
      intros a b [<-|Ha] Hb; [now apply B2|now apply A3].
    + intros (H1 & H2 & H3). inversion H1; subst. constructor.
      * apply IH. repeat split; try assumption. intros a b Ha Hb. apply H3; [now right|exact Hb].
      * rewrite Forall_app. split; [assumption|]. rewrite Forall_forall. intros b Hb. apply H3; [now left|exact Hb].
Qed.

Lemma SS_rev : forall {A} (P Q : A -> A -> Prop) l, (forall a b, P a b -> Q b a) ->
  StronglySorted P l -> StronglySorted Q (rev l).
Proof.
  induction l as [|x l IH]; intros HPQ H; [constructor|]. inversion H; subst. cbn [rev].
  apply SS_app. repeat split; [now apply IH|repeat constructor|].
  intros a b Ha [<-|[]]. apply HPQ. rewrite Forall_forall in H3. apply H3. now apply in_rev.
Qed.

Lemma SS_skipn : forall {A} (P : A -> A -> Prop) l n, StronglySorted P l -> StronglySorted P (skipn n l).
Proof. intros A P l n H. rewrite <- (firstn_skipn n l) in H. apply SS_app in H. tauto. Qed.
Lemma SS_firstn : forall {A} (P : A -> A -> Prop) l n, StronglySorted P l -> StronglySorted P (firstn n l).
Proof. intros A P l n H. rewrite <- (firstn_skipn n l) in H. apply SS_app in H. tauto. Qed.

Lemma SS_map : forall {A B} (f : A -> B) (P : B -> B -> Prop) l,
  StronglySorted P (map f l) <-> StronglySorted (fun a b => P (f a) (f b)) l.
Proof.
  induction l as [|x l IH]; [split; constructor|]. cbn [map]. split; intros H; inversion H; subst;
    constructor; try (now apply IH); [now rewrite Forall_map in H3|now rewrite Forall_map].
Qed.

(** Two strictly sorted lists with the same elements are equal. *)
Lemma SS_unique : forall {A} (P : A -> A -> Prop) l1 l2,
  (forall a, ~ P a a) -> (forall a b c, P a b -> P b c -> P a c) ->
  StronglySorted P l1 -> StronglySorted P l2 -> (forall a, In a l1 <-> In a l2) -> l1 = l2.
Proof.
  induction l1 as [|x l1 IH]; intros l2 Irr Tr H1 H2 Hin.
  - destruct l2 as [|y l2]; [reflexivity|]. exfalso. apply (Hin y). now left.
  - destruct l2 as [|y l2]; [exfalso; apply (Hin x); now left|].
    inversion H1 as [|? ? S1 F1]; subst. inversion H2 as [|? ? S2 F2]; subst.
    rewrite Forall_forall in F1, F2.
    assert (x = y) as ->.
    { destruct (proj1 (Hin x) (or_introl eq_refl)) as [->|Hx]; [reflexivity|].
      destruct (proj2 (Hin y) (or_introl eq_refl)) as [->|Hy]; [reflexivity|].
      exfalso. apply (Irr x). apply Tr with y; [now apply F1|now apply F2]. }
    f_equal. apply IH; try assumption. intros a. split; intros Ha.
    + destruct (proj1 (Hin a) (or_intror Ha)) as [->|Hx]; [|exact Hx]. exfalso. apply (Irr a). now apply F1.
    + destruct (proj2 (Hin a) (or_intror Ha)) as [->|Hx]; [|exact Hx]. exfalso. apply (Irr a). now apply F2.
Qed.

(** ** The binary search for an insertion position *)

Lemma div2_lt : forall n, (0 < n)%nat -> (Nat.div2 n < n)%nat.
Proof. intros n H. now apply Nat.lt_div2. Qed.

Lemma div2_succ_split : forall n, (0 < n)%nat ->
  (Nat.div2 n + 1 + Nat.div2 (n - 1) = n)%nat.
Proof.
  intros n H. destruct n as [|n]; [lia|]. replace (S n - 1)%nat with n by lia.
  pose proof (Nat.div2_odd n) as A. pose proof (Nat.div2_odd (S n)) as B.
  rewrite Nat.odd_succ in B. rewrite <- Nat.negb_odd in B. destruct (Nat.odd n); cbn [negb Nat.b2n] in *; lia.
Qed.

Section BSearch.
  Variable cmp : oit -> option (Z * bool).
  Variable l : list oit.
  Variable j : nat.
  Variable eqs : nat -> bool.
  Hypothesis Hj : (j <= length l)%nat.
  Hypothesis Hlo : forall i y, (i < j)%nat -> nth_error l i = Some y ->
    exists c, cmp y = Some (c, eqs i) /\ 0 < c.
  Hypothesis Hhi : forall i y, (j <= i)%nat -> nth_error l i = Some y ->
    exists c, cmp y = Some (c, eqs i) /\ c < 0.
  Hypothesis Elo : forall i, (i < j)%nat -> eqs i = true -> eqs (j - 1)%nat = true.
  Hypothesis Ehi : forall i, (j <= i < length l)%nat -> eqs i = true -> eqs j = true.

  Definition below_eq : bool := match j with O => false | S i => eqs i end.
  Definition above_eq : bool := if Nat.ltb j (length l) then eqs j else false.

  Lemma bs_done : forall p (lt : bool) pe ne,
    match lt with true => p = j | false => S p = j end ->
    (pe = true -> below_eq = true) ->
    (match j with O => True | S i => eqs i = true -> pe = true end) ->
    (ne = true -> above_eq = true) ->
    ((j < length l)%nat -> eqs j = true -> ne = true) ->
    Some (Z.of_nat p - (if lt then 1 else 0), pe, ne) = Some (Z.of_nat j - 1, below_eq, above_eq).
  Proof.
    intros p lt pe ne HL Hp1 Hp2 Hn1 Hn2.
    assert (Z.of_nat p - (if lt then 1 else 0) = Z.of_nat j - 1) as -> by (destruct lt; lia).
    assert (pe = below_eq) as ->.
    { apply Bool.eq_iff_eq_true. split; [exact Hp1|]. unfold below_eq. destruct j; [discriminate|exact Hp2]. }
    assert (ne = above_eq) as ->.
    { apply Bool.eq_iff_eq_true. split; [exact Hn1|]. unfold above_eq.
      destruct (Nat.ltb_spec j (length l)); [now apply Hn2|discriminate]. }
    reflexivity.
  Qed.

  Lemma bs_loop_spec : forall fuel base lim last pe ne,
    (lim <= fuel)%nat ->
    (base <= j <= base + lim)%nat -> (base + lim <= length l)%nat ->
    (lim = O -> last <> None) ->
    match last with
    | None => True
    | Some (p, true) => p = (base + lim)%nat
    | Some (p, false) => S p = base
    end ->
    (pe = true -> below_eq = true) ->
    (match base with O => True | S i => eqs i = true -> pe = true end) ->
    (ne = true -> above_eq = true) ->
    ((base + lim < length l)%nat -> eqs (base + lim)%nat = true -> ne = true) ->
    bs_loop fuel cmp l base lim last pe ne = Some (Z.of_nat j - 1, below_eq, above_eq).
  Proof.
    induction fuel as [|f IH]; intros base lim last pe ne Hf Hb Hl Hlast HL Hp1 Hp2 Hn1 Hn2.
    - assert (lim = O) as -> by lia. cbn [bs_loop].
      destruct last as [[p lt]|]; [|exfalso; now apply Hlast].
      assert (base = j) as -> by lia. rewrite Nat.add_0_r in *. now apply bs_done.
    - destruct lim as [|lim0].
      { cbn [bs_loop].
        destruct last as [[p lt]|]; [|exfalso; now apply Hlast].
        assert (base = j) as -> by lia. rewrite Nat.add_0_r in *. now apply bs_done. }
      cbn [bs_loop]. remember (S lim0) as lim eqn:El.
      pose proof (div2_lt lim ltac:(lia)) as Hd. pose proof (div2_succ_split lim ltac:(lia)) as Hs.
      remember (base + Nat.div2 lim)%nat as p eqn:Ep.
      destruct (nth_error l p) as [y|] eqn:Ey.
      2:{ apply nth_error_None in Ey. lia. }
      destruct (Nat.lt_ge_cases p j) as [Hpj|Hpj].
      + destruct (Hlo p y Hpj Ey) as (c & Ec & Hc). rewrite Ec.
        destruct (Z.ltb_spec 0 c); [|lia].
        apply IH; try lia.
        * intros _; discriminate.
        * intros Hor. apply orb_true_iff in Hor. destruct Hor as [Hor|Hor]; [now apply Hp1|].
          unfold below_eq. assert (j <> O) by lia. destruct j as [|j0]; [lia|].
          replace j0 with (S j0 - 1)%nat by lia. now apply (Elo p).
        * intros Hor. rewrite Hor. apply orb_true_r.
        * exact Hn1.
        * intros A B. replace (S p + Nat.div2 (lim - 1))%nat with (base + lim)%nat in * by lia. now apply Hn2.
      + destruct (Hhi p y Hpj Ey) as (c & Ec & Hc). rewrite Ec.
        destruct (Z.ltb_spec 0 c); [lia|]. destruct (Z.ltb_spec c 0); [|lia].
        apply IH; try lia; try assumption.
        * intros _; discriminate.
        * intros Hor. apply orb_true_iff in Hor. destruct Hor as [Hor|Hor]; [now apply Hn1|].
          cbn [andb] in Hor. unfold above_eq. destruct (Nat.ltb_spec j (length l)); [|lia].
          apply (Ehi p); [lia|exact Hor].
        * intros A B. rewrite <- Ep in B. rewrite B. cbn [andb]. apply orb_true_r.
  Qed.
End BSearch.

Lemma div2_le : forall n, (Nat.div2 n <= n)%nat.
Proof. intros n. destruct n as [|n]; [reflexivity|]. apply Nat.lt_le_incl, Nat.lt_div2. lia. Qed.

(** ** Direction-dependent order and views of a source *)

Definition dord (ord : bytes -> bytes -> Z) (fwd : bool) (a b : bytes) : Z :=
  if fwd then ord a b else ord b a.

Lemma dord_total : forall ord fwd, total_order ord -> total_order (dord ord fwd).
Proof.
  intros ord fwd [A B C]. destruct fwd; unfold dord; constructor; intros.
  - apply A.
  - apply B.
  - now apply C with b.
  - split; intros H; [apply A in H; now symmetry|apply A; now symmetry].
  - apply B.
  - now apply C with b.
Qed.

Section Order.
  Variable o : bytes -> bytes -> Z.
  Hypothesis T : total_order o.
  Lemma o_irr : forall a, ~ o a a < 0.
  Proof. intros a H. pose proof (proj2 (to_eq o T a a) eq_refl). lia. Qed.
  Lemma o_trans : forall a b c, o a b < 0 -> o b c < 0 -> o a c < 0.
  Proof. intros a b c. apply (to_trans o T). Qed.
  Lemma o_tri : forall a b, o a b < 0 \/ a = b \/ o b a < 0.
  Proof.
    intros a b. pose proof (to_eq o T a b) as E. pose proof (to_antisym o T a b) as A.
    pose proof (to_antisym o T b a) as A'.
    destruct (Z.lt_trichotomy (o a b) 0) as [H|[H|H]]; [now left|right; left; now apply E|].
    right. right. apply A'. lia.
  Qed.
  Lemma o_le_lt : forall a b c, o a b <= 0 -> o b c < 0 -> o a c < 0.
  Proof.
    intros a b c H1 H2. destruct (Z.lt_trichotomy (o a b) 0) as [H|[H|H]]; [now apply o_trans with b| |lia].
    apply (to_eq o T) in H. now subst b.
  Qed.
  Lemma o_lt_le : forall a b c, o a b < 0 -> o b c <= 0 -> o a c < 0.
  Proof.
    intros a b c H1 H2. destruct (Z.lt_trichotomy (o b c) 0) as [H|[H|H]]; [now apply o_trans with b| |lia].
    apply (to_eq o T) in H. now subst c.
  Qed.
  Lemma o_refl0 : forall a, o a a = 0.
  Proof. intros a. now apply (to_eq o T). Qed.
  Lemma o_le_trans : forall a b c, o a b <= 0 -> o b c <= 0 -> o a c <= 0.
  Proof.
    intros a b c H1 H2. destruct (Z.eq_dec (o b c) 0) as [H|H].
    - apply (to_eq o T) in H. now subst c.
    - pose proof (o_le_lt a b c H1 ltac:(lia)). lia.
  Qed.
  Lemma o_nlt_le : forall a b, ~ o b a < 0 -> o a b <= 0.
  Proof. intros a b H. destruct (o_tri a b) as [A|[->|A]]; [lia|rewrite o_refl0; lia|contradiction]. Qed.
End Order.

Section Views.
  Variable ord : bytes -> bytes -> Z.
  Hypothesis TO : total_order ord.
  Variable D : bytes -> Prop.

  (** Tuples the source has yet to return / has returned, in this direction. *)
  Definition rest (fwd : bool) (s : src) : list (bytes * message) :=
    if src_can_curr s
    then if fwd then skipn (Z.to_nat (s_pos s)) (s_items s)
         else rev (firstn (S (Z.to_nat (s_pos s))) (s_items s))
    else [].
  Definition done (fwd : bool) (s : src) : list (bytes * message) :=
    if fwd then firstn (Z.to_nat (s_pos s)) (s_items s)
    else rev (skipn (Z.to_nat (s_pos s + 1)) (s_items s)).

  Record src_ok (fwd : bool) (s : src) : Prop := {
    so_sorted : StronglySorted (fun a b => ord (fst a) (fst b) < 0) (s_items s);
    so_dom : Forall (fun p => D (fst p)) (s_items s);
    so_pos : if fwd then 0 <= s_pos s <= src_len s
             else (-1 <= s_pos s < src_len s /\ 0 < src_len s) \/ (s_pos s = 0 /\ src_len s = 0)
  }.

  Lemma can_curr_iff : forall s, src_can_curr s = true <-> 0 <= s_pos s < src_len s.
  Proof.
    intros s. unfold src_can_curr, src_can_next, src_can_prev.
    rewrite !andb_true_iff, Z.ltb_lt, Z.leb_le, Z.ltb_lt. lia.
  Qed.

  Lemma done_rest : forall fwd s, src_ok fwd s ->
    done fwd s ++ rest fwd s = if fwd then s_items s else rev (s_items s).
  Proof.
    intros fwd s [_ _ H]. unfold rest, done. destruct (src_can_curr s) eqn:E.
    - apply can_curr_iff in E. destruct fwd.
      + apply firstn_skipn.
      + rewrite <- rev_app_distr. replace (Z.to_nat (s_pos s + 1)) with (S (Z.to_nat (s_pos s))) by lia.
        now rewrite firstn_skipn.
    - assert (~ (0 <= s_pos s < src_len s)) as N by (rewrite <- can_curr_iff; congruence).
      rewrite app_nil_r. unfold src_len in *. destruct fwd.
      + apply firstn_all2. lia.
      + destruct H as [H|[H1 H2]].
        * replace (Z.to_nat (s_pos s + 1)) with O by lia. reflexivity.
        * destruct (s_items s); [now destruct (Z.to_nat (s_pos s + 1))|cbn in H2; lia].
  Qed.

  Lemma rest_step : forall fwd s, src_ok fwd s -> src_can_curr s = true ->
    exists k m, src_curr s = Some (k, m) /\ rest fwd s = (k, m) :: rest fwd (src_step fwd s) /\
      done fwd (src_step fwd s) = done fwd s ++ [(k, m)] /\ src_ok fwd (src_step fwd s).
  Proof.
    intros fwd s [Hs Hd H] E. pose proof E as E0. apply can_curr_iff in E.
    unfold src_curr. destruct (Z.ltb_spec (s_pos s) 0); [lia|].
    unfold src_len in *.
    destruct (skipn_nth (s_items s) (Z.to_nat (s_pos s)) ltac:(lia)) as ([k m] & En & Es).
    exists k, m. split; [exact En|].
    assert (src_ok fwd (src_step fwd s)) as OK.
    { unfold src_step. destruct fwd; constructor; unfold src_next, src_prev, src_len in *; cbn [s_items s_pos];
        try assumption; lia. }
    unfold rest at 1. rewrite E0. destruct fwd; cbn [src_step] in *.
    - unfold done, src_next; cbn [s_items s_pos]. replace (Z.to_nat (s_pos s + 1)) with (S (Z.to_nat (s_pos s))) by lia.
      rewrite (firstn_nth _ _ _ En). split; [|split; [reflexivity|exact OK]].
      rewrite Es. f_equal. unfold rest. cbn [s_items s_pos].
      replace (Z.to_nat (s_pos s + 1)) with (S (Z.to_nat (s_pos s))) by lia.
      destruct (src_can_curr (Src (s_items s) (s_pos s + 1))) eqn:Ec; [reflexivity|].
      apply skipn_all2.
      assert (~ (0 <= s_pos s + 1 < Z.of_nat (length (s_items s)))) as N.
      { intros N. assert (src_can_curr (Src (s_items s) (s_pos s + 1)) = true); [|congruence].
        apply can_curr_iff. unfold src_len. cbn [s_items s_pos]. exact N. }
      lia.
    - unfold done, src_prev; cbn [s_items s_pos]. replace (s_pos s - 1 + 1) with (s_pos s) by lia.
      rewrite Es. replace (Z.to_nat (s_pos s + 1)) with (S (Z.to_nat (s_pos s))) by lia.
      split; [|split; [reflexivity|exact OK]].
      rewrite (firstn_nth _ _ _ En), rev_app_distr. cbn [rev app]. f_equal.
      unfold rest. cbn [s_items s_pos].
      destruct (src_can_curr (Src (s_items s) (s_pos s - 1))) eqn:Ec.
      + apply can_curr_iff in Ec. cbn [s_pos] in Ec. replace (S (Z.to_nat (s_pos s - 1))) with (Z.to_nat (s_pos s)) by lia. reflexivity.
      + assert (~ (0 <= s_pos s - 1 < Z.of_nat (length (s_items s)))) as N.
        { intros N. assert (src_can_curr (Src (s_items s) (s_pos s - 1)) = true); [|congruence].
          apply can_curr_iff. unfold src_len. cbn [s_items s_pos]. exact N. }
        replace (Z.to_nat (s_pos s)) with O by lia. reflexivity.
  Qed.

  Lemma rest_dead : forall fwd s, src_can_curr s = false -> rest fwd s = [].
  Proof. intros fwd s H. unfold rest. now rewrite H. Qed.

  Lemma all_sorted : forall fwd s, src_ok fwd s ->
    StronglySorted (fun a b => dord ord fwd (fst a) (fst b) < 0) (done fwd s ++ rest fwd s).
  Proof.
    intros fwd s H. rewrite done_rest by exact H. destruct H as [H _ _]. destruct fwd; unfold dord; [exact H|].
    revert H. apply SS_rev. auto.
  Qed.

  Lemma rest_sorted : forall fwd s, src_ok fwd s ->
    StronglySorted (fun a b => dord ord fwd (fst a) (fst b) < 0) (rest fwd s).
  Proof. intros fwd s H. apply all_sorted in H. apply SS_app in H. tauto. Qed.

  Lemma all_dom : forall fwd s, src_ok fwd s -> Forall (fun p => D (fst p)) (done fwd s ++ rest fwd s).
  Proof.
    intros fwd s H. rewrite done_rest by exact H. destruct H as [_ H _]. destruct fwd; [exact H|]. now apply Forall_rev.
  Qed.

  (** Turning round: what was done is to be returned again, in reverse. *)
  Lemma turn_view : forall fwd s, src_ok fwd s ->
    src_ok (negb fwd) (turn_src (negb fwd) s) /\
    rest (negb fwd) (turn_src (negb fwd) s) = rev (done fwd s) /\
    s_items (turn_src (negb fwd) s) = s_items s.
  Proof.
    intros fwd s [Hs Hd H]. unfold src_len in *. destruct fwd; cbn [negb turn_src].
    - unfold src_can_prev, src_len. destruct (Z.leb_spec 0 (s_pos s)); [|lia]. cbn [andb].
      destruct (Z.ltb_spec 0 (Z.of_nat (length (s_items s)))).
      + split; [|split; [|reflexivity]].
        * constructor; unfold src_prev, src_len; cbn [s_items s_pos]; try assumption. lia.
        * unfold rest, done, src_prev. cbn [s_items s_pos].
          destruct (src_can_curr (Src (s_items s) (s_pos s - 1))) eqn:Ec.
          -- apply can_curr_iff in Ec. cbn [s_pos] in Ec.
             replace (S (Z.to_nat (s_pos s - 1))) with (Z.to_nat (s_pos s)) by lia. reflexivity.
          -- assert (~ (0 <= s_pos s - 1 < Z.of_nat (length (s_items s)))) as N.
             { intros N. assert (src_can_curr (Src (s_items s) (s_pos s - 1)) = true); [|congruence].
               apply can_curr_iff. unfold src_len. cbn [s_items s_pos]. exact N. }
             replace (Z.to_nat (s_pos s)) with O by lia. reflexivity.
      + assert (s_items s = []) as Ei by (destruct (s_items s); [reflexivity|cbn [length] in *; lia]).
        split; [|split; [|reflexivity]].
        * constructor; unfold src_len; try assumption. right. rewrite Ei in *. cbn [length] in *. lia.
        * unfold rest, done. rewrite Ei. destruct (src_can_curr s); now destruct (Z.to_nat (s_pos s)).
    - unfold src_can_next, src_len. destruct (Z.ltb_spec (s_pos s) (Z.of_nat (length (s_items s)))).
      + assert (-1 <= s_pos s) as Hp by lia. split; [|split; [|reflexivity]].
        * constructor; unfold src_next, src_len; cbn [s_items s_pos]; try assumption. lia.
        * unfold rest, done, src_next. cbn [s_items s_pos]. rewrite rev_involutive.
          destruct (src_can_curr (Src (s_items s) (s_pos s + 1))) eqn:Ec; [reflexivity|].
          symmetry. apply skipn_all2.
          assert (~ (0 <= s_pos s + 1 < Z.of_nat (length (s_items s)))) as N.
          { intros N. assert (src_can_curr (Src (s_items s) (s_pos s + 1)) = true); [|congruence].
            apply can_curr_iff. unfold src_len. cbn [s_items s_pos]. exact N. }
          lia.
      + assert (s_items s = []) as Ei by (destruct (s_items s); [reflexivity|cbn [length] in *; lia]).
        assert (s_pos s = 0) as Ep by (rewrite Ei in *; cbn [length] in *; lia).
        split; [|split; [|reflexivity]].
        * constructor; unfold src_len; try assumption. rewrite Ei. cbn [length]. lia.
        * unfold rest, done. rewrite Ei, Ep. destruct (src_can_curr s); reflexivity.
  Qed.

End Views.
