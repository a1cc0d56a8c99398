(** Scans of the tree when no call is running see the table. *)
From Coq Require Import List Arith Bool Lia Sorting.Sorted.
Import ListNotations.
From Verif Require Import CBtree CBtreeSpec CBtreeInv CBtreeSplit CBtreeProofs CBtreeLin.
Local Open Scope nat_scope.

Lemma filter_less : forall A (f g : A -> bool) l a, In a l -> f a = true -> g a = false ->
  (forall x, g x = true -> f x = true) -> length (filter g l) < length (filter f l).
Proof.
  intros A f g l a. induction l as [|y l IH]; intros Hi Fa Ga H; [destruct Hi|].
  assert (L : length (filter g l) <= length (filter f l)).
  { clear -H. induction l as [|y l IH]; cbn; auto. destruct (g y) eqn:E; [rewrite (H y E); cbn; lia|].
    destruct (f y); cbn; lia. }
  cbn. destruct Hi as [->|Hi].
  - rewrite Fa, Ga. cbn. lia.
  - specialize (IH Hi Fa Ga H). destruct (g y) eqn:E; [rewrite (H y E); cbn; lia|]. destruct (f y); cbn; lia.
Qed.

Section REST.
Variables (ef : nat -> node) (G : ghost) (B : nat -> nat) (m : table) (nx : nat).
Hypothesis T : tree ef G B m nx.

Lemma leaf_of_ok : forall h k a lo hi n, G a = Some (h, lo, hi) -> inr lo hi k -> h <= n ->
  exists b lo' hi', leaf_of n ef k a = Some b /\ G b = Some (0, lo', hi') /\ inr lo' hi' k.
Proof.
  induction h as [|h IH]; intros k a lo hi n Ga R L.
  - destruct (ef a) as [es pv nn|h' ps] eqn:Ea.
    + exists a, lo, hi. destruct n; cbn; rewrite Ea; auto.
    + destruct (node_ok_index _ _ _ _ _ T _ _ _ _ _ _ Ga Ea) as (h0 & X & _). discriminate.
  - destruct (ef a) as [es pv nn|h' ps] eqn:Ea.
    { destruct (node_ok_leaf _ _ _ _ _ T _ _ _ _ _ _ _ Ga Ea) as (X & _). discriminate. }
    destruct (node_ok_index _ _ _ _ _ T _ _ _ _ _ _ Ga Ea) as (h0 & X & _ & NE & S & I & K). injection X as <-.
    destruct n as [|n]; [lia|]. cbn [leaf_of]. rewrite Ea.
    destruct (nth_error ps (slot k ps)) as [[pk c]|] eqn:N.
    + destruct (slot_kid _ _ _ _ _ _ _ _ _ K R S N) as (lo' & hi' & Gc & Rc & _).
      destruct (IH k c lo' hi' n Gc Rc ltac:(lia)) as (b & H). exists b.
      change (zero (find k ps)) with (slot k ps). rewrite N. exact H.
    + exfalso. unfold slot in N. destruct (find k ps) as [j|] eqn:F; cbn in N.
      * apply find_nth in F. destruct F as (pk & c & F & _). congruence.
      * destruct ps; [congruence|discriminate].
Qed.

(** Leaves further right. *)
Definition lo_above (lo : option nat) (b : nat) : bool :=
  match G b, lo with
  | Some (0, Some x, _), None => true
  | Some (0, Some x, _), Some y => y <? x
  | _, _ => false
  end.
Definition hi_below (hi : option nat) (b : nat) : bool :=
  match G b, hi with
  | Some (0, _, Some x), None => true
  | Some (0, _, Some x), Some y => x <? y
  | _, _ => false
  end.

Lemma walk_ok : forall n a lo hi, G a = Some (0, lo, hi) ->
  length (filter (lo_above lo) (seq 0 nx)) <= n ->
  exists es, walk n ef a = Some es /\ StronglySorted lt (map fst es) /\
    (forall k, In k (map fst es) -> ge_lo lo k) /\ forall k, ge_lo lo k -> getk k es = m k.
Proof.
  induction n as [|n IH]; intros a lo hi Ga L;
    (destruct (ef a) as [es pv nn|h' ps] eqn:Ea;
     [|destruct (node_ok_index _ _ _ _ _ T _ _ _ _ _ _ Ga Ea) as (h0 & X & _); discriminate]);
    destruct (node_ok_leaf _ _ _ _ _ T _ _ _ _ _ _ _ Ga Ea) as (_ & S & I & V & Nx & _);
    cbn [walk]; rewrite Ea; destruct nn as [b|]; destruct hi as [y|]; try destruct Nx;
    try (exists es; split; auto; split; auto; split; [intros k Hk; apply I; auto|];
         intros k Hk; apply V; split; cbn; auto; fail).
  - exfalso. destruct (t_ne _ _ _ _ _ T _ _ _ _ Ga) as (z & Z1 & Z2). cbn in Z2.
    assert (In b (filter (lo_above lo) (seq 0 nx))).
    { apply filter_In. split; [apply in_seq; apply (t_lt _ _ _ _ _ T) in H; lia|].
      unfold lo_above. rewrite H. destruct lo as [l|]; auto. cbn in Z1. apply Nat.ltb_lt. lia. }
    destruct (filter (lo_above lo) (seq 0 nx)); [auto|cbn in L; lia].
  - destruct (t_ne _ _ _ _ _ T _ _ _ _ Ga) as (z & Z1 & Z2). cbn in Z2.
    assert (Ly : match lo with Some l => l < y | None => True end) by (destruct lo; cbn in *; lia).
    destruct (IH b (Some y) x) as (es' & W & S' & I' & V'); auto.
    + apply lt_n_Sm_le. eapply Nat.lt_le_trans; [|exact L].
      apply (filter_less _ _ _ _ b).
      * apply in_seq. apply (t_lt _ _ _ _ _ T) in H. lia.
      * unfold lo_above. rewrite H. destruct lo; auto. apply Nat.ltb_lt; auto.
      * unfold lo_above. rewrite H. apply Nat.ltb_irrefl.
      * intros c. unfold lo_above. destruct (G c) as [[[[|h] [l|]] hc]|]; auto. intros Hl. apply Nat.ltb_lt in Hl.
        destruct lo; auto. apply Nat.ltb_lt. lia.
    + exists (es ++ es'). rewrite W. split; auto. rewrite map_app. split; [|split].
      * apply ss_app. split; auto. split; auto. intros u v Hu Hv. apply I in Hu. apply I' in Hv. cbn in Hv.
        destruct Hu as [[_ Hu] _]. cbn in Hu. lia.
      * intros k Hk. apply in_app_iff in Hk. destruct Hk as [Hk|Hk]; [apply I in Hk; apply Hk|].
        apply I' in Hk. cbn in Hk. destruct lo; cbn; auto. lia.
      * intros k Hk. destruct (le_lt_dec y k) as [Hy|Hy].
        -- rewrite getk_app; [apply V'; auto|]. intros u Hu. apply I in Hu. destruct Hu as [[_ Hu] _]. cbn in Hu. lia.
        -- rewrite getk_app_l; [apply V; split; auto|]. intros u Hu. apply I' in Hu. cbn in Hu. lia.
Qed.

Lemma walk_back_ok : forall n a lo hi, G a = Some (0, lo, hi) ->
  length (filter (hi_below hi) (seq 0 nx)) <= n ->
  exists es, walk_back n ef a = Some es /\ StronglySorted lt (map fst es) /\
    (forall k, In k (map fst es) -> lt_hi hi k) /\ forall k, lt_hi hi k -> getk k es = m k.
Proof.
  induction n as [|n IH]; intros a lo hi Ga L;
    (destruct (ef a) as [es pv nn|h' ps] eqn:Ea;
     [|destruct (node_ok_index _ _ _ _ _ T _ _ _ _ _ _ Ga Ea) as (h0 & X & _); discriminate]);
    destruct (node_ok_leaf _ _ _ _ _ T _ _ _ _ _ _ _ Ga Ea) as (_ & S & I & V & _ & Pv & _);
    cbn [walk_back]; rewrite Ea; destruct pv as [b|]; destruct lo as [y|]; try destruct Pv;
    try (exists es; split; auto; split; auto; split; [intros k Hk; apply I; auto|];
         intros k Hk; apply V; split; cbn; auto; fail).
  - exfalso. destruct (t_ne _ _ _ _ _ T _ _ _ _ Ga) as (z & Z1 & Z2). cbn in Z1.
    assert (In b (filter (hi_below hi) (seq 0 nx))).
    { apply filter_In. split; [apply in_seq; apply (t_lt _ _ _ _ _ T) in H; lia|].
      unfold hi_below. rewrite H. destruct hi as [l|]; auto. cbn in Z2. apply Nat.ltb_lt. lia. }
    destruct (filter (hi_below hi) (seq 0 nx)); [auto|cbn in L; lia].
  - destruct (t_ne _ _ _ _ _ T _ _ _ _ Ga) as (z & Z1 & Z2). cbn in Z1.
    assert (Ly : match hi with Some l => y < l | None => True end) by (destruct hi; cbn in *; lia).
    destruct (IH b x (Some y)) as (es' & W & S' & I' & V'); auto.
    + apply lt_n_Sm_le. eapply Nat.lt_le_trans; [|exact L].
      apply (filter_less _ _ _ _ b).
      * apply in_seq. apply (t_lt _ _ _ _ _ T) in H. lia.
      * unfold hi_below. rewrite H. destruct hi; auto. apply Nat.ltb_lt; auto.
      * unfold hi_below. rewrite H. apply Nat.ltb_irrefl.
      * intros c. unfold hi_below. destruct (G c) as [[[[|h] lc] [l|]]|]; auto. intros Hl. apply Nat.ltb_lt in Hl.
        destruct hi; auto. apply Nat.ltb_lt. lia.
    + exists (es' ++ es). rewrite W. split; auto. rewrite map_app. split; [|split].
      * apply ss_app. split; auto. split; auto. intros u v Hu Hv. apply I in Hv. apply I' in Hu. cbn in Hu.
        destruct Hv as [[Hv _] _]. cbn in Hv. lia.
      * intros k Hk. apply in_app_iff in Hk. destruct Hk as [Hk|Hk]; [|apply I in Hk; apply Hk].
        apply I' in Hk. cbn in Hk. destruct hi; cbn; auto. lia.
      * intros k Hk. destruct (le_lt_dec y k) as [Hy|Hy].
        -- rewrite getk_app; [apply V; split; auto|]. intros u Hu. apply I' in Hu. cbn in Hu. lia.
        -- rewrite getk_app_l; [apply V'; auto|]. intros u Hu. apply I in Hu. destruct Hu as [[Hu _] _]. cbn in Hu. lia.
Qed.

Lemma sorted_filter : forall (f : nat * list nat -> bool) es, StronglySorted lt (map fst es) ->
  StronglySorted lt (map fst (filter f es)).
Proof.
  intros f es. induction es as [|e es IH]; cbn; intros H; [constructor|]. inversion H as [|? ? H1 H2]; subst.
  destruct (f e); auto. cbn. constructor; auto. rewrite Forall_forall in *. intros x Hx. apply H2.
  apply in_map_iff in Hx. destruct Hx as (y & <- & Hy). apply filter_In in Hy. apply in_map. tauto.
Qed.
Lemma getk_filter : forall (f : nat -> bool) es k, getk k (filter (fun e => f (fst e)) es) = if f k then getk k es else [].
Proof.
  intros f es k. induction es as [|[x v] es IH]; cbn; [destruct (f k); auto|].
  destruct (x =? k) eqn:E.
  - apply Nat.eqb_eq in E. subst x. destruct (f k) eqn:F; cbn; [rewrite Nat.eqb_refl; auto|]. auto.
  - destruct (f x); cbn; [rewrite E|]; auto.
Qed.

Lemma scan_ok : forall k, exists n es, scan n ef k = Some es /\ StronglySorted lt (map fst es) /\
  forall x, getk x es = if k <=? x then m x else [].
Proof.
  intros k. destruct (t_root _ _ _ _ _ T) as (_ & h & G0 & _).
  set (n := h + nx).
  destruct (leaf_of_ok h k 0 None None n G0 ltac:(split; cbn; auto) ltac:(lia)) as (a & lo & hi & L & Ga & R).
  destruct (walk_ok n a lo hi Ga) as (es & W & S & I & V).
  { eapply Nat.le_trans; [|apply Nat.le_add_l]. rewrite <- (seq_length nx 0) at 2.
    clear. induction (seq 0 nx) as [|b l IH]; cbn; auto. destruct (lo_above lo b); cbn; lia. }
  exists n, (filter (fun e => k <=? fst e) es). unfold scan. rewrite L, W. split; auto. split; [apply sorted_filter; auto|].
  intros x. rewrite (getk_filter (fun y => k <=? y)). destruct (k <=? x) eqn:E; auto. apply V. apply Nat.leb_le in E.
  destruct R as [R _]. destruct lo; cbn in *; auto. lia.
Qed.
Lemma scan_back_ok : forall k, exists n es, scan_back n ef k = Some es /\ StronglySorted lt (map fst es) /\
  forall x, getk x es = if x <? k then m x else [].
Proof.
  intros k. destruct (t_root _ _ _ _ _ T) as (_ & h & G0 & _).
  set (n := h + nx).
  destruct (leaf_of_ok h k 0 None None n G0 ltac:(split; cbn; auto) ltac:(lia)) as (a & lo & hi & L & Ga & R).
  destruct (walk_back_ok n a lo hi Ga) as (es & W & S & I & V).
  { eapply Nat.le_trans; [|apply Nat.le_add_l]. rewrite <- (seq_length nx 0) at 2.
    clear. induction (seq 0 nx) as [|b l IH]; cbn; auto. destruct (hi_below hi b); cbn; lia. }
  exists n, (filter (fun e => fst e <? k) es). unfold scan_back. rewrite L, W. split; auto. split; [apply sorted_filter; auto|].
  intros x. rewrite (getk_filter (fun y => y <? k)). destruct (x <? k) eqn:E; auto. apply V. apply Nat.ltb_lt in E.
  destruct R as [_ R]. destruct hi; cbn in *; auto. lia.
Qed.
End REST.

(** No leaf has an entry without a message. *)
Definition full (n : node) : Prop := forall k v, In (k, v) (entries n) -> v <> [].

Lemma setk_full : forall es k v, v <> [] -> (forall k v, In (k, v) es -> v <> []) ->
  forall x y, In (x, y) (setk k v es) -> y <> [].
Proof.
  induction es as [|[k' v'] es IH]; intros k v V H x y; cbn [setk].
  - intros [[= <- <-]|[]]; auto.
  - destruct (k <? k'); [|destruct (k =? k')].
    + intros [[= <- <-]|Hi]; eauto.
    + intros [[= <- <-]|Hi]; auto. eapply H; cbn; eauto.
    + intros [[= <- <-]|Hi]; [eapply H; cbn; eauto|]. eapply IH; [exact V| |exact Hi]. intros; eapply H; cbn; eauto.
Qed.
Lemma in_firstn : forall A n (l : list A) x, In x (firstn n l) -> In x l.
Proof. intros A n l x H. rewrite <- (firstn_skipn n l). apply in_app_iff. auto. Qed.
Lemma in_skipn : forall A n (l : list A) x, In x (skipn n l) -> In x l.
Proof. intros A n l x H. rewrite <- (firstn_skipn n l). apply in_app_iff. auto. Qed.
Lemma snoc_ne : forall A (l : list A) x, l ++ [x] <> [].
Proof. intros A [|y l] x; discriminate. Qed.

Lemma full_upd : forall f a n, (forall b, full (f b)) -> full n -> forall b, full (upd f a n b).
Proof. intros f a n F N b. unfold upd. destruct (b =? a); auto. Qed.
Lemma full_index : forall h ps, full (Index h ps).
Proof. intros h ps k v []. Qed.
Lemma full_right_leaf : forall k v q gl sp c n, full n -> full (right_leaf k v q gl sp c n).
Proof.
  intros k v q gl sp c n F. unfold right_leaf, full. cbn [entries].
  assert (X : forall x y, In (x, y) (skipn q (entries n)) -> y <> []) by (intros x y H; apply in_skipn in H; eauto).
  destruct gl; auto. apply setk_full; auto. apply snoc_ne.
Qed.
Lemma full_left_leaf : forall k v q gl sp c n, full n -> full (left_leaf k v q gl sp c n).
Proof.
  intros k v q gl sp c n F. unfold left_leaf, full. cbn [entries].
  assert (X : forall x y, In (x, y) (firstn q (entries n)) -> y <> []) by (intros x y H; apply in_firstn in H; eauto).
  destruct gl; auto. apply setk_full; auto. apply snoc_ne.
Qed.
Lemma full_with_prev : forall rc n, full n -> full (with_prev rc n).
Proof. intros rc [es pv n|h ps] F; auto. Qed.
Lemma full_grown : forall n c n', grown n c = Some n' -> full n'.
Proof. intros [[|[k v] es] pv n|h [|[k x] ps]] c n' H; cbn in H; try discriminate; injection H as <-; apply full_index. Qed.

Lemma full_step : forall s i c s' l, (forall a, full (pg s a)) -> step s i c = Some (s', l) -> forall a, full (pg s' a).
Proof.
  intros s i c s' l F E. unfold step in E. destruct (nth_error (ths s) i) as [t|]; [|discriminate].
  assert (X : forall f fresh t' l', match t, c with
            | Idle, Do (CIns k m) => Some (Next (pg s) false (Ins k m I0) (Called (CIns k m)))
            | Idle, Do (CFnd k) => Some (Next (pg s) false (Fnd k F0) (Called (CFnd k)))
            | Ins k m p, Go x => istep s i k m p x
            | Fnd k p, Go _ => fstep s i k p
            | _, _ => None
            end = Some (Next f fresh t' l') -> forall a, full (f a)).
  { clear E. intros f fresh t' l' E.
    assert (P : forall h ps es pv n k v a, (pg s a = Leaf es pv n -> full (Leaf (setk k (v ++ [h]) es) ps n))).
    { intros h ps es pv n k v a Ea. unfold full. cbn [entries]. apply setk_full; [apply snoc_ne|].
      intros x y. specialize (F a). rewrite Ea in F. apply F. }
    destruct t as [|k v p|k p]; destruct c as [[k' v'|k']|x]; try discriminate; try (injection E as <- _ _ _; auto; fail).
    - destruct p; cbn [istep] in E; cbv zeta in E;
        repeat match type of E with
        | (if ?b then _ else _) = Some _ => destruct b; try discriminate E
        | match ?b with Leaf _ _ _ => _ | Index _ _ => _ end = Some _ => destruct b eqn:?; try discriminate E
        | match ?b with Some _ => _ | None => _ end = Some _ => destruct b eqn:?; try discriminate E
        | (let (_, _) := ?b in _) = Some _ => destruct b
        end; injection E as <- _ _ _; auto;
        repeat apply full_upd; auto;
        eauto using full_index, full_right_leaf, full_left_leaf, full_with_prev, full_grown.
      + rewrite <- Heqn. auto.
    - destruct p; cbn [fstep] in E; cbv zeta in E;
        repeat match type of E with
        | (if ?b then _ else _) = Some _ => destruct b; try discriminate E
        | match ?b with Leaf _ _ _ => _ | Index _ _ => _ end = Some _ => destruct b eqn:?; try discriminate E
        | match ?b with Some _ => _ | None => _ end = Some _ => destruct b eqn:?; try discriminate E
        | (let (_, _) := ?b in _) = Some _ => destruct b
        end; injection E as <- _ _ _; auto. }
  match type of E with match ?b with _ => _ end = _ => destruct b as [[f fresh t' l']|] eqn:Eb; [|discriminate] end.
  injection E as <- _. cbn [pg]. eapply X; eauto.
Qed.

Lemma full_runs : forall n tr s, runs (init n) tr s -> forall a, full (pg s a).
Proof.
  intros n tr s R. remember (init n) as s0 eqn:E0. induction R as [s|s tr s' i c s'' l R IH E].
  - subst. intros a k v [].
  - eapply full_step; eauto.
Qed.

Lemma walk_full : forall n g a es, (forall a, full (g a)) -> walk n g a = Some es ->
  forall k v, In (k, v) es -> v <> [].
Proof.
  induction n as [|n IH]; intros g a es F W; cbn [walk] in W; specialize (F a) as Fa; unfold full in Fa;
    destruct (g a) as [es' pv [b|]|h ps]; try discriminate; try (injection W as <-; exact Fa).
  destruct (walk n g b) as [r|] eqn:Wb; [|discriminate]. injection W as <-. intros k v H. apply in_app_iff in H.
  destruct H as [H|H]; [eapply Fa; eauto|eapply IH; eauto].
Qed.
Lemma walk_back_full : forall n g a es, (forall a, full (g a)) -> walk_back n g a = Some es ->
  forall k v, In (k, v) es -> v <> [].
Proof.
  induction n as [|n IH]; intros g a es F W; cbn [walk_back] in W; specialize (F a) as Fa; unfold full in Fa;
    destruct (g a) as [es' [b|] nn|h ps]; try discriminate; try (injection W as <-; exact Fa).
  destruct (walk_back n g b) as [r|] eqn:Wb; [|discriminate]. injection W as <-. intros k v H. apply in_app_iff in H.
  destruct H as [H|H]; [eapply IH; eauto|eapply Fa; eauto].
Qed.

Lemma getk_in : forall es k v, StronglySorted lt (map fst es) -> In (k, v) es -> getk k es = v.
Proof.
  induction es as [|[x y] es IH]; intros k v S H; [destruct H|]. cbn in *. inversion S as [|? ? S1 S2]; subst.
  destruct H as [[= -> ->]|H].
  - rewrite Nat.eqb_refl. auto.
  - rewrite Forall_forall in S2. specialize (S2 k ltac:(apply in_map_iff; exists (k, v); auto)).
    destruct (x =? k) eqn:E; [apply Nat.eqb_eq in E; lia|]. auto.
Qed.
Lemma in_getk : forall es k, getk k es <> [] -> In (k, getk k es) es.
Proof.
  induction es as [|[x y] es IH]; cbn; intros k H; [congruence|]. destruct (x =? k) eqn:E.
  - apply Nat.eqb_eq in E. subst. auto.
  - auto.
Qed.

(** ** At rest. *)
Definition at_rest (s : state) : Prop := forall i t, nth_error (ths s) i = Some t -> t = Idle.

Lemma rest_tree : forall s ef G B m, core s ef G B m -> at_rest s -> tree (pg s) G B m (nxt s).
Proof.
  intros s ef G B m C R. pose proof (c_tree _ _ _ _ _ C) as T. eapply tree_ext; eauto.
  intros a x Ga. symmetry. apply (c_e2 _ _ _ _ _ C); [eapply (t_lt _ _ _ _ _ T); eauto|].
  intros i t H. apply R in H. subst. auto.
Qed.

Theorem rest_scans : forall n tr s, runs (init n) tr s -> at_rest s ->
  exists m f, aruns (empty, all_idle) tr (m, f) /\
    forall k,
      (exists d es, scan d (pg s) k = Some es /\ StronglySorted lt (map fst es) /\
         forall x v, In (x, v) es <-> k <= x /\ v = m x /\ v <> []) /\
      (exists d es, scan_back d (pg s) k = Some es /\ StronglySorted lt (map fst es) /\
         forall x v, In (x, v) es <-> x < k /\ v = m x /\ v <> []).
Proof.
  intros n tr s R Q. destruct (sim_run n tr s R) as (ef & G & B & m & f & C & _ & A).
  pose proof (rest_tree _ _ _ _ _ C Q) as T. pose proof (full_runs _ _ _ R) as F. exists m, f. split; auto.
  intros k. split.
  - destruct (scan_ok _ _ _ _ _ T k) as (d & es & E & S & V). exists d, es. split; auto. split; auto.
    assert (FE : forall x v, In (x, v) es -> v <> []).
    { unfold scan in E. destruct (leaf_of d (pg s) k 0) as [a|]; [|discriminate].
      destruct (walk d (pg s) a) as [es'|] eqn:W; [|discriminate]. injection E as <-.
      intros x v H. apply filter_In in H. eapply walk_full; eauto. apply H. }
    intros x v. split.
    + intros H. pose proof (FE _ _ H). apply (getk_in _ _ _ S) in H. rewrite V in H.
      destruct (k <=? x) eqn:L; [|congruence]. apply Nat.leb_le in L. auto.
    + intros (L & -> & N). apply Nat.leb_le in L. specialize (V x). rewrite L in V. rewrite <- V in *. apply in_getk; auto.
  - destruct (scan_back_ok _ _ _ _ _ T k) as (d & es & E & S & V). exists d, es. split; auto. split; auto.
    assert (FE : forall x v, In (x, v) es -> v <> []).
    { unfold scan_back in E. destruct (leaf_of d (pg s) k 0) as [a|]; [|discriminate].
      destruct (walk_back d (pg s) a) as [es'|] eqn:W; [|discriminate]. injection E as <-.
      intros x v H. apply filter_In in H. eapply walk_back_full; eauto. apply H. }
    intros x v. split.
    + intros H. pose proof (FE _ _ H). apply (getk_in _ _ _ S) in H. rewrite V in H.
      destruct (x <? k) eqn:L; [|congruence]. apply Nat.ltb_lt in L. auto.
    + intros (L & -> & N). apply Nat.ltb_lt in L. specialize (V x). rewrite L in V. rewrite <- V in *. apply in_getk; auto.
Qed.
