(** * Asynchronous lookups: the nested ones, and what is common to all *)

From Coq Require Import List Arith NArith ZArith Lia Bool.
From Verif Require Import Base Page Search Btree PackedArr Filter Async AsyncNested.
Import ListNotations.
Local Open Scope nat_scope.

(** Lists of numbers of the same length, by the first difference *)
Fixpoint lexlt (a b : list nat) : Prop :=
  match a, b with
  | x :: a', y :: b' => x < y \/ (x = y /\ lexlt a' b')
  | _, _ => False
  end.
Lemma lexlt_wf : forall n l, length l = n -> Acc (fun a b => length a = length b /\ lexlt a b) l.
Proof.
  induction n as [|n IH]; intros l L.
  - destruct l; [|discriminate]. constructor. intros y [_ H]. destruct y; destruct H.
  - destruct l as [|x l]; [discriminate|]. injection L as L. revert l L.
    induction x as [x IHx] using lt_wf_ind. intros l L.
    assert (A : Acc (fun a b => length a = length b /\ lexlt a b) l) by (apply IH; exact L).
    induction A as [l _ IHl]. constructor. intros y [Ly H]. destruct y as [|y r]; [destruct H|]. injection Ly as Ly.
    destruct H as [H|[-> H]].
    + apply IHx; congruence.
    + apply IHl; [split; assumption | congruence].
Qed.

(** Every request for a page is let through in the end *)
Definition fair (o : nat -> ev) : Prop := forall i, exists j, i <= j /\ o j <> Busy.

Section Generic.
Context {C R : Type}.
Variables (turn : ev -> C -> res C R) (callback : C -> option C).
(** [den c r m]: the lookup in [c] will end with [r]; [m] decreases *)
Variable den : C -> option R -> list nat -> Prop.
Variable len : nat.
Hypothesis den_len : forall c r m, den c r m -> length m = len.
Hypothesis step : forall e c r m, den c r m ->
  match turn e c with
  | Loop _ c' => exists m', den c' r m' /\ lexlt m' m
  | Retry c' => e = Busy /\ exists m', den c' r m' /\ (m' = m \/ lexlt m' m)
  | Wait c' => exists c'' m', callback c' = Some c'' /\ den c'' r m' /\ lexlt m' m
  | Finished x => r = Some x
  | Dead => r = None
  end.

Lemma drive_only : forall fuel o i c r m x, den c r m -> drive turn callback fuel o i c = Some x -> x = r.
Proof.
  induction fuel as [|f IH]; intros o i c r m x D H; [discriminate|]. cbn [drive] in H. pose proof (step (o i) c r m D) as S.
  destruct (turn (o i) c) as [u c'|c'|c'|y|].
  - destruct S as (m' & D' & _). eapply IH; eauto.
  - destruct S as (_ & m' & D' & _). eapply IH; eauto.
  - destruct S as (c'' & m' & E & D' & _). rewrite E in H. eapply IH; eauto.
  - congruence.
  - congruence.
Qed.

Lemma drive_ends : forall o, fair o -> forall m i c r, den c r m -> exists fuel, drive turn callback fuel o i c = Some r.
Proof.
  intros o F m i c r D. pose proof (lexlt_wf _ m (den_len _ _ _ D)) as A. revert i c r D.
  induction A as [m _ IH]. intros i.
  assert (W : forall d i, o (i + d) <> Busy -> forall c r, den c r m -> exists fuel, drive turn callback fuel o i c = Some r).
  { clear i. induction d as [|d IHd]; intros i Hd c r D.
    - pose proof (step (o i) c r m D) as S. rewrite Nat.add_0_r in Hd. destruct (turn (o i) c) as [u c'|c'|c'|y|] eqn:T.
      + destruct S as (m' & D' & L). destruct (IH m') with (i := if u then S i else i) (c := c') (r := r) as [f E]; auto.
        * split; [rewrite (den_len _ _ _ D'), (den_len _ _ _ D); reflexivity | exact L].
        * exists (S f). cbn [drive]. rewrite T. exact E.
      + destruct S as [B _]. congruence.
      + destruct S as (c'' & m' & E' & D' & L). destruct (IH m') with (i := S i) (c := c'') (r := r) as [f E]; auto.
        * split; [rewrite (den_len _ _ _ D'), (den_len _ _ _ D); reflexivity | exact L].
        * exists (S f). cbn [drive]. rewrite T, E'. exact E.
      + exists 1. cbn [drive]. rewrite T, S. reflexivity.
      + exists 1. cbn [drive]. rewrite T, S. reflexivity.
    - pose proof (step (o i) c r m D) as S. destruct (turn (o i) c) as [u c'|c'|c'|y|] eqn:T.
      + destruct S as (m' & D' & L). destruct (IH m') with (i := if u then S i else i) (c := c') (r := r) as [f E]; auto.
        * split; [rewrite (den_len _ _ _ D'), (den_len _ _ _ D); reflexivity | exact L].
        * exists (S f). cbn [drive]. rewrite T. exact E.
      + destruct S as (_ & m' & D' & [-> | L]).
        * destruct (IHd (S i)) with (c := c') (r := r) as [f E]; auto.
          -- replace (S i + d) with (i + S d) by lia. exact Hd.
          -- exists (S f). cbn [drive]. rewrite T. exact E.
        * destruct (IH m') with (i := S i) (c := c') (r := r) as [f E]; auto.
          -- split; [rewrite (den_len _ _ _ D'), (den_len _ _ _ D); reflexivity | exact L].
          -- exists (S f). cbn [drive]. rewrite T. exact E.
      + destruct S as (c'' & m' & E' & D' & L). destruct (IH m') with (i := S i) (c := c'') (r := r) as [f E]; auto.
        * split; [rewrite (den_len _ _ _ D'), (den_len _ _ _ D); reflexivity | exact L].
        * exists (S f). cbn [drive]. rewrite T, E'. exact E.
      + exists 1. cbn [drive]. rewrite T, S. reflexivity.
      + exists 1. cbn [drive]. rewrite T, S. reflexivity. }
  intros c r D. destruct (F i) as (j & L & B). apply (W (j - i) i); [replace (i + (j - i)) with j by lia; exact B | exact D].
Qed.
End Generic.

(** ** The btree *)
Section BtreeAsync.
Variables (cfg : data_config) (k : bytes).

Definition bpage_lookup (x : btpage) : option (option message) := btree_lookup cfg (projT1 x) (projT2 x) k.
(** With [true] the reference to the leaf is held *)
Definition bres (r : option (option message)) : option (option message * nat) :=
  match r with None => None | Some None => Some (None, 0) | Some (Some m) => Some (Some m, 1) end.
Definition bheld (c : bctx) : nat := match b_node c with Some _ => 1 | None => 0 end.

Inductive bden (ht : nat) (t : tree ht) : bctx -> option (option message * nat) -> list nat -> Prop :=
| bd_start : forall pg, bden ht t (BCtx BStart None None pg 0) (bres (btree_lookup cfg ht t k)) [S ht; 2]
| bd_get : forall c x, b_state c = BGet -> b_child c = Some x -> b_refs c = bheld c ->
    bden ht t c (bres (bpage_lookup x)) [projT1 x; 2]
| bd_index : forall c x, b_state c = BIndex -> b_page c = Some x -> b_refs c = S (bheld c) ->
    bden ht t c (bres (bpage_lookup x)) [projT1 x; 1]
| bd_leaf : forall c x, b_state c = BLeaf -> b_node c = Some x -> projT1 x = 0 -> b_refs c = 1 ->
    bden ht t c (bres (bpage_lookup x)) [0; 0].

Lemma bdescend_lookup : forall h' (p : page (ient (Btree.tree h'))),
  bpage_lookup (existT Btree.tree (S h') p) = match bdescend cfg k (existT Btree.tree (S h') p) with None => None | Some y => bpage_lookup y end.
Proof.
  intros h' p. unfold bpage_lookup, btree_lookup. cbn [projT1 projT2 lookup_leaf bdescend descend_idx].
  destruct (find_pivot cfg p (KUser k)) as [[i f]|]; [|reflexivity].
  destruct (get_child p (clamp0 i)); reflexivity.
Qed.

Lemma bdescend_height : forall h' (p : page (ient (Btree.tree h'))) y, bdescend cfg k (existT Btree.tree (S h') p) = Some y -> projT1 y = h'.
Proof.
  intros h' p y E. cbn [bdescend] in E. destruct (find_pivot cfg p (KUser k)) as [[i f]|]; [|discriminate].
  destruct (get_child p (clamp0 i)); [|discriminate]. injection E as <-. reflexivity.
Qed.

Lemma bget_den : forall ht t e c x n, b_child c = Some x -> b_refs c = bheld c -> n = projT1 x ->
  match bget e c with
  | Loop _ c' => exists m', bden ht t c' (bres (bpage_lookup x)) m' /\ lexlt m' [n; 2]
  | Retry c' => e = Busy /\ exists m', bden ht t c' (bres (bpage_lookup x)) m' /\ (m' = [n; 2] \/ lexlt m' [n; 2])
  | Wait c' => exists c'' m', bcallback c' = Some c'' /\ bden ht t c'' (bres (bpage_lookup x)) m' /\ lexlt m' [n; 2]
  | Finished y => bres (bpage_lookup x) = Some y
  | Dead => bres (bpage_lookup x) = None
  end.
Proof.
  intros ht t e c x n E1 E2 ->. destruct e; cbn [bget].
  - exists [projT1 x; 1]. split; [|simpl; lia]. apply bd_index; cbn [b_state b_page b_refs]; [reflexivity | exact E1 | rewrite E2; reflexivity].
  - split; [reflexivity|]. exists [projT1 x; 2]. split; [|left; reflexivity]. apply bd_get; cbn; auto.
  - eexists; exists [projT1 x; 1]. split; [reflexivity|]. split; [|simpl; lia]. apply bd_index; cbn [b_state b_page b_refs]; [reflexivity | exact E1 | rewrite E2; reflexivity].
Qed.

Lemma bden_step : forall ht t e c r m, bden ht t c r m ->
  match bturn cfg ht t k e c with
  | Loop _ c' => exists m', bden ht t c' r m' /\ lexlt m' m
  | Retry c' => e = Busy /\ exists m', bden ht t c' r m' /\ (m' = m \/ lexlt m' m)
  | Wait c' => exists c'' m', bcallback c' = Some c'' /\ bden ht t c'' r m' /\ lexlt m' m
  | Finished x => r = Some x
  | Dead => r = None
  end.
Proof.
  intros ht t e c r m D. destruct D as [pg | c x E1 E2 E3 | c x E1 E2 E3 | c x E1 E2 E3 E4]; unfold bturn.
  - cbn [b_state]. pose proof (bget_den ht t e (BCtx BGet (Some (existT _ ht t)) None pg 0) (existT _ ht t) ht eq_refl eq_refl eq_refl) as G.
    cbn [b_page b_refs]. change (bpage_lookup (existT _ ht t)) with (btree_lookup cfg ht t k) in G. destruct (bget e _).
    + destruct G as (m' & G1 & G2). exists m'. split; [exact G1|]. destruct m' as [|a [|b [|]]]; simpl in *; lia.
    + destruct G as (G0 & m' & G1 & G2). split; [exact G0|]. exists m'. split; [exact G1|]. right. destruct G2 as [->|G2]; [simpl; lia|]. destruct m' as [|a [|b [|]]]; simpl in *; lia.
    + destruct G as (c'' & m' & G0 & G1 & G2). exists c'', m'. split; [exact G0|]. split; [exact G1|]. destruct m' as [|a [|b [|]]]; simpl in *; lia.
    + exact G.
    + exact G.
  - rewrite E1. apply bget_den; auto.
  - rewrite E1, E2. destruct x as [[|h'] x].
    + exists [0; 0]. split; [|simpl; lia]. apply bd_leaf; cbn; auto. rewrite E3. unfold bheld. destruct (b_node c); reflexivity.
    + rewrite bdescend_lookup. destruct (bdescend cfg k (existT _ (S h') x)) as [y|] eqn:Ey; [|reflexivity].
      exists [projT1 y; 2]. split.
      * apply bd_get; cbn; auto. rewrite E3. unfold bheld. cbn. destruct (b_node c); reflexivity.
      * rewrite (bdescend_height h' x y Ey). simpl. lia.
  - rewrite E1, E2. destruct x as [[|h'] x]; [|discriminate]. unfold bpage_lookup, btree_lookup. cbn [projT1 projT2 lookup_leaf].
    destruct (find_tuple cfg (lf_page x) (KUser k)) as [[i []]|]; [|rewrite E4; reflexivity|reflexivity].
    destruct (nth_error _ _) as [[? ?]|]; [rewrite E4; reflexivity|reflexivity].
Qed.
End BtreeAsync.

(** ** The filter *)
Section FilterAsync.
Variables (cfg : fcfg) (f : filter) (hash : N).

(** What is left to do when the page of the header is there *)
Definition rscan (rem bucket remd : N) (b : fblock) : option N :=
  match bucket_bounds (fb_enc b) (header_length cfg (fb_num b)) (bucket mod fc_index cfg)%N (enc_fuel cfg (fb_num b)) with
  | None => None
  | Some (s, e) => scan_bucket (rf_vs f) (rem + rf_vs f) remd (fb_rem b) (N.to_nat (e - s)) e 0
  end.
Definition rres (x : option N) : option (N * nat) := match x with Some v => Some (v, 0) | None => None end.
Definition rfrom (c : rctx) : option N :=
  match nth_error (rf_blocks f) (N.to_nat (r_index c)) with
  | None => None
  | Some b => rscan (r_rem_size c) (r_bucket c) (r_rem c) b
  end.
Definition rthen (c : rctx) (b : fblock) : option N := rscan (r_rem_size c) (r_bucket c) (r_rem c) b.

Inductive rden : rctx -> option (N * nat) -> list nat -> Prop :=
| rd_start : rden rctx_init (rres (filter_lookup cfg (Some f) hash)) [5]
| rd_get_index : forall c, r_state c = RGetIndex -> r_refs c = 0 -> rden c (rres (rfrom c)) [4]
| rd_got_index : forall c, r_state c = RGotIndex -> r_refs c = 1 -> rden c (rres (rfrom c)) [3]
| rd_get_filter : forall c b, r_state c = RGetFilter -> r_refs c = 0 -> r_hdr c = Some b -> rden c (rres (rthen c b)) [2]
| rd_got_filter : forall c b, r_state c = RGotFilter -> r_refs c = 1 -> r_hdr c = Some b -> rden c (rres (rthen c b)) [1].

Lemma rfrom_lookup : forall c c', rstart cfg f hash c = Some c' -> filter_lookup cfg (Some f) hash = rfrom c'.
Proof.
  intros c c' E. unfold rstart in E. unfold filter_lookup, opt_bind. destruct (sizes_of cfg (rf_num f)) as [[[lnb lni] rem]|]; [|discriminate].
  injection E as <-. unfold rfrom, rscan. cbn [r_index r_rem_size r_bucket r_rem].
  destruct (nth_error _ _) as [b|]; [|reflexivity]. destruct (bucket_bounds _ _ _ _) as [[s e]|]; [|reflexivity].
  destruct (N.eqb_spec s e) as [->|]; [|reflexivity]. rewrite N.sub_diag. reflexivity.
Qed.

Lemma rden_step : forall e c r m, rden c r m ->
  match rturn cfg f hash e c with
  | Loop _ c' => exists m', rden c' r m' /\ lexlt m' m
  | Retry c' => e = Busy /\ exists m', rden c' r m' /\ (m' = m \/ lexlt m' m)
  | Wait c' => exists c'' m', rcallback c' = Some c'' /\ rden c'' r m' /\ lexlt m' m
  | Finished x => r = Some x
  | Dead => r = None
  end.
Proof.
  intros e c r m D. destruct D as [|c E1 E2|c E1 E2|c b E1 E2 E3|c b E1 E2 E3]; unfold rturn.
  - cbn [r_state rctx_init]. destruct (rstart cfg f hash rctx_init) as [c'|] eqn:E.
    + rewrite (rfrom_lookup _ _ E). assert (S' : r_state c' = RGetIndex /\ r_refs c' = 0).
      { unfold rstart in E. destruct (sizes_of cfg (rf_num f)) as [[[? ?] ?]|]; [|discriminate]. injection E as <-. split; reflexivity. }
      destruct S' as [S1 S2]. destruct e; cbn [rget].
      * exists [3]. split; [|simpl; lia]. change (rfrom c') with (rfrom (rgot c')). apply rd_got_index; unfold rgot; rewrite S1, S2; reflexivity.
      * split; [reflexivity|]. exists [4]. split; [apply rd_get_index; auto | right; simpl; lia].
      * exists (rgot c'), [3]. unfold rcallback. rewrite S1. split; [reflexivity|]. split; [|simpl; lia]. change (rfrom c') with (rfrom (rgot c')). apply rd_got_index; unfold rgot; rewrite S1, S2; reflexivity.
    + unfold rstart in E. unfold filter_lookup, opt_bind. destruct (sizes_of cfg (rf_num f)) as [[[? ?] ?]|]; [discriminate | reflexivity].
  - rewrite E1. destruct e; cbn [rget].
    + exists [3]. split; [|simpl; lia]. change (rfrom c) with (rfrom (rgot c)). apply rd_got_index; unfold rgot; rewrite E1, E2; reflexivity.
    + split; [reflexivity|]. exists [4]. split; [apply rd_get_index; auto | left; reflexivity].
    + exists (rgot c), [3]. unfold rcallback. rewrite E1. split; [reflexivity|]. split; [|simpl; lia]. change (rfrom c) with (rfrom (rgot c)). apply rd_got_index; unfold rgot; rewrite E1, E2; reflexivity.
  - rewrite E1. unfold rfrom. destruct (nth_error _ _) as [b|]; [|reflexivity]. exists [2]. split; [|simpl; lia].
    match goal with |- rden ?c' _ _ => change (rscan (r_rem_size c) (r_bucket c) (r_rem c) b) with (rthen c' b); apply (rd_get_filter c' b) end; [reflexivity | cbn; lia | reflexivity].
  - rewrite E1. destruct e; cbn [rget].
    + exists [1]. split; [|simpl; lia]. change (rthen c b) with (rthen (rgot c) b). apply rd_got_filter; unfold rgot; rewrite ?E1, ?E2; try reflexivity. exact E3.
    + split; [reflexivity|]. exists [2]. split; [apply rd_get_filter; auto | left; reflexivity].
    + exists (rgot c), [1]. unfold rcallback. rewrite E1. split; [reflexivity|]. split; [|simpl; lia]. change (rthen c b) with (rthen (rgot c) b). apply rd_got_filter; unfold rgot; rewrite ?E1, ?E2; try reflexivity. exact E3.
  - rewrite E1, E3. unfold rthen, rscan. destruct (bucket_bounds _ _ _ _) as [[s e']|]; [|reflexivity]. destruct (scan_bucket _ _ _ _ _ _ _); [rewrite E2; reflexivity | reflexivity].
Qed.
End FilterAsync.
