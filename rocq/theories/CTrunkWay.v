(** The ways through the trunk: nodes nobody copies stay on the ways they were on. *)
From Coq Require Import List Arith Bool Lia.
Import ListNotations.
From Verif Require Import CTrunk CTrunkSpec CTrunkInv CTrunkOps CTrunkProofs CTrunkSteps CTrunkLin CTrunkLive CTrunkDrain CTrunkPath.
Local Open Scope nat_scope.

(** ** Nodes without their branches, but for a mark at [z]. *)
Definition mk (l : list nat) (n : node) : node := Nd (ht n) (map (fun p => setbs p l) (pvs n)) (ub n).
Definition mark (z a : nat) : list nat := if a =? z then [0] else [].
Definition skel (z : nat) (g : nat -> node) (a : nat) : node := mk (mark z a) (g a).
Definition B1 (b k : nat) : list nat := [0].
Definition shp (n : node) := (ht n, map (fun p => (pk p, ch p)) (pvs n), ub n).

Lemma mk_shp : forall l n n', shp n = shp n' -> mk l n = mk l n'.
Proof.
  intros l [h ps u] [h' ps' u'] E. unfold shp in E. cbn in E. injection E as -> E ->. unfold mk. cbn. f_equal. clear - E.
  revert ps' E. induction ps as [|p ps IH]; intros [|p' ps'] E; try discriminate; auto. cbn in E. injection E as E1 E2 E3. cbn. f_equal; auto.
  unfold setbs. congruence.
Qed.
Lemma shp_hdr : forall n n', shp n = shp n' -> hdr n = hdr n'.
Proof.
  intros [h ps u] [h' ps' u'] E. unfold shp in E. cbn in E. injection E as -> E ->. unfold hdr, lo. cbn.
  destruct ps, ps'; try discriminate; auto. cbn in E. injection E as -> _ _. auto.
Qed.
Lemma shp_map : forall n f, (forall p, pk (f p) = pk p /\ ch (f p) = ch p) -> shp (Nd (ht n) (map f (pvs n)) (ub n)) = shp n.
Proof.
  intros n f H. unfold shp. cbn. rewrite map_map. f_equal. f_equal. apply map_ext. intros p. destruct (H p). congruence.
Qed.
Lemma mk_hdr : forall l n, hdr (mk l n) = hdr n.
Proof. intros. apply map_hdr. auto. Qed.
Lemma shp_slot : forall n n' k p, shp n = shp n' -> slot k (pvs n) = Some p -> exists p', slot k (pvs n') = Some p' /\ pk p' = pk p /\ ch p' = ch p.
Proof.
  intros n n' k p E Sp. pose proof (mk_shp [] _ _ E) as M. unfold mk in M. injection M as _ M _.
  assert (X : slot k (map (fun p => setbs p []) (pvs n)) = Some (setbs p [])) by (rewrite map_slot by auto; rewrite Sp; auto).
  rewrite M, map_slot in X by auto. destruct (slot k (pvs n')) as [p'|]; [|discriminate]. cbn in X. injection X as X1 X2. eauto.
Qed.

Lemma mk_cut : forall l n c a b, cut_node n c = Some (a, b) -> cut_node (mk l n) c = Some (mk l a, mk l b).
Proof.
  intros l n c a b E. unfold cut_node in *. cbn [mk ht pvs ub]. destruct (ht n =? 0).
  - unfold mk. destruct (pvs n) as [|p r] eqn:En; [discriminate|]. cbn [map setbs pk ch bs].
    destruct ((pk p <? c) && below c (ub n)) eqn:Q; [|discriminate]. injection E as <- <-. reflexivity.
  - rewrite firstn_map, skipn_map.
    destruct (firstn c (pvs n)) as [|p1 r1] eqn:F1; [discriminate|]. destruct (skipn c (pvs n)) as [|p2 r2] eqn:F2; [discriminate|].
    injection E as <- <-. reflexivity.
Qed.
Lemma mk_pieces : forall l cs n ns, pieces n cs = Some ns -> pieces (mk l n) cs = Some (map (mk l) ns).
Proof.
  intros l. induction cs as [|c cs IH]; intros n ns; cbn [pieces].
  - intros [= <-]. reflexivity.
  - destruct (cut_node n c) as [[a b]|] eqn:E; [|discriminate]. rewrite (mk_cut l _ _ _ _ E).
    destruct (pieces b cs) as [ps|] eqn:Ep; [|discriminate]. intros [= <-]. rewrite (IH _ _ Ep). reflexivity.
Qed.
Lemma mk_heads : forall l ns a, heads a (map (mk l) ns) = heads a ns.
Proof.
  intros l. induction ns as [|n ns IH]; intros a; cbn [map heads]; auto. unfold mk at 1. cbn [pvs].
  destruct (pvs n); cbn [map]; rewrite IH; auto.
Qed.
Lemma mk_add : forall l l' n, mk l (add_all l' n) = mk l n.
Proof. intros. apply mk_shp. apply shp_map. auto. Qed.
Lemma mk_slot : forall l n k, slot k (pvs (mk l n)) = option_map (fun p => setbs p l) (slot k (pvs n)).
Proof. intros. apply map_slot. auto. Qed.
Lemma mk_reslot : forall l k ps c, reslot k (map (fun p => setbs p l) ps) c = map (fun p => setbs p l) (reslot k ps c).
Proof.
  intros l k ps c. induction ps as [|p ps IH]; cbn [map reslot]; auto. cbn [setbs pk]. destruct (k <? pk p); auto.
  rewrite map_slot by auto. destruct (slot k ps); cbn [option_map map]; [rewrite IH; auto|auto].
Qed.

Lemma look_ext : forall g g' B d a k, (forall x, g x = g' x) -> look d g B a k = look d g' B a k.
Proof.
  intros g g' B d. induction d as [|d IH]; intros a k E; cbn [look]; rewrite (E a); auto. destruct (slot k (pvs (g' a))); auto. rewrite IH; auto.
Qed.
Lemma lk_ext : forall g g' B a k, (forall x, g x = g' x) -> lk g B a k = lk g' B a k.
Proof. intros. unfold lk. rewrite (H a). apply look_ext. auto. Qed.

Lemma mk_wfn : forall g nx nb l n, Forall (fun b => b < nb) l -> wfn g nx nb n -> wfn g nx nb (mk l n).
Proof. intros g nx nb l n F W. unfold mk. apply map_wfn; auto. Qed.
Lemma sk_wf : forall z g nx nb, wf g nx nb -> wf (skel z g) nx (S nb).
Proof.
  intros z g nx nb W a Ha. eapply wfn_ext with (g := g) (nx := nx) (nb := S nb); auto.
  - apply mk_wfn; [unfold mark; destruct (a =? z); [constructor; [lia|constructor]|constructor]|]. eapply wfn_ext; eauto.
  - intros x _. apply mk_hdr.
Qed.

(** ** Ways. *)
Inductive leads (g : nat -> node) (r k : nat) : nat -> Prop :=
| l_here : leads g r k r
| l_down : forall x p, leads g r k x -> slot k (pvs (g x)) = Some p -> ht (g x) <> 0 -> leads g r k (ch p).
Lemma leads_first : forall g r k z, leads g r k z ->
  z = r \/ exists p, slot k (pvs (g r)) = Some p /\ ht (g r) <> 0 /\ leads g (ch p) k z.
Proof.
  intros g r k z H. induction H as [|x p H IH Sp Z]; auto. right. destruct IH as [->|(q & S1 & Z1 & L)].
  - exists p. split; auto. split; auto. constructor.
  - exists q. split; auto. split; auto. econstructor; eauto.
Qed.
Lemma leads_up : forall g r k p z, slot k (pvs (g r)) = Some p -> ht (g r) <> 0 -> leads g (ch p) k z -> leads g r k z.
Proof. intros g r k p z Sp Z H. induction H; [eapply l_down; eauto; constructor|econstructor; eauto]. Qed.

Section Shape.
Variables (g : nat -> node) (nx nb : nat).
Hypothesis W : forall z, wf (skel z g) nx nb.
Lemma shape_node : forall a k, a < nx -> inr (g a) k -> exists p, slot k (pvs (g a)) = Some p /\
  (ht (g a) <> 0 -> ch p < nx /\ inr (g (ch p)) k /\ S (ht (g (ch p))) = ht (g a)) /\
  forall z, lk (skel z g) B1 a k = mark z a ++ (if ht (g a) =? 0 then [] else lk (skel z g) B1 (ch p) k).
Proof.
  intros a k La I.
  assert (Q : forall z, exists p, slot k (pvs (g a)) = Some p /\
    (ht (g a) <> 0 -> ch p < nx /\ inr (g (ch p)) k /\ S (ht (g (ch p))) = ht (g a)) /\
    lk (skel z g) B1 a k = mark z a ++ (if ht (g a) =? 0 then [] else lk (skel z g) B1 (ch p) k)).
  { intros z. destruct (lk_node (skel z g) B1 nx nb a k (W z a La)) as (p & S1 & _ & S2 & S3).
    { eapply inr_hdr; [symmetry; apply mk_hdr|auto]. }
    unfold skel at 1 in S1. rewrite mk_slot in S1. destruct (slot k (pvs (g a))) as [q|]; [|discriminate]. cbn in S1. injection S1 as <-.
    exists q. split; auto. cbn [bs setbs ch] in *. split.
    - intros Z. destruct (S3 Z) as (X1 & X2 & X3). split; auto. split; auto. eapply inr_hdr; [apply mk_hdr|exact X2].
    - rewrite S2. f_equal. unfold mark. destruct (a =? z); reflexivity. }
  destruct (Q 0) as (p & S1 & S2 & _). exists p. split; auto. split; auto. intros z. destruct (Q z) as (p' & S1' & _ & S3).
  rewrite S1 in S1'. injection S1' as <-. exact S3.
Qed.
Lemma leads_ok : forall r k z, r < nx -> inr (g r) k -> leads g r k z -> z < nx /\ inr (g z) k /\ ht (g z) <= ht (g r).
Proof.
  intros r k z Lr I H. induction H as [|x p H IH Sp Z]; auto. destruct IH as (L & I2 & Hh). destruct (shape_node x k L I2) as (q & S1 & S2 & _).
  rewrite Sp in S1. injection S1 as <-. destruct (S2 Z) as (A & B & C). split; auto. split; auto. lia.
Qed.
Lemma leads_one : forall r k x y, r < nx -> inr (g r) k -> leads g r k x -> leads g r k y -> ht (g x) = ht (g y) -> x = y.
Proof.
  intros r k x y Lr I H. revert y. induction H as [|x p H IH Sp Z]; intros y Hy E.
  - destruct Hy as [|y p Hy Sp Z]; auto. destruct (leads_ok _ _ _ Lr I Hy) as (L & I2 & Hh). destruct (shape_node y k L I2) as (q & S1 & S2 & _).
    rewrite Sp in S1. injection S1 as <-. destruct (S2 Z) as (A & B & C). lia.
  - destruct (leads_ok _ _ _ Lr I H) as (L & I2 & Hh). destruct (shape_node x k L I2) as (q & S1 & S2 & _).
    rewrite Sp in S1. injection S1 as <-. destruct (S2 Z) as (A & B & C). destruct Hy as [|y q Hy Sq Zq].
    + lia.
    + destruct (leads_ok _ _ _ Lr I Hy) as (L' & I2' & Hh'). destruct (shape_node y k L' I2') as (q' & S1' & S2' & _).
      rewrite Sq in S1'. injection S1' as <-. destruct (S2' Zq) as (A' & B' & C').
      assert (x = y) by (apply IH; auto; lia). subst y. congruence.
Qed.
Lemma leads_lk : forall z h r k, ht (g r) = h -> r < nx -> inr (g r) k -> (leads g r k z <-> lk (skel z g) B1 r k <> []).
Proof.
  intros z. induction h as [|h IH]; intros r k Eh Lr I; destruct (shape_node r k Lr I) as (p & S1 & S2 & S3); rewrite S3; unfold mark;
    destruct (Nat.eqb_spec r z) as [->|Z]; cbn [app]; rewrite Eh; cbn [Nat.eqb].
  - split; [discriminate|constructor].
  - split; [|congruence]. intros H. apply leads_first in H. destruct H as [H|(q & _ & Q & _)]; congruence.
  - split; [discriminate|constructor].
  - destruct (S2 ltac:(lia)) as (A & B & C). rewrite <- (IH (ch p) k ltac:(lia) A B). split.
    + intros H. apply leads_first in H. destruct H as [H|(q & Sq & _ & H)]; [congruence|]. rewrite S1 in Sq. injection Sq as <-. auto.
    + intros H. eapply leads_up; eauto. lia.
Qed.
End Shape.

(** ** The nodes during an edit. *)
Definition shinv (s : state) : Prop := forall i o e old n, nth_error (ths s) i = Some (P4 o e old n) -> shp (mem s e) = shp n.

Lemma held : forall s ef m f i t e q c s' l, inv s ef m f -> nth_error (ths s) i = Some t -> In e (mine t) -> q <> i ->
  step s q c = Some (s', l) -> mem s' e = mem s e /\ nth_error (ths s') i = Some t.
Proof.
  intros s ef m f i t e q c s' l V Hi He Z E.
  assert (Le : e < nx s). { eapply (v_pg _ _ _ _ V); [exact Hi|]. unfold pages. rewrite !in_app_iff. apply mine_locks in He. auto. }
  unfold step in E. destruct (nth_error (ths s) q) as [u|] eqn:Hq; [|discriminate].
  assert (X : forall s1 t1, mem s1 e = mem s e -> mem (set_ths s1 (put (ths s) q t1)) e = mem s e /\ nth_error (ths (set_ths s1 (put (ths s) q t1))) i = Some t).
  { intros s1 t1 M. split; auto. cbn. rewrite (nth_put _ _ _ _ _ Hq). destruct (Nat.eqb_spec i q); [congruence|auto]. }
  destruct c as [c|x].
  - destruct u; try discriminate. destruct (start s c) as [[s1 t1]|] eqn:Es; [|discriminate]. injection E as <- <-.
    destruct (start_mem _ _ _ _ Es) as (A & _). apply X. congruence.
  - destruct (go s q u x) as [[[s1 t1] l1]|] eqn:Eg; [|discriminate]. injection E as <- <-. apply X.
    destruct (go_fz _ _ _ _ _ _ _ Eg) as (_ & A & _). apply A; auto.
    + intros Q. eapply (v_ex _ _ _ _ V i q); eauto. apply in_or_app. right. apply mine_locks. auto.
    + destruct (v_priv _ _ _ _ V q u Hq) as [_ P]. eapply (P i t e); eauto. unfold pages. rewrite !in_app_iff. apply mine_locks in He. auto.
Qed.

Lemma step_sh : forall s ef m f i c s' l, inv s ef m f -> shinv s -> step s i c = Some (s', l) -> shinv s'.
Proof.
  intros s ef m f i c s' l V H E j o e old n Hj. destruct (Nat.eq_dec i j) as [->|Z].
  - unfold step in E. destruct (nth_error (ths s) j) as [t|] eqn:Hi; [|discriminate]. destruct c as [c|x].
    + destruct t; try discriminate. destruct (start s c) as [[s1 t1]|] eqn:Es; [|discriminate]. injection E as <- <-.
      cbn in Hj. rewrite (nth_put _ _ _ _ _ Hi), Nat.eqb_refl in Hj. injection Hj as ->. destruct (start_mem _ _ _ _ Es) as (_ & _ & _ & _ & _ & _ & A). destruct A.
    + destruct (go s j t x) as [[[s1 t1] l1]|] eqn:Eg; [|discriminate]. injection E as <- <-.
      cbn in Hj. rewrite (nth_put _ _ _ _ _ Hi), Nat.eqb_refl in Hj. injection Hj as ->. cbn.
      unfold go, same_st in Eg. destruct t; try (destruct x; discriminate); destruct x; try discriminate;
      repeat match type of Eg with
      | (if ?b then _ else _) = _ => destruct b eqn:?
      | match ?x with Some _ => _ | None => _ end = _ => destruct x eqn:?
      end; try discriminate. injection Eg as <- <- <- <- <-. cbn. rewrite upd_same. apply shp_map. apply rp_key.
  - assert (Hs : nth_error (ths s) j = Some (P4 o e old n)).
    { unfold step in E. destruct (nth_error (ths s) i) as [t|] eqn:Hi; [|discriminate].
      destruct c as [c|x]; [destruct t; try discriminate; destruct (start s c) as [[s1 t1]|]; [|discriminate]|
        destruct (go s i t x) as [[[s1 t1] l1]|]; [|discriminate]]; injection E as <- <-; cbn in Hj; rewrite (nth_put _ _ _ _ _ Hi) in Hj;
        destruct (Nat.eqb_spec j i); congruence. }
    destruct (held _ _ _ _ _ _ e _ _ _ _ V Hs ltac:(cbn; auto) Z E) as [M _]. rewrite M. eapply H; eauto.
Qed.
Lemma runs_sh : forall n tr s, runs (init n) tr s -> shinv s.
Proof.
  intros n tr s R. remember (init n) as s0 eqn:E0. induction R as [s1|s1 tr s' i c s'' l R IH St].
  - subst s1. intros i o e old k H. apply nth_repeat_some in H. discriminate.
  - subst s1. destruct (runs_ok _ _ _ R) as (ef & m & f & g & V & _). eapply step_sh; eauto.
Qed.

Lemma sk_ef : forall s ef m f z a, inv s ef m f -> shinv s -> shp (mem s a) = shp (ef a) /\ skel z (mem s) a = skel z ef a.
Proof.
  intros s ef m f z a V H. assert (X : shp (mem s a) = shp (ef a)); [|split; auto; apply mk_shp; auto].
  destruct (existsb (fun t => match p4 t with Some (x, _) => x =? a | None => false end) (ths s)) eqn:Q.
  - apply existsb_exists in Q. destruct Q as (t & Ht & Q). apply In_nth_error in Ht. destruct Ht as (i & Hi).
    destruct (p4 t) as [[x n]|] eqn:P; [|discriminate]. apply Nat.eqb_eq in Q. subst x.
    rewrite (v_p4 _ _ _ _ V _ _ _ _ Hi P). destruct t; try discriminate. injection P as -> ->. eapply H; eauto.
  - rewrite (v_mem _ _ _ _ V); auto. intros i t Hi n P. apply Bool.not_true_iff_false in Q. apply Q. apply existsb_exists. exists t.
    split; [eapply nth_error_In; eauto|]. rewrite P. apply Nat.eqb_refl.
Qed.
Lemma sk_good : forall s ef m f, inv s ef m f -> shinv s -> forall z, wf (skel z (mem s)) (nx s) (S (nb s)).
Proof.
  intros s ef m f V H z a Ha. rewrite (proj2 (sk_ef _ _ _ _ z a V H)).
  eapply wfn_ext; [apply (sk_wf z _ _ _ (v_wf _ _ _ _ V) a Ha)| |auto|auto]. intros x _. rewrite (proj2 (sk_ef _ _ _ _ z x V H)). auto.
Qed.

(** ** Steps. *)
Definition ways (s s' : state) (z : nat) : Prop :=
  forall r k, r < nx s -> inr (mem s r) k -> lk (skel z (mem s')) B1 r k = lk (skel z (mem s)) B1 r k.
Definition hdrs (s s' : state) : Prop := nx s <= nx s' /\ forall a, a < nx s -> hdr (mem s' a) = hdr (mem s a).

Lemma ways_same : forall s s', (forall a, shp (mem s' a) = shp (mem s a)) -> nx s <= nx s' -> hdrs s s' /\ forall z, ways s s' z.
Proof.
  intros s s' H N. split; [split; auto; intros; apply shp_hdr; auto|]. intros z r k _ _. apply lk_ext. intros a. apply mk_shp. auto.
Qed.
Lemma ways_eff : forall s s' z g nb', eff (skel z (mem s)) (nx s) nb' B1 g (nx s') nb' B1 -> (forall a, g a = skel z (mem s') a) -> ways s s' z /\ hdrs s s'.
Proof.
  intros s s' z g nb' E H. split.
  - intros r k Lr I. rewrite <- (lk_ext g (skel z (mem s')) B1 r k H). apply (e_lk _ _ _ _ _ _ _ _ E); auto.
    eapply inr_hdr; [symmetry; apply mk_hdr|auto].
  - split; [apply (e_nx _ _ _ _ _ _ _ _ E)|]. intros a La. pose proof (e_hdr _ _ _ _ _ _ _ _ E a La) as X. rewrite H in X.
    unfold skel in X. rewrite !mk_hdr in X. auto.
Qed.

Lemma ways_fresh : forall s s' n z nb', wf (skel z (mem s)) (nx s) nb' -> root s < nx s -> z < nx s ->
  shp n = shp (mem s (root s)) -> (forall a, mem s' a = upd (mem s) (nx s) n a) -> nx s' = S (nx s) -> ways s s' z /\ hdrs s s'.
Proof.
  intros s s' n z nb' W Lr Lz Hn HM HN.
  assert (X : eff (skel z (mem s)) (nx s) nb' B1 (upd (skel z (mem s)) (nx s) (mk [] n)) (S (nx s)) nb' B1).
  { apply eff_fresh; auto. rewrite (mk_shp [] _ _ Hn). pose proof (W _ Lr) as Y. unfold skel in Y at 2.
    replace (mk [] (mem s (root s))) with (mk [] (mk (mark z (root s)) (mem s (root s)))) by (apply mk_shp; apply shp_map; auto).
    apply mk_wfn; auto. }
  rewrite <- HN in X. eapply ways_eff; [exact X|]. intros a. unfold skel, upd. rewrite HM. unfold upd. destruct (Nat.eqb_spec a (nx s)) as [->|]; auto.
  unfold mark. destruct (Nat.eqb_spec (nx s) z); [lia|auto].
Qed.

Lemma store_sk : forall z ns g a, z < a -> forall x, store (skel z g) a (map (mk []) ns) x = skel z (store g a ns) x.
Proof.
  intros z. induction ns as [|n ns IH]; intros g a L x; cbn [map store]; auto.
  rewrite <- (IH (upd g a n) (S a) ltac:(lia) x).
  assert (Y : forall ns g g' b, (forall y, g y = g' y) -> forall y, store g b ns y = store g' b ns y).
  { clear. induction ns as [|m ns IH]; intros g g' b H y; cbn [store]; auto. apply IH. intros w. unfold upd. destruct (w =? b); auto. }
  apply Y. intros y. unfold skel, upd. destruct (Nat.eqb_spec y a) as [->|]; auto. unfold mark. destruct (Nat.eqb_spec a z); [lia|auto].
Qed.

(** One pivot's child copied and cut. *)
Lemma ways_splice : forall s s' e l q r cs ns l' z nb', wf (skel z (mem s)) (nx s) nb' -> e < nx s -> z < nx s -> z <> ch q ->
  pvs (mem s e) = l ++ q :: r -> ht (mem s e) <> 0 -> pieces (add_all l' (mem s (ch q))) cs = Some ns ->
  (forall a, shp (mem s' a) = shp (upd (store (mem s) (nx s) ns) e (Nd (ht (mem s e)) (l ++ heads (nx s) ns ++ r) (ub (mem s e))) a)) ->
  nx s' = nx s + length ns -> ways s s' z /\ hdrs s s'.
Proof.
  intros s s' e l q r cs ns l' z nb' W Le Lz Zq Ep Hh E HM HN.
  pose proof (splice_eff (skel z (mem s)) (nx s) nb' B1 e (map (fun p => setbs p (mark z e)) l) (setbs q (mark z e)) (map (fun p => setbs p (mark z e)) r)
     [] (mark z e) cs (map (mk []) ns) W Le) as X.
  assert (Mq : mark z (ch q) = []) by (unfold mark; destruct (Nat.eqb_spec (ch q) z); congruence).
  rewrite map_length, app_nil_r, add_all_nil in X. rewrite <- HN in X. eapply ways_eff; [apply X; auto|].
  - unfold skel, mk. cbn [pvs]. rewrite Ep, map_app. reflexivity.
  - cbn [setbs ch]. unfold skel. rewrite Mq. rewrite <- (mk_add [] l'). apply mk_pieces. auto.
  - intros a. assert (Y : skel z (mem s') a = mk (mark z a) (upd (store (mem s) (nx s) ns) e (Nd (ht (mem s e)) (l ++ heads (nx s) ns ++ r) (ub (mem s e))) a)) by (apply mk_shp; auto).
    rewrite Y. clear Y. unfold upd. destruct (Nat.eqb_spec a e) as [->|].
    + unfold mids. rewrite mk_heads. unfold skel, mk. cbn [ht pvs ub]. f_equal. rewrite !map_app. reflexivity.
    + apply store_sk. auto.
Qed.

(** More marks, more ways; so no page gets new ways, not even the one that is copied. *)
Lemma look_more : forall (h : nat -> node) f f', (forall x, f x <> [] -> f' x <> []) -> forall d a k,
  look d (fun x => mk (f x) (h x)) B1 a k <> [] -> look d (fun x => mk (f' x) (h x)) B1 a k <> [].
Proof.
  intros h f f' H. assert (AO : forall l k, all_of B1 l k <> [] <-> l <> []) by (intros [|x l] k; cbn; split; congruence).
  assert (AP : forall l r : list nat, l ++ r <> [] <-> l <> [] \/ r <> []).
  { intros [|x l] r; cbn; split; auto; try tauto; intros; try (left; congruence); congruence. }
  induction d as [|d IH]; intros a k; cbn [look]; rewrite !mk_slot; destruct (slot k (pvs (h a))) as [p|]; cbn [option_map]; auto;
    cbn [setbs bs ch]; rewrite !AP, !AO; intros [Q|Q]; auto.
Qed.
Lemma store_ext : forall ns g g' b, (forall y, g y = g' y) -> forall y, store g b ns y = store g' b ns y.
Proof. induction ns as [|m ns IH]; intros g g' b H y; cbn [store]; auto. apply IH. intros w. unfold upd. destruct (w =? b); auto. Qed.
Lemma store_marks : forall m ns g f a, exists f', (forall x, store (fun x => mk (f x) (g x)) a (map (mk m) ns) x = mk (f' x) (store g a ns x)) /\
  forall x, x < a -> f' x = f x.
Proof.
  intros m. induction ns as [|n ns IH]; intros g f a; cbn [map store]; [exists f; auto|].
  destruct (IH (upd g a n) (upd f a m) (S a)) as (f' & H1 & H2). exists f'. split.
  - intros x. rewrite <- H1. apply store_ext. intros y. unfold upd. destruct (y =? a); auto.
  - intros x L. rewrite H2 by lia. apply upd_other. lia.
Qed.
Definition only (s s' : state) (z : nat) : Prop :=
  forall r k, r < nx s -> inr (mem s r) k -> lk (skel z (mem s')) B1 r k <> [] -> lk (skel z (mem s)) B1 r k <> [].
Lemma only_splice : forall s s' e l q r cs ns l' z nb', wf (skel z (mem s)) (nx s) nb' -> e < nx s -> z < nx s ->
  pvs (mem s e) = l ++ q :: r -> ht (mem s e) <> 0 -> pieces (add_all l' (mem s (ch q))) cs = Some ns ->
  (forall a, shp (mem s' a) = shp (upd (store (mem s) (nx s) ns) e (Nd (ht (mem s e)) (l ++ heads (nx s) ns ++ r) (ub (mem s e))) a)) ->
  nx s' = nx s + length ns -> only s s' z.
Proof.
  intros s s' e l q r cs ns l' z nb' W Le Lz Ep Hh E HM HN r0 k Lr I Q. set (m := mark z (ch q)).
  destruct (store_marks m ns (mem s) (mark z) (nx s)) as (f' & S1 & S2).
  pose proof (splice_eff (skel z (mem s)) (nx s) nb' B1 e (map (fun p => setbs p (mark z e)) l) (setbs q (mark z e)) (map (fun p => setbs p (mark z e)) r)
     [] (mark z e) cs (map (mk m) ns) W Le) as X.
  rewrite map_length, app_nil_r, add_all_nil in X.
  assert (A1 : pvs (skel z (mem s) e) = map (fun p => setbs p (mark z e)) l ++ setbs q (mark z e) :: map (fun p => setbs p (mark z e)) r).
  { unfold skel, mk. cbn [pvs]. rewrite Ep, map_app. reflexivity. }
  assert (A2 : pieces (skel z (mem s) (ch (setbs q (mark z e)))) cs = Some (map (mk m) ns)).
  { cbn [setbs ch]. unfold skel. fold m. rewrite <- (mk_add m l'). apply mk_pieces. auto. }
  specialize (X A1 Hh eq_refl A2).
  rewrite <- (e_lk _ _ _ _ _ _ _ _ X r0 k Lr) by (eapply inr_hdr; [symmetry; apply mk_hdr|auto]).
  rewrite (lk_ext _ (fun x => mk (f' x) (mem s' x))).
  - unfold lk in *. revert Q. apply (look_more (mem s') (mark z) f'). intros x Qx.
    assert (Ex : x = z) by (unfold mark in Qx; destruct (Nat.eqb_spec x z); [auto|congruence]).
    rewrite S2 by lia. auto.
  - intros a. rewrite (mk_shp (f' a) _ _ (HM a)). unfold upd. destruct (Nat.eqb_spec a e) as [->|].
    + rewrite S2 by auto. unfold mids. rewrite mk_heads. unfold skel, mk. cbn [ht pvs ub]. f_equal. rewrite !map_app. reflexivity.
    + apply S1.
Qed.

Lemma ways_grow : forall s a cs ns z nb', wf (skel z (mem s)) (nx s) nb' -> a < nx s -> z < nx s -> z <> a -> pieces (mem s a) cs = Some ns ->
  let s' := with_mem s (upd (store (mem s) (nx s) ns) (nx s + length ns) (Nd (S (ht (mem s a))) (heads (nx s) ns) (ub (mem s a)))) (S (nx s + length ns)) in
  ways s s' z /\ forall k, inr (mem s a) k -> lk (skel z (mem s')) B1 (nx s + length ns) k = lk (skel z (mem s)) B1 a k.
Proof.
  intros s a cs ns z nb' W La Lz Z E s'.
  assert (Ma : mark z a = []) by (unfold mark; destruct (Nat.eqb_spec a z); congruence).
  assert (Pc : pieces (skel z (mem s) a) cs = Some (map (mk []) ns)) by (unfold skel; rewrite Ma; apply mk_pieces; auto).
  destruct (grow_eff (skel z (mem s)) (nx s) nb' B1 a cs _ W La Pc) as (X & _ & Y & _). rewrite map_length, mk_heads in *.
  assert (PW : forall x, upd (store (skel z (mem s)) (nx s) (map (mk []) ns)) (nx s + length ns)
       (Nd (S (ht (skel z (mem s) a))) (heads (nx s) ns) (ub (skel z (mem s) a))) x = skel z (mem s') x).
  { intros x. unfold s', upd. cbn [mem with_mem]. unfold skel at 4. unfold upd. destruct (Nat.eqb_spec x (nx s + length ns)) as [->|].
    - assert (M : mark z (nx s + length ns) = []) by (unfold mark; destruct (Nat.eqb_spec (nx s + length ns) z); [lia|auto]). rewrite M.
      unfold skel, mk. cbn [ht pvs ub]. f_equal. symmetry. apply (heads_nil ns (nx s)).
    - apply store_sk. auto. }
  split.
  - eapply ways_eff; [exact X|exact PW].
  - intros k I. rewrite <- (lk_ext _ _ B1 (nx s + length ns) k PW). apply Y. eapply inr_hdr; [symmetry; apply mk_hdr|auto].
Qed.

Lemma mine_ef : forall s ef m f i t e, inv s ef m f -> nth_error (ths s) i = Some t -> In e (mine t) -> p4 t = None -> mem s e = ef e.
Proof.
  intros s ef m f i t e V Hi He P. apply (v_mem _ _ _ _ V). intros j u Hj n Q. destruct (Nat.eq_dec j i) as [->|Z]; [congruence|].
  eapply (v_ex _ _ _ _ V j i u t e); eauto; [destruct u; try discriminate; injection Q as -> _; cbn; auto|].
  apply in_or_app. right. apply mine_locks. auto.
Qed.

Lemma step_sk : forall s ef m f i c s' l t, inv s ef m f -> shinv s -> nth_error (ths s) i = Some t -> step s i c = Some (s', l) ->
  hdrs s s' /\ exists D : nat -> Prop, (forall z, D z -> forall j u, j <> i -> nth_error (ths s) j = Some u -> ~ In z (locks u)) /\ (forall z, D z -> ~ In z (mine t)) /\ (forall z, D z -> fz s z -> only s s' z) /\
    forall z, z < nx s -> ~ D z -> ways s s' z.
Proof.
  intros s ef m f i c s' l t V SH Hi E. pose proof (sk_good _ _ _ _ V SH) as W. destruct (v_root _ _ _ _ V) as (Lr & _).
  assert (SM : forall s1 : state, (forall a, shp (mem s1 a) = shp (mem s a)) -> nx s <= nx s1 ->
     hdrs s s1 /\ exists D : nat -> Prop, (forall z, D z -> forall j u, j <> i -> nth_error (ths s) j = Some u -> ~ In z (locks u)) /\ (forall z, D z -> ~ In z (mine t)) /\ (forall z, D z -> fz s z -> only s s1 z) /\
       forall z, z < nx s -> ~ D z -> ways s s1 z).
  { intros s1 A B. destruct (ways_same s s1 A B) as [H1 H2]. split; auto. exists (fun _ => False). split; [tauto|]. split; [tauto|]. split; [tauto|auto]. }
  assert (FRESH : forall s1 n, shp n = shp (mem s (root s)) -> (forall a, mem s1 a = upd (mem s) (nx s) n a) -> nx s1 = S (nx s) ->
     hdrs s s1 /\ exists D : nat -> Prop, (forall z, D z -> forall j u, j <> i -> nth_error (ths s) j = Some u -> ~ In z (locks u)) /\ (forall z, D z -> ~ In z (mine t)) /\ (forall z, D z -> fz s z -> only s s1 z) /\
       forall z, z < nx s -> ~ D z -> ways s s1 z).
  { intros s1 n A B C. split; [eapply ways_fresh; eauto|]. exists (fun _ => False). split; [tauto|]. split; [tauto|]. split; [tauto|]. intros z Lz _. eapply ways_fresh; eauto. }
  assert (SPL : forall s1 e l0 q r cs ns l', e < nx s -> pvs (mem s e) = l0 ++ q :: r -> ht (mem s e) <> 0 -> e <> ch q ->
     pieces (add_all l' (mem s (ch q))) cs = Some ns ->
     (forall a, shp (mem s1 a) = shp (upd (store (mem s) (nx s) ns) e (Nd (ht (mem s e)) (l0 ++ heads (nx s) ns ++ r) (ub (mem s e))) a)) ->
     nx s1 = nx s + length ns -> can_get s i (ch q) = true -> ~ In (ch q) (mine t) ->
     hdrs s s1 /\ exists D : nat -> Prop, (forall z, D z -> forall j u, j <> i -> nth_error (ths s) j = Some u -> ~ In z (locks u)) /\ (forall z, D z -> ~ In z (mine t)) /\ (forall z, D z -> fz s z -> only s s1 z) /\
       forall z, z < nx s -> ~ D z -> ways s s1 z).
  { intros s1 e l0 q r cs ns l' A1 A2 A3 A4 A5 A6 A7 A8 A9. split; [eapply (ways_splice s s1 e l0 q r cs ns l' e); eauto|].
    exists (fun z => z = ch q). split; [intros z -> j u Z Hj; exact (nobody_spec locks _ _ i A8 j u Z Hj)|]. split; [intros z ->; auto|].
    split; [intros z Dz Fz; eapply (only_splice s s1 e l0 q r cs ns l' z); eauto; apply Fz|].
    intros z Lz Z. eapply (ways_splice s s1 e l0 q r cs ns l' z); eauto. }
  assert (PG : forall a, In a (pages t ++ priv t) -> a < nx s) by (intros a Ha; eapply (v_pg _ _ _ _ V); eauto).
  unfold step in E. rewrite Hi in E. destruct c as [c|x].
  - destruct t; try discriminate. destruct (start s c) as [[s1 t1]|] eqn:Es; [|discriminate]. injection E as <- <-.
    destruct (start_mem _ _ _ _ Es) as (A & B & _). apply SM; cbn; [intros; congruence|lia].
  - destruct (go s i t x) as [[[s1 t1] l1]|] eqn:Eg; [|discriminate]. injection E as <- <-.
    unfold go, same_st in Eg. destruct t; try (destruct x; discriminate); destruct x; try discriminate;
    repeat match type of Eg with
    | (if ?b then _ else _) = _ => destruct b eqn:?
    | match ?x with Some _ => _ | None => _ end = _ => destruct x eqn:?
    end; try discriminate; injection Eg as <- <- <-.
    all: try (apply SM; cbn; [reflexivity|lia]; fail).
    + (* P1 *) eapply FRESH; cbn; eauto.
    + (* P3, down *) pose proof (v_pc _ _ _ _ V _ _ Hi) as PC. cbn in PC. destruct PC as (_ & _ & _ & (I & _)).
      pose proof (mine_ef _ _ _ _ _ _ e V Hi ltac:(cbn; auto) eq_refl) as Ee. assert (Le : e < nx s) by (apply PG; cbn; auto).
      match goal with H : (_ <? _) = true |- _ => apply Nat.ltb_lt in H end. assert (Z : ht (mem s e) <> 0) by lia.
      destruct (wfn_slot _ _ _ _ _ (v_wf _ _ _ _ V e Le) I) as (l0 & p' & r & E1 & E2 & E3 & E4 & E5).
      rewrite <- Ee in E1, E3, E4, E5. replace p' with p in * by congruence. destruct (v_wf _ _ _ _ V e Le) as (_ & _ & CH). rewrite <- Ee in CH.
      rewrite E1 in CH. destruct (slot_here _ _ _ _ _ _ CH E2 E3) as [_ Er]. destruct (proj2 E4 Z) as (K1 & K2 & K3 & K4).
      pose proof (shp_hdr _ _ (proj1 (sk_ef _ _ _ _ 0 (ch p) V SH))) as Hd.
      assert (Lo : lo (mem s (ch p)) = Some (pk p)) by (rewrite (hdr_lo _ _ Hd); auto).
      eapply (SPL _ e l0 p r [] [mem s (ch p)] []); eauto; cbn [mem set_ths with_mem nx].
      * intros Q. pose proof (v_ht _ _ _ _ V e). rewrite Q in *. rewrite <- (v_ht _ _ _ _ V) in K2. lia.
      * rewrite add_all_nil. reflexivity.
      * intros a. rewrite E1, Er. cbn [store heads]. unfold lo in Lo. destruct (pvs (mem s (ch p))) as [|w ws]; [discriminate|]. injection Lo as ->.
        destruct (Nat.eq_dec a e) as [->|Za]; [rewrite !upd_same|rewrite !(upd_other _ e) by auto; auto]. unfold shp. cbn. rewrite !map_app. reflexivity.
      * cbn. lia.
      * cbn [mine In]. intros [Q|[]]. rewrite <- Q in K2. rewrite <- !(v_ht _ _ _ _ V) in K2. lia.
    + (* P3, at the node *) apply SM; cbn; [|lia]. intros a. unfold upd. destruct (Nat.eqb_spec a e) as [->|]; auto. apply shp_map. apply rp_key.
    + (* P4 *) apply SM; cbn; [|lia]. intros a. unfold upd. destruct (Nat.eqb_spec a e) as [->|]; auto. rewrite (SH _ _ _ _ _ Hi). apply shp_map. apply rp_key.
    + (* I1 *) apply (FRESH _ (add_all [nb s] (mem s (root s)))); [apply shp_map; auto|reflexivity|reflexivity].
    + (* flush *) match goal with H : _ && _ = true |- _ => apply andb_true_iff in H; destruct H as [H1 H2] end.
      apply isin_In in H1. assert (Lp : p < nx s) by (apply PG; cbn; auto).
      match goal with H : flush _ _ _ _ = Some _ |- _ => rename H into Ef end. unfold flush in Ef.
      destruct (nth_error (pvs (mem s p)) i0) as [q|] eqn:Hq; [|discriminate]. destruct (Nat.eqb_spec (ht (mem s p)) 0) as [|Z]; [discriminate|].
      destruct (pieces (add_all (bs q) (mem s (ch q))) cs) as [ns|] eqn:Ep; [|discriminate]. injection Ef as <-.
      eapply (SPL _ p _ q _ cs ns (bs q)); eauto; cbn [mem set_ths with_mem nx]; eauto.
      * apply nth_split_at. auto.
      * intros Q. destruct (W 0 p Lp) as (_ & _ & CH).
        assert (Iq : In (setbs q (mark 0 p)) (pvs (skel 0 (mem s) p))).
        { apply (in_map (fun y => setbs y (mark 0 p))). eapply nth_error_In; eauto. }
        destruct (chain_in _ _ _ _ CH Iq) as (u & _ & K).
        specialize (K Z). cbn [setbs ch] in K. rewrite <- Q in K. cbn [skel mk ht] in K. lia.
    + (* split of the root *) match goal with H : grow _ _ _ = Some _ |- _ => rename H into Ef end.
      destruct (grow_mem _ _ _ _ Ef) as (A & _ & B). split; [split; [cbn; lia|intros b Hb; cbn; rewrite B; auto]|].
      unfold grow in Ef. destruct (pieces (mem s a) cs) as [ns|] eqn:Ep; [|discriminate]. injection Ef as <-.
      pose proof (v_pc _ _ _ _ V _ _ Hi) as PC. cbn in PC. assert (Ha : In a own) by tauto.
      exists (fun z => z = a). split.
      * intros z -> j u Z Hj Q. destruct (v_priv _ _ _ _ V i _ Hi) as [_ P]. eapply (P j u a); eauto. unfold pages. rewrite !in_app_iff. auto.
      * split; [cbn; tauto|]. split; [intros z -> [_ Fz]; destruct (Fz i _ Hi) as [_ Q]; cbn in Q; tauto|]. intros z Lz Z. eapply (ways_grow s a cs ns z); eauto.
Qed.

Lemma step_ths : forall s i c s' l t, nth_error (ths s) i = Some t -> step s i c = Some (s', l) -> exists t1, ths s' = put (ths s) i t1.
Proof.
  intros s i c s' l t Hi E. unfold step in E. rewrite Hi in E. destruct c as [c|x].
  - destruct t; try discriminate. destruct (start s c) as [[s1 t1]|]; [|discriminate]. injection E as <- <-. exists t1. auto.
  - destruct (go s i t x) as [[[s1 t1] l1]|]; [|discriminate]. injection E as <- <-. exists t1. auto.
Qed.

(** ** Runs, with the roots there have been since each thread switched the root last. *)
Definition turn (s s' : state) (i : nat) (N : nat -> list nat) : nat -> list nat :=
  if root s' =? root s then N else fun j => if j =? i then [root s'] else root s' :: N j.
Inductive hruns (n : nat) : list event -> state -> (nat -> nat) -> (nat -> list nat) -> Prop :=
| h_stop : hruns n [] (init n) (fun _ => 0) (fun _ => [])
| h_more : forall tr s R N i c s' l, hruns n tr s R N -> step s i c = Some (s', l) ->
    hruns n (tr ++ seen i l) s' (took s i R) (turn s s' i N).
Lemma hruns_gruns : forall n tr s R N, hruns n tr s R N -> gruns n tr s R.
Proof. induction 1; [constructor|econstructor; eauto]. Qed.
Lemma runs_hruns : forall n tr s, runs (init n) tr s -> exists R N, hruns n tr s R N.
Proof.
  intros n tr s R. remember (init n) as s0 eqn:E0. induction R as [s1|s1 tr s' i c s'' l R IH St].
  - subst s1. eexists. eexists. constructor.
  - destruct (IH E0) as (G & N & HG). eexists. eexists. econstructor; eauto.
Qed.

Definition cur (t : pc) : option nat :=
  match t with P3 _ e _ | P4 _ e _ _ | K0 _ e _ | K1 _ e _ _ | K2 _ e _ => Some e | _ => None end.
Definition fut (t : pc) : option nat := match t with I2 _ a _ | P2 _ a _ => Some a | _ => None end.
(** Roots of now, before (since [i] switched) and to be. *)
Definition tree (s : state) (N : nat -> list nat) (i r : nat) : Prop :=
  In r (N i) \/ exists j u, nth_error (ths s) j = Some u /\ fut u = Some r.
Definition mirror (s : state) (r : nat) (t : pc) : Prop :=
  match t with
  | P2 o a old => shp (mem s a) = shp (mem s old)
  | P3 o e _ => exists x, reach s r (sk o) x /\ shp (mem s e) = shp (mem s x)
  | P4 o e _ _ | K0 o e _ | K1 o e _ _ | K2 o e _ =>
      exists x, reach s r (sk o) x /\ hdr (mem s e) = hdr (mem s x) /\ ht (mem s e) = hh o
  | _ => True
  end.
Record wv (s : state) (R : nat -> nat) (N : nat -> list nat) : Prop := Wv {
  w_mir : forall i t, nth_error (ths s) i = Some t -> mirror s (R i) t;
  w_in : forall i t e, nth_error (ths s) i = Some t -> cur t = Some e -> In (root s) (N i);
  w_tr : forall i t e r, nth_error (ths s) i = Some t -> cur t = Some e -> tree s N i r ->
    r < nx s /\ whole (mem s r) /\ forall k, inr (mem s e) k -> leads (mem s) r k e }.

Lemma cur_mine : forall t e, cur t = Some e -> In e (mine t).
Proof. intros t e H. destruct t; try discriminate; injection H as ->; cbn; auto. Qed.
Lemma fut_claim : forall t a, fut t = Some a -> root_claim t = true.
Proof. destruct t; cbn; intros; try discriminate; auto. Qed.

(** A future root that appears. *)
Lemma new_tree : forall s ef m f i c s' l t t1 r, inv s ef m f -> shinv s -> nth_error (ths s) i = Some t -> step s i c = Some (s', l) ->
  nth_error (ths s') i = Some t1 -> fut t1 = Some r ->
  fut t = Some r \/
  (r = nx s /\ can_get s i (root s) = true /\ shp (mem s' r) = shp (mem s (root s)) /\ mem s' (root s) = mem s (root s)) \/
  (exists a, fut t = Some a /\ (forall j u, j <> i -> nth_error (ths s) j = Some u -> ~ In a (locks u)) /\
     forall z, z < nx s -> z <> a -> forall k, inr (mem s a) k -> lk (skel z (mem s')) B1 r k = lk (skel z (mem s)) B1 a k).
Proof.
  intros s ef m f i c s' l t t1 r V SH Hi E H1 F. pose proof (sk_good _ _ _ _ V SH) as W. destruct (v_root _ _ _ _ V) as (Lr & _).
  unfold step in E. rewrite Hi in E. destruct c as [c|x].
  - destruct t; try discriminate. destruct (start s c) as [[s1 t2]|] eqn:Es; [|discriminate]. injection E as <- <-.
    cbn in H1. rewrite (nth_put _ _ _ _ _ Hi), Nat.eqb_refl in H1. injection H1 as ->.
    destruct (start_mem _ _ _ _ Es) as (_ & _ & _ & _ & _ & _ & A). destruct t1; try contradiction; discriminate.
  - destruct (go s i t x) as [[[s1 t2] l1]|] eqn:Eg; [|discriminate]. injection E as <- <-.
    cbn in H1. rewrite (nth_put _ _ _ _ _ Hi), Nat.eqb_refl in H1. injection H1 as ->.
    unfold go, same_st in Eg. destruct t; try (destruct x; discriminate); destruct x; try discriminate;
    repeat match type of Eg with
    | (if ?b then _ else _) = _ => destruct b eqn:?
    | match ?x with Some _ => _ | None => _ end = _ => destruct x eqn:?
    end; try discriminate; injection Eg as <- <- <-; try discriminate; cbn [fut] in F; injection F as <-; cbn [mem set_ths with_mem].
    + right; left. rewrite upd_same, upd_other by lia. auto.
    + right; left. rewrite upd_same, upd_other by lia. repeat split; auto. apply shp_map. auto.
    + left. auto.
    + right; right. exists a. split; auto. pose proof (v_pc _ _ _ _ V _ _ Hi) as PC. cbn in PC. assert (Ha : In a own) by tauto. split.
      * intros j u Z Hj Q. destruct (v_priv _ _ _ _ V i _ Hi) as [_ P]. eapply (P j u a); eauto. unfold pages. rewrite !in_app_iff. auto.
      * match goal with H : grow _ _ _ = Some _ |- _ => rename H into Ef end.
        unfold grow in Ef. destruct (pieces (mem s a) cs) as [ns|] eqn:Ep; [|discriminate]. injection Ef as <-. cbn [nx with_mem pred].
        intros z Lz Z k I. eapply (ways_grow s a cs ns z); eauto. eapply (v_pg _ _ _ _ V i); [exact Hi|]. cbn. auto.
Qed.

Lemma root_fut : forall s i c s' l t, nth_error (ths s) i = Some t -> step s i c = Some (s', l) -> root s' = root s \/ fut t = Some (root s').
Proof.
  intros s i c s' l t Hi E. unfold step in E. rewrite Hi in E. destruct c as [c|x].
  - destruct t; try discriminate. destruct (start s c) as [[s1 t2]|] eqn:Es; [|discriminate]. injection E as <- <-.
    destruct (start_mem _ _ _ _ Es) as (_ & _ & A & _). auto.
  - destruct (go s i t x) as [[[s1 t2] l1]|] eqn:Eg; [|discriminate]. injection E as <- <-. cbn [root set_ths].
    unfold go, same_st in Eg. destruct t; try (destruct x; discriminate); destruct x; try discriminate;
    repeat match type of Eg with
    | (if ?b then _ else _) = _ => destruct b eqn:?
    | match ?x with Some _ => _ | None => _ end = _ => destruct x eqn:?
    end; try discriminate; injection Eg as <- <- <-; auto.
    + match goal with H : flush _ _ _ _ = Some _ |- _ => destruct (flush_mem _ _ _ _ _ H) as (_ & A & _) end. auto.
    + match goal with H : grow _ _ _ = Some _ |- _ => destruct (grow_mem _ _ _ _ H) as (_ & A & _) end. auto.
Qed.

Definition rq (t : pc) : option req := match t with P4 o _ _ _ | K0 o _ _ | K1 o _ _ _ | K2 o _ _ => Some o | _ => None end.
Lemma own_cur : forall s i c s' l t t1 e1, nth_error (ths s) i = Some t -> step s i c = Some (s', l) ->
  nth_error (ths s') i = Some t1 -> cur t1 = Some e1 ->
  (exists o old, t = P2 o e1 old /\ t1 = P3 o e1 old /\ root s' = e1 /\ mem s' = mem s) \/
  (exists o e old p, t = P3 o e old /\ t1 = P3 o (nx s) old /\ e1 = nx s /\ root s' = root s /\ slot (sk o) (pvs (mem s e)) = Some p /\
     hh o < ht (mem s e) /\ can_get s i (ch p) = true /\ (e < nx s -> mem s' (nx s) = mem s (ch p)) /\
     mem s' e = Nd (ht (mem s e)) (reslot (sk o) (pvs (mem s e)) (nx s)) (ub (mem s e))) \/
  (cur t = Some e1 /\ root s' = root s /\
    ((exists o old n, t = P3 o e1 old /\ t1 = P4 o e1 old n /\ ht (mem s e1) = hh o) \/ (exists o, rq t = Some o /\ rq t1 = Some o))).
Proof.
  intros s i c s' l t t1 e1 Hi E H1 F. unfold step in E. rewrite Hi in E. destruct c as [c|x].
  - destruct t; try discriminate. destruct (start s c) as [[s1 t2]|] eqn:Es; [|discriminate]. injection E as <- <-.
    cbn in H1. rewrite (nth_put _ _ _ _ _ Hi), Nat.eqb_refl in H1. injection H1 as ->.
    destruct (start_mem _ _ _ _ Es) as (_ & _ & _ & _ & _ & _ & A). destruct t1; try contradiction; discriminate.
  - destruct (go s i t x) as [[[s1 t2] l1]|] eqn:Eg; [|discriminate]. injection E as <- <-.
    cbn in H1. rewrite (nth_put _ _ _ _ _ Hi), Nat.eqb_refl in H1. injection H1 as ->.
    unfold go, same_st in Eg. destruct t; try (destruct x; discriminate); destruct x; try discriminate;
    repeat match type of Eg with
    | (if ?b then _ else _) = _ => destruct b eqn:?
    | match ?x with Some _ => _ | None => _ end = _ => destruct x eqn:?
    end; try discriminate; injection Eg as <- <- <-; try discriminate; cbn [cur] in F; injection F as <-; cbn [mem root set_ths with_mem with_root freed].
    + left. eauto 8.
    + right; left. exists o, e, old, p. apply Nat.ltb_lt in Heqb. repeat split; auto; [|rewrite upd_same; auto].
      intros L. rewrite upd_other by lia. apply upd_same.
    + right; right. repeat split; auto. left. exists o, old, (mem s e). split; [reflexivity|]. split; [reflexivity|]. symmetry. apply Nat.eqb_eq. auto.
    + right; right. split; [reflexivity|]. split; [reflexivity|]. right. exists o. split; reflexivity.
    + right; right. split; [reflexivity|]. split; [reflexivity|]. right. exists o. split; reflexivity.
    + right; right. split; [reflexivity|]. split; [reflexivity|]. right. exists o. split; reflexivity.
    + right; right. split; [reflexivity|]. split; [reflexivity|]. right. exists o. split; reflexivity.
Qed.

Lemma slot_mid : forall k l p r, (forall q, In q l -> pk q <= k) -> pk p <= k -> slot k r = None -> slot k (l ++ p :: r) = Some p.
Proof.
  intros k l p r Hl Hp Hr. induction l as [|q l IH]; cbn [app slot].
  - rewrite (proj2 (Nat.ltb_ge _ _) Hp), Hr. auto.
  - rewrite (proj2 (Nat.ltb_ge _ _) (Hl q ltac:(left; auto))), IH; auto. intros x Hx. apply Hl. right. auto.
Qed.
Lemma reslot_slot : forall g nx nb n k0 p c k, wfn g nx nb n -> inr n k0 -> slot k0 (pvs n) = Some p -> ht n <> 0 -> inr (g (ch p)) k ->
  slot k (reslot k0 (pvs n) c) = Some (setch p c) /\ inr n k.
Proof.
  intros g nx nb n k0 p c k W I Sp Z Ik. destruct (kid_range _ _ _ _ _ _ W (slot_in _ _ _ Sp) Z Ik) as [Sk In]. split; auto.
  destruct (wfn_slot _ _ _ _ _ W I) as (l & p' & r & E1 & E2 & E3 & E4 & E5). rewrite Sp in E5. injection E5 as <-.
  destruct W as (_ & _ & C). rewrite E1 in C. destruct (slot_here _ _ _ _ _ _ C E2 E3) as [_ Er]. rewrite E1, Er.
  destruct (proj2 E4 Z) as (_ & _ & K3 & K4). destruct Ik as [(l0 & L1 & L2) U]. rewrite L1 in K3. injection K3 as ->. rewrite K4 in U.
  apply chain_app in C. destruct C as [C1 C2]. cbn [chain] in C2. destruct C2 as (_ & _ & C4). cbn [nextk] in C1.
  apply slot_mid; [|auto|eapply slot_none; eauto].
  intros q Hq. pose proof (chain_before _ _ _ q C1 Hq) as B. cbn [below] in B. apply Nat.ltb_lt in B. lia.
Qed.

Lemma mirror_keep : forall s s' r t t1, (forall r k x, reach s r k x -> reach s' r k x) -> (forall x, fz s x -> mem s' x = mem s x) ->
  (forall e, In e (mine t) -> hdr (mem s' e) = hdr (mem s e)) -> mirror s r t -> (exists o, rq t = Some o /\ rq t1 = Some o) -> cur t = cur t1 -> mirror s' r t1.
Proof.
  intros s s' r t t1 RE FZ HH M (o & Q1 & Q2) C.
  assert (X : exists e, cur t = Some e /\ exists x, reach s r (sk o) x /\ hdr (mem s e) = hdr (mem s x) /\ ht (mem s e) = hh o).
  { destruct t; try discriminate; injection Q1 as ->; cbn in M |- *; eauto. }
  destruct X as (e & Ce & x & X1 & X2 & X3).
  assert (Y : exists x, reach s' r (sk o) x /\ hdr (mem s' e) = hdr (mem s' x) /\ ht (mem s' e) = hh o).
  { exists x. pose proof (HH e (cur_mine _ _ Ce)) as E. rewrite E, (hdr_ht _ _ E). split; auto. rewrite (FZ x (reach_fz _ _ _ _ X1)). auto. }
  rewrite Ce in C. destruct t1; try discriminate; injection Q2 as ->; injection C as ->; exact Y.
Qed.

Lemma p2_new : forall s i c s' l t o a old, nth_error (ths s) i = Some t -> step s i c = Some (s', l) -> root s < nx s ->
  nth_error (ths s') i = Some (P2 o a old) -> mem s' a = mem s (root s) /\ mem s' old = mem s (root s).
Proof.
  intros s i c s' l t o a old Hi E Lr H1. unfold step in E. rewrite Hi in E. destruct c as [c|x].
  - destruct t; try discriminate. destruct (start s c) as [[s1 t2]|] eqn:Es; [|discriminate]. injection E as <- <-.
    cbn in H1. rewrite (nth_put _ _ _ _ _ Hi), Nat.eqb_refl in H1. injection H1 as ->.
    destruct (start_mem _ _ _ _ Es) as (_ & _ & _ & _ & _ & _ & A). contradiction.
  - destruct (go s i t x) as [[[s1 t2] l1]|] eqn:Eg; [|discriminate]. injection E as <- <-.
    cbn in H1. rewrite (nth_put _ _ _ _ _ Hi), Nat.eqb_refl in H1. injection H1 as ->.
    unfold go, same_st in Eg. destruct t; try (destruct x; discriminate); destruct x; try discriminate;
    repeat match type of Eg with
    | (if ?b then _ else _) = _ => destruct b eqn:?
    | match ?x with Some _ => _ | None => _ end = _ => destruct x eqn:?
    end; try discriminate; injection Eg; intros; subst; cbn [mem set_ths with_mem]. rewrite upd_same, upd_other by lia. auto.
Qed.

Lemma step_wv : forall s ef m f T R N q c s' l ef' m' f', inv s ef m f -> tinv s T -> shinv s -> pd s R -> wv s R N ->
  step s q c = Some (s', l) -> inv s' ef' m' f' -> shinv s' -> wv s' (took s q R) (turn s s' q N).
Proof.
  intros s ef m f T R N q c s' l ef' m' f' V TI SH PD [WM WI WT] E V' SH'.
  destruct (nth_error (ths s) q) as [t|] eqn:Hq; [|unfold step in E; rewrite Hq in E; discriminate].
  destruct (step_sk _ _ _ _ _ _ _ _ _ V SH Hq E) as ([LN HD] & D & D1 & D2 & _ & WA).
  pose proof (step_fz _ _ _ _ _ E) as FZ. pose proof (reach_step _ _ _ _ _ E) as RE.
  destruct (own_pd _ _ _ _ _ R _ _ _ _ _ V TI Hq E (pd_own _ _ PD q t Hq)) as (t1 & TH & _ & _).
  assert (H1 : nth_error (ths s') q = Some t1) by (rewrite TH, (nth_put _ _ _ _ _ Hq), Nat.eqb_refl; auto).
  assert (HO : forall j, j <> q -> nth_error (ths s') j = nth_error (ths s) j).
  { intros j Z. rewrite TH, (nth_put _ _ _ _ _ Hq). apply Nat.eqb_neq in Z. rewrite Z. auto. }
  pose proof (sk_good _ _ _ _ V SH) as W. pose proof (sk_good _ _ _ _ V' SH') as W'.
  assert (TO : forall j, j <> q -> took s q R j = R j).
  { intros j Z. unfold took. destruct (nth_error (ths s) q) as [[]|]; auto; apply upd_other; auto. }
  assert (TK : took s q R q = match t with G1 _ | P1 _ => root s | _ => R q end).
  { unfold took. rewrite Hq. destruct t; auto; apply upd_same. }
  (* ways to a page that is not copied *)
  assert (LE : forall z r k, z < nx s -> ~ D z -> r < nx s -> inr (mem s r) k -> leads (mem s) r k z -> leads (mem s') r k z).
  { intros z r k Lz Dz Lr I L. apply (leads_lk _ _ _ W' z _ r k eq_refl); [lia|eapply inr_hdr; [symmetry; apply HD; auto|auto]|].
    rewrite (WA z Lz Dz r k Lr I). apply (leads_lk _ _ _ W z _ r k eq_refl); auto. }
  assert (FUT : forall j u r, nth_error (ths s') j = Some u -> fut u = Some r -> r < nx s' /\ whole (mem s' r)).
  { intros j u r Hj Fu. split.
    - eapply (v_pg _ _ _ _ V'); [exact Hj|]. pose proof (v_pc _ _ _ _ V' _ _ Hj) as PC. destruct u; try discriminate; injection Fu as ->; cbn in PC |- *; [auto|tauto].
    - eapply whole_hdr; [symmetry; apply shp_hdr; apply (sk_ef _ _ _ _ 0 r V' SH')|].
      pose proof (v_pc _ _ _ _ V' _ _ Hj) as PC. destruct u; try discriminate; injection Fu as ->; cbn in PC; tauto. }
  assert (ROOT : root s' < nx s' /\ whole (mem s' (root s'))).
  { destruct (v_root _ _ _ _ V') as (A & B & _). split; auto. eapply whole_hdr; [symmetry; apply shp_hdr; apply (sk_ef _ _ _ _ 0 _ V' SH')|auto]. }
  (* old trees, for a page [e] that stays *)
  assert (OLD : forall e r, e < nx s -> ~ D e -> r < nx s /\ whole (mem s r) /\ (forall k, inr (mem s e) k -> leads (mem s) r k e) ->
     r < nx s' /\ whole (mem s' r) /\ (forall k, inr (mem s' e) k -> leads (mem s') r k e)).
  { intros e r Le De (A & B & C). split; [lia|]. split; [eapply whole_hdr; [symmetry; apply HD; auto|auto]|].
    intros k I. apply LE; auto; [apply whole_inr; auto|]. apply C. eapply inr_hdr; [apply HD; auto|auto]. }
  assert (PG : forall i u e, nth_error (ths s) i = Some u -> In e (mine u) -> e < nx s).
  { intros i u e Hi He. eapply (v_pg _ _ _ _ V); [exact Hi|]. unfold pages. rewrite !in_app_iff. apply mine_locks in He. auto. }
  constructor.
  - (* mirrors *) intros i u Hi. destruct (Nat.eq_dec i q) as [->|Z].
    + rewrite H1 in Hi. injection Hi as <-. destruct (cur t1) as [e1|] eqn:C1.
      * destruct (own_cur _ _ _ _ _ _ _ _ Hq E H1 C1) as [(o & old & -> & -> & RT & MM)|[(o & e & old & p & -> & -> & -> & RT & Sp & Hh & G & M1 & M2)|(C & RT & [(o & old & n & -> & -> & Hh)|X])]].
        -- rewrite TK. destruct (pd_own _ _ PD q _ Hq) as [P1 P2]. pose proof (WM q _ Hq) as M. cbn in M. cbn [mirror]. exists old. split; [apply RE; rewrite P1; constructor; auto|].
           rewrite MM. exact M.
        -- rewrite TK. destruct (WM q _ Hq) as (x & X1 & X2). cbn [mirror]. pose proof (reach_fz _ _ _ _ X1) as Fx.
           destruct (shp_slot _ _ _ _ X2 Sp) as (p' & S1 & S2 & S3).
           assert (Hx : ht (mem s x) = ht (mem s e)) by (symmetry; apply (hdr_ht _ _ (shp_hdr _ _ X2))).
           assert (Le : e < nx s) by (eapply PG; [exact Hq|cbn; auto]).
           assert (Ik : In (ch p) (kids (mem s e))) by (eapply slot_kid; eauto; lia).
           assert (Zp : ch p <> e) by (intros Q; pose proof (t_kid _ _ TI e (ch p) Le Ik); rewrite Q in *; lia).
           assert (Fc : fz s (ch p)).
           { rewrite <- S3. eapply (kid_got s ef m f T q _ x); eauto; [lia|]. rewrite S3. cbn. intros [Q|[]]. congruence. }
           exists (ch p). split; [apply RE; rewrite <- S3; eapply re_down; eauto; [lia|rewrite S3; auto]|].
           rewrite (M1 Le), (proj2 (FZ _ Fc)). auto.
        -- rewrite TK. destruct (WM q _ Hq) as (x & X1 & X2). cbn [mirror]. exists x. split; auto.
           assert (Le : e1 < nx s) by (eapply PG; [exact Hq|cbn; auto]). rewrite (HD e1 Le), (hdr_ht _ _ (HD e1 Le)), (proj2 (FZ _ (reach_fz _ _ _ _ X1))).
           split; [apply shp_hdr; auto|auto].
        -- assert (TR : took s q R q = R q) by (rewrite TK; destruct t; auto; discriminate). rewrite TR.
           refine (mirror_keep s s' (R q) t t1 RE (fun x Hx => proj2 (FZ x Hx)) _ (WM q t Hq) X _); [intros e He; apply HD; eapply PG; eauto|congruence].
      * destruct t1; try discriminate; try exact Logic.I. cbn [mirror].
        destruct (p2_new _ _ _ _ _ _ _ _ _ Hq E (proj1 (v_root _ _ _ _ V)) H1) as [A B]. rewrite A, B. auto.
    + rewrite HO in Hi by auto. rewrite (TO i Z). pose proof (WM i u Hi) as M. pose proof (pd_own _ _ PD i u Hi) as P.
      assert (HM : forall e, In e (mine u) -> mem s' e = mem s e) by (intros e He; eapply (held s ef m f i u e q); eauto).
      assert (MK : (exists o, rq u = Some o) -> mirror s' (R i) u).
      { intros (o & Ro). refine (mirror_keep s s' (R i) u u RE (fun x Hx => proj2 (FZ x Hx)) _ M _ eq_refl); [intros e He; rewrite HM; auto|eauto]. }
      destruct u; try exact Logic.I; try (apply MK; cbn; eauto; fail); cbn [mirror] in M |- *.
      * rewrite (HM a) by (cbn; auto). cbn in P. rewrite (proj2 (FZ old ltac:(tauto))). exact M.
      * destruct M as (x & X1 & X2). exists x. rewrite (HM e) by (cbn; auto). rewrite (proj2 (FZ x (reach_fz _ _ _ _ X1))). auto.
  - (* the root of now *) intros i u e Hi C. unfold turn. destruct (Nat.eqb_spec (root s') (root s)) as [RT|RT].
    + rewrite RT. destruct (Nat.eq_dec i q) as [->|Z]; [|rewrite HO in Hi by auto; eapply WI; eauto].
      rewrite H1 in Hi. injection Hi as <-.
      destruct (own_cur _ _ _ _ _ _ _ _ Hq E H1 C) as [(o & old & -> & -> & R1 & MM)|[(o & e0 & old & p & -> & _)|(C0 & _)]].
      * exfalso. pose proof (t_pc _ _ TI _ _ Hq) as TP. cbn in TP. rewrite <- R1, RT in TP. lia.
      * eapply WI; eauto. reflexivity.
      * eapply WI; eauto.
    + destruct (i =? q); left; auto.
  - (* trees *) intros i u e r Hi C TR. destruct (Nat.eq_dec i q) as [->|Z].
    + rewrite H1 in Hi. injection Hi as <-.
      assert (TQ : root s' = root s -> tree s N q r).
      { intros RT. destruct TR as [IN|(j & v & Hj & Fv)].
        - left. unfold turn in IN. rewrite RT, Nat.eqb_refl in IN. auto.
        - right. destruct (Nat.eq_dec j q) as [->|Zj]; [|exists j, v; rewrite <- HO; auto].
          rewrite H1 in Hj. injection Hj as <-. destruct t1; discriminate. }
      destruct (own_cur _ _ _ _ _ _ _ _ Hq E H1 C) as [(o & old & -> & -> & R1 & MM)|[(o & e0 & old & p & -> & -> & -> & RT & Sp & Hh & G & M1 & M2)|(C0 & RT & _)]].
      * assert (Q : r = e).
        { destruct TR as [IN|(j & v & Hj & Fv)].
          - unfold turn in IN. destruct (Nat.eqb_spec (root s') (root s)) as [RT|RT].
            + exfalso. pose proof (t_pc _ _ TI _ _ Hq) as TP. cbn in TP. rewrite <- R1, RT in TP. lia.
            + rewrite Nat.eqb_refl in IN. destruct IN as [<-|[]]. auto.
          - exfalso. destruct (Nat.eq_dec j q) as [->|Zj]; [rewrite H1 in Hj; injection Hj as <-; discriminate|].
            rewrite HO in Hj by auto. exact (v_claim _ _ _ _ V _ _ _ _ Zj Hj Hq (fut_claim _ _ Fv) eq_refl). }
        subst r. rewrite <- R1 at 1 2. destruct ROOT as [A B]. split; auto. split; auto. intros. constructor.
      * specialize (TQ RT). assert (Le : e0 < nx s) by (eapply PG; [exact Hq|cbn; auto]).
        assert (De : ~ D e0) by (intros Q; apply (D2 _ Q); cbn; auto).
        destruct (OLD e0 r Le De (WT q _ e0 r Hq eq_refl TQ)) as (A & B & L). split; auto. split; auto. intros k I. rewrite (M1 Le) in I.
        pose proof (v_pc _ _ _ _ V _ _ Hq) as PC. cbn in PC. destruct PC as (_ & _ & _ & (I0 & _)).
        pose proof (mine_ef _ _ _ _ _ _ e0 V Hq ltac:(cbn; auto) eq_refl) as Ee. pose proof (v_wf _ _ _ _ V e0 Le) as We. rewrite <- Ee in We, I0.
        destruct (reslot_slot _ _ _ _ _ _ (nx s) k We I0 Sp ltac:(lia)) as [Sk Ik].
        { eapply inr_hdr; [apply shp_hdr; apply (sk_ef _ _ _ _ 0 _ V SH)|auto]. }
        change (nx s) with (ch (setch p (nx s))). eapply l_down; [apply L; eapply inr_hdr; [symmetry; apply HD; auto|exact Ik]| |]; rewrite M2; cbn [pvs ht]; [exact Sk|lia].
      * apply OLD; [eapply PG; [exact Hq|apply cur_mine; auto]|intros Q; apply (D2 _ Q), cur_mine; auto|]. eapply WT; eauto.
    + rewrite HO in Hi by auto. pose proof (cur_mine _ _ C) as He. pose proof (PG _ _ _ Hi He) as Le.
      assert (De : ~ D e) by (intros Q; apply (D1 _ Q i u Z Hi), mine_locks; auto).
      destruct TR as [IN|(j & v & Hj & Fv)].
      * apply OLD; auto. unfold turn in IN. destruct (Nat.eqb_spec (root s') (root s)) as [RT|RT]; [eapply WT; eauto; left; auto|].
        rewrite (proj2 (Nat.eqb_neq _ _) Z) in IN. destruct IN as [<-|IN]; [|eapply WT; eauto; left; auto].
        destruct (root_fut _ _ _ _ _ _ Hq E) as [Q|Q]; [congruence|]. eapply WT; eauto. right. exists q, t. auto.
      * destruct (Nat.eq_dec j q) as [->|Zj]; [|apply OLD; auto; eapply WT; eauto; right; exists j, v; rewrite <- HO; auto].
        rewrite H1 in Hj. injection Hj as <-.
        destruct (new_tree _ _ _ _ _ _ _ _ _ _ r V SH Hq E H1 Fv) as [Q|[(-> & G & S1 & S2)|(a & Q & NL & LL)]].
        -- apply OLD; auto. eapply WT; eauto. right. exists q, t. auto.
        -- destruct (FUT _ _ _ H1 Fv) as [A B]. split; auto. split; auto. intros k I.
           destruct (WT i u e (root s) Hi C (or_introl (WI _ _ _ Hi C))) as (Lr & Wr & L).
           assert (L2 : leads (mem s') (root s) k e).
           { apply LE; auto; [apply whole_inr; auto|]. apply L. eapply inr_hdr; [apply HD; auto|auto]. }
           destruct (leads_first _ _ _ _ L2) as [->|(p & P1 & P2 & P3)].
           ++ exfalso. exact (nobody_spec locks _ _ q G i u Z Hi (mine_locks _ _ He)).
           ++ rewrite <- S2 in S1. destruct (shp_slot _ _ _ _ (eq_sym S1) P1) as (p' & Q1 & _ & Q3). rewrite <- Q3 in P3.
              eapply leads_up; [exact Q1| |exact P3]. rewrite (hdr_ht _ _ (shp_hdr _ _ S1)). auto.
        -- destruct (FUT _ _ _ H1 Fv) as [A B]. split; auto. split; auto. intros k I.
           destruct (WT i u e a Hi C (or_intror (ex_intro _ q (ex_intro _ t (conj Hq Q))))) as (La & Wa & L).
           assert (Ze : e <> a) by (intros ->; apply (NL i u Z Hi), mine_locks; auto).
           apply (leads_lk _ _ _ W' e _ r k eq_refl); auto; [apply whole_inr; auto|]. rewrite (LL e Le Ze k (whole_inr _ _ Wa)).
           apply (leads_lk _ _ _ W e _ a k eq_refl); auto; [apply whole_inr; auto|]. apply L. eapply inr_hdr; [apply HD; auto|auto].
Qed.

Lemma hruns_wv : forall n tr s R N, hruns n tr s R N -> wv s R N.
Proof.
  induction 1 as [|tr s R N i c s' l G IH E].
  - constructor; intros i t; intros; match goal with H : nth_error _ i = Some _ |- _ => apply nth_repeat_some in H end; subst; [exact Logic.I|discriminate|discriminate].
  - pose proof (hruns_gruns _ _ _ _ _ G) as GG. pose proof (gruns_runs _ _ _ _ GG) as RR.
    destruct (runs_tick _ _ _ RR) as (ef & m & f & T & V & TI).
    assert (RR' : runs (init n) (tr ++ seen i l) s') by (econstructor; eauto).
    destruct (runs_tick _ _ _ RR') as (ef' & m' & f' & T' & V' & _).
    eapply step_wv; eauto using runs_sh, gruns_pd.
Qed.

Lemma gives_ht : forall s i c s' l b k o e a, step s i c = Some (s', l) -> fr s b k = false -> fr s' b k = true ->
  nth_error (ths s) i = Some (K2 o e a) -> ht (mem s a) = hh o.
Proof.
  intros s i c s' l b k o e a E F F' Hi. unfold step in E. rewrite Hi in E. destruct c as [c|[x| |]]; try discriminate. cbn [go] in E.
  destruct (hh o <? ht (mem s a)).
  - exfalso. destruct (slot (sk o) (pvs (mem s a))); [destruct (can_get s i (ch p)); [|discriminate]|]; cbn [same_st] in E; injection E as <- <-; cbn in F'; congruence.
  - destruct (Nat.eqb_spec (hh o) (ht (mem s a))); auto. exfalso. cbn [same_st] in E. injection E as <- <-. cbn in F'. congruence.
Qed.

Lemma newer_at : forall n tr s R N i c s' l b k o e a p, hruns n tr s R N -> step s i c = Some (s', l) ->
  fr s b k = false -> fr s' b k = true -> nth_error (ths s) i = Some (K2 o e a) -> slot k (pvs (mem s a)) = Some p ->
  In (root s) (N i) /\ forall r, tree s N i r -> r < nx s /\ whole (mem s r) /\ forall kx, ~ leads (mem s) r kx a.
Proof.
  intros n tr s R N i c s' l b k o e a p H E F F' Hi Sp. pose proof (hruns_gruns _ _ _ _ _ H) as G. pose proof (gruns_runs _ _ _ _ G) as RR.
  pose proof (gives_ht _ _ _ _ _ _ _ _ _ _ E F F' Hi) as Ha.
  destruct (runs_tick _ _ _ RR) as (ef & m & f & T & V & TI). pose proof (gruns_pd _ _ _ _ G) as PD. pose proof (runs_sh _ _ _ RR) as SH.
  destruct (hruns_wv _ _ _ _ _ H) as [WM WI WT]. destruct (pd_own _ _ PD i _ Hi) as (P1 & _). destruct (WM i _ Hi) as (x & X1 & X2 & X3).
  assert (x = a). { eapply (reach_one s ef m f V); [exact X1|exact P1|]. rewrite <- (hdr_ht _ _ X2). congruence. } subst x.
  split; [eapply WI; eauto; reflexivity|].
  intros r TR. destruct (WT i _ e r Hi eq_refl TR) as (Lr & Wr & LE). split; auto. split; auto. intros kx L. pose proof (sk_good _ _ _ _ V SH) as W.
  destruct (leads_ok _ _ _ W _ _ _ Lr (whole_inr _ _ Wr) L) as (_ & Ik & _).
  assert (a = e).
  { eapply (leads_one _ _ _ W r kx); eauto; [apply whole_inr; auto|apply LE; eapply inr_hdr; [symmetry; exact X2|auto]|]. congruence. }
  subst a. destruct (proj2 (reach_fz _ _ _ _ P1) i _ Hi) as [Q _]. apply Q. cbn. auto.
Qed.

(** A step that gives up a branch: the node that had it is on no path from a root that
    there has been since the compaction switched its root in, nor from one to be. *)
Theorem trunk_newer : forall n tr s R N i c s' l b k, hruns n tr s R N -> step s i c = Some (s', l) ->
  fr s b k = false -> fr s' b k = true ->
  exists a p, slot k (pvs (mem s a)) = Some p /\ In b (bs p) /\ reach s (R i) k a /\ In (root s) (N i) /\
    forall r kx, tree s N i r -> ~ leads (mem s) r kx a.
Proof.
  intros n tr s R N i c s' l b k H E F F'. pose proof (hruns_gruns _ _ _ _ _ H) as G.
  destruct (trunk_past _ _ _ _ _ _ _ _ _ _ G E F F') as (o & e & a & p & Hi & Sp & Hb & Ra & NR & P).
  destruct (newer_at _ _ _ _ _ _ _ _ _ _ _ _ _ _ p H E F F' Hi Sp) as (RN & TR). exists a, p. split; auto. split; auto. split; auto. split; auto.
  intros r kx T. apply TR. auto.
Qed.

(** ** From then on. *)
Lemma step_only : forall s ef m f i c s' l z, inv s ef m f -> shinv s -> step s i c = Some (s', l) -> fz s z -> only s s' z.
Proof.
  intros s ef m f i c s' l z V SH E Fz. destruct (nth_error (ths s) i) as [t|] eqn:Hi; [|unfold step in E; rewrite Hi in E; discriminate].
  destruct (step_sk _ _ _ _ _ _ _ _ _ V SH Hi E) as (_ & D & _ & _ & DO & WA).
  intros r k Lr I Q Q0.
  assert (ND : ~ D z) by (intros Dz; exact (DO z Dz Fz r k Lr I Q Q0)).
  apply Q. rewrite (WA z (proj1 Fz) ND r k Lr I). auto.
Qed.

Lemma fut_whole : forall s ef m f j u r, inv s ef m f -> shinv s -> nth_error (ths s) j = Some u -> fut u = Some r -> r < nx s /\ whole (mem s r).
Proof.
  intros s ef m f j u r V SH Hj Fu. split.
  - eapply (v_pg _ _ _ _ V); [exact Hj|]. pose proof (v_pc _ _ _ _ V _ _ Hj) as PC. destruct u; try discriminate; injection Fu as ->; cbn in PC |- *; [auto|tauto].
  - eapply whole_hdr; [symmetry; apply shp_hdr; apply (sk_ef _ _ _ _ 0 r V SH)|].
    pose proof (v_pc _ _ _ _ V _ _ Hj) as PC. destruct u; try discriminate; injection Fu as ->; cbn in PC; tauto.
Qed.

(** No root in [L], nor one to be, leads to [a]. *)
Definition dead (s : state) (a : nat) (L : list nat) : Prop := fz s a /\ In (root s) L /\
  forall r, tree s (fun _ => L) 0 r -> r < nx s /\ whole (mem s r) /\ forall k, ~ leads (mem s) r k a.
Lemma step_dead : forall s ef m f q c s' l ef' m' f' a L, inv s ef m f -> shinv s -> dead s a L -> step s q c = Some (s', l) ->
  inv s' ef' m' f' -> shinv s' -> dead s' a (root s' :: L).
Proof.
  intros s ef m f q c s' l ef' m' f' a L V SH (Fa & RL & DT) E V' SH'.
  destruct (nth_error (ths s) q) as [t|] eqn:Hq; [|unfold step in E; rewrite Hq in E; discriminate].
  destruct (step_sk _ _ _ _ _ _ _ _ _ V SH Hq E) as ([LN HD] & _).
  pose proof (step_only _ _ _ _ _ _ _ _ a V SH E Fa) as ON. pose proof (sk_good _ _ _ _ V SH) as W. pose proof (sk_good _ _ _ _ V' SH') as W'.
  assert (LE : forall r k, r < nx s -> inr (mem s r) k -> leads (mem s') r k a -> leads (mem s) r k a).
  { intros r k Lr I Q. apply (leads_lk _ _ _ W a _ r k eq_refl); auto. apply ON; auto.
    apply (leads_lk _ _ _ W' a _ r k eq_refl); auto; [lia|eapply inr_hdr; [symmetry; apply HD; auto|auto]]. }
  assert (OLD : forall r, tree s (fun _ => L) 0 r -> r < nx s' /\ whole (mem s' r) /\ forall k, ~ leads (mem s') r k a).
  { intros r T. destruct (DT r T) as (A & B & C). split; [lia|]. split; [eapply whole_hdr; [symmetry; apply HD; auto|auto]|].
    intros k Q. apply (C k). apply LE; auto. apply whole_inr; auto. }
  split; [apply (step_fz _ _ _ _ _ E a Fa)|]. split; [left; auto|]. intros r [[<-|IN]|(j & v & Hj & Fv)].
  - apply OLD. destruct (root_fut _ _ _ _ _ _ Hq E) as [Q|Q]; [rewrite Q; left; auto|right; exists q, t; auto].
  - apply OLD. left. auto.
  - destruct (step_ths _ _ _ _ _ _ Hq E) as (t1 & TH). rewrite TH, (nth_put _ _ _ _ _ Hq) in Hj.
    assert (H1 : nth_error (ths s') q = Some t1) by (rewrite TH, (nth_put _ _ _ _ _ Hq), Nat.eqb_refl; auto).
    destruct (Nat.eqb_spec j q) as [->|Z]; [|apply OLD; right; exists j, v; auto]. injection Hj as <-.
    destruct (new_tree _ _ _ _ _ _ _ _ _ _ r V SH Hq E H1 Fv) as [Q|[(-> & G & S1 & S2)|(b & Q & NL & LL)]].
    + apply OLD. right. exists q, t. auto.
    + destruct (fut_whole _ _ _ _ _ _ _ V' SH' H1 Fv) as [A B]. split; auto. split; auto. intros k Q.
      destruct (DT (root s) (or_introl RL)) as (Lr & Wr & C). destruct (leads_first _ _ _ _ Q) as [->|(p & P1 & P2 & P3)]; [destruct Fa; lia|].
      apply (C k). apply LE; auto; [apply whole_inr; auto|]. rewrite <- S2 in S1.
      destruct (shp_slot _ _ _ _ S1 P1) as (p' & Q1 & _ & Q3). rewrite <- Q3 in P3. eapply leads_up; [exact Q1| |exact P3].
      rewrite <- (hdr_ht _ _ (shp_hdr _ _ S1)). auto.
    + destruct (fut_whole _ _ _ _ _ _ _ V' SH' H1 Fv) as [A B]. split; auto. split; auto. intros k X.
      destruct (DT b (or_intror (ex_intro _ q (ex_intro _ t (conj Hq Q))))) as (Lb & Wb & C). apply (C k).
      assert (Zb : a <> b).
      { intros ->. destruct (proj2 Fa q t Hq) as [F1 F2]. pose proof (v_pc _ _ _ _ V _ _ Hq) as PC.
        destruct t; try discriminate; injection Q as ->; cbn in F1, F2, PC; tauto. }
      apply (leads_lk _ _ _ W a _ b k eq_refl); auto; [apply whole_inr; auto|]. rewrite <- (LL a (proj1 Fa) Zb k (whole_inr _ _ Wb)).
      apply (leads_lk _ _ _ W' a _ r k eq_refl); auto. apply whole_inr; auto.
Qed.

Lemma step_reads : forall s i c s' l t t1, nth_error (ths s) i = Some t -> step s i c = Some (s', l) -> nth_error (ths s') i = Some t1 ->
  reads t1 <> [] -> (exists k, t = G1 k) \/ (reads t <> [] /\ match t with G1 _ | P1 _ => False | _ => True end /\ forall z, l <> Called z).
Proof.
  intros s i c s' l t t1 Hi E H1 RD. unfold step in E. rewrite Hi in E. destruct c as [c|x].
  - exfalso. destruct t; try discriminate. destruct (start s c) as [[s1 t2]|] eqn:Es; [|discriminate]. injection E as <- <-.
    cbn in H1. rewrite (nth_put _ _ _ _ _ Hi), Nat.eqb_refl in H1. injection H1 as ->.
    destruct (start_mem _ _ _ _ Es) as (_ & _ & _ & _ & _ & A & _). auto.
  - destruct (go s i t x) as [[[s1 t2] l1]|] eqn:Eg; [|discriminate]. injection E as <- <-.
    cbn in H1. rewrite (nth_put _ _ _ _ _ Hi), Nat.eqb_refl in H1. injection H1 as ->.
    unfold go, same_st in Eg. destruct t; try (destruct x; discriminate); destruct x; try discriminate;
    repeat match type of Eg with
    | (if ?b then _ else _) = _ => destruct b eqn:?
    | match ?x with Some _ => _ | None => _ end = _ => destruct x eqn:?
    end; try discriminate; injection Eg as <- <- <-; try (exfalso; apply RD; reflexivity).
    all: try (left; eauto; fail). all: right; split; [discriminate|]; split; [exact Logic.I|discriminate].
Qed.

(** From then on only lookups come to the node that were under way by then, with a root
    older than the one the compaction replaced. *)
Theorem trunk_newer_for_good : forall n tr s R N i c s1 l b k, hruns n tr s R N -> step s i c = Some (s1, l) ->
  fr s b k = false -> fr s1 b k = true ->
  exists a p, slot k (pvs (mem s a)) = Some p /\ In b (bs p) /\ reach s (R i) k a /\ R i <> root s /\
    forall tr' s' j u', runs s tr' s' -> nth_error (ths s') j = Some u' -> In a (reads u') ->
      exists u, nth_error (ths s) j = Some u /\ reads u <> [] /\ ~ In (R j) (N i) /\ R j <> R i /\ forall z, ~ In (j, Called z) tr'.
Proof.
  intros n tr s R N i c s1 l b k H E F F'. pose proof (hruns_gruns _ _ _ _ _ H) as G.
  destruct (trunk_past _ _ _ _ _ _ _ _ _ _ G E F F') as (o & e & a & p & Hi & Sp & Hb & Ra & NR & P).
  destruct (newer_at _ _ _ _ _ _ _ _ _ _ _ _ _ _ p H E F F' Hi Sp) as (RN & TR). exists a, p. split; auto. split; auto. split; auto. split; auto.
  intros tr' s' j u' Q Hj Ha.
  assert (J : forall s0, runs s0 tr' s' -> s0 = s -> exists R' L trx, gruns n trx s' R' /\ incl (N i) L /\ dead s' a L /\
    forall j u', nth_error (ths s') j = Some u' -> reads u' <> [] -> In (R' j) L \/
      (R' j = R j /\ (exists u, nth_error (ths s) j = Some u /\ reads u <> []) /\ forall z, ~ In (j, Called z) tr')).
  { clear j u' Hj Ha Q E F F'. intros s0 Q. induction Q as [s2|s2 tr2 s3 q c3 s4 l3 Q IH St]; intros E0.
    - subst s2. exists R, (N i), tr. split; auto. split; [apply incl_refl|]. split.
      + split; [eapply reach_fz; eauto|]. split; [exact RN|]. intros r T. apply TR. destruct T as [T|T]; [left|right]; auto.
      + intros j u' Hj Hr. right. split; auto. split; [eauto|auto].
    - destruct (IH E0) as (R' & L & trx & G' & IL & DD & RD). clear IH. pose proof (gruns_runs _ _ _ _ G') as RR.
      destruct (runs_tick _ _ _ RR) as (ef & m & f & T & V & TI).
      assert (G4 : gruns n (trx ++ seen q l3) s4 (took s3 q R')) by (econstructor; eauto). pose proof (gruns_runs _ _ _ _ G4) as RR4.
      destruct (runs_tick _ _ _ RR4) as (ef' & m' & f' & T' & V' & _).
      exists (took s3 q R'), (root s4 :: L), (trx ++ seen q l3). split; auto. split; [apply incl_tl; auto|].
      split; [exact (step_dead _ _ _ _ _ _ _ _ _ _ _ _ _ V (runs_sh _ _ _ RR) DD St V' (runs_sh _ _ _ RR4))|]. intros j u' Hj Hr.
      destruct (nth_error (ths s3) q) as [t|] eqn:Hq; [|unfold step in St; rewrite Hq in St; discriminate].
      destruct (step_ths _ _ _ _ _ _ Hq St) as (t1 & TH). pose proof Hj as Hj0. rewrite TH, (nth_put _ _ _ _ _ Hq) in Hj. unfold took. rewrite Hq.
      destruct (Nat.eqb_spec j q) as [->|Z].
      + injection Hj as ->. destruct (step_reads _ _ _ _ _ _ _ Hq St Hj0 Hr) as [(k0 & ->)|(R1 & R2 & R3)].
        * left. rewrite upd_same. right. apply DD.
        * assert (TQ : match t with G1 _ | P1 _ => upd R' q (root s3) | _ => R' end = R') by (destruct t; tauto). rewrite TQ.
          destruct (RD q t Hq R1) as [A|(A & B & C)]; [left; right; auto|right]. split; auto. split; auto. intros z Hz.
          apply in_app_or in Hz. destruct Hz as [Hz|Hz]; [exact (C z Hz)|]. destruct l3; cbn in Hz; try tauto; destruct Hz as [Hz|[]]; inversion Hz; subst; eapply R3; eauto.
      + assert (TQ : match t with G1 _ | P1 _ => upd R' q (root s3) | _ => R' end j = R' j) by (destruct t; auto; apply upd_other; auto). rewrite TQ.
        destruct (RD j u' Hj Hr) as [A|(A & B & C)]; [left; right; auto|right]. split; auto. split; auto. intros z Hz.
        apply in_app_or in Hz. destruct Hz as [Hz|Hz]; [exact (C z Hz)|]. destruct l3; cbn in Hz; try tauto; destruct Hz as [Hz|[]]; inversion Hz; subst; congruence. }
  destruct (J s Q eq_refl) as (R' & L & trx & G' & IL & (Fa & _ & DD) & RD).
  assert (NL : ~ In (R' j) L).
  { intros IN. destruct (DD (R' j) (or_introl IN)) as (_ & _ & X). pose proof (pd_own _ _ (gruns_pd _ _ _ _ G') j u' Hj) as PO.
    assert (Y : exists k, reach s' (R' j) k a).
    { destruct u'; cbn in Ha, PO; try tauto; [destruct Ha as [<-|[]]; eauto|]. destruct PO as (O1 & O2 & _). destruct Ha as [<-|[<-|[]]]; eauto. }
    destruct Y as (k0 & Y). apply (X k0). clear - Y. induction Y; [constructor|econstructor; eauto]. }
  assert (RU : reads u' <> []) by (intros Q0; rewrite Q0 in Ha; destruct Ha).
  destruct (RD j u' Hj RU) as [A|(A & (u & Hu & Ru) & C)]; [tauto|]. exists u. split; auto. split; auto.
  split; [intros IN; apply NL; rewrite A; auto|]. split; auto. intros Q0. eapply (past_stays n tr s R i k a); eauto.
Qed.
