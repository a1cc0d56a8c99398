(** Nodes of the concurrent trunk: what a node has for a key, and the operations on nodes
    that leave it as it is. *)
From Coq Require Import List Arith Bool Lia.
Import ListNotations.
From Verif Require Import CTrunk.
Local Open Scope nat_scope.

Definition inr (n : node) (k : nat) : Prop :=
  (exists l, lo n = Some l /\ l <= k) /\ below k (ub n) = true.

(** What the path from [a] has for [k]. *)
Fixpoint look (d : nat) (g : nat -> node) (B : nat -> nat -> list nat) (a k : nat) {struct d} : list nat :=
  match slot k (pvs (g a)) with
  | None => []
  | Some p => all_of B (bs p) k ++ match d with 0 => [] | S d => look d g B (ch p) k end
  end.
Definition lk (g : nat -> node) (B : nat -> nat -> list nat) (a k : nat) : list nat := look (ht (g a)) g B a k.

Lemma lk_unf : forall g B a k p, slot k (pvs (g a)) = Some p ->
  (ht (g a) <> 0 -> S (ht (g (ch p))) = ht (g a)) ->
  lk g B a k = all_of B (bs p) k ++ (if ht (g a) =? 0 then [] else lk g B (ch p) k).
Proof.
  intros g B a k p E H. unfold lk at 1. destruct (ht (g a)) as [|h] eqn:Eh; cbn; rewrite E; auto.
  f_equal. unfold lk. injection (H ltac:(discriminate)) as ->. auto.
Qed.

(** ** The order of pivots. *)
Definition nextk (r : list piv) (u : option nat) : option nat := match r with q :: _ => Some (pk q) | [] => u end.
Fixpoint chain (Q : piv -> option nat -> Prop) (ps : list piv) (u : option nat) {struct ps} : Prop :=
  match ps with
  | [] => True
  | p :: r => below (pk p) (nextk r u) = true /\ Q p (nextk r u) /\ chain Q r u
  end.

Lemma nextk_app : forall l r u, nextk (l ++ r) u = nextk l (nextk r u).
Proof. intros [|p l] r u; auto. Qed.
Lemma chain_app : forall Q l r u, chain Q (l ++ r) u <-> chain Q l (nextk r u) /\ chain Q r u.
Proof.
  induction l as [|p l IH]; intros r u; cbn; [tauto|]. rewrite nextk_app, IH. tauto.
Qed.
Lemma chain_imp : forall (Q Q' : piv -> option nat -> Prop) ps u,
  (forall p e, In p ps -> Q p e -> Q' p e) -> chain Q ps u -> chain Q' ps u.
Proof.
  induction ps as [|p ps IH]; intros u H; cbn; auto. intros (H1 & H2 & H3).
  split; auto. split; [apply H; auto; left; auto|]. apply IH; auto. intros q e Hq. apply H. right; auto.
Qed.
Lemma chain_in : forall Q ps u p, chain Q ps u -> In p ps -> exists e, Q p e.
Proof. induction ps as [|q ps IH]; intros u p; cbn; [tauto|]. intros (H1 & H2 & H3) [->|Hp]; eauto. Qed.

Lemma below_trans : forall x y u, x <= y -> below y u = true -> below x u = true.
Proof. intros x y [z|] H; cbn [below]; auto. rewrite !Nat.ltb_lt. lia. Qed.
Lemma below_lt : forall x y u, below x (Some y) = true -> below y u = true -> below x u = true.
Proof. intros x y u H. apply below_trans. cbn [below] in H. apply Nat.ltb_lt in H. lia. Qed.

Lemma chain_first : forall Q p r u, chain Q (p :: r) u -> below (pk p) u = true.
Proof.
  intros Q p r. revert p. induction r as [|q r IH]; intros p u; cbn [chain nextk]; [tauto|].
  intros (H1 & _ & H2). eapply below_lt; [exact H1|]. apply (IH q). auto.
Qed.

(** All pivots of a part are below its end. *)
Lemma chain_before : forall Q l u p, chain Q l u -> In p l -> below (pk p) u = true.
Proof.
  induction l as [|q l IH]; intros u p H; [intros []|]. intros [->|Hp]; [eapply chain_first; eauto|].
  cbn in H. apply IH; auto; tauto.
Qed.

Lemma slot_none : forall Q r u k, chain Q r u -> below k (nextk r u) = true -> slot k r = None.
Proof. intros Q [|q r] u k C H; auto. cbn [slot]. cbn [nextk below] in H. rewrite H. auto. Qed.

Lemma slot_here : forall Q l p r u k, chain Q (l ++ p :: r) u -> pk p <= k -> below k (nextk r u) = true ->
  slot k (l ++ p :: r) = Some p /\ forall c, reslot k (l ++ p :: r) c = l ++ setch p c :: r.
Proof.
  induction l as [|q l IH]; intros p r u k C H1 H2.
  - cbn [app] in *. cbn in C. destruct C as (_ & _ & C). cbn [slot reslot].
    rewrite (proj2 (Nat.ltb_ge _ _) H1). rewrite (slot_none _ _ _ _ C H2). auto.
  - assert (Hq : pk q <= k).
    { cbn [app chain] in C. destruct C as (C1 & _ & C2).
      assert (below (pk q) (Some (pk p)) = true).
      { rewrite nextk_app in C1. cbn [nextk] in C1. destruct l as [|x l]; [auto|].
        cbn [nextk] in C1. eapply below_lt; [exact C1|]. apply chain_app in C2. destruct C2 as [C2 _]. cbn [nextk] in C2.
        eapply chain_first; eauto. }
      cbn [below] in H. apply Nat.ltb_lt in H. lia. }
    cbn [app chain] in C. destruct C as (_ & _ & C2). destruct (IH p r u k C2 H1 H2) as [E1 E2].
    cbn [app slot reslot]. rewrite (proj2 (Nat.ltb_ge _ _) Hq), E1. split; auto. intros c. f_equal. auto.
Qed.

Lemma slot_find : forall Q ps u k p0 r0, chain Q ps u -> ps = p0 :: r0 -> pk p0 <= k -> below k u = true ->
  exists l p r, ps = l ++ p :: r /\ pk p <= k /\ below k (nextk r u) = true /\ Q p (nextk r u).
Proof.
  induction ps as [|p ps IH]; intros u k p0 r0 C E H1 H2; [discriminate|]. injection E as -> ->.
  cbn in C. destruct C as (C1 & C2 & C3). destruct r0 as [|q r].
  - exists [], p0, []. cbn in *. auto.
  - destruct (Nat.le_gt_cases (pk q) k) as [L|L].
    + destruct (IH u k q r C3 eq_refl L H2) as (l & p & r' & E & X). exists (p0 :: l), p, r'. rewrite E. split; auto.
    + exists [], p0, (q :: r). split; auto. split; auto. split; auto. cbn [below nextk ub]. apply Nat.ltb_lt. auto.
Qed.

(** ** Well-formed nodes. *)
Definition kid (g : nat -> node) (nx nb h : nat) (p : piv) (e : option nat) : Prop :=
  Forall (fun b => b < nb) (bs p) /\
  (h <> 0 -> ch p < nx /\ S (ht (g (ch p))) = h /\ lo (g (ch p)) = Some (pk p) /\ ub (g (ch p)) = e).
Definition wfn (g : nat -> node) (nx nb : nat) (n : node) : Prop :=
  pvs n <> [] /\ (ht n = 0 -> length (pvs n) = 1) /\ chain (kid g nx nb (ht n)) (pvs n) (ub n).
Definition wf (g : nat -> node) (nx nb : nat) : Prop := forall a, a < nx -> wfn g nx nb (g a).

Definition hdr (n : node) := (ht n, lo n, ub n).
Lemma hdr_ht : forall n n', hdr n = hdr n' -> ht n = ht n'. Proof. unfold hdr. congruence. Qed.
Lemma hdr_lo : forall n n', hdr n = hdr n' -> lo n = lo n'. Proof. unfold hdr. congruence. Qed.
Lemma hdr_ub : forall n n', hdr n = hdr n' -> ub n = ub n'. Proof. unfold hdr. congruence. Qed.
Lemma inr_hdr : forall n n' k, hdr n = hdr n' -> inr n k -> inr n' k.
Proof. intros n n' k H [(l & H1 & H2) H3]. split; [exists l|]; rewrite <- ?(hdr_lo _ _ H), <- ?(hdr_ub _ _ H); auto. Qed.

Lemma wfn_ext : forall g g' nx nx' nb nb' n, wfn g nx nb n ->
  (forall a, a < nx -> hdr (g' a) = hdr (g a)) -> nx <= nx' -> nb <= nb' -> wfn g' nx' nb' n.
Proof.
  intros g g' nx nx' nb nb' n (H1 & H2 & H3) HH Lx Lb. split; auto. split; auto.
  eapply chain_imp; [|exact H3]. intros p e _ [K1 K2]. split.
  - eapply Forall_impl; [|exact K1]. cbn. intros; lia.
  - intros Hh. destruct (K2 Hh) as (K3 & K4 & K5 & K6). pose proof (HH _ K3) as X.
    rewrite (hdr_ht _ _ X), (hdr_lo _ _ X), (hdr_ub _ _ X). repeat split; auto. lia.
Qed.

(** The pivot for a key of the node. *)
Lemma wfn_slot : forall g nx nb n k, wfn g nx nb n -> inr n k ->
  exists l p r, pvs n = l ++ p :: r /\ pk p <= k /\ below k (nextk r (ub n)) = true /\
    kid g nx nb (ht n) p (nextk r (ub n)) /\ slot k (pvs n) = Some p.
Proof.
  intros g nx nb n k (H1 & H2 & H3) [(l0 & E & L) U]. unfold lo in E. destruct (pvs n) as [|p0 r0] eqn:Ep; [congruence|].
  injection E as E. destruct (slot_find _ _ _ k p0 r0 H3 eq_refl ltac:(lia) U) as (l & p & r & E1 & E2 & E3 & E4).
  exists l, p, r. repeat (split; auto). rewrite E1 in *. eapply slot_here; eauto.
Qed.
Lemma kid_inr : forall g nx nb h p e k, kid g nx nb h p e -> h <> 0 -> pk p <= k -> below k e = true -> inr (g (ch p)) k.
Proof.
  intros g nx nb h p e k [_ K] Hh L U. destruct (K Hh) as (_ & _ & K1 & K2). split; [exists (pk p); auto|]. rewrite K2. auto.
Qed.

(** What a node has for a key, one level at a time. *)
Lemma lk_node : forall g B nx nb a k, wfn g nx nb (g a) -> inr (g a) k ->
  exists p, slot k (pvs (g a)) = Some p /\ Forall (fun b => b < nb) (bs p) /\
    lk g B a k = all_of B (bs p) k ++ (if ht (g a) =? 0 then [] else lk g B (ch p) k) /\
    (ht (g a) <> 0 -> ch p < nx /\ inr (g (ch p)) k /\ S (ht (g (ch p))) = ht (g a)).
Proof.
  intros g B nx nb a k W I. destruct (wfn_slot _ _ _ _ _ W I) as (l & p & r & E1 & E2 & E3 & E4 & E5).
  exists p. split; auto. split; [apply E4|]. split.
  - apply lk_unf; auto. intros Hh. apply E4; auto.
  - intros Hh. destruct E4 as [K1 K2]. split; [apply K2; auto|]. split; [|apply K2; auto].
    eapply kid_inr; eauto. split; eauto.
Qed.

Lemma all_of_ext : forall B B' nb l k, (forall b, b < nb -> B' b = B b) -> Forall (fun b => b < nb) l ->
  all_of B' l k = all_of B l k.
Proof.
  intros B B' nb l k H. induction l as [|b l IH]; intros F; auto. inversion F; subst. unfold all_of in *. cbn [flat_map]. rewrite H, IH; auto.
Qed.
Lemma all_of_app : forall B l r k, all_of B (l ++ r) k = all_of B l k ++ all_of B r k.
Proof. intros. apply flat_map_app. Qed.

(** What nodes have stays, if it does at the nodes that are changed, given the nodes
    below them. *)
Lemma keep : forall g g' B B' nx nb, wf g nx nb -> (forall b, b < nb -> B' b = B b) ->
  (forall a, a < nx -> hdr (g' a) = hdr (g a)) ->
  (forall a k, a < nx -> inr (g a) k ->
     (forall c, c < nx -> ht (g c) < ht (g a) -> inr (g c) k -> lk g' B' c k = lk g B c k) ->
     g' a = g a \/ lk g' B' a k = lk g B a k) ->
  forall a k, a < nx -> inr (g a) k -> lk g' B' a k = lk g B a k.
Proof.
  intros g g' B B' nx nb W HB HH HS a k. remember (ht (g a)) as h eqn:Eh. revert a Eh.
  induction h as [h IH] using lt_wf_ind. intros a -> La I.
  assert (IH' : forall c, c < nx -> ht (g c) < ht (g a) -> inr (g c) k -> lk g' B' c k = lk g B c k).
  { intros c Hc Hh Ic. eapply IH; eauto. }
  destruct (HS a k La I IH') as [E|E]; auto.
  destruct (lk_node g B nx nb a k (W a La) I) as (p & E1 & E2 & E3 & E4). rewrite E3.
  rewrite (lk_unf g' B' a k p); rewrite E; auto.
  - rewrite (all_of_ext B B' nb); auto. f_equal. destruct (Nat.eqb_spec (ht (g a)) 0) as [Z|Z]; auto.
    destruct (E4 Z) as (K1 & K2 & K3). apply IH'; auto; lia.
  - intros Z. destruct (E4 Z) as (K1 & K2 & K3). rewrite (hdr_ht _ _ (HH _ K1)). auto.
Qed.

(** ** Branches added, and replaced. *)
Lemma map_chain : forall (Q Q' : piv -> option nat -> Prop) (f : piv -> piv) ps u,
  (forall p, pk (f p) = pk p) -> (forall p e, In p ps -> Q p e -> Q' (f p) e) -> chain Q ps u -> chain Q' (map f ps) u.
Proof.
  intros Q Q' f ps u Hf. induction ps as [|p ps IH]; intros HQ; cbn; auto. intros (H1 & H2 & H3).
  assert (E : nextk (map f ps) u = nextk ps u) by (destruct ps; cbn; rewrite ?Hf; auto).
  rewrite E, Hf. split; auto. split; [apply HQ; auto; left; auto|]. apply IH; auto. intros q e Hq. apply HQ. right; auto.
Qed.
Lemma map_slot : forall (f : piv -> piv) k ps, (forall p, pk (f p) = pk p) ->
  slot k (map f ps) = option_map f (slot k ps).
Proof.
  intros f k ps Hf. induction ps as [|p ps IH]; auto. cbn [map slot]. rewrite Hf, IH. destruct (k <? pk p); auto. destruct (slot k ps); auto.
Qed.
Lemma map_wfn : forall g nx nb n (f : piv -> piv), (forall p, pk (f p) = pk p /\ ch (f p) = ch p) ->
  (forall p, In p (pvs n) -> Forall (fun b => b < nb) (bs p) -> Forall (fun b => b < nb) (bs (f p))) ->
  wfn g nx nb n -> wfn g nx nb (Nd (ht n) (map f (pvs n)) (ub n)).
Proof.
  intros g nx nb n f Hf HB (H1 & H2 & H3). split; [|split]; cbn.
  - destruct (pvs n); cbn; congruence.
  - rewrite map_length. auto.
  - eapply map_chain; [apply Hf| |exact H3]. intros p e Hp [K1 K2]. split; auto. destruct (Hf p) as [-> ->]. auto.
Qed.
Lemma map_hdr : forall n (f : piv -> piv), (forall p, pk (f p) = pk p /\ ch (f p) = ch p) ->
  hdr (Nd (ht n) (map f (pvs n)) (ub n)) = hdr n.
Proof. intros n f Hf. unfold hdr, lo; cbn. destruct (pvs n) as [|p r]; cbn; auto. destruct (Hf p) as [-> _]. auto. Qed.

Lemma strip_app : forall sg l r, strip sg l = Some r -> l = sg ++ r.
Proof.
  induction sg as [|x sg IH]; intros l r; cbn; [congruence|]. destruct l as [|y l]; [discriminate|].
  destruct (Nat.eqb_spec x y) as [->|]; [|discriminate]. intros H. rewrite (IH _ _ H). auto.
Qed.
Lemma swap_app : forall sg new l l', swap sg new l = Some l' -> exists a b, l = a ++ sg ++ b /\ l' = a ++ new ++ b.
Proof.
  intros sg new l. induction l as [|x l IH]; intros l'.
  - cbn [swap]. destruct (strip sg []) as [r|] eqn:E; [|discriminate]. intros [= <-]. exists [], r. split; [apply (strip_app _ _ _ E)|reflexivity].
  - cbn [swap]. destruct (strip sg (x :: l)) as [r|] eqn:E.
    + intros [= <-]. exists [], r. split; [apply (strip_app _ _ _ E)|reflexivity].
    + destruct (swap sg new l) as [r|]; [|discriminate]. intros [= <-]. destruct (IH r eq_refl) as (a & b & -> & ->).
      exists (x :: a), b. auto.
Qed.

Definition rp (sg new : list nat) (p : piv) : piv := match swap sg new (bs p) with Some l => setbs p l | None => p end.
Lemma rp_key : forall sg new p, pk (rp sg new p) = pk p /\ ch (rp sg new p) = ch p.
Proof. intros. unfold rp. destruct (swap sg new (bs p)); auto. Qed.
Lemma rp_bs : forall sg b nb p, b < nb -> Forall (fun b => b < nb) (bs p) -> Forall (fun b => b < nb) (bs (rp sg [b] p)).
Proof.
  intros sg b nb p Hb F. unfold rp. destruct (swap sg [b] (bs p)) as [l|] eqn:E; auto. cbn.
  apply swap_app in E. destruct E as (x & y & E1 & ->). rewrite E1 in F. rewrite !Forall_app in *. intuition.
Qed.
Lemma rp_all : forall B sg b p k, B b k = all_of B sg k -> all_of B (bs (rp sg [b] p)) k = all_of B (bs p) k.
Proof.
  intros B sg b p k H. unfold rp. destruct (swap sg [b] (bs p)) as [l|] eqn:E; auto. cbn [bs setbs].
  apply swap_app in E. destruct E as (x & y & -> & ->). rewrite !all_of_app.
  replace (all_of B [b] k) with (B b k) by (unfold all_of; cbn; rewrite app_nil_r; auto). rewrite H. auto.
Qed.

(** ** Pieces of a split node. *)
Lemma firstn_chain : forall Q c ps u p r, chain Q ps u -> skipn c ps = p :: r ->
  chain Q (firstn c ps) (Some (pk p)) /\ chain Q (p :: r) u.
Proof.
  intros Q c ps u p r C E. rewrite <- (firstn_skipn c ps), E in C. apply chain_app in C. auto.
Qed.

Lemma cut_ok : forall g nx nb n c l n', wfn g nx nb n -> cut_node n c = Some (l, n') ->
  wfn g nx nb l /\ wfn g nx nb n' /\ ht l = ht n /\ ht n' = ht n /\ lo l = lo n /\
  (exists x, lo n' = Some x /\ ub l = Some x) /\ ub n' = ub n /\
  forall k, (exists z, lo n = Some z /\ z <= k) ->
    (inr l k \/ (exists z, lo n' = Some z /\ z <= k)).
Proof.
  intros g nx nb n c l n' (W1 & W2 & W3) E. unfold cut_node in E. destruct (Nat.eqb_spec (ht n) 0) as [Z|Z].
  - destruct (pvs n) as [|p r] eqn:Ep; [discriminate|]. specialize (W2 Z). cbn in W2. destruct r; [|discriminate].
    destruct ((pk p <? c) && below c (ub n)) eqn:G; [|discriminate]. apply andb_true_iff in G. destruct G as [G1 G2].
    injection E as <- <-. cbn in W3. destruct W3 as (V1 & V2 & _). rewrite Z in V2.
    split; [|split; [|split; [|split; [|split; [|split; [|split]]]]]]; auto.
    + split; [discriminate|]. split; auto. cbn. split; auto. split; auto. split; [apply V2|intros; lia].
    + split; [discriminate|]. split; auto. cbn. split; auto. split; auto. split; [apply V2|intros; lia].
    + unfold lo. rewrite Ep. auto.
    + exists c. auto.
    + intros k (z & Hz & Hk). destruct (Nat.le_gt_cases c k) as [L|L].
      * right. exists c. auto.
      * left. split; [exists z; split; auto; unfold lo in *; rewrite Ep in Hz; auto|]. cbn [below nextk ub]. apply Nat.ltb_lt. auto.
  - destruct (firstn c (pvs n)) as [|p0 r0] eqn:E1; [discriminate|]. destruct (skipn c (pvs n)) as [|p r] eqn:E2; [discriminate|].
    injection E as <- <-. destruct (firstn_chain _ _ _ _ _ _ W3 E2) as [C1 C2]. rewrite E1 in C1.
    split; [|split; [|split; [|split; [|split; [|split; [|split]]]]]]; auto.
    + split; [discriminate|]. split; [tauto|]. auto.
    + split; [discriminate|]. split; [tauto|]. auto.
    + unfold lo; cbn. rewrite <- (firstn_skipn c (pvs n)), E1. auto.
    + exists (pk p). auto.
    + intros k (z & Hz & Hk). destruct (Nat.le_gt_cases (pk p) k) as [L|L].
      * right. exists (pk p). auto.
      * left. split; [exists z; split; auto; unfold lo in *; cbn; rewrite <- (firstn_skipn c (pvs n)), E1 in Hz; auto|].
        cbn [below nextk ub]. apply Nat.ltb_lt. auto.
Qed.

(** The pivot for a key is the same in the piece. *)
Definition alike (p q : piv) : Prop := bs p = bs q /\ ch p = ch q.
Lemma cut_slot : forall g nx nb n c l n' k, wfn g nx nb n -> cut_node n c = Some (l, n') -> inr n k ->
  (inr l k -> exists p q, slot k (pvs l) = Some p /\ slot k (pvs n) = Some q /\ alike p q) /\
  (inr n' k -> exists p q, slot k (pvs n') = Some p /\ slot k (pvs n) = Some q /\ alike p q).
Proof.
  intros g nx nb n c l n' k W E I. pose proof W as (W1 & W2 & W3). unfold cut_node in E.
  destruct (Nat.eqb_spec (ht n) 0) as [Z|Z].
  - destruct (pvs n) as [|p r] eqn:Ep; [discriminate|]. specialize (W2 Z). cbn in W2. destruct r; [|discriminate].
    destruct ((pk p <? c) && below c (ub n)); [|discriminate]. injection E as <- <-. cbn [pvs].
    destruct I as [(z & Hz & Hk) _]. unfold lo in Hz. rewrite Ep in Hz. injection Hz as Hz.
    assert (Sn : slot k [p] = Some p) by (cbn [slot]; rewrite (proj2 (Nat.ltb_ge k (pk p))); auto; lia).
    split.
    + intros _. exists p, p. split; auto. split; auto. split; auto.
    + intros [(z' & Hz' & Hk') _]. cbn in Hz'. injection Hz' as Hz'. exists (Pv c (ch p) (bs p)), p.
      split; [cbn [slot pk]; rewrite (proj2 (Nat.ltb_ge k c)); auto; lia|]. split; auto. split; auto.
  - destruct (firstn c (pvs n)) as [|p0 r0] eqn:E1; [discriminate|]. destruct (skipn c (pvs n)) as [|p r] eqn:E2; [discriminate|].
    injection E as <- <-. destruct (firstn_chain _ _ _ _ _ _ W3 E2) as [C1 C2]. rewrite E1 in C1.
    assert (Epv : pvs n = (p0 :: r0) ++ p :: r) by (rewrite <- E1, <- E2, firstn_skipn; auto).
    cbn [pvs]. split.
    + intros [(z & Hz & Hk) U]. cbn in Hz. injection Hz as Hz. cbn [ub] in U.
      destruct (slot_find _ _ _ k p0 r0 C1 eq_refl ltac:(lia) U) as (l1 & q & l2 & F1 & F2 & F3 & F4).
      exists q, q. split; [|split; [|split; auto]].
      * rewrite F1. rewrite F1 in C1. eapply slot_here; eauto.
      * rewrite Epv, F1, <- app_assoc. cbn [app]. rewrite Epv, F1, <- app_assoc in W3. cbn [app] in W3.
        eapply slot_here; eauto. rewrite nextk_app. auto.
    + intros [(z & Hz & Hk) U]. cbn in Hz. injection Hz as Hz. cbn [ub] in U.
      destruct (slot_find _ _ _ k p r C2 eq_refl ltac:(lia) U) as (l1 & q & l2 & F1 & F2 & F3 & F4).
      exists q, q. split; [|split; [|split; auto]].
      * rewrite F1. rewrite F1 in C2. eapply slot_here; eauto.
      * rewrite Epv, F1, app_assoc. rewrite Epv, F1, app_assoc in W3.
        eapply slot_here; eauto.
Qed.

Lemma pieces_ok : forall g nx nb cs n ns, wfn g nx nb n -> pieces n cs = Some ns ->
  (forall j P, nth_error ns j = Some P -> wfn g nx nb P /\ ht P = ht n /\
     exists z z', lo n = Some z /\ lo P = Some z' /\ z <= z') /\
  (exists P r, ns = P :: r /\ lo P = lo n) /\
  (forall a, chain (fun p e => bs p = [] /\ exists j P, ch p = a + j /\ nth_error ns j = Some P /\
                     lo P = Some (pk p) /\ ub P = e) (heads a ns) (ub n)) /\
  forall k j P, inr n k -> nth_error ns j = Some P -> inr P k ->
     exists p q, slot k (pvs P) = Some p /\ slot k (pvs n) = Some q /\ alike p q.
Proof.
  induction cs as [|c cs IH]; intros n ns W E.
  - injection E as <-.
    assert (Hn : exists z, lo n = Some z).
    { destruct W as (W1 & _). unfold lo. destruct (pvs n) as [|p r]; [congruence|]. eauto. }
    destruct Hn as (z & Hz). split; [|split; [|split]].
    + intros [|[|j]] P H; cbn in H; try discriminate. injection H as <-. split; auto. split; auto. exists z, z. auto.
    + eauto.
    + intros a. destruct W as (W1 & W2 & W3). cbn. unfold lo in Hz. destruct (pvs n) as [|p r] eqn:Ep; [congruence|]. cbn.
      split; [eapply chain_first; eauto|]. split; auto. split; auto. exists 0, n. split; [lia|]. split; auto.
      unfold lo. rewrite Ep. auto.
    + intros k [|[|j]] P I H _; cbn in H; try discriminate. injection H as <-.
      destruct (wfn_slot _ _ _ _ _ W I) as (l & p & r & _ & _ & _ & _ & X).
      exists p, p. repeat (split; auto).
  - cbn in E. destruct (cut_node n c) as [[l n']|] eqn:Ec; [|discriminate]. destruct (pieces n' cs) as [ps|] eqn:Ep; [|discriminate].
    injection E as <-. destruct (cut_ok _ _ _ _ _ _ _ W Ec) as (X1 & X2 & X3 & X4 & X5 & (x & X6 & X7) & X8 & X9).
    destruct (IH n' ps X2 Ep) as (Y1 & (P0 & r0 & Y2 & Y2') & Y3 & Y4).
    assert (Hn : exists z, lo n = Some z /\ z < x).
    { destruct X1 as (V1 & _ & V3). rewrite <- X5. unfold lo. destruct (pvs l) as [|p r]; [congruence|].
      exists (pk p). split; auto. apply chain_first in V3. rewrite X7 in V3. cbn [below] in V3. apply Nat.ltb_lt in V3. auto. }
    destruct Hn as (z & Hz & Hzx).
    split; [|split; [|split]].
    + intros [|j] P H; cbn in H; [injection H as <-; split; auto; split; auto; exists z, z; split; auto; split; auto; congruence|].
      destruct (Y1 _ _ H) as (T1 & T2 & z1 & z2 & T3 & T4 & T5). split; auto. split; [congruence|].
      exists z, z2. rewrite X6 in T3. injection T3 as <-. repeat split; auto. lia.
    + eauto.
    + intros a. cbn [heads]. destruct X1 as (V1 & V2 & V3). destruct (pvs l) as [|p r] eqn:El; [congruence|].
      pose proof (Y3 (S a)) as Y3'. rewrite X8 in Y3'.
      assert (Hn : nextk (heads (S a) ps) (ub n) = Some x).
      { subst ps. cbn. rewrite X6 in Y2'. unfold lo in Y2'. destruct (pvs P0); [discriminate|]. cbn. auto. }
      cbn [chain]. rewrite Hn. split; [cbn [pk]; rewrite <- X7; eapply chain_first; eauto|]. split.
      * cbn. split; auto. exists 0, l. split; [lia|]. split; auto. split; auto. unfold lo. rewrite El. auto.
      * eapply chain_imp; [|exact Y3']. cbn. intros q e _ [Z1 (j & P & Z2 & Z3)]. split; auto. exists (S j), P. split; auto. lia.
    + intros k j P I H IP. pose proof (cut_slot _ _ _ _ _ _ _ k W Ec I) as [S1 S2].
      destruct j as [|j]; cbn in H; [injection H as <-; auto|].
      assert (I' : inr n' k).
      { destruct (Y1 _ _ H) as (T1 & T2 & z1 & z2 & T3 & T4 & T5). destruct IP as [(y & Ty & Tk) _]. destruct I as [_ I].
        split; [exists z1; split; auto; rewrite T4 in Ty; injection Ty as <-; lia|]. rewrite X8. auto. }
      destruct (Y4 k j P I' H IP) as (p & q & F3 & F4 & F5). destruct (S2 I') as (p' & q' & G1 & G2 & G3).
      rewrite F4 in G1. injection G1 as ->. exists p, q'. repeat (split; auto); destruct F5, G3; congruence.
Qed.

Lemma store_old : forall ns g a b, b < a -> store g a ns b = g b.
Proof.
  induction ns as [|n ns IH]; intros g a b H; cbn; auto. rewrite IH by lia. unfold upd. destruct (Nat.eqb_spec b a); auto. lia.
Qed.
Lemma store_new : forall ns g a j P, nth_error ns j = Some P -> store g a ns (a + j) = P.
Proof.
  induction ns as [|n ns IH]; intros g a j P H; [destruct j; discriminate|]. destruct j; cbn in *.
  - injection H as ->. rewrite store_old by lia. unfold upd. rewrite Nat.add_0_r, Nat.eqb_refl. auto.
  - rewrite Nat.add_succ_r. apply (IH _ (S a)). auto.
Qed.
Lemma store_one : forall ns g a b, store g a ns b = g b \/ exists j P, b = a + j /\ nth_error ns j = Some P.
Proof.
  intros ns g a b. destruct (Nat.lt_ge_cases b a) as [L|L]; [left; apply store_old; auto|].
  destruct (nth_error ns (b - a)) as [P|] eqn:E; [right; exists (b - a), P; split; auto; lia|left].
  apply nth_error_None in E. revert g a L E. induction ns as [|n ns IH]; intros g a L E; auto. cbn in *.
  rewrite IH by lia. unfold upd. destruct (Nat.eqb_spec b a); auto. lia.
Qed.
