(** The changes of the trunk's nodes: each leaves what the nodes have for a key. *)
From Coq Require Import List Arith Bool Lia.
Import ListNotations.
From Verif Require Import CTrunk CTrunkInv.
Local Open Scope nat_scope.

(** Nodes [g] became [g']: nothing that the nodes had was lost. *)
Record eff (g : nat -> node) (nx nb : nat) (B : nat -> nat -> list nat)
           (g' : nat -> node) (nx' nb' : nat) (B' : nat -> nat -> list nat) : Prop := Eff {
  e_nx : nx <= nx';
  e_nb : nb <= nb';
  e_br : forall b, b < nb -> B' b = B b;
  e_wf : wf g' nx' nb';
  e_hdr : forall a, a < nx -> hdr (g' a) = hdr (g a);
  e_lk : forall a k, a < nx -> inr (g a) k -> lk g' B' a k = lk g B a k }.

Definition kids (n : node) : list nat := if ht n =? 0 then [] else map ch (pvs n).
(** Each child in [n] is one in [n0], or new. *)
Definition kids_from (n n0 : node) (nx : nat) : Prop := forall c, In c (kids n) -> In c (kids n0) \/ nx <= c.

Lemma upd_same : forall {A} (f : nat -> A) a x, upd f a x a = x.
Proof. intros. unfold upd. rewrite Nat.eqb_refl. auto. Qed.
Lemma upd_other : forall {A} (f : nat -> A) a x b, b <> a -> upd f a x b = f b.
Proof. intros. unfold upd. destruct (Nat.eqb_spec b a); congruence. Qed.

(** More branches only. *)
Lemma eff_branch : forall g nx nb B f, wf g nx nb -> eff g nx nb B g nx (S nb) (upd B nb f).
Proof.
  intros g nx nb B f W.
  assert (HB : forall b, b < nb -> upd B nb f b = B b) by (intros b Hb; apply upd_other; lia).
  constructor; auto.
  - intros a Ha. eapply wfn_ext; eauto.
  - intros a k Ha I. eapply keep; eauto.
Qed.

Lemma eff_trans : forall g nx nb B g1 nx1 nb1 B1 g2 nx2 nb2 B2,
  eff g nx nb B g1 nx1 nb1 B1 -> eff g1 nx1 nb1 B1 g2 nx2 nb2 B2 -> eff g nx nb B g2 nx2 nb2 B2.
Proof.
  intros g nx nb B g1 nx1 nb1 B1 g2 nx2 nb2 B2 [X1 X2 X3 X4 X5 X6] [Y1 Y2 Y3 Y4 Y5 Y6]. constructor; auto; try lia.
  - intros b Hb. rewrite Y3 by lia. auto.
  - intros a Ha. rewrite Y5 by lia. auto.
  - intros a k Ha I. rewrite Y6; auto; try lia. eapply inr_hdr; [|exact I]. symmetry. auto.
Qed.

Lemma eff_refl : forall g nx nb B, wf g nx nb -> eff g nx nb B g nx nb B.
Proof. intros. constructor; auto. Qed.

(** A new node. *)
Lemma eff_fresh : forall g nx nb B n, wf g nx nb -> wfn g nx nb n -> eff g nx nb B (upd g nx n) (S nx) nb B.
Proof.
  intros g nx nb B n W Wn.
  assert (HH : forall a, a < nx -> upd g nx n a = g a) by (intros a Ha; apply upd_other; lia).
  constructor; auto.
  - intros a Ha. eapply wfn_ext with (g := g) (nx := nx) (nb := nb); auto.
    + destruct (Nat.eq_dec a nx) as [->|Z]; [rewrite upd_same; auto|]. rewrite upd_other by auto. apply W. lia.
    + intros b Hb. rewrite HH; auto.
  - intros a Ha. rewrite HH; auto.
  - intros a k Ha I. eapply keep; eauto. intros b Hb. rewrite HH; auto.
Qed.

Lemma add_all_wfn : forall g nx nb l n, Forall (fun b => b < nb) l -> wfn g nx nb n -> wfn g nx nb (add_all l n).
Proof.
  intros g nx nb l n F W. apply map_wfn; auto. intros p _ Fp. cbn. apply Forall_app. auto.
Qed.
Lemma add_all_hdr : forall l n, hdr (add_all l n) = hdr n.
Proof. intros. apply map_hdr. auto. Qed.
Lemma add_all_slot : forall l n k, slot k (pvs (add_all l n)) = option_map (fun p => setbs p (l ++ bs p)) (slot k (pvs n)).
Proof. intros. apply map_slot. auto. Qed.
Lemma add_all_nil : forall n, add_all [] n = n.
Proof.
  intros [h ps u]. unfold add_all. cbn. f_equal. induction ps as [|[k c b] ps IH]; cbn; f_equal; auto.
Qed.
Lemma add_all_kids : forall l n, kids (add_all l n) = kids n.
Proof. intros. unfold kids, add_all. cbn. rewrite map_map. cbn. auto. Qed.

(** What a node has that has the children of [n] and more branches. *)
Lemma lk_like : forall g nx nb B g' B' a n l k q,
  wf g nx nb -> wfn g nx nb n -> inr n k ->
  (forall b, b < nb -> B' b = B b) -> (forall a, a < nx -> hdr (g' a) = hdr (g a)) ->
  (forall c, c < nx -> S (ht (g c)) = ht n -> inr (g c) k -> lk g' B' c k = lk g B c k) ->
  slot k (pvs (g' a)) = Some q -> ht (g' a) = ht n ->
  (exists p, slot k (pvs n) = Some p /\ bs q = l ++ bs p /\ ch q = ch p) ->
  forall r, g r = n -> lk g' B' a k = all_of B' l k ++ lk g B r k.
Proof.
  intros g nx nb B g' B' a n l k q W Wn I HB HH HL Sq Hh (p & Sp & Eb & Ec) r Er.
  subst n. destruct (lk_node g B nx nb r k Wn I) as (p' & E1 & E2 & E3 & E4).
  rewrite Sp in E1. injection E1 as <-. rewrite E3. rewrite (lk_unf g' B' a k q); auto.
  - rewrite Hh, Eb, Ec, all_of_app, <- app_assoc. f_equal. rewrite (all_of_ext B B' nb); auto. f_equal.
    destruct (Nat.eqb_spec (ht (g r)) 0) as [Z|Z]; auto. destruct (E4 Z) as (K1 & K2 & K3). auto.
  - rewrite Hh, Ec. intros Z. destruct (E4 Z) as (K1 & K2 & K3). rewrite (hdr_ht _ _ (HH _ K1)). auto.
Qed.

(** The copy of a node, with branches added. *)
Lemma lk_fresh : forall g nx nb B l r k, wf g nx nb -> r < nx -> inr (g r) k ->
  Forall (fun b => b < nb) l ->
  lk (upd g nx (add_all l (g r))) B nx k = all_of B l k ++ lk g B r k.
Proof.
  intros g nx nb B l r k W Hr I F.
  pose proof (eff_fresh g nx nb B _ W (add_all_wfn _ _ _ l _ F (W r Hr))) as E.
  destruct (wfn_slot _ _ _ _ _ (W r Hr) I) as (l1 & p & r1 & _ & _ & _ & _ & Sp).
  eapply (lk_like g nx nb B _ B nx (g r) l k); eauto.
  - intros a Ha. apply (e_hdr _ _ _ _ _ _ _ _ E a Ha).
  - intros c Hc _ Ic. apply (e_lk _ _ _ _ _ _ _ _ E c k Hc Ic).
  - rewrite upd_same, add_all_slot, Sp. cbn. reflexivity.
  - rewrite upd_same. auto.
  - exists p. auto.
Qed.

(** One node's pivots changed, nothing else of it. *)
Lemma eff_edit : forall g g1 nx nx1 nb B e n, wf g nx nb -> nx <= nx1 -> e < nx ->
  (forall a, a < nx -> g1 a = g a) -> (forall a, nx <= a -> a < nx1 -> wfn (upd g1 e n) nx1 nb (g1 a)) ->
  hdr n = hdr (g e) -> wfn (upd g1 e n) nx1 nb n ->
  (forall k, inr (g e) k -> (forall c, c < nx -> ht (g c) < ht (g e) -> inr (g c) k -> lk (upd g1 e n) B c k = lk g B c k) ->
     lk (upd g1 e n) B e k = lk g B e k) ->
  eff g nx nb B (upd g1 e n) nx1 nb B.
Proof.
  intros g g1 nx nx1 nb B e n W Lx He H1 Hn Hd Wn HL.
  assert (HH : forall a, a < nx -> hdr (upd g1 e n a) = hdr (g a)).
  { intros a Ha. destruct (Nat.eq_dec a e) as [->|Z]; [rewrite upd_same; auto|]. rewrite upd_other, H1; auto. }
  constructor; auto.
  - intros a Ha. destruct (Nat.eq_dec a e) as [->|Z]; [rewrite upd_same; auto|]. rewrite (upd_other _ _ _ _ Z).
    destruct (Nat.lt_ge_cases a nx) as [L|L]; [|auto]. rewrite H1 by auto. eapply wfn_ext; eauto.
  - intros a k Ha I. eapply keep; eauto. cbn. intros b k' Hb Ib IH.
    destruct (Nat.eq_dec b e) as [->|Z]; [right; auto|left]. rewrite upd_other, H1; auto.
Qed.

(** ** A child replaced by the pieces of a copy of it. *)
Lemma two_ways : forall {A} (l l1 : list A) p r q r1, l ++ p :: r = l1 ++ q :: r1 ->
  (l = l1 /\ p = q /\ r = r1) \/ (exists m, l = l1 ++ q :: m /\ r1 = m ++ p :: r) \/
  (exists m, r = m ++ q :: r1 /\ l1 = l ++ p :: m).
Proof.
  induction l as [|x l IH]; intros [|y l1] p r q r1 E; cbn in E; injection E as E1 E2; subst.
  - left. auto.
  - right. right. exists l1. auto.
  - right. left. exists l. auto.
  - destruct (IH _ _ _ _ _ E2) as [(-> & -> & ->)|[(m & -> & ->)|(m & -> & ->)]]; auto.
    + right. left. exists m. auto.
    + right. right. exists m. auto.
Qed.

Lemma splice_slot : forall Q' l p r u mid k q l1 r1,
  chain Q' (l ++ mid ++ r) u -> nextk mid None = Some (pk p) ->
  l ++ p :: r = l1 ++ q :: r1 -> pk q <= k -> below k (nextk r1 u) = true ->
  (slot k (l ++ mid ++ r) = Some q /\ In q (l ++ r)) \/ (q = p /\ below k (nextk r u) = true).
Proof.
  intros Q' l p r u mid k q l1 r1 C Hm E H1 H2. destruct (two_ways _ _ _ _ _ _ E) as [(-> & -> & ->)|[(m & -> & ->)|(m & -> & ->)]].
  - right. auto.
  - left. split; [|apply in_or_app; left; apply in_or_app; right; left; auto].
    rewrite <- app_assoc in C. rewrite <- app_assoc. cbn [app] in *. eapply slot_here; eauto.
    destruct m as [|x m]; [|exact H2]. cbn [app nextk] in *. destruct mid as [|x mid]; [discriminate|].
    cbn [nextk] in Hm. injection Hm as Hm. cbn [app nextk]. rewrite Hm. auto.
  - left. split; [|apply in_or_app; right; apply in_or_app; right; left; auto].
    rewrite !app_assoc in *. eapply slot_here; eauto.
Qed.

Definition mids (lb : list nat) (a : nat) (ns : list node) : list piv := map (fun h => setbs h lb) (heads a ns).

Lemma heads_bs : forall ns a p, In p (heads a ns) -> bs p = [].
Proof.
  induction ns as [|n ns IH]; intros a p; cbn; [tauto|]. destruct (pvs n); [apply IH|]. intros [<-|H]; auto. eapply IH; eauto.
Qed.
Lemma heads_nil : forall ns a, mids [] a ns = heads a ns.
Proof.
  intros ns a. unfold mids. rewrite <- map_id. apply map_ext_in. intros p Hp.
  pose proof (heads_bs _ _ _ Hp). destruct p; cbn in *. subst. auto.
Qed.

(** What a piece has. *)
Lemma piece_lk : forall g nx nb B g' B' la d cs ns k j P,
  wf g nx nb -> d < nx -> inr (g d) k -> Forall (fun b => b < nb) la ->
  pieces (add_all la (g d)) cs = Some ns ->
  nth_error ns j = Some P -> inr P k -> g' (nx + j) = P ->
  (forall b, b < nb -> B' b = B b) -> (forall a, a < nx -> hdr (g' a) = hdr (g a)) ->
  (forall c, c < nx -> S (ht (g c)) = ht (g d) -> inr (g c) k -> lk g' B' c k = lk g B c k) ->
  lk g' B' (nx + j) k = all_of B' la k ++ lk g B d k.
Proof.
  intros g nx nb B g' B' la d cs ns k j P W Hd I F E F1 F2 EP HB HH HL.
  destruct (pieces_ok _ _ _ _ _ _ (add_all_wfn _ _ _ la _ F (W d Hd)) E) as (Y1 & _ & _ & Y4).
  destruct (Y4 k j P (inr_hdr _ _ _ (eq_sym (add_all_hdr la (g d))) I) F1 F2) as (p & q & F3 & F4 & F5).
  destruct (wfn_slot _ _ _ _ _ (W d Hd) I) as (_ & p0 & _ & _ & _ & _ & _ & Sp).
  rewrite add_all_slot, Sp in F4. cbn in F4. injection F4 as <-. destruct F5 as [F5 F6]. cbn in F5, F6.
  eapply (lk_like g nx nb B g' B' (nx + j) (g d) la k p); eauto.
  - rewrite EP; auto.
  - rewrite EP. destruct (Y1 _ _ F1) as (_ & -> & _). auto.
Qed.

Lemma splice_eff : forall g nx nb B e l p r la lb cs ns, wf g nx nb -> e < nx ->
  pvs (g e) = l ++ p :: r -> ht (g e) <> 0 -> bs p = lb ++ la ->
  pieces (add_all la (g (ch p))) cs = Some ns ->
  eff g nx nb B (upd (store g nx ns) e (Nd (ht (g e)) (l ++ mids lb nx ns ++ r) (ub (g e)))) (nx + length ns) nb B.
Proof.
  intros g nx nb B e l p r la lb cs ns W He Ep Hh Eb E.
  pose proof (W e He) as (V1 & V2 & V3). rewrite Ep in V3. pose proof V3 as V3'.
  apply chain_app in V3. destruct V3 as [V3 V4]. cbn [chain] in V4. destruct V4 as (U1 & U2 & U3).
  assert (Fp : Forall (fun b => b < nb) la /\ Forall (fun b => b < nb) lb).
  { destruct U2 as [U2 _]. rewrite Eb in U2. apply Forall_app in U2. tauto. }
  destruct Fp as [Fa Fb]. destruct (proj2 U2 Hh) as (Hd & Kh & Kl & Ku). set (d := ch p) in *.
  pose proof (add_all_hdr la (g d)) as Ah.
  destruct (pieces_ok _ _ _ _ _ _ (add_all_wfn _ _ _ la _ Fa (W d Hd)) E) as (Y1 & (P0 & r0 & Y2 & Y2') & Y3 & Y4).
  specialize (Y3 nx). rewrite (hdr_ub _ _ Ah), Ku in Y3. rewrite (hdr_lo _ _ Ah), Kl in Y2'.
  set (n := Nd (ht (g e)) (l ++ mids lb nx ns ++ r) (ub (g e))).
  assert (Hm : forall u, nextk (mids lb nx ns) u = Some (pk p)).
  { intros u. subst ns. unfold mids. cbn. unfold lo in Y2'. destruct (pvs P0); [discriminate|]. cbn. congruence. }
  assert (G1 : forall a, a < nx -> store g nx ns a = g a) by (intros a Ha; apply store_old; auto).
  assert (Hdr : hdr n = hdr (g e)).
  { unfold hdr, lo, n; cbn. rewrite Ep. destruct l; auto. cbn. specialize (Hm None). destruct (mids lb nx ns); [discriminate|].
    cbn in *. congruence. }
  assert (HH : forall a, a < nx -> hdr (upd (store g nx ns) e n a) = hdr (g a)).
  { intros a Ha. destruct (Nat.eq_dec a e) as [->|Z]; [rewrite upd_same; auto|]. rewrite upd_other, G1; auto. }
  assert (Gn : forall j P, nth_error ns j = Some P -> upd (store g nx ns) e n (nx + j) = P).
  { intros j P Hj. rewrite upd_other by lia. apply store_new. auto. }
  assert (Ge : upd (store g nx ns) e n e = n) by apply upd_same.
  assert (X : forall q e', kid g nx nb (ht (g e)) q e' -> kid (upd (store g nx ns) e n) (nx + length ns) nb (ht (g e)) q e').
  { intros q e' [K1 K2]. split; auto. intros Z. destruct (K2 Z) as (K3 & K4 & K5 & K6). pose proof (HH _ K3) as Y.
    rewrite (hdr_ht _ _ Y), (hdr_lo _ _ Y), (hdr_ub _ _ Y). repeat split; auto. lia. }
  assert (Wn : wfn (upd (store g nx ns) e n) (nx + length ns) nb n).
  { split; [|split].
    - unfold n; cbn. specialize (Hm None). destruct (mids lb nx ns); [discriminate|]. destruct l; discriminate.
    - unfold n; cbn [ht pvs]. intros Z. congruence.
    - change (chain (kid (upd (store g nx ns) e n) (nx + length ns) nb (ht (g e))) (l ++ mids lb nx ns ++ r) (ub (g e))).
      apply chain_app. rewrite nextk_app, Hm. split; [eapply chain_imp; [|exact V3]; auto|].
      apply chain_app. split; [|eapply chain_imp; [|exact U3]; auto].
      unfold mids. eapply map_chain; [| |exact Y3]; [auto|]. intros q e' _ (_ & j & P & Z1 & Z2 & Z3 & Z4). split; [exact Fb|].
      cbn [setbs ch pk]. intros _. rewrite Z1, (Gn _ _ Z2). destruct (Y1 _ _ Z2) as (_ & Z5 & _).
      assert (j < length ns) by (apply nth_error_Some; congruence).
      rewrite Z5, (hdr_ht _ _ Ah). repeat split; auto. lia. }
  apply eff_edit; auto; [lia| |].
  - fold n. intros a L1 L2. destruct (nth_error ns (a - nx)) as [P|] eqn:EP; [|apply nth_error_None in EP; lia].
    replace a with (nx + (a - nx)) by lia. rewrite (store_new _ _ _ _ _ EP). eapply wfn_ext; [apply (Y1 _ _ EP)|auto|lia|auto].
  - fold n. intros k Ik IH. destruct (wfn_slot _ _ _ _ _ (W e He) Ik) as (l1 & q & r1 & D1 & D2 & D3 & D4 & D5).
    destruct (lk_node g B nx nb e k (W e He) Ik) as (q' & F1 & F2 & F3 & F4).
    rewrite D5 in F1. injection F1 as <-. destruct (F4 Hh) as (K1 & K2 & K3). rewrite F3, (proj2 (Nat.eqb_neq _ _) Hh).
    destruct Wn as (_ & _ & Wc). unfold n in Wc; cbn [pvs ub ht] in Wc. rewrite Ep in D1.
    destruct (splice_slot _ _ p _ _ _ k _ _ _ Wc (Hm None) D1 D2 D3) as [[S1 S2]|[-> S2]].
    + rewrite (lk_unf _ B e k q); [|rewrite Ge; exact S1|].
      * rewrite Ge. change (ht n) with (ht (g e)). rewrite (proj2 (Nat.eqb_neq _ _) Hh). f_equal. apply IH; auto. lia.
      * rewrite Ge. change (ht n) with (ht (g e)). intros _. rewrite (hdr_ht _ _ (HH _ K1)). auto.
    + fold d in K1, K2, K3.
      assert (Cm : chain (kid (upd (store g nx ns) e n) (nx + length ns) nb (ht (g e))) (mids lb nx ns) (nextk r (ub (g e)))).
      { apply chain_app in Wc. destruct Wc as [_ Wc]. apply chain_app in Wc. apply Wc. }
      assert (M0 : exists h0 t0, mids lb nx ns = h0 :: t0 /\ pk h0 = pk p).
      { specialize (Hm None). destruct (mids lb nx ns) as [|h0 t0]; [discriminate|]. injection Hm as Hm. eauto. }
      destruct M0 as (h0 & t0 & M0 & M1).
      destruct (slot_find _ _ _ k h0 t0 Cm M0 ltac:(lia) S2) as (m1 & q & m2 & N1 & N2 & N3 & N4).
      assert (Sq : slot k (pvs n) = Some q).
      { unfold n; cbn [pvs]. rewrite N1 in *. rewrite <- app_assoc. rewrite <- app_assoc in Wc. cbn [app] in *.
        rewrite app_assoc in *. eapply slot_here; eauto. rewrite nextk_app. auto. }
      rewrite (lk_unf _ B e k q); [|rewrite Ge; exact Sq|].
      2:{ rewrite Ge. change (ht n) with (ht (g e)). intros _. apply N4. auto. }
      rewrite Ge. change (ht n) with (ht (g e)). rewrite (proj2 (Nat.eqb_neq _ _) Hh).
      assert (Hq : bs q = lb /\ exists j', ch q = nx + j' /\ exists P', nth_error ns j' = Some P' /\ lo P' = Some (pk q) /\ ub P' = nextk m2 (nextk r (ub (g e)))).
      { unfold mids in N1. assert (Y5 := Y3). eapply map_chain with (f := fun h => setbs h lb) (Q' := fun p e => bs p = lb /\ exists j', ch p = nx + j' /\ exists P', nth_error ns j' = Some P' /\ lo P' = Some (pk p) /\ ub P' = e) in Y5; auto.
        - rewrite N1 in Y5. apply chain_app in Y5. destruct Y5 as [_ Y5]. cbn [chain] in Y5. apply Y5.
        - cbn. intros p1 e1 _ (_ & j1 & P1 & A1 & A2 & A3 & A4). split; auto. exists j1. split; auto. exists P1. auto. }
      destruct Hq as [Q1 (j' & Q2 & P' & Q3 & Q4 & Q5)]. rewrite Q1, Q2, Eb, all_of_app, <- app_assoc. f_equal.
      assert (IP' : inr P' k) by (split; [exists (pk q); auto|rewrite Q5; auto]).
      eapply piece_lk; eauto. intros c Hc Hc' Ic. apply IH; auto. lia.
Qed.

(** trunk_copy_node_and_add_to_parent. *)
Lemma reslot_eff : forall g nx nb B e k0 p, wf g nx nb -> e < nx -> inr (g e) k0 -> ht (g e) <> 0 ->
  slot k0 (pvs (g e)) = Some p ->
  eff g nx nb B (upd (upd g nx (g (ch p))) e (Nd (ht (g e)) (reslot k0 (pvs (g e)) nx) (ub (g e)))) (S nx) nb B /\
  ch p < nx /\ inr (g (ch p)) k0 /\ S (ht (g (ch p))) = ht (g e) /\ In (ch p) (kids (g e)) /\
  kids_from (Nd (ht (g e)) (reslot k0 (pvs (g e)) nx) (ub (g e))) (g e) nx.
Proof.
  intros g nx nb B e k0 p W He I Hh Sp.
  destruct (wfn_slot _ _ _ _ _ (W e He) I) as (l & p' & r & E1 & E2 & E3 & E4 & E5).
  rewrite Sp in E5. injection E5 as <-. pose proof (W e He) as (V1 & V2 & V3). rewrite E1 in V3.
  destruct (slot_here _ _ _ _ _ _ V3 E2 E3) as [_ Er]. rewrite E1, Er. pose proof (proj2 E4 Hh) as (K1 & K2 & K3 & K4).
  split; [|split; [|split; [|split; [|split]]]]; auto.
  - pose proof (splice_eff g nx nb B e l p r [] (bs p) [] [g (ch p)] W He E1 Hh) as X.
    rewrite app_nil_r, add_all_nil in X. specialize (X eq_refl eq_refl).
    assert (M : mids (bs p) nx [g (ch p)] = [setch p nx]).
    { unfold mids, setch. cbn. unfold lo in K3. destruct (pvs (g (ch p))); [discriminate|]. cbn. injection K3 as ->. auto. }
    rewrite M in X. cbn [length store] in X. rewrite Nat.add_1_r in X. exact X.
  - eapply kid_inr; eauto.
  - unfold kids. rewrite (proj2 (Nat.eqb_neq _ _) Hh), E1, map_app. apply in_or_app. right. left. auto.
  - intros c. unfold kids. cbn [ht pvs]. rewrite (proj2 (Nat.eqb_neq _ _) Hh), E1, !map_app. cbn.
    intros H. apply in_app_or in H. destruct H as [H|[H|H]]; [left|right; lia|left]; apply in_or_app; cbn; auto.
Qed.

Lemma cut_kids : forall n c l n', cut_node n c = Some (l, n') -> incl (kids l) (kids n) /\ incl (kids n') (kids n).
Proof.
  intros n c l n' E. unfold cut_node in E. destruct (Nat.eqb_spec (ht n) 0) as [Z|Z].
  - destruct (pvs n); [discriminate|]. destruct ((pk p <? c) && below c (ub n)); [|discriminate]. injection E as <- <-. split; intros x [].
  - destruct (firstn c (pvs n)) as [|p0 r0] eqn:E1; [discriminate|]. destruct (skipn c (pvs n)) as [|p r] eqn:E2; [discriminate|].
    injection E as <- <-. unfold kids. cbn [ht pvs]. rewrite (proj2 (Nat.eqb_neq _ _) Z).
    rewrite <- (firstn_skipn c (pvs n)), E1, E2, map_app. split; [apply incl_appl|apply incl_appr]; apply incl_refl.
Qed.
Lemma pieces_kids : forall cs n ns P, pieces n cs = Some ns -> In P ns -> incl (kids P) (kids n).
Proof.
  induction cs as [|c cs IH]; intros n ns P E H.
  - injection E as <-. destruct H as [<-|[]]. apply incl_refl.
  - cbn in E. destruct (cut_node n c) as [[l n']|] eqn:Ec; [|discriminate]. destruct (pieces n' cs) as [ps|] eqn:Ep; [|discriminate].
    injection E as <-. destruct (cut_kids _ _ _ _ Ec) as [K1 K2]. destruct H as [<-|H]; auto.
    eapply incl_tran; [eapply IH; eauto|auto].
Qed.
Lemma heads_ch : forall ns a p, In p (heads a ns) -> a <= ch p.
Proof.
  induction ns as [|n ns IH]; intros a p; cbn; [tauto|]. destruct (pvs n).
  - intros H. apply IH in H. lia.
  - intros [<-|H]; cbn; auto. apply IH in H. lia.
Qed.

Lemma nth_split_at : forall {A} (l : list A) i x, nth_error l i = Some x -> l = firstn i l ++ x :: skipn (S i) l.
Proof.
  induction l as [|y l IH]; intros [|i] x H; cbn in *; try discriminate; [congruence|]. f_equal. auto.
Qed.

(** trunk_flush. *)
Lemma flush_eff : forall g nx nb B e i q cs ns, wf g nx nb -> e < nx -> nth_error (pvs (g e)) i = Some q ->
  ht (g e) <> 0 -> pieces (add_all (bs q) (g (ch q))) cs = Some ns ->
  let n := Nd (ht (g e)) (firstn i (pvs (g e)) ++ heads nx ns ++ skipn (S i) (pvs (g e))) (ub (g e)) in
  eff g nx nb B (upd (store g nx ns) e n) (nx + length ns) nb B /\
  ch q < nx /\ In (ch q) (kids (g e)) /\ kids_from n (g e) nx /\
  (forall P, In P ns -> incl (kids P) (kids (g (ch q)))).
Proof.
  intros g nx nb B e i q cs ns W He Hq Hh E n. pose proof (nth_split_at _ _ _ Hq) as Ep.
  assert (Kq : ch q < nx).
  { destruct (W e He) as (_ & _ & V3). destruct (chain_in _ _ _ q V3 (nth_error_In _ _ Hq)) as (e' & K). apply K; auto. }
  assert (Kk : kids (g e) = map ch (pvs (g e))) by (unfold kids; rewrite (proj2 (Nat.eqb_neq _ _) Hh); auto).
  split; [|split; [|split; [|split]]]; auto.
  - unfold n. replace (heads nx ns) with (mids [] nx ns) by apply heads_nil.
    apply (splice_eff g nx nb B e _ q _ (bs q) [] cs ns W He Ep Hh eq_refl E).
  - rewrite Kk. apply in_map. eapply nth_error_In; eauto.
  - intros c. rewrite Kk. unfold kids, n. cbn [ht pvs]. rewrite (proj2 (Nat.eqb_neq _ _) Hh), !map_app. intros H.
    apply in_app_or in H. destruct H as [H|H]; [left|apply in_app_or in H; destruct H as [H|H]].
    + rewrite Ep, map_app. apply in_or_app. auto.
    + right. apply in_map_iff in H. destruct H as (p & <- & H). eapply heads_ch; eauto.
    + left. rewrite Ep, map_app. apply in_or_app. right. right. auto.
  - intros P HP. rewrite <- (add_all_kids (bs q) (g (ch q))). eapply pieces_kids; eauto.
Qed.

(** trunk_split_root. *)
Lemma grow_eff : forall g nx nb B a cs ns, wf g nx nb -> a < nx -> pieces (g a) cs = Some ns ->
  let n := Nd (S (ht (g a))) (heads nx ns) (ub (g a)) in
  let g' := upd (store g nx ns) (nx + length ns) n in
  eff g nx nb B g' (S (nx + length ns)) nb B /\
  lo n = lo (g a) /\ (forall k, inr (g a) k -> lk g' B (nx + length ns) k = lk g B a k) /\
  (forall c, In c (kids n) -> nx <= c) /\ (forall P, In P ns -> incl (kids P) (kids (g a))).
Proof.
  intros g nx nb B a cs ns W Ha E n g'.
  destruct (pieces_ok _ _ _ _ _ _ (W a Ha) E) as (Y1 & (P0 & r0 & Y2 & Y2') & Y3 & Y4).
  assert (G1 : forall b, b < nx -> g' b = g b) by (intros b Hb; unfold g'; rewrite upd_other by lia; apply store_old; auto).
  assert (Gn : forall j P, nth_error ns j = Some P -> g' (nx + j) = P).
  { intros j P Hj. assert (j < length ns) by (apply nth_error_Some; congruence).
    unfold g'. rewrite upd_other by lia. apply store_new. auto. }
  assert (Ge : g' (nx + length ns) = n) by apply upd_same.
  assert (HH : forall b, b < nx -> hdr (g' b) = hdr (g b)) by (intros b Hb; rewrite G1; auto).
  assert (Cn : chain (kid g' (S (nx + length ns)) nb (ht n)) (heads nx ns) (ub (g a))).
  { eapply chain_imp; [|exact (Y3 nx)]. intros p e _ (Z0 & j & P & Z1 & Z2 & Z3 & Z4). split; [rewrite Z0; auto|]. intros _.
    rewrite Z1, (Gn _ _ Z2). destruct (Y1 _ _ Z2) as (_ & Z5 & _).
    assert (j < length ns) by (apply nth_error_Some; congruence). rewrite Z5. repeat split; auto; lia. }
  assert (M0 : exists h0 t0, heads nx ns = h0 :: t0 /\ lo (g a) = Some (pk h0)).
  { rewrite <- Y2', Y2. cbn. unfold lo in *. destruct (pvs P0) as [|p r] eqn:Ep.
    - destruct (Y1 0 P0) as ((V1 & _) & _); [rewrite Y2; auto|congruence].
    - eexists _, _. split; eauto. }
  destruct M0 as (h0 & t0 & M0 & M1).
  assert (Ln : lo n = lo (g a)) by (rewrite M1; unfold lo, n; cbn; rewrite M0; auto).
  assert (Wn : wfn g' (S (nx + length ns)) nb n).
  { split; [unfold n; cbn; rewrite M0; discriminate|]. split; [unfold n; cbn; discriminate|]. exact Cn. }
  assert (EF : eff g nx nb B g' (S (nx + length ns)) nb B).
  { constructor; auto; try lia.
    - intros b Hb. destruct (Nat.lt_ge_cases b nx) as [L|L]; [rewrite G1 by auto; eapply wfn_ext; eauto; lia|].
      destruct (Nat.eq_dec b (nx + length ns)) as [->|Z]; [rewrite Ge; auto|].
      destruct (nth_error ns (b - nx)) as [P|] eqn:EP; [|apply nth_error_None in EP; lia].
      replace b with (nx + (b - nx)) by lia. rewrite (Gn _ _ EP). eapply wfn_ext; [apply (Y1 _ _ EP)|auto|lia|auto].
    - intros b k Hb I. eapply keep; eauto. }
  split; auto. split; auto. split; [|split].
  - intros k I.
    assert (In' : inr n k) by (destruct I as [I1 I2]; split; [rewrite Ln; auto|auto]).
    destruct (wfn_slot _ _ _ _ _ Wn In') as (l1 & q & r1 & D1 & D2 & D3 & D4 & D5).
    rewrite (lk_unf g' B _ k q); rewrite ?Ge; auto; [|intros Z; apply D4; auto].
    change (ht n =? 0) with false. cbn match.
    pose proof (Y3 nx) as Y3'. change (pvs n) with (heads nx ns) in D1. rewrite D1 in Y3'. apply chain_app in Y3'.
    destruct Y3' as [_ Y3']. cbn [chain] in Y3'. destruct Y3' as (_ & (Q1 & j & P & Q2 & Q3 & Q4 & Q5) & _).
    rewrite Q1, Q2. cbn [all_of flat_map app].
    assert (IP : inr P k) by (split; [exists (pk q); auto|rewrite Q5; auto]).
    pose proof (piece_lk g nx nb B g' B [] a cs ns k j P W Ha I (Forall_nil _)) as X. rewrite add_all_nil in X.
    specialize (X E Q3 IP (Gn _ _ Q3) ltac:(auto) HH). rewrite X; auto.
    intros c Hc _ Ic. apply (e_lk _ _ _ _ _ _ _ _ EF c k Hc Ic).
  - intros c. unfold kids, n. cbn. intros H. apply in_map_iff in H. destruct H as (p & <- & H). eapply heads_ch; eauto.
  - intros P HP. eapply pieces_kids; eauto.
Qed.

(** trunk_replace_bundle_branches. *)
Lemma replaced_eff : forall g nx nb B e sg b, wf g nx nb -> e < nx -> b < nb ->
  (forall k, B b k = all_of B sg k) ->
  eff g nx nb B (upd g e (replaced sg [b] (g e))) nx nb B /\ kids (replaced sg [b] (g e)) = kids (g e).
Proof.
  intros g nx nb B e sg b W He Hb HB.
  change (replaced sg [b] (g e)) with (Nd (ht (g e)) (map (rp sg [b]) (pvs (g e))) (ub (g e))).
  set (n := Nd (ht (g e)) (map (rp sg [b]) (pvs (g e))) (ub (g e))).
  assert (Hd : hdr n = hdr (g e)) by (apply map_hdr; apply rp_key).
  assert (HH : forall a, a < nx -> hdr (upd g e n a) = hdr (g a)).
  { intros a Ha. destruct (Nat.eq_dec a e) as [->|Z]; [rewrite upd_same; auto|]. rewrite upd_other; auto. }
  split.
  - apply eff_edit; auto.
    + intros; lia.
    + fold n. eapply wfn_ext with (g := g) (nx := nx) (nb := nb); auto.
      apply map_wfn; auto; [apply rp_key|]. intros p _ F. apply rp_bs; auto.
    + fold n. intros k Ik IH. destruct (lk_node g B nx nb e k (W e He) Ik) as (p & F1 & F2 & F3 & F4). rewrite F3.
      assert (Sp : slot k (pvs n) = Some (rp sg [b] p)).
      { unfold n; cbn [pvs]. rewrite map_slot, F1; auto. intros; apply rp_key. }
      destruct (rp_key sg [b] p) as [_ Ec].
      rewrite (lk_unf _ B e k (rp sg [b] p)); rewrite ?upd_same; auto; rewrite Ec.
      * change (ht n) with (ht (g e)). rewrite rp_all by auto. f_equal.
        destruct (Nat.eqb_spec (ht (g e)) 0) as [Z|Z]; auto. destruct (F4 Z) as (K1 & K2 & K3). apply IH; auto. lia.
      * change (ht n) with (ht (g e)). intros Z. destruct (F4 Z) as (K1 & K2 & K3). rewrite (hdr_ht _ _ (HH _ K1)). auto.
  - unfold kids, n. cbn [ht pvs]. rewrite map_map. destruct (ht (g e) =? 0); auto. apply map_ext. intros p. apply rp_key.
Qed.
