(** Lookups, incorporations and compactions of the trunk do not lock each other out.  Each
    page has the number of the copy of the root it was made under; a child's number is
    not greater than its parent's, and the nodes of the old tree a compaction walks
    through have smaller numbers than the node it keeps locked. *)
From Coq Require Import List Arith Bool Lia.
Import ListNotations.
From Verif Require Import CTrunk CTrunkSpec CTrunkInv CTrunkOps CTrunkProofs CTrunkSteps CTrunkLin.
Local Open Scope nat_scope.

Definition tpc (g : nat -> node) (nx : nat) (T : nat -> nat) (root : nat) (t : pc) : Prop :=
  match t with
  | P2 _ a old => T old < T a /\ T root < T a
  | P3 _ e old | K0 _ e old => T old < T e
  | P4 _ e old n => T old < T e /\ ht n = ht (g e) /\
      forall c, In c (kids n) -> c < nx /\ T c <= T e /\ ht (g c) < ht (g e)
  | K1 _ e up a => T a < T e /\ match up with Some b => T a <= T b /\ ht (g a) < ht (g b) | None => True end
  | K2 _ e a => T a < T e
  | I2 _ a own => forall p, In p own -> T p = T a
  | _ => True
  end.

Definition tkids (g : nat -> node) (nx : nat) (T : nat -> nat) : Prop :=
  forall q c, q < nx -> In c (kids (g q)) -> c < nx /\ T c <= T q /\ ht (g c) < ht (g q).

Record tinv (s : state) (T : nat -> nat) : Prop := Tinv {
  t_kid : tkids (mem s) (nx s) T;
  t_lt : forall q, q < nx s -> T q < nx s;
  t_pc : forall i t, nth_error (ths s) i = Some t -> tpc (mem s) (nx s) T (root s) t }.

(** ** Children. *)
Lemma replaced_kids : forall sg l n, kids (replaced sg l n) = kids n.
Proof.
  intros sg l n. unfold kids, replaced. cbn [ht pvs]. destruct (ht n =? 0); auto. rewrite map_map. apply map_ext.
  intros p. destruct (swap sg l (bs p)); auto.
Qed.
Lemma reslot_ch : forall k ps x c, In c (map ch (reslot k ps x)) -> c = x \/ In c (map ch ps).
Proof.
  intros k. induction ps as [|p ps IH]; intros x c; cbn [reslot map In]; [tauto|]. destruct (k <? pk p); [cbn [map In]; tauto|].
  destruct (slot k ps); cbn [map In]; intros [H|H]; auto. destruct (IH _ _ H); auto.
Qed.
Lemma pieces_kids : forall cs n ns, pieces n cs = Some ns -> Forall (fun P => ht P = ht n /\ incl (kids P) (kids n)) ns.
Proof.
  induction cs as [|c cs IH]; intros n ns; cbn [pieces].
  - intros [= <-]. constructor; auto. split; auto. apply incl_refl.
  - destruct (cut_node n c) as [[l r]|] eqn:E; [|discriminate]. destruct (pieces r cs) as [ps|] eqn:Ep; [|discriminate].
    intros [= <-]. assert (X : (ht l = ht n /\ incl (kids l) (kids n)) /\ (ht r = ht n /\ incl (kids r) (kids n))).
    { unfold cut_node in E. unfold kids. destruct (Nat.eqb_spec (ht n) 0) as [Z|Z].
      - destruct (pvs n) as [|p q]; [discriminate|]. destruct ((pk p <? c) && below c (ub n)); [|discriminate]. injection E as <- <-.
        cbn [ht]. rewrite Z. cbn. repeat split; auto; intros x [].
      - destruct (firstn c (pvs n)) as [|p1 q1] eqn:F1; [discriminate|]. destruct (skipn c (pvs n)) as [|p2 q2] eqn:F2; [discriminate|].
        injection E as <- <-. cbn [ht pvs]. rewrite (proj2 (Nat.eqb_neq _ _) Z). rewrite <- F1, <- F2.
        repeat split; auto; intros x Hx; apply in_map_iff in Hx; destruct Hx as (p & <- & Hp); apply in_map.
        + rewrite <- (firstn_skipn c (pvs n)). apply in_or_app. auto.
        + rewrite <- (firstn_skipn c (pvs n)). apply in_or_app. auto. }
    destruct X as [X1 [X2 X3]]. constructor; auto. eapply Forall_impl; [|exact (IH _ _ Ep)]. cbn. intros P [P1 P2].
    split; [congruence|]. eapply incl_tran; eauto.
Qed.
Lemma heads_ch : forall ns a c, In c (map ch (heads a ns)) -> exists j P, c = a + j /\ nth_error ns j = Some P.
Proof.
  induction ns as [|n ns IH]; intros a c; cbn [heads]; [intros []|].
  assert (R : In c (map ch (heads (S a) ns)) -> exists j P, c = a + j /\ nth_error (n :: ns) j = Some P).
  { intros H. destruct (IH _ _ H) as (j & P & -> & HP). exists (S j), P. split; [lia|auto]. }
  destruct (pvs n); auto. cbn [map In ch]. intros [<-|H]; auto. exists 0, n. split; [lia|auto].
Qed.

(** ** One thread moves. *)
Lemma tframe : forall s ef m f T i t t' g' nx' root' B' nb' fr' T',
  inv s ef m f -> tinv s T -> nth_error (ths s) i = Some t ->
  nx s <= nx' -> (forall q, q < nx s -> ht (g' q) = ht (mem s q)) -> (forall q, q < nx s -> T' q = T q) ->
  tkids g' nx' T' -> (forall q, q < nx' -> T' q < nx') ->
  tpc g' nx' T' root' t' -> (root' = root s \/ root_claim t = true) ->
  tinv (St g' nx' root' B' nb' fr' (put (ths s) i t')) T'.
Proof.
  intros s ef m f T i t t' g' nx' root' B' nb' fr' T' V [K1 K2 K3] Hi HX HH HT HK HL HP HR.
  constructor; cbn [ths mem nx root]; auto.
  intros j u Hj. rewrite (nth_put _ _ _ _ _ Hi) in Hj. destruct (Nat.eqb_spec j i) as [->|Z]; [injection Hj as <-; auto|].
  pose proof (K3 j u Hj) as KU.
  assert (PG : forall a, In a (pages u ++ priv u) -> a < nx s) by (intros a Ha; eapply (v_pg _ _ _ _ V); eauto).
  destruct (v_root _ _ _ _ V) as (R1 & _).
  destruct u; cbn in *; auto.
  - assert (root' = root s) as -> by (destruct HR as [|HR]; auto; exfalso; eapply (v_claim _ _ _ _ V j i); eauto).
    rewrite !HT; auto.
  - rewrite !HT; auto.
  - destruct KU as (U1 & U2 & U3). rewrite !(HT old), !(HT e), HH by auto. split; auto. split; auto.
    intros c Hc. destruct (U3 c Hc) as (W1 & W2 & W3). rewrite HT, HH by auto. split; [lia|auto].
  - rewrite !HT; auto.
  - assert (Le : e < nx s) by (apply PG; destruct up; cbn; auto). assert (La : a < nx s) by (apply PG; destruct up; cbn; auto).
    rewrite !(HT a), !(HT e) by auto. destruct KU as [U1 U2]. split; auto.
    destruct up as [b|]; auto. assert (Lb : b < nx s) by (apply PG; cbn; auto). rewrite HT, !HH by auto. auto.
  - rewrite !HT; auto.
  - intros p Hp. assert (La : a < nx s).
    { pose proof (v_pc _ _ _ _ V _ _ Hj) as PC. cbn in PC. apply PG. tauto. }
    rewrite !HT; auto.
Qed.

(** Nodes and numbers as before. *)
Lemma tsame : forall s ef m f T i t t' root' B' nb' fr',
  inv s ef m f -> tinv s T -> nth_error (ths s) i = Some t -> tpc (mem s) (nx s) T root' t' ->
  (root' = root s \/ root_claim t = true) ->
  tinv (St (mem s) (nx s) root' B' nb' fr' (put (ths s) i t')) T.
Proof.
  intros s ef m f T i t t' root' B' nb' fr' V TI Hi HP HR. eapply tframe; eauto; destruct TI; auto.
Qed.

(** One more page, and one that has it as a child. *)
Lemma tkids_fresh : forall g nx T n x, tkids g nx T -> (forall c, In c (kids n) -> c < nx /\ T c <= x /\ ht (g c) < ht n) ->
  tkids (upd g nx n) (S nx) (upd T nx x).
Proof.
  intros g nx T n x K H q c Hq. destruct (Nat.eq_dec q nx) as [->|Z].
  - rewrite !upd_same. intros Hc. destruct (H c Hc) as (H1 & H2 & H3). rewrite !upd_other by lia. auto.
  - rewrite !(upd_other _ nx) by auto. intros Hc. destruct (K q c ltac:(lia) Hc) as (H1 & H2 & H3). rewrite !upd_other by lia. auto.
Qed.
Lemma tkids_edit : forall g nx T e n, tkids g nx T -> e < nx -> ht n = ht (g e) ->
  (forall c, In c (kids n) -> c < nx /\ T c <= T e /\ ht (g c) < ht (g e)) -> tkids (upd g e n) nx T.
Proof.
  intros g nx T e n K He Hn H q c Hq.
  assert (HH : forall x, ht (upd g e n x) = ht (g x)) by (intros x; unfold upd; destruct (Nat.eqb_spec x e) as [->|]; auto).
  rewrite !HH. destruct (Nat.eq_dec q e) as [->|Z].
  - rewrite upd_same. apply H.
  - rewrite upd_other by auto. apply K. auto.
Qed.

Definition tstore (T : nat -> nat) (nx : nat) (x : nat) : nat -> nat := fun q => if q <? nx then T q else x.

Lemma tkids_store : forall g nx T ns x h, tkids g nx T ->
  (forall P, In P ns -> ht P = h /\ forall c, In c (kids P) -> c < nx /\ T c <= x /\ ht (g c) < h) ->
  tkids (store g nx ns) (nx + length ns) (tstore T nx x).
Proof.
  intros g nx T ns x h K H q c Hq Hc.
  assert (TO : forall a, a < nx -> tstore T nx x a = T a) by (intros a Ha; unfold tstore; rewrite (proj2 (Nat.ltb_lt _ _) Ha); auto).
  destruct (Nat.lt_ge_cases q nx) as [L|L].
  - rewrite store_old in Hc by auto. destruct (K q c L Hc) as (H1 & H2 & H3). rewrite !TO, !store_old by lia. split; [lia|auto].
  - destruct (nth_error ns (q - nx)) as [P|] eqn:E; [|apply nth_error_None in E; lia].
    assert (EP : store g nx ns q = P) by (replace q with (nx + (q - nx)) by lia; apply store_new; auto).
    rewrite EP in *. destruct (H P (nth_error_In _ _ E)) as [H1 H2]. destruct (H2 c Hc) as (H3 & H4 & H5).
    rewrite TO, store_old by lia. split; [lia|]. split; [|lia]. unfold tstore. destruct (Nat.ltb_spec q nx); lia.
Qed.

Lemma init_tick : forall n, tinv (init n) (fun _ => 0).
Proof.
  intros n. constructor.
  - intros q c Hq Hc. cbn in Hq. assert (C : q = 0 \/ q = 1) by lia. destruct C; subst q; cbn in *; [destruct Hc as [<-|[]]; cbn; lia|tauto].
  - intros q _. cbn. lia.
  - intros i t H. apply nth_repeat_some in H. subst t. exact Logic.I.
Qed.

Lemma slot_kids : forall n k p, slot k (pvs n) = Some p -> ht n <> 0 -> In (ch p) (kids n).
Proof. exact slot_kid. Qed.

Lemma step_tick : forall s ef m f T i c s' l, inv s ef m f -> tinv s T -> step s i c = Some (s', l) -> exists T', tinv s' T'.
Proof.
  intros s ef m f T i c s' l V TI E. unfold step in E. destruct (nth_error (ths s) i) as [t|] eqn:Hi; [|discriminate].
  destruct (v_root _ _ _ _ V) as (R1 & _). pose proof (t_kid _ _ TI) as TK. pose proof (t_lt _ _ TI) as TL.
  assert (PG : forall a, In a (pages t ++ priv t) -> a < nx s) by (intros a Ha; eapply (v_pg _ _ _ _ V); eauto).
  pose proof (t_pc _ _ TI _ _ Hi) as TP.
  destruct c as [c|x].
  - destruct t; try discriminate. destruct (start s c) as [[s1 t1]|] eqn:Es; [|discriminate]. injection E as <- <-.
    exists T. destruct c as [k|c|k h e sg]; cbn [start] in Es.
    + injection Es as <- <-. eapply tsame; eauto; exact Logic.I.
    + injection Es as <- <-. eapply tsame; eauto; exact Logic.I.
    + destruct ((h <=? ht (mem s (root s))) && forallb (fun b => b <? nb s) sg); [|discriminate]. injection Es as <- <-.
      unfold with_branch, set_ths; cbn [mem nx root br nb fr ths]. eapply tsame; eauto; exact Logic.I.
  - destruct (go s i t x) as [[[s1 t1] l1]|] eqn:Eg; [|discriminate]. injection E as <- <-.
    assert (PLAIN : forall fr', tpc (mem s) (nx s) T (root s) t1 ->
      tinv (St (mem s) (nx s) (root s) (br s) (nb s) fr' (put (ths s) i t1)) T) by (intros; eapply tsame; eauto).
    destruct t; destruct x; try discriminate Eg; cbn [go] in Eg; cbn in TP.
    + injection Eg as <- <- <-. exists T. apply PLAIN. exact Logic.I.
    + destruct (can_get s i (root s)); [|discriminate]. injection Eg as <- <- <-. exists T. apply PLAIN. exact Logic.I.
    + destruct (slot k (pvs (mem s a))) as [p|]; [|injection Eg as <- <- <-; exists T; apply PLAIN; exact Logic.I].
      destruct (nth_error (bs p) i0) as [b|].
      * destruct (fr s b k); injection Eg as <- <- <-; exists T; apply PLAIN; exact Logic.I.
      * destruct (ht (mem s a) =? 0); [injection Eg as <- <- <-; exists T; apply PLAIN; exact Logic.I|].
        destruct (can_get s i (ch p)); [|discriminate]. injection Eg as <- <- <-. exists T. apply PLAIN. exact Logic.I.
    + injection Eg as <- <- <-. exists T. apply PLAIN. exact Logic.I.
    + destruct (no_claim s); [|discriminate]. injection Eg as <- <- <-. exists T. apply PLAIN. exact Logic.I.
    + (* P1 *) destruct (can_get s i (root s)); [|discriminate]. injection Eg as <- <- <-. exists (upd T (nx s) (nx s)).
      unfold with_mem, set_ths; cbn [mem nx root br nb fr ths]. pose proof (TL _ R1). eapply tframe; eauto.
      * intros q Hq. rewrite upd_other; auto. lia.
      * intros q Hq. apply upd_other. lia.
      * apply tkids_fresh; auto. intros c Hc. destruct (TK _ _ R1 Hc) as (H1 & H2 & H3). repeat split; auto. lia.
      * intros q Hq. destruct (Nat.eq_dec q (nx s)) as [->|Z]; [rewrite upd_same; lia|]. rewrite upd_other by auto.
        assert (Hq' : q < nx s) by lia. pose proof (TL q Hq'). lia.
      * cbn. rewrite upd_same, upd_other by lia. auto.
    + (* P2 *) destruct (no_reader s); [|discriminate]. injection Eg as <- <- <-. exists T.
      unfold with_root, set_ths; cbn [mem nx root br nb fr ths]. eapply tsame; eauto. cbn. tauto.
    + (* P3 *) assert (Le : e < nx s) by (apply PG; cbn; auto). assert (Lo : old < nx s) by (apply PG; cbn; auto).
      destruct (Nat.ltb_spec (hh o) (ht (mem s e))) as [L|L].
      * destruct (slot (sk o) (pvs (mem s e))) as [p|] eqn:Sp; [|injection Eg as <- <- <-; exists T; apply PLAIN; exact Logic.I].
        destruct (can_get s i (ch p)); [|discriminate]. injection Eg as <- <- <-.
        assert (Kp : In (ch p) (kids (mem s e))) by (eapply slot_kid; eauto; lia).
        destruct (TK _ _ Le Kp) as (H1 & H2 & H3). exists (upd T (nx s) (T e)).
        unfold with_mem, set_ths; cbn [mem nx root br nb fr ths].
        assert (TK1 : tkids (upd (mem s) (nx s) (mem s (ch p))) (S (nx s)) (upd T (nx s) (T e))).
        { apply tkids_fresh; auto. intros c Hc. destruct (TK _ _ H1 Hc) as (Y1 & Y2 & Y3). repeat split; auto. lia. }
        pose proof (TL e Le).
        eapply tframe; eauto.
        -- intros q Hq. unfold upd at 1. destruct (Nat.eqb_spec q e) as [->|Z]; auto. rewrite upd_other by lia. auto.
        -- intros q Hq. apply upd_other. lia.
        -- apply tkids_edit; auto; [rewrite upd_other by lia; auto|]. unfold kids. cbn [ht pvs].
           destruct (Nat.eqb_spec (ht (mem s e)) 0) as [Z|Z]; [lia|].
           intros c Hc. apply reslot_ch in Hc. rewrite !(upd_other _ _ _ e) by lia. destruct Hc as [->|Hc].
           ++ rewrite !upd_same. lia.
           ++ assert (Kc : In c (kids (mem s e))) by (unfold kids; rewrite (proj2 (Nat.eqb_neq _ _) Z); auto).
              destruct (TK _ _ Le Kc) as (Y1 & Y2 & Y3). rewrite !upd_other by lia. lia.
        -- intros q Hq. destruct (Nat.eq_dec q (nx s)) as [->|Z]; [rewrite upd_same; lia|]. rewrite upd_other by auto.
           assert (Hq' : q < nx s) by lia. pose proof (TL q Hq'). lia.
        -- cbn. rewrite upd_same, upd_other by lia. auto.
      * destruct (hh o =? ht (mem s e)); [|injection Eg as <- <- <-; exists T; apply PLAIN; exact Logic.I].
        destruct ((ht (mem s e) =? 0) && negb (same (ub (mem s e)) (ek o))); [injection Eg as <- <- <-; exists T; apply PLAIN; exact Logic.I|].
        injection Eg as <- <- <-. exists T. unfold with_mem, set_ths; cbn [mem nx root br nb fr ths].
        assert (HH : forall q, ht (upd (mem s) e (replaced (seg o) [] (mem s e)) q) = ht (mem s q)).
        { intros q. unfold upd. destruct (Nat.eqb_spec q e) as [->|]; auto. }
        eapply tframe; eauto.
        -- apply tkids_edit; auto. intros c. rewrite replaced_kids. apply TK. auto.
        -- cbn. split; auto. rewrite HH. split; auto. intros c Hc. rewrite HH. apply TK; auto.
    + (* P4 *) assert (Le : e < nx s) by (apply PG; cbn; auto). destruct TP as (T1 & T2 & T3).
      injection Eg as <- <- <-. exists T. unfold with_mem, set_ths; cbn [mem nx root br nb fr ths].
      eapply tframe; eauto.
      * intros q Hq. unfold upd. destruct (Nat.eqb_spec q e) as [->|]; auto.
      * apply tkids_edit; auto. intros c. rewrite replaced_kids. apply T3.
    + (* K0 *) destruct (can_get s i old); [|discriminate]. injection Eg as <- <- <-. exists T. apply PLAIN. cbn. auto.
    + (* K1 *) destruct (unread s i a); [|discriminate]. injection Eg as <- <- <-. exists T. apply PLAIN. cbn. tauto.
    + (* K2 *) assert (La : a < nx s) by (apply PG; cbn; auto).
      destruct (Nat.ltb_spec (hh o) (ht (mem s a))) as [L|L].
      * destruct (slot (sk o) (pvs (mem s a))) as [p|] eqn:Sp; [|injection Eg as <- <- <-; exists T; apply PLAIN; exact Logic.I].
        destruct (can_get s i (ch p)); [|discriminate]. injection Eg as <- <- <-.
        assert (Kp : In (ch p) (kids (mem s a))) by (eapply slot_kid; eauto; lia).
        destruct (TK _ _ La Kp) as (H1 & H2 & H3). exists T. apply PLAIN. cbn. split; [lia|auto].
      * destruct (hh o =? ht (mem s a)); injection Eg as <- <- <-; exists T; [|apply PLAIN; exact Logic.I].
        unfold freed, set_ths; cbn [mem nx root br nb fr ths]. apply PLAIN. exact Logic.I.
    + (* P6 *) destruct (ub (mem s e)) as [y|]; [destruct (below y (ek o))|]; injection Eg as <- <- <-; exists T; apply PLAIN; exact Logic.I.
    + destruct (no_claim s); [|discriminate]. injection Eg as <- <- <-. exists T. apply PLAIN. exact Logic.I.
    + (* I1 *) destruct (can_get s i (root s)); [|discriminate]. injection Eg as <- <- <-. exists (upd T (nx s) (nx s)).
      unfold with_mem, with_branch, set_ths; cbn [mem nx root br nb fr ths]. eapply tframe; eauto.
      * intros q Hq. rewrite upd_other; auto. lia.
      * intros q Hq. apply upd_other. lia.
      * apply tkids_fresh; auto. intros c0 Hc. rewrite add_all_kids in Hc. destruct (TK _ _ R1 Hc) as (H1 & H2 & H3).
        pose proof (TL _ R1). repeat split; auto. lia.
      * intros q Hq. destruct (Nat.eq_dec q (nx s)) as [->|Z]; [rewrite upd_same; lia|]. rewrite upd_other by auto.
        assert (Hq' : q < nx s) by lia. pose proof (TL q Hq'). lia.
      * cbn. intros p [<-|[]]. auto.
    + (* I2, the switch *) destruct (no_reader s); [|discriminate]. injection Eg as <- <- <-. exists T.
      unfold with_root, set_ths; cbn [mem nx root br nb fr ths]. eapply tsame; eauto; exact Logic.I.
    + (* I2, a flush *) destruct (isin p own) eqn:Ip; [|discriminate]. apply isin_In in Ip.
      assert (Lp : p < nx s) by (apply PG; cbn; auto).
      assert (La : a < nx s) by (pose proof (v_pc _ _ _ _ V _ _ Hi) as PC; cbn in PC; apply PG; cbn; tauto).
      destruct (nth_error (pvs (mem s p)) i0) as [q|] eqn:Hq; [|discriminate].
      destruct (can_get s i (ch q)); [|discriminate]. cbn [andb] in Eg. unfold flush in Eg. rewrite Hq in Eg.
      destruct (Nat.eqb_spec (ht (mem s p)) 0) as [Z|Z]; [discriminate|].
      destruct (pieces (add_all (bs q) (mem s (ch q))) cs) as [ns|] eqn:Es; [|discriminate]. injection Eg as <- <- <-.
      assert (Kk : kids (mem s p) = map ch (pvs (mem s p))) by (unfold kids; rewrite (proj2 (Nat.eqb_neq _ _) Z); auto).
      assert (Kq : In (ch q) (kids (mem s p))) by (rewrite Kk; apply in_map; eapply nth_error_In; eauto).
      destruct (TK _ _ Lp Kq) as (H1 & H2 & H3). pose proof (pieces_kids _ _ _ Es) as PK. rewrite Forall_forall in PK.
      pose proof (TP p Ip) as Tpa. pose proof (TL a La) as TLa.
      assert (TK1 : tkids (store (mem s) (nx s) ns) (nx s + length ns) (tstore T (nx s) (T a))).
      { apply (tkids_store _ _ _ _ _ (ht (mem s (ch q)))); auto. intros P HP. destruct (PK P HP) as [X1 X2].
        split; [exact X1|]. intros c0 Hc. apply X2 in Hc. rewrite add_all_kids in Hc. destruct (TK _ _ H1 Hc) as (Y1 & Y2 & Y3). repeat split; auto. lia. }
      assert (TO : forall b, b < nx s -> tstore T (nx s) (T a) b = T b) by (intros b Hb; unfold tstore; rewrite (proj2 (Nat.ltb_lt _ _) Hb); auto).
      assert (TN : forall b, nx s <= b -> tstore T (nx s) (T a) b = T a) by (intros b Hb; unfold tstore; destruct (Nat.ltb_spec b (nx s)); auto; lia).
      exists (tstore T (nx s) (T a)). unfold with_mem, set_ths; cbn [mem nx root br nb fr ths].
      eapply tframe; eauto.
      * lia.
      * intros b Hb. unfold upd. destruct (Nat.eqb_spec b p) as [->|]; auto. rewrite store_old; auto.
      * apply tkids_edit; auto; [lia|rewrite store_old; auto|]. unfold kids. cbn [ht pvs]. rewrite (proj2 (Nat.eqb_neq _ _) Z).
        intros c0 Hc. rewrite (store_old _ _ _ p) by auto. rewrite (TO p Lp), Tpa. rewrite !map_app in Hc. apply in_app_or in Hc.
        assert (OLD : In c0 (kids (mem s p)) -> c0 < nx s + length ns /\ tstore T (nx s) (T a) c0 <= T a /\ ht (store (mem s) (nx s) ns c0) < ht (mem s p)).
        { intros Hk. destruct (TK _ _ Lp Hk) as (Y1 & Y2 & Y3). rewrite TO, store_old by auto. lia. }
        destruct Hc as [Hc|Hc]; [|apply in_app_or in Hc; destruct Hc as [Hc|Hc]].
        -- apply OLD. rewrite Kk. rewrite <- (firstn_skipn i0 (pvs (mem s p))), map_app. apply in_or_app. auto.
        -- destruct (heads_ch _ _ _ Hc) as (j & P & -> & HP). assert (j < length ns) by (apply nth_error_Some; congruence).
           rewrite TN, (store_new _ _ _ _ _ HP) by lia. destruct (PK P (nth_error_In _ _ HP)) as [X1 X2]. rewrite X1. cbn [add_all ht]. lia.
        -- apply OLD. rewrite Kk. rewrite <- (firstn_skipn (S i0) (pvs (mem s p))), map_app. apply in_or_app. auto.
      * intros b Hb. destruct (Nat.lt_ge_cases b (nx s)) as [L|L]; [rewrite TO by auto; pose proof (TL b L); lia|rewrite TN by auto; lia].
      * cbn [tpc]. intros b Hb. rewrite (TO a La). apply in_app_or in Hb. destruct Hb as [Hb|Hb].
        -- apply in_seq in Hb. apply TN. lia.
        -- assert (b < nx s) by (apply PG; cbn; auto). rewrite TO; auto.
    + (* I2, a root more *)
      assert (La : a < nx s) by (pose proof (v_pc _ _ _ _ V _ _ Hi) as PC; cbn in PC; apply PG; cbn; tauto).
      unfold grow in Eg. destruct (pieces (mem s a) cs) as [ns|] eqn:Es; [|discriminate].
      injection Eg as <- <- <-.
      pose proof (pieces_kids _ _ _ Es) as PK. rewrite Forall_forall in PK. pose proof (TL a La) as TLa.
      assert (TK1 : tkids (store (mem s) (nx s) ns) (nx s + length ns) (tstore T (nx s) (T a))).
      { apply (tkids_store _ _ _ _ _ (ht (mem s a))); auto. intros P HP. destruct (PK P HP) as [X1 X2].
        split; [exact X1|]. intros c0 Hc. apply X2 in Hc. apply (TK _ _ La Hc). }
      assert (TO : forall b, b < nx s -> tstore T (nx s) (T a) b = T b) by (intros b Hb; unfold tstore; rewrite (proj2 (Nat.ltb_lt _ _) Hb); auto).
      assert (TN : forall b, nx s <= b -> tstore T (nx s) (T a) b = T a) by (intros b Hb; unfold tstore; destruct (Nat.ltb_spec b (nx s)); auto; lia).
      exists (upd (tstore T (nx s) (T a)) (nx s + length ns) (T a)). unfold with_mem, set_ths; cbn [mem nx root br nb fr ths].
      replace (match nx s with 0 => S (nx s + length ns) | S l0 => nx s + length ns - l0 end) with (S (length ns)) by (destruct (nx s); lia).
      change (pred (S (nx s + length ns))) with (nx s + length ns).
      assert (UT : forall b, upd (tstore T (nx s) (T a)) (nx s + length ns) (T a) b = tstore T (nx s) (T a) b).
      { intros b. unfold upd. destruct (Nat.eqb_spec b (nx s + length ns)) as [->|]; auto. symmetry. apply TN. lia. }
      eapply tframe; eauto.
      * lia.
      * intros b Hb. rewrite upd_other by lia. rewrite store_old; auto.
      * intros b Hb. rewrite UT. auto.
      * apply tkids_fresh; auto. unfold kids. cbn [ht pvs Nat.eqb].
        intros c0 Hc. destruct (heads_ch _ _ _ Hc) as (j & P & -> & HP). assert (j < length ns) by (apply nth_error_Some; congruence).
        rewrite TN, (store_new _ _ _ _ _ HP) by lia. destruct (PK P (nth_error_In _ _ HP)) as [X1 X2]. rewrite X1. lia.
      * intros b Hb. rewrite UT. destruct (Nat.lt_ge_cases b (nx s)) as [L|L]; [rewrite TO by auto; pose proof (TL b L); lia|rewrite TN by auto; lia].
      * cbn [tpc]. intros b Hb. rewrite !UT. rewrite (TN (nx s + length ns)) by lia. apply in_app_or in Hb. destruct Hb as [Hb|Hb].
        -- apply in_seq in Hb. apply TN. lia.
        -- assert (b < nx s) by (apply PG; cbn; auto). rewrite TO; auto.
Qed.

Lemma runs_tick : forall n tr s, runs (init n) tr s -> exists ef m f T, inv s ef m f /\ tinv s T.
Proof.
  intros n tr s R. remember (init n) as s0 eqn:E0. induction R as [s1|s1 tr s' i c s'' l R IH St].
  - subst s1. exists (mem (init n)), empty, all_idle, (fun _ => 0). split; [apply init_ok|apply init_tick].
  - destruct (IH E0) as (ef & m & f & T & V & TI).
    destruct (step_ok _ _ _ _ _ _ _ _ V St) as (ef' & m' & x' & V' & _).
    destruct (step_tick _ _ _ _ _ _ _ _ _ V TI St) as (T' & TI'). exists ef', m', (now f i x'), T'. auto.
Qed.

(** ** No deadlock. *)
Definition moves (s : state) : Prop := exists j s' l, step s j (Go (AGo [])) = Some (s', l).

Lemma go_moves : forall s i t, nth_error (ths s) i = Some t -> go s i t (AGo []) <> None -> moves s.
Proof.
  intros s i t Hi H. destruct (go s i t (AGo [])) as [[[s1 t1] l]|] eqn:E; [|congruence].
  exists i, (set_ths s1 (put (ths s) i t1)), l. unfold step. rewrite Hi, E. auto.
Qed.

Lemma nobody_false : forall f a l i, nobody f a i l = false -> exists j u, nth_error l j = Some u /\ In a (f u).
Proof.
  intros f a. induction l as [|t l IH]; intros i H; [destruct i; discriminate|]. destruct i; cbn in H.
  - assert (X : exists u, In u l /\ isin a (f u) = true).
    { clear IH. induction l as [|u l IHl]; [discriminate|]. cbn in H. destruct (isin a (f u)) eqn:E; [exists u; cbn; auto|].
      destruct (IHl H) as (w & W1 & W2). exists w. cbn. auto. }
    destruct X as (u & U1 & U2). apply In_nth_error in U1. destruct U1 as (j & Hj). exists (S j), u. split; auto. apply isin_In. auto.
  - apply andb_false_iff in H. destruct H as [H|H].
    + exists 0, t. split; auto. apply isin_In. destruct (isin a (f t)); auto.
    + destruct (IH _ H) as (j & u & Hj & Hu). exists (S j), u. auto.
Qed.
Lemma some_true : forall f (l : list pc), forallb (fun t => negb (f t)) l = false -> exists j u, nth_error l j = Some u /\ f u = true.
Proof.
  intros f. induction l as [|t l IH]; intros H; [discriminate|]. cbn in H. destruct (f t) eqn:E; [exists 0, t; auto|].
  destruct (IH H) as (j & u & Hj & Hu). exists (S j), u. auto.
Qed.

Section Live.
Variables (s : state) (ef : nat -> node) (m : table) (f : nat -> sthr) (T : nat -> nat).
Hypotheses (V : inv s ef m f) (TI : tinv s T).

(** Whoever has locked [c], somebody can go on. *)
Definition freeable (c : nat) : Prop := forall j t, nth_error (ths s) j = Some t -> In c (locks t) -> moves s.

Lemma get_moves : forall i t c, nth_error (ths s) i = Some t -> freeable c ->
  (can_get s i c = true -> go s i t (AGo []) <> None) -> moves s.
Proof.
  intros i t c Hi F H. destruct (can_get s i c) eqn:E; [eapply go_moves; eauto|].
  destruct (nobody_false _ _ _ _ E) as (j & u & Hj & Hu). eapply F; eauto.
Qed.

Lemma reader_moves : forall i t a, nth_error (ths s) i = Some t -> In a (reads t) -> a < nx s ->
  (forall c, In c (kids (mem s a)) -> freeable c) -> moves s.
Proof.
  intros i t a Hi Ha La F. destruct t; try (destruct Ha; fail).
  - cbn in Ha. destruct Ha as [<-|[]]. destruct (slot k (pvs (mem s a0))) as [p|] eqn:Sp.
    + destruct (nth_error (bs p) i0) as [b|] eqn:Eb.
      * eapply go_moves; eauto. cbn [go]. rewrite Sp, Eb. destruct (fr s b k); discriminate.
      * destruct (Nat.eqb_spec (ht (mem s a0)) 0) as [Z|Z].
        -- eapply go_moves; eauto. cbn [go]. rewrite Sp, Eb, Z. discriminate.
        -- eapply (get_moves i _ (ch p)); eauto.
           ++ apply F. eapply slot_kid; eauto.
           ++ intros G. cbn [go]. rewrite Sp, Eb, (proj2 (Nat.eqb_neq _ _) Z), G. discriminate.
    + eapply go_moves; eauto. cbn [go]. rewrite Sp. discriminate.
  - eapply go_moves; eauto. discriminate.
Qed.

Lemma root_moves : freeable (root s) -> no_reader s = false -> moves s.
Proof.
  intros F H. destruct (some_true _ _ H) as (j & u & Hj & Hu). destruct u; try discriminate.
  eapply (get_moves j _ (root s)); eauto. intros G. cbn [go]. rewrite G. discriminate.
Qed.

Lemma locked_moves : forall c,
  (forall c', c' < nx s -> T c' < T c \/ (T c' <= T c /\ ht (mem s c') < ht (mem s c)) -> freeable c') -> freeable c.
Proof.
  intros c IH j t Hj Hc. pose proof (t_pc _ _ TI _ _ Hj) as TP. pose proof (t_kid _ _ TI) as TK.
  destruct (v_root _ _ _ _ V) as (R1 & _).
  assert (PG : forall a, In a (pages t ++ priv t) -> a < nx s) by (intros a Ha; eapply (v_pg _ _ _ _ V); eauto).
  destruct t; try (destruct Hc; fail); cbn in TP.
  - (* P2 *) destruct Hc as [<-|[]]. destruct (no_reader s) eqn:N.
    + eapply go_moves; eauto. cbn [go]. rewrite N. discriminate.
    + apply root_moves; auto. apply IH; auto. left. tauto.
  - (* P3 *) destruct Hc as [<-|[]]. assert (Le : e < nx s) by (apply PG; cbn; auto).
    destruct (Nat.ltb_spec (hh o) (ht (mem s e))) as [L|L].
    + destruct (slot (sk o) (pvs (mem s e))) as [p|] eqn:Sp.
      * assert (Kp : In (ch p) (kids (mem s e))) by (eapply slot_kid; eauto; lia). destruct (TK _ _ Le Kp) as (H1 & H2 & H3).
        eapply (get_moves j _ (ch p)); eauto. intros G. cbn [go]. rewrite (proj2 (Nat.ltb_lt _ _) L), Sp, G. discriminate.
      * eapply go_moves; eauto. cbn [go]. rewrite (proj2 (Nat.ltb_lt _ _) L), Sp. discriminate.
    + eapply go_moves; eauto. cbn [go]. rewrite (proj2 (Nat.ltb_ge _ _) L). destruct (hh o =? ht (mem s e)); [|discriminate].
      destruct ((ht (mem s e) =? 0) && negb (same (ub (mem s e)) (ek o))); discriminate.
  - (* P4 *) eapply go_moves; eauto. discriminate.
  - (* K0 *) destruct Hc as [<-|[]]. eapply (get_moves j _ old); eauto.
    + apply IH; auto. apply PG; cbn; auto.
    + intros G. cbn [go]. rewrite G. discriminate.
  - (* K1 *) assert (La : a < nx s) by (apply PG; destruct up; cbn; auto). destruct TP as [T1 T2].
    destruct (unread s j a) eqn:U; [eapply go_moves; eauto; cbn [go]; rewrite U; discriminate|].
    destruct (nobody_false _ _ _ _ U) as (j' & u & Hu & Hr). eapply (reader_moves j' u a); eauto.
    intros c' Hc'. destruct (TK _ _ La Hc') as (H1 & H2 & H3). apply IH; auto.
    assert (X : c = e \/ c = a \/ (exists b, up = Some b /\ c = b)).
    { destruct up as [b|]; cbn in Hc.
      - destruct Hc as [<-|[<-|[<-|[]]]]; eauto.
      - destruct Hc as [<-|[<-|[]]]; auto. }
    destruct X as [-> | [-> | (b & -> & ->)]]; [left; lia|right; lia|]. destruct T2. right. lia.
  - (* K2 *) assert (La : a < nx s) by (apply PG; cbn; auto).
    destruct (Nat.ltb_spec (hh o) (ht (mem s a))) as [L|L].
    + destruct (slot (sk o) (pvs (mem s a))) as [p|] eqn:Sp.
      * assert (Kp : In (ch p) (kids (mem s a))) by (eapply slot_kid; eauto; lia). destruct (TK _ _ La Kp) as (H1 & H2 & H3).
        eapply (get_moves j _ (ch p)); eauto.
        -- apply IH; auto. destruct Hc as [<-|[<-|[]]]; [left|right]; lia.
        -- intros G. cbn [go]. rewrite (proj2 (Nat.ltb_lt _ _) L), Sp, G. discriminate.
      * eapply go_moves; eauto. cbn [go]. rewrite (proj2 (Nat.ltb_lt _ _) L), Sp. discriminate.
    + eapply go_moves; eauto. cbn [go]. rewrite (proj2 (Nat.ltb_ge _ _) L). destruct (hh o =? ht (mem s a)); discriminate.
  - (* P6 *) eapply go_moves; eauto. cbn [go]. destruct (ub (mem s e)) as [y|]; [destruct (below y (ek o))|]; discriminate.
Qed.

Lemma all_freeable : forall c, freeable c.
Proof.
  assert (A : forall N M c, T c < N -> ht (mem s c) < M -> freeable c).
  { induction N as [|N IHN]; [intros; lia|]. induction M as [|M IHM]; [intros; lia|]. intros c HT HM. apply locked_moves.
    intros c' _ [L|[L1 L2]]; [eapply IHN; [lia|apply Nat.lt_succ_diag_r]|]. apply IHM; lia. }
  intros c. eapply A; apply Nat.lt_succ_diag_r.
Qed.

Lemma claim_moves : no_claim s = false -> moves s.
Proof.
  intros H. destruct (some_true _ _ H) as (j & u & Hj & Hu). destruct u; try discriminate.
  - eapply (get_moves j _ (root s)); eauto using all_freeable. intros G. cbn [go]. rewrite G. discriminate.
  - eapply all_freeable; eauto. cbn. auto.
  - eapply (get_moves j _ (root s)); eauto using all_freeable. intros G. cbn [go]. rewrite G. discriminate.
  - destruct (no_reader s) eqn:N; [eapply go_moves; eauto; cbn [go]; rewrite N; discriminate|]. apply root_moves; auto using all_freeable.
Qed.

Lemma busy_moves : forall i t, nth_error (ths s) i = Some t -> t <> Idle -> moves s.
Proof.
  intros i t Hi NI. pose proof (v_pc _ _ _ _ V _ _ Hi) as PC.
  assert (LK : forall c, In c (locks t) -> moves s) by (intros c Hc; eapply all_freeable; eauto).
  assert (PG : forall a, In a (pages t ++ priv t) -> a < nx s) by (intros a Ha; eapply (v_pg _ _ _ _ V); eauto).
  destruct t; try congruence; try (eapply LK; cbn; left; reflexivity); try (destruct PC; fail).
  - eapply go_moves; eauto. discriminate.
  - eapply (get_moves i _ (root s)); eauto using all_freeable. intros G. cbn [go]. rewrite G. discriminate.
  - eapply (reader_moves i _ a); eauto using all_freeable; [cbn; auto|apply PG; cbn; auto].
  - eapply go_moves; eauto. discriminate.
  - destruct (no_claim s) eqn:N; [eapply go_moves; eauto; cbn [go]; rewrite N; discriminate|apply claim_moves; auto].
  - eapply (get_moves i _ (root s)); eauto using all_freeable. intros G. cbn [go]. rewrite G. discriminate.
  - eapply (LK e). destruct up; cbn; auto.
  - destruct (no_claim s) eqn:N; [eapply go_moves; eauto; cbn [go]; rewrite N; discriminate|apply claim_moves; auto].
  - eapply (get_moves i _ (root s)); eauto using all_freeable. intros G. cbn [go]. rewrite G. discriminate.
  - destruct (no_reader s) eqn:N; [eapply go_moves; eauto; cbn [go]; rewrite N; discriminate|]. apply root_moves; auto using all_freeable.
Qed.
End Live.

Theorem trunk_no_deadlock : forall n tr s i t, runs (init n) tr s -> nth_error (ths s) i = Some t -> t <> Idle ->
  exists j s' l, step s j (Go (AGo [])) = Some (s', l).
Proof.
  intros n tr s i t R Hi NI. destruct (runs_tick n tr s R) as (ef & m & f & T & V & TI). eapply busy_moves; eauto.
Qed.
