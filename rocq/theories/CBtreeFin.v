(** From every state the calls in progress can all be brought to their end. *)
From Coq Require Import List Arith Bool Lia Sorting.Sorted.
Import ListNotations.
From Verif Require Import CBtree CBtreeSpec CBtreeInv CBtreeSplit CBtreeProofs CBtreeLin CBtreeRest CBtreeLive.
Local Open Scope nat_scope.

(** A thread that has some page. *)
Definition started (t : thr) : Prop := reads t <> [].

(** What it may wait for: the readers of a page, a page that is locked, a claim. *)
Inductive wait := WL | WG | WK.
Definition xw (g : nat -> node) (t : thr) (w : wait) (a : nat) : Prop :=
  match w with
  | WL => waits g t = Some (false, a)
  | WG => waits g t = Some (true, a)
  | WK => match t with
          | Ins _ _ (B1g _ _ c) => a = c
          | Ins _ _ (B5 _ _ c _ _ _ _) => nextp (g c) = Some a
          | _ => False
          end
  end.
Definition refused (s : state) (i : nat) (w : wait) (a : nat) : Prop :=
  match w with
  | WL => unread s i a = false
  | WG => can_get s i a = false
  | WK => can_claim s i a = false
  end.

(** It cannot go on, or would have to come back at once. *)
Definition blocked (s : state) (i : nat) (t : thr) : Prop :=
  match t with
  | Ins _ _ (B1g _ _ c) => can_get s i c && can_claim s i c = false
  | Ins _ _ (B5 _ _ c _ _ _ _) =>
      match nextp (pg s c) with Some n => can_get s i n && can_claim s i n = false | None => False end
  | _ => stuck s i
  end.

Section BLOCKED.
Variables (s : state) (ef : nat -> node) (G : ghost) (B : nat -> nat) (m : table).
Hypothesis C : core s ef G B m.
Let T : tree ef G B m (nxt s) := c_tree _ _ _ _ _ C.

Lemma next_leaf : forall c lo hi es pv n, G c = Some (0, lo, hi) -> ef c = Leaf es pv (Some n) ->
  exists y hb, hi = Some y /\ G n = Some (0, Some y, hb).
Proof.
  intros c lo hi es pv n Gc Ec.
  destruct (node_ok_leaf _ _ _ _ _ T _ _ _ _ _ _ _ Gc Ec) as (_ & _ & _ & _ & Nx & _).
  destruct hi as [y|]; [|destruct Nx]. destruct Nx as (hb & Gn). eauto.
Qed.

Lemma leaf_h : forall k c sp, leafsp ef G B k c sp -> exists lo hi, G c = Some (0, lo, hi).
Proof.
  intros k c sp [(h & lo & hi & Gc & _) (es & pv & n & Ec & _)].
  destruct (node_ok_leaf _ _ _ _ _ T _ _ _ _ _ _ _ Gc Ec) as (-> & _). eauto.
Qed.
Lemma index_h : forall k a j h lo hi, idx ef k a j -> G a = Some (h, lo, hi) -> 0 < h.
Proof.
  intros k a j h lo hi (h' & ps & Ea & _) Ga.
  destruct (node_ok_index _ _ _ _ _ T _ _ _ _ _ _ Ga Ea) as (h0 & -> & _). lia.
Qed.
Lemma par_h : forall k p i c, par ef G B k p i c -> exists h lo hi plo phi,
  G c = Some (h, lo, hi) /\ G p = Some (S h, plo, phi) /\ height (ef p) = S h.
Proof.
  intros k p i c PA. destruct (par_kid _ _ _ _ _ _ _ _ _ T PA) as (h & ph & plo & phi & lo & hi & Gp & -> & Hp & Gc & _).
  exists h, lo, hi, plo, phi. auto.
Qed.

Lemma blocked_waits : forall i t, nth_error (ths s) i = Some t -> started t -> blocked s i t ->
  exists w a h lo hi, xw (pg s) t w a /\ G a = Some (h, lo, hi) /\ refused s i w a.
Proof.
  intros i t Hi ST BL.
  assert (ORD : stuck s i -> exists w a h lo hi, xw (pg s) t w a /\ G a = Some (h, lo, hi) /\ refused s i w a).
  { intros X. destruct (stuck_waits _ _ _ _ _ C i t Hi) as (b & a & h & lo & hi & W & Ga & Q); auto.
    - intros ->. apply ST. reflexivity.
    - destruct b; [exists WG|exists WL]; exists a, h, lo, hi; auto. }
  pose proof (c_tok _ _ _ _ _ C _ _ Hi) as K.
  destruct t as [|k v p|k p]; auto. destruct p; auto; cbn [blocked tok itok] in *.
  - destruct K as [PA _]. destruct (par_h _ _ _ _ PA) as (h & lo & hi & plo & phi & Gc & _).
    destruct (can_get s i c) eqn:Q.
    + exists WK, c, h, lo, hi. cbn. auto.
    + exists WG, c, h, lo, hi. cbn. auto.
  - destruct K as (PA & LS & _). destruct (leaf_h _ _ _ LS) as (lo & hi & Gc). destruct LS as [_ (es & pv & n & Ec & _)].
    assert (Ew : ef c = pg s c) by (eapply own_w; eauto; cbn; auto).
    destruct (nextp (pg s c)) as [n'|] eqn:En; [|destruct BL]. rewrite <- Ew, Ec in En. cbn in En. subst n.
    destruct (next_leaf _ _ _ _ _ _ Gc Ec) as (y & hb & -> & Gn).
    destruct (can_get s i n') eqn:Q.
    + exists WK, n', 0, (Some y), hb. cbn. rewrite <- Ew, Ec. auto.
    + exists WG, n', 0, (Some y), hb. cbn. rewrite <- Ew, Ec. auto.
Qed.

(** A blocked reader without a claim waits for a page below. *)
Lemma reader_waits : forall j u w b hb lob hib a h lo hi, nth_error (ths s) j = Some u ->
  xw (pg s) u w b -> G b = Some (hb, lob, hib) -> In a (reads u) -> ~ In a (claims u) -> G a = Some (h, lo, hi) ->
  w = WG /\ h = S hb.
Proof.
  intros j u w b hb lob hib a h lo hi Hj W Gb Rd NC Ga.
  pose proof (c_tok _ _ _ _ _ C _ _ Hj) as K.
  destruct u as [|k v p|k p]; [destruct Rd| |].
  - destruct p; cbn [reads ireads claims iclaims tok itok] in *; try tauto;
      try (exfalso; destruct w; cbn in W; first [discriminate W|contradiction]).
    destruct Rd as [<-|[]]. destruct K as [Ip (hh & ps & Ep & F)].
    assert (Epw : ef p = pg s p) by (eapply own_w; eauto; cbn; auto).
    destruct w; cbn in W; [| |destruct W]; rewrite <- Epw, Ep in W; cbn [pivots] in W;
      destruct (nth_error ps idx) as [[pk c]|] eqn:N; try discriminate. injection W as <-. split; auto.
    assert (PA : par ef G B k p idx c) by (split; auto; exists hh, ps, pk; auto).
    destruct (par_h _ _ _ _ PA) as (h0 & lo0 & hi0 & plo & phi & X3 & X1 & _).
    rewrite Ga in X1. rewrite Gb in X3. injection X1 as -> _ _. injection X3 as -> _ _. auto.
  - destruct p; cbn [reads tok] in *; try (destruct Rd; fail); try (exfalso; destruct w; cbn in W; first [discriminate W|contradiction]).
    destruct Rd as [<-|[]]. destruct K as [(h1 & lo1 & hi1 & Ga1 & R) (hh & ps & Ea & ->)].
    rewrite Ga in Ga1. injection Ga1 as <- <- <-.
    assert (Epw : ef a0 = pg s a0) by (eapply own_w; eauto; cbn; auto).
    destruct (node_ok_index _ _ _ _ _ T _ _ _ _ _ _ Ga Ea) as (h0 & -> & _ & NE & S & I & K).
    destruct w; cbn in W; [| |destruct W]; rewrite <- Epw, Ea in W; cbn [pivots] in W;
      destruct (nth_error ps (slot k ps)) as [[pk c]|] eqn:N; try discriminate. injection W as <-. split; auto.
    destruct (slot_kid _ _ _ _ _ _ _ _ _ K R S N) as (lo2 & hi2 & Gc & Rc & _).
    rewrite Gb in Gc. injection Gc as -> _ _. auto.
Qed.

(** A blocked thread that has locked a page waits for the readers of it or of a page
    below, or for a leaf. *)
Lemma locker_waits : forall j u w b hb lob hib a h lo hi, nth_error (ths s) j = Some u ->
  xw (pg s) u w b -> G b = Some (hb, lob, hib) -> In a (locks u) -> G a = Some (h, lo, hi) ->
  (w = WL /\ hb <= h) \/ (0 < h /\ hb = 0).
Proof.
  intros j u w b hb lob hib a h lo hi Hj W Gb Lk Ga.
  pose proof (c_tok _ _ _ _ _ C _ _ Hj) as K.
  destruct u as [|k v p|k p]; [destruct Lk| |destruct Lk]. cbn [locks] in Lk.
  destruct p; cbn [ilocks ireads tok itok] in *; try (destruct Lk; fail);
    try (exfalso; destruct w; cbn in W; first [discriminate W|contradiction]);
    try (destruct w; cbn in W; try discriminate W; try contradiction; injection W as <-).
  - destruct Lk as [<-|[]]; rewrite Ga in Gb; injection Gb as <- _ _; auto.
  - destruct Lk as [<-|[]]; rewrite Ga in Gb; injection Gb as <- _ _; auto.
  - destruct Lk as [<-|[]]; rewrite Ga in Gb; injection Gb as <- _ _; auto.
  - destruct K as [PA _]. destruct (par_h _ _ _ _ PA) as (h0 & x1 & x2 & x3 & x4 & Gc & Gp & _).
    left. split; auto. rewrite Gb in Gc. injection Gc as -> _ _.
    destruct Lk as [<-|[<-|[]]]; [rewrite Ga in Gp; injection Gp; lia|]. rewrite Ga in Gb. injection Gb; lia.
  - destruct Lk as [<-|[]]; rewrite Ga in Gb; injection Gb as <- _ _; auto.
  - destruct K as (PA & LS & PL & Grc). destruct Lk as [<-|[<-|[]]]; [|congruence].
    rewrite Ga in Gb; injection Gb as <- _ _; auto.
  - destruct K as (PA & LS & PL & Grc). destruct (par_h _ _ _ _ PA) as (h0 & x1 & x2 & x3 & x4 & Gc & Gp & _).
    right. destruct Lk as [<-|[<-|[]]]; [|congruence]. rewrite Ga in Gp. injection Gp as -> _ _. split; [lia|].
    destruct (leaf_h _ _ _ LS) as (y1 & y2 & Gc'). destruct LS as [_ (es & pv & n' & Ec & ->)].
    assert (Ecw : ef c = pg s c) by (eapply own_w; eauto; cbn; auto).
    assert (En : nextp (pg s c) = Some b).
    { destruct w; cbn in W; auto; destruct (nextp (pg s c)); congruence. }
    rewrite <- Ecw, Ec in En. cbn in En. subst n'.
    destruct (next_leaf _ _ _ _ _ _ Gc' Ec) as (y & hb' & _ & Gn). rewrite Gb in Gn. injection Gn; auto.
  - destruct K as [(PA & LS & PL & Grc) Nn].
    destruct (leaf_h _ _ _ LS) as (y1 & y2 & Gc'). destruct LS as [_ (es & pv & n' & Ec & ->)].
    rewrite Ec in Nn. cbn in Nn. subst n'.
    destruct (next_leaf _ _ _ _ _ _ Gc' Ec) as (y & hb' & _ & Gn). rewrite Gb in Gn. injection Gn as -> _ _.
    left. split; auto. lia.
  - destruct K as [(PA & LS & PL & Grc) Nn]. destruct (leaf_h _ _ _ LS) as (y1 & y2 & Gc').
    rewrite Gb in Gc'. injection Gc' as -> _ _. left. split; auto. lia.
Qed.

(** A blocked thread with a claim on a leaf waits for the readers of a leaf or its
    parent, or for a leaf further right. *)
Lemma claimer_waits : forall j u w b hb lob hib a lo hi, nth_error (ths s) j = Some u ->
  xw (pg s) u w b -> G b = Some (hb, lob, hib) -> In a (claims u) -> G a = Some (0, lo, hi) ->
  (w = WL /\ hb <= 1) \/ (w <> WL /\ hb = 0 /\ exists y, hi = Some y /\ lob = Some y).
Proof.
  intros j u w b hb lob hib a lo hi Hj W Gb Cl Ga.
  pose proof (c_tok _ _ _ _ _ C _ _ Hj) as K.
  assert (PP : forall k i c, par ef G B k a i c -> False).
  { intros k i c PA. destruct (par_h _ _ _ _ PA) as (h0 & x1 & x2 & x3 & x4 & Gc & Gp & _). congruence. }
  assert (II : forall k j, idx ef k a j -> False).
  { intros k j0 I. pose proof (index_h _ _ _ _ _ _ I Ga). lia. }
  destruct u as [|k v p|k p]; [destruct Cl| |destruct Cl]. cbn [claims] in Cl.
  destruct p; cbn [iclaims ireads tok itok] in *; try (destruct Cl; fail);
    try (exfalso; destruct w; cbn in W; first [discriminate W|contradiction]);
    try (destruct w; cbn in W; try discriminate W; try contradiction; injection W as <-).
  - left. split; auto. destruct Cl as [<-|[]]. rewrite Ga in Gb. injection Gb; lia.
  - left. split; auto. destruct Cl as [<-|[]]. rewrite Ga in Gb. injection Gb; lia.
  - exfalso. destruct K as [PA I]. destruct Cl as [<-|[<-|[]]]; eauto.
  - exfalso. destruct K as [PA I]. destruct Cl as [<-|[<-|[]]]; eauto.
  - left. split; auto. destruct Cl as [<-|[]]. rewrite Ga in Gb. injection Gb; lia.
  - exfalso. destruct K as [PA I]. destruct Cl as [<-|[]]; eauto.
  - destruct K as (PA & LS & PL & Grc). destruct (par_h _ _ _ _ PA) as (h0 & x1 & x2 & x3 & x4 & Gc & Gp & _).
    left. split; auto. destruct (leaf_h _ _ _ LS) as (y1 & y2 & Gc'). rewrite Gc in Gc'. injection Gc' as -> _ _.
    rewrite Gb in Gp. injection Gp; lia.
  - destruct K as (PA & LS & PL & Grc). destruct Cl as [<-|[<-|[<-|[]]]]; [exfalso; eauto| |congruence].
    right. destruct LS as [_ (es & pv & n' & Ec & ->)].
    assert (Ecw : ef c = pg s c) by (eapply own_w; eauto; cbn; auto).
    assert (En : w <> WL /\ nextp (pg s c) = Some b).
    { destruct w; cbn in W; split; auto; try discriminate; destruct (nextp (pg s c)); congruence. }
    destruct En as [Nw En]. rewrite <- Ecw, Ec in En. cbn in En. subst n'.
    destruct (next_leaf _ _ _ _ _ _ Ga Ec) as (y & hb' & -> & Gn). rewrite Gb in Gn. injection Gn as -> -> _.
    split; auto. split; auto. exists y. auto.
  - destruct K as [(PA & LS & PL & Grc) Nn].
    destruct (leaf_h _ _ _ LS) as (y1 & y2 & Gc'). destruct LS as [_ (es & pv & n' & Ec & ->)].
    rewrite Ec in Nn. cbn in Nn. subst n'.
    destruct (next_leaf _ _ _ _ _ _ Gc' Ec) as (y & hb' & _ & Gn). rewrite Gb in Gn. injection Gn as -> _ _.
    left. split; auto.
  - destruct K as [(PA & LS & PL & Grc) Nn]. destruct (leaf_h _ _ _ LS) as (y1 & y2 & Gc').
    rewrite Gb in Gc'. injection Gc' as -> _ _. left. split; auto.
Qed.

Lemma xwl_claims : forall t a, xw (pg s) t WL a -> In a (claims t).
Proof.
  intros [|k v p|k p] a W; cbn in W; [discriminate| |].
  - destruct p; try discriminate;
      repeat match type of W with
      | match ?e with Some _ => _ | None => _ end = _ => destruct e; try discriminate
      | (let (_, _) := ?e in _) = _ => destruct e
      end; try discriminate; injection W as <-; cbn; auto. destruct n; cbn; auto.
  - destruct p; try discriminate;
      repeat match type of W with
      | match ?e with Some _ => _ | None => _ end = _ => destruct e; try discriminate
      | (let (_, _) := ?e in _) = _ => destruct e
      end; discriminate.
Qed.

(** If all threads that have pages were blocked ... *)
Hypothesis ALL : forall i t, nth_error (ths s) i = Some t -> started t -> blocked s i t.

Definition waiter (w : wait) (a h : nat) (lo hi : option nat) : Prop :=
  exists i t, nth_error (ths s) i = Some t /\ xw (pg s) t w a /\ G a = Some (h, lo, hi) /\ refused s i w a.

Lemma in_started : forall t a, In a (reads t) -> started t.
Proof. unfold started. intros t a H E. rewrite E in H. destruct H. Qed.

Lemma next_waiter : forall j u a, nth_error (ths s) j = Some u -> In a (reads u) ->
  exists w b hb lob hib, xw (pg s) u w b /\ G b = Some (hb, lob, hib) /\ waiter w b hb lob hib.
Proof.
  intros j u a Hj Rd. pose proof (in_started _ _ Rd) as ST.
  destruct (blocked_waits j u Hj ST (ALL _ _ Hj ST)) as (w & b & hb & lob & hib & W & Gb & Q).
  exists w, b, hb, lob, hib. repeat split; auto. exists j, u. auto.
Qed.

Lemma from_WL : forall a h lo hi, waiter WL a h lo hi -> exists b h' lo' hi', waiter WG b h' lo' hi' /\ h = S h'.
Proof.
  intros a h lo hi (i & t & Hi & W & Ga & Q). destruct (nobody_conv _ _ _ _ Q) as (j & u & Nj & Hj & Rd).
  destruct (next_waiter j u a Hj Rd) as (w & b & hb & lob & hib & Wu & Gb & WT).
  assert (NC : ~ In a (claims u)).
  { intros H. apply xwl_claims in W. eapply (c_x2 _ _ _ _ _ C i j); eauto. }
  destruct (reader_waits _ _ _ _ _ _ _ _ _ _ _ Hj Wu Gb Rd NC Ga) as [-> ->]. exists b, hb, lob, hib. auto.
Qed.
Lemma from_WG : forall a h lo hi, waiter WG a h lo hi -> exists w b h' lo' hi', waiter w b h' lo' hi' /\
  ((w = WL /\ h' <= h) \/ (0 < h /\ h' = 0)).
Proof.
  intros a h lo hi (i & t & Hi & W & Ga & Q). destruct (nobody_conv _ _ _ _ Q) as (j & u & Nj & Hj & Lk).
  destruct (next_waiter j u a Hj) as (w & b & hb & lob & hib & Wu & Gb & WT).
  { apply claims_reads, locks_claims; auto. }
  exists w, b, hb, lob, hib. split; auto. eapply locker_waits; eauto.
Qed.
Lemma from_WK : forall a lo hi, waiter WK a 0 lo hi -> exists w b h' lo' hi', waiter w b h' lo' hi' /\
  ((w = WL /\ h' <= 1) \/ (w <> WL /\ h' = 0 /\ exists y, hi = Some y /\ lo' = Some y)).
Proof.
  intros a lo hi (i & t & Hi & W & Ga & Q). destruct (nobody_conv _ _ _ _ Q) as (j & u & Nj & Hj & Cl).
  destruct (next_waiter j u a Hj) as (w & b & hb & lob & hib & Wu & Gb & WT).
  { apply claims_reads; auto. }
  exists w, b, hb, lob, hib. split; auto. eapply claimer_waits; eauto.
Qed.

Lemma no_WL0 : forall a lo hi, ~ waiter WL a 0 lo hi.
Proof. intros a lo hi H. destruct (from_WL _ _ _ _ H) as (b & h' & lo' & hi' & _ & E). discriminate. Qed.
Lemma no_WG0 : forall a lo hi, ~ waiter WG a 0 lo hi.
Proof.
  intros a lo hi H. destruct (from_WG _ _ _ _ H) as (w & b & h' & lo' & hi' & W & [[-> L]|[L _]]); [|lia].
  assert (h' = 0) as -> by lia. eapply no_WL0; eauto.
Qed.
Lemma no_WL1 : forall a h lo hi, h <= 1 -> ~ waiter WL a h lo hi.
Proof.
  intros a h lo hi L H. destruct (from_WL _ _ _ _ H) as (b & h' & lo' & hi' & W & E). assert (h' = 0) as -> by lia.
  eapply no_WG0; eauto.
Qed.
Lemma no_WK : forall n a lo hi, length (filter (lo_above G lo) (seq 0 (nxt s))) <= n -> ~ waiter WK a 0 lo hi.
Proof.
  induction n as [n IH] using lt_wf_ind. intros a lo hi L H. pose proof H as (_ & _ & _ & _ & Ga & _).
  destruct (from_WK _ _ _ H) as (w & b & h' & lo' & hi' & W & [[-> L']|(N & -> & y & -> & ->)]).
  { eapply no_WL1; eauto. }
  destruct w; [congruence|eapply no_WG0; eauto|]. pose proof W as (_ & _ & _ & _ & Gb & _).
  destruct (t_ne _ _ _ _ _ T _ _ _ _ Ga) as (z & Z1 & Z2). cbn in Z2.
  assert (Ly : match lo with Some l => l < y | None => True end) by (destruct lo; cbn in *; lia).
  eapply (IH (length (filter (lo_above G (Some y)) (seq 0 (nxt s))))); [|apply Nat.le_refl|exact W].
  eapply Nat.lt_le_trans; [|exact L]. apply (filter_less _ _ _ _ b).
  - apply in_seq. apply (t_lt _ _ _ _ _ T) in Gb. lia.
  - unfold lo_above. rewrite Gb. destruct lo; auto. apply Nat.ltb_lt; auto.
  - unfold lo_above. rewrite Gb. apply Nat.ltb_irrefl.
  - intros c. unfold lo_above. destruct (G c) as [[[[|h] [l|]] hc]|]; auto. intros Hl. apply Nat.ltb_lt in Hl.
    destruct lo; auto. apply Nat.ltb_lt. lia.
Qed.
Lemma no_leaf : forall w a lo hi, ~ waiter w a 0 lo hi.
Proof. intros [| |] a lo hi; [apply no_WL0|apply no_WG0|]. eapply no_WK. apply Nat.le_refl. Qed.

Lemma no_WLG : forall h w a lo hi, w <> WK -> ~ waiter w a h lo hi.
Proof.
  induction h as [h IH] using lt_wf_ind.
  assert (L : forall h' a lo hi, h' <= h -> ~ waiter WL a h' lo hi).
  { intros h' a lo hi Hh H. destruct (from_WL _ _ _ _ H) as (b & h'' & lo' & hi' & W & E).
    eapply (IH h''); [lia| |exact W]. discriminate. }
  intros w a lo hi Nw H. destruct w; [eapply L; eauto| |congruence].
  destruct (from_WG _ _ _ _ H) as (w & b & h' & lo' & hi' & W & [[-> X]|[X ->]]); [eapply L; eauto|eapply no_leaf; eauto].
Qed.

Lemma no_waiter : forall w a h lo hi, ~ waiter w a h lo hi.
Proof.
  intros w a h lo hi H. destruct w; try (eapply no_WLG; eauto; discriminate).
  pose proof H as (i & t & Hi & W & Ga & Q). pose proof (c_tok _ _ _ _ _ C _ _ Hi) as K.
  assert (h = 0) as ->; [|eapply no_leaf; eauto].
  destruct t as [|k v p|k p]; cbn in W; try (destruct W; fail). destruct p; try (destruct W; fail).
  - subst a. destruct K as [PA H1]. destruct (par_h _ _ _ _ PA) as (h0 & x1 & x2 & x3 & x4 & Gc & Gp & Hp).
    rewrite Ga in Gc. injection Gc as -> _ _. lia.
  - destruct K as (PA & LS & PL & Grc). destruct (leaf_h _ _ _ LS) as (y1 & y2 & Gc'). destruct LS as [_ (es & pv & n' & Ec & ->)].
    assert (Ecw : ef c = pg s c) by (eapply own_w; eauto; cbn; auto). rewrite <- Ecw, Ec in W. cbn in W. subst n'.
    destruct (next_leaf _ _ _ _ _ _ Gc' Ec) as (y & hb' & _ & Gn). rewrite Ga in Gn. injection Gn; auto.
Qed.

Lemma none_started : forall i t, nth_error (ths s) i = Some t -> ~ started t.
Proof.
  intros i t Hi ST. destruct (blocked_waits i t Hi ST (ALL _ _ Hi ST)) as (w & b & hb & lob & hib & W & Gb & Q).
  apply (no_waiter w b hb lob hib). exists i, t. auto.
Qed.
End BLOCKED.
