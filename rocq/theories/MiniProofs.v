(** * Invariants of the page allocator model *)

From Coq Require Import List NArith Arith Bool Lia.
From Verif Require Import Base Count Mini.
Import ListNotations.

Ltac pcase u t f := destruct (Nat.eq_dec u t) as [->|]; [rewrite ?(upd_same f) in * | rewrite ?(upd_other f) in * by assumption].

Lemma NoDup_app_iff_local : forall (l : list nat) x, NoDup l -> ~ In x l -> NoDup (l ++ [x]).
Proof.
  induction l as [|a l IH]; intros x H N; cbn; [repeat constructor; auto|].
  inversion H; subst. constructor.
  - rewrite in_app_iff. cbn. intros [|[->|[]]]; [auto | apply N; now left].
  - apply IH; auto. intro. apply N. now right.
Qed.

Lemma NoDup_app_iff : forall {A} (l : list A) x, NoDup l -> ~ In x l -> NoDup (l ++ [x]).
Proof.
  induction l as [|a l IH]; intros x H N; cbn; [repeat constructor; auto|].
  inversion H; subst. constructor.
  - rewrite in_app_iff. cbn. intros [|[->|[]]]; [auto | apply N; now left].
  - apply IH; auto. intro. apply N. now right.
Qed.

Section WithCfg.
Variable c : mcfg.
Variable head : nat.
Hypothesis Hppe : 0 < m_ppe c.
Notation ppe := (m_ppe c).

(** ** Steps, one constructor per kind *)

Inductive spill_ok (s : mst) (mt : nat) : nat -> mst -> Prop :=
| sp_same : (mt + 1) mod ppe <> 0 -> spill_ok s mt (mt + 1) s
| sp_new x : (mt + 1) mod ppe = 0 -> ms_refs s x = 0%N ->
    spill_ok s mt (x * ppe) (st_num (st_refs s (upd (ms_refs s) x 2%N)) (S (ms_num_ext s))).

Inductive trans (s : mst) (t : nat) : mst -> Prop :=
| t_call b k : ms_pcs s t = MOut -> b < m_nb c -> key_fits c (CCall b k) -> trans s t (goto s t (MRd b k))
| t_rd b k : ms_pcs s t = MRd b k -> trans s t (goto s t (MCas b k (ms_next_addr s b)))
| t_cas_no b k na : ms_pcs s t = MCas b k na -> trans s t (goto s t (MRd b k))
| t_cas b k a : ms_pcs s t = MCas b k (Some a) -> ms_next_addr s b = Some a ->
    trans s t (goto (st_na s (upd (ms_next_addr s) b None)) t
                    (if Nat.eqb (a mod ppe) 0 then MExt b k else MFin b a))
| t_ext b k x : ms_pcs s t = MExt b k -> ms_refs s x = 0%N ->
    trans s t (goto (st_ne (st_num (st_refs s (upd (ms_refs s) x 2%N)) (S (ms_num_ext s)))
                           (upd (ms_next_ext s) b x)) t (MTail b k (ms_next_ext s b)))
| t_tail b k e : ms_pcs s t = MTail b k e -> trans s t (goto s t (MGet b k e (ms_tail s)))
| t_get b k e mt : ms_pcs s t = MGet b k e mt -> ms_wr s mt = false ->
    trans s t (goto (st_rd s (upd (ms_rd s) mt (t :: ms_rd s mt))) t (MChk b k e mt))
| t_chk b k e mt : ms_pcs s t = MChk b k e mt -> mt = ms_tail s -> trans s t (goto s t (MClaim b k e mt))
| t_chk_no b k e mt : ms_pcs s t = MChk b k e mt -> trans s t (goto s t (MUnget b k e mt))
| t_claim_no b k e mt : ms_pcs s t = MClaim b k e mt -> trans s t (goto s t (MUnget b k e mt))
| t_claim b k e mt : ms_pcs s t = MClaim b k e mt -> ms_claim s mt = false ->
    trans s t (goto (st_claim s (upd (ms_claim s) mt true)) t (MLock b k e mt))
| t_unget b k e mt : ms_pcs s t = MUnget b k e mt ->
    trans s t (goto (st_rd s (upd (ms_rd s) mt (remove Nat.eq_dec t (ms_rd s mt)))) t (MTail b k e))
| t_lock b k e mt : ms_pcs s t = MLock b k e mt -> (forall u, In u (ms_rd s mt) -> u = t) ->
    trans s t (goto (st_wr s (upd (ms_wr s) mt true)) t (MApp b k e mt))
| t_app b k e mt pg pg' : ms_pcs s t = MApp b k e mt -> ms_pages s mt = Some pg ->
    append_entry c pg (Ment (Some e) b k) = Some pg' ->
    trans s t (goto (full_unlock (st_pages s (upd (ms_pages s) mt (Some pg'))) t mt) t (MFin b (e * ppe)))
| t_spill b k e mt pg nt s1 : ms_pcs s t = MApp b k e mt -> ms_pages s mt = Some pg ->
    append_entry c pg (Ment (Some e) b k) = None -> spill_ok s (ms_tail s) nt s1 ->
    trans s t (goto (after_spill s1 t mt nt pg) t (MApp2 b k e nt))
| t_app2 b k e nt pg : ms_pcs s t = MApp2 b k e nt -> ms_pages s nt = Some pg ->
    trans s t (goto (full_unlock (st_pages s (upd (ms_pages s) nt
        (Some (match append_entry c pg (Ment (Some e) b k) with Some p => p | None => pg end)))) t nt)
      t (MFin b (e * ppe)))
| t_fin b na : ms_pcs s t = MFin b na ->
    trans s t (st_ret (goto (st_na s (upd (ms_next_addr s) b (Some (na + 1)))) t MOut) (na :: ms_ret s)).

Lemma new_extent_got : forall s ch x s', new_extent s ch = XGot x s' ->
  ms_refs s x = 0%N /\ s' = st_num (st_refs s (upd (ms_refs s) x 2%N)) (S (ms_num_ext s)).
Proof.
  intros s ch x s' H. unfold new_extent in H. destruct ch as [| [x'|] |]; try discriminate.
  destruct (N.eqb_spec (ms_refs s x') 0); [|discriminate]. inversion H; subst. auto.
Qed.

Lemma new_tail_got : forall s mt ch nt s', new_tail c s mt ch = XGot nt s' -> spill_ok s mt nt s'.
Proof.
  intros s mt ch nt s' H. unfold new_tail in H. destruct (Nat.eqb_spec ((mt + 1) mod ppe) 0) as [E|E].
  - destruct (new_extent s ch) as [| |x s1] eqn:X; try discriminate. apply new_extent_got in X.
    destruct X as [X ->]. inversion H; subst. now constructor.
  - destruct ch; try discriminate. inversion H; subst. now constructor.
Qed.

Lemma step_trans : forall s t ch s', key_fits c ch -> mini_step c s t ch = MStep s' -> trans s t s'.
Proof.
  intros s t ch s' K H. unfold mini_step in H. destruct (ms_pcs s t) as [|b k|b k na|b k|b k e|b k e mt|b k e mt|b k e mt|b k e mt|b k e mt|b k e mt|b k e nt|b na] eqn:P.
  - destruct ch as [b k| |]; try discriminate. destruct (Nat.ltb_spec b (m_nb c)); [|discriminate].
    inversion H; subst. now constructor.
  - inversion H; subst. now apply t_rd.
  - destruct na as [a|].
    + destruct (ms_next_addr s b) as [a'|] eqn:Q.
      * destruct (Nat.eqb_spec a a') as [<-|]; inversion H; subst. { now apply t_cas. } eapply t_cas_no; eauto.
      * inversion H; subst. eapply t_cas_no; eauto.
    + inversion H; subst. eapply t_cas_no; eauto.
  - destruct (new_extent s ch) as [| |x s1] eqn:X; try discriminate. apply new_extent_got in X. destruct X as [X ->].
    inversion H; subst. now apply (t_ext s t b k x).
  - inversion H; subst. now apply t_tail.
  - destruct (ms_wr s mt) eqn:W; [discriminate|]. inversion H; subst. now apply t_get.
  - inversion H; subst. destruct (Nat.eqb_spec mt (ms_tail s)). { now apply t_chk. } now apply t_chk_no.
  - destruct (ms_claim s mt) eqn:W; inversion H; subst. { now apply t_claim_no. } now apply t_claim.
  - inversion H; subst. now apply t_unget.
  - destruct (forallb (Nat.eqb t) (ms_rd s mt)) eqn:F; [|discriminate]. inversion H; subst. apply t_lock; auto.
    intros u Hu. rewrite forallb_forall in F. specialize (F u Hu). apply Nat.eqb_eq in F. auto.
  - destruct (ms_pages s mt) as [pg|] eqn:G; [|discriminate].
    destruct (append_entry c pg (Ment (Some e) b k)) as [pg'|] eqn:A.
    + inversion H; subst. eapply t_app; eauto.
    + destruct (new_tail c s (ms_tail s) ch) as [| |nt s1] eqn:N; try discriminate. apply new_tail_got in N.
      inversion H; subst. eapply (t_spill s t b k e mt pg nt s1); eauto.
  - destruct (ms_pages s nt) as [pg|] eqn:G; [|discriminate]. inversion H; subst. now apply t_app2.
  - inversion H; subst. now apply t_fin.
Qed.

(** ** Layer 1: page locks *)

Definition holds (p : mpc) : option nat :=
  match p with
  | MChk _ _ _ mt | MClaim _ _ _ mt | MUnget _ _ _ mt | MLock _ _ _ mt | MApp _ _ _ mt | MApp2 _ _ _ mt => Some mt
  | _ => None
  end.
Definition claims (p : mpc) : option nat :=
  match p with MLock _ _ _ mt | MApp _ _ _ mt | MApp2 _ _ _ mt => Some mt | _ => None end.
Definition writes (p : mpc) : option nat :=
  match p with MApp _ _ _ mt | MApp2 _ _ _ mt => Some mt | _ => None end.
Definition ontail (p : mpc) : option nat :=
  match p with MClaim _ _ _ mt | MLock _ _ _ mt | MApp _ _ _ mt | MApp2 _ _ _ mt => Some mt | _ => None end.

Record LInv (s : mst) : Prop := {
  l_rd : forall t p, In t (ms_rd s p) <-> holds (ms_pcs s t) = Some p;
  l_cl : forall p, ms_claim s p = true <-> exists t, claims (ms_pcs s t) = Some p;
  l_cu : forall t u p, claims (ms_pcs s t) = Some p -> claims (ms_pcs s u) = Some p -> t = u;
  l_wr : forall p, ms_wr s p = true <-> exists t, writes (ms_pcs s t) = Some p;
  l_wx : forall t u p, writes (ms_pcs s t) = Some p -> holds (ms_pcs s u) = Some p -> u = t;
  l_tail : forall t p, ontail (ms_pcs s t) = Some p -> p = ms_tail s
}.

Lemma claims_holds : forall p x, claims p = Some x -> holds p = Some x.
Proof. destruct p; cbn; congruence. Qed.
Lemma writes_claims : forall p x, writes p = Some x -> claims p = Some x.
Proof. destruct p; cbn; congruence. Qed.
Lemma ontail_holds : forall p x, ontail p = Some x -> holds p = Some x.
Proof. destruct p; cbn; congruence. Qed.
Lemma claims_ontail : forall p x, claims p = Some x -> ontail p = Some x.
Proof. destruct p; cbn; congruence. Qed.

(** a step that changes only the pc of [t] in a way that keeps its locks *)
Lemma linv_silent : forall s t p s', LInv s ->
  ms_rd s' = ms_rd s -> ms_claim s' = ms_claim s -> ms_wr s' = ms_wr s -> ms_tail s' = ms_tail s ->
  ms_pcs s' = upd (ms_pcs s) t p ->
  holds p = holds (ms_pcs s t) -> claims p = claims (ms_pcs s t) -> writes p = writes (ms_pcs s t) ->
  (forall x, ontail p = Some x -> x = ms_tail s) -> LInv s'.
Proof.
  intros s t p s' I E1 E2 E3 E4 E5 H1 H2 H3 H4.
  assert (Hh : forall u, holds (ms_pcs s' u) = holds (ms_pcs s u)).
  { intro u. rewrite E5. pcase u t (ms_pcs s); auto. }
  assert (Hc : forall u, claims (ms_pcs s' u) = claims (ms_pcs s u)).
  { intro u. rewrite E5. pcase u t (ms_pcs s); auto. }
  assert (Hw : forall u, writes (ms_pcs s' u) = writes (ms_pcs s u)).
  { intro u. rewrite E5. pcase u t (ms_pcs s); auto. }
  constructor.
  - intros u q. rewrite E1, Hh. apply (l_rd _ I).
  - intros q. rewrite E2, (l_cl _ I). split; intros [u Hu]; exists u; [rewrite Hc | rewrite <- Hc]; auto.
  - intros u v q. rewrite !Hc. apply (l_cu _ I).
  - intros q. rewrite E3, (l_wr _ I). split; intros [u Hu]; exists u; [rewrite Hw | rewrite <- Hw]; auto.
  - intros u v q. rewrite Hw, Hh. apply (l_wx _ I).
  - intros u q. rewrite E4, E5. pcase u t (ms_pcs s); [apply H4 | apply (l_tail _ I)].
Qed.

Lemma in_remove_iff : forall (l : list nat) x y, In x (remove Nat.eq_dec y l) <-> In x l /\ x <> y.
Proof.
  induction l as [|a l IH]; intros x y; cbn.
  - tauto.
  - destruct (Nat.eq_dec y a) as [->|N]; cbn; rewrite IH; intuition congruence.
Qed.

(** releasing the write lock on page [p] *)
Lemma linv_unlock : forall s t p s' pc', LInv s ->
  writes (ms_pcs s t) = Some p ->
  ms_rd s' = upd (ms_rd s) p (remove Nat.eq_dec t (ms_rd s p)) ->
  ms_claim s' = upd (ms_claim s) p false -> ms_wr s' = upd (ms_wr s) p false -> ms_tail s' = ms_tail s ->
  ms_pcs s' = upd (ms_pcs s) t pc' -> holds pc' = None -> LInv s'.
Proof.
  intros s t p s' pc' I Ht E1 E2 E3 E4 E5 Hn.
  assert (Hc : claims pc' = None) by (destruct pc'; cbn in *; congruence).
  assert (Hw : writes pc' = None) by (destruct pc'; cbn in *; congruence).
  assert (Ho : ontail pc' = None) by (destruct pc'; cbn in *; congruence).
  pose proof (writes_claims _ _ Ht) as Tc. pose proof (claims_holds _ _ Tc) as Th.
  constructor.
  - intros u q. rewrite E1, E5. pcase q p (ms_rd s).
    + rewrite in_remove_iff, (l_rd _ I). pcase u t (ms_pcs s); [rewrite Hn; intuition congruence | intuition].
    + rewrite (l_rd _ I). pcase u t (ms_pcs s); [rewrite Hn, Th; intuition congruence | tauto].
  - intros q. rewrite E2. pcase q p (ms_claim s).
    + split; [discriminate|]. intros [u Hu]. rewrite E5 in Hu. exfalso.
      pcase u t (ms_pcs s); [congruence|]. apply n. eapply (l_cu _ I); eauto.
    + rewrite (l_cl _ I). rewrite E5. split; intros [u Hu]; exists u.
      * pcase u t (ms_pcs s); [congruence | assumption].
      * pcase u t (ms_pcs s); [congruence | assumption].
  - intros u v q. rewrite E5. pcase u t (ms_pcs s); [congruence|]. pcase v t (ms_pcs s); [congruence|]. apply (l_cu _ I).
  - intros q. rewrite E3. pcase q p (ms_wr s).
    + split; [discriminate|]. intros [u Hu]. rewrite E5 in Hu. exfalso.
      pcase u t (ms_pcs s); [congruence|]. apply n. apply (l_cu _ I) with p; auto. now apply writes_claims.
    + rewrite (l_wr _ I). rewrite E5. split; intros [u Hu]; exists u.
      * pcase u t (ms_pcs s); [congruence | assumption].
      * pcase u t (ms_pcs s); [congruence | assumption].
  - intros u v q. rewrite E5. pcase u t (ms_pcs s); [congruence|]. pcase v t (ms_pcs s); [congruence|]. apply (l_wx _ I).
  - intros u q. rewrite E4, E5. pcase u t (ms_pcs s); [congruence | apply (l_tail _ I)].
Qed.

Lemma linv_step : forall s t s', LInv s -> trans s t s' ->
  (forall b k e mt nt s1, ms_pcs s t = MApp b k e mt -> spill_ok s (ms_tail s) nt s1 ->
     nt <> mt /\ forall u, holds (ms_pcs s u) <> Some nt) -> LInv s'.
Proof.
  intros s t s' I T Hsp. destruct T as [b k P Hb Hk|b k P|b k na P|b k a P Q|b k x P X|b k e P|b k e mt P W|b k e mt P Q|b k e mt P|b k e mt P|b k e mt P Q|b k e mt P|b k e mt P Q|b k e mt pg pg' P G A|b k e mt pg nt s1 P G A Sp|b k e nt pg P G|b na P].
  1-3: eapply (linv_silent s t _ _ I); try reflexivity; rewrite ?P; cbn; auto; try discriminate.
  - eapply (linv_silent s t _ _ I); try reflexivity; rewrite ?P; destruct (Nat.eqb _ 0); cbn; auto; discriminate.
  - eapply (linv_silent s t _ _ I); try reflexivity; rewrite ?P; cbn; auto; discriminate.
  - eapply (linv_silent s t _ _ I); try reflexivity; rewrite ?P; cbn; auto; discriminate.
  - (* get *)
    assert (NW : forall u, writes (ms_pcs s u) <> Some mt).
    { intros u Hu. assert (ms_wr s mt = true) by (apply (l_wr _ I); eauto). congruence. }
    constructor; cbn.
    + intros u q. pcase q mt (ms_rd s).
      * cbn. rewrite (l_rd _ I). pcase u t (ms_pcs s); cbn; [tauto|]. intuition congruence.
      * rewrite (l_rd _ I). pcase u t (ms_pcs s); cbn; [rewrite P; cbn; intuition congruence | tauto].
    + intros q. rewrite (l_cl _ I). split; intros [u Hu]; exists u; pcase u t (ms_pcs s); try assumption;
        try (rewrite P in Hu); discriminate.
    + intros u v q. pcase u t (ms_pcs s); [discriminate|]. pcase v t (ms_pcs s); [discriminate|]. apply (l_cu _ I).
    + intros q. rewrite (l_wr _ I). split; intros [u Hu]; exists u; pcase u t (ms_pcs s); try assumption;
        try (rewrite P in Hu); discriminate.
    + intros u v q. pcase u t (ms_pcs s); [discriminate|]. pcase v t (ms_pcs s); [|apply (l_wx _ I)].
      cbn. intros H1 H2. inversion H2; subst. now apply NW in H1.
    + intros u q. pcase u t (ms_pcs s); [discriminate | apply (l_tail _ I)].
  - eapply (linv_silent s t _ _ I); try reflexivity; rewrite ?P; cbn; auto. intros; congruence.
  - eapply (linv_silent s t _ _ I); try reflexivity; rewrite ?P; cbn; auto; discriminate.
  - eapply (linv_silent s t _ _ I); try reflexivity; rewrite ?P; cbn; auto; discriminate.
  - (* claim *)
    assert (NC : forall u, claims (ms_pcs s u) <> Some mt).
    { intros u Hu. assert (ms_claim s mt = true) by (apply (l_cl _ I); eauto). congruence. }
    constructor; cbn.
    + intros u q. rewrite (l_rd _ I). pcase u t (ms_pcs s); cbn; [rewrite P; tauto | tauto].
    + intros q. pcase q mt (ms_claim s).
      * split; [|auto]. intros _. exists t. now rewrite upd_same.
      * rewrite (l_cl _ I). split; intros [u Hu]; exists u; pcase u t (ms_pcs s); try assumption.
        { rewrite P in Hu. discriminate. } { cbn in Hu. congruence. }
    + intros u v q. pcase u t (ms_pcs s); cbn.
      * intro H. inversion H; subst. pcase v t (ms_pcs s); auto. intro H1. now apply NC in H1.
      * pcase v t (ms_pcs s); [|apply (l_cu _ I)]. cbn. intros H1 H2. inversion H2; subst. now apply NC in H1.
    + intros q. rewrite (l_wr _ I). split; intros [u Hu]; exists u; pcase u t (ms_pcs s); try assumption;
        try (rewrite P in Hu); discriminate.
    + intros u v q. pcase u t (ms_pcs s); [discriminate|]. pcase v t (ms_pcs s); [|apply (l_wx _ I)].
      cbn. intros H1 H2. apply (l_wx _ I) with q; auto. rewrite P. exact H2.
    + intros u q. pcase u t (ms_pcs s); [|apply (l_tail _ I)]. cbn. intro H. apply (l_tail _ I t). now rewrite P.
  - (* unget *)
    constructor; cbn.
    + intros u q. pcase q mt (ms_rd s).
      * rewrite in_remove_iff, (l_rd _ I). pcase u t (ms_pcs s); cbn; intuition congruence.
      * rewrite (l_rd _ I). pcase u t (ms_pcs s); cbn; [rewrite P; cbn; intuition congruence | tauto].
    + intros q. rewrite (l_cl _ I). split; intros [u Hu]; exists u; pcase u t (ms_pcs s); try assumption;
        try (rewrite P in Hu); discriminate.
    + intros u v q. pcase u t (ms_pcs s); [discriminate|]. pcase v t (ms_pcs s); [discriminate|]. apply (l_cu _ I).
    + intros q. rewrite (l_wr _ I). split; intros [u Hu]; exists u; pcase u t (ms_pcs s); try assumption;
        try (rewrite P in Hu); discriminate.
    + intros u v q. pcase u t (ms_pcs s); [discriminate|]. pcase v t (ms_pcs s); [discriminate|]. apply (l_wx _ I).
    + intros u q. pcase u t (ms_pcs s); [discriminate | apply (l_tail _ I)].
  - (* lock *)
    constructor; cbn.
    + intros u q. rewrite (l_rd _ I). pcase u t (ms_pcs s); cbn; [rewrite P; tauto | tauto].
    + intros q. rewrite (l_cl _ I). split; intros [u Hu]; exists u; pcase u t (ms_pcs s); try assumption.
      { now rewrite P in Hu. } { now rewrite P. }
    + intros u v q. intros H1 H2. apply (l_cu _ I) with q.
      { pcase u t (ms_pcs s); auto. now rewrite P. } { pcase v t (ms_pcs s); auto. now rewrite P. }
    + intros q. pcase q mt (ms_wr s).
      * split; [|auto]. intros _. exists t. now rewrite upd_same.
      * rewrite (l_wr _ I). split; intros [u Hu]; exists u; pcase u t (ms_pcs s); try assumption.
        { rewrite P in Hu. discriminate. } { cbn in Hu. congruence. }
    + intros u v q H1 H2.
      assert (H3 : holds (ms_pcs s v) = Some q) by (pcase v t (ms_pcs s); [rewrite P; exact H2 | exact H2]).
      pcase u t (ms_pcs s).
      * cbn in H1. inversion H1; subst. apply Q. now apply (l_rd _ I).
      * apply (l_wx _ I) with q; auto.
    + intros u q. pcase u t (ms_pcs s); [|apply (l_tail _ I)]. cbn. intro H. apply (l_tail _ I t). now rewrite P.
  - eapply (linv_unlock s t mt); eauto; try reflexivity. now rewrite P.
  - (* spill *)
    destruct (Hsp _ _ _ _ _ _ P Sp) as [Hne Hnh].
    assert (Ep : ms_pcs s1 = ms_pcs s) by (destruct Sp; reflexivity).
    assert (Er : ms_rd s1 = ms_rd s) by (destruct Sp; reflexivity).
    assert (Ec : ms_claim s1 = ms_claim s) by (destruct Sp; reflexivity).
    assert (Ew : ms_wr s1 = ms_wr s) by (destruct Sp; reflexivity).
    assert (Wt : writes (ms_pcs s t) = Some mt) by (now rewrite P).
    assert (Only : forall u, holds (ms_pcs s u) = Some mt -> u = t) by (intros u Hu; eapply (l_wx _ I); eauto).
    unfold after_spill. constructor; cbn; rewrite ?Ep, ?Er, ?Ec, ?Ew.
    + intros u q. destruct (Nat.eq_dec q mt) as [->|N1].
      * rewrite upd_same, (upd_other (ms_rd s)) by auto. rewrite in_remove_iff, (l_rd _ I). pcase u t (ms_pcs s); cbn; intuition congruence.
      * rewrite upd_other by auto. destruct (Nat.eq_dec q nt) as [->|N2].
        { rewrite upd_same. cbn. pcase u t (ms_pcs s); cbn; [tauto|]. specialize (Hnh u). intuition congruence. }
        { rewrite upd_other by auto. rewrite (l_rd _ I). pcase u t (ms_pcs s); cbn; [rewrite P; cbn; intuition congruence | tauto]. }
    + intros q. destruct (Nat.eq_dec q mt) as [->|N1].
      * rewrite upd_same. split; [discriminate|]. intros [u Hu]. exfalso. pcase u t (ms_pcs s); [cbn in Hu; congruence|].
        apply n. apply Only. now apply claims_holds.
      * rewrite upd_other by auto. destruct (Nat.eq_dec q nt) as [->|N2].
        { rewrite upd_same. split; [|auto]. intros _. exists t. now rewrite upd_same. }
        { rewrite upd_other by auto. rewrite (l_cl _ I). split; intros [u Hu]; exists u; pcase u t (ms_pcs s); try assumption.
          - rewrite P in Hu. cbn in Hu. congruence. - cbn in Hu. congruence. }
    + intros u v q H1 H2. pcase u t (ms_pcs s); pcase v t (ms_pcs s); auto.
      * cbn in H1. inversion H1; subst. apply claims_holds in H2. now apply Hnh in H2.
      * cbn in H2. inversion H2; subst. apply claims_holds in H1. now apply Hnh in H1.
      * eapply (l_cu _ I); eauto.
    + intros q. destruct (Nat.eq_dec q mt) as [->|N1].
      * rewrite upd_same. split; [discriminate|]. intros [u Hu]. exfalso. pcase u t (ms_pcs s); [cbn in Hu; congruence|].
        apply n. apply Only. now apply claims_holds, writes_claims.
      * rewrite upd_other by auto. destruct (Nat.eq_dec q nt) as [->|N2].
        { rewrite upd_same. split; [|auto]. intros _. exists t. now rewrite upd_same. }
        { rewrite upd_other by auto. rewrite (l_wr _ I). split; intros [u Hu]; exists u; pcase u t (ms_pcs s); try assumption.
          - rewrite P in Hu. cbn in Hu. congruence. - cbn in Hu. congruence. }
    + intros u v q H1 H2. pcase u t (ms_pcs s); pcase v t (ms_pcs s); auto.
      * cbn in H1. inversion H1; subst. now apply Hnh in H2.
      * cbn in H2. inversion H2; subst. apply writes_claims, claims_holds in H1. now apply Hnh in H1.
      * eapply (l_wx _ I); eauto.
    + intros u q H. pcase u t (ms_pcs s); [cbn in H; congruence|]. exfalso. apply n. apply Only.
      pose proof (l_tail _ I _ _ H) as X. apply ontail_holds in H. rewrite H. f_equal. rewrite X. symmetry.
      apply (l_tail _ I t). now rewrite P.
  - eapply (linv_unlock s t nt); eauto; try reflexivity. now rewrite P.
  - eapply (linv_silent s t _ _ I); try reflexivity; rewrite ?P; cbn; auto; discriminate.
Qed.

(** ** Layer 2: the list of metadata pages *)

Fixpoint linked (pages : nat -> option mpage) (C : list nat) : Prop :=
  match C with
  | [] => False
  | a :: r =>
      match r with
      | [] => exists pg, pages a = Some pg /\ mp_next pg = 0
      | b :: _ => (exists pg, pages a = Some pg /\ mp_next pg = b) /\ b <> 0 /\ linked pages r
      end
  end.

(** extents of the pages, consecutive repetitions collapsed *)
Fixpoint mext (C : list nat) : list nat :=
  match C with
  | [] => []
  | a :: r =>
      match r with
      | [] => [a / ppe]
      | b :: _ => if Nat.eqb (a / ppe) (b / ppe) then mext r else a / ppe :: mext r
      end
  end.

Definition ents (pages : nat -> option mpage) (p : nat) : list mentry :=
  match pages p with Some pg => mp_entries pg | None => [] end.
Definition recs (pages : nat -> option mpage) (C : list nat) : list mentry := flat_map (ents pages) C.

Definition gets (p : mpc) : option nat := match p with MGet _ _ _ mt => Some mt | _ => None end.

Record CInv (s : mst) (pre : list nat) : Prop := {
  c_hd : List.hd 0 (pre ++ [ms_tail s]) = head;
  c_nd : NoDup (pre ++ [ms_tail s]);
  c_dom : forall p, ms_pages s p <> None <-> In p (pre ++ [ms_tail s]);
  c_link : linked (ms_pages s) (pre ++ [ms_tail s]);
  c_le : forall p, In p pre -> p / ppe = ms_tail s / ppe -> p <= ms_tail s;
  c_held : forall t p, holds (ms_pcs s t) = Some p \/ gets (ms_pcs s t) = Some p -> In p (pre ++ [ms_tail s]);
  c_empty : forall t b k e nt, ms_pcs s t = MApp2 b k e nt -> ms_pages s nt = Some empty_page
}.

Lemma linked_ext : forall f g C, (forall p, In p C -> option_map mp_next (f p) = option_map mp_next (g p)) ->
  linked f C -> linked g C.
Proof.
  induction C as [|a r IH]; cbn; [auto|]. intros E H.
  assert (Ea : option_map mp_next (f a) = option_map mp_next (g a)) by (apply E; auto).
  destruct r as [|b r'].
  - destruct H as [pg [H1 H2]]. rewrite H1 in Ea. destruct (g a) as [pg'|] eqn:G; [|discriminate].
    exists pg'. split; auto. cbn in Ea. congruence.
  - destruct H as [[pg [H1 H2]] [H3 H4]]. split; [|split; auto].
    rewrite H1 in Ea. destruct (g a) as [pg'|] eqn:G; [|discriminate]. exists pg'. split; auto. cbn in Ea. congruence.
Qed.

Lemma linked_snoc : forall f g pre a b, linked f (pre ++ [a]) -> NoDup (pre ++ [a]) -> ~ In b (pre ++ [a]) -> b <> 0 ->
  (forall p, p <> a -> p <> b -> g p = f p) ->
  (exists pg, g a = Some pg /\ mp_next pg = b) -> (exists pg, g b = Some pg /\ mp_next pg = 0) ->
  linked g ((pre ++ [a]) ++ [b]).
Proof.
  induction pre as [|x pre IH]; intros a b H ND NI B0 E Ga Gb.
  - cbn. auto.
  - cbn [app] in *. inversion ND as [|? ? NX ND']; subst.
    assert (Hx : x <> a) by (intros ->; apply NX, in_or_app; right; left; auto).
    assert (Hb : x <> b) by (intros ->; apply NI; left; auto).
    assert (IHH : linked f (pre ++ [a]) -> linked g ((pre ++ [a]) ++ [b])).
    { intro. apply IH; auto. intro. apply NI. now right. }
    destruct (pre ++ [a]) as [|y r] eqn:Ey; [now destruct pre|].
    cbn [app] in *. change (linked g (x :: y :: r ++ [b])) with
      ((exists pg, g x = Some pg /\ mp_next pg = y) /\ y <> 0 /\ linked g (y :: r ++ [b])).
    change (linked f (x :: y :: r)) with
      ((exists pg, f x = Some pg /\ mp_next pg = y) /\ y <> 0 /\ linked f (y :: r)) in H.
    destruct H as [[pg [H1 H2]] [H3 H4]]. split; [|split; [exact H3 | exact (IHH H4)]].
    exists pg. rewrite (E x Hx Hb). split; assumption.
Qed.

Lemma mext_snoc : forall pre a b, mext ((pre ++ [a]) ++ [b])
  = if Nat.eqb (a / ppe) (b / ppe) then mext (pre ++ [a]) else mext (pre ++ [a]) ++ [b / ppe].
Proof.
  induction pre as [|x pre IH]; intros a b.
  - cbn. destruct (Nat.eqb_spec (a / ppe) (b / ppe)) as [E|E]; [now rewrite E | reflexivity].
  - cbn [app]. specialize (IH a b). destruct (pre ++ [a]) as [|y r] eqn:Ey; [now destruct pre|].
    cbn [app] in *. cbn [mext] in *. destruct (Nat.eqb (x / ppe) (y / ppe)); rewrite IH;
      destruct (Nat.eqb (a / ppe) (b / ppe)); reflexivity.
Qed.

Lemma in_mext : forall C e, In e (mext C) <-> exists p, In p C /\ p / ppe = e.
Proof.
  induction C as [|a r IH]; intro e.
  - cbn. split; [tauto | intros [p [[] _]]].
  - cbn [mext]. destruct r as [|b r'].
    + cbn. split; [intros [<-|[]]; exists a; auto | intros [p [[<-|[]] H]]; auto].
    + destruct (Nat.eqb_spec (a / ppe) (b / ppe)) as [E|E].
      * rewrite IH. split; intros [p [H1 H2]].
        { exists p. split; auto. now right. }
        { destruct H1 as [<-|H1]; [exists b; split; [now left | congruence] | exists p; auto]. }
      * cbn [In]. rewrite IH. split.
        { intros [<-|[p [H1 H2]]]; [exists a; split; auto | exists p; split; auto]. }
        { intros [p [[<-|H1] H2]]; [left; auto | right; exists p; auto]. }
Qed.

Lemma recs_ext : forall f g C, (forall p, In p C -> f p = g p) -> recs f C = recs g C.
Proof.
  unfold recs, ents. induction C as [|a r IH]; intros E; cbn; [reflexivity|].
  rewrite (E a) by (now left). rewrite IH; [reflexivity|]. intros; apply E; now right.
Qed.

Lemma recs_append : forall pages pre a pg pg' x, NoDup (pre ++ [a]) -> pages a = Some pg ->
  mp_entries pg' = mp_entries pg ++ [x] ->
  recs (upd pages a (Some pg')) (pre ++ [a]) = recs pages (pre ++ [a]) ++ [x].
Proof.
  intros pages pre a pg pg' x ND G E. unfold recs. rewrite !flat_map_app. cbn.
  unfold ents at 2 4. rewrite upd_same, G, E, !app_nil_r, <- app_assoc. f_equal.
  apply recs_ext. intros p Hp. apply upd_other. intros ->. apply NoDup_remove in ND. rewrite app_nil_r in ND. tauto.
Qed.

Lemma append_entry_some : forall pg e pg', append_entry c pg e = Some pg' ->
  mp_next pg' = mp_next pg /\ mp_entries pg' = mp_entries pg ++ [e].
Proof. intros pg e pg' H. unfold append_entry in H. destruct (_ <=? _)%N; [|discriminate]. inversion H; subst; auto. Qed.

Lemma linked_last : forall f pre a, linked f (pre ++ [a]) -> exists pg, f a = Some pg /\ mp_next pg = 0.
Proof.
  induction pre as [|x pre IH]; intros a H; [exact H|]. cbn [app] in H.
  destruct (pre ++ [a]) as [|y r] eqn:Ey; [now destruct pre|]. cbn [linked] in H. apply IH.
  rewrite Ey. tauto.
Qed.

(** appending an entry to the tail page *)
Lemma cinv_append : forall s t s' pre pg pg' pc', CInv s pre -> LInv s ->
  writes (ms_pcs s t) = Some (ms_tail s) -> ms_pages s (ms_tail s) = Some pg -> mp_next pg' = mp_next pg ->
  ms_pages s' = upd (ms_pages s) (ms_tail s) (Some pg') -> ms_tail s' = ms_tail s ->
  ms_pcs s' = upd (ms_pcs s) t pc' -> holds pc' = None -> gets pc' = None -> CInv s' pre.
Proof.
  intros s t s' pre pg pg' pc' I L W G N E1 E2 E3 H1 H2. constructor; rewrite ?E2.
  - apply (c_hd _ _ I). - apply (c_nd _ _ I).
  - intro p. rewrite E1, <- (c_dom _ _ I). pcase p (ms_tail s) (ms_pages s); [rewrite G; intuition congruence | tauto].
  - apply (linked_ext (ms_pages s)); [|apply (c_link _ _ I)]. intros p _. rewrite E1.
    pcase p (ms_tail s) (ms_pages s); [rewrite G; cbn; congruence | reflexivity].
  - apply (c_le _ _ I).
  - intros u p. rewrite E3. pcase u t (ms_pcs s); [intuition congruence | apply (c_held _ _ I)].
  - intros u b k e nt. rewrite E3. pcase u t (ms_pcs s); [intros ->; discriminate|]. intro Hu.
    assert (nt = ms_tail s) by (apply (l_tail _ L u); now rewrite Hu). subst nt. exfalso. apply n.
    eapply (l_wx _ L); eauto. now rewrite Hu.
Qed.

Lemma cinv_silent : forall s t s' pre pc', CInv s pre -> ms_pages s' = ms_pages s -> ms_tail s' = ms_tail s ->
  ms_pcs s' = upd (ms_pcs s) t pc' ->
  (forall p, holds pc' = Some p \/ gets pc' = Some p -> In p (pre ++ [ms_tail s])) ->
  (forall b k e nt, pc' <> MApp2 b k e nt) -> CInv s' pre.
Proof.
  intros s t s' pre pc' I E1 E2 E3 H N. constructor; rewrite ?E1, ?E2; try apply I.
  - intros u p. rewrite E3. pcase u t (ms_pcs s); [apply H | apply (c_held _ _ I)].
  - intros u b k e nt. rewrite E3. pcase u t (ms_pcs s); [intro X; now apply N in X | apply (c_empty _ _ I)].
Qed.

Lemma spill_page : forall s pre nt s1, CInv s pre -> ms_refs s 0 <> 0%N ->
  (forall x, ms_refs s x = 0%N -> forall p, In p (pre ++ [ms_tail s]) -> p / ppe <> x) ->
  spill_ok s (ms_tail s) nt s1 ->
  ~ In nt (pre ++ [ms_tail s]) /\ nt <> 0 /\ (forall p, In p (pre ++ [ms_tail s]) -> p / ppe = nt / ppe -> p <= nt).
Proof.
  intros s pre nt s1 I Z F Sp. inversion Sp as [M E1 E2|x M X E1 E2]; subst.
  - assert (D : (ms_tail s1 + 1) / ppe = ms_tail s1 / ppe).
    { set (a := ms_tail s1) in *. clearbody a.
      pose proof (Nat.div_mod a ppe ltac:(lia)). pose proof (Nat.mod_upper_bound a ppe ltac:(lia)).
      symmetry. apply Nat.div_unique with (a mod ppe + 1); [|lia].
      destruct (Nat.eq_dec (a mod ppe + 1) ppe) as [Q|Q]; [|lia]. exfalso. apply M.
      replace (a + 1) with ((a / ppe + 1) * ppe) by nia. apply Nat.mod_mul. lia. }
    assert (LE : forall p, In p (pre ++ [ms_tail s1]) -> p / ppe = ms_tail s1 / ppe -> p <= ms_tail s1).
    { intros p Hp. apply in_app_or in Hp. destruct Hp as [Hp|[<-|[]]]; [now apply (c_le _ _ I) | lia]. }
    split; [|split].
    + intro Hi. specialize (LE _ Hi D). lia.
    + lia.
    + intros p Hp. rewrite D. intro Q. specialize (LE _ Hp Q). lia.
  - assert (D : (x * ppe) / ppe = x) by (apply Nat.div_mul; lia).
    split; [|split].
    + intro Hi. now apply (F x X) in Hi.
    + intro Q. apply Nat.eq_mul_0 in Q. destruct Q as [->|Q]; [congruence | lia].
    + intros p Hp. rewrite D. intro Q. now apply (F x X) in Hp.
Qed.

Lemma cinv_step : forall s t s' pre, CInv s pre -> LInv s -> trans s t s' -> ms_refs s 0 <> 0%N ->
  (forall x, ms_refs s x = 0%N -> forall p, In p (pre ++ [ms_tail s]) -> p / ppe <> x) ->
  exists pre', CInv s' pre' /\
    ((pre' = pre /\ ms_tail s' = ms_tail s) \/
     (exists b k e, ms_pcs s t = MApp b k e (ms_tail s) /\ pre' = pre ++ [ms_tail s])).
Proof.
  intros s t s' pre I L T Z F.
  assert (HT : In (ms_tail s) (pre ++ [ms_tail s])) by (apply in_or_app; right; now left).
  destruct T as [b k P Hb Hk|b k P|b k na P|b k a P Q|b k x P X|b k e P|b k e mt P W|b k e mt P Q|b k e mt P|b k e mt P|b k e mt P Q|b k e mt P|b k e mt P Q|b k e mt pg pg' P G A|b k e mt pg nt s1 P G A Sp|b k e nt pg P G|b na P].
  4: { exists pre. split; [|left; auto]. eapply (cinv_silent s t _ _ _ I); try reflexivity;
       destruct (Nat.eqb _ 0); cbn; intros; try discriminate; intuition discriminate. }
  all: try (exists pre; split; [|left; split; reflexivity]; eapply (cinv_silent s t _ _ _ I); try reflexivity;
      [ cbn; intros q [Hq|Hq]; try discriminate; inversion Hq; subst; try exact HT;
        apply (c_held _ _ I t); rewrite P; cbn; auto | intros; discriminate ]; fail).
  - assert (mt = ms_tail s) by (apply (l_tail _ L t); now rewrite P). subst mt.
    exists pre. split; [|left; auto]. apply append_entry_some in A.
    eapply (cinv_append s t _ pre pg pg'); eauto; try reflexivity; [now rewrite P | tauto].
  - assert (mt = ms_tail s) by (apply (l_tail _ L t); now rewrite P). subst mt.
    destruct (spill_page _ _ _ _ I Z F Sp) as (NI & N0 & LE).
    assert (Ep : ms_pages s1 = ms_pages s) by (destruct Sp; reflexivity).
    assert (Eq : ms_pcs s1 = ms_pcs s) by (destruct Sp; reflexivity).
    assert (Nt : nt <> ms_tail s) by (intros ->; auto).
    exists (pre ++ [ms_tail s]). split; [|right; eauto 10]. unfold after_spill. constructor; cbn; rewrite ?Ep, ?Eq.
    + pose proof (c_hd _ _ I) as H. destruct pre; exact H.
    + apply NoDup_app_iff_local; [apply (c_nd _ _ I) | exact NI].
    + intro p. pose proof (c_dom _ _ I p) as D. rewrite in_app_iff. cbn. pcase p nt (upd (ms_pages s) (ms_tail s) (Some (set_next pg nt))).
      * split; [auto | discriminate].
      * pcase p (ms_tail s) (ms_pages s); [split; [left; auto | discriminate] | rewrite D; intuition].
    + apply (linked_snoc (ms_pages s)); auto; try apply I.
      * intros p H1 H2. now rewrite !upd_other.
      * rewrite upd_other by auto. rewrite upd_same. eexists; split; reflexivity.
      * rewrite upd_same. eexists; split; reflexivity.
    + exact LE.
    + intros u p. rewrite in_app_iff. pcase u t (ms_pcs s).
      * cbn. intros [H|H]; [inversion H; subst; auto | discriminate].
      * intro H. left. now apply (c_held _ _ I) in H.
    + intros u b' k' e' nt'. pcase u t (ms_pcs s).
      * intro H. inversion H; subst. now rewrite upd_same.
      * intro H. exfalso. apply n. eapply (l_wx _ L t u (ms_tail s)); [now rewrite P|].
        assert (nt' = ms_tail s) by (apply (l_tail _ L u); now rewrite H). subst. now rewrite H.
  - assert (nt = ms_tail s) by (apply (l_tail _ L t); now rewrite P). subst nt.
    exists pre. split; [|left; auto].
    eapply (cinv_append s t _ pre pg (match append_entry c pg (Ment (Some e) b k) with Some p => p | None => pg end));
      eauto; try reflexivity; [now rewrite P|].
    destruct (append_entry c pg _) eqn:A; [|reflexivity]. apply append_entry_some in A. tauto.
Qed.

(** ** Layer 3: who owns an extent *)

Inductive own := ONo | OMeta | ORec | ONext (b : nat) | OPend (t : nat).
Definition hx := head / ppe.

Record OInv (s : mst) (C : list nat) (O : nat -> own) : Prop := {
  o_meta : forall x, O x = OMeta <-> In x (mext C);
  o_rec : forall x, O x = ORec <-> In (Some x) (map me_ext (recs (ms_pages s) C));
  o_next : forall x b, O x = ONext b <-> b < m_nb c /\ ms_next_ext s b = x;
  o_pend : forall x t, O x = OPend t <-> pend (ms_pcs s t) = Some x;
  o_refs : forall x, O x <> ONo -> x <> hx -> ms_refs s x = 2%N;
  o_head : if m_keyed c then ms_refs s hx = 2%N else (3 <= ms_refs s hx)%N;
  o_byte : forall x, (ms_refs s x < 256)%N;
  o_ndm : NoDup (mext C);
  o_ndr : NoDup (map me_ext (recs (ms_pages s) C));
  o_some : forall en, In en (recs (ms_pages s) C) -> exists x, me_ext en = Some x;
  o_zero : ms_refs s 0 <> 0%N;
  o_z0 : O 0 = ONo
}.

(** batch and key of a call in progress *)
Definition inb (p : mpc) : option nat :=
  match p with
  | MExt b _ | MTail b _ _ | MGet b _ _ _ | MChk b _ _ _ | MClaim b _ _ _ | MUnget b _ _ _
  | MLock b _ _ _ | MApp b _ _ _ | MApp2 b _ _ _ | MFin b _ => Some b
  | _ => None
  end.
Definition pok (p : mpc) : Prop :=
  match p with
  | MOut => True
  | MFin b _ => b < m_nb c
  | MRd b k | MCas b k _ | MExt b k | MTail b k _ | MGet b k _ _ | MChk b k _ _ | MClaim b k _ _ | MUnget b k _ _
  | MLock b k _ _ | MApp b k _ _ | MApp2 b k _ _ => b < m_nb c /\ key_fits c (CCall b k)
  end.

(** ** Layer 4: the position of each batch *)

Definition curpos (R : list mentry) (ret : list nat) (b a : nat) : Prop :=
  (exists k, In (Ment (Some (a / ppe)) b k) R) /\ forall p, In p ret -> p / ppe = a / ppe -> p < a.

Record BInv (s : mst) (R : list mentry) : Prop := {
  b_lock : forall b, ms_next_addr s b = None <-> exists t, inb (ms_pcs s t) = Some b;
  b_uni : forall t u b, inb (ms_pcs s t) = Some b -> inb (ms_pcs s u) = Some b -> t = u;
  b_cur : forall b a, ms_next_addr s b = Some a -> a mod ppe <> 0 -> curpos R (ms_ret s) b a;
  b_fin : forall t b na, ms_pcs s t = MFin b na -> curpos R (ms_ret s) b na;
  b_nd : NoDup (ms_ret s);
  b_ret : forall p, In p (ms_ret s) -> In (Some (p / ppe)) (map me_ext R)
}.

Record Inv (s : mst) (pre : list nat) (O : nat -> own) : Prop := {
  i_l : LInv s;
  i_c : CInv s pre;
  i_o : OInv s (pre ++ [ms_tail s]) O;
  i_p : forall t, pok (ms_pcs s t);
  i_b : BInv s (recs (ms_pages s) (pre ++ [ms_tail s]))
}.

Lemma head_meta : forall s pre, CInv s pre -> In hx (mext (pre ++ [ms_tail s])).
Proof.
  intros s pre I. apply in_mext. exists head. split; [|reflexivity]. rewrite <- (c_hd _ _ I).
  destruct pre; cbn; auto.
Qed.

Lemma o_live : forall s pre O x, CInv s pre -> OInv s (pre ++ [ms_tail s]) O -> O x <> ONo -> ms_refs s x <> 0%N.
Proof.
  intros s pre O x I J H. destruct (Nat.eq_dec x hx) as [->|N].
  - pose proof (o_head _ _ _ J). destruct (m_keyed c); lia.
  - rewrite (o_refs _ _ _ J x H N). lia.
Qed.

Lemma o_fresh : forall s pre O x, CInv s pre -> OInv s (pre ++ [ms_tail s]) O -> ms_refs s x = 0%N -> O x = ONo.
Proof.
  intros s pre O x I J H. destruct (O x) eqn:E; auto; exfalso; apply (o_live _ _ _ x I J); auto; congruence.
Qed.

Lemma oinv_frame : forall s s' C O, OInv s C O -> ms_refs s' = ms_refs s -> ms_next_ext s' = ms_next_ext s ->
  recs (ms_pages s') C = recs (ms_pages s) C -> (forall t, pend (ms_pcs s' t) = pend (ms_pcs s t)) -> OInv s' C O.
Proof.
  intros s s' C O J E1 E2 E3 E4. constructor; rewrite ?E1, ?E2, ?E3; try apply J.
  intros x t. rewrite E4. apply J.
Qed.

Lemma nodup_map_inj : forall (l : list mentry) x y, NoDup (map me_ext l) -> In x l -> In y l ->
  me_ext x = me_ext y -> x = y.
Proof.
  induction l as [|a l IH]; cbn; intros x y ND Hx Hy E; [tauto|]. inversion ND as [|? ? N ND']; subst.
  destruct Hx as [<-|Hx], Hy as [<-|Hy]; auto.
  - exfalso. apply N. rewrite E. now apply in_map.
  - exfalso. apply N. rewrite <- E. now apply in_map.
Qed.

(** recording extent [e] *)
Lemma oinv_record : forall s s' t C O e b k, OInv s C O -> pend (ms_pcs s t) = Some e ->
  ms_refs s' = ms_refs s -> ms_next_ext s' = ms_next_ext s ->
  recs (ms_pages s') C = recs (ms_pages s) C ++ [Ment (Some e) b k] ->
  (forall u, pend (ms_pcs s' u) = if Nat.eqb u t then None else pend (ms_pcs s u)) ->
  OInv s' C (upd O e ORec).
Proof.
  intros s s' t C O e b k J P E1 E2 E3 E4.
  assert (Oe : O e = OPend t) by (now apply (o_pend _ _ _ J)).
  constructor; rewrite ?E1, ?E2, ?E3; try apply J.
  - intro x. pcase x e O; [|apply J]. split; [discriminate|]. intro H. apply (o_meta _ _ _ J) in H. congruence.
  - intro x. rewrite map_app, in_app_iff. cbn. pcase x e O; [intuition|]. rewrite (o_rec _ _ _ J). intuition congruence.
  - intros x b'. pcase x e O; [|apply J]. split; [discriminate|]. intro H. apply (o_next _ _ _ J) in H. congruence.
  - intros x u. rewrite E4. destruct (Nat.eqb_spec u t) as [->|N].
    + pcase x e O; [intuition discriminate|]. rewrite (o_pend _ _ _ J). rewrite P. intuition congruence.
    + pcase x e O; [|apply J]. split; [discriminate|]. intro H. apply (o_pend _ _ _ J) in H. congruence.
  - intros x H N. apply (o_refs _ _ _ J); auto. pcase x e O; congruence.
  - rewrite map_app. cbn. apply NoDup_app_iff; [apply (o_ndr _ _ _ J)|]. intro H. apply (o_rec _ _ _ J) in H. congruence.
  - intros en H. apply in_app_or in H. destruct H as [H|[<-|[]]]; [now apply (o_some _ _ _ J) | eexists; reflexivity].
  - pose proof (o_z0 _ _ _ J). rewrite upd_other by congruence. assumption.
Qed.

Lemma binv_frame : forall s s' R t, BInv s R -> ms_next_addr s' = ms_next_addr s -> ms_ret s' = ms_ret s ->
  (forall u, u <> t -> ms_pcs s' u = ms_pcs s u) -> inb (ms_pcs s' t) = inb (ms_pcs s t) ->
  (forall b na, ms_pcs s' t <> MFin b na) -> BInv s' R.
Proof.
  intros s s' R t J E1 E2 E3 E4 E5.
  assert (Ei : forall u, inb (ms_pcs s' u) = inb (ms_pcs s u)).
  { intro u. destruct (Nat.eq_dec u t) as [->|N]; auto. now rewrite E3. }
  constructor; rewrite ?E1, ?E2; try apply J.
  - intro b. rewrite (b_lock _ _ J). split; intros [u Hu]; exists u; [rewrite Ei | rewrite <- Ei]; auto.
  - intros u v b. rewrite !Ei. apply J.
  - intros u b na. destruct (Nat.eq_dec u t) as [->|N]; [intro H; now apply E5 in H|]. rewrite E3 by auto. apply J.
Qed.

Lemma curpos_mono : forall R R' ret b a, (forall x, In x R -> In x R') -> curpos R ret b a -> curpos R' ret b a.
Proof. intros R R' ret b a H [[k K] L]. split; eauto. Qed.

Lemma div_ppe : forall e, e * ppe / ppe = e.
Proof. intro. apply Nat.div_mul. lia. Qed.

(** recording extent [e] of batch [b] *)
Lemma binv_record : forall s s' R t b k e, BInv s R -> inb (ms_pcs s t) = Some b ->
  ~ In (Some e) (map me_ext R) ->
  ms_next_addr s' = ms_next_addr s -> ms_ret s' = ms_ret s -> ms_pcs s' = upd (ms_pcs s) t (MFin b (e * ppe)) ->
  BInv s' (R ++ [Ment (Some e) b k]).
Proof.
  intros s s' R t b k e J P NI E1 E2 E3.
  assert (Ei : forall u, inb (ms_pcs s' u) = inb (ms_pcs s u)).
  { intro u. rewrite E3. pcase u t (ms_pcs s); auto. }
  constructor; rewrite ?E1, ?E2.
  - intro b'. rewrite (b_lock _ _ J). split; intros [u Hu]; exists u; [rewrite Ei | rewrite <- Ei]; auto.
  - intros u v b'. rewrite !Ei. apply J.
  - intros b' a H1 H2. apply (curpos_mono R); [intros; apply in_or_app; auto|]. now apply (b_cur _ _ J).
  - intros u b' na. rewrite E3. pcase u t (ms_pcs s).
    + intro H. inversion H; subst. split; rewrite div_ppe.
      * exists k. apply in_or_app. right. now left.
      * intros p Hp Q. exfalso. apply NI. rewrite <- Q. now apply (b_ret _ _ J).
    + intro H. apply (curpos_mono R); [intros; apply in_or_app; auto|]. eapply (b_fin _ _ J); eauto.
  - apply J.
  - intros p Hp. rewrite map_app. apply in_or_app. left. now apply (b_ret _ _ J).
Qed.

Lemma mini_fresh_page : forall s pre O, CInv s pre -> OInv s (pre ++ [ms_tail s]) O ->
  forall x, ms_refs s x = 0%N -> forall p, In p (pre ++ [ms_tail s]) -> p / ppe <> x.
Proof.
  intros s pre O I J x X p Hp E. apply (o_live _ _ _ x I J); [|exact X].
  assert (O x = OMeta) by (apply (o_meta _ _ _ J); apply in_mext; eauto). congruence.
Qed.

Lemma inv_step : forall s t s' pre O, Inv s pre O -> trans s t s' -> exists pre' O', Inv s' pre' O'.
Proof.
  intros s t s' pre O I T. pose proof (i_l _ _ _ I) as L. pose proof (i_c _ _ _ I) as IC.
  pose proof (i_o _ _ _ I) as IO. pose proof (i_p _ _ _ I) as IP. pose proof (i_b _ _ _ I) as IB.
  pose proof (mini_fresh_page _ _ _ IC IO) as F. pose proof (o_zero _ _ _ IO) as Z.
  assert (L' : LInv s').
  { eapply linv_step; eauto. intros b k e mt nt s1 P Sp. destruct (spill_page _ _ _ _ IC Z F Sp) as (NI & _ & _).
    assert (mt = ms_tail s) by (apply (l_tail _ L t); now rewrite P). subst mt. split.
    - intros ->. apply NI, in_or_app. right. now left.
    - intros u Hu. apply NI. apply (c_held _ _ IC u). now left. }
  destruct (cinv_step _ _ _ _ IC L T Z F) as (pre' & IC' & Sh).
  specialize (IP t) as IPt.
  assert (IPs : forall pc', ms_pcs s' = upd (ms_pcs s) t pc' -> pok pc' -> forall u, pok (ms_pcs s' u)).
  { intros pc' E Hp u. rewrite E. pcase u t (ms_pcs s); auto. }
  (* the tail moves only in a spill *)
  assert (Same : (forall b k e, ms_pcs s t = MApp b k e (ms_tail s) -> ms_tail s' = ms_tail s) -> pre' = pre /\ ms_tail s' = ms_tail s).
  { intro H. destruct Sh as [Sh|(b & k & e & P & E)]; auto. specialize (H _ _ _ P). exfalso.
    pose proof (c_nd _ _ IC') as ND. rewrite E, H in ND. apply NoDup_remove in ND. rewrite app_nil_r in ND.
    destruct ND as [_ ND]. apply ND, in_or_app. right. now left. }
  destruct T as [b k P Hb Hk|b k P|b k na P|b k a P Q|b k x P X|b k e P|b k e mt P W|b k e mt P Q|b k e mt P|b k e mt P|b k e mt P Q|b k e mt P|b k e mt P Q|b k e mt pg pg' P G A|b k e mt pg nt s1 P G A Sp|b k e nt pg P G|b na P];
  rewrite P in IPt; cbn [pok] in IPt.
  (* steps that change neither pages, counts nor batches *)
  all: try (destruct Same as [-> Et]; [rewrite P; intros; try discriminate; reflexivity|]; exists pre, O;
    constructor; [exact L' | exact IC' | | eapply IPs; [reflexivity | cbn; auto] | ]; cbn [ms_tail goto st_pcs st_rd st_claim st_wr st_na];
    [ eapply oinv_frame; [exact IO | reflexivity | reflexivity | reflexivity | ];
      intro u; cbn; pcase u t (ms_pcs s); [now rewrite P | reflexivity]
    | eapply (binv_frame s _ _ t IB); try reflexivity;
      [intros u Hu; cbn; now rewrite upd_other | cbn; now rewrite upd_same, P | intros; cbn; rewrite upd_same; discriminate]]; fail).
  - (* cas *)
    destruct Same as [-> Et]; [rewrite P; intros; discriminate|]. exists pre, O.
    set (pc' := if Nat.eqb (a mod ppe) 0 then MExt b k else MFin b a) in *.
    assert (Pn : pend pc' = None) by (unfold pc'; now destruct (Nat.eqb _ 0)).
    assert (Pi : inb pc' = Some b) by (unfold pc'; now destruct (Nat.eqb _ 0)).
    assert (NB : forall u, inb (ms_pcs s u) <> Some b).
    { intros u Hu. assert (ms_next_addr s b = None) by (apply (b_lock _ _ IB); eauto). congruence. }
    constructor; [exact L' | exact IC' | | eapply IPs; [reflexivity|] |].
    + eapply oinv_frame; [exact IO | reflexivity | reflexivity | reflexivity | ].
      intro u; cbn; pcase u t (ms_pcs s); [now rewrite P | reflexivity].
    + unfold pc'. destruct (Nat.eqb _ 0); cbn; tauto.
    + cbn. constructor; cbn.
      * intro b'. pcase b' b (ms_next_addr s).
        { split; auto. intros _. exists t. now rewrite upd_same. }
        { rewrite (b_lock _ _ IB). split; intros [u Hu]; exists u; pcase u t (ms_pcs s); auto; [rewrite P in Hu; discriminate | congruence]. }
      * intros u v b'. pcase u t (ms_pcs s); pcase v t (ms_pcs s); auto.
        { rewrite Pi. intros H1 H2. inversion H1; subst. now apply NB in H2. }
        { rewrite Pi. intros H1 H2. inversion H2; subst. now apply NB in H1. }
        { apply IB. }
      * intros b' a'. pcase b' b (ms_next_addr s); [discriminate | apply IB].
      * intros u b' na. pcase u t (ms_pcs s); [|apply IB]. unfold pc'.
        destruct (Nat.eqb_spec (a mod ppe) 0) as [E|E]; [discriminate|]. intro H. inversion H; subst. now apply (b_cur _ _ IB).
      * apply IB. * apply IB.
  - (* next extent *)
    destruct Same as [-> Et]; [rewrite P; intros; discriminate|]. destruct IPt as [Hb Hk].
    assert (Ox : O x = ONo) by (exact (o_fresh _ _ _ _ IC IO X)).
    set (e := ms_next_ext s b) in *.
    assert (Oe : O e = ONext b) by (apply (o_next _ _ _ IO); split; [exact Hb | reflexivity]).
    assert (Nxe : x <> e) by congruence.
    exists pre, (upd (upd O x (ONext b)) e (OPend t)).
    constructor; [exact L' | exact IC' | | eapply IPs; [reflexivity | cbn; auto] | ].
    + cbn. constructor; cbn.
      * intro y. pcase y e (upd O x (ONext b)); [|pcase y x O; [|apply IO]].
        { split; [discriminate|]. intro H. apply (o_meta _ _ _ IO) in H. congruence. }
        { split; [discriminate|]. intro H. apply (o_meta _ _ _ IO) in H. congruence. }
      * intro y. pcase y e (upd O x (ONext b)); [|pcase y x O; [|apply IO]].
        { split; [discriminate|]. intro H. apply (o_rec _ _ _ IO) in H. congruence. }
        { split; [discriminate|]. intro H. apply (o_rec _ _ _ IO) in H. congruence. }
      * intros y b'. pcase y e (upd O x (ONext b)).
        { split; [discriminate|]. intros [H1 H2]. pcase b' b (ms_next_ext s); [congruence|].
          assert (O e = ONext b') by (apply (o_next _ _ _ IO); auto). congruence. }
        pcase y x O.
        { pcase b' b (ms_next_ext s); [intuition|]. split; [congruence|]. intro H. apply (o_next _ _ _ IO) in H. congruence. }
        { rewrite (o_next _ _ _ IO). pcase b' b (ms_next_ext s); [fold e; intuition congruence | tauto]. }
      * intros y u. pcase y e (upd O x (ONext b)).
        { pcase u t (ms_pcs s); cbn; [tauto|]. split; [congruence|]. intro H. apply (o_pend _ _ _ IO) in H. congruence. }
        pcase y x O.
        { split; [discriminate|]. pcase u t (ms_pcs s); cbn; [congruence|]. intro H. apply (o_pend _ _ _ IO) in H. congruence. }
        { rewrite (o_pend _ _ _ IO). pcase u t (ms_pcs s); cbn; [rewrite P; cbn; intuition congruence | tauto]. }
      * intros y H Hh. pcase y x (ms_refs s); auto. apply (o_refs _ _ _ IO); auto.
        pcase y e (upd O x (ONext b)); [congruence|]. rewrite upd_other in H by auto. exact H.
      * assert (hx <> x).
        { intros <-. pose proof (head_meta _ _ IC) as H. apply (o_meta _ _ _ IO) in H. congruence. }
        rewrite upd_other by auto. apply IO.
      * intro y. pcase y x (ms_refs s); [lia | apply IO].
      * apply IO. * apply IO. * apply IO.
      * pcase 0 x (ms_refs s); [discriminate | apply IO].
      * pose proof (o_z0 _ _ _ IO). rewrite !upd_other by congruence. assumption.
    + cbn. eapply (binv_frame s _ _ t IB); try reflexivity;
      [intros u Hu; cbn; now rewrite upd_other | cbn; now rewrite upd_same, P | intros; cbn; rewrite upd_same; discriminate].
  - (* append *)
    assert (mt = ms_tail s) by (apply (l_tail _ L t); now rewrite P). subst mt.
    destruct Same as [-> Et]; [intros; reflexivity|]. destruct IPt as [Hb Hk].
    apply append_entry_some in A. destruct A as [A1 A2].
    assert (Rr : recs (upd (ms_pages s) (ms_tail s) (Some pg')) (pre ++ [ms_tail s])
                 = recs (ms_pages s) (pre ++ [ms_tail s]) ++ [Ment (Some e) b k]).
    { apply (recs_append _ _ _ pg); auto. apply IC. }
    assert (Oe : O e = OPend t) by (apply (o_pend _ _ _ IO); now rewrite P).
    exists pre, (upd O e ORec). constructor; [exact L' | exact IC' | | eapply IPs; [reflexivity | cbn; auto] | ].
    + cbn [ms_tail goto st_pcs full_unlock st_rd st_claim st_wr st_pages].
      eapply (oinv_record s _ t _ O e b k IO); try reflexivity; [now rewrite P | exact Rr |].
      intro u. cbn. destruct (Nat.eqb_spec u t) as [->|N]; [now rewrite upd_same | now rewrite upd_other].
    + cbn [ms_pages ms_tail goto st_pcs full_unlock st_rd st_claim st_wr st_pages]. rewrite Rr.
      eapply (binv_record s _ _ t b k e IB); try reflexivity; [now rewrite P|].
      intro H. apply (o_rec _ _ _ IO) in H. congruence.
  - (* spill *)
    assert (mt = ms_tail s) by (apply (l_tail _ L t); now rewrite P). subst mt. destruct IPt as [Hb Hk].
    destruct (spill_page _ _ _ _ IC Z F Sp) as (NI & N0 & LE).
    assert (Nt : nt <> ms_tail s) by (intros ->; apply NI, in_or_app; right; now left).
    assert (Ep : ms_pages s1 = ms_pages s) by (destruct Sp; reflexivity).
    assert (Eq : ms_pcs s1 = ms_pcs s) by (destruct Sp; reflexivity).
    assert (En : ms_next_ext s1 = ms_next_ext s) by (destruct Sp; reflexivity).
    assert (Ea : ms_next_addr s1 = ms_next_addr s) by (destruct Sp; reflexivity).
    assert (Er : ms_ret s1 = ms_ret s) by (destruct Sp; reflexivity).
    assert (E' : pre' = pre ++ [ms_tail s]).
    { destruct Sh as [[-> E]|(? & ? & ? & _ & E)]; auto. exfalso. apply Nt. exact E. }
    subst pre'.
    assert (Rr : recs (upd (upd (ms_pages s) (ms_tail s) (Some (set_next pg nt))) nt (Some empty_page)) ((pre ++ [ms_tail s]) ++ [nt])
                 = recs (ms_pages s) (pre ++ [ms_tail s])).
    { unfold recs. rewrite flat_map_app. cbn. unfold ents at 2. rewrite upd_same. cbn. rewrite app_nil_r.
      rewrite !flat_map_concat_map. f_equal. apply map_ext_in. intros p Hp. unfold ents.
      rewrite upd_other by (intros ->; auto). pcase p (ms_tail s) (ms_pages s); [now rewrite G | reflexivity]. }
    assert (Pe : forall u, pend (upd (ms_pcs s) t (MApp2 b k e nt) u) = pend (ms_pcs s u)).
    { intro u. pcase u t (ms_pcs s); [now rewrite P | reflexivity]. }
    exists (pre ++ [ms_tail s]), (match nt mod ppe with O => upd O (nt / ppe) OMeta | _ => O end).
    constructor; [exact L' | exact IC' | | eapply IPs; [unfold after_spill; cbn; now rewrite Eq | cbn; auto] | ].
    + unfold after_spill. cbn.
      destruct Sp as [M|x M X].
      * assert (D : (ms_tail s + 1) / ppe = ms_tail s / ppe).
        { set (a := ms_tail s) in *. clearbody a.
          pose proof (Nat.div_mod a ppe ltac:(lia)). pose proof (Nat.mod_upper_bound a ppe ltac:(lia)).
          symmetry. apply Nat.div_unique with (a mod ppe + 1); [|lia].
          destruct (Nat.eq_dec (a mod ppe + 1) ppe) as [Q|Q]; [|lia]. exfalso. apply M.
          replace (a + 1) with ((a / ppe + 1) * ppe) by nia. apply Nat.mod_mul. lia. }
        destruct ((ms_tail s + 1) mod ppe) eqn:M0; [congruence|].
        assert (Mx : mext ((pre ++ [ms_tail s]) ++ [ms_tail s + 1]) = mext (pre ++ [ms_tail s])).
        { rewrite mext_snoc, D, Nat.eqb_refl. reflexivity. }
        constructor; cbn; rewrite ?Rr, ?Mx; try apply IO. intros x u. rewrite Pe. apply IO.
      * rewrite Nat.mod_mul, div_ppe by lia. cbn in Ep, Eq, En.
        assert (Ox : O x = ONo) by (exact (o_fresh _ _ _ _ IC IO X)).
        assert (Nx : ms_tail s / ppe <> x).
        { apply (F x X). apply in_or_app. right. now left. }
        assert (Mx : mext ((pre ++ [ms_tail s]) ++ [x * ppe]) = mext (pre ++ [ms_tail s]) ++ [x]).
        { rewrite mext_snoc, div_ppe. destruct (Nat.eqb_spec (ms_tail s / ppe) x); [congruence | reflexivity]. }
        constructor; cbn; rewrite ?Rr, ?Mx.
        { intro y. rewrite in_app_iff. cbn. pcase y x O; [intuition|]. rewrite (o_meta _ _ _ IO). intuition congruence. }
        { intro y. pcase y x O; [|apply IO]. split; [discriminate|]. intro H. apply (o_rec _ _ _ IO) in H. congruence. }
        { intros y b'. pcase y x O; [|apply IO]. split; [discriminate|]. intro H. apply (o_next _ _ _ IO) in H. congruence. }
        { intros y u. rewrite Pe. pcase y x O; [|apply IO]. split; [discriminate|]. intro H. apply (o_pend _ _ _ IO) in H. congruence. }
        { intros y H Hh. pcase y x (ms_refs s); auto. apply (o_refs _ _ _ IO); auto. rewrite upd_other in H by auto. exact H. }
        { assert (hx <> x).
          { intros <-. pose proof (head_meta _ _ IC) as H. apply (o_meta _ _ _ IO) in H. congruence. }
          rewrite upd_other by auto. apply IO. }
        { intro y. pcase y x (ms_refs s); [lia | apply IO]. }
        { apply NoDup_app_iff_local; [apply IO|]. intro H. apply (o_meta _ _ _ IO) in H. congruence. }
        { apply IO. } { apply IO. }
        { pcase 0 x (ms_refs s); [discriminate | apply IO]. }
        { pose proof (o_z0 _ _ _ IO). rewrite upd_other by congruence. assumption. }
    + unfold after_spill. cbn. rewrite Ep, Rr.
      eapply (binv_frame s _ _ t IB); cbn; auto; rewrite ?Eq.
      * intros u Hu. now rewrite upd_other.
      * now rewrite upd_same, P.
      * intros. rewrite upd_same. discriminate.
  - (* append to the new page *)
    assert (nt = ms_tail s) by (apply (l_tail _ L t); now rewrite P). subst nt.
    destruct Same as [-> Et]; [rewrite P; intros; discriminate|]. destruct IPt as [Hb Hk].
    assert (pg = empty_page) by (pose proof (c_empty _ _ IC _ _ _ _ _ P); congruence). subst pg.
    destruct (append_entry c empty_page (Ment (Some e) b k)) as [pg'|] eqn:A.
    2: { exfalso. unfold append_entry in A.
         destruct (N.leb_spec (mp_pos empty_page + entry_size c (Ment (Some e) b k)) (m_ps c)) as [|Q]; [discriminate|].
         unfold key_fits, entry_size in *. cbn [mp_pos empty_page me_key] in *. lia. }
    apply append_entry_some in A. destruct A as [A1 A2].
    assert (Rr : recs (upd (ms_pages s) (ms_tail s) (Some pg')) (pre ++ [ms_tail s])
                 = recs (ms_pages s) (pre ++ [ms_tail s]) ++ [Ment (Some e) b k]).
    { apply (recs_append _ _ _ empty_page); auto. apply IC. }
    assert (Oe : O e = OPend t) by (apply (o_pend _ _ _ IO); now rewrite P).
    exists pre, (upd O e ORec). constructor; [exact L' | exact IC' | | eapply IPs; [reflexivity | cbn; auto] | ].
    + cbn [ms_tail goto st_pcs full_unlock st_rd st_claim st_wr st_pages].
      eapply (oinv_record s _ t _ O e b k IO); try reflexivity; [now rewrite P | exact Rr |].
      intro u. cbn. destruct (Nat.eqb_spec u t) as [->|N]; [now rewrite upd_same | now rewrite upd_other].
    + cbn [ms_pages ms_tail goto st_pcs full_unlock st_rd st_claim st_wr st_pages]. rewrite Rr.
      eapply (binv_record s _ _ t b k e IB); try reflexivity; [now rewrite P|].
      intro H. apply (o_rec _ _ _ IO) in H. congruence.
  - (* return *)
    destruct Same as [-> Et]; [rewrite P; intros; discriminate|]. exists pre, O.
    pose proof (b_fin _ _ IB _ _ _ P) as [[k K] Lt].
    assert (Uni : forall b' a' k', In (Ment (Some a') b' k') (recs (ms_pages s) (pre ++ [ms_tail s])) -> b' <> b -> na / ppe <> a').
    { intros b' a' k' H Hb' E. apply Hb'.
      assert (Ment (Some a') b' k' = Ment (Some (na / ppe)) b k).
      { apply (nodup_map_inj _ _ _ (o_ndr _ _ _ IO)); auto. cbn. congruence. }
      congruence. }
    constructor; [exact L' | exact IC' | | eapply IPs; [reflexivity | cbn; auto] | ].
    + eapply oinv_frame; [exact IO | reflexivity | reflexivity | reflexivity | ].
      intro u; cbn; pcase u t (ms_pcs s); [now rewrite P | reflexivity].
    + cbn. constructor; cbn.
      * intro b'. pcase b' b (ms_next_addr s).
        { split; [discriminate|]. intros [u Hu]. pcase u t (ms_pcs s); [discriminate|]. exfalso. apply n.
          apply (b_uni _ _ IB) with b; auto. now rewrite P. }
        { rewrite (b_lock _ _ IB). split; intros [u Hu]; exists u; pcase u t (ms_pcs s); auto; [rewrite P in Hu; cbn in Hu; congruence | discriminate]. }
      * intros u v b'. pcase u t (ms_pcs s); [discriminate|]. pcase v t (ms_pcs s); [discriminate|]. apply IB.
      * intros b' a'. pcase b' b (ms_next_addr s).
        { intros H1 H2. inversion H1; subst a'.
          assert (D : (na + 1) / ppe = na / ppe).
          { pose proof (Nat.div_mod na ppe ltac:(lia)). pose proof (Nat.mod_upper_bound na ppe ltac:(lia)).
            symmetry. apply Nat.div_unique with (na mod ppe + 1); [|lia].
            destruct (Nat.eq_dec (na mod ppe + 1) ppe) as [Q|Q]; [|lia]. exfalso. apply H2.
            replace (na + 1) with ((na / ppe + 1) * ppe) by nia. apply Nat.mod_mul. lia. }
          split; rewrite D; [eauto|]. cbn. intros p [<-|Hp] Q; [lia|]. specialize (Lt p Hp Q). lia. }
        { intros H1 H2. destruct (b_cur _ _ IB _ _ H1 H2) as [[k' K'] L2]. split; [eauto|].
          cbn. intros p [<-|Hp] Q; [|auto]. exfalso. eapply Uni; eauto. }
      * intros u b' na'. pcase u t (ms_pcs s); [discriminate|]. intro H.
        assert (b' <> b).
        { intros ->. apply n. apply (b_uni _ _ IB) with b; [now rewrite H | now rewrite P]. }
        destruct (b_fin _ _ IB _ _ _ H) as [[k' K'] L2]. split; [eauto|].
        cbn. intros p [<-|Hp] Q; [|auto]. exfalso. eapply Uni; eauto.
      * constructor; [|apply IB]. intro H. specialize (Lt _ H eq_refl). lia.
      * intros p [<-|Hp]; [|now apply (b_ret _ _ IB)]. change (Some (na / ppe)) with (me_ext (Ment (Some (na / ppe)) b k)).
        now apply in_map.
Qed.

(** ** Steps of the rest of the system *)

Lemma owned_iff : forall s pre O x, Inv s pre O -> (O x <> ONo <-> owned c s x).
Proof.
  intros s pre O x I. pose proof (i_c _ _ _ I) as IC. pose proof (i_o _ _ _ I) as IO. unfold owned. split.
  - intro H. destruct (O x) as [| | |b|t] eqn:E; [congruence| | | |].
    + apply (o_meta _ _ _ IO) in E. apply in_mext in E. destruct E as [p [Hp E]].
      left. apply (c_dom _ _ IC) in Hp. destruct (ms_pages s p) as [pg|] eqn:G; [|congruence]. eauto 10.
    + apply (o_rec _ _ _ IO) in E. apply in_map_iff in E. destruct E as [en [E1 E2]].
      apply in_flat_map in E2. destruct E2 as [p [Hp E2]]. unfold ents in E2.
      destruct (ms_pages s p) as [pg|] eqn:G; [|contradiction]. left. exists p, pg. eauto 10.
    + apply (o_next _ _ _ IO) in E. right. left. exists b. exact E.
    + apply (o_pend _ _ _ IO) in E. right. right. eauto.
  - intros [(p & pg & G & [E|(en & E1 & E2)])|[(b & H)|(t & H)]].
    + assert (O x = OMeta); [|congruence]. apply (o_meta _ _ _ IO). apply in_mext. exists p. split; auto.
      apply (c_dom _ _ IC). congruence.
    + assert (O x = ORec); [|congruence]. apply (o_rec _ _ _ IO). apply in_map_iff. exists en. split; auto.
      apply in_flat_map. exists p. split; [apply (c_dom _ _ IC); congruence|]. unfold ents. now rewrite G.
    + apply (o_next _ _ _ IO) in H. congruence.
    + apply (o_pend _ _ _ IO) in H. congruence.
Qed.

Lemma inv_refs : forall s pre O f, Inv s pre O -> (forall x, O x <> ONo -> x <> hx -> f x = ms_refs s x) ->
  (if m_keyed c then f hx = 2%N else (3 <= f hx)%N) -> (forall x, f x < 256)%N -> f 0 <> 0%N ->
  Inv (st_refs s f) pre O.
Proof.
  intros s pre O f I H1 H2 H3 H4. pose proof (i_o _ _ _ I) as IO. constructor.
  - destruct (i_l _ _ _ I). constructor; assumption.
  - destruct (i_c _ _ _ I). constructor; assumption.
  - constructor; try apply IO; auto. intros x Hx N. cbn. rewrite H1 by auto. now apply (o_refs _ _ _ IO).
  - apply I.
  - destruct (i_b _ _ _ I). constructor; assumption.
Qed.

Lemma inv_env : forall s s' pre O, Inv s pre O -> env_step c head s s' -> Inv s' pre O.
Proof.
  intros s s' pre O I E. pose proof (i_o _ _ _ I) as IO. pose proof (i_c _ _ _ I) as IC.
  assert (Hh : O hx = OMeta) by (apply (o_meta _ _ _ IO), (head_meta _ _ IC)).
  destruct E as [x X|x r X NO R Z|r K R]; apply inv_refs; auto.
  - intros y Hy _. apply upd_other. intros ->. rewrite (o_fresh _ _ _ _ IC IO X) in Hy. congruence.
  - rewrite upd_other; [apply IO|]. intros <-. rewrite (o_fresh _ _ _ _ IC IO X) in Hh. discriminate.
  - intro y. pcase y x (ms_refs s); [lia | apply IO].
  - pcase 0 x (ms_refs s); [discriminate | apply IO].
  - intros y Hy _. apply upd_other. intros ->. apply NO. now apply (owned_iff _ _ _ _ I).
  - rewrite upd_other; [apply IO|]. intros <-. apply NO, (owned_iff _ _ _ _ I). congruence.
  - intro y. pcase y x (ms_refs s); [lia | apply IO].
  - destruct (Nat.eq_dec 0 x) as [<-|N]; [rewrite upd_same; now apply Z | rewrite upd_other by auto; apply IO].
  - intros y Hy N. apply upd_other. exact N.
  - fold hx. rewrite upd_same, K. lia.
  - intro y. fold hx. pcase y hx (ms_refs s); [lia | apply IO].
  - fold hx. pcase 0 hx (ms_refs s); [lia | apply IO].
Qed.

(** ** Ownership while batches are set up or torn down *)

Record OB (s : mst) (C : list nat) (R : list mentry) (act : nat -> bool) (O : nat -> own) : Prop := {
  p_meta : forall x, O x = OMeta <-> In x (mext C);
  p_rec : forall x, O x = ORec <-> In (Some x) (map me_ext R);
  p_next : forall x b, O x = ONext b <-> act b = true /\ ms_next_ext s b = x;
  p_pend : forall x t, O x <> OPend t;
  p_refs : forall x, O x <> ONo -> x <> hx -> ms_refs s x = 2%N;
  p_head : if m_keyed c then ms_refs s hx = 2%N else (3 <= ms_refs s hx)%N;
  p_byte : forall x, (ms_refs s x < 256)%N;
  p_ndm : NoDup (mext C);
  p_ndr : NoDup (map me_ext R);
  p_some : forall en, In en R -> exists x, me_ext en = Some x;
  p_zero : ms_refs s 0 <> 0%N;
  p_z0 : O 0 = ONo
}.

Definition below (n b : nat) : bool := Nat.ltb b n.
Local Arguments below : simpl never.
Lemma below_lt : forall n b, below n b = true <-> b < n.
Proof. intros. unfold below. apply Nat.ltb_lt. Qed.

Lemma ob_oinv : forall s C O, quiet s -> OB s C (recs (ms_pages s) C) (below (m_nb c)) O -> OInv s C O.
Proof.
  intros s C O Q J. constructor; try apply J.
  - intros x b. rewrite (p_next _ _ _ _ _ J), below_lt. tauto.
  - intros x t. rewrite Q. cbn. pose proof (p_pend _ _ _ _ _ J x t). intuition discriminate.
Qed.

Lemma oinv_ob : forall s C O, quiet s -> OInv s C O -> OB s C (recs (ms_pages s) C) (below (m_nb c)) O.
Proof.
  intros s C O Q J. constructor; try apply J.
  - intros x b. rewrite (o_next _ _ _ J), below_lt. tauto.
  - intros x t E. apply (o_pend _ _ _ J) in E. rewrite Q in E. discriminate.
Qed.

Lemma ob_live : forall s pre R act O x, OB s (pre ++ [ms_tail s]) R act O -> O x <> ONo -> ms_refs s x <> 0%N.
Proof.
  intros s pre R act O x J H. destruct (Nat.eq_dec x hx) as [->|N].
  - pose proof (p_head _ _ _ _ _ J). destruct (m_keyed c); lia.
  - rewrite (p_refs _ _ _ _ _ J x H N). lia.
Qed.

Lemma ob_fresh : forall s pre R act O x, OB s (pre ++ [ms_tail s]) R act O -> ms_refs s x = 0%N -> O x = ONo.
Proof.
  intros s pre R act O x J H. destruct (O x) eqn:E; auto; exfalso; apply (ob_live _ _ _ _ _ x J); auto; congruence.
Qed.

(** everything but counts, reserves and the extent counter *)
Definition same_rest (s s' : mst) : Prop :=
  ms_pages s' = ms_pages s /\ ms_rd s' = ms_rd s /\ ms_claim s' = ms_claim s /\ ms_wr s' = ms_wr s /\
  ms_tail s' = ms_tail s /\ ms_next_addr s' = ms_next_addr s /\ ms_pcs s' = ms_pcs s /\ ms_ret s' = ms_ret s.

Lemma init_batches_inv : forall chs s b s' pre O R, init_batches c s b chs = Some s' ->
  In hx (mext (pre ++ [ms_tail s])) ->
  OB s (pre ++ [ms_tail s]) R (below b) O -> b <= m_nb c ->
  same_rest s s' /\ exists O', OB s' (pre ++ [ms_tail s]) R (below (m_nb c)) O'.
Proof.
  induction chs as [|x chs IH]; intros s b s' pre O R H Hh J Hb; cbn [init_batches] in H.
  - destruct (Nat.eqb_spec b (m_nb c)) as [->|]; [|discriminate]. inversion H; subst.
    split; [repeat split|]. eauto.
  - destruct (Nat.ltb_spec b (m_nb c)) as [Lb|]; [|discriminate].
    destruct (new_extent s (CExt (Some x))) as [| |x' s1] eqn:X; try discriminate.
    assert (x' = x) by (cbn in X; destruct (N.eqb _ 0); [inversion X; auto | discriminate]). subst x'.
    apply new_extent_got in X. destruct X as [X ->].
    assert (Ox : O x = ONo) by (exact (ob_fresh _ _ _ _ _ _ J X)).
    cbn in H. edestruct (IH _ _ _ pre (upd O x (ONext b)) R H Hh) as [(h1 & h2 & h3 & h4 & h5 & h6 & h7 & h8) H'];
      [| lia | cbn in *; split; [repeat split; assumption | exact H']].
    + cbn. constructor; cbn; try apply J.
      * intro y. pcase y x O; [|apply J]. split; [discriminate|]. intro Y. apply (p_meta _ _ _ _ _ J) in Y. congruence.
      * intro y. pcase y x O; [|apply J]. split; [discriminate|]. intro Y. apply (p_rec _ _ _ _ _ J) in Y. congruence.
      * intros y b'. rewrite below_lt. pcase y x O.
        { pcase b' b (ms_next_ext s); [split; [auto | intros; reflexivity]|]. split; [congruence|].
          intros [H1 H2]. assert (O x = ONext b') by (apply (p_next _ _ _ _ _ J); rewrite below_lt; split; [lia | auto]). congruence. }
        { rewrite (p_next _ _ _ _ _ J), below_lt. pcase b' b (ms_next_ext s); [split; intros [? ?]; [lia | congruence] |].
          intuition lia. }
      * intros y t. pcase y x O; [discriminate | apply J].
      * intros y Hy N. pcase y x (ms_refs s); auto. apply (p_refs _ _ _ _ _ J); auto. rewrite upd_other in Hy by auto. exact Hy.
      * rewrite upd_other; [apply J|]. intros <-. apply (p_meta _ _ _ _ _ J) in Hh. congruence.
      * intro y. pcase y x (ms_refs s); [lia | apply J].
      * pcase 0 x (ms_refs s); [discriminate | apply J].
      * pose proof (p_z0 _ _ _ _ _ J). pose proof (p_zero _ _ _ _ _ J). rewrite upd_other by congruence. assumption.
Qed.

(** ** Creation *)

Definition no_locks (s : mst) : Prop :=
  (forall p, ms_rd s p = []) /\ (forall p, ms_claim s p = false) /\ (forall p, ms_wr s p = false).

Lemma inv_assemble : forall s pre O, quiet s -> no_locks s -> CInv s pre ->
  OB s (pre ++ [ms_tail s]) (recs (ms_pages s) (pre ++ [ms_tail s])) (below (m_nb c)) O ->
  (forall b a, ms_next_addr s b = Some a -> a mod ppe <> 0 -> curpos (recs (ms_pages s) (pre ++ [ms_tail s])) (ms_ret s) b a) ->
  (forall b, ms_next_addr s b <> None) -> NoDup (ms_ret s) ->
  (forall p, In p (ms_ret s) -> In (Some (p / ppe)) (map me_ext (recs (ms_pages s) (pre ++ [ms_tail s])))) ->
  Inv s pre O.
Proof.
  intros s pre O Q (N1 & N2 & N3) IC J B1 B2 B3 B4. constructor.
  - constructor; intros; rewrite ?Q in *; try discriminate.
    + rewrite N1. cbn. intuition discriminate.
    + rewrite N2. split; [discriminate | intros [t H]; rewrite Q in H; discriminate].
    + rewrite N3. split; [discriminate | intros [t H]; rewrite Q in H; discriminate].
  - exact IC.
  - now apply ob_oinv.
  - intro t. rewrite Q. exact Logic.I.
  - constructor; auto.
    + intro b. split; [intro H; now apply B2 in H | intros [t H]; rewrite Q in H; discriminate].
    + intros t u b H. rewrite Q in H. discriminate.
    + intros t b na H. rewrite Q in H. discriminate.
Qed.

Lemma inv_init : forall refs chs s, (forall x, refs x < 256)%N -> refs 0 <> 0%N -> hx <> 0 -> refs hx = 2%N ->
  mini_init c refs head chs = Some s -> exists O, Inv s [] O.
Proof.
  intros refs chs s Hb H0 Hx Hr H. unfold mini_init in H.
  destruct (Nat.ltb 8 (m_nb c) || Nat.eqb (m_nb c) 0); [discriminate|]. cbn zeta in H. fold hx in H.
  set (s0 := Mst refs (upd (fun _ => None) head (Some empty_page)) (fun _ => []) (fun _ => false)
                  (fun _ => false) head (fun _ => Some 0) (fun _ => 0) 1 (fun _ => MOut) []) in *.
  assert (Hrest : exists refs', (forall x, refs' x < 256)%N /\ refs' 0 <> 0%N /\
            (if m_keyed c then refs' hx = 2%N else (3 <= refs' hx)%N) /\
            init_batches c (st_refs s0 refs') 0 chs = Some s).
  { destruct (m_keyed c) eqn:K.
    - exists refs. repeat split; auto.
    - unfold inc8 in H. rewrite Hr in H. cbn in H. exists (upd refs hx 3%N). repeat split; auto.
      + intro x. pcase x hx refs; [lia | auto].
      + now rewrite upd_other by auto.
      + rewrite upd_same. lia. }
  destruct Hrest as (refs' & R1 & R2 & R3 & R4).
  assert (Rc : recs (ms_pages s0) ([] ++ [head]) = []).
  { cbn. unfold recs. cbn. unfold ents. now rewrite upd_same. }
  apply (init_batches_inv _ _ _ _ [] (fun x => if Nat.eqb x hx then OMeta else ONo) []) in R4.
  - destruct R4 as [(h1 & h2 & h3 & h4 & h5 & h6 & h7 & h8) [O J]]. cbn in h1, h2, h3, h4, h5, h6, h7, h8. exists O.
    cbn [ms_tail st_refs] in J. change (ms_tail s0) with head in J.
    apply inv_assemble; rewrite ?h1, ?h5, ?h6, ?h8.
    + intro t. now rewrite h7.
    + repeat split; intro p; [now rewrite h2 | now rewrite h3 | now rewrite h4].
    + constructor; rewrite ?h1, ?h5; cbn.
      * reflexivity.
      * repeat constructor; auto.
      * intro p. pcase p head (fun _ : nat => @None mpage); [intuition discriminate|].
        split; [congruence | intros [<-|[]]; congruence].
      * rewrite upd_same. eexists; split; reflexivity.
      * intros p [].
      * intros t p. rewrite h7. cbn. intuition discriminate.
      * intros t b k e nt. rewrite h7. discriminate.
    + change (recs (ms_pages s0) ([] ++ [head])) with (recs (ms_pages s0) ([] ++ [head])). cbn [ms_pages s0] in Rc.
      cbn [app] in *. rewrite Rc. exact J.
    + intros b a E. inversion E; subst. rewrite Nat.mod_0_l by lia. congruence.
    + intros b. discriminate.
    + constructor.
    + intros p [].
  - cbn. left. reflexivity.
  - cbn [ms_tail st_refs]. change (ms_tail s0) with head. cbn [app].
    assert (M : mext [head] = [hx]) by reflexivity.
    constructor; cbn [ms_refs st_refs ms_next_ext]; rewrite ?M; auto.
    + intro x. destruct (Nat.eqb_spec x hx) as [->|N]; cbn; intuition congruence.
    + intro x. cbn. destruct (Nat.eqb x hx); intuition discriminate.
    + intros x b. rewrite below_lt. destruct (Nat.eqb x hx); split; try discriminate; intros [? ?]; lia.
    + intros x t. destruct (Nat.eqb x hx); discriminate.
    + intros x Hx' N. destruct (Nat.eqb_spec x hx); congruence.
    + repeat constructor; auto.
    + constructor.
    + intros en [].
    + destruct (Nat.eqb_spec 0 hx); congruence.
  - lia.
Qed.

(** ** Release *)

Lemma dec8_two : forall f x, f x = 2%N -> dec8 f x = Some (1%N, upd f x 1%N).
Proof. intros f x H. unfold dec8. rewrite H. reflexivity. Qed.

Lemma free_two : forall f x, f x = 2%N -> free_extent f x = Some (upd (upd f x 1%N) x 0%N).
Proof.
  intros f x H. unfold free_extent. rewrite (dec8_two _ _ H). cbn. unfold dec8. rewrite upd_same. reflexivity.
Qed.

Lemma free_two_at : forall f x g, free_extent f x = Some g -> (f x < 256)%N ->
  f x = 2%N /\ g x = 0%N /\ (forall y, y <> x -> g y = f y).
Proof.
  intros f x g H B. unfold free_extent, dec8 in H.
  destruct (N.eqb ((f x + 255) mod 256) 255) eqn:E1; [discriminate|].
  destruct (N.eqb ((f x + 255) mod 256) 1) eqn:E2; [|discriminate].
  rewrite upd_same in H. apply N.eqb_eq in E2. rewrite E2 in H. cbn in H. inversion H; subst.
  split; [|split].
  - destruct (N.eq_dec (f x) 0) as [Z|Z]; [rewrite Z in E2; cbn in E2; discriminate|].
    replace (f x + 255)%N with ((f x - 1) + 1 * 256)%N in E2 by lia. rewrite N.mod_add in E2 by lia.
    rewrite N.mod_small in E2 by lia. lia.
  - now rewrite upd_same.
  - intros y Hy. now rewrite !upd_other.
Qed.

(** dropping the reserve of batch [b] *)
Lemma ob_drop : forall s C R act O b g, OB s C R act O -> In hx (mext C) -> act b = true ->
  free_extent (ms_refs s) (ms_next_ext s b) = Some g ->
  OB (st_refs s g) C R (fun i => act i && negb (Nat.eqb i b)) (upd O (ms_next_ext s b) ONo).
Proof.
  intros s C R act O b g J Hh A H. set (x := ms_next_ext s b) in *.
  assert (Ox : O x = ONext b) by (apply (p_next _ _ _ _ _ J); auto).
  apply free_two_at in H; [|apply J]. destruct H as (H1 & H2 & H3).
  assert (Nh : hx <> x) by (intros E; apply (p_meta _ _ _ _ _ J) in Hh; congruence).
  constructor; cbn; try apply J.
  - intro y. pcase y x O; [|apply J]. split; [discriminate|]. intro Y. apply (p_meta _ _ _ _ _ J) in Y. congruence.
  - intro y. pcase y x O; [|apply J]. split; [discriminate|]. intro Y. apply (p_rec _ _ _ _ _ J) in Y. congruence.
  - intros y b'. rewrite andb_true_iff, negb_true_iff, Nat.eqb_neq. pcase y x O.
    + split; [discriminate|]. intros [[A1 A2] E]. assert (O x = ONext b') by (apply (p_next _ _ _ _ _ J); auto). congruence.
    + rewrite (p_next _ _ _ _ _ J). split; [|tauto]. intros [A1 E]. repeat split; auto. intros ->. now apply n.
  - intros y t. pcase y x O; [discriminate | apply J].
  - intros y Hy N. pcase y x O; [congruence|]. rewrite H3 by auto. now apply (p_refs _ _ _ _ _ J).
  - rewrite H3 by auto. apply J.
  - intro y. destruct (Nat.eq_dec y x) as [->|N]; [rewrite H2; lia | rewrite H3 by auto; apply J].
  - pose proof (p_z0 _ _ _ _ _ J). rewrite H3 by congruence. apply J.
  - pose proof (p_z0 _ _ _ _ _ J). rewrite upd_other by congruence. assumption.
Qed.

Lemma ob_act_ext : forall s C R act act' O, (forall i, act i = act' i) -> OB s C R act O -> OB s C R act' O.
Proof. intros s C R act act' O E J. constructor; try apply J. intros x b. rewrite <- E. apply J. Qed.

(** what sequential operations leave alone *)
Definition same_seq (s s' : mst) : Prop :=
  ms_rd s' = ms_rd s /\ ms_claim s' = ms_claim s /\ ms_wr s' = ms_wr s /\
  ms_next_addr s' = ms_next_addr s /\ ms_next_ext s' = ms_next_ext s /\ ms_pcs s' = ms_pcs s /\ ms_ret s' = ms_ret s.

Lemma same_seq_refl : forall s, same_seq s s.
Proof. intro. repeat split. Qed.
Lemma same_seq_trans : forall a b d, same_seq a b -> same_seq b d -> same_seq a d.
Proof. intros a b d (A1&A2&A3&A4&A5&A6&A7) (B1&B2&B3&B4&B5&B6&B7). repeat split; congruence. Qed.

Definition fits (e : mentry) : Prop := (20 + entry_size c e <= m_ps c)%N.

Lemma append_empty : forall e, fits e -> exists pg, append_entry c empty_page e = Some pg /\ mp_next pg = 0 /\ mp_entries pg = [e].
Proof.
  intros e F. unfold append_entry. unfold fits in F. cbn [mp_pos empty_page].
  destruct (N.leb_spec (20 + entry_size c e) (m_ps c)); [|lia]. eexists. split; [reflexivity|]. split; reflexivity.
Qed.

Lemma append_seq_inv : forall s e ch s' pre R act O, append_seq c s e ch = Some s' -> fits e -> quiet s ->
  CInv s pre -> OB s (pre ++ [ms_tail s]) R act O ->
  exists pre' O', CInv s' pre' /\ OB s' (pre' ++ [ms_tail s']) R act O' /\
    recs (ms_pages s') (pre' ++ [ms_tail s']) = recs (ms_pages s) (pre ++ [ms_tail s]) ++ [e] /\ same_seq s s'.
Proof.
  intros s e ch s' pre R act O H F Q IC J. unfold append_seq in H.
  destruct (ms_pages s (ms_tail s)) as [pg|] eqn:G; [|discriminate].
  destruct (append_entry c pg e) as [pg'|] eqn:A.
  - inversion H; subst s'. clear H. apply append_entry_some in A. destruct A as [A1 A2].
    exists pre, O. split; [|split; [|split]].
    + constructor; cbn; try apply IC.
      * intro p. rewrite <- (c_dom _ _ IC). pcase p (ms_tail s) (ms_pages s); [rewrite G; intuition congruence | tauto].
      * apply (linked_ext (ms_pages s)); [|apply IC]. intros p _.
        pcase p (ms_tail s) (ms_pages s); [rewrite G; cbn; congruence | reflexivity].
      * intros t b k x nt P. rewrite Q in P. discriminate.
    + destruct J. constructor; assumption.
    + cbn. apply (recs_append _ _ _ pg); auto. apply IC.
    + repeat split.
  - destruct (new_tail c s (ms_tail s) ch) as [| |nt s1] eqn:N; try discriminate. apply new_tail_got in N.
    destruct (append_empty e F) as (pe & PE1 & PE2 & PE3). rewrite PE1 in H. inversion H; subst s'. clear H.
    assert (Fr : forall x, ms_refs s x = 0%N -> forall p, In p (pre ++ [ms_tail s]) -> p / ppe <> x).
    { intros x X p Hp E. apply (ob_live _ _ _ _ _ x J); [|exact X].
      assert (O x = OMeta) by (apply (p_meta _ _ _ _ _ J); apply in_mext; eauto). congruence. }
    destruct (spill_page _ _ _ _ IC (p_zero _ _ _ _ _ J) Fr N) as (NI & N0 & LE).
    assert (Nt : nt <> ms_tail s) by (intros ->; apply NI, in_or_app; right; now left).
    assert (Ep : ms_pages s1 = ms_pages s) by (destruct N; reflexivity).
    assert (Eq : ms_pcs s1 = ms_pcs s) by (destruct N; reflexivity).
    exists (pre ++ [ms_tail s]), (match nt mod ppe with 0 => upd O (nt / ppe) OMeta | _ => O end).
    split; [|split; [|split]].
    + constructor; cbn; rewrite ?Ep, ?Eq.
      * pose proof (c_hd _ _ IC) as H. destruct pre; exact H.
      * apply NoDup_app_iff_local; [apply (c_nd _ _ IC) | exact NI].
      * intro p. pose proof (c_dom _ _ IC p) as D. rewrite in_app_iff. cbn.
        pcase p nt (upd (ms_pages s) (ms_tail s) (Some (set_next pg nt))).
        { split; [auto | discriminate]. }
        { pcase p (ms_tail s) (ms_pages s).
          - split; [intros _; left; apply in_or_app; right; now left | intros _; discriminate].
          - rewrite D. intuition congruence. }
      * apply (linked_snoc (ms_pages s)); auto; try apply IC.
        { intros p H1 H2. now rewrite !upd_other. }
        { rewrite upd_other by auto. rewrite upd_same. eexists; split; reflexivity. }
        { rewrite upd_same. eexists; split; [reflexivity | exact PE2]. }
      * exact LE.
      * intros u p. rewrite Q. cbn. intuition discriminate.
      * intros u b k x nt'. rewrite Q. discriminate.
    + cbn. destruct N as [M|x M X].
      * assert (D : (ms_tail s + 1) / ppe = ms_tail s / ppe).
        { set (a := ms_tail s) in *. clearbody a.
          pose proof (Nat.div_mod a ppe ltac:(lia)). pose proof (Nat.mod_upper_bound a ppe ltac:(lia)).
          symmetry. apply Nat.div_unique with (a mod ppe + 1); [|lia].
          destruct (Nat.eq_dec (a mod ppe + 1) ppe) as [Y|Y]; [|lia]. exfalso. apply M.
          replace (a + 1) with ((a / ppe + 1) * ppe) by nia. apply Nat.mod_mul. lia. }
        destruct ((ms_tail s + 1) mod ppe) eqn:M0; [congruence|].
        assert (Mx : mext ((pre ++ [ms_tail s]) ++ [ms_tail s + 1]) = mext (pre ++ [ms_tail s])).
        { rewrite mext_snoc, D, Nat.eqb_refl. reflexivity. }
        constructor; cbn; rewrite ?Mx; apply J.
      * rewrite Nat.mod_mul, div_ppe by lia.
        assert (Ox : O x = ONo) by (exact (ob_fresh _ _ _ _ _ _ J X)).
        assert (Nx : ms_tail s / ppe <> x).
        { apply (Fr x X). apply in_or_app. right. now left. }
        assert (Mx : mext ((pre ++ [ms_tail s]) ++ [x * ppe]) = mext (pre ++ [ms_tail s]) ++ [x]).
        { rewrite mext_snoc, div_ppe. destruct (Nat.eqb_spec (ms_tail s / ppe) x); [congruence | reflexivity]. }
        constructor; cbn; rewrite ?Mx.
        { intro y. rewrite in_app_iff. cbn. pcase y x O; [intuition|]. rewrite (p_meta _ _ _ _ _ J). intuition congruence. }
        { intro y. pcase y x O; [|apply J]. split; [discriminate|]. intro H. apply (p_rec _ _ _ _ _ J) in H. congruence. }
        { intros y b'. pcase y x O; [|apply J]. split; [discriminate|]. intro H. apply (p_next _ _ _ _ _ J) in H. congruence. }
        { intros y u. pcase y x O; [discriminate | apply J]. }
        { intros y H Hh. pcase y x (ms_refs s); auto. apply (p_refs _ _ _ _ _ J); auto. rewrite upd_other in H by auto. exact H. }
        { assert (hx <> x).
          { intros <-. pose proof (head_meta _ _ IC) as H. apply (p_meta _ _ _ _ _ J) in H. congruence. }
          rewrite upd_other by auto. apply J. }
        { intro y. pcase y x (ms_refs s); [lia | apply J]. }
        { apply NoDup_app_iff_local; [apply J|]. intro H. apply (p_meta _ _ _ _ _ J) in H. congruence. }
        { apply J. } { apply J. }
        { pcase 0 x (ms_refs s); [discriminate | apply J]. }
        { pose proof (p_z0 _ _ _ _ _ J). pose proof (p_zero _ _ _ _ _ J). rewrite upd_other by congruence. assumption. }
    + cbn. rewrite Ep. unfold recs. rewrite (flat_map_app _ (pre ++ [ms_tail s])). cbn. unfold ents at 2. rewrite upd_same.
      rewrite PE3. f_equal. rewrite !flat_map_concat_map. f_equal. apply map_ext_in. intros p Hp. unfold ents.
      rewrite upd_other by (intros ->; auto). pcase p (ms_tail s) (ms_pages s); [now rewrite G | reflexivity].
    + destruct N; repeat split.
Qed.

Definition from (b i : nat) : bool := Nat.leb b i && Nat.ltb i (m_nb c).
Lemma from_iff : forall b i, from b i = true <-> b <= i < m_nb c.
Proof. intros. unfold from. rewrite andb_true_iff, Nat.leb_le, Nat.ltb_lt. tauto. Qed.
Local Arguments from : simpl never.

Lemma cinv_refs : forall s f pre, CInv s pre -> CInv (st_refs s f) pre.
Proof. intros s f pre I. destruct I. constructor; assumption. Qed.

Definition terminals (ek : key) (b n : nat) : list mentry :=
  if m_keyed c then map (fun i => Ment None i ek) (seq b n) else [].

Lemma release_inv : forall ek n s b chs s1 pre O R, release_loop c ek s b n chs = Some s1 -> b + n = m_nb c ->
  (m_keyed c = true -> fits (Ment None 0 ek)) ->
  quiet s -> CInv s pre -> OB s (pre ++ [ms_tail s]) R (from b) O ->
  exists pre' O', CInv s1 pre' /\ OB s1 (pre' ++ [ms_tail s1]) R (fun _ => false) O' /\
    recs (ms_pages s1) (pre' ++ [ms_tail s1]) = recs (ms_pages s) (pre ++ [ms_tail s]) ++ terminals ek b n /\
    same_seq s s1.
Proof.
  intros ek. unfold terminals. induction n as [|n IH]; intros s b chs s1 pre O R H Hb F Q IC J; cbn [release_loop] in H.
  - inversion H; subst. exists pre, O. split; [exact IC|]. split; [|split; [|apply same_seq_refl]].
    + eapply ob_act_ext; [|exact J]. intro i. destruct (from b i) eqn:E; auto. apply from_iff in E. lia.
    + cbn. destruct (m_keyed c); now rewrite app_nil_r.
  - destruct (free_extent (ms_refs s) (ms_next_ext s b)) as [g|] eqn:G; [|discriminate].
    pose proof (head_meta _ _ IC) as Hh.
    assert (J1 : OB (st_refs s g) (pre ++ [ms_tail s]) R (from (S b)) (upd O (ms_next_ext s b) ONo)).
    { eapply ob_act_ext; [|eapply ob_drop; eauto].
      - intro i. cbn. destruct (from (S b) i) eqn:E1.
        + apply from_iff in E1. rewrite (proj2 (from_iff b i)) by lia. cbn. apply negb_true_iff, Nat.eqb_neq. lia.
        + destruct (from b i) eqn:E2; cbn; auto. apply from_iff in E2. apply negb_false_iff, Nat.eqb_eq.
          destruct (Nat.eq_dec i b); auto. exfalso. assert (from (S b) i = true) by (apply from_iff; lia). congruence.
      - apply from_iff. lia. }
    assert (IC1 : CInv (st_refs s g) pre) by (now apply cinv_refs).
    destruct (m_keyed c) eqn:K.
    + destruct (append_seq c (st_refs s g) (Ment None b ek) (List.hd CGo chs)) as [s2|] eqn:A; [|discriminate].
      edestruct (append_seq_inv _ _ _ _ pre R (from (S b)) (upd O (ms_next_ext s b) ONo) A)
        as (pre2 & O2 & C2 & J2 & R2 & S2); auto.
      assert (Q2 : quiet s2) by (intro t; destruct S2 as (_&_&_&_&_&E&_); rewrite E; apply Q).
      destruct (IH _ _ _ _ _ _ _ H ltac:(lia) F Q2 C2 J2) as (pre3 & O3 & C3 & J3 & R3 & S3).
      exists pre3, O3. split; [exact C3|]. split; [exact J3|]. split.
      * rewrite R3, R2. cbn. rewrite <- app_assoc. reflexivity.
      * eapply same_seq_trans; [|exact S3]. eapply same_seq_trans; [|exact S2]. repeat split.
    + destruct (IH (st_refs s g) (S b) (tl chs) s1 pre _ R H ltac:(lia) F Q IC1 J1) as (pre3 & O3 & C3 & J3 & R3 & S3).
      exists pre3, O3. split; [exact C3|]. split; [exact J3|]. split; [exact R3|].
      eapply same_seq_trans; [|exact S3]. repeat split.
Qed.

(** some choice of extents makes it succeed *)
Lemma append_seq_total : forall s e pre R act O, quiet s -> CInv s pre -> OB s (pre ++ [ms_tail s]) R act O ->
  (exists x, ms_refs s x = 0%N) -> exists ch s', append_seq c s e ch = Some s'.
Proof.
  intros s e pre R act O Q IC J [x X]. unfold append_seq.
  destruct (linked_last _ _ _ (c_link _ _ IC)) as [pg [G _]]. rewrite G.
  destruct (append_entry c pg e); [exists CGo; eauto|]. unfold new_tail.
  destruct (Nat.eqb ((ms_tail s + 1) mod ppe) 0).
  - exists (CExt (Some x)). cbn. rewrite X. cbn. eauto.
  - exists CGo. eauto.
Qed.

Lemma release_total : forall ek n s b pre O R, b + n = m_nb c ->
  (m_keyed c = true -> fits (Ment None 0 ek)) ->
  quiet s -> CInv s pre -> OB s (pre ++ [ms_tail s]) R (from b) O ->
  exists chs s1, release_loop c ek s b n chs = Some s1.
Proof.
  intros ek. induction n as [|n IH]; intros s b pre O R Hb F Q IC J.
  - exists [], s. reflexivity.
  - cbn [release_loop]. set (x := ms_next_ext s b).
    assert (Ox : O x = ONext b) by (apply (p_next _ _ _ _ _ J); split; [apply from_iff; lia | reflexivity]).
    assert (Hh : In hx (mext (pre ++ [ms_tail s]))) by (now apply head_meta).
    assert (Nh : x <> hx) by (intro E; apply (p_meta _ _ _ _ _ J) in Hh; congruence).
    assert (R2 : ms_refs s x = 2%N) by (apply (p_refs _ _ _ _ _ J); congruence).
    rewrite (free_two _ _ R2). set (g := upd (upd (ms_refs s) x 1%N) x 0%N).
    assert (J1 : OB (st_refs s g) (pre ++ [ms_tail s]) R (from (S b)) (upd O x ONo)).
    { eapply ob_act_ext; [|eapply (ob_drop s _ R (from b) O b g J Hh)].
      - intro i. cbn. destruct (from (S b) i) eqn:E1.
        + apply from_iff in E1. rewrite (proj2 (from_iff b i)) by lia. cbn. apply negb_true_iff, Nat.eqb_neq. lia.
        + destruct (from b i) eqn:E2; cbn; auto. apply from_iff in E2. apply negb_false_iff, Nat.eqb_eq.
          destruct (Nat.eq_dec i b); auto. exfalso. assert (from (S b) i = true) by (apply from_iff; lia). congruence.
      - apply from_iff. lia.
      - fold x. now apply free_two. }
    assert (IC1 : CInv (st_refs s g) pre) by (now apply cinv_refs).
    destruct (m_keyed c) eqn:K.
    + destruct (append_seq_total (st_refs s g) (Ment None b ek) pre R _ _ Q IC1 J1) as (ch & s2 & A).
      { exists x. cbn. unfold g. now rewrite upd_same. }
      edestruct (append_seq_inv _ _ _ _ pre R (from (S b)) (upd O x ONo) A)
        as (pre2 & O2 & C2 & J2 & _ & S2); auto.
      assert (Q2 : quiet s2) by (intro t; destruct S2 as (_&_&_&_&_&E&_); rewrite E; apply Q).
      destruct (IH s2 (S b) pre2 O2 R ltac:(lia) F Q2 C2 J2) as (chs & s1 & H).
      exists (ch :: chs), s1. cbn [List.hd tl]. rewrite A. exact H.
    + destruct (IH (st_refs s g) (S b) pre _ R ltac:(lia) F Q IC1 J1) as (chs & s1 & H).
      exists (CGo :: chs), s1. exact H.
Qed.

Lemma release_unkeyed_chs : forall ek n s b chs chs', m_keyed c = false ->
  release_loop c ek s b n chs = release_loop c ek s b n chs'.
Proof.
  intros ek. induction n as [|n IH]; intros s b chs chs' K; cbn; auto.
  destruct (free_extent (ms_refs s) (ms_next_ext s b)); auto. rewrite K. now apply IH.
Qed.

(** ** Reload *)

Lemma from0 : forall i, below (m_nb c) i = from 0 i.
Proof. intro i. unfold below, from. cbn. reflexivity. Qed.

Lemma inv_load : forall s pre O k chs s1 chs' s2, Inv s pre O -> m_keyed c = false -> quiet s ->
  mini_release c k s chs = Some s1 -> mini_load c s1 chs' = Some s2 -> exists pre' O', Inv s2 pre' O'.
Proof.
  intros s pre O k chs s1 chs' s2 I K Q HR HL. pose proof (i_c _ _ _ I) as IC.
  pose proof (oinv_ob _ _ _ Q (i_o _ _ _ I)) as J.
  assert (J0 : OB s (pre ++ [ms_tail s]) (recs (ms_pages s) (pre ++ [ms_tail s])) (from 0) O)
    by (eapply ob_act_ext; [apply from0 | exact J]).
  edestruct (release_inv _ _ _ _ _ _ pre O (recs (ms_pages s) (pre ++ [ms_tail s])) HR)
    as (pre1 & O1 & C1 & J1 & R1 & S1); auto.
  { intro. congruence. }
  unfold terminals in R1. rewrite K, app_nil_r in R1.
  unfold mini_load in HL. destruct (Nat.ltb 8 (m_nb c) || Nat.eqb (m_nb c) 0); [discriminate|].
  set (s0 := Mst (ms_refs s1) (ms_pages s1) (fun _ => []) (fun _ => false) (fun _ => false) (ms_tail s1)
              (fun _ => Some 0) (fun _ => 0) 1 (fun _ => MOut) (ms_ret s1)) in *.
  edestruct (init_batches_inv chs' s0 0 s2 pre1 O1 (recs (ms_pages s) (pre ++ [ms_tail s])) HL)
    as [(h1 & h2 & h3 & h4 & h5 & h6 & h7 & h8) [O2 J2]].
  - apply (head_meta _ _ C1).
  - destruct J1. constructor; auto. intros x b. rewrite below_lt. specialize (p_next0 x b). cbn in *.
    split; [intro E; apply p_next0 in E; destruct E; discriminate | intros [? ?]; lia].
  - lia.
  - cbn in h1, h2, h3, h4, h5, h6, h7, h8. change (ms_tail s0) with (ms_tail s1) in J2. destruct S1 as (_&_&_&_&_&_&Er).
    exists pre1, O2. apply inv_assemble; rewrite ?h1, ?h5, ?h6, ?h8.
    + intro t. now rewrite h7.
    + repeat split; intro p; [now rewrite h2 | now rewrite h3 | now rewrite h4].
    + constructor; rewrite ?h1, ?h5; try apply C1.
      * intros t p. rewrite h7. cbn. intuition discriminate.
      * intros t b k' e nt. rewrite h7. discriminate.
    + rewrite R1. exact J2.
    + intros b a E. inversion E; subst. rewrite Nat.mod_0_l by lia. congruence.
    + intros b. discriminate.
    + rewrite Er. apply I.
    + rewrite Er, R1. apply (i_b _ _ _ I).
Qed.

Lemma reach_inv : forall s, mreach c head s -> exists pre O, Inv s pre O.
Proof.
  intros s H. induction H as [refs chs s H1 H2 H3 H4 H5|s t ch s' H IH K St|s s' H IH E|s k chs s1 chs' s2 H IH K Q R L].
  - destruct (inv_init _ _ _ H1 H2 H3 H4 H5) as [O I]. eauto.
  - destruct IH as (pre & O & I). eapply inv_step; eauto. eapply step_trans; eauto.
  - destruct IH as (pre & O & I). exists pre, O. eapply inv_env; eauto.
  - destruct IH as (pre & O & I). eapply inv_load; eauto.
Qed.

(** ** Teardown *)

Lemma free_entries_ok : forall l f, NoDup (map me_ext l) -> (forall en, In en l -> exists x, me_ext en = Some x) ->
  (forall x, In (Some x) (map me_ext l) -> f x = 2%N) ->
  exists g, free_entries f l = Some g /\ (forall x, In (Some x) (map me_ext l) -> g x = 0%N) /\
    (forall x, ~ In (Some x) (map me_ext l) -> g x = f x).
Proof.
  induction l as [|en l IH]; intros f ND S H; cbn [free_entries].
  - exists f. repeat split; auto. intros x [].
  - destruct (S en) as [x X]; [now left|]. rewrite X. cbn in ND, H. inversion ND as [|? ? N ND']; subst. rewrite X in *.
    rewrite free_two by (apply H; now left).
    destruct (IH (upd (upd f x 1%N) x 0%N) ND') as (g & G1 & G2 & G3).
    + intros; apply S. now right.
    + intros y Hy. rewrite !upd_other by (intros ->; auto). apply H. now right.
    + exists g. split; [exact G1|]. cbn. rewrite X. split.
      * intros y [E|Hy]; [|now apply G2]. inversion E; subst y. rewrite G3 by auto. now rewrite upd_same.
      * intros y Hy. rewrite G3 by tauto. rewrite !upd_other; auto; intros ->; apply Hy; now left.
Qed.

Lemma nodup_app_l : forall {A} (a b : list A), NoDup (a ++ b) -> NoDup a.
Proof. induction a as [|x a IH]; intros b H; [constructor|]. inversion H; subst. constructor; [|eauto]. intro Hx. apply H2, in_or_app. auto. Qed.
Lemma nodup_app_r : forall {A} (a b : list A), NoDup (a ++ b) -> NoDup b.
Proof. induction a as [|x a IH]; intros b H; [exact H|]. inversion H; subst. eauto. Qed.
Lemma nodup_app_disj : forall {A} (a b : list A) x, NoDup (a ++ b) -> In x a -> ~ In x b.
Proof.
  induction a as [|y a IH]; intros b x H Ha Hb; [easy|]. inversion H; subst. destruct Ha as [->|Ha].
  - apply H2, in_or_app. auto. - eapply IH; eauto.
Qed.

Lemma for_each_ok : forall pages C a fuel f, linked pages (a :: C) -> length C < fuel ->
  NoDup (map me_ext (recs pages (a :: C))) ->
  (forall en, In en (recs pages (a :: C)) -> exists x, me_ext en = Some x) ->
  (forall x, In (Some x) (map me_ext (recs pages (a :: C))) -> f x = 2%N) ->
  exists g, unkeyed_for_each fuel pages f a = Some g /\
    (forall x, In (Some x) (map me_ext (recs pages (a :: C))) -> g x = 0%N) /\
    (forall x, ~ In (Some x) (map me_ext (recs pages (a :: C))) -> g x = f x).
Proof.
  intros pages. induction C as [|b C IH]; intros a fuel f L Hf ND S H; (destruct fuel as [|fuel]; [cbn in Hf; lia|]); cbn [unkeyed_for_each].
  - cbn in L. destruct L as [pg [G N]]. rewrite G.
    assert (E : recs pages [a] = mp_entries pg) by (unfold recs; cbn; unfold ents; now rewrite G, app_nil_r).
    rewrite E in *. destruct (free_entries_ok _ f ND S H) as (g & G1 & G2 & G3). rewrite G1, N. cbn. eauto.
  - change (linked pages (a :: b :: C)) with
      ((exists pg, pages a = Some pg /\ mp_next pg = b) /\ b <> 0 /\ linked pages (b :: C)) in L.
    destruct L as [[pg [G N]] [B0 L]]. rewrite G.
    assert (E : recs pages (a :: b :: C) = mp_entries pg ++ recs pages (b :: C)) by (unfold recs; cbn; unfold ents at 1; now rewrite G).
    rewrite E, map_app in *.
    destruct (free_entries_ok (mp_entries pg) f) as (g & G1 & G2 & G3).
    + eapply nodup_app_l; eauto.
    + intros; apply S. apply in_or_app. auto.
    + intros; apply H. apply in_or_app. auto.
    + rewrite G1, N. destruct (Nat.eqb_spec b 0); [congruence|].
      destruct (IH b fuel g) as (h & H1 & H2 & H3); auto.
      * cbn in Hf. lia.
      * eapply nodup_app_r; eauto.
      * intros; apply S. apply in_or_app. auto.
      * intros x Hx. rewrite G3; [apply H; apply in_or_app; auto|]. intro Hy. eapply nodup_app_disj; eauto.
      * exists h. split; [exact H1|]. split.
        { intros x Hx. apply in_app_or in Hx. destruct Hx as [Hx|Hx]; [|now apply H2].
          rewrite H3; [now apply G2|]. eapply nodup_app_disj; eauto. }
        { intros x Hx. rewrite H3, G3; auto; intro; apply Hx, in_or_app; auto. }
Qed.

Lemma deinit_ok : forall pages C a fuel f, linked pages (a :: C) -> length C < fuel ->
  NoDup (mext (a :: C)) -> ~ In 0 (mext (a :: C)) ->
  (forall x, In x (mext (a :: C)) -> f x = 2%N) ->
  exists g, mini_deinit fuel c pages f a = Some g /\
    (forall x, In x (mext (a :: C)) -> g x = 0%N) /\ (forall x, ~ In x (mext (a :: C)) -> g x = f x).
Proof.
  intros pages. induction C as [|b C IH]; intros a fuel f L Hf ND Z H; (destruct fuel as [|fuel]; [cbn in Hf; lia|]); cbn [mini_deinit].
  - cbn in L. destruct L as [pg [G N]]. rewrite G, N. rewrite Nat.div_0_l by lia. cbn [mext] in *.
    destruct (Nat.eqb_spec (a / ppe) 0) as [E|E]; [exfalso; apply Z; rewrite E; now left|].
    rewrite free_two by (apply H; now left). cbn. eexists. split; [reflexivity|]. split.
    + intros x [<-|[]]. now rewrite upd_same.
    + intros x Hx. rewrite !upd_other; auto.
  - change (linked pages (a :: b :: C)) with
      ((exists pg, pages a = Some pg /\ mp_next pg = b) /\ b <> 0 /\ linked pages (b :: C)) in L.
    destruct L as [[pg [G N]] [B0 L]]. rewrite G, N. destruct (Nat.eqb_spec b 0); [congruence|].
    change (mext (a :: b :: C)) with (if Nat.eqb (a / ppe) (b / ppe) then mext (b :: C) else a / ppe :: mext (b :: C)) in *.
    destruct (Nat.eqb (a / ppe) (b / ppe)).
    + apply IH; auto. cbn in Hf. lia.
    + rewrite free_two by (apply H; now left). inversion ND as [|? ? NI ND']; subst.
      destruct (IH (mp_next pg) fuel (upd (upd f (a / ppe) 1%N) (a / ppe) 0%N)) as (g & G1 & G2 & G3); auto.
      * cbn in Hf. lia.
      * intro; apply Z. now right.
      * intros x Hx. rewrite !upd_other by (intros ->; auto). apply H. now right.
      * exists g. split; [exact G1|]. split.
        { intros x [<-|Hx]; [|now apply G2]. rewrite G3 by auto. now rewrite upd_same. }
        { intros x Hx. rewrite G3 by (intro; apply Hx; now right). rewrite !upd_other; auto; intros ->; apply Hx; now left. }
Qed.

Lemma free_at : forall f x g, free_extent f x = Some g -> g x = 0%N /\ forall y, y <> x -> g y = f y.
Proof.
  intros f x g H. unfold free_extent, dec8 in H.
  destruct (((f x + 255) mod 256) =? 255)%N; [discriminate|].
  destruct (N.eqb_spec ((f x + 255) mod 256) 1); [|discriminate]. rewrite upd_same in H.
  destruct (((((f x + 255) mod 256) + 255) mod 256) =? 255)%N; [discriminate|].
  destruct (N.eqb_spec ((((f x + 255) mod 256) + 255) mod 256) 0) as [E|]; [|discriminate].
  inversion H; subst g. split; [now rewrite upd_same|]. intros y Hy. now rewrite !upd_other.
Qed.

Lemma free_nexts_ok : forall ne n f b, (forall i j, b <= i < b + n -> b <= j < b + n -> ne i = ne j -> i = j) ->
  (forall i, b <= i < b + n -> f (ne i) = 2%N) ->
  exists g, free_nexts f ne b n = Some g /\ (forall i, b <= i < b + n -> g (ne i) = 0%N) /\
    (forall x, (forall i, b <= i < b + n -> ne i <> x) -> g x = f x).
Proof.
  intros ne. induction n as [|n IH]; intros f b Inj H; cbn [free_nexts].
  - exists f. repeat split; auto. intros; lia.
  - rewrite free_two by (apply H; lia).
    destruct (IH (upd (upd f (ne b) 1%N) (ne b) 0%N) (S b)) as (g & G1 & G2 & G3).
    + intros; apply Inj; auto; lia.
    + intros i Hi. rewrite !upd_other; [apply H; lia | |]; intro E; apply Inj in E; lia.
    + exists g. split; [exact G1|]. split.
      * intros i Hi. destruct (Nat.eq_dec i b) as [->|]; [|apply G2; lia].
        rewrite G3; [now rewrite upd_same|]. intros j Hj E. apply Inj in E; lia.
      * intros x Hx. rewrite G3 by (intros; apply Hx; lia). rewrite !upd_other; auto; intros ->; apply (Hx b); auto; lia.
Qed.

Lemma release_unkeyed : forall ek n s b chs, m_keyed c = false ->
  release_loop c ek s b n chs = option_map (st_refs s) (free_nexts (ms_refs s) (ms_next_ext s) b n).
Proof.
  intros ek. induction n as [|n IH]; intros s b chs K; cbn.
  - now destruct s.
  - destruct (free_extent (ms_refs s) (ms_next_ext s b)); [|reflexivity]. rewrite K, IH by auto. cbn.
    destruct (free_nexts n0 (ms_next_ext s) (S b) n); reflexivity.
Qed.

Definition metaext (s : mst) (x : nat) : Prop := exists p, ms_pages s p <> None /\ p / ppe = x.

Lemma append_seq_refs : forall s e ch s', append_seq c s e ch = Some s' ->
  (forall x, ms_refs s' x = ms_refs s x \/ (ms_refs s x = 0%N /\ metaext s' x)) /\
  (forall x, metaext s x -> metaext s' x) /\ ms_next_ext s' = ms_next_ext s.
Proof.
  intros s e ch s' H. unfold append_seq in H. destruct (ms_pages s (ms_tail s)) as [pg|] eqn:G; [|discriminate].
  destruct (append_entry c pg e) as [pg'|].
  - inversion H; subst. cbn. split; [auto|]. split; [|reflexivity]. intros x [p [P1 P2]]. exists p. split; [|exact P2]. cbn.
    pcase p (ms_tail s) (ms_pages s); [discriminate | assumption].
  - destruct (new_tail c s (ms_tail s) ch) as [| |nt s1] eqn:N; try discriminate. apply new_tail_got in N.
    inversion H; subst s'. clear H. cbn. split; [|split; [|destruct N; reflexivity]].
    + intro x. destruct N as [|y M Y]; [auto|]. cbn. pcase x y (ms_refs s); auto. right. split; [exact Y|].
      exists (y * ppe). cbn. rewrite upd_same, div_ppe. split; [discriminate | reflexivity].
    + intros x [p [P1 P2]]. exists p. split; [|exact P2]. cbn.
      assert (E : ms_pages s1 = ms_pages s) by (destruct N; reflexivity). rewrite E.
      pcase p nt (upd (ms_pages s) (ms_tail s) (Some (set_next pg nt))); [discriminate|].
      pcase p (ms_tail s) (ms_pages s); [discriminate | assumption].
Qed.

Lemma release_refs : forall ek n s b chs s1, release_loop c ek s b n chs = Some s1 ->
  (forall x, (forall i, b <= i < b + n -> ms_next_ext s i <> x) ->
     ms_refs s1 x = ms_refs s x \/ (ms_refs s x = 0%N /\ metaext s1 x)) /\
  (forall i, b <= i < b + n -> ms_refs s1 (ms_next_ext s i) = 0%N \/ metaext s1 (ms_next_ext s i)) /\
  (forall x, metaext s x -> metaext s1 x).
Proof.
  intros ek. induction n as [|n IH]; intros s b chs s1 H; cbn [release_loop] in H.
  - inversion H; subst. repeat split; auto. intros; lia.
  - destruct (free_extent (ms_refs s) (ms_next_ext s b)) as [g|] eqn:F; [|discriminate].
    apply free_at in F. destruct F as [F1 F2].
    set (s1' := st_refs s g) in *.
    assert (exists s2, (forall x, ms_refs s2 x = g x \/ (g x = 0%N /\ metaext s2 x)) /\ (forall x, metaext s x -> metaext s2 x)
              /\ ms_next_ext s2 = ms_next_ext s /\ release_loop c ek s2 (S b) n (tl chs) = Some s1) as (s2 & A1 & A2 & A3 & A4).
    { destruct (m_keyed c).
      - destruct (append_seq c s1' (Ment None b ek) (List.hd CGo chs)) as [s2|] eqn:A; [|discriminate].
        apply append_seq_refs in A. destruct A as (A1 & A2 & A3). exists s2. repeat split; auto.
      - exists s1'. repeat split; auto. }
    destruct (IH _ _ _ _ A4) as (B1 & B2 & B3). rewrite A3 in *. split; [|split].
    + intros x Hx. destruct (B1 x) as [E|[E M]]; [intros; apply Hx; lia| |].
      * rewrite E. destruct (A1 x) as [->|[Z M]].
        { left. apply F2. intros ->. apply (Hx b); auto; lia. }
        { right. split; [rewrite <- F2; auto; intros ->; apply (Hx b); auto; lia | auto]. }
      * right. split; [|exact M]. destruct (A1 x) as [E'|[Z _]].
        { rewrite <- (F2 x) by (intros ->; apply (Hx b); auto; lia). congruence. }
        { rewrite <- F2; auto. intros ->. apply (Hx b); auto; lia. }
    + intros i Hi. destruct (Nat.eq_dec i b) as [->|]; [|apply B2; lia].
      destruct (in_dec Nat.eq_dec (ms_next_ext s b) (map (ms_next_ext s) (seq (S b) n))) as [Y|Y].
      * apply in_map_iff in Y. destruct Y as [j [E J]]. apply in_seq in J. rewrite <- E. apply B2. lia.
      * destruct (B1 (ms_next_ext s b)) as [E|[E M]]; [|rewrite E|auto].
        { intros j Hj E. apply Y. apply in_map_iff. exists j. split; auto. apply in_seq. lia. }
        { destruct (A1 (ms_next_ext s b)) as [->|[Z M]]; auto. }
    + auto.
Qed.

(** ** Teardown of a reachable state *)

Lemma next_inj : forall s pre O i j, Inv s pre O -> i < m_nb c -> j < m_nb c -> ms_next_ext s i = ms_next_ext s j -> i = j.
Proof.
  intros s pre O i j I Hi Hj E. pose proof (i_o _ _ _ I) as J.
  assert (A : O (ms_next_ext s i) = ONext i) by (apply (o_next _ _ _ J); auto).
  assert (B : O (ms_next_ext s i) = ONext j) by (apply (o_next _ _ _ J); auto). congruence.
Qed.

Lemma chain_cons : forall s pre, CInv s pre -> exists C, pre ++ [ms_tail s] = head :: C.
Proof. intros s pre I. pose proof (c_hd _ _ I) as H. destruct pre as [|a pre]; cbn in *; rewrite <- H; eexists; reflexivity. Qed.

(** the walks on the counts [f], which agree with the state on metadata and
    recorded extents except that the head extent is at 2 *)
Lemma walks_ok : forall s pre O, Inv s pre O -> exists N, forall fuel f, N <= fuel ->
  f hx = 2%N -> (forall x, O x = OMeta \/ O x = ORec -> x <> hx -> f x = 2%N) ->
  exists g h, unkeyed_for_each fuel (ms_pages s) f head = Some g /\ mini_deinit fuel c (ms_pages s) g head = Some h /\
    (forall x, O x = OMeta \/ O x = ORec -> h x = 0%N) /\ (forall x, O x <> OMeta -> O x <> ORec -> h x = f x).
Proof.
  intros s pre O I. pose proof (i_c _ _ _ I) as IC. pose proof (i_o _ _ _ I) as J.
  destruct (chain_cons _ _ IC) as [C E]. rewrite E in *. exists (S (length C)). intros fuel f Hf H1 H2.
  pose proof (c_link _ _ IC) as L. rewrite E in L.
  pose proof (head_meta _ _ IC) as HM. rewrite E in HM.
  assert (OM : O hx = OMeta) by (now apply (o_meta _ _ _ J)).
  destruct (for_each_ok (ms_pages s) C head fuel f L ltac:(lia) (o_ndr _ _ _ J) (o_some _ _ _ J)) as (g & G1 & G2 & G3).
  { intros x Hx. apply (o_rec _ _ _ J) in Hx. apply H2; auto. intros ->. congruence. }
  destruct (deinit_ok (ms_pages s) C head fuel g L ltac:(lia) (o_ndm _ _ _ J)) as (h & K1 & K2 & K3).
  { intro Z. apply (o_meta _ _ _ J) in Z. pose proof (o_z0 _ _ _ J). congruence. }
  { intros x Hx. apply (o_meta _ _ _ J) in Hx. rewrite G3.
    - destruct (Nat.eq_dec x hx) as [->|]; auto.
    - intro Y. apply (o_rec _ _ _ J) in Y. congruence. }
  exists g, h. split; [exact G1|]. split; [exact K1|]. split.
  - intros x [X|X].
    + apply K2. now apply (o_meta _ _ _ J).
    + rewrite K3; [apply G2; now apply (o_rec _ _ _ J)|]. intro Y. apply (o_meta _ _ _ J) in Y. congruence.
  - intros x X Y. rewrite K3, G3; auto; intro Z.
    + apply (o_rec _ _ _ J) in Z. contradiction.
    + apply (o_meta _ _ _ J) in Z. contradiction.
Qed.

Lemma dec_ref_ok : forall s pre O, Inv s pre O -> exists N, forall fuel f, N <= fuel ->
  f hx = 3%N -> (forall x, O x = OMeta \/ O x = ORec -> x <> hx -> f x = 2%N) ->
  exists h, unkeyed_dec_ref fuel c (ms_pages s) f head = Some (0%N, h) /\
    (forall x, O x = OMeta \/ O x = ORec -> h x = 0%N) /\ (forall x, O x <> OMeta -> O x <> ORec -> h x = f x).
Proof.
  intros s pre O I. destruct (walks_ok _ _ _ I) as [N HN]. exists N. intros fuel f Hf H1 H2.
  unfold unkeyed_dec_ref. fold hx. unfold dec8. rewrite H1. cbn -[unkeyed_for_each mini_deinit].
  destruct (HN fuel (upd f hx 2%N) Hf) as (g & h & A & B & D & E).
  - now rewrite upd_same.
  - intros x Hx Nx. rewrite upd_other by auto. auto.
  - rewrite A, B. exists h. split; [reflexivity|]. split; [exact D|]. intros x X Y. rewrite E by auto.
    apply upd_other. intros ->. apply X. apply (o_meta _ _ _ (i_o _ _ _ I)). apply (head_meta _ _ (i_c _ _ _ I)).
Qed.

Lemma owned_quiet : forall s pre O x, Inv s pre O -> quiet s ->
  (owned c s x <-> O x = OMeta \/ O x = ORec \/ exists i, i < m_nb c /\ ms_next_ext s i = x).
Proof.
  intros s pre O x I Q. rewrite <- (owned_iff s pre O x I). pose proof (i_o _ _ _ I) as J. split.
  - intro H. destruct (O x) eqn:E; auto; [congruence| |].
    + apply (o_next _ _ _ J) in E. right; right. exists b. tauto.
    + apply (o_pend _ _ _ J) in E. rewrite Q in E. discriminate.
  - intros [E|[E|[i [Hi E]]]]; [congruence | congruence |].
    assert (O x = ONext i) by (apply (o_next _ _ _ J); auto). congruence.
Qed.

End WithCfg.
