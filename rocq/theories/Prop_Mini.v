(** * C24: page allocation from extents is unique and fully reclaimed

    Any number of threads, any interleaving with each other and with the rest
    of the system, any number of metadata pages and extents, any number of
    batches and pages per extent, across any number of clean shutdowns and
    reloads (/repo/src/mini_allocator.c). *)

From Coq Require Import List NArith Arith Bool Lia.
From Verif Require Import Base Count Mini MiniProofs.
Import ListNotations.

(** The pages that following the links of the metadata pages visits. *)
Inductive listed (pages : nat -> option mpage) (a : nat) : nat -> Prop :=
| ls_here : listed pages a a
| ls_next p pg : listed pages a p -> pages p = Some pg -> mp_next pg <> 0 -> listed pages a (mp_next pg).

(** Extent [x] is recorded in a metadata page that a walk from [head] finds. *)
Definition recorded (s : mst) (head x : nat) : Prop :=
  exists p pg en, listed (ms_pages s) head p /\ ms_pages s p = Some pg /\ In en (mp_entries pg) /\ me_ext en = Some x.

Lemma linked_listed : forall pages C a p, linked pages (a :: C) -> In p (a :: C) -> listed pages a p.
Proof.
  intros pages C a p L H.
  assert (G : forall C a', linked pages (a' :: C) -> listed pages a a' -> forall p, In p (a' :: C) -> listed pages a p).
  { clear. intros C. induction C as [|b C IH]; intros a' L A p [->|H]; auto; [easy|].
    change (linked pages (a' :: b :: C)) with
      ((exists pg, pages a' = Some pg /\ mp_next pg = b) /\ b <> 0 /\ linked pages (b :: C)) in L.
    destruct L as [[pg [G N]] [B0 L]]. apply (IH b); auto. rewrite <- N. apply (ls_next _ _ a' pg); auto. congruence. }
  apply (G C a L); auto. constructor.
Qed.

Lemma inv_listed : forall c head s pre O p, Inv c head s pre O -> ms_pages s p <> None -> listed (ms_pages s) head p.
Proof.
  intros c head s pre O p I H. pose proof (i_c _ _ _ _ _ I) as IC. apply (c_dom _ _ _ _ IC) in H.
  pose proof (c_link _ _ _ _ IC) as L.
  destruct (chain_cons c head _ _ IC) as [C E]. rewrite E in *. eapply linked_listed; eauto.
Qed.

Lemma recs_recorded : forall c head s pre O x, Inv c head s pre O ->
  In (Some x) (map me_ext (recs (ms_pages s) (pre ++ [ms_tail s]))) -> recorded s head x.
Proof.
  intros c head s pre O x I H. apply in_map_iff in H. destruct H as [en [E H]].
  unfold recs in H. apply in_flat_map in H. destruct H as [p [P H]]. unfold ents in H.
  destruct (ms_pages s p) as [pg|] eqn:G; [|easy]. exists p, pg, en. repeat split; auto.
  eapply inv_listed; eauto. congruence.
Qed.

(** No page address is returned twice, the extent of every returned page is
    recorded, is allocated, and holds no metadata page. *)
Theorem C24_distinct : forall c head s, 0 < m_ppe c -> mreach c head s ->
  NoDup (ms_ret s) /\
  (forall a, In a (ms_ret s) -> recorded s head (a / m_ppe c) /\ ms_refs s (a / m_ppe c) = 2%N /\
     forall p, ms_pages s p <> None -> p / m_ppe c <> a / m_ppe c).
Proof.
  intros c head s Hp R. destruct (reach_inv c head Hp s R) as (pre & O & I).
  pose proof (i_o _ _ _ _ _ I) as J. split; [apply (b_nd _ _ _ (i_b _ _ _ _ _ I))|].
  intros a Ha. apply (b_ret _ _ _ (i_b _ _ _ _ _ I)) in Ha.
  assert (OR : O (a / m_ppe c) = ORec) by (now apply (o_rec _ _ _ _ _ J)).
  pose proof (head_meta c head _ _ (i_c _ _ _ _ _ I)) as HM.
  split; [eapply recs_recorded; eauto|]. split.
  - apply (o_refs _ _ _ _ _ J); [congruence|]. intro E. apply (o_meta _ _ _ _ _ J) in HM. congruence.
  - intros p P E. apply (c_dom _ _ _ _ (i_c _ _ _ _ _ I)) in P.
    assert (O (a / m_ppe c) = OMeta); [|congruence]. apply (o_meta _ _ _ _ _ J). apply in_mext. eauto.
Qed.
Print Assumptions C24_distinct.

(** The extents held are pairwise different: each is either the extent of a
    metadata page, or recorded exactly once, or the reserve of exactly one
    batch, or about to be recorded by exactly one thread. *)
Definition is_meta (c : mcfg) (s : mst) (x : nat) : Prop := exists p, ms_pages s p <> None /\ p / m_ppe c = x.
Definition is_next (c : mcfg) (s : mst) (b x : nat) : Prop := b < m_nb c /\ ms_next_ext s b = x.
Definition is_pend (s : mst) (t x : nat) : Prop := pend (ms_pcs s t) = Some x.

Theorem C24_exclusive : forall c head s x, 0 < m_ppe c -> mreach c head s ->
  (recorded s head x -> ~ is_meta c s x) /\
  (forall b, is_next c s b x -> ~ is_meta c s x /\ ~ recorded s head x /\ (forall b', is_next c s b' x -> b' = b)) /\
  (forall t, is_pend s t x -> ~ is_meta c s x /\ ~ recorded s head x /\ (forall b, ~ is_next c s b x) /\
     forall t', is_pend s t' x -> t' = t) /\
  (owned c s x -> ms_refs s x <> 0%N).
Proof.
  intros c head s x Hp R. destruct (reach_inv c head Hp s R) as (pre & O & I).
  pose proof (i_o _ _ _ _ _ I) as J. pose proof (i_c _ _ _ _ _ I) as IC.
  assert (M : is_meta c s x -> O x = OMeta).
  { intros [p [P E]]. apply (c_dom _ _ _ _ IC) in P. apply (o_meta _ _ _ _ _ J). apply in_mext. eauto. }
  assert (Rc : recorded s head x -> O x = ORec).
  { intros (p & pg & en & _ & G & H & E). apply (o_rec _ _ _ _ _ J). apply in_map_iff. exists en. split; auto.
    unfold recs. apply in_flat_map. exists p. split; [apply (c_dom _ _ _ _ IC); congruence|]. unfold ents. now rewrite G. }
  assert (N : forall b, is_next c s b x -> O x = ONext b) by (intros b H; now apply (o_next _ _ _ _ _ J)).
  assert (P : forall t, is_pend s t x -> O x = OPend t) by (intros t H; now apply (o_pend _ _ _ _ _ J)).
  split; [|split; [|split]].
  - intros A B. apply M in B. apply Rc in A. congruence.
  - intros b A. apply N in A. repeat split; intros.
    + intro B. apply M in B. congruence.
    + intro B. apply Rc in B. congruence.
    + apply N in H. congruence.
  - intros t A. apply P in A. repeat split; intros.
    + intro B. apply M in B. congruence.
    + intro B. apply Rc in B. congruence.
    + intro B. apply N in B. congruence.
    + apply P in H. congruence.
  - intro A. rewrite <- (owned_iff c head s pre O x I) in A. eapply o_live; eauto.
Qed.
Print Assumptions C24_exclusive.

(** A step never gives up an extent and changes no reference count but that of
    a free extent which it takes. *)
Theorem C24_step_owns : forall c head s t ch s' x, 0 < m_ppe c -> mreach c head s -> key_fits c ch ->
  mini_step c s t ch = MStep s' ->
  (owned c s x -> owned c s' x) /\
  (ms_refs s' x <> ms_refs s x -> ms_refs s x = 0%N /\ ms_refs s' x = 2%N /\ owned c s' x).
Proof.
  intros c head s t ch s' x Hp R K St. destruct (reach_inv c head Hp s R) as (pre & O & I).
  pose proof (step_trans c s t ch s' K St) as T. pose proof (i_c _ _ _ _ _ I) as IC.
  assert (Keep : forall s2, (forall p pg, ms_pages s p = Some pg -> exists pg', ms_pages s2 p = Some pg' /\ incl (mp_entries pg) (mp_entries pg')) ->
     (forall b, b < m_nb c -> owned c s2 (ms_next_ext s b)) ->
     (forall u y, pend (ms_pcs s u) = Some y -> owned c s2 y) -> owned c s x -> owned c s2 x).
  { intros s2 A B D [(p & pg & G & H)|[(b & Hb & <-)|(u & H)]]; [|auto|eauto].
    left. destruct (A p pg G) as (pg' & G' & Inc). exists p, pg'. split; auto. destruct H as [H|(en & H & E)]; [auto|].
    right. exists en. split; auto. }
  assert (Pend : forall u pc s2, (forall b, b < m_nb c -> owned c s2 (ms_next_ext s b)) ->
     ms_pcs s2 = upd (ms_pcs s) u pc -> (forall y, pend (ms_pcs s u) = Some y -> owned c s2 y) ->
     forall v y, pend (ms_pcs s v) = Some y -> owned c s2 y).
  { intros u pc s2 _ E D v y H. destruct (Nat.eq_dec v u) as [->|Ne]; [auto|].
    right; right. exists v. rewrite E, upd_other by auto. exact H. }
  destruct T; cbn [ms_refs goto st_pcs st_na st_ne st_num st_refs st_rd st_claim st_wr st_pages st_ret full_unlock].
  all: try (split; [|congruence]; apply Keep;
            [ intros p pg0 G0; exists pg0; split; [exact G0 | apply incl_refl]
            | intros b0 Hb0; right; left; exists b0; split; [exact Hb0 | reflexivity]
            | eapply (Pend t); [ intros b0 Hb0; right; left; exists b0; split; [exact Hb0 | reflexivity] | reflexivity |];
              intros y Hy; rewrite H in Hy; cbn in Hy; try discriminate;
              right; right; exists t; cbn; rewrite upd_same; exact Hy ]; fail).
  - (* t_ext *)
    assert (Nx : forall b0, b0 < m_nb c -> owned c (goto (st_ne (st_num (st_refs s (upd (ms_refs s) x0 2%N)) (S (ms_num_ext s)))
                           (upd (ms_next_ext s) b x0)) t (MTail b k (ms_next_ext s b))) (ms_next_ext s b0)).
    { intros b0 Hb0. destruct (Nat.eq_dec b0 b) as [->|].
      - right; right. exists t. cbn. now rewrite upd_same.
      - right; left. exists b0. split; auto. cbn. now rewrite upd_other. }
    split.
    + apply Keep.
      * intros p pg0 G0; exists pg0; split; [exact G0 | apply incl_refl].
      * exact Nx.
      * eapply (Pend t); [exact Nx | reflexivity|]. intros y Hy. rewrite H in Hy. discriminate.
    + intro D. destruct (Nat.eq_dec x x0) as [->|]; [|rewrite upd_other in D by auto; congruence].
      rewrite upd_same. split; [assumption|]. split; [reflexivity|]. right; left. exists b. cbn. rewrite upd_same.
      split; auto. pose proof (i_p _ _ _ _ _ I t) as Pk. rewrite H in Pk. apply Pk.
  - (* t_app *)
    apply append_entry_some in H1. destruct H1 as [N1 N2].
    split; [|congruence]. apply Keep.
    + intros p pg0 G0. cbn. destruct (Nat.eq_dec p mt) as [->|].
      * rewrite upd_same. exists pg'. split; auto. rewrite N2. replace pg0 with pg by congruence. apply incl_appl, incl_refl.
      * rewrite upd_other by auto. exists pg0. split; [exact G0 | apply incl_refl].
    + intros b0 Hb0; right; left; exists b0; split; [exact Hb0 | reflexivity].
    + eapply (Pend t); [intros b0 Hb0; right; left; exists b0; split; [exact Hb0 | reflexivity] | reflexivity |].
      intros y Hy. rewrite H in Hy. inversion Hy; subst y. left. exists mt, pg'. cbn. rewrite upd_same. split; auto.
      right. exists (Ment (Some e) b k). split; auto. rewrite N2. apply in_or_app. right. now left.
  - (* t_spill *)
    assert (Mt : In mt (pre ++ [ms_tail s])) by (apply (c_dom _ _ _ _ IC); congruence).
    assert (Fr : forall y, ms_refs s y = 0%N -> forall p, In p (pre ++ [ms_tail s]) -> p / m_ppe c <> y).
    { intros y Y p Hy E. assert (Om : O y = OMeta) by (apply (o_meta _ _ _ _ _ (i_o _ _ _ _ _ I)); apply in_mext; eauto).
      apply (o_live c head Hp s pre O y IC (i_o _ _ _ _ _ I)); [congruence | exact Y]. }
    destruct (spill_page c head Hp _ _ _ _ IC (o_zero _ _ _ _ _ (i_o _ _ _ _ _ I)) Fr H2) as (NI & N0 & LE).
    assert (Ep : ms_pages s1 = ms_pages s) by (destruct H2; reflexivity).
    assert (En : ms_next_ext s1 = ms_next_ext s) by (destruct H2; reflexivity).
    assert (Eq : ms_pcs s1 = ms_pcs s) by (destruct H2; reflexivity).
    split.
    + apply Keep.
      * intros p pg0 G0. cbn. rewrite Ep. rewrite upd_other by (intros ->; apply NI; apply (c_dom _ _ _ _ IC); congruence).
        destruct (Nat.eq_dec p mt) as [->|]; [rewrite upd_same | rewrite upd_other by auto].
        { exists (set_next pg nt). split; auto. replace pg0 with pg by congruence. apply incl_refl. }
        { exists pg0. split; [exact G0 | apply incl_refl]. }
      * intros b0 Hb0; right; left; exists b0; split; [exact Hb0 | cbn; now rewrite En].
      * eapply (Pend t); [intros b0 Hb0; right; left; exists b0; split; [exact Hb0 | cbn; now rewrite En] | cbn; rewrite Eq; reflexivity |].
        intros y Hy. rewrite H in Hy. inversion Hy; subst y. right; right. exists t. cbn. now rewrite upd_same.
    + cbn. destruct H2 as [M|y M Y]; cbn; [congruence|]. intro D.
      destruct (Nat.eq_dec x y) as [->|]; [|rewrite upd_other in D by auto; congruence].
      rewrite upd_same. split; [assumption|]. split; [reflexivity|]. left. exists (y * m_ppe c), empty_page. cbn.
      rewrite upd_same. split; auto. left. apply Nat.div_mul. lia.
  - (* t_app2 *)
    pose proof (c_empty _ _ _ _ IC _ _ _ _ _ H) as Em. assert (pg = empty_page) by congruence. subst pg.
    pose proof (i_p _ _ _ _ _ I t) as Pk. rewrite H in Pk. destruct Pk as [Hb Pk].
    destruct (append_empty c Hp (Ment (Some e) b k)) as (pe & P1 & P2 & P3).
    { unfold fits, key_fits, entry_size in *. exact Pk. }
    rewrite P1. split; [|congruence]. apply Keep.
    + intros p pg0 G0. cbn. destruct (Nat.eq_dec p nt) as [->|].
      * rewrite upd_same. exists pe. split; auto. replace pg0 with empty_page by congruence. intros ? [].
      * rewrite upd_other by auto. exists pg0. split; [exact G0 | apply incl_refl].
    + intros b0 Hb0; right; left; exists b0; split; [exact Hb0 | reflexivity].
    + eapply (Pend t); [intros b0 Hb0; right; left; exists b0; split; [exact Hb0 | reflexivity] | reflexivity |].
      intros y Hy. rewrite H in Hy. inversion Hy; subst y. left. exists nt, pe. cbn. rewrite upd_same. split; auto.
      right. exists (Ment (Some e) b k). split; auto. rewrite P3. now left.
Qed.
Print Assumptions C24_step_owns.

(** An allocation aborts only when no extent is available. *)
Theorem C24_abort_only_full : forall c head s t ch, 0 < m_ppe c -> mreach c head s ->
  mini_step c s t ch = MAbort -> ch = CExt None.
Proof.
  intros c head s t ch Hp R A. destruct (reach_inv c head Hp s R) as (pre & O & I). pose proof (i_c _ _ _ _ _ I) as IC.
  assert (D : forall p, holds (ms_pcs s t) = Some p -> ms_pages s p <> None).
  { intros p H. apply (c_dom _ _ _ _ IC). apply (c_held _ _ _ _ IC t). auto. }
  assert (NX : forall s0 ch, new_extent s0 ch = XNoSpace -> ch = CExt None).
  { intros s0 ch0. unfold new_extent. destruct ch0 as [|[]|]; try discriminate; [|auto]. destruct (ms_refs s0 n =? 0)%N; discriminate. }
  unfold mini_step in A. destruct (ms_pcs s t) eqn:P; try discriminate.
  - destruct ch; try discriminate. destruct (b <? m_nb c); discriminate.
  - destruct na; [|discriminate]. destruct (ms_next_addr s b); [|discriminate]. destruct (n =? n0); discriminate.
  - destruct (new_extent s ch) eqn:X; try discriminate. now apply NX in X.
  - destruct (ms_wr s mt); discriminate.
  - destruct (ms_claim s mt); discriminate.
  - destruct (forallb (Nat.eqb t) (ms_rd s mt)); discriminate.
  - destruct (ms_pages s mt) eqn:G; [|exfalso; exact (D mt eq_refl G)]. destruct (append_entry c m _); [discriminate|].
    destruct (new_tail c s (ms_tail s) ch) eqn:X; try discriminate. unfold new_tail in X.
    destruct ((ms_tail s + 1) mod m_ppe c =? 0).
    + destruct (new_extent s ch) eqn:Y; try discriminate. now apply NX in Y.
    + destruct ch; discriminate.
  - destruct (ms_pages s nt) eqn:G; [discriminate | exfalso; exact (D nt eq_refl G)].
Qed.
Print Assumptions C24_abort_only_full.

(** While an extent is free, threads inside an allocation never all block: a
    thread that cannot move waits for another one that can.  A batch whose lock
    is taken is held by exactly one thread. *)
Definition can_step (c : mcfg) (s : mst) (t : nat) : Prop := exists ch s', key_fits c ch /\ mini_step c s t ch = MStep s'.

Theorem C24_no_deadlock : forall c head s t x, 0 < m_ppe c -> mreach c head s -> ms_refs s x = 0%N ->
  ms_pcs s t <> MOut -> can_step c s t \/ exists u, u <> t /\ ms_pcs s u <> MOut /\ can_step c s u.
Proof.
  intros c head s t x Hp R X Nt. destruct (reach_inv c head Hp s R) as (pre & O & I). pose proof (i_c _ _ _ _ _ I) as IC.
  pose proof (i_l _ _ _ _ _ I) as L.
  assert (D : forall u p, holds (ms_pcs s u) = Some p -> exists pg, ms_pages s p = Some pg).
  { intros u p H. assert (ms_pages s p <> None); [|destruct (ms_pages s p); [eauto | congruence]].
    apply (c_dom _ _ _ _ IC). apply (c_held _ _ _ _ IC u). auto. }
  assert (W : forall u p, writes (ms_pcs s u) = Some p -> can_step c s u).
  { intros u p Hw. pose proof (writes_claims _ _ Hw) as Hc. pose proof (claims_holds _ _ Hc) as Hh.
    destruct (D _ _ Hh) as [pg G]. unfold can_step, mini_step.
    destruct (ms_pcs s u) eqn:P; try discriminate; cbn in Hh; inversion Hh; subst p.
    - rewrite G. destruct (append_entry c pg (Ment (Some e) b k)).
      + exists CGo. eexists. split; [exact Logic.I | reflexivity].
      + unfold new_tail. destruct ((ms_tail s + 1) mod m_ppe c =? 0).
        * exists (CExt (Some x)). unfold new_extent. rewrite X. eexists. split; [exact Logic.I | reflexivity].
        * exists CGo. eexists. split; [exact Logic.I | reflexivity].
    - rewrite G. exists CGo. eexists. split; [exact Logic.I | reflexivity]. }
  destruct (ms_pcs s t) eqn:P; try congruence;
    try (left; exists CGo; unfold mini_step; rewrite P; eexists; split; [exact Logic.I | reflexivity]).
  - left. exists CGo. unfold mini_step. rewrite P. destruct na; [|eexists; split; [exact Logic.I | reflexivity]].
    destruct (ms_next_addr s b); [destruct (n =? n0)|]; (eexists; split; [exact Logic.I | reflexivity]).
  - left. exists (CExt (Some x)). unfold mini_step. rewrite P. unfold new_extent. rewrite X. eexists. split; [exact Logic.I | reflexivity].
  - destruct (ms_wr s mt) eqn:Wr.
    + right. apply (l_wr _ L) in Wr. destruct Wr as [u Hu]. exists u. split; [|split; [|eauto]].
      * intros ->. rewrite P in Hu. discriminate. * intro E. rewrite E in Hu. discriminate.
    + left. exists CGo. unfold mini_step. rewrite P, Wr. eexists. split; [exact Logic.I | reflexivity].
  - left. exists CGo. unfold mini_step. rewrite P. destruct (ms_claim s mt); (eexists; split; [exact Logic.I | reflexivity]).
  - destruct (forallb (Nat.eqb t) (ms_rd s mt)) eqn:F.
    + left. exists CGo. unfold mini_step. rewrite P, F. eexists. split; [exact Logic.I | reflexivity].
    + right. assert (exists u, In u (ms_rd s mt) /\ u <> t) as (u & Hu & Nu).
      { clear -F. induction (ms_rd s mt) as [|a l IH]; [discriminate|]. cbn in F. destruct (Nat.eqb_spec t a) as [->|].
        - destruct (IH F) as (u & Hu & Nu). exists u. split; [now right | exact Nu].
        - exists a. split; [now left | congruence]. }
      exists u. split; [exact Nu|]. apply (l_rd _ L) in Hu. split; [intro E; rewrite E in Hu; discriminate|].
      destruct (claims (ms_pcs s u)) eqn:Cu.
      * exfalso. pose proof (claims_holds _ _ Cu) as E. assert (n = mt) by congruence. subst n.
        apply Nu. apply (l_cu _ L u t mt); [exact Cu | now rewrite P].
      * unfold can_step, mini_step. exists CGo. destruct (ms_pcs s u) eqn:Pu; try discriminate.
        { eexists; split; [exact Logic.I | reflexivity]. }
        { destruct (ms_claim s mt0); (eexists; split; [exact Logic.I | reflexivity]). }
        { eexists; split; [exact Logic.I | reflexivity]. }
  - left. eapply W. rewrite P. reflexivity.
  - left. eapply W. rewrite P. reflexivity.
Qed.
Print Assumptions C24_no_deadlock.

Theorem C24_batch_lock : forall c head s b, 0 < m_ppe c -> mreach c head s ->
  (ms_next_addr s b = None <-> exists t, inb (ms_pcs s t) = Some b) /\
  (forall t u, inb (ms_pcs s t) = Some b -> inb (ms_pcs s u) = Some b -> t = u).
Proof.
  intros c head s b Hp R. destruct (reach_inv c head Hp s R) as (pre & O & I). split.
  - apply (b_lock _ _ _ (i_b _ _ _ _ _ I)).
  - intros. eapply (b_uni _ _ _ (i_b _ _ _ _ _ I)); eauto.
Qed.
Print Assumptions C24_batch_lock.

(** Dropping the last reference to an unkeyed allocator after a clean release:
    nothing aborts, every extent it held becomes free (each is decremented from
    its exact count, so none is freed twice), and no other count changes. *)
Theorem C24_reclaim : forall c head s ek chs, 0 < m_ppe c -> m_keyed c = false -> mreach c head s -> quiet s ->
  ms_refs s (head / m_ppe c) = 3%N ->
  exists s1 N, mini_release c ek s chs = Some s1 /\
    forall fuel, N <= fuel -> exists g, unkeyed_dec_ref fuel c (ms_pages s1) (ms_refs s1) head = Some (0%N, g) /\
      (forall x, owned c s x -> g x = 0%N) /\ (forall x, ~ owned c s x -> g x = ms_refs s x).
Proof.
  intros c head s ek chs Hp K R Q H3. destruct (reach_inv c head Hp s R) as (pre & O & I).
  pose proof (i_o _ _ _ _ _ I) as J.
  assert (Nx : forall i, i < m_nb c -> O (ms_next_ext s i) = ONext i) by (intros; apply (o_next _ _ _ _ _ J); auto).
  pose proof (head_meta c head _ _ (i_c _ _ _ _ _ I)) as HM. apply (o_meta _ _ _ _ _ J) in HM.
  destruct (free_nexts_ok c Hp (ms_next_ext s) (m_nb c) (ms_refs s) 0) as (g & G1 & G2 & G3).
  { intros i j Hi Hj E. eapply (next_inj c head s pre O); eauto; lia. }
  { intros i Hi. apply (o_refs _ _ _ _ _ J).
    - rewrite Nx by lia. discriminate.
    - intro E. specialize (Nx i ltac:(lia)). rewrite E in Nx. congruence. }
  destruct (dec_ref_ok c head Hp s pre O I) as [N HN].
  exists (st_refs s g), N. split.
  { unfold mini_release. rewrite release_unkeyed by auto. rewrite G1. reflexivity. }
  intros fuel Hf. cbn.
  assert (Gm : forall x, O x = OMeta \/ O x = ORec -> g x = ms_refs s x).
  { intros x Ox. apply G3. intros i Hi <-. rewrite Nx in Ox by lia. destruct Ox; discriminate. }
  destruct (HN fuel g Hf) as (h & A & B & D).
  { fold (hx c head) in H3. rewrite Gm by auto. exact H3. }
  { intros x Ox Nh. rewrite Gm by auto. apply (o_refs _ _ _ _ _ J); auto. destruct Ox; congruence. }
  exists h. split; [exact A|]. split.
  - intros x Hx. apply (owned_quiet c head s pre O x I Q) in Hx. destruct Hx as [Ox|[Ox|(i & Hi & <-)]]; auto.
    rewrite D; [apply G2; lia | |]; rewrite Nx by auto; discriminate.
  - intros x Hx. rewrite (owned_quiet c head s pre O x I Q) in Hx.
    rewrite D by tauto. apply G3. intros i Hi E. apply Hx. right; right. exists i. split; [lia | exact E].
Qed.
Print Assumptions C24_reclaim.

(** While other references remain, dropping one only counts. *)
Theorem C24_shared : forall c head s fuel, 0 < m_ppe c -> m_keyed c = false -> mreach c head s ->
  let r := ms_refs s (head / m_ppe c) in
  (3 < r -> unkeyed_dec_ref fuel c (ms_pages s) (ms_refs s) head =
     Some (r - 3, upd (ms_refs s) (head / m_ppe c) (r - 1)))%N /\
  (r < 255 -> unkeyed_inc_ref c (ms_refs s) head =
     Some (r - 1, upd (ms_refs s) (head / m_ppe c) (r + 1)))%N.
Proof.
  intros c head s fuel Hp K R r. destruct (reach_inv c head Hp s R) as (pre & O & I).
  pose proof (i_o _ _ _ _ _ I) as J. pose proof (o_head _ _ _ _ _ J) as H. rewrite K in H. fold (hx c head) in *.
  pose proof (o_byte _ _ _ _ _ J (hx c head)) as B. fold r in H, B. split; intro Hr.
  - unfold unkeyed_dec_ref, dec8. fold (hx c head). fold r.
    assert (E : ((r + 255) mod 256 = r - 1)%N).
    { replace (r + 255)%N with ((r - 1) + 1 * 256)%N by lia. rewrite N.mod_add by lia. apply N.mod_small. lia. }
    rewrite E. destruct (N.eqb_spec (r - 1) 255); [lia|]. destruct (N.eqb_spec (r - 1) 2); [lia|].
    replace (r - 1 + 254)%N with ((r - 3) + 1 * 256)%N by lia. rewrite N.mod_add by lia. rewrite N.mod_small by lia. reflexivity.
  - unfold unkeyed_inc_ref, inc8. fold (hx c head). fold r. rewrite N.mod_small by lia.
    destruct (N.eqb_spec (r + 1) 1); [lia|]. destruct (N.eqb_spec (r + 1) 0); [lia|]. cbn [orb].
    destruct (N.ltb_spec 2 (r + 1)); [|lia]. replace (r + 1 - 2)%N with (r - 1)%N by lia. reflexivity.
Qed.
Print Assumptions C24_shared.

(** Finding: dropping the last reference without the release leaks the reserve
    of every batch.  shard_log_zap (/repo/src/shard_log.c:128-139) does that. *)
Theorem C24_zap_leaks_refuted : forall c head s, 0 < m_ppe c -> m_keyed c = false -> mreach c head s -> quiet s ->
  ms_refs s (head / m_ppe c) = 3%N ->
  exists N, forall fuel, N <= fuel -> exists g, unkeyed_dec_ref fuel c (ms_pages s) (ms_refs s) head = Some (0%N, g) /\
    forall b, b < m_nb c -> owned c s (ms_next_ext s b) /\ g (ms_next_ext s b) = 2%N.
Proof.
  intros c head s Hp K R Q H3. destruct (reach_inv c head Hp s R) as (pre & O & I).
  pose proof (i_o _ _ _ _ _ I) as J.
  pose proof (head_meta c head _ _ (i_c _ _ _ _ _ I)) as HM. apply (o_meta _ _ _ _ _ J) in HM.
  destruct (dec_ref_ok c head Hp s pre O I) as [N HN]. exists N. intros fuel Hf.
  destruct (HN fuel (ms_refs s) Hf H3) as (h & A & B & D).
  { intros x Ox Nh. apply (o_refs _ _ _ _ _ J); auto. destruct Ox; congruence. }
  exists h. split; [exact A|]. intros b Hb.
  assert (Ob : O (ms_next_ext s b) = ONext b) by (apply (o_next _ _ _ _ _ J); auto).
  split; [right; left; eauto|]. rewrite D by congruence. apply (o_refs _ _ _ _ _ J); [congruence|].
  intro E. rewrite E in Ob. congruence.
Qed.
Print Assumptions C24_zap_leaks_refuted.

(** The release of a keyed allocator succeeds for some choice of extents
    (reserves are returned before a metadata extent is needed, so it needs no
    other free extent), closes every batch with a terminal entry after all
    recorded ones, and touches only reserves and new metadata extents. *)
Definition entries_of (s : mst) (p : nat) : list mentry := match ms_pages s p with Some pg => mp_entries pg | None => [] end.

Theorem C24_keyed_release : forall c head s ek, 0 < m_ppe c -> m_keyed c = true -> mreach c head s -> quiet s ->
  (32 + key_length ek <= m_ps c)%N ->
  (exists chs s1, mini_release c ek s chs = Some s1) /\
  forall chs s1, mini_release c ek s chs = Some s1 ->
    (exists C C', List.hd 0 C = head /\ List.hd 0 C' = head /\ linked (ms_pages s) C /\ linked (ms_pages s1) C' /\
       (forall p, ms_pages s1 p <> None <-> In p C') /\
       flat_map (entries_of s1) C' =
       flat_map (entries_of s) C ++ map (fun b => Ment None b ek) (seq 0 (m_nb c))) /\
    (forall x, (forall b, b < m_nb c -> ms_next_ext s b <> x) ->
       ms_refs s1 x = ms_refs s x \/ (ms_refs s x = 0%N /\ is_meta c s1 x)) /\
    (forall b, b < m_nb c -> ms_refs s1 (ms_next_ext s b) = 0%N \/ is_meta c s1 (ms_next_ext s b)).
Proof.
  intros c head s ek Hp K R Q F. destruct (reach_inv c head Hp s R) as (pre & O & I).
  pose proof (i_o _ _ _ _ _ I) as J. pose proof (i_c _ _ _ _ _ I) as IC.
  assert (Ft : m_keyed c = true -> fits c (Ment None 0 ek)).
  { intros _. unfold fits, entry_size. rewrite K. cbn [me_key]. lia. }
  pose proof (ob_act_ext c head _ _ _ _ _ _ (from0 c) (oinv_ob c head _ _ _ Q J)) as JB.
  split.
  - unfold mini_release. eapply (release_total c head Hp); eauto.
  - intros chs s1 HR. unfold mini_release in HR.
    destruct (release_inv c head Hp ek (m_nb c) s 0 chs s1 pre O _ HR eq_refl Ft Q IC JB) as (pre' & O' & C' & J' & R' & S').
    destruct (release_refs c Hp ek (m_nb c) s 0 chs s1 HR) as (A & B & _).
    split; [|split].
    + exists (pre ++ [ms_tail s]), (pre' ++ [ms_tail s1]). split; [apply IC|]. split; [apply C'|]. split; [apply IC|].
      split; [apply C'|]. split; [apply C'|]. unfold terminals in R'. rewrite K in R'. exact R'.
    + intros x Hx. apply A. intros i Hi. apply Hx. lia.
    + intros b Hb. apply B. lia.
Qed.
Print Assumptions C24_keyed_release.

(** Destroying an allocator that was created but not used returns everything. *)
Theorem C24_destroy_unused : forall c head refs chs s, 0 < m_ppe c -> m_keyed c = true ->
  (forall x, refs x < 256)%N -> refs 0 <> 0%N -> head / m_ppe c <> 0 -> refs (head / m_ppe c) = 2%N ->
  mini_init c refs head chs = Some s ->
  forall fuel, 2 <= fuel -> exists g, destroy_unused fuel c s head = Some g /\
    g (head / m_ppe c) = 0%N /\ (forall e, In e chs -> g e = 0%N) /\
    (forall x, x <> head / m_ppe c -> ~ In x chs -> g x = refs x).
Proof.
  intros c head refs chs s Hp K HB H0 Hh H2 H fuel Hf.
  destruct (inv_init c head Hp refs chs s HB H0 Hh H2 H) as [O I].
  assert (R : mreach c head s) by (eapply mr_init; eauto).
  pose proof (i_o _ _ _ _ _ I) as J. pose proof (i_c _ _ _ _ _ I) as IC.
  assert (Nx : forall i, i < m_nb c -> O (ms_next_ext s i) = ONext i) by (intros; apply (o_next _ _ _ _ _ J); auto).
  pose proof (head_meta c head _ _ IC) as HM. apply (o_meta _ _ _ _ _ J) in HM.
  assert (IB : forall chs s0 b s', init_batches c s0 b chs = Some s' ->
    b + length chs = m_nb c /\ (forall i, i < b -> ms_next_ext s' i = ms_next_ext s0 i) /\
    (forall i, i < length chs -> ms_next_ext s' (b + i) = nth i chs 0) /\
    (forall x, ~ In x chs -> ms_refs s' x = ms_refs s0 x)).
  { clear. induction chs as [|e chs IH]; intros s0 b s' H; cbn [init_batches] in H.
    - destruct (Nat.eqb_spec b (m_nb c)); [|discriminate]. inversion H; subst. cbn. repeat split; auto; intros; lia.
    - destruct (b <? m_nb c); [|discriminate]. unfold new_extent in H. destruct (ms_refs s0 e =? 0)%N; [|discriminate].
      apply IH in H. cbn in H. destruct H as (A & B & D & E). split; [cbn; lia|]. split; [|split].
      + intros i Hi. rewrite B by lia. apply upd_other. lia.
      + intros [|i] Hi; cbn in Hi.
        * rewrite Nat.add_0_r, B by lia. now rewrite upd_same.
        * replace (b + S i) with (S (b + i)) by lia. rewrite D by lia. reflexivity.
      + intros x Hx. cbn in Hx. rewrite E by tauto. apply upd_other. intros ->. tauto. }
  unfold mini_init in H. destruct ((8 <? m_nb c) || (m_nb c =? 0)); [discriminate|]. rewrite K in H.
  destruct (IB _ _ _ _ H) as (L & _ & N & E). cbn in L.
  assert (Tl : ms_tail s = head /\ ms_pages s head = Some empty_page).
  { assert (G : forall chs s0 b s', init_batches c s0 b chs = Some s' -> ms_tail s' = ms_tail s0 /\ ms_pages s' = ms_pages s0).
    { clear. induction chs as [|e chs IH]; intros s0 b s' H; cbn [init_batches] in H.
      - destruct (b =? m_nb c); [|discriminate]. inversion H; subst. auto.
      - destruct (b <? m_nb c); [|discriminate]. unfold new_extent in H. destruct (ms_refs s0 e =? 0)%N; [|discriminate].
        apply IH in H. exact H. }
    destruct (G _ _ _ _ H) as [A B]. cbn in A, B. split; [exact A|]. rewrite B. apply upd_same. }
  destruct Tl as [Tl Tp].
  unfold destroy_unused.
  destruct (free_nexts_ok c Hp (ms_next_ext s) (m_nb c) (ms_refs s) 0) as (g & G1 & G2 & G3).
  { intros i j Hi Hj Eq. eapply (next_inj c head s [] O); eauto; lia. }
  { intros i Hi. apply (o_refs _ _ _ _ _ J).
    - rewrite Nx by lia. discriminate.
    - intro Eq. specialize (Nx i ltac:(lia)). rewrite Eq in Nx. congruence. }
  rewrite G1. pose proof (c_link _ _ _ _ IC) as Lk. cbn [app] in Lk. rewrite Tl in Lk.
  assert (Mx : mext c [head] = [head / m_ppe c]) by reflexivity.
  assert (Hd2 : ms_refs s (head / m_ppe c) = 2%N) by (pose proof (o_head _ _ _ _ _ J) as X; rewrite K in X; exact X).
  destruct (deinit_ok c Hp (ms_pages s) [] head fuel g Lk ltac:(cbn; lia)) as (h & K1 & K2 & K3).
  { rewrite Mx. repeat constructor. intros []. }
  { rewrite Mx. intros [X|[]]. congruence. }
  { rewrite Mx. intros x [<-|[]]. rewrite G3; [exact Hd2|]. intros i Hi Eq. specialize (Nx i ltac:(lia)).
    unfold hx in HM. congruence. }
  rewrite Mx in *. exists h. split; [exact K1|]. split; [apply K2; now left|].
  assert (In_nx : forall e, In e chs -> exists i, i < m_nb c /\ ms_next_ext s i = e).
  { intros e He. apply (In_nth _ _ 0) in He. destruct He as (i & Hi & <-). exists i. split; [lia|]. apply N. exact Hi. }
  split.
  - intros e He. destruct (In_nx e He) as (i & Hi & <-). rewrite K3; [apply G2; lia|].
    intros [X|[]]. specialize (Nx i Hi). unfold hx in HM. congruence.
  - intros x Nh Nc. rewrite K3 by (intros [X|[]]; congruence). rewrite G3; [now apply E|].
    intros i Hi Eq. apply Nc. rewrite <- Eq. replace i with (0 + i) by lia. rewrite (N i) by lia. apply nth_In. lia.
Qed.
Print Assumptions C24_destroy_unused.

(** ** Concrete runs *)

(** A scheduler: [(t, o)] lets thread [t] take a step; [o] is the batch of the
    call it starts when it is outside.  Steps that cannot be taken are skipped;
    the smallest free extent below 60 is used. *)
Definition first_free (refs : nat -> N) : nat :=
  match find (fun x => N.eqb (refs x) 0) (seq 0 60) with Some x => x | None => 60 end.
Definition sched1 (c : mcfg) (k : key) (s : mst) (to : nat * option nat) : mst :=
  let '(t, o) := to in
  match (match o with Some b => mini_step c s t (CCall b k) | None => MBlocked end) with
  | MStep s' => s'
  | _ => match mini_step c s t CGo with
         | MStep s' => s'
         | _ => match mini_step c s t (CExt (Some (first_free (ms_refs s)))) with
                | MStep s' => s'
                | _ => s
                end
         end
  end.
Definition sched (c : mcfg) (k : key) (s : mst) (l : list (nat * option nat)) : mst := fold_left (sched1 c k) l s.

Lemma sched_reach : forall c head k l s, (32 + key_length k <= m_ps c)%N -> mreach c head s -> mreach c head (sched c k s l).
Proof.
  intros c head k l. induction l as [|[t o] l IH]; intros s K R; cbn; auto. apply IH; auto.
  assert (Kf : forall b, key_fits c (CCall b k)).
  { intro b. unfold key_fits, entry_size. cbn [me_key]. destruct (m_keyed c); lia. }
  destruct o as [b|].
  - destruct (mini_step c s t (CCall b k)) eqn:E; [| |eapply mr_step; eauto];
      (destruct (mini_step c s t CGo) eqn:E1; [| |eapply (mr_step c head s t CGo); cbn; eauto];
       (destruct (mini_step c s t (CExt (Some (first_free (ms_refs s))))) eqn:E2; auto;
        eapply (mr_step c head s t (CExt _)); cbn; eauto)).
  - destruct (mini_step c s t CGo) eqn:E1; [| |eapply (mr_step c head s t CGo); cbn; eauto];
       (destruct (mini_step c s t (CExt (Some (first_free (ms_refs s))))) eqn:E2; auto;
        eapply (mr_step c head s t (CExt _)); cbn; eauto).
Qed.

(** Two pages per extent, 44-byte pages (three unkeyed entries), two batches;
    three threads, two of them competing for batch 0. *)
Definition ex_cfg : mcfg := Mcfg 2 44%N false 2.
Definition ex_refs (x : nat) : N := if Nat.leb x 1 then 2%N else 0%N.
Definition ex_s0 : mst := match mini_init ex_cfg ex_refs 2 [2; 3] with Some s => s | None =>
  Mst ex_refs (fun _ => None) (fun _ => []) (fun _ => false) (fun _ => false) 0 (fun _ => None) (fun _ => 0) 0 (fun _ => MOut) [] end.
Definition ex_sched : list (nat * option nat) :=
  concat (repeat [(0, Some 0); (1, Some 0); (2, Some 1)] 150) ++ concat (repeat [(0, None); (1, None); (2, None)] 60).
Definition ex_s : mst := sched ex_cfg KNegInf ex_s0 ex_sched.

(** The run ends with 39 pages returned to three threads, 7 metadata pages in
    four extents, and every hypothesis of the theorems above. *)
Example ex_reachable : mreach ex_cfg 2 ex_s /\ quiet ex_s /\ ms_refs ex_s 1 = 3%N /\
  length (ms_ret ex_s) = 39 /\ In 46 (ms_ret ex_s) /\
  filter (fun p => match ms_pages ex_s p with Some _ => true | None => false end) (seq 0 60) = [2; 3; 22; 23; 36; 37; 50].
Proof.
  split; [|split; [|split; [|split; [|split]]]].
  - apply sched_reach; [vm_compute; discriminate|]. unfold ex_s0.
    destruct (mini_init ex_cfg ex_refs 2 [2; 3]) as [s|] eqn:E; [|vm_compute in E; discriminate].
    apply (mr_init ex_cfg 2 ex_refs [2; 3] s); try (vm_compute; discriminate); try exact E; try reflexivity.
    intro x. unfold ex_refs. destruct (x <=? 1); reflexivity.
  - intro t. do 3 (destruct t as [|t]; [vm_compute; reflexivity|]). vm_compute. reflexivity.
  - vm_compute. reflexivity.
  - vm_compute. reflexivity.
  - vm_compute. auto.
  - vm_compute. reflexivity.
Qed.

(** Release and drop of that state: every extent but the super block's is
    free again.  Without the release the two reserves stay allocated. *)
Example ex_reclaim :
  match mini_release ex_cfg KPosInf ex_s [] with
  | Some s1 => match unkeyed_dec_ref 10 ex_cfg (ms_pages s1) (ms_refs s1) 2 with
               | Some (r, g) => r = 0%N /\ filter (fun x => negb (N.eqb (g x) 0)) (seq 0 60) = [0]
               | None => False
               end
  | None => False
  end.
Proof. vm_compute. auto. Qed.

Example ex_zap_leaks :
  match unkeyed_dec_ref 10 ex_cfg (ms_pages ex_s) (ms_refs ex_s) 2 with
  | Some (r, g) => r = 0%N /\ filter (fun x => negb (N.eqb (g x) 0)) (seq 0 60) = [0; ms_next_ext ex_s 0; ms_next_ext ex_s 1]
  | None => False
  end.
Proof. vm_compute. auto. Qed.

(** A keyed allocator with 60-byte pages; its release writes the terminal
    entries, here into a new metadata page. *)
Definition exk_cfg : mcfg := Mcfg 2 60%N true 2.
Definition exk_s0 : mst := match mini_init exk_cfg ex_refs 2 [2; 3] with Some s => s | None => ex_s0 end.
Definition exk_s : mst := sched exk_cfg (KUser [7%N]) exk_s0
  (concat (repeat [(0, Some 0); (1, Some 1)] 40) ++ concat (repeat [(0, None); (1, None)] 40)).
Example exk_reachable : mreach exk_cfg 2 exk_s /\ quiet exk_s /\ length (ms_ret exk_s) = 10.
Proof.
  split; [|split].
  - apply sched_reach; [vm_compute; discriminate|]. unfold exk_s0.
    destruct (mini_init exk_cfg ex_refs 2 [2; 3]) as [s|] eqn:E; [|vm_compute in E; discriminate].
    apply (mr_init exk_cfg 2 ex_refs [2; 3] s); try (vm_compute; discriminate); try exact E; try reflexivity.
    intro x. unfold ex_refs. destruct (x <=? 1); reflexivity.
  - intro t. do 2 (destruct t as [|t]; [vm_compute; reflexivity|]). vm_compute. reflexivity.
  - vm_compute. reflexivity.
Qed.
Example exk_release :
  match mini_release exk_cfg KPosInf exk_s [CExt (Some (ms_next_ext exk_s 0)); CGo] with
  | Some s1 => map (fun p => map me_ext (entries_of s1 p)) [2; 3; 16] =
                 [[Some 2; Some 3; Some 4]; [Some 5; Some 6; Some 7]; [None; None]] /\ ms_tail s1 = 16
  | None => False
  end.
Proof. vm_compute. auto. Qed.

(** Destroying an allocator that was never used. *)
Example exk_destroy : match destroy_unused 2 exk_cfg exk_s0 2 with
  | Some g => filter (fun x => negb (N.eqb (g x) 0)) (seq 0 60) = [0]
  | None => False
  end.
Proof. vm_compute. reflexivity. Qed.
