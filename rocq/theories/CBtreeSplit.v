(** Splits keep the tree well formed. *)
From Coq Require Import List Arith Bool Lia Sorting.Sorted.
Import ListNotations.
From Verif Require Import CBtree CBtreeInv.
Local Open Scope nat_scope.

Lemma upd_same : forall A (f : nat -> A) a x, upd f a x a = x.
Proof. intros. unfold upd. rewrite Nat.eqb_refl. auto. Qed.
Lemma upd_other : forall A (f : nat -> A) a x b, b <> a -> upd f a x b = f b.
Proof. intros. unfold upd. apply Nat.eqb_neq in H. rewrite H. auto. Qed.

Lemma tree_more : forall ef G B m nx nx', tree ef G B m nx -> nx <= nx' -> tree ef G B m nx'.
Proof.
  intros ef G B m nx nx' T L. destruct T as [T1 T2 T3 T4 T5]. constructor; auto.
  intros a x H. specialize (T2 a x H). lia.
Qed.

(** Only what pages of the tree hold matters. *)
Lemma tree_ext : forall ef ef' G B m nx, tree ef G B m nx ->
  (forall a x, G a = Some x -> ef' a = ef a) -> tree ef' G B m nx.
Proof.
  intros ef ef' G B m nx T E. destruct T as [T1 T2 T3 T4 T5]. constructor; auto.
  intros a h lo hi H. rewrite (E _ _ H). auto.
Qed.

Lemma sorted_cut : forall q (es : list (nat * list nat)), StronglySorted lt (map fst es) ->
  StronglySorted lt (map fst (firstn q es)) /\ StronglySorted lt (map fst (skipn q es)) /\
  (forall x y, In x (map fst (firstn q es)) -> In y (map fst (skipn q es)) -> x < y).
Proof.
  intros q es S. rewrite <- (firstn_skipn q es), map_app in S. apply ss_app in S. exact S.
Qed.

Lemma in_cut : forall q (es : list (nat * list nat)) x, In x (map fst es) <->
  In x (map fst (firstn q es)) \/ In x (map fst (skipn q es)).
Proof.
  intros q es x. rewrite <- (firstn_skipn q es) at 1. rewrite map_app, in_app_iff. tauto.
Qed.

(** What the plan of a leaf split guarantees. *)
Lemma plan_facts : forall k q gl es b lo hi,
  StronglySorted lt (map fst es) -> (forall x, In x (map fst es) -> inr lo hi x /\ b <= x) ->
  inr lo hi k -> b <= k -> plan_ok k q gl es = true ->
  let pk := pivot k q gl es in
  (forall x, In x (map fst (firstn q es)) -> x < pk) /\
  (forall x, In x (map fst (skipn q es)) -> pk <= x) /\
  (gl = true -> k < pk) /\ (gl = false -> pk <= k) /\
  inr lo hi pk /\ (exists x, inr lo hi x /\ b <= x /\ x < pk).
Proof.
  intros k q gl es b lo hi S I R Bk P. cbv zeta. unfold plan_ok in P. unfold pivot.
  apply andb_prop in P. destruct P as [P Q]. apply Nat.leb_le in Q.
  destruct (sorted_cut q es S) as (S1 & S2 & S3).
  assert (J : forall x, In x (map fst (skipn q es)) -> inr lo hi x /\ b <= x).
  { intros x H. apply I. apply (in_cut q). auto. }
  destruct (skipn q es) as [|[r0 v0] r] eqn:E; destruct gl; try discriminate.
  - apply andb_prop in P. destruct P as [P1 P2]. apply Nat.ltb_lt in P1. rewrite forallb_forall in P2.
    assert (Fl : forall x, In x (map fst (firstn q es)) -> x < k).
    { intros x Hx. apply in_map_iff in Hx. destruct Hx as ([y v] & <- & Hy). apply Nat.ltb_lt. apply (P2 _ Hy). }
    split; [auto|]. split; [intros x []|]. split; [discriminate|]. split; [auto|]. split; [auto|].
    destruct es as [|[y v] es]; [cbn in Q; lia|]. exists y. destruct (I y) as [I1 I2]; [cbn; auto|]. repeat split; auto; try apply I1.
    apply Fl. destruct q; [lia|]. cbn. auto.
  - apply Nat.ltb_lt in P. assert (F2 : forall x, In x (map fst ((r0, v0) :: r)) -> r0 <= x).
    { intros x Hx. cbn in S2, Hx. inversion S2; subst. destruct Hx as [->|Hx]; auto.
      rewrite Forall_forall in *. specialize (H2 x Hx). lia. }
    split; [intros x Hx; apply S3; cbn; auto|]. split; [auto|]. split; [auto|]. split; [discriminate|].
    split; [apply J; cbn; auto|]. exists k. auto.
  - apply andb_prop in P. destruct P as [P1 P2]. apply Nat.ltb_lt in P1. rewrite forallb_forall in P2.
    assert (Fl : forall x, In x (map fst (firstn q es)) -> x < k).
    { intros x Hx. apply in_map_iff in Hx. destruct Hx as ([y v] & <- & Hy). apply Nat.ltb_lt. apply (P2 _ Hy). }
    assert (F2 : forall x, In x (map fst ((r0, v0) :: r)) -> r0 <= x).
    { intros x Hx. cbn in S2, Hx. inversion S2; subst. destruct Hx as [->|Hx]; auto.
      rewrite Forall_forall in *. specialize (H2 x Hx). lia. }
    assert (F1 : forall x, In x (map fst (firstn q es)) -> x < Nat.min k r0).
    { intros x Hx. specialize (Fl x Hx). assert (x < r0) by (apply S3; cbn; auto). lia. }
    destruct (J r0) as [J1 J2]; [cbn; auto|].
    split; [auto|]. split; [intros x Hx; specialize (F2 x Hx); lia|]. split; [discriminate|]. split; [intros _; lia|].
    split; [destruct (Nat.min_dec k r0) as [->| ->]; auto|].
    destruct es as [|[y v] es]; [cbn in Q; lia|]. exists y. destruct (I y) as [I1 I2]; [cbn; auto|]. repeat split; auto; try apply I1.
    apply F1. destruct q; [lia|]. cbn. auto.
Qed.

Lemma hd_left : forall k q gl es lo hi pk v, hd_ok lo hi es -> inr lo hi k -> plan_ok k q gl es = true ->
  hd_ok lo (Some pk) (if gl then setk k v (firstn q es) else firstn q es).
Proof.
  intros k q gl es lo hi pk v H [R _] PL. unfold plan_ok in PL. apply andb_true_iff in PL. destruct PL as [PL Q].
  apply Nat.leb_le in Q. destruct gl.
  - destruct q as [|q].
    + cbn in PL |- *. destruct es as [|[r0 v0] es]; [discriminate|]. apply Nat.ltb_lt in PL. cbn in H. destruct lo as [x|]; auto.
      cbn in R. lia.
    + destruct es as [|[r0 v0] es]; [cbn in Q; lia|]. cbn [firstn]. apply (hd_setk _ hi); auto.
  - assert (0 < q).
    { destruct (skipn q es) as [|[? ?] ?]; apply andb_true_iff in PL; destruct PL as [PL _]; apply Nat.ltb_lt in PL; auto. }
    destruct q as [|q]; [lia|]. destruct es as [|[r0 v0] es]; [cbn in Q; lia|]. cbn in *. auto.
Qed.
Lemma hd_right : forall k q gl es (lo : option nat) hi v, plan_ok k q gl es = true ->
  hd_ok (Some (pivot k q gl es)) hi (if gl then skipn q es else setk k v (skipn q es)).
Proof.
  intros k q gl es lo hi v PL. unfold plan_ok in PL. unfold pivot. destruct (skipn q es) as [|[r0 v0] es']; destruct gl; cbn [hd_ok setk] in *; auto; try discriminate.
  destruct (k <? r0) eqn:E; cbn [hd_ok]; [apply Nat.ltb_lt in E; lia|]. apply Nat.ltb_ge in E.
  destruct (k =? r0) eqn:E2; cbn [hd_ok]; [apply Nat.eqb_eq in E2|]; lia.
Qed.

Section SPLIT.
Variables (ef : nat -> node) (G : ghost) (B : nat -> nat) (m : nat -> list nat) (nx : nat).
Hypothesis T : tree ef G B m nx.
Variables (p c rc h hp : nat) (plo phi lo hi : option nat) (l r : list (nat * nat)) (pc : nat).
Hypothesis Gp : G p = Some (hp, plo, phi).
Hypothesis Ep : ef p = Index hp (l ++ (pc, c) :: r).
Hypothesis Gc : G c = Some (h, lo, hi).
Hypothesis Grc : G rc = None.
Hypothesis RC : rc < nx.

Lemma p_ne_c : p <> c.
Proof.
  intros E. destruct (div_facts ef G B m nx T p c h hp plo phi lo hi l r pc Gp Ep Gc) as (h0 & E1 & E2 & _).
  rewrite E, Gc in Gp. injection Gp. lia.
Qed.

Lemma tree_split_index : forall h1 ps q pk x,
  ef c = Index h1 ps -> nth_error ps q = Some (pk, x) -> 0 < q ->
  tree (upd (upd (upd ef c (Index h1 (firstn q ps))) rc (Index h1 (skipn q ps))) p
            (Index hp (insert_at (S (length l)) (pk, rc) (l ++ (pc, c) :: r))))
       (Gd G c rc h lo hi pk) (Bd B rc pk) m nx.
Proof.
  intros h1 ps q pk x Ec Nq Q.
  destruct (node_ok_index _ _ _ _ _ T _ _ _ _ _ _ Gc Ec) as (h0 & Eh & Eh1 & NE & S & I & K).
  assert (Eps : ps = firstn q ps ++ (pk, x) :: skipn (Datatypes.S q) ps).
  { rewrite <- (firstn_skipn q ps) at 1. f_equal.
    clear -Nq. revert q Nq. induction ps as [|a ps IH]; intros [|q] H; try discriminate; cbn in *.
    - congruence.
    - apply IH; auto. }
  assert (Esk : skipn q ps = (pk, x) :: skipn (Datatypes.S q) ps).
  { clear -Nq. revert q Nq. induction ps as [|a ps IH]; intros [|q] H; try discriminate; cbn in *.
    - congruence.
    - apply IH; auto. }
  set (L := firstn q ps) in *. set (Rr := skipn (Datatypes.S q) ps) in *.
  assert (LN : L <> []).
  { unfold L. destruct q; [lia|]. destruct ps; [congruence|]. cbn. congruence. }
  rewrite Eps in S, I, K. rewrite map_app in S. cbn [map fst] in S. apply ss_app in S. destruct S as (S1 & S2 & S3).
  destruct L as [|[p0 c0] L'] eqn:EL; [congruence|].
  assert (P0 : p0 < pk) by (apply S3; cbn; auto).
  assert (I0 : inr lo hi p0 /\ B c <= p0) by (apply I; cbn; auto).
  assert (Ipk : inr lo hi pk /\ B c <= pk) by (apply I; rewrite map_app, in_app_iff; cbn; auto).
  assert (Low : exists y, inr lo hi y /\ B c <= y /\ y < pk) by (exists p0; tauto).
  assert (NC : forall d, In d (map snd ps) -> d <> c /\ d <> rc).
  { intros d Hd. destruct (node_ok_index _ _ _ _ _ T _ _ _ _ _ _ Gc Ec) as (h0' & Eh' & _ & _ & _ & _ & K').
    destruct (kids_in _ _ _ _ _ _ _ K' Hd) as (a & b & Gd). split; intros ->; [|congruence].
    rewrite Gc in Gd. injection Gd. lia. }
  apply (tree_divide ef G B m nx T p c rc h hp plo phi lo hi l r pc pk Gp Ep Gc Grc RC); try tauto.
  intros a ha loa hia Ga.
  destruct (Nat.eq_dec a p) as [->|Np].
  { rewrite upd_same. rewrite Gd_o in Ga; [|apply p_ne_c|intros ->; congruence]. rewrite Gp in Ga. injection Ga as <- <- <-.
    apply (div_parent ef G B m nx T p c rc h hp plo phi lo hi l r pc pk Gp Ep Gc Grc RC); tauto. }
  rewrite upd_other by auto.
  destruct (Nat.eq_dec a rc) as [->|Nr].
  { rewrite upd_same. rewrite Gd_rc in Ga. injection Ga as <- <- <-. rewrite Bd_rc. rewrite Esk.
    exists h0. split; [auto|]. split; [auto|]. split; [congruence|]. split; [exact S2|]. split.
    - intros y Hy. split; [|apply (head_le Rr pk x); auto]. split; [cbn; apply (head_le Rr pk x); auto|].
      apply I. rewrite map_app, in_app_iff. auto.
    - apply kids_app in K. destruct K as [_ K]. eapply kids_ext; [|exact K].
      intros d Hd. destruct (NC d) as [N1 N2]; [rewrite Eps, map_app, in_app_iff; auto|].
      split; [apply Gd_o; auto|apply Bd_o; auto]. }
  rewrite upd_other by auto.
  destruct (Nat.eq_dec a c) as [->|Nc].
  { rewrite upd_same. rewrite (Gd_c G c rc h lo hi pk Gc Grc) in Ga. injection Ga as <- <- <-. rewrite Bd_o by auto.
    exists h0. split; [auto|]. split; [auto|]. split; [auto|]. split; [auto|]. split.
    - intros y Hy. destruct (I y) as [[Y1 Y2] Y3]; [rewrite map_app, in_app_iff; auto|].
      split; auto. split; auto. cbn. apply S3; cbn; auto.
    - apply kids_app in K. destruct K as [K _]. eapply kids_ext; [|exact K].
      intros d Hd. destruct (NC d) as [N1 N2]; [rewrite Eps, map_app, in_app_iff; auto|].
      split; [apply Gd_o; auto|apply Bd_o; auto]. }
  rewrite upd_other by auto. rewrite Gd_o in Ga by auto.
  destruct (ef a) as [es pv n|h2 ps2] eqn:Ea.
  - pose proof (t_ok _ _ _ _ _ T _ _ _ _ Ga) as O. rewrite Ea in O. cbn in O |- *. rewrite Bd_o by auto.
    destruct O as (-> & O1 & O2 & O3 & O4 & O5 & O6). split; [auto|]. split; [auto|]. split; [auto|]. split; [auto|].
    split; [|split; [|exact O6]].
    + destruct n as [b|], hia as [y|]; cbn in *; auto. destruct O4 as (hb & Gb). exists hb. rewrite Gd_o; auto; intros ->; [|congruence].
      rewrite Gc in Gb. injection Gb. lia.
    + destruct pv as [b|], loa as [y|]; cbn in *; auto. destruct O5 as (hb & Gb). exists hb. rewrite Gd_o; auto; intros ->; [|congruence].
      rewrite Gc in Gb. injection Gb. lia.
  - rewrite <- Ea. eapply (div_index ef G B m nx T p c rc h hp plo phi lo hi l r pc); eauto.
Qed.

Definition split_leaf_ef (k v q : nat) (gl : bool) (sp : list nat) (pk : nat) (n : option nat) : nat -> node :=
  fun a => if a =? p then Index hp (insert_at (S (length l)) (pk, rc) (l ++ (pc, c) :: r))
           else if a =? c then left_leaf k v q gl sp rc (ef c)
           else if a =? rc then right_leaf k v q gl sp c (ef c)
           else match n with Some n => if a =? n then with_prev rc (ef n) else ef a | None => ef a end.

Lemma tree_split_leaf : forall es pv n k v q gl m',
  ef c = Leaf es pv n -> inr lo hi k -> B c <= k -> plan_ok k q gl es = true ->
  m' k = getk k es ++ [v] -> (forall x, x <> k -> m' x = m x) ->
  tree (split_leaf_ef k v q gl (getk k es) (pivot k q gl es) n)
       (Gd G c rc h lo hi (pivot k q gl es)) (Bd B rc (pivot k q gl es)) m' nx.
Proof.
  intros es pv n k v q gl m' Ec R Bk PL M1 M2.
  destruct (node_ok_leaf _ _ _ _ _ T _ _ _ _ _ _ _ Gc Ec) as (Eh & S & I & V & N & P & HD).
  destruct (plan_facts k q gl es (B c) lo hi S I R Bk PL) as (F1 & F2 & F3 & F4 & F5 & F6).
  set (pk := pivot k q gl es) in *.
  destruct (sorted_cut q es S) as (S1 & S2 & S3).
  assert (NCR : c <> rc) by (intros ->; congruence).
  pose proof p_ne_c as NPC. assert (NPR : p <> rc) by (intros ->; congruence).
  assert (val : forall x, inr lo hi x -> getk x es = m x) by auto.
  assert (out : forall a ha loa hia x, G a = Some (ha, loa, hia) -> ha = 0 -> a <> c -> inr loa hia x -> m' x = m x).
  { intros a ha loa hia x Ga E0 Na Rx. apply M2. intros ->. apply Na. subst ha h. eapply (t_uniq _ _ _ _ _ T a c); eauto. }
  apply (tree_divide ef G B m nx T p c rc h hp plo phi lo hi l r pc pk Gp Ep Gc Grc RC); auto.
  intros a ha loa hia Ga. unfold split_leaf_ef.
  destruct (a =? p) eqn:Eap.
  { apply Nat.eqb_eq in Eap. subst a. rewrite Gd_o in Ga by auto. rewrite Gp in Ga. injection Ga as <- <- <-.
    exact (div_parent ef G B m nx T p c rc h hp plo phi lo hi l r pc pk Gp Ep Gc Grc RC F5 F6). }
  destruct (a =? c) eqn:Eac.
  { apply Nat.eqb_eq in Eac. subst a. rewrite (Gd_c G c rc h lo hi pk Gc Grc) in Ga. injection Ga as <- <- <-. rewrite Bd_o by auto.
    rewrite Ec. unfold left_leaf. cbn [entries prevp node_ok]. subst h.
    split; [auto|]. split; [destruct gl; [apply setk_sorted|]; auto|].
    split; [|split; [|split; [|split; [|apply (hd_left k q gl es lo hi pk); auto]]]].
    - intros x Hx. assert (H : x = k /\ gl = true \/ In x (map fst (firstn q es))).
      { destruct gl; auto. apply in_setk in Hx. tauto. }
      destruct H as [[-> ->]|H].
      + split; auto. split; [apply R|cbn; auto].
      + destruct (I x) as [[I1 I2] I3]; [apply (in_cut q); auto|]. split; auto. split; auto. cbn. auto.
    - intros x [X1 X2]. cbn in X2.
      assert (Rx : inr lo hi x).
      { split; auto. destruct F5 as [_ F5]. destruct hi; cbn in *; auto. lia. }
      assert (Eg : getk x (firstn q es) = getk x es).
      { rewrite <- (firstn_skipn q es) at 2. symmetry. apply getk_app_l. intros y Hy. specialize (F2 y Hy). lia. }
      destruct gl.
      + rewrite getk_setk by auto. destruct (x =? k) eqn:Ex.
        * apply Nat.eqb_eq in Ex. subst x. auto.
        * apply Nat.eqb_neq in Ex. rewrite M2, Eg; auto.
      + rewrite Eg. rewrite M2; auto. specialize (F4 eq_refl). lia.
    - cbn. exists hi. apply Gd_rc.
    - destruct pv as [b|], lo as [y|]; cbn in *; auto. destruct P as (lb & Gb). exists lb. rewrite Gd_o; auto; intros ->; [|congruence].
      assert (Eq : hi = Some y) by congruence. destruct F5 as [Q1 Q2]. rewrite Eq in Q2. cbn in *. lia. }
  destruct (a =? rc) eqn:Ear.
  { apply Nat.eqb_eq in Ear. subst a. rewrite Gd_rc in Ga. injection Ga as <- <- <-. rewrite Bd_rc.
    rewrite Ec. unfold right_leaf. cbn [entries nextp node_ok]. subst h.
    split; [auto|]. split; [destruct gl; [|apply setk_sorted]; auto|].
    split; [|split; [|split; [|split; [|apply (hd_right k q gl es lo hi); auto]]]].
    - intros x Hx. assert (H : x = k /\ gl = false \/ In x (map fst (skipn q es))).
      { destruct gl; auto. apply in_setk in Hx. tauto. }
      destruct H as [[-> ->]|H].
      + split; auto. split; [cbn; auto|apply R].
      + destruct (I x) as [[I1 I2] I3]; [apply (in_cut q); auto|]. split; auto. split; auto. cbn. auto.
    - intros x [X1 X2]. cbn in X1.
      assert (Rx : inr lo hi x).
      { split; auto. destruct F5 as [F5 _]. destruct lo; cbn in *; auto. lia. }
      assert (Eg : getk x (skipn q es) = getk x es).
      { rewrite <- (firstn_skipn q es) at 2. symmetry. apply getk_app. intros y Hy. specialize (F1 y Hy). lia. }
      destruct gl.
      + rewrite Eg. rewrite M2; auto. specialize (F3 eq_refl). lia.
      + rewrite getk_setk by auto. destruct (x =? k) eqn:Ex.
        * apply Nat.eqb_eq in Ex. subst x. auto.
        * apply Nat.eqb_neq in Ex. rewrite M2, Eg; auto.
    - destruct n as [b|], hi as [y|]; cbn in *; auto. destruct N as (hb & Gb). exists hb. rewrite Gd_o; auto; intros ->; [|congruence].
      assert (Eq : lo = Some y) by congruence. destruct F5 as [Q1 Q2]. rewrite Eq in Q1. cbn in *. lia.
    - cbn. exists lo. apply (Gd_c G c rc 0 lo hi pk Gc Grc). }
  apply Nat.eqb_neq in Eap, Eac, Ear. rewrite Gd_o in Ga by auto.
  assert (leafcase : forall es' pv' n', ef a = Leaf es' pv' n' -> n <> Some a ->
            node_ok (Gd G c rc h lo hi pk) (Bd B rc pk) m' (Bd B rc pk a) ha loa hia (ef a)).
  { intros es' pv' n' Ea Nn. pose proof (t_ok _ _ _ _ _ T _ _ _ _ Ga) as O. rewrite Ea in *. cbn in O |- *. rewrite Bd_o by auto.
    destruct O as (E0 & O1 & O2 & O3 & O4 & O5 & O6). split; [auto|]. split; [auto|]. split; [auto|].
    split; [|split; [|split; [|exact O6]]].
    - intros x Rx. rewrite O3 by auto. symmetry. eapply out; eauto.
    - destruct n' as [b|], hia as [y|]; cbn in *; auto. destruct O4 as (hb & Gb).
      destruct (Nat.eq_dec b c) as [->|Nb].
      + rewrite Gc in Gb. exists (Some pk). rewrite (Gd_c G c rc h lo hi pk Gc Grc). congruence.
      + exists hb. rewrite Gd_o; auto. intros ->. congruence.
    - destruct pv' as [b|], loa as [y|]; cbn in *; auto. destruct O5 as (lb & Gb).
      destruct (Nat.eq_dec b c) as [->|Nb].
      + exfalso. assert (Eq : hi = Some y) by congruence. subst ha. rewrite Eq in N. unfold nxt_ok in N.
        destruct n as [n|]; [|tauto]. destruct N as (hn & Gn). apply Nn. f_equal.
        destruct (t_ne _ _ _ _ _ T _ _ _ _ Ga) as (z & Z1 & Z2). destruct (t_ne _ _ _ _ _ T _ _ _ _ Gn) as (z' & Z1' & Z2').
        eapply (t_uniq _ _ _ _ _ T n a 0 _ _ _ _ y); eauto.
        * split; [cbn; auto|]. destruct hn; cbn in *; auto. lia.
        * split; [cbn; auto|]. destruct hia; cbn in *; auto. lia.
      + exists lb. rewrite Gd_o; auto. intros ->. congruence. }
  assert (indexcase : forall h2 ps2, ef a = Index h2 ps2 ->
            node_ok (Gd G c rc h lo hi pk) (Bd B rc pk) m' (Bd B rc pk a) ha loa hia (ef a)).
  { intros h2 ps2 Ea. pose proof (div_index ef G B m nx T p c rc h hp plo phi lo hi l r pc pk Gp Ep Grc a ha loa hia h2 ps2 Eap Eac Ear Ga Ea) as O.
    rewrite Ea in *. exact O. }
  destruct n as [n|].
  - destruct (a =? n) eqn:Ean.
    + apply Nat.eqb_eq in Ean. subst n. cbn in N. destruct hi as [y|] eqn:Ehi; [|destruct N]. destruct N as (hn & Gn).
      rewrite Ga in Gn. injection Gn as -> -> ->.
      pose proof (t_ok _ _ _ _ _ T _ _ _ _ Ga) as O. destruct (ef a) as [es' pv' n'|h2 ps2] eqn:Ea; cbn in O |- *.
      * rewrite Bd_o by auto. destruct O as (E0 & O1 & O2 & O3 & O4 & O5 & O6). split; [auto|]. split; [auto|]. split; [auto|].
    split; [|split; [|split; [|exact O6]]].
        -- intros x Rx. rewrite O3 by auto. symmetry. eapply out; eauto.
        -- destruct n' as [b|], hn as [z|]; cbn in *; auto. destruct O4 as (hb & Gb).
           destruct (Nat.eq_dec b c) as [->|Nb].
           ++ rewrite Gc in Gb. exists (Some pk). rewrite (Gd_c G c rc h _ _ pk Gc Grc). congruence.
           ++ exists hb. rewrite Gd_o; auto. intros ->. congruence.
        -- exists (Some pk). rewrite Gd_rc. subst h. auto.
      * destruct O as (h0 & E0 & _). discriminate.
    + apply Nat.eqb_neq in Ean. destruct (ef a) as [es' pv' n'|h2 ps2] eqn:Ea.
      * eapply leafcase; eauto. congruence.
      * eapply indexcase; eauto.
  - destruct (ef a) as [es' pv' n'|h2 ps2] eqn:Ea.
    * eapply leafcase; eauto. congruence.
    * eapply indexcase; eauto.
Qed.
End SPLIT.
