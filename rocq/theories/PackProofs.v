(** * btree_pack keeps every tuple, in order, in a well-formed tree *)

From Coq Require Import List ZArith NArith Arith Bool Lia Sorting.Sorted.
From Verif Require Import Base Spec Spec_Range Codec Search SearchProofs DataProofs CountProofs Page PageProofs PageBytes Btree
  BtreeLeafProofs BtreeProofs BtreeMapProofs BtreeRunProofs BtreeFlatProofs Pack.
Import ListNotations.
Local Open Scope N_scope.

(** ** Exact stats *)
Definition kbytes (es : list lent) : N := fold_right (fun e n => blen (fst e) + n) 0 es.
Definition mbytes (es : list lent) : N := fold_right (fun e n => blen (m_data (snd e)) + n) 0 es.
Definition exact (es : list lent) : pstats := PStats (N.of_nat (length es)) (kbytes es) (mbytes es).
Definition bounded (es : list lent) : Prop :=
  N.of_nat (length es) < unknown_counter /\ kbytes es < unknown_counter /\ mbytes es < unknown_counter.

Lemma kbytes_app : forall a b, kbytes (a ++ b) = kbytes a + kbytes b.
Proof. induction a as [|e a IH]; intros b; cbn [app kbytes fold_right]; [reflexivity|]. fold (kbytes (a ++ b)) (kbytes a). rewrite IH. lia. Qed.
Lemma mbytes_app : forall a b, mbytes (a ++ b) = mbytes a + mbytes b.
Proof. induction a as [|e a IH]; intros b; cbn [app mbytes fold_right]; [reflexivity|]. fold (mbytes (a ++ b)) (mbytes a). rewrite IH. lia. Qed.
Lemma bounded_app : forall a b, bounded (a ++ b) -> bounded a /\ bounded b.
Proof. intros a b (A & B & C). unfold bounded. rewrite app_length, kbytes_app, mbytes_app in *. lia. Qed.

Lemma add_exact : forall a b, a + b < unknown_counter -> add_unknown a b = a + b.
Proof.
  intros a b H. unfold add_unknown. unfold unknown_counter in *.
  destruct (N.eqb_spec a 2147483647); [lia|]. destruct (N.eqb_spec b 2147483647); [lia|]. cbn [negb andb].
  apply N.mod_small. change (2 ^ 32) with 4294967296. lia.
Qed.
Lemma accumulate_exact : forall a b, bounded (a ++ b) -> accumulate (exact a) (exact b) = exact (a ++ b).
Proof.
  intros a b (A & B & C). unfold accumulate, exact. cbn [ps_kvs ps_kbytes ps_mbytes].
  rewrite app_length, kbytes_app, mbytes_app in *. rewrite !add_exact by lia. f_equal; lia.
Qed.
Lemma count_exact : forall a e, bounded (a ++ [e]) -> count_tuple (exact a) e = exact (a ++ [e]).
Proof.
  intros a e (A & B & C). unfold count_tuple, exact. cbn [ps_kvs ps_kbytes ps_mbytes].
  rewrite app_length, kbytes_app, mbytes_app in *. cbn [length kbytes mbytes fold_right] in *. unfold unknown_counter in *.
  rewrite !N.add_0_r in *. change (2 ^ 32) with 4294967296. rewrite !N.mod_small by lia. f_equal; lia.
Qed.

(** ** Lists *)
Lemma last_opt_snoc : forall A (l : list A) x, last_opt (l ++ [x]) = Some x.
Proof. intros A l x. unfold last_opt. now rewrite rev_app_distr. Qed.
Lemma set_last_snoc : forall A (l : list A) x y, set_last (l ++ [x]) y = l ++ [y].
Proof. intros A l x y. unfold set_last. now rewrite removelast_last. Qed.

Lemma Forall_one : forall A (Q : A -> Prop) x, Q x -> Forall Q [x].
Proof. intros. constructor; [assumption|constructor]. Qed.

(** Entries of a tree of height S h *)
Lemma entries_S : forall h (p : page (ient (tree h))),
  entries (S h) p = flat_map (fun e => entries h (ie_child e)) (pg_cont p).
Proof.
  intros h p. unfold entries. cbn [leaves]. induction (pg_cont p) as [|e es IH]; [reflexivity|].
  cbn [flat_map]. now rewrite flat_map_app, IH.
Qed.

Section Pack.
  Variable share : N -> bool.
  Variables P K M : N.
  Variables F maxh Ntot : nat.
  Hypothesis HF : N.of_nat F * (25 + K) + 37 <= P.
  Hypothesis HF2 : (2 <= F)%nat.
  Hypothesis HL : 45 + K + M <= P.
  Hypothesis HN : (Ntot <= F ^ (maxh - 1))%nat.

  Lemma HK2 : 87 + 2 * K <= P.
  Proof. clear HN HL. assert (2 * (25 + K) <= N.of_nat F * (25 + K)) by (apply N.mul_le_mono_r; lia). lia. Qed.

  Fixpoint good (h : nat) : tree h -> Prop :=
    match h with
    | O => fun l => page_ok lsz P (lf_page l) /\ pg_cont (lf_page l) <> [] /\ Forall (ent_ok K M) (pg_cont (lf_page l))
    | S h' => fun (p : page (ient (tree h'))) =>
        page_ok isz P p /\ pg_cont p <> [] /\ pg_next p + sum_sz isz (pg_cont p) = P /\
        Forall (fun e => key_fits K e /\ good h' (ie_child e) /\ first_key h' (ie_child e) = Some (ie_key e) /\
                         (bounded (entries h' (ie_child e)) -> ie_stats e = exact (entries h' (ie_child e)))) (pg_cont p)
    end.
  Definition kid_ok (h : nat) (e : ient (tree h)) : Prop :=
    key_fits K e /\ good h (ie_child e) /\ first_key h (ie_child e) = Some (ie_key e) /\
    (bounded (entries h (ie_child e)) -> ie_stats e = exact (entries h (ie_child e))).

  Lemma good_first : forall h t, good h t -> exists k m r, first_key h t = Some k /\ entries h t = (k, m) :: r /\ blen k <= K.
  Proof.
    induction h as [|h IH]; intros t H.
    - destruct H as (_ & Hne & Hf). unfold entries. cbn [leaves flat_map]. rewrite app_nil_r. cbn [first_key].
      destruct (pg_cont (lf_page t)) as [|[k m] r]; [congruence|]. exists k, m, r. cbn. inversion Hf as [|? ? [X _] _]; subst. auto.
    - destruct H as (_ & Hne & _ & Hf). cbn [first_key].
      rewrite (entries_S h t).
      destruct (pg_cont (t : page (ient (tree h)))) as [|e es]; [congruence|]. inversion Hf as [|? ? (X1 & X2 & X3 & _) _]; subst.
      destruct (IH _ X2) as (k & m & r & Y1 & Y2 & Y3). rewrite X3 in Y1. injection Y1 as <-.
      cbn [nth_error option_map flat_map]. rewrite Y2. cbn [app]. exists (ie_key e), m. eexists. split; [reflexivity|]. split; [reflexivity|exact Y3].
  Qed.

  Definition full (h : nat) (t : tree h) : Prop := (F ^ h <= length (entries h t))%nat.
  Definition kids (h : nat) : tree h -> Prop :=
    match h with
    | O => fun _ => True
    | S h' => fun (p : page (ient (tree h'))) => Forall (fun e => full h' (ie_child e)) (pg_cont p)
    end.
  Definition node_ok (h : nat) (n : tree h * pstats) : Prop :=
    good h (fst n) /\ (bounded (entries h (fst n)) -> snd n = exact (entries h (fst n))).

  Fixpoint sinv (h : nat) (s : stk h) : Prop :=
    match s with
    | SNil => True
    | SCons es r =>
        (exists i x, es = i ++ [x] /\ Forall (node_ok h) es /\ Forall (fun n => full h (fst n)) i /\
                     Forall (fun n => kids h (fst n)) es) /\ sinv (S h) r
    end.
  Definition winv (h : nat) (s : stk h) : Prop :=
    match s with
    | SNil => False
    | SCons es r =>
        (exists i x, es = i ++ [x] /\ Forall (node_ok h) es /\ Forall (fun n => full h (fst n)) i /\
                     Forall (fun n => kids h (fst n)) i) /\ sinv (S h) r
    end.
  Fixpoint sl (h : nat) (s : stk h) : list leaf :=
    match s with
    | SNil => []
    | SCons es r => sl (S h) r ++ flat_map (fun n => leaves h (fst n)) es
    end.
  Definition conts (ls : list leaf) : list lent := flat_map (fun l => pg_cont (lf_page l)) ls.
  Lemma conts_app : forall a b, conts (a ++ b) = conts a ++ conts b.
  Proof. intros. apply flat_map_app. Qed.
  Lemma conts_leaves : forall h t, conts (leaves h t) = entries h t.
  Proof. reflexivity. Qed.
  Lemma conts_nodes : forall h (es : list (tree h * pstats)),
    conts (flat_map (fun n => leaves h (fst n)) es) = flat_map (fun n => entries h (fst n)) es.
  Proof.
    intros h es. induction es as [|e es IH]; [reflexivity|]. cbn [flat_map]. rewrite conts_app, IH. reflexivity.
  Qed.

  Lemma sinv_winv : forall h es r, sinv h (SCons es r) -> winv h (SCons es r).
  Proof.
    intros h es r ((i & x & -> & H1 & H2 & H3) & Hr). split; [|exact Hr]. exists i, x. split; [reflexivity|]. split; [exact H1|].
    split; [exact H2|]. apply Forall_app in H3. apply H3.
  Qed.

  Lemma good_nonempty : forall h t, good h t -> (1 <= length (entries h t))%nat.
  Proof. clear HN HL HF HF2. intros h t H. destruct (good_first h t H) as (k & m & r & _ & -> & _). cbn. lia. Qed.

  (** A new index node *)
  Lemma new_index : forall h (e : ient (tree h)), kid_ok h e ->
    exists p : page (ient (tree h)), set_index_entry isz (pg_empty P) 0 e = PTrue p /\
      node_ok (S h) (p, accumulate zero_stats (ie_stats e)) /\ leaves (S h) p = leaves h (ie_child e) /\ pg_cont p = [e].
  Proof.
    clear HN HL. intros h e H. pose proof HK2 as HK2. assert (H37 : sizeof_btree_hdr <= P) by (unfold sizeof_btree_hdr; lia).
    pose proof H as (Hk & Hg & Hfk & Hst).
    destruct (set_index_end isz P (pg_empty P) e (pg_empty_ok _ _ H37)) as [[_ L]|(p & E & Ok & C & _ & Nx & _)].
    - exfalso. change (P < off_end 1 + isz e) in L. unfold key_fits in Hk.
      unfold off_end, sizeof_btree_hdr, isz, sizeof_index_entry in L. lia.
    - change (pg_cont p = [e]) in C. change (pg_next p = P - isz e) in Nx.
      exists p. split; [exact E|]. split; [|split; [|exact C]].
      + assert (Hle : isz e <= P) by (unfold isz, sizeof_index_entry, key_fits in *; lia).
        split; cbn [fst snd].
        * split; [exact Ok|]. rewrite C. split; [discriminate|]. split; [|repeat constructor; auto].
          rewrite Nx. change (sum_sz isz [e]) with (isz e + 0). lia.
        * rewrite (entries_S h p), C. cbn [flat_map]. rewrite app_nil_r. intros Hb. rewrite (Hst Hb).
          apply (accumulate_exact [] _ Hb).
      + rewrite (leaves_S h p), C. cbn [flat_map]. apply app_nil_r.
  Qed.

  (** Adding an entry to an index node *)
  Lemma add_index : forall h (p : page (ient (tree h))) st (e : ient (tree h)), node_ok (S h) (p, st) -> kid_ok h e ->
    (set_index_entry isz p (pg_num p) e = PFalse /\ (F <= length (pg_cont p))%nat) \/
    (exists p' : page (ient (tree h)), set_index_entry isz p (pg_num p) e = PTrue p' /\
       node_ok (S h) (p', accumulate st (ie_stats e)) /\ leaves (S h) p' = leaves (S h) p ++ leaves h (ie_child e) /\
       pg_cont p' = pg_cont p ++ [e]).
  Proof.
    clear HN HL. intros h p st e [Hg Hs] He. cbn [fst snd] in *. destruct Hg as (Ok & Hne & Hsum & Hf). pose proof He as (Hk & Hgc & Hfk & Hst).
    destruct (set_index_end isz P p e Ok) as [[E L]|(p' & E & Ok' & C & _ & Nx & Hroom)].
    - left. split; [exact E|]. rewrite <- cont_length in L.
      assert (Hb : forall es : list (ient (tree h)), Forall (key_fits K) es -> sum_sz isz es <= N.of_nat (length es) * (23 + K)).
      { induction es as [|x es IH]; intros Hx; [cbn; lia|]. inversion Hx; subst. rewrite sum_sz_cons. cbn [length].
        unfold key_fits in H1. change (isz x) with (23 + blen (ie_key x)). specialize (IH H2). lia. }
      assert (Hkf : Forall (key_fits K) (pg_cont p)) by (eapply Forall_impl; [|exact Hf]; intros x Hx; apply Hx).
      specialize (Hb _ Hkf). unfold off_end, sizeof_btree_hdr in L. unfold key_fits in Hk. change (isz e) with (23 + blen (ie_key e)) in L.
      destruct (Nat.le_gt_cases F (length (pg_cont p))) as [|Hlt]; [assumption|exfalso].
      assert ((N.of_nat (length (pg_cont p)) + 1) * (25 + K) <= N.of_nat F * (25 + K)) by (apply N.mul_le_mono_r; lia). lia.
    - right. exists p'. split; [exact E|]. split; [|split; [|exact C]].
      + split; cbn [fst snd].
        * split; [exact Ok'|]. rewrite C. split; [now destruct (pg_cont p)|]. split; [|apply Forall_app; split; [exact Hf|repeat constructor; auto]].
          rewrite Nx, sum_sz_app. change (sum_sz isz [e]) with (isz e + 0). unfold off_end in Hroom. lia.
        * rewrite (entries_S h p'), C, flat_map_app, <- (entries_S h p). cbn [flat_map]. rewrite app_nil_r. intros Hb.
          pose proof (bounded_app _ _ Hb) as [Hb1 Hb2]. rewrite (Hs Hb1), (Hst Hb2). now apply accumulate_exact.
      + rewrite !(leaves_S h), C. unfold lvs. rewrite flat_map_app. cbn [flat_map]. now rewrite app_nil_r.
  Qed.

  Lemma closed_full : forall h (p : page (ient (tree h))), kids (S h) p -> (F <= length (pg_cont p))%nat -> full (S h) p.
  Proof.
    clear HN HL HF. intros h p Hk Hn. unfold full. rewrite (entries_S h p). cbn [kids] in Hk.
    assert (X : forall es : list (ient (tree h)), Forall (fun e => full h (ie_child e)) es ->
              (length es * F ^ h <= length (flat_map (fun e => entries h (ie_child e)) es))%nat).
    { induction es as [|e es IH]; intros Hf; [cbn; lia|]. inversion Hf; subst. cbn [length flat_map]. rewrite app_length.
      specialize (IH H2). unfold full in H1. lia. }
    specialize (X _ Hk). cbn [Nat.pow]. eapply Nat.le_trans; [|exact X]. apply Nat.mul_le_mono_r. exact Hn.
  Qed.

  Definition push_ok (f h : nat) : Prop := forall s en e,
    sinv (S h) s -> kid_ok h e ->
    (length (conts (sl (S h) s)) + length (entries h (ie_child e)) <= Ntot)%nat ->
    exists s' en', push share P f h s en e = Some (s', en') /\ winv (S h) s' /\
      (full h (ie_child e) -> sinv (S h) s') /\ sl (S h) s' = sl (S h) s ++ leaves h (ie_child e) /\
      e_links en' = e_links en /\ e_fresh en <= e_fresh en'.

  Lemma node_kid : forall h t st, node_ok h (t, st) -> exists k, first_key h t = Some k /\ kid_ok h (IEnt k st t).
  Proof.
    intros h t st [Hg Hs]. cbn [fst snd] in *. destruct (good_first h t Hg) as (k & m & r & E1 & E2 & E3).
    exists k. split; [exact E1|]. split; [exact E3|]. cbn [ie_child ie_key ie_stats]. auto.
  Qed.

  Lemma link_ok : forall f h, push_ok f h -> forall es s en,
    sinv (S h) s -> Forall (node_ok h) es -> Forall (fun n => full h (fst n)) es ->
    (length (conts (sl (S h) s)) + length (flat_map (fun n => entries h (fst n)) es) <= Ntot)%nat ->
    exists s' en', link_all (push share P f h) s en es = Some (s', en') /\ sinv (S h) s' /\
      sl (S h) s' = sl (S h) s ++ flat_map (fun n => leaves h (fst n)) es /\
      e_links en' = e_links en /\ e_fresh en <= e_fresh en'.
  Proof.
    intros f h Hp. induction es as [|[t st] es IH]; intros s en Hs Hn Hfu Hle; cbn [link_all flat_map] in *.
    - exists s, en. rewrite app_nil_r. repeat split; auto. lia.
    - inversion Hn as [|? ? Hn1 Hn2]; subst. inversion Hfu as [|? ? Hf1 Hf2]; subst.
      destruct (node_kid h t st Hn1) as (k & -> & Hk). rewrite app_length in Hle. cbn [fst] in *.
      destruct (Hp s en (IEnt k st t) Hs Hk) as (s1 & en1 & E1 & W1 & S1 & L1 & K1 & G1); [cbn [ie_child]; lia|].
      rewrite E1. cbn [ie_child] in *.
      destruct (IH s1 en1 (S1 Hf1) Hn2 Hf2) as (s2 & en2 & E2 & S2 & L2 & K2 & G2).
      { rewrite L1, conts_app, app_length, conts_leaves. lia. }
      exists s2, en2. split; [exact E2|]. split; [exact S2|]. rewrite L2, L1, <- app_assoc. split; [reflexivity|].
      split; [congruence|]. lia.
  Qed.

  Lemma pow_lt : forall h, (F ^ h < Ntot)%nat -> (h < maxh - 1)%nat.
  Proof.
    intros h H. destruct (Nat.lt_ge_cases h (maxh - 1)) as [|Hge]; [assumption|exfalso].
    pose proof (Nat.pow_le_mono_r F (maxh - 1) h ltac:(lia) Hge). lia.
  Qed.

  Lemma push_spec : forall f h, (f + S h = maxh)%nat -> (1 <= f)%nat -> push_ok f h.
  Proof.
    induction f as [|f IH]; intros h Hm Hf; [lia|]. intros s en e Hs Hk Hle. cbn [push]. unfold alloc.
    destruct (new_index h e Hk) as (p0 & E0 & N0 & L0 & C0). rewrite E0. cbn [must].
    assert (Hkids0 : full h (ie_child e) -> kids (S h) p0) by (intros X; cbn [kids]; rewrite C0; apply Forall_one; exact X).
    destruct s as [|es r].
    - eexists _, _. split; [reflexivity|]. split; [|split; [|split; [|split; [reflexivity|cbn; lia]]]].
      + split; [|exact I]. exists [], (p0, accumulate zero_stats (ie_stats e)). repeat split; auto.
      + intros Hfull. split; [|exact I]. exists [], (p0, accumulate zero_stats (ie_stats e)). split; [reflexivity|].
        split; [apply Forall_one; exact N0|]. split; [constructor|]. apply Forall_one. cbn [fst]. auto.
      + cbn [sl flat_map fst app]. rewrite L0. apply app_nil_r.
    - destruct Hs as ((i & [p st] & -> & Hn & Hfu & Hki) & Hr). rewrite last_opt_snoc.
      pose proof Hn as Hn'. apply Forall_app in Hn'. destruct Hn' as [Hni Hnp]. apply Forall_inv in Hnp. rename Hnp into Hp.
      pose proof Hki as Hki'. apply Forall_app in Hki'. destruct Hki' as [Hkii Hkip]. apply Forall_inv in Hkip. rename Hkip into Hkp. cbn [fst] in Hkp.
      destruct (add_index h p st e Hp Hk) as [(E & Hlen)|(p' & E & N1 & L1 & C1)]; rewrite E.
      + pose proof (closed_full h p Hkp Hlen) as Hpfull.
        assert (Hall : Forall (fun n : tree (S h) * pstats => full (S h) (fst n)) (i ++ [(p, st)])).
        { apply Forall_app. split; [exact Hfu|]. apply Forall_one. exact Hpfull. }
        destruct (share (e_fresh en)).
        * eexists _, _. split; [reflexivity|]. split; [|split; [|split; [|split; [reflexivity|cbn; lia]]]].
          -- split; [|exact Hr]. eexists _, _. split; [reflexivity|]. split; [apply Forall_app; split; [exact Hn|]; apply Forall_one; exact N0|].
             split; [exact Hall|exact Hki].
          -- intros Hfull. split; [|exact Hr]. eexists _, _. split; [reflexivity|].
             split; [apply Forall_app; split; [exact Hn|]; apply Forall_one; exact N0|]. split; [exact Hall|].
             apply Forall_app. split; [exact Hki|]. apply Forall_one. cbn [fst]. auto.
          -- cbn [sl]. rewrite !flat_map_app. cbn [flat_map fst]. rewrite L0, !app_nil_r, <- !app_assoc. reflexivity.
        * assert (Hf1 : (1 <= f)%nat).
          { assert (F ^ S h < Ntot)%nat; [|pose proof (pow_lt (S h) H); lia].
            destruct Hk as (_ & Hgc & _). pose proof (good_nonempty h _ Hgc).
            cbn [sl] in Hle. rewrite conts_app, conts_nodes, flat_map_app, !app_length in Hle. cbn [flat_map fst] in Hle.
            rewrite app_nil_r in Hle. unfold full in Hpfull. lia. }
          destruct (link_ok f (S h) (IH (S h) ltac:(lia) Hf1) (i ++ [(p, st)]) r (Env (e_links en) (e_fresh en + 1)) Hr Hn Hall)
            as (r' & en2 & E2 & S2 & L2 & K2 & G2).
          { cbn [sl] in Hle. rewrite conts_app, conts_nodes, app_length in Hle. lia. }
          rewrite E2. cbn [e_links e_fresh] in *. eexists _, _. split; [reflexivity|]. split; [|split; [|split; [|split; [exact K2|lia]]]].
          -- split; [|exact S2]. exists [], (p0, accumulate zero_stats (ie_stats e)). split; [reflexivity|].
             split; [apply Forall_one; exact N0|]. split; constructor.
          -- intros Hfull. split; [|exact S2]. exists [], (p0, accumulate zero_stats (ie_stats e)). split; [reflexivity|].
             split; [apply Forall_one; exact N0|]. split; [constructor|]. apply Forall_one. cbn [fst]. auto.
          -- cbn [sl flat_map fst]. rewrite L2, L0, app_nil_r. reflexivity.
      + rewrite set_last_snoc. eexists _, _. split; [reflexivity|]. split; [|split; [|split; [|split; [reflexivity|lia]]]].
        * split; [|exact Hr]. eexists _, _. split; [reflexivity|]. split; [apply Forall_app; split; [exact Hni|]; apply Forall_one; exact N1|].
          split; [exact Hfu|exact Hkii].
        * intros Hfull. split; [|exact Hr]. eexists _, _. split; [reflexivity|].
          split; [apply Forall_app; split; [exact Hni|]; apply Forall_one; exact N1|]. split; [exact Hfu|].
          apply Forall_app. split; [exact Hkii|]. apply Forall_one. cbn [fst kids]. rewrite C1. apply Forall_app.
          split; [exact Hkp|]. apply Forall_one. exact Hfull.
        * cbn [sl]. rewrite !flat_map_app. cbn [flat_map fst]. rewrite L1, !app_nil_r, <- !app_assoc. reflexivity.
  Qed.

  Hypothesis Hmaxh : (1 <= maxh)%nat.

  (** ** Leaves *)
  Lemma leaf_nodes : forall es : list (tree 0 * pstats), flat_map (fun n => leaves 0 (fst n)) es = map fst es.
  Proof. induction es as [|e es IH]; [reflexivity|]. cbn [flat_map map]. rewrite IH. reflexivity. Qed.

  Lemma leaf_full : forall l : tree 0, good 0 l -> full 0 l.
  Proof. clear HN HL HF HF2. intros l H. pose proof (good_nonempty 0 l H). exact H0. Qed.

  Lemma entries_0 : forall l : leaf, entries 0 l = pg_cont (lf_page l).
  Proof. intros l. unfold entries. cbn [leaves flat_map]. apply app_nil_r. Qed.

  Lemma new_leaf_spec : forall a e, ent_ok K M e ->
    exists p, new_leaf P a e = Some (Leaf a p, count_tuple zero_stats e) /\
      node_ok 0 (Leaf a p, count_tuple zero_stats e) /\ pg_cont p = [e].
  Proof.
    clear HN HF HF2 Hmaxh. intros a e He. assert (H37 : sizeof_btree_hdr <= P) by (unfold sizeof_btree_hdr; lia).
    assert (Hl : lsz e <= 6 + K + M).
    { destruct He as [X1 X2]. unfold lsz, sizeof_ondisk_tuple, sizeof_ondisk_tuple_hdr. destruct e. cbn [fst snd] in *. lia. }
    unfold new_leaf.
    destruct (set_leaf_end lsz P (pg_empty P) e (pg_empty_ok _ _ H37)) as [[_ L]|(p & E & Ok & C & _)].
    - exfalso. change (P < off_end 1 + lsz e) in L. unfold off_end, sizeof_btree_hdr in L. lia.
    - change (pg_num (pg_empty P : page lent)) with 0%nat in E. change (pg_cont p = [e]) in C. rewrite E. cbn [must].
      exists p. split; [reflexivity|]. split; [|exact C]. split; cbn [fst snd].
      + split; [exact Ok|]. cbn [lf_page]. rewrite C. split; [discriminate|]. now apply Forall_one.
      + rewrite entries_0. cbn [lf_page]. rewrite C. intros Hb. exact (count_exact [] e Hb).
  Qed.

  Lemma add_leaf : forall (l : leaf) st e, node_ok 0 (l, st) -> ent_ok K M e ->
    set_leaf_entry lsz (lf_page l) (pg_num (lf_page l)) e = PFalse \/
    (exists p', set_leaf_entry lsz (lf_page l) (pg_num (lf_page l)) e = PTrue p' /\
       node_ok 0 (Leaf (lf_addr l) p', count_tuple st e) /\ pg_cont p' = pg_cont (lf_page l) ++ [e]).
  Proof.
    clear HN HF HF2 HL Hmaxh. intros l st e [Hg Hs] He. cbn [fst snd] in *. destruct Hg as (Ok & Hne & Hf).
    destruct (set_leaf_end lsz P (lf_page l) e Ok) as [[E _]|(p & E & Ok' & C & _)]; [left; exact E|right].
    exists p. split; [exact E|]. split; [|exact C]. split; cbn [fst snd].
    - split; [exact Ok'|]. cbn [lf_page]. rewrite C. split; [now destruct (pg_cont (lf_page l))|].
      apply Forall_app. split; [exact Hf|]. now apply Forall_one.
    - rewrite entries_0 in *. cbn [lf_page]. rewrite C. intros Hb. pose proof (bounded_app _ _ Hb) as [Hb1 _].
      rewrite (Hs Hb1). now apply count_exact.
  Qed.

  (** The chain of leaves *)
  Lemma chained_weaken : forall en en' l, chained en l -> e_links en' = e_links en -> e_fresh en <= e_fresh en' -> chained en' l.
  Proof.
    clear HN HL HF HF2 Hmaxh. intros en en' l (H1 & H2 & H3 & H4) E1 E2. split; [exact H1|].
    split; [intros a Ha; specialize (H2 a Ha); lia|]. split; [lia|]. intros X a Y E. rewrite E1. now apply H4.
  Qed.
  Lemma chained_first : forall en, chained en [] ->
    chained (Env (upd_link (e_links en) (e_fresh en) (0, 0)) (e_fresh en + 1)) [e_fresh en].
  Proof.
    clear HN HL HF HF2 Hmaxh. intros en (_ & _ & H3 & _). split; [repeat constructor; auto|]. cbn [e_fresh e_links].
    split; [intros a [<-|[]]; lia|]. split; [lia|]. intros X a Y E. destruct X as [|x [|? ?]]; [|discriminate|discriminate].
    injection E as <- <-. unfold upd_link. rewrite N.eqb_refl. reflexivity.
  Qed.
  Lemma chained_snoc : forall en X b, chained en (X ++ [b]) ->
    let a := e_fresh en in
    let l0 := upd_link (e_links en) a (0, 0) in
    let l1 := upd_link l0 b (fst (l0 b), a) in
    chained (Env (upd_link l1 a (b, snd (l1 a))) (a + 1)) ((X ++ [b]) ++ [a]).
  Proof.
    clear HN HL HF HF2 Hmaxh. intros en X b (Hnd & Hpos & Hfr & Hl) a l0 l1.
    assert (Hb : In b (X ++ [b])) by (apply in_or_app; right; now left).
    assert (Hfa : ~ In a (X ++ [b])) by (intros H; apply Hpos in H; unfold a in H; lia).
    assert (Hab : a <> b) by (intros ->; auto).
    split; [|split; [|split; [cbn; lia|]]]; cbn [e_fresh e_links].
    - apply (NoDup_Add (Add_app a (X ++ [b]) [])). rewrite app_nil_r. auto.
    - intros x Hx. apply in_app_or in Hx. destruct Hx as [Hx|[<-|[]]]; [apply Hpos in Hx; fold a in Hx; lia|]. unfold a. lia.
    - intros Z x Y E. unfold l1, l0, upd_link.
      destruct Y as [|y Y].
      + (* x is the new leaf *)
        apply app_inj_tail in E. destruct E as [<- <-]. rewrite N.eqb_refl. rewrite last_last.
        rewrite (proj2 (N.eqb_neq a b) Hab). reflexivity.
      + assert (Hy : y :: Y = removelast (y :: Y) ++ [last (y :: Y) 0]) by (apply app_removelast_last; discriminate).
        remember (removelast (y :: Y)) as Y1. remember (last (y :: Y) 0) as w. rewrite Hy in E.
        rewrite app_comm_cons, app_assoc in E. apply app_inj_tail in E. destruct E as [E <-].
        assert (Hxin : In x (X ++ [b])) by (rewrite E; apply in_elt).
        assert (Hxa : x <> a) by (intros ->; auto). rewrite (proj2 (N.eqb_neq x a) Hxa).
        rewrite Hy. destruct Y1 as [|y1 Y1].
        * apply app_inj_tail in E. destruct E as [<- <-]. rewrite N.eqb_refl.
          rewrite (proj2 (N.eqb_neq b a)) by congruence. rewrite (Hl X b [] eq_refl). reflexivity.
        * assert (Hxb : x <> b).
          { intros ->. assert (Hy1 : y1 :: Y1 = removelast (y1 :: Y1) ++ [last (y1 :: Y1) 0]) by (apply app_removelast_last; discriminate).
            rewrite Hy1, app_comm_cons, app_assoc in E. apply app_inj_tail in E. destruct E as [E _].
            rewrite E, <- app_assoc in Hnd. apply NoDup_remove_2 in Hnd. apply Hnd. apply in_or_app. right. apply in_or_app. right. now left. }
          rewrite (proj2 (N.eqb_neq x b) Hxb). exact (Hl Z x (y1 :: Y1) E).
  Qed.

  Definition pinv (s : stk 0) (en : env) : Prop := sinv 0 s /\ chained en (map lf_addr (sl 0 s)).

  Lemma pack_one_spec : forall s en e, pinv s en -> ent_ok K M e ->
    (S (length (conts (sl 0 s))) <= Ntot)%nat ->
    exists s' en', pack_one share P maxh s en e = Some (s', en') /\ pinv s' en' /\ conts (sl 0 s') = conts (sl 0 s) ++ [e].
  Proof.
    intros s en e [Hs Hc] He Hle. unfold pack_one, alloc.
    assert (exists f, maxh = S f) as [f Ef] by (destruct maxh; [lia|eauto]). rewrite Ef.
    destruct (new_leaf_spec (e_fresh en) e He) as (p0 & E0 & N0 & C0). rewrite E0.
    assert (Hcl : forall r, conts (r ++ flat_map (fun n : tree 0 * pstats => leaves 0 (fst n)) [((Leaf (e_fresh en) p0 : tree 0), count_tuple zero_stats e)]) = conts r ++ [e]).
    { intros r. rewrite conts_app. f_equal. cbn. rewrite C0. reflexivity. }
    destruct s as [|es r].
    - eexists _, _. split; [reflexivity|]. split; [|cbn [sl]; exact (Hcl [])]. split.
      + split; [|exact I]. exists [], ((Leaf (e_fresh en) p0 : tree 0), count_tuple zero_stats e). split; [reflexivity|].
        split; [apply Forall_one; exact N0|]. split; [constructor|]. apply Forall_one. exact I.
      + cbn [e_fresh e_links sl flat_map leaves fst app map]. exact (chained_first en Hc).
    - destruct Hs as ((i & [l st] & -> & Hn & Hfu & Hki) & Hr). rewrite last_opt_snoc.
      pose proof Hn as Hn'. apply Forall_app in Hn'. destruct Hn' as [Hni Hnp]. apply Forall_inv in Hnp.
      assert (Hkids : forall es : list (tree 0 * pstats), Forall (fun n => kids 0 (fst n)) es) by (intros es; apply Forall_forall; intros; exact I).
      destruct (add_leaf l st e Hnp He) as [E|(p' & E & N1 & C1)]; rewrite E.
      + assert (Hall : Forall (fun n : tree 0 * pstats => full 0 (fst n)) (i ++ [(l, st)])).
        { apply Forall_app. split; [exact Hfu|]. apply Forall_one. apply leaf_full. apply Hnp. }
        assert (Hc2 : chained en ((map lf_addr (sl 1 r) ++ map lf_addr (map fst i)) ++ [lf_addr l])).
        { cbn [sl] in Hc. rewrite leaf_nodes, !map_app in Hc. cbn [map fst] in Hc. rewrite <- app_assoc. exact Hc. }
        apply chained_snoc in Hc2. cbv zeta in Hc2. rewrite <- app_assoc in Hc2.
        cbn [e_fresh e_links] in *.
        remember (Env _ (e_fresh en + 1)) as en2 eqn:Een2 in Hc2.
        destruct (share (e_fresh en)).
        * eexists _, _. split; [reflexivity|]. split.
          -- split.
             ++ split; [|exact Hr]. eexists _, _. split; [reflexivity|].
                split; [apply Forall_app; split; [exact Hn|]; apply Forall_one; exact N0|]. split; [exact Hall|apply Hkids].
             ++ rewrite <- Een2. cbn [sl]. rewrite leaf_nodes, !map_app. cbn [map fst lf_addr].
                rewrite <- ?app_assoc in *. exact Hc2.
          -- cbn [sl]. rewrite flat_map_app, app_assoc. apply Hcl.
        * assert (Hf1 : (1 <= f)%nat).
          { assert (F ^ 0 < Ntot)%nat; [|pose proof (pow_lt 0 H); lia]. cbn [Nat.pow].
            destruct Hnp as [Hgl _]. pose proof (good_nonempty 0 _ Hgl) as Hg1. cbn [fst] in Hg1. clear - Hg1 Hle.
            cbn [sl] in Hle. rewrite conts_app, conts_nodes, flat_map_app, !app_length in Hle. cbn [flat_map fst] in Hle.
            rewrite app_nil_r in Hle. lia. }
          rewrite <- Een2.
          destruct (link_ok f 0 (push_spec f 0 ltac:(lia) Hf1) (i ++ [(l, st)]) r en2 Hr Hn Hall) as (r' & en3 & E3 & S3 & L3 & K3 & G3).
          { cbn [sl] in Hle. rewrite conts_app, conts_nodes, app_length in Hle. lia. }
          rewrite E3. eexists _, _. split; [reflexivity|]. split.
          -- split.
             ++ split; [|exact S3]. exists [], ((Leaf (e_fresh en) p0 : tree 0), count_tuple zero_stats e). split; [reflexivity|].
                split; [apply Forall_one; exact N0|]. split; [constructor|apply Hkids].
             ++ cbn [sl]. rewrite L3. apply (chained_weaken en2); [|exact K3|exact G3]. rewrite !leaf_nodes, !map_app.
                cbn [map fst lf_addr]. rewrite <- ?app_assoc in *. exact Hc2.
          -- cbn [sl]. rewrite L3. apply Hcl.
      + rewrite set_last_snoc. eexists _, _. split; [reflexivity|]. split; [split|].
        * split; [|exact Hr]. eexists _, _. split; [reflexivity|]. split; [apply Forall_app; split; [exact Hni|]; apply Forall_one; exact N1|].
          split; [exact Hfu|apply Hkids].
        * cbn [sl] in *. rewrite !leaf_nodes, !map_app in *. cbn [map fst lf_addr] in *. exact Hc.
        * cbn [sl]. rewrite !leaf_nodes, !map_app, !conts_app. cbn [map fst]. unfold conts at 3 6. cbn [flat_map lf_page].
          rewrite C1, !app_nil_r, <- !app_assoc. reflexivity.
  Qed.

  (** ** The end *)
  Lemma link_last : forall f h, push_ok f h -> forall i x s en,
    sinv (S h) s -> Forall (node_ok h) (i ++ [x]) -> Forall (fun n => full h (fst n)) i ->
    (length (conts (sl (S h) s)) + length (flat_map (fun n => entries h (fst n)) (i ++ [x])) <= Ntot)%nat ->
    exists s' en', link_all (push share P f h) s en (i ++ [x]) = Some (s', en') /\ winv (S h) s' /\
      sl (S h) s' = sl (S h) s ++ flat_map (fun n => leaves h (fst n)) (i ++ [x]) /\
      e_links en' = e_links en /\ e_fresh en <= e_fresh en'.
  Proof.
    intros f h Hp i [t st] s en Hs Hn Hfu Hle. rewrite flat_map_app, app_length in *. cbn [flat_map fst] in *. rewrite app_nil_r in *.
    apply Forall_app in Hn. destruct Hn as [Hni Hnx]. apply Forall_inv in Hnx.
    destruct (link_ok f h Hp i s en Hs Hni Hfu) as (s1 & en1 & E1 & S1 & L1 & K1 & G1); [lia|].
    assert (Happ : forall es1 s en, link_all (push share P f h) s en (es1 ++ [(t, st)]) =
              match link_all (push share P f h) s en es1 with
              | None => None
              | Some (s', en') => link_all (push share P f h) s' en' [(t, st)] end).
    { induction es1 as [|[u su] es1 IH]; intros s2 en2; [reflexivity|]. cbn [app link_all].
      destruct (first_key h u); [|reflexivity]. destruct (push share P f h s2 en2 _) as [[? ?]|]; [|reflexivity]. apply IH. }
    rewrite Happ, E1. cbn [link_all]. destruct (node_kid h t st Hnx) as (k & -> & Hk).
    destruct (Hp s1 en1 (IEnt k st t) S1 Hk) as (s2 & en2 & E2 & W2 & _ & L2 & K2 & G2).
    { cbn [ie_child]. rewrite L1, conts_app, conts_nodes, app_length. lia. }
    rewrite E2. exists s2, en2. split; [reflexivity|]. split; [exact W2|]. cbn [ie_child] in L2. rewrite L2, L1, <- app_assoc.
    split; [reflexivity|]. split; [congruence|lia].
  Qed.

  Lemma sinv_some : forall h (s : stk (S h)), sinv (S h) s -> s <> SNil -> (F ^ h <= length (conts (sl (S h) s)))%nat.
  Proof.
    clear HN HL HF HF2 Hmaxh.
    intros h s Hs Hne. destruct s as [|es r]; [congruence|]. destruct Hs as ((i & [p st] & -> & Hn & _ & Hk) & _).
    apply Forall_app in Hk. destruct Hk as [_ Hk]. apply Forall_inv in Hk. cbn [fst kids] in Hk.
    apply Forall_app in Hn. destruct Hn as [_ Hn]. apply Forall_inv in Hn. destruct Hn as [(_ & Hne' & _) _]. cbn [fst] in Hne'.
    cbn [sl]. rewrite conts_app, conts_nodes, flat_map_app, !app_length. cbn [flat_map fst]. rewrite app_nil_r.
    rewrite (entries_S h p). destruct (pg_cont (p : page (ient (tree h)))) as [|e es]; [congruence|].
    apply Forall_inv in Hk. unfold full in Hk. cbn [flat_map]. rewrite app_length. lia.
  Qed.

  Lemma collapse_spec : forall f h s en, (f + h = maxh)%nat -> (1 <= f)%nat -> winv h s ->
    (length (conts (sl h s)) <= Ntot)%nat ->
    exists h' t en', collapse share P f h s en = Some (existT tree h' t, en') /\ good h' t /\ leaves h' t = sl h s /\
      e_links en' = e_links en /\ e_fresh en <= e_fresh en'.
  Proof.
    induction f as [|f IH]; intros h s en Hm Hf Hw Hle; [lia|]. cbn [collapse].
    destruct s as [|es r]; [destruct Hw|]. destruct Hw as ((i & x & -> & Hn & Hfu & Hki) & Hr).
    assert (Hagain : i <> [] \/ r <> SNil ->
       exists h' t en', match link_all (push share P f h) r en (i ++ [x]) with
                        | Some (r', en') => collapse share P f (S h) r' en'
                        | None => None end = Some (existT tree h' t, en') /\ good h' t /\ leaves h' t = sl h (SCons (i ++ [x]) r) /\
      e_links en' = e_links en /\ e_fresh en <= e_fresh en').
    { intros Hor.
      assert (Hx1 : (1 <= length (entries h (fst x)))%nat).
      { apply good_nonempty. apply Forall_app in Hn. destruct Hn as [_ Hn]. apply Forall_inv in Hn. apply Hn. }
      assert (Hf1 : (1 <= f)%nat).
      { assert (F ^ h < Ntot)%nat; [|pose proof (pow_lt h H); lia].
        cbn [sl] in Hle. rewrite conts_app, conts_nodes, flat_map_app, !app_length in Hle. cbn [flat_map] in Hle. rewrite app_nil_r in Hle.
        destruct Hor as [Hor|Hor].
        - destruct i as [|y i]; [congruence|]. apply Forall_inv in Hfu. unfold full in Hfu. cbn [flat_map] in Hle. rewrite app_length in Hle. lia.
        - pose proof (sinv_some h r Hr Hor). lia. }
      destruct (link_last f h (push_spec f h ltac:(lia) Hf1) i x r en Hr Hn Hfu) as (r' & en2 & E2 & W2 & L2 & K2 & G2).
      { cbn [sl] in Hle. rewrite conts_app, conts_nodes, app_length in Hle. lia. }
      rewrite E2. destruct (IH (S h) r' en2 ltac:(lia) Hf1 W2) as (h' & t & en3 & E3 & G3 & L3 & K3 & Fr3).
      { rewrite L2. cbn [sl] in Hle. exact Hle. }
      exists h', t, en3. split; [exact E3|]. split; [exact G3|]. split; [rewrite L3; exact L2|]. split; [congruence|lia]. }
    destruct i as [|y i].
    - cbn [app] in *. destruct x as [t st]. destruct r as [|es2 r2].
      + exists h, t, en. split; [reflexivity|]. apply Forall_inv in Hn. destruct Hn as [Hg _]. split; [exact Hg|].
        cbn [sl flat_map fst app]. rewrite app_nil_r. repeat split; lia.
      + apply Hagain. right. discriminate.
    - cbn [app] in *. destruct y as [ty sy]. destruct (i ++ [x]) as [|z zs] eqn:Ez; [destruct i; discriminate|].
      apply Hagain. left. discriminate.
  Qed.

  (** ** The loop *)
  Definition tally (hash : option (bytes -> N)) (acc : packed) (es : list lent) : packed :=
    Packed None (pk_num acc + N.of_nat (length es)) (pk_kbytes acc + kbytes es) (pk_mbytes acc + mbytes es)
           (pk_fps acc ++ match hash with Some f => map (fun e => f (fst e)) es | None => [] end).

  Lemma loop_fits : forall max hash es s en acc, pinv s en -> Forall (ent_ok K M) es ->
    (length (conts (sl 0 s)) + length es <= Ntot)%nat ->
    pk_num acc + N.of_nat (length es) <= max -> pk_root acc = None ->
    exists s' en', pack_loop share P maxh max hash s en acc es = Some (PackOk (tally hash acc es), (s', en')) /\
      pinv s' en' /\ conts (sl 0 s') = conts (sl 0 s) ++ es.
  Proof.
    intros max hash es. induction es as [|e es IH]; intros s en acc Hp He Hle Hmax Hr; cbn [pack_loop].
    - exists s, en. split; [|split; [exact Hp|now rewrite app_nil_r]]. unfold tally. cbn [length kbytes mbytes fold_right map].
      destruct acc as [root n kb mb fps]. cbn [pk_root pk_num pk_kbytes pk_mbytes pk_fps] in *. subst root. rewrite !N.add_0_r.
      destruct hash; rewrite app_nil_r; reflexivity.
    - cbn [length] in *. destruct (N.ltb_spec (pk_num acc) max); [|lia]. inversion He as [|? ? He1 He2]; subst.
      destruct (pack_one_spec s en e Hp He1 ltac:(lia)) as (s1 & en1 & E1 & P1 & C1). rewrite E1.
      destruct (IH s1 en1 (Packed None (pk_num acc + 1) (pk_kbytes acc + blen (fst e)) (pk_mbytes acc + blen (m_data (snd e)))
                        (match hash with Some f => pk_fps acc ++ [f (fst e)] | None => pk_fps acc end)) P1 He2)
        as (s2 & en2 & E2 & P2 & C2); [rewrite C1, app_length; cbn [length]; lia|cbn [pk_num]; lia|reflexivity|].
      exists s2, en2. rewrite E2. split; [|split; [exact P2|rewrite C2, C1, <- app_assoc; reflexivity]].
      do 3 f_equal. unfold tally. cbn [pk_num pk_kbytes pk_mbytes pk_fps length kbytes mbytes fold_right map].
      fold (kbytes es) (mbytes es). f_equal; try lia. destruct hash; [|reflexivity]. now rewrite <- app_assoc.
  Qed.

  Lemma loop_exceeds : forall max hash es s en acc, pinv s en -> Forall (ent_ok K M) es ->
    N.of_nat (length (conts (sl 0 s))) = pk_num acc -> max <= N.of_nat Ntot -> pk_num acc <= max ->
    max < pk_num acc + N.of_nat (length es) ->
    exists r, pack_loop share P maxh max hash s en acc es = Some (PackLimitExceeded, r).
  Proof.
    intros max hash es. induction es as [|e es IH]; intros s en acc Hp He Hn HmN Hle Hmax; cbn [pack_loop]; cbn [length] in *; [lia|].
    destruct (N.ltb_spec (pk_num acc) max); [|eauto]. inversion He as [|? ? He1 He2]; subst.
    destruct (pack_one_spec s en e Hp He1 ltac:(lia)) as (s1 & en1 & E1 & P1 & C1). rewrite E1.
    apply IH; auto; cbn [pk_num]; rewrite ?C1, ?app_length; cbn [length]; lia.
  Qed.
End Pack.

(** ** Order: a good tree with ascending entries is a tree as built by inserts *)
Section Order.
  Variable ord : bytes -> bytes -> Z.
  Hypothesis TO : total_order ord.
  Variables P K M : N.

  Lemma good_inv : forall h t lo hi, good P K M h t -> ss ord (map fst (entries h t)) ->
    (forall e, In e (entries h t) -> kle ord lo (fst e) /\ below ord (fst e) hi) -> inv ord P K M h t lo hi.
  Proof.
    induction h as [|h IH]; intros t lo hi Hg Hs Hb.
    - destruct Hg as (H1 & H2 & H3). rewrite entries_0 in *. split; [exact H1|]. split; [exact H2|]. split; [exact Hs|]. split; [exact Hb|exact H3].
    - destruct Hg as (H1 & H2 & H3 & H4). split; [exact H1|]. split; [exact H2|].
      split; [eapply Forall_impl; [|exact H4]; intros x Hx; apply Hx|].
      rewrite (entries_S h t) in Hs, Hb. clear H1 H3.
      destruct (pg_cont (t : page (ient (tree h)))) as [|e es]; [congruence|]. clear H2. exists (ie_key e).
      assert (Hin : forall x, kid_ok P K M h x -> exists m, In (ie_key x, m) (entries h (ie_child x))).
      { intros x (_ & Y2 & Y3 & _). destruct (good_first P K M h _ Y2) as (k & m & r & Z1 & Z2 & _). rewrite Y3 in Z1.
        injection Z1 as <-. exists m. rewrite Z2. now left. }
      split.
      { destruct (Hin e (Forall_inv H4)) as [m Hm]. apply (Hb (ie_key e, m)). cbn [flat_map]. apply in_or_app. now left. }
      assert (Hb' : forall x, In x (flat_map (fun e => entries h (ie_child e)) (e :: es)) -> below ord (fst x) hi) by (intros x Hx; apply Hb, Hx).
      clear Hb lo. revert e Hs H4 Hb'. induction es as [|e2 es IHes]; intros e Hs H4 Hb'.
      + cbn [flat_map] in *. rewrite app_nil_r in *. cbn [seg]. exists hi. split; [reflexivity|].
        pose proof (Forall_inv H4) as Hk. destruct (Hin e Hk) as [m Hm].
        split; [exact (Hb' _ Hm)|]. split; [|reflexivity]. destruct Hk as (Y1 & Y2 & Y3 & _). apply IH; [exact Y2|exact Hs|].
        intros x Hx. split; [|now apply Hb'].
        destruct (good_first P K M h _ Y2) as (k & m' & r & Z1 & Z2 & _). rewrite Y3 in Z1. injection Z1 as <-.
        rewrite Z2 in *. cbn [map fst] in Hs. apply ss_cons in Hs. destruct Hs as [_ Hs].
        destruct Hx as [<-|Hx]; [apply (kle_refl ord TO)|]. apply (klt_kle ord TO). apply Hs. now apply in_map.
      + change (flat_map (fun e => entries h (ie_child e)) (e :: e2 :: es)) with
          (entries h (ie_child e) ++ flat_map (fun e => entries h (ie_child e)) (e2 :: es)) in *.
        rewrite map_app in Hs. apply ss_app in Hs. destruct Hs as (S1 & S2 & S3).
        inversion H4 as [|? ? Hk H4']; subst. destruct (Hin e2 (Forall_inv H4')) as [m2 Hm2]. destruct (Hin e Hk) as [m Hm].
        assert (Hm2' : In (ie_key e2) (map fst (flat_map (fun e => entries h (ie_child e)) (e2 :: es)))).
        { change (ie_key e2) with (fst (ie_key e2, m2)). apply in_map. cbn [flat_map]. apply in_or_app. now left. }
        cbn [seg]. exists (Some (ie_key e2)). split; [reflexivity|].
        split; [apply S3; [change (ie_key e) with (fst (ie_key e, m)); now apply in_map|exact Hm2']|]. split.
        * destruct Hk as (Y1 & Y2 & Y3 & _). apply IH; [exact Y2|exact S1|]. intros x Hx. split.
          -- destruct (good_first P K M h _ Y2) as (k & m' & r & Z1 & Z2 & _). rewrite Y3 in Z1. injection Z1 as <-.
             rewrite Z2 in *. cbn [map fst] in S1. apply ss_cons in S1. destruct S1 as [_ S1].
             destruct Hx as [<-|Hx]; [apply (kle_refl ord TO)|]. apply (klt_kle ord TO). apply S1. now apply in_map.
          -- cbn [below]. apply S3; [now apply in_map|exact Hm2'].
        * apply IHes; [exact S2|exact H4'|]. intros x Hx. apply Hb'. apply in_or_app. now right.
  Qed.

  Lemma root_ok : forall h t en, good P K M h t -> ss ord (map fst (entries h t)) ->
    chained en (map lf_addr (leaves h t)) -> 1 < e_fresh en ->
    bt_ok ord P K M (root_of h t en) /\ bt_entries (root_of h t en) = entries h t /\
    good P K M (bt_h (root_of h t en)) (bt_tree (root_of h t en)).
  Proof.
    intros [|h] t en Hg Hs Hc Hf.
    - destruct Hg as (H1 & H2 & H3). rewrite entries_0 in *. cbn [root_of bt_ok lf_page lf_addr bt_h bt_tree].
      split; [|split; [unfold bt_entries; cbn [bt_h bt_tree]; rewrite entries_0; reflexivity|split; [exact H1|split; [exact H2|exact H3]]]].
      split; [exact H1|]. split; [exact Hs|]. split; [exact H3|]. split; [intros; congruence|].
      destruct Hc as (_ & Hpos & _ & Hl). cbn [leaves map] in *.
      split; [repeat constructor; auto|]. cbn [e_fresh e_links]. split; [intros a [<-|[]]; lia|]. split; [lia|].
      intros X a Y E. destruct X as [|? [|? ?]]; [|discriminate|discriminate]. injection E as <- <-.
      unfold upd_link. rewrite N.eqb_refl. exact (Hl [] _ [] eq_refl).
    - cbn [root_of bt_ok bt_h bt_tree]. split; [|split; [reflexivity|exact Hg]]. split; [|exact Hc].
      destruct (good_first P K M (S h) t Hg) as (k & m & r & _ & Z2 & _). exists k. apply good_inv; [exact Hg|exact Hs|].
      intros e He. split; [|exact I]. rewrite Z2 in *. cbn [map fst] in Hs. apply ss_cons in Hs. destruct Hs as [_ Hs].
      destruct He as [<-|He]; [apply (kle_refl ord TO)|]. apply (klt_kle ord TO). apply Hs. now apply in_map.
  Qed.
End Order.
