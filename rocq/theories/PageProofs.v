(** * Proofs about slotted pages *)

From Coq Require Import List NArith Arith Bool Lia Permutation.
From Verif Require Import Base Page.
Import ListNotations.
Local Open Scope N_scope.

(** ** Lists *)

Lemma set_nth_length : forall A k (x : A) l, (k < length l)%nat -> length (set_nth k x l) = length l.
Proof. intros. unfold set_nth. rewrite app_length, firstn_length. cbn [length]. rewrite skipn_length. lia. Qed.
Lemma set_nth_end : forall A (x : A) l, set_nth (length l) x l = l ++ [x].
Proof. intros. unfold set_nth. rewrite firstn_all, skipn_all2 by lia. reflexivity. Qed.
Lemma set_nth_map : forall A B (f : A -> B) k x l, map f (set_nth k x l) = set_nth k (f x) (map f l).
Proof. intros. unfold set_nth. now rewrite map_app, firstn_map, map_cons, skipn_map. Qed.
Lemma insert_nth_map : forall A B (f : A -> B) k x l, map f (insert_nth k x l) = insert_nth k (f x) (map f l).
Proof. intros. unfold insert_nth. now rewrite map_app, firstn_map, map_cons, skipn_map. Qed.
Lemma insert_nth_length : forall A k (x : A) l, length (insert_nth k x l) = S (length l).
Proof.
  intros. unfold insert_nth. rewrite app_length. cbn [length]. rewrite firstn_length, skipn_length. lia.
Qed.
Lemma insert_nth_perm : forall A k (x : A) l, Permutation (insert_nth k x l) (x :: l).
Proof.
  intros. unfold insert_nth. rewrite <- (firstn_skipn k l) at 3. symmetry. apply Permutation_middle.
Qed.
Lemma nth_error_set_nth : forall A k (x : A) l i, (k <= length l)%nat ->
  nth_error (set_nth k x l) i = if Nat.eqb i k then Some x else nth_error l i.
Proof.
  intros A k x l i H. unfold set_nth.
  destruct (Nat.eqb_spec i k) as [->|Hn].
  - rewrite nth_error_app2; rewrite firstn_length_le by lia; [|lia]. now rewrite Nat.sub_diag.
  - destruct (Nat.lt_ge_cases i k).
    + rewrite nth_error_app1 by (rewrite firstn_length_le; lia).
      rewrite <- (firstn_skipn k l) at 2. rewrite nth_error_app1; [reflexivity|]. rewrite firstn_length_le; lia.
    + rewrite nth_error_app2; rewrite firstn_length_le by lia; [|lia].
      replace (i - k)%nat with (S (i - S k)) by lia. cbn [nth_error].
      destruct (Nat.le_gt_cases (length l) (S k)) as [Hl|Hl].
      * rewrite skipn_all2 by lia. transitivity (@None A); [destruct (i - S k)%nat; reflexivity|].
        symmetry. apply nth_error_None. lia.
      * rewrite <- (firstn_skipn (S k) l) at 2. rewrite (nth_error_app2 (firstn (S k) l)); rewrite firstn_length_le by lia; [|lia].
        reflexivity.
Qed.
Lemma in_set_nth : forall A k (x y : A) l, In y (set_nth k x l) -> y = x \/ In y l.
Proof.
  intros A k x y l H. unfold set_nth in H. apply in_app_or in H. destruct H as [H|[H|H]]; auto.
  - right. rewrite <- (firstn_skipn k l). apply in_or_app. auto.
  - right. rewrite <- (firstn_skipn (S k) l). apply in_or_app. auto.
Qed.
Lemma insert_nth_end : forall A (x : A) l, insert_nth (length l) x l = l ++ [x].
Proof. intros. unfold insert_nth. now rewrite firstn_all, skipn_all. Qed.
Lemma firstn_app_all : forall A (l : list A) x, firstn (length l) (l ++ x) = l.
Proof. intros. rewrite firstn_app, firstn_all, Nat.sub_diag. cbn. apply app_nil_r. Qed.
Lemma nth_error_app_len : forall A (l : list A) x, nth_error (l ++ [x]) (length l) = Some x.
Proof. intros. rewrite nth_error_app2 by lia. now rewrite Nat.sub_diag. Qed.

(** Sums of sizes *)
Definition sum_sz {E} (sz : E -> N) (es : list E) : N := fold_right (fun e a => sz e + a) 0 es.
Lemma sum_sz_app : forall E (sz : E -> N) a b, sum_sz sz (a ++ b) = sum_sz sz a + sum_sz sz b.
Proof. induction a; intros; [reflexivity|]. cbn [app]. unfold sum_sz in *. cbn [fold_right]. rewrite IHa. lia. Qed.
Lemma sum_sz_perm : forall E (sz : E -> N) a b, Permutation a b -> sum_sz sz a = sum_sz sz b.
Proof. induction 1; unfold sum_sz in *; cbn [fold_right]; lia. Qed.
Lemma sum_sz_cons : forall E (sz : E -> N) e es, sum_sz sz (e :: es) = sz e + sum_sz sz es.
Proof. reflexivity. Qed.
Lemma sum_sz_bound : forall E (sz : E -> N) m es, (forall e, In e es -> m <= sz e) -> m * N.of_nat (length es) <= sum_sz sz es.
Proof.
  induction es; intros H; cbn [length]; [cbn; lia|]. rewrite sum_sz_cons.
  pose proof (H a (or_introl eq_refl)). specialize (IHes (fun e He => H e (or_intror He))). lia.
Qed.

Section PageProofs.
  Context {E : Type}.
  Variable sz : E -> N.
  Variable P : N.
  Notation page_ok := (page_ok sz P).

  Definition pg_live (p : page E) : N := sum_sz sz (pg_cont p).

  Lemma cont_length : forall p : page E, length (pg_cont p) = pg_num p.
  Proof. intros. apply map_length. Qed.

  (** Disjoint intervals inside [a, b) take at most b - a. *)
  Definition pairwise (l : list (N * E)) : Prop :=
    forall i j a b, i <> j -> nth_error l i = Some a -> nth_error l j = Some b -> disjoint sz a b.

  Lemma pairwise_perm : forall l l', Permutation l l' -> pairwise l -> pairwise l'.
  Proof.
    intros l l' H Hp.
    assert (Hsym : forall a b : N * E, disjoint sz a b -> disjoint sz b a) by (unfold disjoint; tauto).
    assert (K : ForallOrdPairs (disjoint sz) l -> ForallOrdPairs (disjoint sz) l').
    { clear Hp. induction H; intros F.
      - constructor.
      - inversion F; subst. constructor; [|auto]. rewrite Forall_forall in *. intros y Hy. apply H2.
        eapply Permutation_in; [|exact Hy]. now symmetry.
      - inversion F as [|? ? A B]; subst. inversion B as [|? ? C D]; subst. inversion A; subst.
        constructor; [constructor; [now apply Hsym|assumption]|]. constructor; assumption.
      - auto. }
    assert (A : ForallOrdPairs (disjoint sz) l).
    { clear K H. induction l as [|x l IH]; constructor.
      - rewrite Forall_forall. intros y Hy. apply In_nth_error in Hy. destruct Hy as [n Hn].
        apply (Hp 0%nat (S n)); auto.
      - apply IH. intros i j a b Hij Ha Hb. apply (Hp (S i) (S j)); auto. }
    specialize (K A). clear -K Hsym.
    induction K as [|x l' F K IH]; intros i j a b Hij Ha Hb.
    - destruct i; discriminate.
    - rewrite Forall_forall in F. destruct i, j; cbn in Ha, Hb.
      + congruence.
      + injection Ha as <-. apply F. eapply nth_error_In; eauto.
      + injection Hb as <-. apply Hsym, F. eapply nth_error_In; eauto.
      + eapply IH; [|eassumption|eassumption]. congruence.
  Qed.

  Lemma exists_max : forall l : list (N * E), l <> [] ->
    exists m l', Permutation l (m :: l') /\ forall x, In x l' -> fst x + sz (snd x) <= fst m + sz (snd m).
  Proof.
    induction l as [|x l IH]; intros H; [congruence|]. destruct l as [|y l].
    - exists x, []. split; [reflexivity|]. intros ? [].
    - destruct IH as (m & l' & Hp & Hm); [discriminate|].
      destruct (N.le_gt_cases (fst x + sz (snd x)) (fst m + sz (snd m))).
      + exists m, (x :: l'). split; [rewrite Hp; apply perm_swap|]. intros z [<-|Hz]; auto.
      + exists x, (m :: l'). split; [now rewrite Hp|]. intros z [<-|Hz]; [lia|]. specialize (Hm z Hz). lia.
  Qed.

  Lemma intervals_fit : forall n l a b, length l = n ->
    a <= b -> (forall o e, In (o, e) l -> a <= o /\ o + sz e <= b) -> pairwise l -> (forall o e, In (o, e) l -> 0 < sz e) ->
    a + sum_sz sz (map snd l) <= b.
  Proof.
    induction n as [|n IH]; intros l a b Hn Hab Hin Hp Hpos.
    - destruct l; [cbn; lia|discriminate].
    - destruct (exists_max l) as (m & l' & Hperm & Hmax); [intros ->; discriminate|].
      rewrite (sum_sz_perm _ _ _ _ (Permutation_map snd Hperm)). cbn [map]. rewrite sum_sz_cons.
      assert (Hmin : In m l) by (eapply Permutation_in; [symmetry; exact Hperm|left; reflexivity]).
      destruct m as [om em]. destruct (Hin _ _ Hmin) as [Hm1 Hm2]. cbn [snd fst] in *.
      assert (Hp' : pairwise (@cons (N*E) (om, em) l')) by (eapply pairwise_perm; eauto).
      assert (a + sum_sz sz (map snd l') <= om); [|lia].
      apply IH.
      + apply Permutation_length in Hperm. cbn in Hperm. lia.
      + assumption.
      + intros o e Ho.
        assert (Hol : In (o, e) l) by (eapply Permutation_in; [symmetry; exact Hperm|right; exact Ho]).
        split; [eapply Hin; eauto|].
        specialize (Hmax _ Ho). cbn in Hmax. apply In_nth_error in Ho. destruct Ho as [i Hi].
        destruct (Hp' 0%nat (S i) (om, em) (o, e)) as [X|X]; auto; cbn in X.
        pose proof (Hpos _ _ Hol). lia.
      + intros i j x y Hij Hx Hy. apply (Hp' (S i) (S j)); auto.
      + intros o e Ho. apply (Hpos o e). eapply Permutation_in; [symmetry; exact Hperm|right; exact Ho].
  Qed.

  Hypothesis sz_pos : forall e, 0 < sz e.

  Lemma page_live : forall p, page_ok p -> pg_next p + pg_live p <= P.
  Proof.
    intros p [H1 H2 H3 H4]. unfold pg_live, pg_cont. eapply intervals_fit; eauto.
  Qed.

  Lemma page_fits : forall p, page_ok p -> off_end (pg_num p) + pg_live p <= P.
  Proof. intros p H. pose proof (page_live p H). destruct H. lia. Qed.

  Lemma pg_empty_ok : sizeof_btree_hdr <= P -> page_ok (pg_empty P).
  Proof.
    intros H. constructor; cbn.
    - unfold off_end. cbn. lia. - lia. - tauto.
    - intros i j a b _ X. destruct i; discriminate.
  Qed.

  (** ** Placing an entry *)
  Lemma pg_place_spec : forall p k e, page_ok p -> (k <= pg_num p)%nat ->
    match pg_place sz p k e with
    | PAbort => False
    | PFalse => pg_next p < off_end (if Nat.ltb k (pg_num p) then pg_num p else S k) + sz e
    | PTrue p' => page_ok p' /\ pg_cont p' = set_nth k e (pg_cont p) /\
                  pg_next p' = pg_next p - sz e /\ sz e <= pg_next p
    end.
  Proof.
    intros p k e [H1 H2 H3 H4] Hk. unfold pg_place.
    remember (if Nat.ltb k (pg_num p) then pg_num p else S k) as nn eqn:En.
    destruct (N.ltb_spec (pg_next p) (off_end nn + sz e)) as [L|L]; [assumption|].
    assert (Hnn : length (set_nth k (pg_next p - sz e, e) (pg_ents p)) = nn).
    { subst nn. unfold pg_num in *. destruct (Nat.ltb_spec k (length (pg_ents p))).
      - now apply set_nth_length. - assert (k = length (pg_ents p)) as -> by lia. rewrite set_nth_end, app_length. cbn. lia. }
    split; [|split; [|split]]; cbn [pg_next pg_ents].
    - constructor; cbn [pg_next pg_ents].
      + unfold pg_num. cbn [pg_ents]. rewrite Hnn. lia.
      + lia.
      + intros o' e' Hin. apply in_set_nth in Hin. destruct Hin as [X|X].
        * injection X as -> ->. lia.
        * apply H3 in X. lia.
      + intros i j a b Hij Ha Hb. rewrite nth_error_set_nth in Ha by assumption. rewrite nth_error_set_nth in Hb by assumption.
        destruct (Nat.eqb_spec i k), (Nat.eqb_spec j k).
        * congruence.
        * injection Ha as <-. destruct b as [ob eb]. apply nth_error_In in Hb. apply H3 in Hb. left. cbn. lia.
        * injection Hb as <-. destruct a as [oa ea]. apply nth_error_In in Ha. apply H3 in Ha. right. cbn. lia.
        * eapply (H4 i j); eauto.
    - unfold pg_cont. cbn [pg_ents]. now rewrite set_nth_map.
    - reflexivity.
    - lia.
  Qed.

  (** Overwriting an entry where it lies. *)
  Lemma overwrite_ok : forall p k o old e, page_ok p -> nth_error (pg_ents p) k = Some (o, old) -> sz e <= sz old ->
    page_ok (Page (pg_next p) (set_nth k (o, e) (pg_ents p))).
  Proof.
    intros p k o old e [H1 H2 H3 H4] Hk Hs.
    assert (Hlt : (k < length (pg_ents p))%nat) by (apply nth_error_Some; congruence).
    constructor; cbn [pg_next pg_ents].
    - unfold pg_num in *. cbn [pg_ents]. now rewrite set_nth_length.
    - assumption.
    - intros o' e' Hin. apply in_set_nth in Hin. destruct Hin as [X|X].
      + injection X as -> ->. apply nth_error_In in Hk. apply H3 in Hk. lia.
      + now apply H3.
    - intros i j a b Hij Ha Hb. rewrite nth_error_set_nth in Ha by lia. rewrite nth_error_set_nth in Hb by lia.
      destruct (Nat.eqb_spec i k), (Nat.eqb_spec j k).
      + congruence.
      + injection Ha as <-. subst i. specialize (H4 k j _ _ Hij Hk Hb). unfold disjoint in *. cbn in *. lia.
      + injection Hb as <-. subst j. specialize (H4 i k _ _ Hij Ha Hk). unfold disjoint in *. cbn in *. lia.
      + eapply (H4 i j); eauto.
  Qed.

  Lemma set_leaf_entry_spec : forall p k e, page_ok p -> (k <= pg_num p)%nat ->
    match set_leaf_entry sz p k e with
    | PAbort => False
    | PFalse => can_set_leaf_entry sz p k e = false
    | PTrue p' => page_ok p' /\ pg_cont p' = set_nth k e (pg_cont p) /\ can_set_leaf_entry sz p k e = true
    end.
  Proof.
    intros p k e H Hk. unfold set_leaf_entry, can_set_leaf_entry.
    destruct (Nat.ltb_spec (pg_num p) k); [lia|].
    pose proof (pg_place_spec p k e H Hk) as Hpl.
    assert (Hplace : match pg_place sz p k e with
      | PAbort => False
      | PFalse => negb (pg_next p <? off_end (if (k <? pg_num p)%nat then pg_num p else S k) + sz e) = false
      | PTrue p' => page_ok p' /\ pg_cont p' = set_nth k e (pg_cont p) /\
           negb (pg_next p <? off_end (if (k <? pg_num p)%nat then pg_num p else S k) + sz e) = true end).
    { unfold pg_place in *. destruct (pg_next p <? _); cbn [negb]; [reflexivity|]. tauto. }
    destruct (nth_error (pg_ents p) k) as [[o old]|] eqn:En.
    - destruct (N.leb_spec (sz e) (sz old)) as [L|L].
      + split; [|split; [|reflexivity]].
        * eapply overwrite_ok; eauto.
        * unfold pg_cont. cbn [pg_ents]. now rewrite set_nth_map.
      + exact Hplace.
    - destruct (Nat.leb_spec k (pg_num p)); [|lia]. exact Hplace.
  Qed.

  (** Placing at the end fails only for want of room. *)
  Lemma set_leaf_end : forall p e, page_ok p ->
    (set_leaf_entry sz p (pg_num p) e = PFalse /\ pg_next p < off_end (S (pg_num p)) + sz e) \/
    (exists p', set_leaf_entry sz p (pg_num p) e = PTrue p' /\ page_ok p' /\
       pg_cont p' = pg_cont p ++ [e] /\ pg_ents p' = pg_ents p ++ [(pg_next p - sz e, e)] /\
       pg_next p' = pg_next p - sz e /\ off_end (S (pg_num p)) + sz e <= pg_next p).
  Proof.
    intros p e H. unfold set_leaf_entry.
    assert (En : nth_error (pg_ents p) (pg_num p) = None) by (apply nth_error_None; unfold pg_num; lia).
    rewrite En. rewrite Nat.leb_refl.
    pose proof (pg_place_spec p (pg_num p) e H (le_n _)) as Hpl. unfold pg_place in *.
    rewrite Nat.ltb_irrefl in *.
    destruct (N.ltb_spec (pg_next p) (off_end (S (pg_num p)) + sz e)); [left; auto|right].
    destruct Hpl as (A & B & C & D). eexists. split; [reflexivity|]. split; [exact A|].
    rewrite B. rewrite <- cont_length at 1. rewrite set_nth_end. repeat split; auto.
    cbn [pg_ents]. unfold pg_num. now rewrite set_nth_end.
  Qed.

  Lemma pg_rotate_spec : forall (p : page E) x l k, pg_ents p = l ++ [x] -> (k <= length l)%nat ->
    pg_rotate p k = Some (Page (pg_next p) (insert_nth k x l)).
  Proof.
    intros p x l k Hp Hk. unfold pg_rotate, pg_num. rewrite Hp. rewrite app_length, Nat.add_comm. cbn [length plus].
    rewrite nth_error_app_len, firstn_app_all. destruct (Nat.leb_spec k (length l)); [reflexivity|lia].
  Qed.

  Lemma page_ok_perm : forall p l, page_ok p -> Permutation (pg_ents p) l -> page_ok (Page (pg_next p) l).
  Proof.
    intros p l [H1 H2 H3 H4] Hp. constructor; cbn [pg_next pg_ents]; auto.
    - unfold pg_num in *. cbn [pg_ents]. now rewrite <- (Permutation_length Hp).
    - intros o e Hin. apply H3. eapply Permutation_in; [symmetry; exact Hp|assumption].
    - exact (pairwise_perm _ _ Hp H4).
  Qed.

  Lemma insert_leaf_entry_spec : forall p k e, page_ok p -> (k <= pg_num p)%nat ->
    (insert_leaf_entry sz p k e = PFalse /\ pg_next p < off_end (S (pg_num p)) + sz e) \/
    (exists p', insert_leaf_entry sz p k e = PTrue p' /\ page_ok p' /\
       pg_cont p' = insert_nth k e (pg_cont p) /\
       pg_next p' = pg_next p - sz e /\ off_end (S (pg_num p)) + sz e <= pg_next p).
  Proof.
    intros p k e H Hk. unfold insert_leaf_entry.
    destruct (set_leaf_end p e H) as [[-> L]|(p' & -> & A & B & C & D & F)]; [left; auto|right].
    rewrite (pg_rotate_spec p' _ _ k C) by exact Hk.
    eexists. split; [reflexivity|]. split; [|split; [|split; assumption]].
    - apply page_ok_perm; [assumption|]. rewrite C. rewrite insert_nth_perm.
      symmetry. apply Permutation_cons_append.
    - unfold pg_cont. cbn [pg_ents]. now rewrite insert_nth_map.
  Qed.

  (** ** Index entries *)
  Lemma set_index_entry_spec : forall p k e, page_ok p -> (k <= pg_num p)%nat ->
    match set_index_entry sz p k e with
    | PAbort => False
    | PFalse => pg_next p < off_end (if Nat.ltb k (pg_num p) then pg_num p else S k) + sz e
    | PTrue p' => page_ok p' /\ pg_cont p' = set_nth k e (pg_cont p) /\
                  (pg_next p - sz e <= pg_next p')
    end.
  Proof.
    intros p k e H Hk. unfold set_index_entry.
    destruct (Nat.ltb_spec (pg_num p) k); [lia|].
    pose proof (pg_place_spec p k e H Hk) as Hpl.
    destruct (nth_error (pg_ents p) k) as [[o old]|] eqn:En.
    - assert (Hlt : (k < pg_num p)%nat) by (apply nth_error_Some; congruence).
      destruct ((pg_next p =? o) && (off_end (pg_num p) + sz e <=? pg_next p + sz old)) eqn:Es.
      + apply andb_true_iff in Es. destruct Es as [Eo Ef]. apply N.eqb_eq in Eo. apply N.leb_le in Ef.
        destruct H as [H1 H2 H3 H4].
        unfold pg_place, pg_num. cbn [pg_ents pg_next]. unfold pg_num in Hlt, Ef, H1. destruct (Nat.ltb_spec k (length (pg_ents p))); [|lia].
        destruct (N.ltb_spec (pg_next p + sz old) (off_end (length (pg_ents p)) + sz e)) as [L|L]; [lia|].
        assert (Hold : o + sz old <= P) by (apply nth_error_In in En; apply H3 in En; lia).
        split; [|split].
        * constructor; cbn [pg_next pg_ents].
          -- unfold pg_num. cbn [pg_ents]. rewrite set_nth_length by assumption. lia.
          -- lia.
          -- intros o' e' Hin. apply In_nth_error in Hin. destruct Hin as [i Hi].
             rewrite nth_error_set_nth in Hi by lia. destruct (Nat.eqb_spec i k).
             ++ injection Hi as <- <-. lia.
             ++ pose proof (nth_error_In _ _ Hi) as Hin. apply H3 in Hin.
                destruct (H4 k i _ _ ltac:(congruence) En Hi) as [X|X]; cbn in X; [lia|].
                pose proof (sz_pos e'). lia.
          -- intros i j a b Hij Ha Hb. rewrite nth_error_set_nth in Ha by lia. rewrite nth_error_set_nth in Hb by lia.
             destruct (Nat.eqb_spec i k), (Nat.eqb_spec j k).
             ++ congruence.
             ++ injection Ha as <-. destruct b as [ob eb].
                destruct (H4 k j _ _ ltac:(congruence) En Hb) as [X|X]; cbn in X.
                ** left. cbn. lia.
                ** pose proof (sz_pos eb). apply nth_error_In in Hb. apply H3 in Hb. lia.
             ++ injection Hb as <-. destruct a as [oa ea].
                destruct (H4 i k _ _ ltac:(congruence) Ha En) as [X|X]; cbn in X.
                ** pose proof (sz_pos ea). apply nth_error_In in Ha. apply H3 in Ha. lia.
                ** right. cbn. lia.
             ++ eapply (H4 i j); eauto.
        * unfold pg_cont. cbn [pg_ents]. now rewrite set_nth_map.
        * cbn [pg_next]. lia.
      + destruct (N.leb_spec (sz e) (sz old)).
        * split; [|split].
          -- eapply overwrite_ok; eauto.
          -- unfold pg_cont. cbn [pg_ents]. now rewrite set_nth_map.
          -- cbn. lia.
        * destruct (pg_place sz p k e); auto. destruct Hpl as (A & B & C & D). split; [exact A|split; [exact B|lia]].
    - destruct (pg_place sz p k e); auto. destruct Hpl as (A & B & C & D). split; [exact A|split; [exact B|lia]].
  Qed.

  Lemma set_index_end : forall p e, page_ok p ->
    (set_index_entry sz p (pg_num p) e = PFalse /\ pg_next p < off_end (S (pg_num p)) + sz e) \/
    (exists p', set_index_entry sz p (pg_num p) e = PTrue p' /\ page_ok p' /\
       pg_cont p' = pg_cont p ++ [e] /\ pg_ents p' = pg_ents p ++ [(pg_next p - sz e, e)] /\
       pg_next p' = pg_next p - sz e /\ off_end (S (pg_num p)) + sz e <= pg_next p).
  Proof.
    intros p e H.
    replace (set_index_entry sz p (pg_num p) e) with (set_leaf_entry sz p (pg_num p) e); [now apply set_leaf_end|].
    unfold set_leaf_entry, set_index_entry.
    assert (En : nth_error (pg_ents p) (pg_num p) = None) by (apply nth_error_None; unfold pg_num; lia).
    rewrite En, Nat.ltb_irrefl, Nat.leb_refl. reflexivity.
  Qed.

  Lemma insert_index_entry_spec : forall p k e, page_ok p -> (k <= pg_num p)%nat ->
    (insert_index_entry sz p k e = PFalse /\ pg_next p < off_end (S (pg_num p)) + sz e) \/
    (exists p', insert_index_entry sz p k e = PTrue p' /\ page_ok p' /\
       pg_cont p' = insert_nth k e (pg_cont p) /\
       pg_next p' = pg_next p - sz e /\ off_end (S (pg_num p)) + sz e <= pg_next p).
  Proof.
    intros p k e H Hk. unfold insert_index_entry.
    destruct (set_index_end p e H) as [[-> L]|(p' & -> & A & B & C & D & F)]; [left; auto|right].
    rewrite (pg_rotate_spec p' _ _ k C) by exact Hk.
    eexists. split; [reflexivity|]. split; [|split; [|split; assumption]].
    - apply page_ok_perm; [assumption|]. rewrite C. rewrite insert_nth_perm.
      symmetry. apply Permutation_cons_append.
    - unfold pg_cont. cbn [pg_ents]. now rewrite insert_nth_map.
  Qed.

  (** ** Filling *)
  Lemma fill_leaf_spec : forall es p, page_ok p ->
    off_end (pg_num p + length es) + sum_sz sz es <= pg_next p ->
    exists p', fill_leaf sz p (pg_num p) es = Some p' /\ page_ok p' /\
      pg_cont p' = pg_cont p ++ es /\ pg_next p' = pg_next p - sum_sz sz es.
  Proof.
    induction es as [|e es IH]; intros p H Hf.
    - exists p. cbn [fill_leaf]. rewrite app_nil_r. split; [reflexivity|]. split; [exact H|]. split; [reflexivity|]. cbn. lia.
    - cbn [fill_leaf length] in *. rewrite sum_sz_cons in *.
      assert (Hoff : off_end (S (pg_num p)) <= off_end (pg_num p + S (length es))) by (unfold off_end; lia).
      destruct (set_leaf_end p e H) as [[-> L]|(p' & -> & A & B & C & D & F)]; [lia|].
      assert (Hnum : pg_num p' = S (pg_num p)) by (unfold pg_num; rewrite C, app_length; cbn; lia).
      destruct (IH p' A) as (p2 & E1 & E2 & E3 & E4).
      { rewrite Hnum, D. replace (S (pg_num p) + length es)%nat with (pg_num p + S (length es))%nat by lia. lia. }
      exists p2. rewrite Hnum in E1. split; [assumption|]. split; [assumption|].
      split; [rewrite E3, B, <- app_assoc; reflexivity|]. lia.
  Qed.

  Lemma fill_index_spec : forall es p, page_ok p ->
    off_end (pg_num p + length es) + sum_sz sz es <= pg_next p ->
    exists p', fill_index sz p (pg_num p) es = Some p' /\ page_ok p' /\
      pg_cont p' = pg_cont p ++ es /\ pg_next p' = pg_next p - sum_sz sz es.
  Proof.
    induction es as [|e es IH]; intros p H Hf.
    - exists p. cbn [fill_index]. rewrite app_nil_r. split; [reflexivity|]. split; [exact H|]. split; [reflexivity|]. cbn. lia.
    - cbn [fill_index length] in *. rewrite sum_sz_cons in *.
      assert (Hoff : off_end (S (pg_num p)) <= off_end (pg_num p + S (length es))) by (unfold off_end; lia).
      destruct (set_index_end p e H) as [[-> L]|(p' & -> & A & B & C & D & F)]; [lia|].
      assert (Hnum : pg_num p' = S (pg_num p)) by (unfold pg_num; rewrite C, app_length; cbn; lia).
      destruct (IH p' A) as (p2 & E1 & E2 & E3 & E4).
      { rewrite Hnum, D. replace (S (pg_num p) + length es)%nat with (pg_num p + S (length es))%nat by lia. lia. }
      exists p2. rewrite Hnum in E1. split; [assumption|]. split; [assumption|].
      split; [rewrite E3, B, <- app_assoc; reflexivity|]. lia.
  Qed.

  Lemma fill_index_none_or : forall es p, page_ok p ->
    fill_index sz p (pg_num p) es = None \/
    exists p', fill_index sz p (pg_num p) es = Some p' /\ page_ok p' /\ pg_cont p' = pg_cont p ++ es.
  Proof.
    induction es as [|e es IH]; intros p H.
    - right. exists p. cbn. rewrite app_nil_r. auto.
    - cbn [fill_index].
      destruct (set_index_end p e H) as [[-> L]|(p' & -> & A & B & C & D & F)]; [left; reflexivity|].
      assert (Hnum : pg_num p' = S (pg_num p)) by (unfold pg_num; rewrite C, app_length; cbn; lia).
      rewrite <- Hnum. destruct (IH p' A) as [->|(p2 & -> & X & Y)]; [left; reflexivity|right].
      exists p2. split; [reflexivity|]. split; [assumption|]. rewrite Y, B, <- app_assoc. reflexivity.
  Qed.

  (** ** Truncation *)
  Lemma fold_min : forall (l : list (N * E)) a,
    let r := fold_left (fun a oe => if fst oe <? a then fst oe else a) l a in
    r <= a /\ (forall o e, In (o, e) l -> r <= o) /\ (r = a \/ exists e, In (r, e) l).
  Proof.
    induction l as [|[o e] l IH]; intros a; cbn [fold_left].
    - cbn. split; [lia|]. split; [tauto|auto].
    - cbn [fst]. specialize (IH (if o <? a then o else a)). cbv zeta in *. destruct IH as (A & B & C).
      destruct (N.ltb_spec o a).
      + split; [lia|]. split.
        * intros o' e' [X|X]; [injection X as -> ->; lia|]. now apply B in X.
        * right. destruct C as [->|[e' X]]; [exists e; now left|]. exists e'. now right.
      + split; [lia|]. split.
        * intros o' e' [X|X]; [injection X as -> ->; lia|]. now apply B in X.
        * destruct C as [->|[e' X]]; auto. right. exists e'. now right.
  Qed.

  Lemma pg_truncate_spec : forall p n, page_ok p -> (n <= pg_num p)%nat ->
    exists p', pg_truncate P p n = Some p' /\ page_ok p' /\ pg_cont p' = firstn n (pg_cont p) /\
      pg_next p <= pg_next p' /\ pg_num p' = n.
  Proof.
    intros p n [H1 H2 H3 H4] Hn. unfold pg_truncate. destruct (Nat.leb_spec n (pg_num p)); [|lia].
    pose proof (fold_min (firstn n (pg_ents p)) P) as (A & B & C).
    remember (fold_left (fun a oe => if fst oe <? a then fst oe else a) (firstn n (pg_ents p)) P) as r eqn:Er.
    assert (Hinc : forall x, In x (firstn n (pg_ents p)) -> In x (pg_ents p)).
    { intros x Hx. rewrite <- (firstn_skipn n). apply in_or_app. auto. }
    assert (Hnr : pg_next p <= r).
    { destruct C as [->|[e X]]; [assumption|]. apply Hinc in X. apply H3 in X. lia. }
    assert (Hlen : length (firstn n (pg_ents p)) = n) by (apply firstn_length_le; assumption).
    eexists. split; [reflexivity|]. cbn [pg_next pg_ents]. split; [|split; [|split]].
    - constructor; cbn [pg_next pg_ents].
      + unfold pg_num. cbn [pg_ents]. rewrite Hlen.
        assert (off_end n <= off_end (pg_num p)) by (unfold off_end; lia). lia.
      + assumption.
      + intros o e Hin. split; [now apply B in Hin|]. apply Hinc in Hin. apply H3 in Hin. lia.
      + intros i j a b Hij Ha Hb.
        assert (K : forall i a, nth_error (firstn n (pg_ents p)) i = Some a -> nth_error (pg_ents p) i = Some a).
        { intros i' a' X. rewrite <- (firstn_skipn n (pg_ents p)). rewrite nth_error_app1; [assumption|].
          apply nth_error_Some. congruence. }
        eapply (H4 i j); auto.
    - unfold pg_cont. cbn [pg_ents]. now rewrite firstn_map.
    - assumption.
    - exact Hlen.
  Qed.

  Lemma truncate_index_spec : forall p n, sizeof_btree_hdr <= P -> page_ok p -> (n <= pg_num p)%nat ->
    exists p', truncate_index sz P p n = Some p' /\ page_ok p' /\ pg_cont p' = firstn n (pg_cont p) /\
      (P / 4 <= pg_next p' \/ pg_next p' = P - sum_sz sz (firstn n (pg_cont p))).
  Proof.
    intros p n HP H Hn. unfold truncate_index.
    destruct (pg_truncate_spec p n H Hn) as (p' & -> & A & B & C & D).
    destruct (N.ltb_spec (pg_next p') (P / 4)).
    - unfold defragment_index.
      destruct (fill_index_spec (pg_cont p') (pg_empty P)) as (p2 & X & Y & Z & W).
      + now apply pg_empty_ok.
      + pose proof (page_fits p' A) as F. unfold pg_num at 1. cbn [pg_ents pg_empty length]. rewrite cont_length.
        cbn [pg_next pg_empty plus]. exact F.
      + change (pg_num (pg_empty P)) with 0%nat in X. rewrite X. exists p2.
        split; [reflexivity|]. split; [assumption|]. rewrite Z. cbn. split; [assumption|].
        right. rewrite W. cbn [pg_next pg_empty]. now rewrite B.
    - exists p'. auto.
  Qed.

  Lemma defragment_index_spec : forall p, sizeof_btree_hdr <= P -> page_ok p ->
    exists p', defragment_index sz P p = Some p' /\ page_ok p' /\ pg_cont p' = pg_cont p /\
      pg_next p' = P - pg_live p.
  Proof.
    intros p HP H. unfold defragment_index.
    destruct (fill_index_spec (pg_cont p) (pg_empty P)) as (p2 & X & Y & Z & W).
    - now apply pg_empty_ok.
    - pose proof (page_fits p H) as F. unfold pg_num at 1. cbn [pg_ents pg_empty length]. rewrite cont_length.
      cbn [pg_next pg_empty plus]. exact F.
    - change (pg_num (pg_empty P)) with 0%nat in X. rewrite X. exists p2.
      split; [reflexivity|]. split; [assumption|]. rewrite Z. cbn. split; [reflexivity|]. exact W.
  Qed.
End PageProofs.
