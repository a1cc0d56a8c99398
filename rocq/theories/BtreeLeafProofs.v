(** * Leaf edits and leaf splits *)

From Coq Require Import List ZArith NArith Arith Bool Lia Permutation.
From Verif Require Import Base Codec Search Page PageProofs PageBytes Btree.
Import ListNotations.
Local Open Scope N_scope.

Lemma lsz_min : forall e, 6 <= lsz e.
Proof. intros [k m]. unfold lsz, sizeof_ondisk_tuple, sizeof_ondisk_tuple_hdr. cbn [fst snd]. lia. Qed.
Lemma lsz_pos : forall e, 0 < lsz e.
Proof. intros e. pose proof (lsz_min e). lia. Qed.
Lemma sum_sizes_eq : forall es, sum_sizes es = sum_sz lsz es.
Proof. reflexivity. Qed.

(** ** What a spec says about the entries of a page
    [A] and [B] are the entries before and after the new one. *)
Definition spec_for (es : list lent) (sp : ispec) (A B : list lent) : Prop :=
  is_idx sp = length A /\
  match is_state sp with
  | StillExists => exists old, es = A ++ (is_key sp, old) :: B
  | _ => es = A ++ B
  end.

Lemma set_nth_mid : forall X (A B : list X) x y, set_nth (length A) y (A ++ x :: B) = A ++ y :: B.
Proof.
  intros. unfold set_nth. rewrite firstn_app_all.
  replace (S (length A)) with (length (A ++ [x])) by (rewrite app_length; cbn; lia).
  change (A ++ x :: B) with (A ++ [x] ++ B). rewrite app_assoc, skipn_app, skipn_all, Nat.sub_diag. reflexivity.
Qed.
Lemma insert_nth_mid : forall X (A B : list X) y, insert_nth (length A) y (A ++ B) = A ++ y :: B.
Proof.
  intros. unfold insert_nth. rewrite firstn_app_all, skipn_app, skipn_all, Nat.sub_diag. reflexivity.
Qed.

Lemma skipn_skipn_app : forall X (A B : list X) n, (n <= length A)%nat -> skipn n (A ++ B) = skipn n A ++ B.
Proof. intros. rewrite skipn_app. replace (n - length A)%nat with 0%nat by lia. reflexivity. Qed.
Lemma skipn_app_ge : forall X (A B : list X) n, (length A <= n)%nat -> skipn n (A ++ B) = skipn (n - length A) B.
Proof. intros. rewrite skipn_app. rewrite skipn_all2 by assumption. reflexivity. Qed.
Lemma firstn_app_ge : forall X (A B : list X) n, (length A <= n)%nat -> firstn n (A ++ B) = A ++ firstn (n - length A) B.
Proof. intros. rewrite firstn_app. rewrite firstn_all2 by assumption. reflexivity. Qed.
Lemma firstn_app_le : forall X (A B : list X) n, (n <= length A)%nat -> firstn n (A ++ B) = firstn n A.
Proof. intros. rewrite firstn_app. replace (n - length A)%nat with 0%nat by lia. cbn. apply app_nil_r. Qed.

Section Leaf.
  Variable P : N.
  Notation page_ok := (page_ok lsz P).

  Lemma try_perform_spec : forall p sp A B, page_ok p -> spec_for (pg_cont p) sp A B ->
    match try_perform p sp with
    | PAbort => False
    | PFalse => can_perform p sp = false
    | PTrue p' => page_ok p' /\ pg_cont p' = A ++ is_ent sp :: B /\ can_perform p sp = true
    end.
  Proof.
    intros p sp A B Hp [Hi Hs]. unfold try_perform, can_perform.
    assert (Hnum : pg_num p = length (pg_cont p)) by (symmetry; apply cont_length).
    assert (Hins : pg_cont p = A ++ B ->
      match insert_leaf_entry lsz p (is_idx sp) (is_ent sp) with
      | PAbort => False
      | PFalse => can_set_leaf_entry lsz p (pg_num p) (is_ent sp) = false
      | PTrue p' => page_ok p' /\ pg_cont p' = A ++ is_ent sp :: B /\
                    can_set_leaf_entry lsz p (pg_num p) (is_ent sp) = true
      end).
    { intros Hc. rewrite Hc, app_length in Hnum.
      pose proof (insert_leaf_entry_spec lsz P p (is_idx sp) (is_ent sp) Hp ltac:(lia)) as Sp.
      unfold can_set_leaf_entry. rewrite Nat.ltb_irrefl.
      assert (En : nth_error (pg_ents p) (pg_num p) = None) by (apply nth_error_None; unfold pg_num; lia).
      rewrite En.
      destruct Sp as [[-> L]|(p' & -> & Ok & C & _ & L)].
      - apply negb_false_iff, N.ltb_lt. exact L.
      - split; [exact Ok|]. split; [rewrite C, Hc, Hi; apply insert_nth_mid|].
        apply negb_true_iff, N.ltb_ge. exact L. }
    destruct (is_state sp).
    - exact (Hins Hs).
    - destruct Hs as [old Hc].
      pose proof (set_leaf_entry_spec lsz P p (is_idx sp) (is_ent sp) Hp) as Sp.
      rewrite Hc, app_length in Hnum. cbn in Hnum. specialize (Sp ltac:(lia)).
      destruct (set_leaf_entry lsz p (is_idx sp) (is_ent sp)); auto.
      destruct Sp as (Ok & C & T). split; [exact Ok|]. split; [|exact T].
      rewrite C, Hc, Hi. apply set_nth_mid.
    - exact (Hins Hs).
  Qed.

  Lemma other_entries_removed : forall sp i es, is_state sp <> StillExists -> other_entries sp i es = es.
  Proof. intros sp i [|e es] H; [reflexivity|]. cbn. destruct (is_state sp); congruence. Qed.

  Lemma other_entries_mid : forall sp A x B i, is_state sp = StillExists -> is_idx sp = (i + length A)%nat ->
    other_entries sp i (A ++ x :: B) = A ++ B.
  Proof.
    intros sp A. induction A as [|a A IH]; intros x B i Hs Hi; cbn [app other_entries]; rewrite Hs.
    - cbn in Hi. replace i with (is_idx sp) by lia. now rewrite Nat.eqb_refl.
    - cbn in Hi. destruct (Nat.eqb_spec i (is_idx sp)); [lia|]. f_equal. apply IH; [assumption|lia].
  Qed.

  Lemma other_entries_past : forall sp es i, is_state sp = StillExists -> (i > is_idx sp)%nat ->
    other_entries sp i es = es.
  Proof.
    intros sp es. induction es as [|a es IH]; intros i Hs Hi; cbn [other_entries]; [reflexivity|]. rewrite Hs.
    destruct (Nat.eqb_spec i (is_idx sp)); [lia|]. f_equal. apply IH; [assumption|lia].
  Qed.

  Lemma other_entries_spec : forall es sp A B, spec_for es sp A B -> other_entries sp 0 es = A ++ B.
  Proof.
    intros es sp A B [Hi Hs]. destruct (is_state sp) eqn:St.
    - subst es. apply other_entries_removed. congruence.
    - destruct Hs as [old ->]. now apply other_entries_mid.
    - subst es. apply other_entries_removed. congruence.
  Qed.

  Lemma spec_after_spec : forall es sp A B, spec_for es sp A B ->
    spec_for (A ++ B) (spec_after sp 0 (length es)) A B /\
    is_ent (spec_after sp 0 (length es)) = is_ent sp /\ is_state (spec_after sp 0 (length es)) <> StillExists.
  Proof.
    intros es sp A B [Hi Hs]. unfold spec_after. destruct (is_state sp) eqn:St.
    - split; [split; [assumption|rewrite St; reflexivity]|]. split; [reflexivity|congruence].
    - destruct Hs as [old ->]. rewrite app_length. cbn [length].
      destruct (Nat.leb_spec 0 (is_idx sp)); [|lia].
      destruct (Nat.ltb_spec (is_idx sp) (length A + S (length B))); [|lia]. cbn [andb].
      split; [split; [assumption|reflexivity]|]. split; [reflexivity|discriminate].
    - split; [split; [assumption|rewrite St; reflexivity]|]. split; [reflexivity|congruence].
  Qed.

  Lemma defragment_leaf_spec : forall p sp A B, page_ok p -> spec_for (pg_cont p) sp A B ->
    exists p' sp', defragment_leaf P p sp = Some (p', sp') /\ page_ok p' /\ pg_cont p' = A ++ B /\
      pg_next p' = P - sum_sz lsz (A ++ B) /\
      spec_for (pg_cont p') sp' A B /\ is_ent sp' = is_ent sp /\ is_state sp' <> StillExists.
  Proof.
    intros p sp A B Hp Hs. unfold defragment_leaf. rewrite (other_entries_spec _ _ _ _ Hs).
    destruct (spec_after_spec _ _ _ _ Hs) as (S1 & S2 & S3).
    pose proof (page_fits lsz P lsz_pos p Hp) as F. unfold pg_live in F.
    assert (H37 : 37 <= P) by (destruct Hp; unfold off_end, sizeof_btree_hdr in *; lia).
    assert (Hle : off_end (length (A ++ B)) + sum_sz lsz (A ++ B) <= P).
    { rewrite <- cont_length in F. destruct Hs as [_ Hs].
      destruct (is_state sp); [now rewrite Hs in F| |now rewrite Hs in F].
      destruct Hs as [old Hs]. rewrite Hs in F. rewrite app_length, sum_sz_app, sum_sz_cons in F. rewrite app_length, sum_sz_app. cbn [length] in F.
      unfold off_end in *. lia. }
    destruct (fill_leaf_spec lsz P (A ++ B) (pg_empty P)) as (p' & Ef & Ok & C & Nx).
    { apply pg_empty_ok. exact H37. }
    { exact Hle. }
    change (pg_num (pg_empty P : page lent)) with 0%nat in Ef. rewrite Ef.
    exists p', (spec_after sp 0 (pg_num p)). split; [reflexivity|]. split; [exact Ok|].
    cbn [pg_empty pg_cont pg_ents map app] in C. split; [exact C|]. split; [exact Nx|].
    rewrite C. rewrite <- cont_length. auto.
  Qed.

  (** Room after defragmentation. *)
  Lemma try_perform_defragmented : forall p sp A B, page_ok p -> spec_for (pg_cont p) sp A B ->
    is_state sp <> StillExists -> pg_next p = P - sum_sz lsz (A ++ B) ->
    off_end (S (length (A ++ B))) + sum_sz lsz (A ++ B) + lsz (is_ent sp) <= P ->
    exists p', try_perform p sp = PTrue p' /\ page_ok p' /\ pg_cont p' = A ++ is_ent sp :: B.
  Proof.
    intros p sp A B Hp Hs Hst Hn Hroom.
    pose proof (try_perform_spec p sp A B Hp Hs) as T.
    destruct (try_perform p sp) as [| |p'] eqn:Et.
    - destruct T.
    - exfalso. assert (X : try_perform p sp = insert_leaf_entry lsz p (is_idx sp) (is_ent sp)).
      { unfold try_perform. destruct (is_state sp); congruence. }
      destruct Hs as [Hi Hs].
      assert (Hc : pg_cont p = A ++ B) by (destruct (is_state sp); congruence).
      assert (Hnum : pg_num p = length (A ++ B)) by (rewrite <- Hc; symmetry; apply cont_length).
      destruct (insert_leaf_entry_spec lsz P p (is_idx sp) (is_ent sp) Hp) as [[_ L]|(p2 & E2 & _)].
      + rewrite Hnum, app_length. lia.
      + rewrite Hnum, Hn in L. lia.
      + congruence.
    - exists p'. split; [reflexivity|]. tauto.
  Qed.

  (** ** Splitting plans *)
  (** The number of entries of [T] that go left when [left] bytes are already
      there: as long as most of the next entry falls in the left half. *)
  Fixpoint greedy (T : list lent) (total left : N) : nat :=
    match T with
    | e :: T' => if most_on_left total left (lsz e) then S (greedy T' total (left + (2 + lsz e))) else 0
    | [] => 0
    end.
  Definition weight (T : list lent) : N := 2 * N.of_nat (length T) + sum_sz lsz T.

  Lemma weight_cons : forall e T, weight (e :: T) = 2 + lsz e + weight T.
  Proof. intros. unfold weight. cbn [length]. rewrite sum_sz_cons. lia. Qed.
  Lemma weight_app : forall A B, weight (A ++ B) = weight A + weight B.
  Proof. intros. unfold weight. rewrite app_length, sum_sz_app. lia. Qed.

  Lemma greedy_app : forall A T total left,
    greedy (A ++ T) total left =
    if (greedy A total left <? length A)%nat then greedy A total left
    else (length A + greedy T total (left + weight A))%nat.
  Proof.
    induction A as [|a A IH]; intros T total left; cbn [app greedy length].
    - cbn. f_equal. unfold weight. cbn. lia.
    - destruct (most_on_left total left (lsz a)).
      + rewrite IH. rewrite weight_cons. change (S (greedy A total (left + (2 + lsz a))) <? S (length A))%nat
          with (greedy A total (left + (2 + lsz a)) <? length A)%nat.
        destruct (greedy A total (left + (2 + lsz a)) <? length A)%nat; [reflexivity|].
        cbn [plus]. do 3 f_equal. lia.
      + destruct (Nat.ltb_spec 0 (S (length A))); [reflexivity|lia].
  Qed.

  Lemma greedy_le : forall T total left, (greedy T total left <= length T)%nat.
  Proof.
    induction T; intros; cbn [greedy length]; [lia|]. destruct (most_on_left _ _ _); [|lia].
    specialize (IHT total (left + (2 + lsz a))). lia.
  Qed.

  Lemma plan_move_greedy : forall A rest total left split,
    plan_move (A ++ rest) (length A) total left split =
    ((split + greedy A total left)%nat, left + weight (firstn (greedy A total left) A)).
  Proof.
    induction A as [|a A IH]; intros rest total left split; cbn [app plan_move length greedy].
    - destruct rest; cbn; f_equal; try lia; unfold weight; cbn; lia.
    - destruct (most_on_left total left (lsz a)).
      + rewrite IH. cbn [firstn]. rewrite weight_cons. f_equal; lia.
      + cbn. f_equal; [lia|]. unfold weight. cbn. lia.
  Qed.

  Lemma firstn_greedy_all : forall A total left, greedy A total left = length A ->
    firstn (greedy A total left) A = A.
  Proof. intros A total left ->. apply firstn_all. Qed.

  Definition target (sp : ispec) (A B : list lent) : list lent := A ++ is_ent sp :: B.

  (** The plan is the greedy split of the list with the new entry in it. *)
  Definition plan_of (sp : ispec) (A : list lent) (c : nat) : nat * bool :=
    if (c <=? length A)%nat then (c, false)
    else (match is_state sp with StillExists => c | _ => c - 1 end, true)%nat.

  Lemma build_plan_greedy : forall p sp A B, spec_for (pg_cont p) sp A B ->
    build_plan p sp = plan_of sp A (greedy (target sp A B) (weight (target sp A B)) 0).
  Proof.
    intros p sp A B Hs. pose proof (other_entries_spec _ _ _ _ Hs) as Ho.
    unfold build_plan. rewrite Ho. destruct Hs as [Hi Hs].
    remember (weight (target sp A B)) as total eqn:Et.
    assert (Htot : lsz (is_ent sp) + sum_sizes (A ++ B) +
                   2 * N.of_nat (match is_state sp with StillExists => pg_num p | _ => S (pg_num p) end) = total).
    { subst total. unfold target, weight. rewrite sum_sizes_eq, <- (cont_length p).
      destruct (is_state sp); [rewrite Hs|destruct Hs as [old ->]|rewrite Hs];
        rewrite !app_length, !sum_sz_app, !sum_sz_cons; cbn [length]; lia. }
    rewrite Htot.
    assert (Hpm : plan_move (pg_cont p) (is_idx sp) total 0 0 =
                  (greedy A total 0, weight (firstn (greedy A total 0) A))).
    { rewrite Hi. destruct (is_state sp); [rewrite Hs|destruct Hs as [old ->]|rewrite Hs];
        rewrite plan_move_greedy; f_equal; lia. }
    rewrite Hpm. cbv zeta beta iota. unfold target. rewrite greedy_app. cbn [greedy].
    pose proof (greedy_le A total 0) as Hle. rewrite Hi.
    destruct (Nat.ltb_spec (greedy A total 0) (length A)) as [Hlt|Hge].
    - destruct (Nat.eqb_spec (greedy A total 0) (length A)); [lia|]. cbn [andb].
      unfold plan_of. destruct (Nat.leb_spec (greedy A total 0) (length A)); [reflexivity|lia].
    - assert (Heq : greedy A total 0 = length A) by lia.
      rewrite (firstn_greedy_all _ _ _ Heq), Heq, Nat.eqb_refl. cbn [andb].
      rewrite N.add_0_l.
      destruct (most_on_left total (weight A) (lsz (is_ent sp))) eqn:Em.
      + remember (greedy B total (weight A + (2 + lsz (is_ent sp)))) as g eqn:Eg.
        assert (Hrest : forall s2, skipn s2 (pg_cont p) = B -> (pg_num p - s2 = length B)%nat ->
                  plan_move (skipn s2 (pg_cont p)) (pg_num p - s2) total (weight A + (2 + lsz (is_ent sp))) s2
                  = ((s2 + g)%nat, weight A + (2 + lsz (is_ent sp)) + weight (firstn g B))).
        { intros s2 H1 H2. rewrite H1, H2. pose proof (plan_move_greedy B [] total (weight A + (2 + lsz (is_ent sp))) s2) as X.
          rewrite app_nil_r in X. rewrite X, <- Eg. reflexivity. }
        unfold plan_of. destruct (Nat.leb_spec (length A + S g) (length A)); [lia|].
        rewrite <- (cont_length p) in *.
        destruct (is_state sp); [|destruct Hs as [old Hs]|]; rewrite Hrest.
        * f_equal. lia.
        * rewrite Hs, skipn_app, skipn_all, Nat.sub_diag. reflexivity.
        * rewrite Hs, app_length. lia.
        * f_equal. lia.
        * rewrite Hs. replace (S (length A)) with (length (A ++ [(is_key sp, old)])) by (rewrite app_length; cbn; lia).
          change (A ++ (is_key sp, old) :: B) with (A ++ [(is_key sp, old)] ++ B). rewrite app_assoc, skipn_app, skipn_all, Nat.sub_diag. reflexivity.
        * rewrite Hs, app_length. cbn. lia.
        * f_equal. lia.
        * rewrite Hs, skipn_app, skipn_all, Nat.sub_diag. reflexivity.
        * rewrite Hs, app_length. lia.
      + unfold plan_of. destruct (Nat.leb_spec (length A + 0) (length A)); [f_equal; lia|lia].
  Qed.

  (** Bounds on the greedy split. *)
  Lemma greedy_bounds : forall T total left c, c = greedy T total left ->
    left + weight T = total ->
    (T <> [] -> (c < length T)%nat) /\
    (c <> 0%nat -> exists e, In e T /\ 2 * (left + weight (firstn c T)) < total + 2 + lsz e) /\
    (T <> [] -> exists e, In e T /\ 2 * weight (skipn c T) <= total + 2 + lsz e + 1).
  Proof.
    induction T as [|a T IH]; intros total left c Hc Ht.
    - cbn in Hc. subst c. split; [congruence|]. split; [congruence|congruence].
    - cbn [greedy] in Hc. rewrite weight_cons in Ht.
      unfold most_on_left in Hc.
      destruct (N.ltb_spec (left + 2 + lsz a) ((total + 2 + lsz a) / 2)) as [L|L].
      + assert (L2 : 2 * (left + 2 + lsz a) + 2 <= total + 2 + lsz a).
        { pose proof (N.mul_div_le (total + 2 + lsz a) 2 ltac:(lia)). lia. }
        destruct (IH total (left + (2 + lsz a)) _ eq_refl ltac:(lia)) as (I1 & I2 & I3).
        remember (greedy T total (left + (2 + lsz a))) as g eqn:Eg. subst c.
        assert (HT : T <> []) by (intros ->; change (weight []) with 0 in Ht; lia).
        specialize (I1 HT). cbn [length firstn skipn]. rewrite weight_cons.
        split; [intros _; lia|]. split.
        * intros _. destruct (Nat.eq_dec g 0) as [->|Hg].
          -- exists a. split; [now left|]. cbn [firstn]. change (weight []) with 0. lia.
          -- destruct (I2 Hg) as (e & He & Hw). exists e. split; [now right|]. lia.
        * intros _. destruct (I3 HT) as (e & He & Hw). exists e. split; [now right|]. exact Hw.
      + subst c. cbn [length firstn skipn]. rewrite weight_cons.
        split; [lia|]. split; [congruence|]. intros _. exists a. split; [now left|].
        pose proof (N.div_mod' (total + 2 + lsz a) 2). pose proof (N.mod_upper_bound (total + 2 + lsz a) 2 ltac:(lia)). lia.
  Qed.

  Lemma greedy_first : forall e1 e2 T, greedy (e1 :: e2 :: T) (weight (e1 :: e2 :: T)) 0 <> 0%nat.
  Proof.
    intros. cbn [greedy]. unfold most_on_left.
    destruct (N.ltb_spec (0 + 2 + lsz e1) ((weight (e1 :: e2 :: T) + 2 + lsz e1) / 2)) as [L|L]; [discriminate|].
    exfalso. rewrite !weight_cons in L. pose proof (lsz_min e2).
    assert (2 + lsz e1 + 1 <= (2 + lsz e1 + (2 + lsz e2 + weight T) + 2 + lsz e1) / 2); [|lia].
    apply N.div_le_lower_bound; lia.
  Qed.

  (** ** Splitting a leaf *)
  Variable EM : N.                      (* largest entry *)
  Hypothesis HEM : 2 * EM + 50 <= P.

  Lemma spec_pivot : forall p sp A B c, spec_for (pg_cont p) sp A B -> (c < length (target sp A B))%nat ->
    splitting_pivot p sp (plan_of sp A c) = option_map fst (nth_error (target sp A B) c).
  Proof.
    intros p sp A B c [Hi Hs] Hc. unfold splitting_pivot, plan_of, target in *.
    rewrite app_length in Hc. cbn [length] in Hc.
    destruct (Nat.leb_spec c (length A)) as [L|L].
    - rewrite Hi. destruct (Nat.eqb_spec c (length A)) as [->|Hne].
      + rewrite nth_error_app2, Nat.sub_diag by lia. cbn [nth_error option_map is_ent fst].
        destruct (is_state sp); cbn [andb negb]; auto.
        destruct Hs as [old ->]. rewrite nth_error_app2, Nat.sub_diag by lia. reflexivity.
      + cbn [andb]. assert (c < length A)%nat by lia.
        destruct (is_state sp); [rewrite Hs|destruct Hs as [old ->]|rewrite Hs]; rewrite !nth_error_app1 by lia; reflexivity.
    - rewrite andb_false_r.
      destruct (c - length A)%nat as [|d] eqn:Ed; [lia|].
      assert (Hn : nth_error (A ++ is_ent sp :: B) c = nth_error B d)
        by (rewrite nth_error_app2 by lia; rewrite Ed; reflexivity).
      rewrite Hn.
      destruct (is_state sp); [rewrite Hs|destruct Hs as [old ->]|rewrite Hs].
      + rewrite nth_error_app2 by lia. do 2 f_equal. lia.
      + rewrite nth_error_app2 by lia. rewrite Ed. reflexivity.
      + rewrite nth_error_app2 by lia. do 2 f_equal. lia.
  Qed.





  (** The right half. *)
  Lemma build_right_spec : forall p sp A B c, page_ok p -> spec_for (pg_cont p) sp A B ->
    (c < length (target sp A B))%nat ->
    weight (skipn c (target sp A B)) + 37 <= P ->
    exists r sp1, build_right P p sp (plan_of sp A c) = Some (r, sp1) /\ page_ok r /\
      pg_cont r = skipn c (target sp A B) /\
      (snd (plan_of sp A c) = true -> sp1 = sp).
  Proof.
    intros p sp A B c Hp Hs Hc Hw.
    assert (H37 : 37 <= P) by lia.
    assert (Hlen : pg_num p = length (pg_cont p)) by (symmetry; apply cont_length).
    unfold build_right, plan_of. unfold target in *. rewrite app_length in Hc. cbn [length] in Hc.
    destruct (Nat.leb_spec c (length A)) as [L|L]; cbn [snd].
    - (* the new entry goes right *)
      pose proof Hs as [Hi Hs'].
      rewrite skipn_skipn_app in * by assumption.
      assert (Ho : other_entries sp c (skipn c (pg_cont p)) = skipn c A ++ B).
      { destruct (is_state sp) eqn:St.
        - rewrite other_entries_removed by congruence. rewrite Hs'. now apply skipn_skipn_app.
        - destruct Hs' as [old ->]. rewrite skipn_skipn_app by assumption.
          apply other_entries_mid; [assumption|]. rewrite skipn_length. lia.
        - rewrite other_entries_removed by congruence. rewrite Hs'. now apply skipn_skipn_app. }
      rewrite Ho. rewrite weight_app, weight_cons in Hw.
      destruct (fill_leaf_spec lsz P (skipn c A ++ B) (pg_empty P)) as (r & Ef & Ok & C & Nx).
      { apply pg_empty_ok. exact H37. }
      { cbn [pg_empty pg_num pg_ents length plus pg_next].
        change (off_end (length (skipn c A ++ B)) + sum_sz lsz (skipn c A ++ B) <= P).
        unfold off_end, sizeof_btree_hdr. rewrite app_length, sum_sz_app. unfold weight in Hw. lia. }
      change (pg_num (pg_empty P : page lent)) with 0%nat in Ef. rewrite Ef.
      change (pg_cont (pg_empty P : page lent)) with (@nil lent) in C. cbn [app] in C.
      change (pg_next (pg_empty P : page lent)) with P in Nx.
      remember (spec_after sp c (pg_num p)) as sp1 eqn:E1.
      remember (ISpec (is_key sp1) (is_idx sp1 - c) (is_state sp1) (is_msg sp1)) as sp2 eqn:E2.
      assert (Hent : is_ent sp2 = is_ent sp /\ is_idx sp2 = (length A - c)%nat /\ is_state sp2 <> StillExists).
      { subst sp2. unfold is_ent. cbn [is_key is_msg is_idx is_state]. subst sp1. unfold spec_after.
        destruct (is_state sp) eqn:St.
        - rewrite St, Hi. split; [reflexivity|]. split; [reflexivity|congruence].
        - destruct Hs' as [old Hs']. rewrite Hlen, Hs', app_length, Hi. cbn [length].
          destruct (Nat.leb_spec c (length A)); [|lia].
          destruct (Nat.ltb_spec (length A) (length A + S (length B))); [|lia]. cbn [andb is_key is_msg is_state is_idx].
          split; [reflexivity|]. split; [lia|discriminate].
        - rewrite St, Hi. split; [reflexivity|]. split; [reflexivity|congruence]. }
      destruct Hent as (He & Hidx & Hst).
      assert (Hsp2 : spec_for (pg_cont r) sp2 (skipn c A) B).
      { split; [rewrite skipn_length; exact Hidx|]. rewrite C. destruct (is_state sp2); congruence. }
      destruct (try_perform_defragmented r sp2 (skipn c A) B Ok Hsp2 Hst Nx) as (r' & Er & Ok' & C').
      { rewrite He. unfold off_end, sizeof_btree_hdr. unfold weight in Hw. rewrite app_length, sum_sz_app. lia. }
      rewrite Er. cbn [must]. exists r', sp2. split; [reflexivity|]. split; [exact Ok'|].
      split; [rewrite C', He; reflexivity|discriminate].
    - (* the new entry goes left *)
      pose proof Hs as [Hi Hs'].
      rewrite (skipn_app_ge _ A) in * by lia.
      destruct (c - length A)%nat as [|d] eqn:Ed; [lia|]. cbn [skipn] in *.
      remember (match is_state sp with StillExists => c | _ => (c - 1)%nat end) as s eqn:Es.
      assert (Ho : other_entries sp s (skipn s (pg_cont p)) = skipn d B).
      { subst s. destruct (is_state sp) eqn:St.
        - rewrite other_entries_removed by congruence. rewrite Hs', skipn_app_ge by lia. f_equal. lia.
        - destruct Hs' as [old ->]. rewrite other_entries_past by (try assumption; lia).
          rewrite skipn_app_ge by lia. rewrite Ed. reflexivity.
        - rewrite other_entries_removed by congruence. rewrite Hs', skipn_app_ge by lia. f_equal. lia. }
      rewrite Ho.
      destruct (fill_leaf_spec lsz P (skipn d B) (pg_empty P)) as (r & Ef & Ok & C & Nx).
      { apply pg_empty_ok. exact H37. }
      { change (off_end (length (skipn d B)) + sum_sz lsz (skipn d B) <= P).
        unfold off_end, sizeof_btree_hdr. unfold weight in Hw. lia. }
      change (pg_num (pg_empty P : page lent)) with 0%nat in Ef. rewrite Ef.
      exists r, (spec_after sp s (pg_num p)). split; [reflexivity|]. split; [exact Ok|].
      split; [exact C|]. intros _. unfold spec_after. subst s. destruct (is_state sp) eqn:St; auto.
      destruct (Nat.leb_spec c (is_idx sp)); [lia|reflexivity].
  Qed.

  (** The left half. *)
  Lemma cleanup_left_spec : forall p sp A B c sp1, page_ok p -> spec_for (pg_cont p) sp A B ->
    (c < length (target sp A B))%nat -> (snd (plan_of sp A c) = true -> sp1 = sp) ->
    weight (firstn c (target sp A B)) + 37 <= P ->
    exists l, cleanup_left P p sp1 (plan_of sp A c) = Some l /\ page_ok l /\
      pg_cont l = firstn c (target sp A B).
  Proof.
    intros p sp A B c sp1 Hp Hs Hc Hsp1 Hw.
    assert (Hlen : pg_num p = length (pg_cont p)) by (symmetry; apply cont_length).
    unfold cleanup_left, plan_of in *. unfold target in *. rewrite app_length in Hc. cbn [length] in Hc.
    pose proof Hs as [Hi Hs'].
    destruct (Nat.leb_spec c (length A)) as [L|L]; cbn [snd] in Hsp1.
    - destruct (pg_truncate_spec lsz P p c Hp) as (l & El & Ok & C & _).
      { rewrite Hlen. destruct (is_state sp); [rewrite Hs'|destruct Hs' as [old ->]|rewrite Hs']; rewrite app_length; lia. }
      rewrite El. exists l. split; [reflexivity|]. split; [exact Ok|].
      rewrite C, firstn_app_le by assumption.
      destruct (is_state sp); [rewrite Hs'|destruct Hs' as [old ->]|rewrite Hs']; now apply firstn_app_le.
    - rewrite (Hsp1 eq_refl). rewrite firstn_app_ge in * by lia.
      destruct (c - length A)%nat as [|d] eqn:Ed; [lia|]. cbn [firstn] in *.
      remember (firstn d B) as B1 eqn:EB.
      remember (match is_state sp with StillExists => c | _ => (c - 1)%nat end) as s eqn:Es.
      destruct (pg_truncate_spec lsz P p s Hp) as (l & El & Ok & C & _).
      { subst s. rewrite Hlen. destruct (is_state sp); [rewrite Hs'|destruct Hs' as [old ->]|rewrite Hs']; rewrite app_length; cbn [length]; lia. }
      rewrite El.
      assert (Hspl : spec_for (pg_cont l) sp A B1).
      { split; [assumption|]. rewrite C. subst s B1. destruct (is_state sp) eqn:St.
        - rewrite Hs', firstn_app_ge by lia. f_equal. f_equal. lia.
        - destruct Hs' as [old ->]. exists old. rewrite firstn_app_ge by lia.
          rewrite Ed. reflexivity.
        - rewrite Hs', firstn_app_ge by lia. f_equal. f_equal. lia. }
      pose proof (try_perform_spec l sp A B1 Ok Hspl) as T.
      destruct (can_perform l sp) eqn:Ec.
      + destruct (try_perform l sp) as [| |l']; [destruct T|discriminate|].
        destruct T as (Ok' & C' & _). exists l'. auto.
      + destruct (defragment_leaf_spec l sp A B1 Ok Hspl) as (l1 & sp2 & Edf & Ok1 & C1 & N1 & S1 & E1 & St1).
        rewrite Edf. destruct (try_perform_defragmented l1 sp2 A B1 Ok1 S1 St1 N1) as (l2 & E2 & Ok2 & C2).
        { rewrite E1. rewrite weight_app, weight_cons in Hw. unfold weight in Hw.
          unfold off_end, sizeof_btree_hdr. rewrite app_length, sum_sz_app. lia. }
        rewrite E2. cbn [must]. exists l2. split; [reflexivity|]. split; [exact Ok2|]. now rewrite C2, E1.
  Qed.

  (** Both halves fit. *)
  Lemma halves_fit : forall p sp A B c, page_ok p -> spec_for (pg_cont p) sp A B ->
    Forall (fun e => lsz e <= EM) (target sp A B) -> c = greedy (target sp A B) (weight (target sp A B)) 0 ->
    (c < length (target sp A B))%nat /\
    weight (skipn c (target sp A B)) + 37 <= P /\ weight (firstn c (target sp A B)) + 37 <= P.
  Proof.
    intros p sp A B c Hp Hs HF Hc.
    pose proof (page_fits lsz P lsz_pos p Hp) as F. unfold pg_live in F. rewrite <- cont_length in F.
    unfold off_end, sizeof_btree_hdr in F.
    rewrite Forall_forall in HF.
    assert (HE : lsz (is_ent sp) <= EM) by (apply HF; unfold target; apply in_or_app; right; left; reflexivity).
    assert (Ht : weight (target sp A B) <= P - 37 + 2 + EM).
    { unfold target. rewrite weight_app, weight_cons. unfold weight.
      destruct Hs as [_ Hs]. destruct (is_state sp); [rewrite Hs in F|destruct Hs as [old Hs]; rewrite Hs in F|rewrite Hs in F];
        rewrite !app_length, !sum_sz_app, ?sum_sz_cons in F; cbn [length] in F; lia. }
    destruct (greedy_bounds (target sp A B) (weight (target sp A B)) 0 c Hc) as (G1 & G2 & G3); [lia|].
    assert (Hne : target sp A B <> []) by (unfold target; destruct A; discriminate).
    split; [auto|]. split.
    - destruct (G3 Hne) as (e & He & Hw). apply HF in He. lia.
    - destruct (Nat.eq_dec c 0) as [->|Hc0].
      + cbn [firstn]. unfold weight. cbn. lia.
      + destruct (G2 Hc0) as (e & He & Hw). apply HF in He. lia.
  Qed.

  (** C10, in the form the tree proof uses. *)
  Lemma split_leaf_spec : forall p sp A B, page_ok p -> spec_for (pg_cont p) sp A B ->
    Forall (fun e => lsz e <= EM) (target sp A B) -> (2 <= length (target sp A B))%nat ->
    exists c pivot r sp1 l,
      splitting_pivot p sp (build_plan p sp) = Some pivot /\
      build_right P p sp (build_plan p sp) = Some (r, sp1) /\
      cleanup_left P p sp1 (build_plan p sp) = Some l /\
      page_ok l /\ page_ok r /\
      pg_cont l = firstn c (target sp A B) /\ pg_cont r = skipn c (target sp A B) /\
      (0 < c < length (target sp A B))%nat /\
      (exists m, nth_error (target sp A B) c = Some (pivot, m)).
  Proof.
    intros p sp A B Hp Hs HF H2. rewrite (build_plan_greedy p sp A B Hs).
    remember (greedy (target sp A B) (weight (target sp A B)) 0) as c eqn:Ec.
    destruct (halves_fit p sp A B c Hp Hs HF Ec) as (Hc & HR & HL).
    destruct (build_right_spec p sp A B c Hp Hs Hc HR) as (r & sp1 & Er & Okr & Cr & Hsp1).
    destruct (cleanup_left_spec p sp A B c sp1 Hp Hs Hc Hsp1 HL) as (l & El & Okl & Cl).
    rewrite (spec_pivot p sp A B c Hs Hc).
    destruct (nth_error (target sp A B) c) as [[pv m]|] eqn:En.
    2:{ apply nth_error_None in En. lia. }
    exists c, pv, r, sp1, l. cbn [option_map fst]. split; [reflexivity|]. split; [exact Er|]. split; [exact El|].
    split; [exact Okl|]. split; [exact Okr|]. split; [exact Cl|]. split; [exact Cr|].
    split; [|eauto]. split; [|exact Hc].
    destruct (target sp A B) as [|x [|y T]]; cbn in H2; try lia.
    pose proof (greedy_first x y T). lia.
  Qed.

  (** When defragmenting is chosen, the entry fits. *)
  Lemma defragment_chosen_fits : forall p sp A B, 150 <= P -> page_ok p -> spec_for (pg_cont p) sp A B ->
    sum_sizes (A ++ B) + lsz (is_ent sp) < P / 2 ->
    exists p1 sp1 p2, defragment_leaf P p sp = Some (p1, sp1) /\ try_perform p1 sp1 = PTrue p2 /\
      page_ok p2 /\ pg_cont p2 = target sp A B.
  Proof.
    intros p sp A B H150 Hp Hs Hreq. rewrite sum_sizes_eq in Hreq.
    destruct (defragment_leaf_spec p sp A B Hp Hs) as (p1 & sp1 & Ed & Ok1 & C1 & N1 & S1 & E1 & St1).
    destruct (try_perform_defragmented p1 sp1 A B Ok1 S1 St1 N1) as (p2 & E2 & Ok2 & C2).
    { rewrite E1. pose proof (sum_sz_bound _ lsz 6 (A ++ B) (fun e _ => lsz_min e)) as X.
      pose proof (N.mul_div_le P 2 ltac:(lia)). pose proof (lsz_min (is_ent sp)).
      unfold off_end, sizeof_btree_hdr. lia. }
    exists p1, sp1, p2. split; [exact Ed|]. split; [exact E2|]. split; [exact Ok2|]. rewrite C2, E1. reflexivity.
  Qed.
End Leaf.
