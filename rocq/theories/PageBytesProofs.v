(** * The byte-level page operations agree with the slotted-page model *)

From Coq Require Import List NArith Arith Bool Lia ZifyBool ZifyN.
From Verif Require Import Base Codec CodecProofs Page PageProofs PageBytes.
Import ListNotations.
Local Open Scope N_scope.

(** ** Slices and pokes *)
Lemma poke_len : forall bs o d bs', poke bs o d = Some bs' -> blen bs' = blen bs.
Proof.
  unfold poke, blen. intros bs o d bs' H.
  destruct (N.leb_spec (o + N.of_nat (length d)) (N.of_nat (length bs))); [|discriminate].
  injection H as <-. rewrite !app_length, firstn_length, skipn_length. lia.
Qed.

Lemma poke_some : forall bs o d, o + blen d <= blen bs -> exists bs', poke bs o d = Some bs'.
Proof. intros. unfold poke. destruct (N.leb_spec (o + blen d) (blen bs)); [eauto|lia]. Qed.

Lemma nth_error_firstn_lt : forall A (l : list A) n i, (i < n)%nat -> nth_error (firstn n l) i = nth_error l i.
Proof.
  induction l; intros n i H; destruct n; try lia; [now rewrite firstn_nil|].
  destruct i; cbn; [reflexivity|apply IHl; lia].
Qed.
Lemma nth_error_skipn_plus : forall A (l : list A) n i, nth_error (skipn n l) i = nth_error l (n + i).
Proof.
  induction l; intros n i; destruct n; cbn; auto.
  destruct i; reflexivity.
Qed.

Lemma poke_nth : forall bs o d bs' i, poke bs o d = Some bs' ->
  nth_error bs' i = if (Nat.leb (N.to_nat o) i && Nat.ltb i (N.to_nat (o + blen d)))%bool
                    then nth_error d (i - N.to_nat o) else nth_error bs i.
Proof.
  unfold poke. intros bs o d bs' i H.
  destruct (N.leb_spec (o + blen d) (blen bs)) as [L|L]; [|discriminate]. injection H as <-.
  unfold blen in *.
  assert (L1 : length (firstn (N.to_nat o) bs) = N.to_nat o) by (rewrite firstn_length; lia).
  destruct (Nat.leb_spec (N.to_nat o) i), (Nat.ltb_spec i (N.to_nat (o + N.of_nat (length d)))); cbn [andb].
  - rewrite nth_error_app2 by lia. rewrite nth_error_app1 by lia. now rewrite L1.
  - rewrite nth_error_app2 by lia. rewrite nth_error_app2 by lia. rewrite L1, nth_error_skipn_plus. f_equal. lia.
  - rewrite nth_error_app1 by lia. apply nth_error_firstn_lt. lia.
  - rewrite nth_error_app1 by lia. apply nth_error_firstn_lt. lia.
Qed.

Lemma nth_error_ext' : forall A (a b : list A), (forall i, nth_error a i = nth_error b i) -> a = b.
Proof.
  induction a as [|x a IH]; intros [|y b] H.
  - reflexivity.
  - specialize (H 0%nat). discriminate.
  - specialize (H 0%nat). discriminate.
  - f_equal; [specialize (H 0%nat); cbn in H; congruence|]. apply IH. intros i. exact (H (S i)).
Qed.

Lemma slice_nth : forall bs o n d i, slice bs o n = Some d ->
  nth_error d i = if Nat.ltb i (N.to_nat n) then nth_error bs (N.to_nat o + i) else None.
Proof.
  unfold slice. intros bs o n d i H. destruct (N.leb_spec (o + n) (blen bs)); [|discriminate].
  injection H as <-. destruct (Nat.ltb_spec i (N.to_nat n)).
  - rewrite nth_error_firstn_lt by lia. apply nth_error_skipn_plus.
  - apply nth_error_None. rewrite firstn_length. lia.
Qed.

Lemma slice_len : forall bs o n d, slice bs o n = Some d -> blen d = n.
Proof.
  unfold slice, blen. intros bs o n d H. destruct (N.leb_spec (o + n) (N.of_nat (length bs))); [|discriminate].
  injection H as <-. rewrite firstn_length, skipn_length. lia.
Qed.

Lemma slice_bound : forall bs o n d, slice bs o n = Some d -> o + n <= blen bs.
Proof. unfold slice. intros bs o n d H. destruct (N.leb_spec (o + n) (blen bs)); [assumption|discriminate]. Qed.

Lemma slice_some : forall bs o n, o + n <= blen bs -> exists d, slice bs o n = Some d.
Proof. intros. unfold slice. destruct (N.leb_spec (o + n) (blen bs)); [eauto|lia]. Qed.

Lemma slice_poke_disj : forall bs o d bs' o2 n2, poke bs o d = Some bs' ->
  o2 + n2 <= o \/ o + blen d <= o2 -> slice bs' o2 n2 = slice bs o2 n2.
Proof.
  intros bs o d bs' o2 n2 H Hd. pose proof (poke_len _ _ _ _ H) as HL.
  destruct (slice bs' o2 n2) as [x|] eqn:E1, (slice bs o2 n2) as [y|] eqn:E2.
  - f_equal. apply nth_error_ext'. intros i.
    rewrite (slice_nth _ _ _ _ i E1), (slice_nth _ _ _ _ i E2).
    destruct (Nat.ltb_spec i (N.to_nat n2)); [|reflexivity].
    rewrite (poke_nth _ _ _ _ _ H).
    destruct (Nat.leb_spec (N.to_nat o) (N.to_nat o2 + i)), (Nat.ltb_spec (N.to_nat o2 + i) (N.to_nat (o + blen d))); cbn [andb]; auto. lia.
  - exfalso. apply slice_bound in E1. destruct (slice_some bs o2 n2); [lia|congruence].
  - exfalso. apply slice_bound in E2. destruct (slice_some bs' o2 n2); [lia|congruence].
  - reflexivity.
Qed.

Lemma slice_poke_same : forall bs o d bs', poke bs o d = Some bs' -> slice bs' o (blen d) = Some d.
Proof.
  intros bs o d bs' H. pose proof (poke_len _ _ _ _ H) as HL.
  assert (Hb : o + blen d <= blen bs) by (unfold poke in H; destruct (N.leb_spec (o + blen d) (blen bs)); [assumption|discriminate]).
  destruct (slice_some bs' o (blen d)) as [x Hx]; [lia|]. rewrite Hx. f_equal.
  apply nth_error_ext'. intros i. rewrite (slice_nth _ _ _ _ i Hx). rewrite (poke_nth _ _ _ _ _ H).
  destruct (Nat.ltb_spec i (N.to_nat (blen d))).
  - destruct (Nat.leb_spec (N.to_nat o) (N.to_nat o + i)), (Nat.ltb_spec (N.to_nat o + i) (N.to_nat (o + blen d))); cbn [andb]; try lia.
    f_equal. lia.
  - symmetry. apply nth_error_None. unfold blen in *. lia.
Qed.

(** A slice inside another. *)
Lemma slice_sub : forall bs o n d a m x, slice bs o n = Some d -> slice d a m = Some x ->
  slice bs (o + a) m = Some x.
Proof.
  intros bs o n d a m x H1 H2. pose proof (slice_bound _ _ _ _ H1). pose proof (slice_bound _ _ _ _ H2).
  pose proof (slice_len _ _ _ _ H1).
  destruct (slice_some bs (o + a) m) as [y Hy]; [lia|]. rewrite Hy. f_equal. apply nth_error_ext'. intros i.
  rewrite (slice_nth _ _ _ _ i Hy), (slice_nth _ _ _ _ i H2).
  destruct (Nat.ltb_spec i (N.to_nat m)); [|reflexivity]. rewrite (slice_nth _ _ _ _ _ H1).
  destruct (Nat.ltb_spec (N.to_nat a + i) (N.to_nat n)); [f_equal; lia|lia].
Qed.

Lemma skipn_slice : forall bs o n d, slice bs o n = Some d -> exists r, skipn (N.to_nat o) bs = d ++ r.
Proof.
  unfold slice. intros bs o n d H. destruct (o + n <=? blen bs); [|discriminate]. injection H as <-.
  exists (skipn (N.to_nat n) (skipn (N.to_nat o) bs)). symmetry. apply firstn_skipn.
Qed.

Lemma enc_u16_len : forall x, blen (enc_u16 x) = 2. Proof. reflexivity. Qed.

Lemma rd16_poke_disj : forall bs o d bs' a, poke bs o d = Some bs' ->
  a + 2 <= o \/ o + blen d <= a -> rd16 bs' a = rd16 bs a.
Proof. intros. unfold rd16. now rewrite (slice_poke_disj bs o d). Qed.

Lemma rd16_wr16_same : forall bs o x bs', wr16 bs o x = Some bs' -> x < 2 ^ 16 -> rd16 bs' o = Some x.
Proof.
  unfold wr16, rd16. intros bs o x bs' H Hx. apply slice_poke_same in H. rewrite enc_u16_len in H. rewrite H.
  unfold enc_u16. f_equal. rewrite (N.mod_small (x / 256) 256).
  - rewrite N.add_comm, <- N.div_mod'. reflexivity.
  - apply N.div_lt_upper_bound; [lia|]. replace (256 * 256) with (2 ^ 16) by reflexivity. lia.
Qed.

Lemma rd8_some : forall bs o, o < blen bs -> exists b, rd8 bs o = Some b.
Proof.
  intros bs o H. unfold rd8. destruct (slice_some bs o 1) as [d Hd]; [lia|]. rewrite Hd.
  apply slice_len in Hd. unfold blen in Hd. destruct d as [|b [|? ?]]; cbn in Hd; try lia. eauto.
Qed.

(** ** The representation relation *)
Record good_codec {E} (c : codec E) (ok : E -> Prop) : Prop := {
  gc_len : forall old e, ok e -> blen (c_enc c old e) = c_sz c e;
  gc_dec : forall old e rest, ok e -> c_dec c (c_enc c old e ++ rest) = Some e;
  gc_min : forall e, 3 <= c_sz c e
}.

Section Rep.
  Context {E : Type}.
  Variable c : codec E.
  Variable ok : E -> Prop.
  Hypothesis good : good_codec c ok.
  Variable P : N.
  Hypothesis HP : P < 2 ^ 16.
  Notation sz := (c_sz c).

  Definition slot_rep (bs : bytes) (k : nat) (o : N) (e : E) : Prop :=
    rd16 bs (off_end k) = Some o /\ exists old, slice bs o (sz e) = Some (c_enc c old e).

  Record rep (bs : bytes) (p : page E) : Prop := {
    r_len : blen bs = P;
    r_ok : page_ok sz P p;
    r_ents : Forall ok (pg_cont p);
    r_num : rd16 bs at_num = Some (N.of_nat (pg_num p));
    r_next : rd16 bs at_next = Some (pg_next p);
    r_slot : forall k o e, nth_error (pg_ents p) k = Some (o, e) -> slot_rep bs k o e
  }.

  Lemma szpos : forall e, 0 < sz e.
  Proof. intros e. pose proof (gc_min _ _ good e). lia. Qed.

  Lemma rep_num_small : forall bs p, rep bs p -> N.of_nat (pg_num p) < 2 ^ 15.
  Proof.
    intros bs p H. destruct (r_ok _ _ H). unfold off_end, sizeof_btree_hdr in *.
    change (2 ^ 16) with 65536 in HP. change (2 ^ 15) with 32768. lia.
  Qed.

  Lemma rep_ok_at : forall bs p k o e, rep bs p -> nth_error (pg_ents p) k = Some (o, e) -> ok e.
  Proof.
    intros bs p k o e H Hk. pose proof (r_ents _ _ H) as F. rewrite Forall_forall in F. apply F.
    unfold pg_cont. apply in_map_iff. exists (o, e). split; [reflexivity|eapply nth_error_In; eauto].
  Qed.

  Lemma b_at_rep : forall bs p k o e, rep bs p -> nth_error (pg_ents p) k = Some (o, e) ->
    b_off bs k = Some o /\ b_at c bs o = Some e.
  Proof.
    intros bs p k o e H Hk. destruct (r_slot _ _ H _ _ _ Hk) as [Ho [old Hs]].
    split; [exact Ho|]. unfold b_at.
    pose proof (slice_bound _ _ _ _ Hs). destruct (N.leb_spec o (blen bs)); [|lia].
    destruct (skipn_slice _ _ _ _ Hs) as [r ->]. apply (gc_dec _ _ good). eapply rep_ok_at; eauto.
  Qed.

  Lemma b_entries_from_rep : forall bs p, rep bs p -> forall n k, (k + n = pg_num p)%nat ->
    b_entries_from c bs k n = Some (skipn k (pg_cont p)).
  Proof.
    intros bs p H. induction n as [|n IH]; intros k Hk.
    - cbn. rewrite skipn_all2; [reflexivity|]. rewrite cont_length. lia.
    - cbn [b_entries_from]. unfold b_entry.
      destruct (nth_error (pg_ents p) k) as [[o e]|] eqn:En.
      2:{ apply nth_error_None in En. unfold pg_num in Hk. lia. }
      destruct (b_at_rep _ _ _ _ _ H En) as [-> A]. cbn [obind]. rewrite A. cbn [obind].
      rewrite IH by lia. cbn [obind]. f_equal.
      assert (Ec : nth_error (pg_cont p) k = Some e) by (unfold pg_cont; rewrite nth_error_map, En; reflexivity).
      clear -Ec. revert k Ec. induction (pg_cont p) as [|x l IH]; intros k Ec; destruct k; cbn in *; try discriminate.
      + now injection Ec as <-. + now apply IH.
  Qed.

  Lemma b_entries_rep : forall bs p, rep bs p -> b_entries c bs = Some (pg_cont p).
  Proof.
    intros bs p H. unfold b_entries. rewrite (r_num _ _ H). cbn [obind]. rewrite Nat2N.id.
    rewrite (b_entries_from_rep _ _ H); [reflexivity|lia].
  Qed.

  (** Results correspond *)
  Definition sim (r : option (pres bytes)) (a : pres (page E)) : Prop :=
    match a with
    | PAbort => r = Some PAbort
    | PFalse => r = Some PFalse
    | PTrue p' => exists bs', r = Some (PTrue bs') /\ rep bs' p'
    end.

  Lemma off_end_ge : forall k, 37 <= off_end k. Proof. intros. unfold off_end, sizeof_btree_hdr. lia. Qed.
  Lemma off_end_S : forall k, off_end (S k) = off_end k + 2. Proof. intros. unfold off_end. lia. Qed.
  Lemma off_end_mono : forall a b, (a <= b)%nat -> off_end a <= off_end b. Proof. intros. unfold off_end. lia. Qed.
  Lemma off_end_lt : forall a b, (a < b)%nat -> off_end a + 2 <= off_end b. Proof. intros. unfold off_end. lia. Qed.

  Lemma fill_some : forall bs o e, ok e -> o + sz e <= blen bs ->
    exists old bs', b_fill c bs o e = Some bs' /\ poke bs o (c_enc c old e) = Some bs'.
  Proof.
    intros bs o e He Hb. pose proof (gc_min _ _ good e). unfold b_fill.
    destruct (rd8_some bs (o + 2)) as [old ->]; [lia|]. cbn [obind].
    destruct (poke_some bs o (c_enc c old e)) as [bs' Hb']; [rewrite (gc_len _ _ good) by assumption; lia|].
    exists old, bs'. auto.
  Qed.

  (** The common end of the set functions. *)
  Lemma place_true : forall bs next ents k e,
    let o := next - sz e in
    let nn := if Nat.ltb k (length ents) then length ents else S k in
    blen bs = P -> next <= P -> off_end nn + sz e <= next -> (k <= length ents)%nat -> ok e ->
    Forall ok (map snd ents) ->
    page_ok sz P (Page o (set_nth k (o, e) ents)) ->
    (forall i o' e', i <> k -> nth_error ents i = Some (o', e') -> slot_rep bs i o' e') ->
    exists bs', b_place c bs next (length ents) k e = Some (PTrue bs') /\
                rep bs' (Page o (set_nth k (o, e) ents)).
  Proof.
    intros bs next ents k e o nn HL Hn Hroom Hk He Hall Hok Hslots.
    change (2 ^ 16) with 65536 in HP.
    assert (Hnn : length (set_nth k (o, e) ents) = nn).
    { unfold nn. destruct (Nat.ltb_spec k (length ents)); [now apply set_nth_length|].
      assert (k = length ents) as -> by lia. rewrite set_nth_end, app_length. cbn. lia. }
    assert (Hknn : (k < nn)%nat) by (unfold nn; destruct (Nat.ltb_spec k (length ents)); lia).
    pose proof (off_end_lt _ _ Hknn) as Hoff.
    pose proof (off_end_ge k) as Hge.
    unfold b_place. fold nn. destruct (N.ltb_spec next (off_end nn + sz e)); [lia|]. fold o.
    destruct (fill_some bs o e He) as (old & b1 & E1 & P1); [unfold o; lia|].
    rewrite E1. cbn [obind].
    pose proof (gc_len _ _ good old e He) as HEL.
    pose proof (poke_len _ _ _ _ P1) as L1.
    destruct (poke_some b1 (off_end k) (enc_u16 o)) as [b2 P2]; [rewrite enc_u16_len; unfold o in *; lia|].
    unfold wr16. rewrite P2. cbn [obind]. pose proof (poke_len _ _ _ _ P2) as L2.
    destruct (poke_some b2 at_num (enc_u16 (N.of_nat nn))) as [b3 P3]; [rewrite enc_u16_len; unfold at_num; lia|].
    rewrite P3. cbn [obind]. pose proof (poke_len _ _ _ _ P3) as L3.
    destruct (poke_some b3 at_next (enc_u16 o)) as [b4 P4]; [rewrite enc_u16_len; unfold at_next; lia|].
    rewrite P4. cbn [obind]. pose proof (poke_len _ _ _ _ P4) as L4.
    exists b4. split; [reflexivity|].
    assert (Hosmall : o < 2 ^ 16) by (change (2^16) with 65536; unfold o; lia).
    assert (Hnsmall : N.of_nat nn < 2 ^ 16) by (change (2^16) with 65536; unfold off_end, sizeof_btree_hdr in *; lia).
    (* any slot or slice away from the four writes is unchanged *)
    assert (S4 : forall a n, (37 <= a) -> (a + n <= off_end k \/ off_end k + 2 <= a) ->
                 (a + n <= o \/ o + sz e <= a) -> slice b4 a n = slice bs a n).
    { intros a n Ha H1 H2.
      rewrite (slice_poke_disj _ _ _ _ a n P4) by (rewrite enc_u16_len; unfold at_next; lia).
      rewrite (slice_poke_disj _ _ _ _ a n P3) by (rewrite enc_u16_len; unfold at_num; lia).
      rewrite (slice_poke_disj _ _ _ _ a n P2) by (rewrite enc_u16_len; lia).
      rewrite (slice_poke_disj _ _ _ _ a n P1) by lia. reflexivity. }
    pose proof Hok as Hok0. destruct Hok as [H1 H2 H3 H4]. cbn [pg_next pg_ents] in *.
    unfold pg_num in H1. cbn [pg_ents] in H1. rewrite Hnn in H1.
    constructor; cbn [pg_next pg_ents].
    - congruence.
    - exact Hok0.
    - unfold pg_cont. cbn [pg_ents]. rewrite set_nth_map. cbn [snd]. rewrite Forall_forall in *.
      intros y Hy. apply in_set_nth in Hy. destruct Hy as [->|Hy]; auto.
    - unfold pg_num. cbn [pg_ents]. rewrite Hnn.
      rewrite (rd16_poke_disj _ _ _ _ at_num P4) by (rewrite enc_u16_len; unfold at_num, at_next; lia).
      eapply rd16_wr16_same; [exact P3|exact Hnsmall].
    - eapply rd16_wr16_same; [exact P4|exact Hosmall].
    - intros i o' e' Hi. rewrite nth_error_set_nth in Hi by lia. destruct (Nat.eqb_spec i k) as [->|Hik].
      + injection Hi as <- <-. split.
        * rewrite (rd16_poke_disj _ _ _ _ (off_end k) P4) by (rewrite enc_u16_len; unfold at_next; lia).
          rewrite (rd16_poke_disj _ _ _ _ (off_end k) P3) by (rewrite enc_u16_len; unfold at_num; lia).
          eapply rd16_wr16_same; [exact P2|exact Hosmall].
        * exists old.
          rewrite (slice_poke_disj _ _ _ _ o (sz e) P4) by (rewrite enc_u16_len; unfold at_next; unfold o in *; lia).
          rewrite (slice_poke_disj _ _ _ _ o (sz e) P3) by (rewrite enc_u16_len; unfold at_num; unfold o in *; lia).
          rewrite (slice_poke_disj _ _ _ _ o (sz e) P2) by (rewrite enc_u16_len; unfold o in *; lia).
          rewrite <- HEL. eapply slice_poke_same. exact P1.
      + destruct (Hslots _ _ _ Hik Hi) as [A [old' B]].
        assert (Hilen : (i < nn)%nat).
        { assert (i < length ents)%nat by (apply nth_error_Some; congruence).
          unfold nn. destruct (Nat.ltb_spec k (length ents)); lia. }
        pose proof (off_end_lt _ _ Hilen) as Hoffi. pose proof (off_end_ge i).
        assert (Hin : In (o', e') (set_nth k (o, e) ents)).
        { eapply nth_error_In with (n := i). rewrite nth_error_set_nth by lia.
          destruct (Nat.eqb_spec i k); [contradiction|exact Hi]. }
        destruct (H3 _ _ Hin) as [B1 B2].
        assert (D : disjoint sz (o, e) (o', e')).
        { apply (H4 k i); [congruence| |].
          - rewrite nth_error_set_nth by lia. now rewrite Nat.eqb_refl.
          - rewrite nth_error_set_nth by lia. destruct (Nat.eqb_spec i k); [contradiction|exact Hi]. }
        unfold disjoint in D. cbn [fst snd] in D.
        split.
        * unfold rd16. rewrite S4; [exact A|lia| |lia].
          unfold off_end. lia.
        * exists old'. rewrite S4; [exact B|lia|right; lia|lia].
  Qed.

  Lemma place_sim : forall bs p k e, rep bs p -> (k <= pg_num p)%nat -> ok e ->
    sim (b_place c bs (pg_next p) (pg_num p) k e) (pg_place sz p k e).
  Proof.
    intros bs p k e H Hk He. pose proof (pg_place_spec sz P p k e (r_ok _ _ H) Hk) as Spl.
    unfold pg_place in *. remember (if Nat.ltb k (pg_num p) then pg_num p else S k) as nn eqn:En.
    destruct (N.ltb_spec (pg_next p) (off_end nn + sz e)) as [L|L].
    - cbn. unfold b_place. rewrite <- En. destruct (N.ltb_spec (pg_next p) (off_end nn + sz e)); [reflexivity|lia].
    - cbn. unfold pg_num. apply place_true.
      + apply (r_len _ _ H).
      + apply (po_next _ _ _ (r_ok _ _ H)).
      + unfold pg_num in En. rewrite <- En. lia.
      + exact Hk.
      + exact He.
      + apply (r_ents _ _ H).
      + apply Spl.
      + intros i o' e' _ Hi. now apply (r_slot _ _ H).
  Qed.

  Lemma overwrite_sim : forall bs p k o old e, rep bs p -> ok e ->
    nth_error (pg_ents p) k = Some (o, old) -> sz e <= sz old ->
    exists bs', b_fill c bs o e = Some bs' /\ rep bs' (Page (pg_next p) (set_nth k (o, e) (pg_ents p))).
  Proof.
    intros bs p k o old e H He Hk Hs.
    pose proof (overwrite_ok sz P p k o old e (r_ok _ _ H) Hk Hs) as Hok.
    assert (Hlt : (k < length (pg_ents p))%nat) by (apply nth_error_Some; congruence).
    destruct (r_ok _ _ H) as [H1 H2 H3 H4].
    pose proof (nth_error_In _ _ Hk) as Hin. destruct (H3 _ _ Hin) as [B1 B2].
    destruct (fill_some bs o e He) as (oldb & b1 & E1 & P1); [rewrite (r_len _ _ H); lia|].
    exists b1. split; [exact E1|].
    pose proof (gc_len _ _ good oldb e He) as HEL. pose proof (poke_len _ _ _ _ P1) as L1.
    assert (Hge : 37 <= pg_next p) by (pose proof (off_end_ge (pg_num p)); lia).
    constructor; cbn [pg_next pg_ents].
    - rewrite L1. apply (r_len _ _ H).
    - exact Hok.
    - unfold pg_cont. cbn [pg_ents]. rewrite set_nth_map. cbn [snd]. pose proof (r_ents _ _ H) as F.
      rewrite Forall_forall in *. intros y Hy. apply in_set_nth in Hy. destruct Hy as [->|Hy]; auto.
    - unfold pg_num. cbn [pg_ents]. rewrite set_nth_length by assumption.
      rewrite (rd16_poke_disj _ _ _ _ at_num P1) by (unfold at_num; lia). apply (r_num _ _ H).
    - rewrite (rd16_poke_disj _ _ _ _ at_next P1) by (unfold at_next; lia). apply (r_next _ _ H).
    - intros i o' e' Hi. rewrite nth_error_set_nth in Hi by lia.
      assert (Hi2 : exists x, nth_error (pg_ents p) i = Some x).
      { destruct (Nat.eqb_spec i k) as [->|]; eauto. }
      destruct Hi2 as [x Hx].
      assert (Hilen : (i < pg_num p)%nat) by (apply nth_error_Some; congruence).
      pose proof (off_end_lt _ _ Hilen) as Hoffi.
      destruct (Nat.eqb_spec i k) as [->|Hik].
      + injection Hi as <- <-. split.
        * rewrite (rd16_poke_disj _ _ _ _ (off_end k) P1) by lia. apply (r_slot _ _ H _ _ _ Hk).
        * exists oldb. rewrite <- HEL. eapply slice_poke_same; eauto.
      + destruct (r_slot _ _ H _ _ _ Hi) as [A [old' B]].
        specialize (H4 k i _ _ ltac:(congruence) Hk Hi). unfold disjoint in H4. cbn in H4.
        split.
        * rewrite (rd16_poke_disj _ _ _ _ (off_end i) P1) by lia. exact A.
        * exists old'. rewrite (slice_poke_disj _ _ _ _ _ _ P1) by lia. exact B.
  Qed.

  Lemma set_leaf_sim : forall bs p k e, rep bs p -> ok e ->
    sim (b_set_leaf c bs k e) (set_leaf_entry sz p k e).
  Proof.
    intros bs p k e H He. unfold b_set_leaf. rewrite (r_num _ _ H), (r_next _ _ H). cbn [obind].
    rewrite Nat2N.id. unfold set_leaf_entry.
    destruct (nth_error (pg_ents p) k) as [[o old]|] eqn:En.
    - assert (Hlt : (k < pg_num p)%nat) by (apply nth_error_Some; congruence).
      destruct (Nat.ltb_spec k (pg_num p)); [|lia].
      destruct (b_at_rep _ _ _ _ _ H En) as [-> A]. cbn [obind]. rewrite A. cbn [obind].
      destruct (N.leb_spec (sz e) (sz old)).
      + destruct (overwrite_sim _ _ _ _ _ _ H He En) as (b1 & -> & R); [assumption|]. cbn. eauto.
      + apply place_sim; auto; lia.
    - apply nth_error_None in En. fold (pg_num p) in En.
      destruct (Nat.ltb_spec k (pg_num p)); [lia|].
      destruct (Nat.leb_spec k (pg_num p)); [apply place_sim; auto|reflexivity].
  Qed.

  Lemma set_index_sim : forall bs p k e, rep bs p -> ok e ->
    sim (b_set_index c bs k e) (set_index_entry sz p k e).
  Proof.
    intros bs p k e H He. unfold b_set_index. rewrite (r_num _ _ H), (r_next _ _ H). cbn [obind].
    rewrite Nat2N.id.
    destruct (Nat.ltb_spec (pg_num p) k) as [L0|L0].
    { unfold set_index_entry. destruct (Nat.ltb_spec (pg_num p) k); [reflexivity|lia]. }
    pose proof (set_index_entry_spec sz P szpos p k e (r_ok _ _ H) L0) as Spec.
    unfold set_index_entry in *. destruct (Nat.ltb_spec (pg_num p) k) as [|_]; [lia|].
    destruct (nth_error (pg_ents p) k) as [[o old]|] eqn:En.
    - assert (Hlt : (k < pg_num p)%nat) by (apply nth_error_Some; congruence).
      destruct (Nat.ltb_spec k (pg_num p)) as [_|]; [|lia].
      destruct (b_at_rep _ _ _ _ _ H En) as [-> A]. cbn [obind]. rewrite A. cbn [obind].
      destruct ((pg_next p =? o) && (off_end (pg_num p) + sz e <=? pg_next p + sz old)) eqn:Es.
      + apply andb_true_iff in Es. destruct Es as [Eo Ef]. apply N.eqb_eq in Eo. apply N.leb_le in Ef.
        destruct (r_ok _ _ H) as [H1 H2 H3 H4].
        assert (Hold : o + sz old <= P) by (apply nth_error_In in En; apply H3 in En; lia).
        assert (Hge : 37 <= pg_next p) by (pose proof (off_end_ge (pg_num p)); lia).
        destruct (poke_some bs at_next (enc_u16 (pg_next p + sz old))) as [b1 P1].
        { rewrite enc_u16_len, (r_len _ _ H). unfold at_next. lia. }
        unfold wr16. rewrite P1. cbn [obind].
        rewrite (rd16_wr16_same _ _ _ _ P1) by lia. cbn [obind].
        unfold pg_place in *. cbn [pg_next] in *. 
        change (pg_num (Page (pg_next p + sz old) (pg_ents p))) with (pg_num p) in *. cbn [pg_ents] in *.
        destruct (Nat.ltb_spec k (pg_num p)); [|lia].
        destruct (N.ltb_spec (pg_next p + sz old) (off_end (pg_num p) + sz e)); [lia|].
        unfold sim. unfold pg_num. apply place_true.
        * rewrite (poke_len _ _ _ _ P1). apply (r_len _ _ H).
        * lia.
        * fold (pg_num p). destruct (Nat.ltb_spec k (pg_num p)); lia.
        * fold (pg_num p). lia.
        * exact He.
        * apply (r_ents _ _ H).
        * apply Spec.
        * intros i o' e' _ Hi. destruct (r_slot _ _ H _ _ _ Hi) as [X [old' Y]].
          pose proof (nth_error_In _ _ Hi) as Hin. apply H3 in Hin. pose proof (off_end_ge i).
          split.
          -- rewrite (rd16_poke_disj _ _ _ _ _ P1) by (rewrite enc_u16_len; unfold at_next; lia). exact X.
          -- exists old'. rewrite (slice_poke_disj _ _ _ _ _ _ P1) by (rewrite enc_u16_len; unfold at_next; lia). exact Y.
      + destruct (N.leb_spec (sz e) (sz old)).
        * destruct (overwrite_sim _ _ _ _ _ _ H He En) as (b1 & -> & R); [assumption|]. cbn. eauto.
        * apply place_sim; auto; lia.
    - apply nth_error_None in En. fold (pg_num p) in En.
      destruct (Nat.ltb_spec k (pg_num p)); [lia|]. apply place_sim; auto.
  Qed.

  (** The memmove *)
  Lemma rotate_sim : forall bs p k p', rep bs p -> pg_rotate p k = Some p' ->
    exists bs', b_rotate bs k = Some bs' /\ rep bs' p'.
  Proof.
    intros bs p k p' H Hr. unfold pg_rotate in Hr.
    destruct (pg_num p) as [|n] eqn:En; [discriminate|].
    destruct (nth_error (pg_ents p) n) as [[ol el]|] eqn:El; [|discriminate].
    destruct (Nat.leb_spec k n) as [Lk|]; [|discriminate]. injection Hr as <-.
    assert (Hents : pg_ents p = firstn n (pg_ents p) ++ [(ol, el)]).
    { rewrite <- (firstn_skipn n (pg_ents p)) at 1. f_equal.
      apply nth_error_split in El. destruct El as (l1 & l2 & Esp & L). unfold pg_num in En. rewrite Esp in *.
      rewrite app_length in En. cbn in En. destruct l2; [|cbn in En; lia].
      rewrite <- L. rewrite skipn_app, skipn_all, Nat.sub_diag. reflexivity. }
    remember (firstn n (pg_ents p)) as l eqn:Hl.
    assert (Ll : length l = n) by (subst l; rewrite firstn_length; unfold pg_num in En; lia).
    destruct (r_slot _ _ H _ _ _ El) as [Eoff _].
    pose proof (r_ok _ _ H) as Pok. pose proof Pok as [H1 H2 H3 H4]. rewrite En in H1.
    pose proof (r_len _ _ H) as HL.
    pose proof (off_end_ge k) as Hge.
    unfold b_rotate. rewrite (r_num _ _ H). cbn [obind]. rewrite Nat2N.id, En.
    destruct (Nat.ltb_spec k (S n)); [|lia].
    replace (S n - 1)%nat with n by lia. replace (S n - k - 1)%nat with (n - k)%nat by lia.
    unfold b_off. rewrite Eoff. cbn [obind].
    destruct (slice_some bs (off_end k) (2 * N.of_nat (n - k))) as [mv Hmv].
    { rewrite HL. unfold off_end, sizeof_btree_hdr in *. lia. }
    rewrite Hmv. cbn [obind]. pose proof (slice_len _ _ _ _ Hmv) as Lmv.
    destruct (poke_some bs (off_end (S k)) mv) as [b1 P1].
    { rewrite HL, Lmv. unfold off_end, sizeof_btree_hdr in *. lia. }
    rewrite P1. cbn [obind]. pose proof (poke_len _ _ _ _ P1) as L1.
    destruct (poke_some b1 (off_end k) (enc_u16 ol)) as [b2 P2].
    { rewrite enc_u16_len, L1, HL. unfold off_end, sizeof_btree_hdr in *. lia. }
    unfold wr16. rewrite P2. pose proof (poke_len _ _ _ _ P2) as L2.
    exists b2. split; [reflexivity|].
    assert (Hol : ol < 2 ^ 16).
    { apply nth_error_In in El. apply H3 in El. lia. }
    assert (Soff : forall a m, a + m <= off_end k \/ off_end (S n) <= a -> slice b2 a m = slice bs a m).
    { intros a m Ha.
      rewrite (slice_poke_disj _ _ _ _ a m P2) by (rewrite enc_u16_len; unfold off_end in *; lia).
      rewrite (slice_poke_disj _ _ _ _ a m P1) by (rewrite Lmv; unfold off_end in *; lia). reflexivity. }
    assert (Rsh : forall i, (k <= i < n)%nat -> rd16 b2 (off_end (S i)) = rd16 bs (off_end i)).
    { intros i Hi. unfold rd16.
      rewrite (slice_poke_disj _ _ _ _ (off_end (S i)) 2 P2) by (rewrite enc_u16_len; unfold off_end; lia).
      pose proof (slice_poke_same _ _ _ _ P1) as Hsame.
      destruct (slice_some mv (2 * N.of_nat (i - k)) 2) as [x Hx]; [rewrite Lmv; lia|].
      pose proof (slice_sub _ _ _ _ _ _ _ Hsame Hx) as X1.
      pose proof (slice_sub _ _ _ _ _ _ _ Hmv Hx) as X2.
      replace (off_end (S k) + 2 * N.of_nat (i - k)) with (off_end (S i)) in X1 by (unfold off_end; lia).
      replace (off_end k + 2 * N.of_nat (i - k)) with (off_end i) in X2 by (unfold off_end; lia).
      now rewrite X1, X2. }
    assert (Hperm : page_ok sz P (Page (pg_next p) (insert_nth k (ol, el) l))).
    { apply page_ok_perm; [exact Pok|]. rewrite Hents, insert_nth_perm. symmetry. apply Permutation.Permutation_cons_append. }
    assert (Hex : forall i o' e', nth_error (insert_nth k (ol, el) l) i = Some (o', e') ->
              (exists j, nth_error (pg_ents p) j = Some (o', e') /\ rd16 b2 (off_end i) = rd16 bs (off_end j))).
    { intros i o' e' Hi. unfold insert_nth in Hi.
      destruct (lt_eq_lt_dec i k) as [[Lt|Eq]|Gt].
      - rewrite nth_error_app1 in Hi by (rewrite firstn_length; lia). rewrite nth_error_firstn_lt in Hi by assumption.
        exists i. split; [rewrite Hents, nth_error_app1 by lia; exact Hi|].
        unfold rd16. rewrite Soff; [reflexivity|left; unfold off_end; lia].
      - subst i. rewrite nth_error_app2 in Hi by (rewrite firstn_length; lia).
        rewrite firstn_length in Hi. replace (k - Nat.min k (length l))%nat with 0%nat in Hi by lia.
        injection Hi as <- <-. exists n. split; [exact El|].
        rewrite (rd16_wr16_same _ _ _ _ P2) by exact Hol. now rewrite Eoff.
      - rewrite nth_error_app2 in Hi by (rewrite firstn_length; lia).
        rewrite firstn_length in Hi. replace (i - Nat.min k (length l))%nat with (S (i - k - 1))%nat in Hi by lia.
        cbn [nth_error] in Hi. rewrite nth_error_skipn_plus in Hi.
        replace (k + (i - k - 1))%nat with (i - 1)%nat in Hi by lia.
        assert (i - 1 < length l)%nat by (apply nth_error_Some; congruence).
        exists (i - 1)%nat. split; [rewrite Hents, nth_error_app1 by lia; exact Hi|].
        replace i with (S (i - 1)) at 1 by lia. apply Rsh. lia. }
    constructor; cbn [pg_next pg_ents].
    - congruence.
    - exact Hperm.
    - unfold pg_cont. cbn [pg_ents]. pose proof (r_ents _ _ H) as F. rewrite Forall_forall in *.
      intros y Hy. apply F. unfold pg_cont. rewrite in_map_iff in *. destruct Hy as (z & Hz & Hin).
      exists z. split; [assumption|]. rewrite Hents.
      eapply Permutation.Permutation_in; [|exact Hin]. rewrite insert_nth_perm. apply Permutation.Permutation_cons_append.
    - unfold pg_num. cbn [pg_ents]. rewrite insert_nth_length, Ll.
      unfold rd16. rewrite Soff by (left; unfold at_num; lia). fold (rd16 bs at_num). rewrite (r_num _ _ H), En. reflexivity.
    - unfold rd16. rewrite Soff by (left; unfold at_next; lia). apply (r_next _ _ H).
    - intros i o' e' Hi. destruct (Hex _ _ _ Hi) as (j & Hj & Erd).
      destruct (r_slot _ _ H _ _ _ Hj) as [A [old B]]. split; [congruence|].
      exists old. rewrite Soff; [exact B|]. right. apply nth_error_In in Hj. apply H3 in Hj. lia.
  Qed.

  Lemma rotate_none : forall bs p k, rep bs p -> pg_rotate p k = None -> b_rotate bs k = None.
  Proof.
    intros bs p k H Hr. unfold b_rotate. rewrite (r_num _ _ H). cbn [obind]. rewrite Nat2N.id.
    destruct (Nat.ltb_spec k (pg_num p)) as [L|L]; [|reflexivity]. exfalso.
    unfold pg_rotate in Hr. destruct (pg_num p) as [|n] eqn:En; [lia|].
    destruct (nth_error (pg_ents p) n) eqn:El.
    - destruct (Nat.leb_spec k n); [discriminate|lia].
    - apply nth_error_None in El. unfold pg_num in En. lia.
  Qed.

  Lemma insert_leaf_sim : forall bs p k e, rep bs p -> ok e -> (k <= pg_num p)%nat ->
    sim (b_insert_leaf c bs k e) (insert_leaf_entry sz p k e).
  Proof.
    intros bs p k e H He Hk. unfold b_insert_leaf, b_insert_with. rewrite (r_num _ _ H). cbn [obind]. rewrite Nat2N.id.
    pose proof (set_leaf_sim bs p (pg_num p) e H He) as S.
    destruct (insert_leaf_entry_spec sz P p k e (r_ok _ _ H) Hk) as [[Ei _]|(p2 & Ei & _)];
      rewrite Ei; unfold insert_leaf_entry in Ei;
      destruct (set_leaf_entry sz p (pg_num p) e) as [| |p1]; cbn in S; try discriminate.
    - now rewrite S.
    - destruct (pg_rotate p1 k); discriminate.
    - destruct S as (b1 & -> & R1). destruct (pg_rotate p1 k) as [p3|] eqn:Er; [|discriminate].
      injection Ei as ->. destruct (rotate_sim _ _ _ _ R1 Er) as (b2 & E2 & R2). cbn [obind].
      rewrite E2. cbn. eauto.
  Qed.

  Lemma insert_index_sim : forall bs p k e, rep bs p -> ok e -> (k <= pg_num p)%nat ->
    sim (b_insert_index c bs k e) (insert_index_entry sz p k e).
  Proof.
    intros bs p k e H He Hk. unfold b_insert_index, b_insert_with. rewrite (r_num _ _ H). cbn [obind]. rewrite Nat2N.id.
    pose proof (set_index_sim bs p (pg_num p) e H He) as S.
    destruct (insert_index_entry_spec sz P p k e (r_ok _ _ H) Hk) as [[Ei _]|(p2 & Ei & _)];
      rewrite Ei; unfold insert_index_entry in Ei;
      destruct (set_index_entry sz p (pg_num p) e) as [| |p1]; cbn in S; try discriminate.
    - now rewrite S.
    - destruct (pg_rotate p1 k); discriminate.
    - destruct S as (b1 & -> & R1). destruct (pg_rotate p1 k) as [p3|] eqn:Er; [|discriminate].
      injection Ei as ->. destruct (rotate_sim _ _ _ _ R1 Er) as (b2 & E2 & R2). cbn [obind].
      rewrite E2. cbn. eauto.
  Qed.

  (** Initialised and reset pages *)
  Lemma empty_rep : forall bs, blen bs = P -> 37 <= P -> rd16 bs at_num = Some 0 -> rd16 bs at_next = Some P ->
    rep bs (pg_empty P).
  Proof.
    intros bs HL Hp H1 H2. constructor; cbn; auto.
    - apply pg_empty_ok. exact Hp.
    - intros k o e Hk. destruct k; discriminate.
  Qed.

  Lemma init_rep : forall junk, blen junk = P -> 37 <= P -> exists bs, b_init P junk = Some bs /\ rep bs (pg_empty P).
  Proof.
    intros junk HL Hp. unfold b_init.
    assert (L0 : blen (repeat 0 37) = 37) by reflexivity.
    destruct (poke_some junk 0 (repeat 0 37)) as [b1 P1]; [lia|]. rewrite P1. cbn [obind].
    pose proof (poke_len _ _ _ _ P1) as L1.
    destruct (poke_some b1 at_next (enc_u16 P)) as [b2 P2]; [rewrite enc_u16_len; unfold at_next; lia|].
    unfold wr16. rewrite P2. pose proof (poke_len _ _ _ _ P2) as L2. exists b2. split; [reflexivity|].
    apply empty_rep; [congruence|assumption| |].
    - rewrite (rd16_poke_disj _ _ _ _ at_num P2) by (rewrite enc_u16_len; unfold at_num, at_next; lia).
      pose proof (slice_poke_same _ _ _ _ P1) as S. unfold rd16.
      assert (X : slice (repeat 0 37) 35 2 = Some [0; 0]) by reflexivity.
      pose proof (slice_sub _ _ _ _ _ _ _ S X) as Y. change (0 + 35) with at_num in Y. rewrite Y. reflexivity.
    - eapply rd16_wr16_same; [exact P2|assumption].
  Qed.

  Lemma reset_rep : forall bs, blen bs = P -> 37 <= P -> exists bs', b_reset P bs = Some bs' /\ rep bs' (pg_empty P).
  Proof.
    intros bs HL Hp. unfold b_reset.
    destruct (poke_some bs at_num (enc_u16 0)) as [b1 P1]; [rewrite enc_u16_len; unfold at_num; lia|].
    unfold wr16. rewrite P1. cbn [obind]. pose proof (poke_len _ _ _ _ P1) as L1.
    destruct (poke_some b1 at_next (enc_u16 P)) as [b2 P2]; [rewrite enc_u16_len; unfold at_next; lia|].
    rewrite P2. pose proof (poke_len _ _ _ _ P2) as L2. exists b2. split; [reflexivity|].
    apply empty_rep; [congruence|assumption| |].
    - rewrite (rd16_poke_disj _ _ _ _ at_num P2) by (rewrite enc_u16_len; unfold at_num, at_next; lia).
      eapply rd16_wr16_same; [exact P1|lia].
    - eapply rd16_wr16_same; [exact P2|assumption].
  Qed.

  Lemma min_off_rep : forall bs p, rep bs p -> forall n k acc, (k + n <= pg_num p)%nat ->
    b_min_off bs k n acc =
    Some (fold_left (fun a oe => if fst oe <? a then fst oe else a) (firstn n (skipn k (pg_ents p))) acc).
  Proof.
    intros bs p H. induction n as [|n IH]; intros k acc Hk; [reflexivity|].
    destruct (nth_error (pg_ents p) k) as [[o e]|] eqn:En.
    2:{ apply nth_error_None in En. unfold pg_num in Hk. lia. }
    cbn [b_min_off]. destruct (b_at_rep _ _ _ _ _ H En) as [-> _]. cbn [obind]. rewrite IH by lia.
    assert (Es : skipn k (pg_ents p) = (o, e) :: skipn (S k) (pg_ents p)).
    { clear -En. revert k En. induction (pg_ents p) as [|x l IH]; intros k En; destruct k; cbn in *; try discriminate.
      - now injection En as ->. - now apply IH. }
    rewrite Es. reflexivity.
  Qed.

  Lemma truncate_sim : forall bs p n p', rep bs p -> pg_truncate P p n = Some p' ->
    exists bs', b_truncate P bs n = Some bs' /\ rep bs' p'.
  Proof.
    intros bs p n p' H Ht. pose proof (r_ok _ _ H) as Pok.
    pose proof (rep_num_small _ _ H) as Hsm. change (2 ^ 15) with 32768 in Hsm.
    unfold pg_truncate in Ht. destruct (Nat.leb_spec n (pg_num p)) as [L|]; [|discriminate].
    pose proof (pg_truncate_spec sz P p n Pok L) as (p2 & E2 & Ok2 & C2 & _).
    unfold pg_truncate in E2. destruct (Nat.leb_spec n (pg_num p)); [|lia].
    rewrite Ht in E2. injection E2 as <-. injection Ht as <-.
    unfold b_truncate. rewrite (min_off_rep _ _ H n 0 P) by lia. cbn [obind skipn].
    remember (fold_left (fun a oe => if fst oe <? a then fst oe else a) (firstn n (pg_ents p)) P) as m eqn:Em.
    pose proof (r_len _ _ H) as HL. pose proof Pok as [H1 H2 H3 H4]. pose proof (off_end_ge (pg_num p)) as Hge.
    destruct (poke_some bs at_num (enc_u16 (N.of_nat n))) as [b1 P1]; [rewrite enc_u16_len; unfold at_num; lia|].
    unfold wr16. rewrite P1. cbn [obind]. pose proof (poke_len _ _ _ _ P1) as L1.
    destruct (poke_some b1 at_next (enc_u16 m)) as [b2 P2]; [rewrite enc_u16_len; unfold at_next; lia|].
    rewrite P2. pose proof (poke_len _ _ _ _ P2) as L2. exists b2. split; [reflexivity|].
    assert (Sl : forall a x, 37 <= a -> slice b2 a x = slice bs a x).
    { intros a x Ha. rewrite (slice_poke_disj _ _ _ _ a x P2) by (rewrite enc_u16_len; unfold at_next; lia).
      rewrite (slice_poke_disj _ _ _ _ a x P1) by (rewrite enc_u16_len; unfold at_num; lia). reflexivity. }
    assert (Ln : length (firstn n (pg_ents p)) = n) by (rewrite firstn_length; unfold pg_num in L; lia).
    constructor; cbn [pg_next pg_ents].
    - congruence.
    - exact Ok2.
    - rewrite C2. pose proof (r_ents _ _ H) as F. rewrite <- (firstn_skipn n (pg_cont p)) in F.
      apply Forall_app in F. apply F.
    - unfold pg_num. cbn [pg_ents]. rewrite Ln.
      rewrite (rd16_poke_disj _ _ _ _ at_num P2) by (rewrite enc_u16_len; unfold at_num, at_next; lia).
      eapply rd16_wr16_same; [exact P1|]. change (2 ^ 16) with 65536. lia.
    - eapply rd16_wr16_same; [exact P2|]. destruct Ok2 as [_ X _ _]. cbn in X. lia.
    - intros i o e Hi.
      assert (i < n)%nat by (assert (i < length (firstn n (pg_ents p)))%nat by (apply nth_error_Some; congruence); lia).
      rewrite nth_error_firstn_lt in Hi by assumption.
      destruct (r_slot _ _ H _ _ _ Hi) as [A [old B]]. apply nth_error_In in Hi. apply H3 in Hi.
      split.
      + unfold rd16. rewrite Sl by apply off_end_ge. exact A.
      + exists old. rewrite Sl by lia. exact B.
  Qed.

  Lemma fill_leaf_sim : forall es bs p p' dst, rep bs p -> Forall ok es -> fill_leaf sz p dst es = Some p' ->
    exists bs', b_fill_leaf c bs dst es = Some bs' /\ rep bs' p'.
  Proof.
    induction es as [|e es IH]; intros bs p p' dst H F Hf; cbn in *.
    - injection Hf as <-. eauto.
    - inversion F as [|? ? He Fs]; subst. pose proof (set_leaf_sim bs p dst e H He) as S.
      destruct (set_leaf_entry sz p dst e) as [| |p1]; cbn in S; [discriminate| |].
      + rewrite S. cbn. eapply IH; eauto.
      + destruct S as (b1 & -> & R1). cbn. eapply IH; eauto.
  Qed.

  Lemma fill_index_sim : forall es bs p p' dst, rep bs p -> Forall ok es -> fill_index sz p dst es = Some p' ->
    exists bs', b_fill_index c bs dst es = Some bs' /\ rep bs' p'.
  Proof.
    induction es as [|e es IH]; intros bs p p' dst H F Hf; cbn in *.
    - injection Hf as <-. eauto.
    - inversion F as [|? ? He Fs]; subst. pose proof (set_index_sim bs p dst e H He) as S.
      destruct (set_index_entry sz p dst e) as [| |p1]; cbn in S; try discriminate.
      destruct S as (b1 & -> & R1). cbn. eapply IH; eauto.
  Qed.

  Lemma rep_P : forall bs p, rep bs p -> 37 <= P.
  Proof. intros bs p H. destruct (r_ok _ _ H). pose proof (off_end_ge (pg_num p)). lia. Qed.

  (** Rebuilding a page from its own entries always fits. *)
  Lemma own_entries_fit : forall (p : page E), page_ok sz P p ->
    off_end (pg_num (pg_empty P : page E) + length (pg_cont p)) + sum_sz sz (pg_cont p) <= pg_next (pg_empty P : page E).
  Proof.
    intros p H. cbn [pg_empty pg_num pg_ents length plus pg_next]. rewrite cont_length.
    pose proof (page_fits sz P szpos p H) as X. unfold pg_live in X. exact X.
  Qed.

  Lemma defragment_leaf_sim : forall bs p, rep bs p ->
    exists bs' p', b_defragment_leaf c P bs = Some bs' /\ rep bs' p' /\ pg_cont p' = pg_cont p /\
      pg_next p' = P - sum_sz sz (pg_cont p).
  Proof.
    intros bs p H. unfold b_defragment_leaf. rewrite (b_entries_rep _ _ H). cbn [obind].
    pose proof (rep_P _ _ H) as H37.
    destruct (reset_rep bs (r_len _ _ H) H37) as (b1 & -> & R1). cbn [obind].
    destruct (fill_leaf_spec sz P (pg_cont p) (pg_empty P) (r_ok _ _ R1)) as (p' & Ef & _ & C & Nx).
    { apply own_entries_fit. apply (r_ok _ _ H). }
    cbn [pg_num pg_empty pg_ents length] in Ef.
    destruct (fill_leaf_sim _ _ _ _ _ R1 (r_ents _ _ H) Ef) as (b2 & E2 & R2).
    exists b2, p'. auto.
  Qed.

  Lemma defragment_index_sim : forall bs p, rep bs p ->
    exists bs' p', b_defragment_index c P bs = Some bs' /\ defragment_index sz P p = Some p' /\
      rep bs' p' /\ pg_cont p' = pg_cont p /\ pg_next p' = P - sum_sz sz (pg_cont p).
  Proof.
    intros bs p H. unfold b_defragment_index. rewrite (b_entries_rep _ _ H). cbn [obind].
    pose proof (rep_P _ _ H) as H37.
    destruct (reset_rep bs (r_len _ _ H) H37) as (b1 & -> & R1). cbn [obind].
    destruct (fill_index_spec sz P (pg_cont p) (pg_empty P) (r_ok _ _ R1)) as (p' & Ef & _ & C & Nx).
    { apply own_entries_fit. apply (r_ok _ _ H). }
    cbn [pg_num pg_empty pg_ents length] in Ef.
    destruct (fill_index_sim _ _ _ _ _ R1 (r_ents _ _ H) Ef) as (b2 & E2 & R2).
    exists b2, p'. unfold defragment_index. auto.
  Qed.
End Rep.

(** ** The codecs are good *)
Definition leaf_ok (e : lent) : Prop := blen (fst e) < 2 ^ 16 /\ blen (m_data (snd e)) < 2 ^ 16.

Lemma leaf_codec_good : good_codec leaf_codec leaf_ok.
Proof.
  constructor; cbn [leaf_codec c_sz c_enc c_dec fst snd].
  - intros old [k m] _. exact (tuple_size old k m).
  - intros old [k m] rest [A B]. exact (tuple_roundtrip old k m rest A B).
  - intros [k m]. unfold sizeof_ondisk_tuple, sizeof_ondisk_tuple_hdr. lia.
Qed.

Lemma enc_le_len : forall n x, length (enc_le n x) = n.
Proof. induction n; intros; cbn; [reflexivity|]. now rewrite IHn. Qed.

Lemma dec_enc_le : forall n x r, x < 256 ^ N.of_nat n -> dec_le n (enc_le n x ++ r) = Some (x, r).
Proof.
  induction n as [|n IH]; intros x r H.
  - cbn in *. f_equal. f_equal. lia.
  - cbn [enc_le dec_le app]. rewrite IH.
    + f_equal. f_equal. rewrite N.add_comm. symmetry. apply N.div_mod'.
    + apply N.div_lt_upper_bound; [lia|]. rewrite Nat2N.inj_succ, N.pow_succ_r' in H. exact H.
Qed.

Definition index_ok (e : idx_entry) : Prop :=
  key_length (ix_key e) < ONDISK_KEY_POSITIVE_INFINITY /\ ix_child e < 2 ^ 64 /\
  ps_kvs (ix_stats e) < 2 ^ 32 /\ ps_kbytes (ix_stats e) < 2 ^ 32 /\ ps_mbytes (ix_stats e) < 2 ^ 32.

Lemma index_codec_good : good_codec index_codec index_ok.
Proof.
  constructor.
  - intros old [k ch [x y z]] _. cbn [index_codec c_enc c_sz ix_key ix_child ix_stats ps_kvs ps_kbytes ps_mbytes].
    unfold blen. rewrite !app_length, !enc_le_len.
    pose proof (key_size k) as S. unfold blen, sizeof_ondisk_key, sizeof_ondisk_key_hdr in S. lia.
  - intros old [k ch [x y z]] rest (A & B & C & D & F).
    cbn [index_codec c_enc c_dec ix_key ix_child ix_stats ps_kvs ps_kbytes ps_mbytes] in *.
    rewrite <- !app_assoc.
    rewrite dec_enc_le by exact B. rewrite dec_enc_le by exact C. rewrite dec_enc_le by exact D. rewrite dec_enc_le by exact F.
    rewrite key_roundtrip by exact A. reflexivity.
  - intros [k ch s]. cbn [index_codec c_sz]. lia.
Qed.
