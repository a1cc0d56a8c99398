(** * The merge iterator: invariant and what a scan returns *)

From Coq Require Import List ZArith NArith Bool Lia Permutation Sorted Arith.
From Verif Require Import Base Spec DataProofs Merge MergeProofs.
Import ListNotations.
Local Open Scope Z_scope.

Definition keyb (k k' : bytes) : bool := if list_eq_dec N.eq_dec k' k then true else false.
Lemma keyb_iff : forall k k', keyb k k' = true <-> k' = k.
Proof. intros. unfold keyb. destruct (list_eq_dec N.eq_dec k' k); split; congruence. Qed.
Lemma keyb_false : forall k k', keyb k k' = false <-> k' <> k.
Proof. intros. unfold keyb. destruct (list_eq_dec N.eq_dec k' k); split; congruence. Qed.

(** The messages for [k] in a list of tuples. *)
Definition messages_of (k : bytes) (l : list (bytes * message)) : list message :=
  map snd (filter (fun p => keyb k (fst p)) l).

Lemma messages_of_in : forall k l m, In m (messages_of k l) <-> In (k, m) l.
Proof.
  intros k l m. unfold messages_of. rewrite in_map_iff. split.
  - intros ([k' m'] & E & H). apply filter_In in H. cbn [fst snd] in *. destruct H as [H X].
    apply keyb_iff in X. now subst.
  - intros H. exists (k, m). split; [reflexivity|]. apply filter_In. split; [exact H|]. now apply keyb_iff.
Qed.

Definition upd {A} (R : Z -> A) (s : Z) (v : A) : Z -> A := fun i => if i =? s then v else R i.

Section Run.
  Variable cfg : data_config.
  Variable ord : bytes -> bytes -> Z.
  Hypothesis TO : total_order ord.
  Variable D : bytes -> Prop.
  Hypothesis AG : agrees cfg ord D.
  Variable fwd : bool.
  Notation od := (dord ord fwd).
  Let TD : total_order od := dord_total ord fwd TO.

  (** The tuples of each source, by seq, and the list of seqs. *)
  Variable IT : Z -> list (bytes * message).
  Variable seqs : list Z.
  Hypothesis seqs_sorted : StronglySorted Z.lt seqs.

  Definition key_of (x : oit) : bytes := match o_key x with Some k => k | None => [] end.

  Definition live_ok (x : oit) : Prop :=
    src_can_curr (o_src x) = true /\
    exists k m, src_curr (o_src x) = Some (k, m) /\ o_key x = Some k /\ o_data x = Some m.
  Definition dead_ok (x : oit) : Prop := src_can_curr (o_src x) = false /\ o_eq x = false.

  Definition ilt (x y : oit) : Prop :=
    od (key_of x) (key_of y) < 0 \/ (key_of x = key_of y /\ o_seq y < o_seq x).

  Fixpoint bits (l : list oit) : Prop :=
    match l with
    | [] => True
    | x :: r => match r with
                | [] => o_eq x = false
                | y :: _ => (o_eq x = true <-> key_of x = key_of y) /\ bits r
                end
    end.

  Record inv (st : mi) (live dead : list oit) (R : Z -> list (bytes * message)) : Prop := {
    i_arr : m_arr st = live ++ dead;
    i_rem : m_rem st = length live;
    i_fwd : m_fwd st = fwd;
    i_live : Forall live_ok live;
    i_dead : Forall dead_ok dead;
    i_sort : StronglySorted ilt live;
    i_bits : bits live;
    i_nodup : NoDup (map o_seq (live ++ dead));
    i_src : Forall (fun x => src_ok ord D fwd (o_src x)) (live ++ dead);
    i_R : forall x, In x (live ++ dead) -> rest fwd (o_src x) = R (o_seq x);
    i_items : forall x, In x (live ++ dead) -> s_items (o_src x) = IT (o_seq x);
    i_cut : forall x y a b, In x (live ++ dead) -> In y (live ++ dead) ->
            In a (done fwd (o_src x)) -> In b (rest fwd (o_src y)) -> od (fst a) (fst b) <= 0;
    i_seqs : forall s, In s seqs <-> In s (map o_seq (live ++ dead))
  }.

  Lemma ilt_trans : forall x y z, ilt x y -> ilt y z -> ilt x z.
  Proof.
    intros x y z [A|[A A']] [B|[B B']]; unfold ilt.
    - left. now apply (o_trans od TD) with (key_of y).
    - left. now rewrite <- B.
    - left. now rewrite A.
    - right. split; [congruence|lia].
  Qed.
  Lemma ilt_irr : forall x, ~ ilt x x.
  Proof. intros x [A|[A A']]; [exact (o_irr od TD _ A)|lia]. Qed.
  Lemma ilt_tri : forall x y, o_seq x <> o_seq y -> ilt x y \/ ilt y x.
  Proof.
    intros x y H. destruct (o_tri od TD (key_of x) (key_of y)) as [A|[A|A]]; [left; now left| |right; now left].
    destruct (Z.lt_trichotomy (o_seq x) (o_seq y)) as [B|[B|B]]; [right; now right|contradiction|left; now right].
  Qed.
  Lemma ilt_le : forall x y, ilt x y -> od (key_of x) (key_of y) <= 0.
  Proof. intros x y [A|[A _]]; [lia|]. rewrite A, (o_refl0 od TD). lia. Qed.

  Lemma key_of_with_eq : forall b x, key_of (with_eq b x) = key_of x.
  Proof. reflexivity. Qed.

  (** The head of a live iterator's rest. *)
  Lemma live_rest : forall x, live_ok x -> src_ok ord D fwd (o_src x) ->
    exists m, o_key x = Some (key_of x) /\ o_data x = Some m /\
      rest fwd (o_src x) = (key_of x, m) :: rest fwd (src_step fwd (o_src x)) /\ D (key_of x).
  Proof.
    intros x (Hc & k & m & E1 & E2 & E3) Hok.
    destruct (rest_step ord D fwd _ Hok Hc) as (k' & m' & F1 & F2 & F3 & F4).
    rewrite E1 in F1. injection F1 as <- <-. exists m. unfold key_of. rewrite E2.
    repeat split; try assumption.
    pose proof (all_dom ord D fwd _ Hok) as HD. rewrite F2 in HD. apply Forall_app in HD. destruct HD as [_ HD].
    now inversion HD.
  Qed.

  (** bsearch_comp has the sign of [ilt]. *)
  Lemma comp_spec : forall x y kx ky, o_key x = Some kx -> o_key y = Some ky -> D kx -> D ky ->
    o_seq x <> o_seq y ->
    exists c, bsearch_comp cfg fwd x y = Some (c, keyb kx ky) /\
              (c < 0 <-> ilt x y) /\ (0 < c <-> ilt y x).
  Proof.
    intros x y kx ky Ex Ey Dx Dy Hs. unfold bsearch_comp. rewrite Ex, Ey.
    set (c := if fwd then key_compare cfg kx ky else - key_compare cfg kx ky).
    assert (Z.sgn c = Z.sgn (od kx ky)) as Hc.
    { unfold c, dord. destruct fwd.
      - now apply AG.
      - rewrite Z.sgn_opp. rewrite <- (AG ky kx Dy Dx).
        pose proof (AG kx ky Dx Dy) as A1. pose proof (AG ky kx Dy Dx) as A2.
        pose proof (to_antisym ord TO kx ky) as B1. pose proof (to_antisym ord TO ky kx) as B2.
        destruct (Z.sgn_spec (key_compare cfg kx ky)) as [[? ?]|[[? ?]|[? ?]]];
        destruct (Z.sgn_spec (key_compare cfg ky kx)) as [[? ?]|[[? ?]|[? ?]]];
        destruct (Z.sgn_spec (ord kx ky)) as [[? ?]|[[? ?]|[? ?]]];
        destruct (Z.sgn_spec (ord ky kx)) as [[? ?]|[[? ?]|[? ?]]]; lia. }
    assert ((c =? 0) = keyb kx ky) as Hk.
    { apply Bool.eq_iff_eq_true. rewrite Z.eqb_eq, keyb_iff, <- Z.sgn_null_iff, Hc, Z.sgn_null_iff.
      rewrite (to_eq od TD). split; congruence. }
    rewrite Hk. eexists. split; [reflexivity|].
    assert (key_of x = kx) as Kx by (unfold key_of; now rewrite Ex).
    assert (key_of y = ky) as Ky by (unfold key_of; now rewrite Ey).
    unfold ilt. rewrite Kx, Ky.
    destruct (keyb kx ky) eqn:Ek.
    - apply keyb_iff in Ek. subst ky. pose proof (o_irr od TD kx). split; split; intros H'; try lia.
      + right. split; [reflexivity|lia].
      + right. split; [reflexivity|lia].
    - apply keyb_false in Ek.
      pose proof (to_eq od TD kx ky) as E. pose proof (to_antisym od TD kx ky) as A1.
      pose proof (to_antisym od TD ky kx) as A2.
      destruct (Z.sgn_spec c) as [[? ?]|[[? ?]|[? ?]]];
      destruct (Z.sgn_spec (od kx ky)) as [[? ?]|[[? ?]|[? ?]]]; try lia;
      split; split; intros H'; try (left; tauto); try lia; try (destruct H' as [H'|[H' _]]; [lia|congruence]).
  Qed.

  (** Splitting a sorted list at an element. *)
  Lemma sorted_split : forall x t, StronglySorted ilt t -> (forall y, In y t -> o_seq x <> o_seq y) ->
    exists t1 t2, t = t1 ++ t2 /\ (forall y, In y t1 -> ilt y x) /\ (forall y, In y t2 -> ilt x y).
  Proof.
    intros x t H Hs. induction t as [|y t IH].
    - exists [], []. repeat split; intros y [].
    - inversion H; subst. rewrite Forall_forall in H3.
      destruct (ilt_tri x y (Hs y (or_introl eq_refl))) as [A|A].
      + exists [], (y :: t). repeat split; [intros z []|]. intros z [<-|Hz]; [exact A|].
        apply ilt_trans with y; [exact A|now apply H3].
      + destruct IH as (t1 & t2 & E & B1 & B2); [assumption|intros z Hz; apply Hs; now right|].
        exists (y :: t1), t2. subst t. repeat split; [|exact B2]. intros z [<-|Hz]; [exact A|now apply B1].
  Qed.

  (** Setting bits. *)
  Lemma set_eq_app_r : forall l1 l2 i b, set_eq (l1 ++ l2) (length l1 + i) b = l1 ++ set_eq l2 i b.
  Proof. induction l1 as [|x l1 IH]; intros; [reflexivity|]. cbn [app length Nat.add set_eq]. now rewrite IH. Qed.

  Lemma bits_insert : forall t1 t2 x pe ne,
    bits (t1 ++ t2) ->
    (pe = true <-> exists z t1', t1 = t1' ++ [z] /\ key_of z = key_of x) ->
    (ne = true <-> exists z t2', t2 = z :: t2' /\ key_of z = key_of x) ->
    bits (match rev t1 with
          | [] => with_eq ne x :: t2
          | z :: r => rev r ++ with_eq pe z :: with_eq ne x :: t2
          end).
  Proof.
    assert (forall t2 x ne, bits t2 ->
      (ne = true <-> exists z t2', t2 = z :: t2' /\ key_of z = key_of x) -> bits (with_eq ne x :: t2)) as B1.
    { intros t2 x ne Hb Hn. destruct t2 as [|y t2]; cbn [bits o_eq with_eq].
      - destruct ne; [|reflexivity]. destruct (proj1 Hn eq_refl) as (z & t' & E & _). discriminate.
      - split; [|exact Hb]. rewrite Hn, key_of_with_eq. split.
        + intros (z & t' & E & Ek). injection E as <- <-. now symmetry.
        + intros E. exists y, t2. split; [reflexivity|]. now symmetry. }
    intros t1 t2 x pe ne Hb Hp Hn.
    destruct t1 as [|z t1' _] using rev_ind; [cbn [rev]; now apply B1|].
    rewrite rev_app_distr. cbn [rev app]. rewrite rev_involutive. rewrite <- app_assoc in Hb. cbn [app] in Hb.
    assert (bits (with_eq pe z :: with_eq ne x :: t2)) as B2.
    { cbn [bits]. split.
      - cbn [o_eq with_eq]. rewrite Hp, !key_of_with_eq. split.
        + intros (z' & t' & E & Ek). apply app_inj_tail in E. destruct E as [_ <-]. exact Ek.
        + intros E. exists z, t1'. split; [reflexivity|exact E].
      - apply B1; [|exact Hn]. clear - Hb. induction t1' as [|a t1' IH].
        + cbn [app bits] in Hb. destruct t2; [exact I|]. apply Hb.
        + apply IH. cbn [app bits] in Hb. destruct (t1' ++ z :: t2) eqn:E; [destruct t1'; discriminate|]. apply Hb. }
    clear Hp Hn. revert Hb B2. generalize (with_eq ne x :: t2) as t3. intros t3.
    assert (key_of (with_eq pe z) = key_of z) as Kz by reflexivity.
    revert Kz. generalize (with_eq pe z) as z'. intros z' Kz Hb B2.
    induction t1' as [|a t1' IH]; [exact B2|].
    destruct t1' as [|b t1'].
    - cbn [app bits] in Hb |- *. split; [|exact B2]. rewrite Kz. apply Hb.
    - change (bits (a :: (b :: t1') ++ z :: t2)) in Hb.
      change (bits (a :: (b :: t1') ++ z' :: t3)).
      cbn [bits app] in Hb |- *. split; [apply Hb|]. apply IH. apply Hb.
  Qed.

  Definition sizes (l : list oit) : nat :=
    fold_right (fun x n => (length (rest fwd (o_src x)) + n)%nat) O l.
  Lemma sizes_app : forall a b, sizes (a ++ b) = (sizes a + sizes b)%nat.
  Proof. induction a as [|x a IH]; intros b; cbn [app sizes fold_right]; [reflexivity|]. fold (sizes (a ++ b)). rewrite IH. unfold sizes. lia. Qed.

  Lemma map_eq_fields : forall b x, o_seq (with_eq b x) = o_seq x /\ o_src (with_eq b x) = o_src x
    /\ o_key (with_eq b x) = o_key x /\ o_data (with_eq b x) = o_data x.
  Proof. intros. repeat split. Qed.

  (** A property of iterators that does not look at the bit. *)
  Definition bitless {A} (f : oit -> A) : Prop := forall b x, f (with_eq b x) = f x.

  Lemma insert_map : forall {A} (f : oit -> A) t1 t2 x pe ne, bitless f ->
    map f (match rev t1 with
           | [] => with_eq ne x :: t2
           | z :: r => rev r ++ with_eq pe z :: with_eq ne x :: t2
           end) = map f t1 ++ f x :: map f t2.
  Proof.
    intros A f t1 t2 x pe ne Hf. destruct t1 as [|z t1' _] using rev_ind; cbn [rev map app].
    - now rewrite Hf.
    - rewrite rev_app_distr. cbn [rev app]. rewrite rev_involutive, !map_app. cbn [map app]. rewrite !Hf, <- app_assoc. reflexivity.
  Qed.

  Definition vw (x : oit) := (o_seq x, o_src x, o_key x, o_data x).
  Lemma vw_bitless : bitless vw.
  Proof. intros b x. reflexivity. Qed.

  (** Insertion as the code does it. *)
  Lemma insert_code : forall t1 t2 dead x pe ne,
    let a1 := firstn (length t1) ((t1 ++ t2) ++ dead) ++ x :: skipn (length t1) ((t1 ++ t2) ++ dead) in
    set_eq (match length t1 with O => a1 | S j' => set_eq a1 j' pe end) (length t1) ne =
    (match rev t1 with
     | [] => with_eq ne x :: t2
     | z :: r => rev r ++ with_eq pe z :: with_eq ne x :: t2
     end) ++ dead.
  Proof.
    intros t1 t2 dead x pe ne a1.
    assert (a1 = t1 ++ x :: t2 ++ dead) as ->.
    { unfold a1. rewrite <- app_assoc, firstn_app, firstn_all, Nat.sub_diag, firstn_O, app_nil_r.
      now rewrite skipn_app, skipn_all, Nat.sub_diag. }
    destruct t1 as [|z t1' _] using rev_ind; [reflexivity|].
    rewrite rev_app_distr. cbn [rev app]. rewrite rev_involutive.
    rewrite app_length. cbn [length]. replace (length t1' + 1)%nat with (S (length t1')) by lia.
    rewrite <- (app_assoc t1' [z]). cbn [app].
    pose proof (set_eq_app_r t1' (z :: x :: t2 ++ dead) 0 pe) as E0. rewrite Nat.add_0_r in E0. rewrite E0. cbn [set_eq].
    replace (S (length t1')) with (length t1' + 1)%nat by lia. rewrite set_eq_app_r. cbn [set_eq].
    now rewrite <- app_assoc.
  Qed.

  Lemma nodup_ne : forall (x : oit) l, NoDup (map o_seq (x :: l)) -> forall y, In y l -> o_seq x <> o_seq y.
  Proof. intros x l H y Hy E. cbn [map] in H. inversion H; subst. apply H2. rewrite E. now apply in_map. Qed.

  Lemma advance_spec : forall st x t dead R,
    inv st (x :: t) dead R ->
    exists st' live' dead',
      advance cfg st = Some st' /\
      inv st' live' dead' (upd R (o_seq x) (tl (R (o_seq x)))) /\
      st' = set_arr st (live' ++ dead') (length live') /\
      (forall k, (forall b, In b (rest fwd (src_step fwd (o_src x))) -> fst b <> k) ->
         map vw (filter (fun y => keyb k (key_of y)) live') = map vw (filter (fun y => keyb k (key_of y)) t)) /\
      (forall y, In y live' -> od (key_of x) (key_of y) <= 0) /\
      (S (sizes (live' ++ dead')) = sizes ((x :: t) ++ dead))%nat.
  Proof.
    intros st x t dead R I.
    destruct I as [Iarr Irem Ifwd Ilive Idead Isort Ibits Inod Isrc IR Iit Icut Iseq].
    inversion Ilive as [|? ? Lx Lt]; subst. inversion Isort as [|? ? St Fx]; subst.
    rewrite Forall_forall in Fx.
    assert (src_ok ord D fwd (o_src x)) as Okx by (inversion Isrc; assumption).
    assert (Forall (fun y => src_ok ord D fwd (o_src y)) (t ++ dead)) as Okt by (inversion Isrc; assumption).
    destruct (live_rest x Lx Okx) as (mx & Kx & Dx & Rx & DKx).
    pose proof (nodup_ne x (t ++ dead) Inod) as Hne.
    destruct Lx as (Cx & _).
    destruct (rest_step ord D fwd _ Okx Cx) as (k0 & m0 & _ & F2 & F3 & F4).
    rewrite Rx in F2. injection F2 as <- <-.
    set (s' := src_step fwd (o_src x)) in *.
    set (R' := upd R (o_seq x) (tl (R (o_seq x)))).
    assert (R (o_seq x) = (key_of x, mx) :: rest fwd s') as ERx.
    { rewrite <- (IR x (or_introl eq_refl)). exact Rx. }
    assert (R' (o_seq x) = rest fwd s') as ER1 by (unfold R', upd; rewrite Z.eqb_refl, ERx; reflexivity).
    assert (forall y, In y (t ++ dead) -> R' (o_seq y) = R (o_seq y)) as ER2.
    { intros y Hy. unfold R', upd. destruct (Z.eqb_spec (o_seq y) (o_seq x)) as [E|]; [|reflexivity].
      exfalso. now apply (Hne y Hy). }
    assert (forall b, In b (rest fwd s') -> od (key_of x) (fst b) < 0) as Hgt.
    { intros b Hb. pose proof (rest_sorted ord D fwd _ Okx) as S0. rewrite Rx in S0. inversion S0; subst.
      rewrite Forall_forall in H2. now apply (H2 b). }
    (* every key left is at least the key of x *)
    assert (forall y b, In y (t ++ dead) -> In b (rest fwd (o_src y)) -> od (key_of x) (fst b) <= 0) as Hmin.
    { intros y b Hy Hb. apply in_app_or in Hy. destruct Hy as [Hy|Hy].
      - assert (live_ok y) as Ly by (rewrite Forall_forall in Lt; now apply Lt).
        assert (src_ok ord D fwd (o_src y)) as Oky.
        { rewrite Forall_forall in Okt. apply Okt. apply in_or_app. now left. }
        destruct (live_rest y Ly Oky) as (my & _ & _ & Ry & _).
        pose proof (rest_sorted ord D fwd _ Oky) as S0. rewrite Ry in S0, Hb. inversion S0; subst.
        rewrite Forall_forall in H2. pose proof (ilt_le x y (Fx y Hy)) as L.
        destruct Hb as [<-|Hb]; [exact L|]. specialize (H2 b Hb). cbn [fst] in H2.
        pose proof (o_le_lt od TD _ _ _ L H2). lia.
      - rewrite Forall_forall in Idead. destruct (Idead y Hy) as [Cd _]. rewrite (rest_dead fwd _ Cd) in Hb. destruct Hb. }
    (* conditions on the whole array after replacing x *)
    assert (forall x', o_seq x' = o_seq x -> o_src x' = s' -> forall l', (forall a, In a (map vw l') <-> In a (vw x' :: map vw (t ++ dead))) ->
       Forall (fun y => src_ok ord D fwd (o_src y)) l' /\
       (forall y, In y l' -> rest fwd (o_src y) = R' (o_seq y)) /\
       (forall y, In y l' -> s_items (o_src y) = IT (o_seq y)) /\
       (forall y z a b, In y l' -> In z l' -> In a (done fwd (o_src y)) -> In b (rest fwd (o_src z)) -> od (fst a) (fst b) <= 0) /\
       (forall s, In s seqs <-> In s (map o_seq l'))) as Hall.
    { intros x' Es Esrc l' Hl'.
      assert (forall y, In y l' -> (o_seq y = o_seq x /\ o_src y = s') \/ (exists z, In z (t ++ dead) /\ o_seq z = o_seq y /\ o_src z = o_src y)) as Hin.
      { intros y Hy. destruct (proj1 (Hl' (vw y)) (in_map vw _ _ Hy)) as [E|E].
        - left. unfold vw in E. injection E as E1 E2 _ _. rewrite <- E1, <- E2. auto.
        - right. apply in_map_iff in E. destruct E as (z & E & Hz). exists z. unfold vw in E. injection E as E1 E2 _ _. auto. }
      assert (forall y, In y l' -> rest fwd (o_src y) = R' (o_seq y)) as HR.
      { intros y Hy. destruct (Hin y Hy) as [[E1 E2]|(z & Hz & E1 & E2)].
        - rewrite E1, E2. now symmetry.
        - rewrite <- E1, <- E2, (ER2 z Hz). apply IR. now right. }
      assert (forall y b, In y l' -> In b (rest fwd (o_src y)) -> od (key_of x) (fst b) <= 0) as Hmin'.
      { intros y b Hy Hb. destruct (Hin y Hy) as [[E1 E2]|(z & Hz & E1 & E2)].
        - rewrite E2 in Hb. specialize (Hgt b Hb). lia.
        - rewrite <- E2 in Hb. now apply (Hmin z b Hz). }
      repeat split.
      - rewrite Forall_forall. intros y Hy. destruct (Hin y Hy) as [[E1 E2]|(z & Hz & E1 & E2)].
        + now rewrite E2.
        + rewrite <- E2. rewrite Forall_forall in Okt. now apply Okt.
      - exact HR.
      - intros y Hy. destruct (Hin y Hy) as [[E1 E2]|(z & Hz & E1 & E2)].
        + rewrite E1, E2. rewrite <- (Iit x (or_introl eq_refl)). unfold s', src_step. destruct fwd; reflexivity.
        + rewrite <- E1, <- E2. apply Iit. now right.
      - intros y z a b Hy Hz Ha Hb.
        assert (forall y, In y l' -> exists y0, In y0 ((x :: t) ++ dead) /\
                  forall a, In a (done fwd (o_src y)) -> In a (done fwd (o_src y0)) \/ fst a = key_of x) as Hdone.
        { intros y0 Hy0. destruct (Hin y0 Hy0) as [[E1 E2]|(z0 & Hz0 & E1 & E2)].
          - exists x. split; [now left|]. intros a0 Ha0. rewrite E2, F3 in Ha0. apply in_app_or in Ha0.
            destruct Ha0 as [Ha0|[<-|[]]]; [now left|now right].
          - exists z0. split; [now right|]. intros a0 Ha0. rewrite <- E2 in Ha0. now left. }
        destruct (Hdone y Hy) as (y0 & Hy0 & Hd). destruct (Hd a Ha) as [Ha'|Ha'].
        + destruct (Hin z Hz) as [[E1 E2]|(z0 & Hz0 & E1 & E2)].
          * apply (Icut y0 x a b Hy0 (or_introl eq_refl) Ha'). rewrite Rx. right. now rewrite E2 in Hb.
          * apply (Icut y0 z0 a b Hy0 (or_intror Hz0) Ha'). now rewrite E2.
        + rewrite Ha'. now apply (Hmin' z).
      - intros Hs. apply Iseq in Hs. cbn [app map] in Hs. destruct Hs as [<-|Hs].
        + assert (In (vw x') (map vw l')) as Hx' by (apply Hl'; now left).
          apply in_map_iff in Hx'. destruct Hx' as (y & E & Hy). unfold vw in E. injection E as E1 _ _ _.
          rewrite <- Es, <- E1. now apply in_map.
        + apply in_map_iff in Hs. destruct Hs as (y & <- & Hy).
          assert (In (vw y) (map vw l')) as Hx' by (apply Hl'; right; now apply in_map).
          apply in_map_iff in Hx'. destruct Hx' as (z & E & Hz). unfold vw in E. injection E as E1 _ _ _.
          rewrite <- E1. now apply in_map.
      - intros Hs. apply Iseq. apply in_map_iff in Hs. destruct Hs as (y & <- & Hy).
        destruct (Hin y Hy) as [[E1 E2]|(z & Hz & E1 & E2)]; cbn [app map].
        + left. now symmetry.
        + right. rewrite <- E1. now apply in_map. }
    unfold advance. rewrite Iarr, Irem, Ifwd. cbn [length app]. fold s'.
    destruct (src_can_curr s') eqn:Cs; cbn [negb].
    2:{ (* exhausted *)
      set (x1 := OIt (o_seq x) s' None None false).
      exists (set_arr st (t ++ x1 :: dead) (length t)), t, (x1 :: dead).
      rewrite firstn_app, firstn_all, Nat.sub_diag, firstn_O, app_nil_r.
      rewrite skipn_app, skipn_all, Nat.sub_diag. cbn [skipn app].
      split; [reflexivity|].
      destruct (Hall x1 eq_refl eq_refl (t ++ x1 :: dead)) as (A1 & A2 & A3 & A4 & A5).
      { intros a. rewrite !map_app. cbn [map]. rewrite !in_app_iff. cbn [In]. rewrite !in_app_iff. tauto. }
      split; [|split; [reflexivity|split; [|split]]].
      - constructor; cbn [set_arr m_arr m_rem m_fwd]; try assumption; try reflexivity.
        + constructor; [split; [exact Cs|reflexivity]|exact Idead].
        + clear - Ibits. cbn [bits] in Ibits. destruct t; [exact I|]. apply Ibits.
        + apply (Permutation_NoDup (l := map o_seq ((x :: t) ++ dead))); [|exact Inod].
          rewrite !map_app. cbn [map app]. apply Permutation_middle.
      - intros k Hk. reflexivity.
      - intros y Hy. apply ilt_le. now apply Fx.
      - rewrite !sizes_app. cbn [app sizes fold_right]. rewrite Rx. cbn [length o_src x1].
        fold s'. rewrite sizes_app. unfold sizes. lia. }
    (* still alive *)
    destruct (rest_step ord D fwd _ F4 Cs) as (k2 & m2 & G1 & G2 & G3 & G4).
    fold s' in G1, G2. rewrite G1.
    set (x2 := OIt (o_seq x) s' (Some k2) (Some m2) false).
    assert (live_ok x2) as L2. { split; [exact Cs|]. exists k2, m2. repeat split; assumption. }
    assert (key_of x2 = k2) as K2 by reflexivity.
    assert (D k2) as DK2.
    { pose proof (all_dom ord D fwd _ F4) as HD. fold s' in HD. rewrite G2 in HD. apply Forall_app in HD.
      destruct HD as [_ HD]. now inversion HD. }
    assert (od (key_of x) k2 < 0) as Hk2 by (apply (Hgt (k2, m2)); rewrite G2; now left).
    assert (NoDup (map o_seq (x2 :: t ++ dead))) as Inod2 by exact Inod.
    destruct (sorted_split x2 t St) as (t1 & t2 & Et & H1 & H2).
    { intros y Hy. apply (Hne y). apply in_or_app. now left. }
    remember (if Nat.eqb (length t1) O then false else match rev t1 with z :: _ => keyb k2 (key_of z) | [] => false end) as pe eqn:Epe.
    remember (match t2 with z :: _ => keyb k2 (key_of z) | [] => false end) as ne eqn:Ene.
    set (live' := match rev t1 with
                  | [] => with_eq ne x2 :: t2
                  | z :: r => rev r ++ with_eq pe z :: with_eq ne x2 :: t2
                  end).
    assert (map vw live' = map vw t1 ++ vw x2 :: map vw t2) as Mlive by (apply insert_map, vw_bitless).
    assert (length live' = S (length t)) as Hlen.
    { rewrite <- (map_length vw live'), Mlive, app_length. cbn [length]. rewrite !map_length, Et, app_length. lia. }
    exists (set_arr st (live' ++ dead) (length live')), live', dead.
    assert (match length t with
            | O => Some (set_arr st (x2 :: t ++ dead) (S (length t)))
            | S _ => match bsearch_insert cfg fwd x2 (firstn (length t) (t ++ dead)) with
                     | None => None
                     | Some (i, pe, ne) =>
                       let index := 1 + i in
                       if index <? 0 then None else
                       let j := Z.to_nat index in
                       let a1 := firstn j (t ++ dead) ++ x2 :: skipn j (t ++ dead) in
                       let a2 := match j with O => a1 | S j' => set_eq a1 j' pe end in
                       Some (set_arr st (set_eq a2 j ne) (S (length t)))
                     end
            end = Some (set_arr st (live' ++ dead) (length live'))) as Hcode.
    { destruct (length t) as [|n] eqn:En.
      - assert (t1 = [] /\ t2 = []) as [E1 E2].
        { rewrite Et, app_length in En. split; [destruct t1|destruct t2]; try reflexivity; cbn [length] in En; lia. }
        unfold live'. rewrite Et, Ene, E1, E2. reflexivity.
      - rewrite <- En. rewrite firstn_app, firstn_all, Nat.sub_diag, firstn_O, app_nil_r.
        unfold bsearch_insert.
        rewrite (bs_loop_spec (bsearch_comp cfg fwd x2) t (length t1)
                   (fun i => match nth_error t i with Some y => keyb k2 (key_of y) | None => false end)).
        + cbn zeta. replace (1 + (Z.of_nat (length t1) - 1)) with (Z.of_nat (length t1)) by lia.
          destruct (Z.ltb_spec (Z.of_nat (length t1)) 0); [lia|]. rewrite Nat2Z.id.
          rewrite Et. rewrite insert_code. f_equal. f_equal; [|rewrite <- Et, En; now symmetry].
          f_equal. unfold live'.
          assert (below_eq (length t1) (fun i => match nth_error (t1 ++ t2) i with Some y => keyb k2 (key_of y) | None => false end) = pe) as ->.
          { unfold below_eq. subst pe. destruct t1 as [|z t1' _] using rev_ind; [reflexivity|].
            rewrite rev_app_distr, app_length. cbn [rev app length].
            replace (length t1' + 1)%nat with (S (length t1')) by lia. cbn [Nat.eqb].
            rewrite <- app_assoc, nth_error_app2, Nat.sub_diag by lia. reflexivity. }
          assert (above_eq (t1 ++ t2) (length t1) (fun i => match nth_error (t1 ++ t2) i with Some y => keyb k2 (key_of y) | None => false end) = ne) as ->.
          { unfold above_eq. subst ne. rewrite nth_error_app2, Nat.sub_diag, app_length by lia.
            destruct t2 as [|z t2']; cbn [length nth_error].
            - destruct (Nat.ltb_spec (length t1) (length t1 + 0)); [lia|reflexivity].
            - destruct (Nat.ltb_spec (length t1) (length t1 + S (length t2'))); [reflexivity|lia]. }
          reflexivity.
        + rewrite Et, app_length. lia.
        + intros i y Hi Hy. assert (In y t1) as Hyt.
          { rewrite Et, nth_error_app1 in Hy by exact Hi. now apply nth_error_In in Hy. }
          assert (In y t) as Hyt' by (rewrite Et; apply in_or_app; now left).
          assert (live_ok y) as Ly by (rewrite Forall_forall in Lt; now apply Lt).
          destruct (live_rest y Ly) as (my & Ky & _ & _ & DKy).
          { rewrite Forall_forall in Okt. apply Okt. apply in_or_app. now left. }
          destruct (comp_spec x2 y k2 (key_of y) eq_refl Ky DK2 DKy) as (c & Ec & _ & Ec2).
          { apply (Hne y). apply in_or_app. now left. }
          exists c. rewrite Hy. split; [exact Ec|]. apply Ec2. now apply H1.
        + intros i y Hi Hy. assert (In y t2) as Hyt.
          { rewrite Et, nth_error_app2 in Hy by exact Hi. now apply nth_error_In in Hy. }
          assert (In y t) as Hyt' by (rewrite Et; apply in_or_app; now right).
          assert (live_ok y) as Ly by (rewrite Forall_forall in Lt; now apply Lt).
          destruct (live_rest y Ly) as (my & Ky & _ & _ & DKy).
          { rewrite Forall_forall in Okt. apply Okt. apply in_or_app. now left. }
          destruct (comp_spec x2 y k2 (key_of y) eq_refl Ky DK2 DKy) as (c & Ec & Ec1 & _).
          { apply (Hne y). apply in_or_app. now left. }
          exists c. rewrite Hy. split; [exact Ec|]. apply Ec1. now apply H2.
        + (* equal keys below are adjacent *)
          intros i Hi Hk. destruct (nth_error t i) as [y|] eqn:Ey; [|discriminate]. apply keyb_iff in Hk.
          destruct (nth_error t (length t1 - 1)) as [z|] eqn:Ez.
          2:{ apply nth_error_None in Ez. rewrite Et, app_length in Ez. lia. }
          apply keyb_iff.
          assert (In z t1) as Hz.
          { rewrite Et, nth_error_app1 in Ez by lia. now apply nth_error_In in Ez. }
          pose proof (ilt_le z x2 (H1 z Hz)) as L1. rewrite K2 in L1.
          destruct (Nat.eq_dec i (length t1 - 1)) as [->|Hni]; [congruence|].
          assert (ilt y z) as L2'.
          { rewrite <- (firstn_skipn (S i) t) in St. apply SS_app in St. destruct St as (_ & _ & C).
            apply C.
            - rewrite (firstn_nth _ _ _ Ey). apply in_or_app. right. now left.
            - apply nth_error_In with (length t1 - 1 - S i)%nat. rewrite <- Ez.
              rewrite <- (firstn_skipn (S i) t) at 2. rewrite nth_error_app2; rewrite firstn_length; rewrite Et, app_length in *.
              + f_equal. lia.
              + lia. }
          apply ilt_le in L2'. rewrite Hk in L2'.
          destruct (o_tri od TD (key_of z) k2) as [A|[A|A]]; [|exact A|].
          * pose proof (o_le_lt od TD _ _ _ L2' A). exfalso. now apply (o_irr od TD k2).
          * pose proof (o_le_lt od TD _ _ _ L1 A). exfalso. now apply (o_irr od TD (key_of z)).
        + (* equal keys above are adjacent *)
          intros i Hi Hk. destruct (nth_error t i) as [y|] eqn:Ey; [|discriminate]. apply keyb_iff in Hk.
          destruct (nth_error t (length t1)) as [z|] eqn:Ez.
          2:{ apply nth_error_None in Ez. lia. }
          apply keyb_iff.
          assert (In z t2) as Hz.
          { rewrite Et, nth_error_app2 in Ez by lia. now apply nth_error_In in Ez. }
          pose proof (ilt_le x2 z (H2 z Hz)) as L1. rewrite K2 in L1.
          destruct (Nat.eq_dec i (length t1)) as [->|Hni]; [congruence|].
          assert (ilt z y) as L2'.
          { rewrite <- (firstn_skipn (S (length t1)) t) in St. apply SS_app in St. destruct St as (_ & _ & C).
            apply C.
            - rewrite (firstn_nth _ _ _ Ez). apply in_or_app. right. now left.
            - apply nth_error_In with (i - S (length t1))%nat. rewrite <- Ey.
              rewrite <- (firstn_skipn (S (length t1)) t) at 2. rewrite nth_error_app2; rewrite firstn_length.
              + f_equal. lia.
              + lia. }
          apply ilt_le in L2'. rewrite Hk in L2'.
          destruct (o_tri od TD (key_of z) k2) as [A|[A|A]]; [|exact A|].
          * pose proof (o_le_lt od TD _ _ _ L1 A). exfalso. now apply (o_irr od TD k2).
          * pose proof (o_le_lt od TD _ _ _ L2' A). exfalso. now apply (o_irr od TD (key_of z)).
        + lia.
        + rewrite Et, app_length; lia.
        + lia.
        + intros Hz. lia.
        + exact I.
        + discriminate.
        + exact I.
        + discriminate.
        + intros Hz. lia. }
    split; [exact Hcode|].
    assert (forall a, In a (map vw (live' ++ dead)) <-> In a (vw x2 :: map vw (t ++ dead))) as Hin.
    { intros a. rewrite map_app, Mlive, Et, !map_app. cbn [In]. rewrite !in_app_iff. cbn [In]. tauto. }
    destruct (Hall x2 eq_refl eq_refl (live' ++ dead) Hin) as (A1 & A2 & A3 & A4 & A5).
    assert (forall y, In y live' -> exists y0, (y0 = x2 \/ In y0 t) /\ vw y0 = vw y) as Hlv.
    { intros y Hy. assert (In (vw y) (map vw live')) as Hv by now apply in_map. rewrite Mlive in Hv.
      apply in_app_or in Hv. destruct Hv as [Hv|[Hv|Hv]].
      - apply in_map_iff in Hv. destruct Hv as (z & E & Hz). exists z. split; [right; rewrite Et; apply in_or_app; now left|exact E].
      - exists x2. auto.
      - apply in_map_iff in Hv. destruct Hv as (z & E & Hz). exists z. split; [right; rewrite Et; apply in_or_app; now right|exact E]. }
    assert (forall l l', map vw l = map vw l' -> StronglySorted ilt l -> StronglySorted ilt l') as SSvw.
    { clear. induction l as [|a l IH]; intros [|b l'] E HS; try discriminate; [constructor|].
      cbn [map] in E. injection E as E0 E1 E2 E3 E. inversion HS; subst. constructor; [now apply IH|].
      rewrite Forall_forall in *. intros y Hy. assert (In (vw y) (map vw l)) as Hv by (rewrite E; now apply in_map).
      apply in_map_iff in Hv. destruct Hv as (z & Ez & Hz). specialize (H2 z Hz).
      unfold vw in Ez. injection Ez as Z1 Z2 Z3 Z4. unfold ilt, key_of in *.
      now rewrite <- Z1, <- Z3, <- E0, <- E2. }
    split; [|split; [reflexivity|split; [|split]]].
    - constructor; cbn [set_arr m_arr m_rem m_fwd]; try assumption; try reflexivity.
      + rewrite Forall_forall. intros y Hy. destruct (Hlv y Hy) as (y0 & Hy0 & E).
        assert (live_ok y0) as L0. { destruct Hy0 as [->|Hy0]; [exact L2|]. rewrite Forall_forall in Lt. now apply Lt. }
        unfold vw in E. injection E as E1 E2 E3 E4. unfold live_ok in *. now rewrite <- E2, <- E3, <- E4.
      + apply (SSvw (t1 ++ x2 :: t2)).
        * rewrite Mlive, map_app. reflexivity.
        * rewrite Et in St. apply SS_app in St. destruct St as (Sa & Sb & Sc). apply SS_app. repeat split; [exact Sa| |].
          -- constructor; [exact Sb|]. rewrite Forall_forall. exact H2.
          -- intros a b Ha [<-|Hb]; [now apply H1|now apply Sc].
      + apply bits_insert.
        * rewrite <- Et. clear - Ibits. cbn [bits] in Ibits. destruct t; [exact I|]. apply Ibits.
        * rewrite K2. subst pe. split.
          -- destruct t1 as [|z t1' _] using rev_ind; [discriminate|]. rewrite rev_app_distr, app_length. cbn [rev app length].
             replace (length t1' + 1)%nat with (S (length t1')) by lia. cbn [Nat.eqb]. intros Hk. apply keyb_iff in Hk. eauto.
          -- intros (z & t1' & -> & Hk). rewrite rev_app_distr, app_length. cbn [rev app length].
             replace (length t1' + 1)%nat with (S (length t1')) by lia. cbn [Nat.eqb]. now apply keyb_iff.
        * rewrite K2. subst ne. split.
          -- destruct t2 as [|z t2']; [discriminate|]. intros Hk. apply keyb_iff in Hk. eauto.
          -- intros (z & t2' & -> & Hk). now apply keyb_iff.
      + assert (forall l, map o_seq l = map (fun v => fst (fst (fst v))) (map vw l)) as Ms by (intros; now rewrite map_map).
        apply (Permutation_NoDup (l := map o_seq (x2 :: t ++ dead))); [|exact Inod2].
        rewrite (Ms (live' ++ dead)), map_app, Mlive. rewrite !map_app. cbn [map].
        rewrite <- !Ms, Et. rewrite !map_app, <- !app_assoc. cbn [app]. apply Permutation_middle.
    - intros k Hk.
      assert (forall l l', map vw l = map vw l' -> map vw (filter (fun y => keyb k (key_of y)) l) = map vw (filter (fun y => keyb k (key_of y)) l')) as Hf.
      { clear. induction l as [|a l IH]; intros [|b l'] E; try discriminate; [reflexivity|].
        cbn [map] in E. injection E as E0 E1 E2 E3 E. cbn [filter].
        assert (key_of a = key_of b) as -> by (unfold key_of; now rewrite E2).
        destruct (keyb k (key_of b)); [|now apply IH]. cbn [map]. rewrite (IH l' E). unfold vw. congruence. }
      rewrite (Hf live' (t1 ++ x2 :: t2)) by (now rewrite Mlive, map_app).
      rewrite Et, !filter_app. cbn [filter]. rewrite K2.
      assert (keyb k k2 = false) as ->; [|reflexivity].
      apply keyb_false. apply (Hk (k2, m2)). rewrite G2. now left.
    - intros y Hy. destruct (Hlv y Hy) as (y0 & Hy0 & E).
      assert (key_of y0 = key_of y) as <- by (unfold vw in E; injection E as E1 E2 E3 E4; unfold key_of; now rewrite E3).
      destruct Hy0 as [->|Hy0]; [rewrite K2; lia|]. apply ilt_le. now apply Fx.
    - assert (forall l, sizes l = fold_right (fun v n => (length (rest fwd (snd (fst (fst v)))) + n)%nat) O (map vw l)) as Hz.
      { induction l as [|a l IH]; [reflexivity|]. cbn [sizes fold_right map]. fold (sizes l). rewrite IH. reflexivity. }
      assert (sizes live' = sizes (t1 ++ x2 :: t2)) as Hs2 by (rewrite !Hz, Mlive, map_app; reflexivity).
      rewrite sizes_app, Hs2, Et. cbn [app]. rewrite sizes_app.
      change (sizes (x :: (t1 ++ t2) ++ dead)) with (length (rest fwd (o_src x)) + sizes ((t1 ++ t2) ++ dead))%nat.
      rewrite !sizes_app. change (sizes (x2 :: t2)) with (length (rest fwd s') + sizes t2)%nat. rewrite Rx. cbn [length]. fold s'. lia.
  Qed.

  (** ** The spec of a scan *)

  (** All messages for [k], oldest source first. *)
  Definition msgs (R : Z -> list (bytes * message)) (k : bytes) : list message :=
    flat_map (fun s => messages_of k (R s)) seqs.

  Definition spec_out (md : mode) (R : Z -> list (bytes * message)) (L : list (bytes * message)) : Prop :=
    StronglySorted (fun a b => od (fst a) (fst b) < 0) L /\
    forall k d, In (k, d) L <->
      exists c, collapse cfg k (msgs R k) = Some c /\ finish cfg md k c = Some d /\ kept md d = true.

  Definition dropk (k : bytes) (l : list (bytes * message)) : list (bytes * message) :=
    match l with
    | [] => []
    | p :: r => if keyb k (fst p) then r else l
    end.

  Lemma inv_ext : forall st live dead R R2, (forall s, In s seqs -> R s = R2 s) ->
    inv st live dead R -> inv st live dead R2.
  Proof.
    intros st live dead R R2 H [A B C E F G I0 J K L M O P]. constructor; try assumption.
    intros x Hx. rewrite <- H; [now apply L|]. apply P. now apply in_map.
  Qed.

  Lemma inv_same : forall st st' live dead R, m_arr st' = m_arr st -> m_rem st' = m_rem st -> m_fwd st' = m_fwd st ->
    inv st live dead R -> inv st' live dead R.
  Proof. intros st st' live dead R E1 E2 E3 [A B C E F G I0 J K L M O P]. constructor; try assumption; congruence. Qed.

  Lemma inv_arr_in : forall st live dead R s, inv st live dead R -> In s seqs ->
    exists x, In x (live ++ dead) /\ o_seq x = s /\ src_ok ord D fwd (o_src x) /\ rest fwd (o_src x) = R s.
  Proof.
    intros st live dead R s I0 Hs. apply (i_seqs _ _ _ _ I0) in Hs. apply in_map_iff in Hs.
    destruct Hs as (x & E & Hx). exists x. repeat split; try assumption.
    - pose proof (i_src _ _ _ _ I0) as H. rewrite Forall_forall in H. now apply H.
    - pose proof (i_src _ _ _ _ I0) as H. rewrite Forall_forall in H. now apply H.
    - pose proof (i_src _ _ _ _ I0) as H. rewrite Forall_forall in H. now apply H.
    - rewrite <- E. now apply (i_R _ _ _ _ I0).
  Qed.

  Lemma R_sorted : forall st live dead R s, inv st live dead R -> In s seqs ->
    StronglySorted (fun a b => od (fst a) (fst b) < 0) (R s).
  Proof.
    intros st live dead R s I0 Hs. destruct (inv_arr_in _ _ _ _ _ I0 Hs) as (x & Hx & _ & Ok & <-).
    now apply (rest_sorted ord D).
  Qed.

  (** The least key. *)
  Lemma R_min : forall st x t dead R s b, inv st (x :: t) dead R -> In s seqs -> In b (R s) ->
    od (key_of x) (fst b) <= 0.
  Proof.
    intros st x t dead R s b I0 Hs Hb. destruct (inv_arr_in _ _ _ _ _ I0 Hs) as (y & Hy & Ey & Ok & Er).
    rewrite <- Er in Hb. apply in_app_or in Hy. destruct Hy as [Hy|Hy].
    - pose proof (i_live _ _ _ _ I0) as Hl. rewrite Forall_forall in Hl. specialize (Hl y Hy).
      destruct (live_rest y Hl Ok) as (my & _ & _ & Ry & _).
      pose proof (rest_sorted ord D fwd _ Ok) as S0. rewrite Ry in S0, Hb. inversion S0; subst.
      rewrite Forall_forall in H2.
      assert (od (key_of x) (key_of y) <= 0) as L.
      { destruct Hy as [<-|Hy]; [rewrite (o_refl0 od TD); lia|]. pose proof (i_sort _ _ _ _ I0) as HS. inversion HS; subst.
        rewrite Forall_forall in H4. apply ilt_le. now apply H4. }
      destruct Hb as [<-|Hb]; [exact L|]. specialize (H2 b Hb). cbn [fst] in H2. pose proof (o_le_lt od TD _ _ _ L H2). lia.
    - pose proof (i_dead _ _ _ _ I0) as Hl. rewrite Forall_forall in Hl. destruct (Hl y Hy) as [Cd _].
      rewrite (rest_dead fwd _ Cd) in Hb. destruct Hb.
  Qed.

  Lemma R_head : forall st x t dead R y, inv st (x :: t) dead R -> In y (x :: t) ->
    exists m r, R (o_seq y) = (key_of y, m) :: r /\ o_data y = Some m /\ o_key y = Some (key_of y) /\
      r = rest fwd (src_step fwd (o_src y)) /\ In (o_seq y) seqs /\ (forall b, In b r -> od (key_of y) (fst b) < 0).
  Proof.
    intros st x t dead R y I0 Hy.
    assert (In y ((x :: t) ++ dead)) as Hy' by (apply in_or_app; now left).
    pose proof (i_live _ _ _ _ I0) as Hl. rewrite Forall_forall in Hl. specialize (Hl y Hy).
    pose proof (i_src _ _ _ _ I0) as Hs. rewrite Forall_forall in Hs. specialize (Hs y Hy').
    destruct (live_rest y Hl Hs) as (m & K & Dt & Ry & _).
    exists m, (rest fwd (src_step fwd (o_src y))). rewrite <- (i_R _ _ _ _ I0 y Hy'). repeat split; try assumption.
    - apply (i_seqs _ _ _ _ I0). now apply in_map.
    - intros b Hb. pose proof (rest_sorted ord D fwd _ Hs) as S0. rewrite Ry in S0. inversion S0; subst.
      rewrite Forall_forall in H2. now apply (H2 b).
  Qed.

  (** In a sorted list of tuples whose keys are at least [k], [k] is at the head or absent. *)
  Lemma head_or_absent : forall k (l : list (bytes * message)), StronglySorted (fun a b => od (fst a) (fst b) < 0) l ->
    (forall b, In b l -> od k (fst b) <= 0) -> forall m, In (k, m) l -> exists r, l = (k, m) :: r.
  Proof.
    intros k l HS Hk m Hm. destruct l as [|p r]; [destruct Hm|]. destruct Hm as [->|Hm]; [eauto|].
    inversion HS; subst. rewrite Forall_forall in H2. specialize (H2 _ Hm). cbn [fst] in H2.
    pose proof (o_le_lt od TD _ _ _ (Hk p (or_introl eq_refl)) H2) as A. exfalso. now apply (o_irr od TD k).
  Qed.

  Lemma group_spec : forall st x t dead R, inv st (x :: t) dead R ->
    map o_data (filter (fun y => keyb (key_of x) (key_of y)) (x :: t)) = map Some (rev (msgs R (key_of x))).
  Proof.
    intros st x t dead R I0. set (k := key_of x).
    set (P1 := map (fun y => (o_seq y, o_data y)) (filter (fun y => keyb k (key_of y)) (x :: t))).
    set (P0 := flat_map (fun s => map (fun m => (s, Some m)) (messages_of k (R s))) seqs).
    assert (P1 = rev P0) as E.
    { apply (SS_unique (fun a b : Z * option message => fst b < fst a)).
      - intros a. lia.
      - intros a b c. lia.
      - unfold P1. apply SS_map. cbn [fst].
        pose proof (i_sort _ _ _ _ I0) as HS. clear - HS k TD. induction (x :: t) as [|a l IH]; [constructor|].
        inversion HS; subst. cbn [filter]. destruct (keyb k (key_of a)) eqn:Ea; [|now apply IH].
        constructor; [now apply IH|]. rewrite Forall_forall in *. intros b Hb. apply filter_In in Hb. destruct Hb as [Hb Eb].
        destruct (H2 b Hb) as [A|[A B]]; [|exact B]. apply keyb_iff in Ea, Eb. rewrite Ea, Eb in A. exfalso. now apply (o_irr od TD k).
      - apply (SS_rev (fun a b : Z * option message => fst a < fst b)); [intros; lia|].
        assert (forall s, In s seqs -> (length (messages_of k (R s)) <= 1)%nat) as H1.
        { intros s Hs. pose proof (R_sorted _ _ _ _ _ I0 Hs) as HS. clear - HS TD. unfold messages_of. rewrite map_length.
          induction (R s) as [|p l IH]; [cbn; lia|]. inversion HS; subst. cbn [filter].
          destruct (keyb k (fst p)) eqn:Ep; [|now apply IH]. cbn [length].
          assert (filter (fun p0 : bytes * message => keyb k (fst p0)) l = []) as ->; [|reflexivity].
          rewrite Forall_forall in H2. destruct (filter _ l) as [|q r] eqn:Ef; [reflexivity|].
          assert (In q (filter (fun p0 : bytes * message => keyb k (fst p0)) l)) as Hq by (rewrite Ef; now left).
          apply filter_In in Hq. destruct Hq as [Hq Eq]. specialize (H2 q Hq). apply keyb_iff in Ep, Eq. rewrite Ep, Eq in H2.
          exfalso. now apply (o_irr od TD k). }
        unfold P0. clear - H1 seqs_sorted. induction seqs as [|s l IH]; [constructor|].
        inversion seqs_sorted; subst. cbn [flat_map]. apply SS_app. repeat split.
        + specialize (H1 s (or_introl eq_refl)). destruct (messages_of k (R s)) as [|m [|m' r]]; cbn [map length] in *; [constructor|repeat constructor|lia].
        + apply IH; [assumption|]. intros s' Hs'. apply H1. now right.
        + intros a b Ha Hb. apply in_map_iff in Ha. destruct Ha as (m & <- & _).
          apply in_flat_map in Hb. destruct Hb as (s' & Hs' & Hb). apply in_map_iff in Hb. destruct Hb as (m' & <- & _).
          cbn [fst]. rewrite Forall_forall in H3. now apply H3.
      - intros [s d]. unfold P1. rewrite <- in_rev. unfold P0. rewrite in_map_iff, in_flat_map. split.
        + intros (y & E & Hy). apply filter_In in Hy. destruct Hy as [Hy Ky]. apply keyb_iff in Ky.
          destruct (R_head _ _ _ _ _ _ I0 Hy) as (m & r & ER & Ed & _ & _ & Hs & _). injection E as <- <-.
          exists (o_seq y). split; [exact Hs|]. apply in_map_iff. exists m. split; [now rewrite Ed|].
          apply messages_of_in. rewrite ER, Ky. now left.
        + intros (s' & Hs' & Hm). apply in_map_iff in Hm. destruct Hm as (m & E & Hm). injection E as -> <-.
          apply messages_of_in in Hm.
          destruct (head_or_absent k (R s)) with (m := m) as (r & Er);
            [now apply (R_sorted _ _ _ _ _ I0)|intros b Hb; now apply (R_min _ _ _ _ _ _ _ I0 Hs')|exact Hm|].
          destruct (inv_arr_in _ _ _ _ _ I0 Hs') as (y & Hy & Ey & Ok & Ery).
          rewrite Er in Ery. assert (In y (x :: t)) as Hy'.
          { apply in_app_or in Hy. destruct Hy as [Hy|Hy]; [exact Hy|].
            pose proof (i_dead _ _ _ _ I0) as Hl. rewrite Forall_forall in Hl. destruct (Hl y Hy) as [Cd _].
            rewrite (rest_dead fwd _ Cd) in Ery. discriminate. }
          destruct (R_head _ _ _ _ _ _ I0 Hy') as (m' & r' & ER & Ed & _). rewrite Ey, Er in ER. injection ER as E1 E2 _.
          exists y. split; [now rewrite Ey, Ed, E2|]. apply filter_In. split; [exact Hy'|]. now apply keyb_iff. }
    assert (map snd P1 = map o_data (filter (fun y => keyb k (key_of y)) (x :: t))) as <-.
    { unfold P1. rewrite map_map. reflexivity. }
    rewrite E, !map_rev. f_equal. unfold P0, msgs. clear. induction seqs as [|s l IH]; [reflexivity|].
    cbn [flat_map]. rewrite !map_app, IH, !map_map. reflexivity.
  Qed.

  (** Merging older messages one after the other. *)
  Definition merge_older (k : bytes) (olds : list (option message)) (buf : option message) : option message :=
    fold_left (fun acc o => match acc, o with
                            | Some a, Some old => data_merge_tuples cfg k old a
                            | _, _ => None
                            end) olds buf.

  Lemma collapse_older : forall k n l, collapse cfg k (rev (n :: l)) = merge_older k (map Some l) (Some n).
  Proof.
    intros k n l. induction l as [|a l IH] using rev_ind; [reflexivity|].
    cbn [rev]. rewrite rev_app_distr. cbn [rev app]. rewrite map_app. unfold merge_older. rewrite fold_left_app.
    fold (merge_older k (map Some l) (Some n)). cbn [map fold_left]. rewrite <- IH. cbn [rev].
    destruct (rev l ++ [n]) as [|y r] eqn:E; [destruct (rev l); discriminate|].
    cbn [app]. rewrite collapse_cons. reflexivity.
  Qed.

  Lemma after_single : forall st z t dead R, inv st (z :: t) dead R -> o_eq z = false ->
    (forall y, In y t -> od (key_of z) (key_of y) < 0) /\
    (forall s, In s seqs -> s <> o_seq z -> dropk (key_of z) (R s) = R s).
  Proof.
    intros st z t dead R I0 Eq.
    assert (forall y, In y t -> od (key_of z) (key_of y) < 0) as H.
    { intros y Hy. pose proof (i_bits _ _ _ _ I0) as B. pose proof (i_sort _ _ _ _ I0) as HS.
      destruct t as [|y0 t]; [destruct Hy|]. inversion HS as [|? ? HS' HF]; subst. inversion HS' as [|? ? HS'' HF']; subst.
      rewrite Forall_forall in HF, HF'. cbn [bits] in B. destruct B as [B _].
      assert (od (key_of z) (key_of y0) < 0) as A.
      { destruct (HF y0 (or_introl eq_refl)) as [A|[A _]]; [exact A|]. apply B in A. congruence. }
      destruct Hy as [<-|Hy]; [exact A|]. apply (o_lt_le od TD) with (key_of y0); [exact A|]. apply ilt_le. now apply HF'. }
    split; [exact H|]. intros s Hs Hne. destruct (inv_arr_in _ _ _ _ _ I0 Hs) as (y & Hy & Ey & Ok & Er).
    apply in_app_or in Hy. destruct Hy as [[<-|Hy]|Hy]; [congruence| |].
    - destruct (R_head _ _ _ _ _ y I0 (or_intror Hy)) as (m & r & ER & _). rewrite Ey in ER. rewrite ER. unfold dropk.
      cbn [fst]. destruct (keyb (key_of z) (key_of y)) eqn:Ek; [|reflexivity]. apply keyb_iff in Ek.
      specialize (H y Hy). rewrite Ek in H. exfalso. now apply (o_irr od TD (key_of z)).
    - pose proof (i_dead _ _ _ _ I0) as Hl. rewrite Forall_forall in Hl. destruct (Hl y Hy) as [Cd _].
      rewrite <- Er, (rest_dead fwd _ Cd). reflexivity.
  Qed.

  Lemma merge_nullable_some : forall k old new,
    merge_nullable cfg (Some k) (Some old) new = data_merge_tuples cfg k old new.
  Proof. intros. unfold merge_nullable, data_merge_tuples. destruct (is_definitive new); reflexivity. Qed.

  Lemma key_of_vw : forall x y, vw x = vw y -> key_of x = key_of y /\ o_seq x = o_seq y /\ o_data x = o_data y.
  Proof. intros x y E. unfold vw in E. injection E as E1 E2 E3 E4. unfold key_of. rewrite E3. auto. Qed.

  Lemma map_vw_data : forall l l', map vw l = map vw l' -> map o_data l = map o_data l'.
  Proof.
    intros l l' H. assert (forall l, map o_data l = map snd (map vw l)) as E by (intros; now rewrite map_map).
    now rewrite !E, H.
  Qed.

  Definition same_but_arr (st st' : mi) : Prop :=
    m_mode st' = m_mode st /\ m_can_prev st' = m_can_prev st /\ m_can_next st' = m_can_next st /\
    m_fwd st' = m_fwd st.

  Lemma resolve_spec : forall fuel st x t dead R buf k,
    inv st (x :: t) dead R -> key_of x = k -> o_eq x = true -> cur_key st = Some k ->
    msg_allowed cfg buf ->
    (length (filter (fun y => keyb k (key_of y)) t) <= fuel)%nat ->
    exists st' z t' dead' R' buf',
      resolve_loop fuel cfg st buf = Some (st', buf') /\
      inv st' (z :: t') dead' R' /\ key_of z = k /\ o_eq z = false /\ cur_key st' = Some k /\
      merge_older k (map o_data (filter (fun y => keyb k (key_of y)) t)) (Some buf) = Some buf' /\
      msg_allowed cfg buf' /\
      (forall s, In s seqs -> R' s = if s =? o_seq z then R s else dropk k (R s)) /\
      same_but_arr st st' /\ (sizes (m_arr st') <= sizes (m_arr st))%nat.
  Proof.
    induction fuel as [|f IH]; intros st x t dead R buf k I0 Kx Ex Ck Hb Hf.
    - exfalso. pose proof (i_bits _ _ _ _ I0) as B. destruct t as [|y t]; [cbn [bits] in B; congruence|].
      cbn [bits] in B. destruct B as [B _]. apply B in Ex. cbn [filter] in Hf.
      assert (keyb k (key_of y) = true) as E by (apply keyb_iff; congruence). rewrite E in Hf. cbn [length] in Hf. lia.
    - pose proof (i_bits _ _ _ _ I0) as B. destruct t as [|y t]; [cbn [bits] in B; congruence|].
      cbn [bits] in B. destruct B as [B _]. pose proof (proj1 B Ex) as Ky. rewrite Kx in Ky. clear B.
      assert (keyb k (key_of y) = true) as Eyb by (apply keyb_iff; congruence).
      destruct (R_head _ _ _ _ _ y I0 (or_intror (or_introl eq_refl))) as (my & ry & ERy & Dy & KYs & _).
      destruct (R_head _ _ _ _ _ x I0 (or_introl eq_refl)) as (mx & rx & ERx & _ & _ & Erx & Hsx & Hgx).
      cbn [resolve_loop]. rewrite (i_arr _ _ _ _ I0). cbn [app nth_error].
      rewrite Ck, Dy, merge_nullable_some.
      destruct (data_merge_defined cfg k my buf Hb) as (buf1 & Eb1). rewrite Eb1.
      pose proof (data_merge_allowed cfg k my buf buf1 Hb Eb1) as Hb1.
      assert (inv (set_curr st (o_key y) (cur_data st)) (x :: y :: t) dead R) as I1 by (apply (inv_same st); auto).
      destruct (advance_spec _ _ _ _ _ I1) as (st1 & live1 & dead1 & E1 & J & Est1 & Hfil & Hge & Hsz).
      rewrite E1.
      assert (forall b, In b (rest fwd (src_step fwd (o_src x))) -> fst b <> k) as Hnk.
      { intros b Hbb E. rewrite <- Erx in Hbb. specialize (Hgx b Hbb). rewrite E, Kx in Hgx. now apply (o_irr od TD k). }
      specialize (Hfil k Hnk).
      assert (exists z t1, live1 = z :: t1 /\ key_of z = k) as (z & t1 & El1 & Kz).
      { destruct live1 as [|z t1]; [cbn [filter] in Hfil; rewrite Eyb in Hfil; discriminate|].
        exists z, t1. split; [reflexivity|].
        assert (exists w, In w (z :: t1) /\ key_of w = k) as (w & Hw & Kw).
        { destruct (filter (fun y0 => keyb k (key_of y0)) (z :: t1)) as [|w r] eqn:Ef.
          - cbn [filter] in Hfil. rewrite Eyb in Hfil. discriminate.
          - assert (In w (filter (fun y0 => keyb k (key_of y0)) (z :: t1))) as Hw by (rewrite Ef; now left).
            apply filter_In in Hw. destruct Hw as [Hw Kw]. apply keyb_iff in Kw. eauto. }
        destruct Hw as [<-|Hw]; [exact Kw|].
        pose proof (i_sort _ _ _ _ J) as HS. inversion HS; subst. rewrite Forall_forall in H2. pose proof (ilt_le _ _ (H2 w Hw)) as A.
        pose proof (Hge z (or_introl eq_refl)) as Bz. 
        destruct (o_tri od TD (key_of z) (key_of x)) as [C|[C|C]]; [|exact C|].
        - pose proof (o_le_lt od TD _ _ _ Bz C). exfalso. now apply (o_irr od TD (key_of x)).
        - rewrite Kw in A. pose proof (o_le_lt od TD _ _ _ A C). exfalso. now apply (o_irr od TD (key_of z)). }
      subst live1.
      assert (m_arr st1 = (z :: t1) ++ dead1) as Ea1 by apply (i_arr _ _ _ _ J). rewrite Ea1. cbn [app].
      (* y's view is z's *)
      cbn [filter] in Hfil. assert (keyb k (key_of z) = true) as Ezb by (apply keyb_iff; exact Kz).
      rewrite Eyb, Ezb in Hfil. cbn [map] in Hfil. injection Hfil as V1 V2 V3 V4 Hfil.
      assert (o_seq z <> o_seq x) as Hzx.
      { rewrite V1. intros E. apply (nodup_ne x ((y :: t) ++ dead) (i_nodup _ _ _ _ I0) y); [now left|now symmetry]. }
      assert (R (o_seq x) = (k, mx) :: rx) as ERx' by (now rewrite <- Kx).
      (* effect of popping x *)
      assert (forall s, In s seqs -> s <> o_seq z ->
                dropk k (upd R (o_seq x) (tl (R (o_seq x))) s) = dropk k (R s)) as HRd.
      { intros s Hs Hns. unfold upd. destruct (Z.eqb_spec s (o_seq x)) as [->|]; [|reflexivity].
        rewrite ERx'. cbn [tl dropk fst]. rewrite (proj2 (keyb_iff k k) eq_refl).
        destruct rx as [|b rx']; [reflexivity|]. cbn [dropk]. destruct (keyb k (fst b)) eqn:Eb; [|reflexivity].
        apply keyb_iff in Eb. exfalso. apply (Hnk b); [rewrite <- Erx; now left|exact Eb]. }
      assert (upd R (o_seq x) (tl (R (o_seq x))) (o_seq z) = R (o_seq z)) as HRz.
      { unfold upd. destruct (Z.eqb_spec (o_seq z) (o_seq x)); [congruence|reflexivity]. }
      assert (same_but_arr st st1) as HS1 by (rewrite Est1; repeat split).
      assert (sizes (m_arr st1) <= sizes (m_arr st))%nat as Hsz1.
      { rewrite Ea1, (i_arr _ _ _ _ I0). lia. }
      assert (cur_key st1 = Some k) as Ck1 by (rewrite Est1; cbn [set_arr cur_key set_curr]; now rewrite KYs, <- Ky).
      destruct (o_eq z) eqn:Ez.
      + destruct (IH st1 z t1 dead1 _ buf1 k J Kz Ez Ck1 Hb1) as (st' & z' & t' & dead' & R' & buf' & E2 & J2 & Kz' & Ez' & Ck' & Em & Hb' & HR' & HS' & Hsz').
        { cbn [filter] in Hf. rewrite Eyb in Hf. cbn [length] in Hf.
          rewrite <- (map_length vw (filter _ t1)), Hfil, map_length. lia. }
        exists st', z', t', dead', R', buf'.
        split; [exact E2|]. split; [exact J2|]. split; [exact Kz'|]. split; [exact Ez'|]. split; [exact Ck'|].
        split; [|split; [exact Hb'|split; [|split]]].
        * cbn [filter]. rewrite Eyb. cbn [map]. rewrite Dy. unfold merge_older. cbn [fold_left]. rewrite Eb1.
          fold (merge_older k (map o_data (filter (fun y0 => keyb k (key_of y0)) t)) (Some buf1)).
          now rewrite <- (map_vw_data _ _ Hfil).
        * intros s Hs. rewrite (HR' s Hs). destruct (Z.eqb_spec s (o_seq z')) as [->|Hn].
          -- unfold upd. destruct (Z.eqb_spec (o_seq z') (o_seq x)) as [E|]; [|reflexivity].
             exfalso. (* z' has key k, but x's source no longer does *)
             destruct (R_head _ _ _ _ _ z' J2 (or_introl eq_refl)) as (mz & rz & ERz & _ & _ & _ & Hsz0 & _).
             rewrite (HR' _ Hsz0), Z.eqb_refl in ERz. unfold upd in ERz. rewrite E, Z.eqb_refl, ERx' in ERz. cbn [tl] in ERz.
             apply (Hnk (key_of z', mz)); [rewrite <- Erx, ERz; now left|exact Kz'].
          -- destruct (Z.eq_dec s (o_seq z)) as [->|Hnz]; [now rewrite HRz|now apply HRd].
        * destruct HS1 as (a & b & c & e), HS' as (a' & b' & c' & e'). unfold same_but_arr. repeat split; congruence.
        * rewrite (i_arr _ _ _ _ I0) in Hsz1. cbn [app] in Hsz1. lia.
      + exists st1, z, t1, dead1, (upd R (o_seq x) (tl (R (o_seq x)))), buf1.
        destruct (after_single _ _ _ _ _ J Ez) as [Hlt Hdr]. rewrite Kz in Hlt, Hdr.
        split; [reflexivity|]. split; [exact J|]. split; [exact Kz|]. split; [exact Ez|]. split; [exact Ck1|].
        split; [|split; [exact Hb1|split; [|split; [exact HS1|rewrite (i_arr _ _ _ _ I0) in Hsz1; exact Hsz1]]]].
        * cbn [filter]. rewrite Eyb. cbn [map]. rewrite Dy. unfold merge_older. cbn [fold_left]. rewrite Eb1.
          fold (merge_older k (map o_data (filter (fun y0 => keyb k (key_of y0)) t)) (Some buf1)).
          rewrite <- (map_vw_data _ _ Hfil).
          assert (filter (fun y0 => keyb k (key_of y0)) t1 = []) as ->; [|reflexivity].
          destruct (filter _ t1) as [|w r] eqn:Ef; [reflexivity|].
          assert (In w (filter (fun y0 => keyb k (key_of y0)) t1)) as Hw by (rewrite Ef; now left).
          apply filter_In in Hw. destruct Hw as [Hw Kw]. apply keyb_iff in Kw. specialize (Hlt w Hw). rewrite Kw in Hlt.
          exfalso. now apply (o_irr od TD k).
        * intros s Hs. destruct (Z.eqb_spec s (o_seq z)) as [->|Hn]; [exact HRz|].
          rewrite <- (HRd s Hs Hn). symmetry. now apply Hdr.
  Qed.

  Definition allowed_R (R : Z -> list (bytes * message)) : Prop :=
    forall s b, In s seqs -> In b (R s) -> msg_allowed cfg (snd b).

  Lemma dropk_incl : forall k l b, In b (dropk k l) -> In b l.
  Proof. intros k [|p l] b H; [destruct H|]. cbn [dropk] in H. destruct (keyb k (fst p)); [now right|exact H]. Qed.

  Lemma allowed_drop : forall k R, allowed_R R -> allowed_R (fun s => dropk k (R s)).
  Proof. intros k R H s b Hs Hb. apply (H s b Hs). now apply dropk_incl in Hb. Qed.

  Lemma msgs_in : forall R k m, In m (msgs R k) <-> exists s, In s seqs /\ In (k, m) (R s).
  Proof.
    intros R k m. unfold msgs. rewrite in_flat_map. split; intros (s & Hs & Hm); exists s; split; try exact Hs;
      now apply messages_of_in in Hm || now apply messages_of_in.
  Qed.

  Lemma msgs_allowed : forall R k, allowed_R R -> Forall (msg_allowed cfg) (msgs R k).
  Proof.
    intros R k H. rewrite Forall_forall. intros m Hm. apply msgs_in in Hm. destruct Hm as (s & Hs & Hm).
    exact (H s (k, m) Hs Hm).
  Qed.

  Lemma msgs_ext : forall R R2 k, (forall s, In s seqs -> R s = R2 s) -> msgs R k = msgs R2 k.
  Proof.
    intros R R2 k H. unfold msgs. clear seqs_sorted. induction seqs as [|s l IH]; [reflexivity|].
    cbn [flat_map]. rewrite (H s) by now left. f_equal. apply IH. intros s' Hs'. apply H. now right.
  Qed.

  (** Dropping the least key. *)
  Lemma msgs_drop : forall st x t dead R k', inv st (x :: t) dead R ->
    msgs (fun s => dropk (key_of x) (R s)) k' =
    if keyb (key_of x) k' then [] else msgs R k'.
  Proof.
    intros st x t dead R k' I0.
    assert (forall s, In s seqs -> messages_of k' (dropk (key_of x) (R s)) =
                      if keyb (key_of x) k' then [] else messages_of k' (R s)) as H.
    { intros s Hs. pose proof (R_sorted _ _ _ _ _ I0 Hs) as HS.
      assert (forall b, In b (R s) -> od (key_of x) (fst b) <= 0) as HM by (intros b Hb; now apply (R_min _ _ _ _ _ _ _ I0 Hs)).
      destruct (keyb (key_of x) k') eqn:Ek.
      - apply keyb_iff in Ek. subst k'.
        destruct (messages_of (key_of x) (dropk (key_of x) (R s))) as [|m r] eqn:E; [reflexivity|].
        assert (In m (messages_of (key_of x) (dropk (key_of x) (R s)))) as Hm by (rewrite E; now left).
        apply messages_of_in in Hm. exfalso.
        destruct (head_or_absent _ _ HS HM m (dropk_incl _ _ _ Hm)) as (r' & Er). rewrite Er in Hm, HS.
        cbn [dropk fst] in Hm. rewrite (proj2 (keyb_iff _ _) eq_refl) in Hm. inversion HS; subst. rewrite Forall_forall in H2.
        specialize (H2 _ Hm). cbn [fst] in H2. now apply (o_irr od TD (key_of x)).
      - destruct (R s) as [|p r]; [reflexivity|]. cbn [dropk]. destruct (keyb (key_of x) (fst p)) eqn:Ep; [|reflexivity].
        unfold messages_of. cbn [filter]. apply keyb_iff in Ep. rewrite Ep.
        destruct (keyb k' (key_of x)) eqn:E2; [|reflexivity]. apply keyb_iff in E2. apply keyb_false in Ek. congruence. }
    unfold msgs. clear seqs_sorted. clear - H. induction seqs as [|s l IH]; [now destruct (keyb (key_of x) k')|].
    cbn [flat_map]. rewrite H by now left. rewrite IH by (intros s' Hs'; apply H; now right).
    now destruct (keyb (key_of x) k').
  Qed.

  (** ** Positioned states *)

  Definition pos (st : mi) (k : bytes) (d : message) (Rn : Z -> list (bytes * message)) : Prop :=
    exists z t dead R', inv st (z :: t) dead R' /\ key_of z = k /\ o_eq z = false /\
      cur_key st = Some k /\ cur_data st = Some d /\ m_can_prev st = true /\ m_can_next st = true /\
      (forall s, In s seqs -> Rn s = if s =? o_seq z then tl (R' s) else R' s) /\
      (forall b, In b (R' (o_seq z)) -> True).

  Definition at_end (st : mi) : Prop :=
    exists dead R', inv st [] dead R' /\ (if fwd then m_can_next st = false else m_can_prev st = false) /\
      (if fwd then m_can_prev st else m_can_next st) = negb (Nat.eqb (total_items (m_arr st)) 0).

  Lemma finalize_spec : forall st k c, cur_key st = Some k -> cur_data st = Some c -> msg_allowed cfg c ->
    m_mode st <> Raw ->
    exists d, finish cfg (m_mode st) k c = Some d /\
      finalize_and_discard cfg st =
        Some (if kept (m_mode st) d then set_curr st (Some k) (Some d)
              else add_discarded (set_curr st (Some k) (Some d)), negb (kept (m_mode st) d)).
  Proof.
    intros st k c Ek Ed Ha Hm. unfold finalize_and_discard. rewrite Ek, Ed. unfold finish, kept.
    destruct (m_mode st); [congruence| |].
    - exists c. split; [reflexivity|]. cbn [finalize_updates emit_deletes]. destruct (m_class c) eqn:Ec; rewrite ?Ec; reflexivity.
    - cbn [finalize_updates emit_deletes]. unfold data_merge_tuples_final. unfold is_definitive.
      destruct (m_class c) eqn:Ec.
      + exists c. rewrite Ec. auto.
      + destruct (merge_fns cfg) as [[f g]|] eqn:Em; [|exfalso; now apply Ha].
        exists (g k c). split; [reflexivity|]. destruct (m_class (g k c)); reflexivity.
      + exists c. rewrite Ec. auto.
  Qed.

  Lemma one_loop_spec : forall st x t dead R,
    inv st (x :: t) dead R -> allowed_R R -> m_mode st <> Raw ->
    m_can_prev st = true -> m_can_next st = true ->
    exists st' c d,
      advance_one_loop cfg st = Some (st', negb (kept (m_mode st) d)) /\
      pos st' (key_of x) d (fun s => dropk (key_of x) (R s)) /\
      collapse cfg (key_of x) (msgs R (key_of x)) = Some c /\ finish cfg (m_mode st) (key_of x) c = Some d /\
      m_mode st' = m_mode st /\ (sizes (m_arr st') <= sizes (m_arr st))%nat.
  Proof.
    intros st x t dead R I0 Ha Hm Cp Cn. set (k := key_of x).
    destruct (R_head _ _ _ _ _ x I0 (or_introl eq_refl)) as (mx & rx & ERx & Dx & Kx & Erx & Hsx & Hgx).
    pose proof (group_spec _ _ _ _ _ I0) as HG. fold k in HG. cbn [filter] in HG.
    assert (keyb k (key_of x) = true) as Ekx by now apply keyb_iff. rewrite Ekx in HG. cbn [map] in HG. rewrite Dx in HG.
    assert (exists olds, rev (msgs R k) = mx :: olds /\ map o_data (filter (fun y => keyb k (key_of y)) t) = map Some olds) as (olds & Er & Eo).
    { destruct (rev (msgs R k)) as [|a olds]; [discriminate|]. cbn [map] in HG. injection HG as -> HG. eauto. }
    assert (msgs R k = rev (mx :: olds)) as Em by (now rewrite <- Er, rev_involutive).
    assert (msg_allowed cfg mx) as Hmx.
    { apply (Ha (o_seq x) (key_of x, mx) Hsx). rewrite ERx. now left. }
    unfold advance_one_loop. rewrite (i_rem _ _ _ _ I0), (i_arr _ _ _ _ I0). cbn [length app].
    assert (merge_messages (m_mode st) = true) as -> by (destruct (m_mode st); [congruence|reflexivity|reflexivity]). cbn [negb].
    rewrite Kx, Dx.
    assert (inv (set_curr st (Some k) (Some mx)) (x :: t) dead R) as I1 by (apply (inv_same st); auto).
    (* both cases end in a state with a single copy of k *)
    assert (exists st2 z t2 dead2 R2 c,
      (if o_eq x then resolve_equal_keys cfg (set_curr st (Some k) (Some mx)) else Some (set_curr st (Some k) (Some mx))) = Some st2 /\
      inv st2 (z :: t2) dead2 R2 /\ key_of z = k /\ o_eq z = false /\ cur_key st2 = Some k /\ cur_data st2 = Some c /\
      msg_allowed cfg c /\ collapse cfg k (msgs R k) = Some c /\
      (forall s, In s seqs -> R2 s = if s =? o_seq z then R s else dropk k (R s)) /\
      same_but_arr st st2 /\ (sizes (m_arr st2) <= sizes (m_arr st))%nat) as
      (st2 & z & t2 & dead2 & R2 & c & E2 & I2 & Kz & Ez & Ck2 & Cd2 & Hc & Hcol & HR2 & HS2 & Hsz2).
    { destruct (o_eq x) eqn:Ex.
      - unfold resolve_equal_keys. cbn [cur_data set_curr m_arr].
        destruct (resolve_spec (S (total_items (m_arr st))) (set_curr st (Some k) (Some mx)) x t dead R mx k I1 eq_refl Ex eq_refl Hmx)
          as (st' & z & t' & dead' & R' & buf' & E & J & Kz & Ez & Ck & Emo & Hb & HR & HS & Hsz).
        { (* fuel *)
          assert (length (x :: t) <= total_items (m_arr st))%nat as Hlen.
          { rewrite (i_arr _ _ _ _ I0). pose proof (i_live _ _ _ _ I0) as Hl. clear - Hl.
            induction (x :: t) as [|a l IH]; [cbn; lia|]. inversion Hl as [|? ? (Hc & _) Hl']; subst. cbn [app total_items fold_right length].
            fold (total_items (l ++ dead)). specialize (IH Hl'). apply can_curr_iff in Hc. unfold src_len in Hc. lia. }
          assert (length (filter (fun y => keyb k (key_of y)) t) <= length t)%nat by (clear; induction t as [|a l IH]; [reflexivity|]; cbn [filter length]; destruct (keyb k (key_of a)); cbn [length]; lia).
          cbn [length] in Hlen. lia. }
        cbn [m_arr set_curr] in E. rewrite E.
        exists (set_curr st' (cur_key st') (Some buf')), z, t', dead', R', buf'.
        split; [reflexivity|]. split; [now apply (inv_same st')|]. split; [exact Kz|]. split; [exact Ez|]. split; [exact Ck|].
        split; [reflexivity|]. split; [exact Hb|]. split; [|split; [exact HR|split; [exact HS|exact Hsz]]].
        rewrite Em, collapse_older, <- Eo. exact Emo.
      - exists (set_curr st (Some k) (Some mx)), x, t, dead, R, mx.
        split; [reflexivity|]. split; [exact I1|]. split; [reflexivity|]. split; [exact Ex|]. split; [reflexivity|]. split; [reflexivity|].
        split; [exact Hmx|]. split; [|split; [|split; [repeat split|reflexivity]]].
        + destruct (after_single _ _ _ _ _ I0 Ex) as [Hlt _].
          assert (filter (fun y => keyb k (key_of y)) t = []) as Ef.
          { destruct (filter _ t) as [|w r] eqn:Ef; [reflexivity|].
            assert (In w (filter (fun y0 => keyb k (key_of y0)) t)) as Hw by (rewrite Ef; now left).
            apply filter_In in Hw. destruct Hw as [Hw Kw]. apply keyb_iff in Kw. specialize (Hlt w Hw). rewrite Kw in Hlt.
            exfalso. now apply (o_irr od TD k). }
          rewrite Ef in Eo. cbn [map] in Eo. assert (olds = []) as -> by (destruct olds; [reflexivity|discriminate]).
          rewrite Em. reflexivity.
        + destruct (after_single _ _ _ _ _ I0 Ex) as [_ Hdr]. intros s Hs. destruct (Z.eqb_spec s (o_seq x)); [reflexivity|]. symmetry. now apply Hdr. }
    cbv zeta. fold k. rewrite E2. destruct HS2 as (M1 & M2 & M3 & M4).
    destruct (finalize_spec st2 k c Ck2 Cd2 Hc ltac:(congruence)) as (d & Ed & Ef). rewrite Ef, M1 in *.
    eexists _, c, d. split; [reflexivity|]. split.
    - exists z, t2, dead2, R2.
      destruct (R_head _ _ _ _ _ z I2 (or_introl eq_refl)) as (mz & rz & ERz & _ & _ & _ & Hsz & _).
      split; [apply (inv_same st2); destruct (kept (m_mode st) d); auto|].
      split; [exact Kz|]. split; [exact Ez|]. split; [destruct (kept (m_mode st) d); reflexivity|].
      split; [destruct (kept (m_mode st) d); reflexivity|].
      split; [destruct (kept (m_mode st) d); cbn [add_discarded set_curr m_can_prev]; congruence|].
      split; [destruct (kept (m_mode st) d); cbn [add_discarded set_curr m_can_next]; congruence|].
      split; [|auto]. intros s Hs. rewrite (HR2 s Hs). destruct (Z.eqb_spec s (o_seq z)) as [->|]; [|reflexivity].
      rewrite (HR2 _ Hs), Z.eqb_refl, Kz in ERz. rewrite ERz. cbn [dropk fst tl]. now rewrite (proj2 (keyb_iff k k) eq_refl).
    - split; [exact Hcol|]. split; [exact Ed|]. split; [destruct (kept (m_mode st) d); exact M1|].
      rewrite (i_arr _ _ _ _ I0) in Hsz2. destruct (kept (m_mode st) d); exact Hsz2.
  Qed.

  Lemma spec_step : forall md st x t dead R c d L, inv st (x :: t) dead R ->
    collapse cfg (key_of x) (msgs R (key_of x)) = Some c -> finish cfg md (key_of x) c = Some d ->
    spec_out md (fun s => dropk (key_of x) (R s)) L ->
    spec_out md R (if kept md d then (key_of x, d) :: L else L).
  Proof.
    intros md st x t dead R c d L I0 Ec Ed [HS HL].
    assert (forall k' d', In (k', d') L -> od (key_of x) k' < 0) as Hgt.
    { intros k' d' H. apply HL in H. destruct H as (c' & Hc' & _). rewrite (msgs_drop _ _ _ _ _ _ I0) in Hc'.
      destruct (keyb (key_of x) k') eqn:Ek; [discriminate|]. apply keyb_false in Ek.
      destruct (msgs R k') as [|m r] eqn:Em; [discriminate|].
      assert (In m (msgs R k')) as Hm by (rewrite Em; now left). apply msgs_in in Hm. destruct Hm as (s & Hs & Hm).
      pose proof (R_min _ _ _ _ _ _ _ I0 Hs Hm) as A. cbn [fst] in A.
      destruct (Z.eq_dec (od (key_of x) k') 0) as [E|E]; [apply (to_eq od TD) in E; congruence|lia]. }
    split.
    - destruct (kept md d); [|exact HS]. constructor; [exact HS|]. rewrite Forall_forall. intros [k' d'] H. cbn [fst]. now apply (Hgt k' d').
    - intros k' d'.
      assert (In (k', d') L <-> k' <> key_of x /\ exists c, collapse cfg k' (msgs R k') = Some c /\ finish cfg md k' c = Some d' /\ kept md d' = true) as HL'.
      { rewrite HL, (msgs_drop _ _ _ _ _ _ I0). destruct (keyb (key_of x) k') eqn:Ek.
        - apply keyb_iff in Ek. split; [intros (c' & Hc' & _); discriminate|intros [Hn _]; congruence].
        - apply keyb_false in Ek. tauto. }
      destruct (kept md d) eqn:Ekept.
      + cbn [In]. rewrite HL'. split.
        * intros [E|[_ H]]; [|exact H]. injection E as <- <-. eauto.
        * intros H. destruct (list_eq_dec N.eq_dec k' (key_of x)) as [->|Hn]; [|right; auto].
          left. destruct H as (c' & H1 & H2 & _). congruence.
      + rewrite HL'. split; [tauto|]. intros H. split; [|exact H]. intros ->. destruct H as (c' & H1 & H2 & H3). congruence.
  Qed.

  Lemma spec_end : forall md st dead R, inv st [] dead R -> spec_out md R [].
  Proof.
    intros md st dead R I0. split; [constructor|]. intros k d. split; [intros []|]. intros (c & Hc & _).
    assert (msgs R k = []) as E; [|rewrite E in Hc; discriminate].
    destruct (msgs R k) as [|m r] eqn:Em; [reflexivity|].
    assert (In m (msgs R k)) as Hm by (rewrite Em; now left). apply msgs_in in Hm. destruct Hm as (s & Hs & Hm).
    destruct (inv_arr_in _ _ _ _ _ I0 Hs) as (y & Hy & Ey & Ok & Ery). cbn [app] in Hy.
    pose proof (i_dead _ _ _ _ I0) as Hl. rewrite Forall_forall in Hl. destruct (Hl y Hy) as [Cd _].
    rewrite (rest_dead fwd _ Cd) in Ery. rewrite <- Ery in Hm. destruct Hm.
  Qed.

  (** A state reached after settling on the next tuple of [R]. *)
  Definition settled (md : mode) (st : mi) (R : Z -> list (bytes * message)) (n : nat) : Prop :=
    (at_end st /\ m_mode st = md /\ spec_out md R []) \/
    (exists k d Rn, pos st k d Rn /\ allowed_R Rn /\ m_mode st = md /\
       (S (fold_right (fun s n => (length (Rn s) + n)%nat) O seqs) <= n)%nat /\
       forall L, spec_out md Rn L -> spec_out md R ((k, d) :: L)).

  Definition Rsize (R : Z -> list (bytes * message)) : nat :=
    fold_right (fun s n => (length (R s) + n)%nat) O seqs.

  Lemma allowed_ext : forall R R2, (forall s, In s seqs -> R s = R2 s) -> allowed_R R -> allowed_R R2.
  Proof. intros R R2 H Ha s b Hs Hb. rewrite <- H in Hb by exact Hs. now apply (Ha s). Qed.

  Lemma spec_ext : forall md R R2 L, (forall s, In s seqs -> R s = R2 s) -> spec_out md R L -> spec_out md R2 L.
  Proof.
    intros md R R2 L H [A B]. split; [exact A|]. intros k d. rewrite B. now rewrite (msgs_ext R R2 k H).
  Qed.

  Lemma Rsize_ext : forall R R2, (forall s, In s seqs -> R s = R2 s) -> Rsize R = Rsize R2.
  Proof.
    unfold Rsize. clear seqs_sorted. induction seqs as [|s l IH]; intros R R2 H; [reflexivity|]. cbn [fold_right].
    rewrite (H s) by now left. now rewrite (IH R R2) by (intros s' Hs'; apply H; now right).
  Qed.

  Lemma Rsize_drop : forall st x t dead R, inv st (x :: t) dead R ->
    (S (Rsize (fun s => dropk (key_of x) (R s))) <= Rsize R)%nat.
  Proof.
    intros st x t dead R I0.
    destruct (R_head _ _ _ _ _ x I0 (or_introl eq_refl)) as (mx & rx & ERx & _ & _ & _ & Hsx & _).
    assert (forall s, (length (dropk (key_of x) (R s)) <= length (R s))%nat) as Hle.
    { intros s. destruct (R s) as [|p l]; [reflexivity|]. cbn [dropk]. destruct (keyb (key_of x) (fst p)); cbn [length]; lia. }
    assert (S (length (dropk (key_of x) (R (o_seq x)))) = length (R (o_seq x)))%nat as Heq.
    { rewrite ERx. cbn [dropk fst]. now rewrite (proj2 (keyb_iff _ _) eq_refl). }
    unfold Rsize. revert Hsx. clear - Hle Heq. 
    assert (forall l, (fold_right (fun s n => (length (dropk (key_of x) (R s)) + n)%nat) O l <= fold_right (fun s n => (length (R s) + n)%nat) O l)%nat) as Hall.
    { induction l as [|s l IH]; [reflexivity|]. cbn [fold_right]. specialize (Hle s). lia. }
    induction seqs as [|s l IH]; intros H; [destruct H|]. cbn [fold_right]. destruct H as [->|H].
    - specialize (Hall l). lia.
    - specialize (IH H). specialize (Hle s). lia.
  Qed.

  (** advance_one_loop followed, if it discarded a delete, by merge_advance_helper. *)
  Definition settle (f : nat) (st : mi) : option mi :=
    match advance_one_loop cfg st with
    | None => None
    | Some (st2, true) => advance_helper f cfg st2
    | Some (st2, false) => Some st2
    end.

  Lemma advance_from_pos : forall st k d Rn, pos st k d Rn ->
    exists st1 live1 dead1, advance cfg (set_curr st None None) = Some st1 /\ inv st1 live1 dead1 Rn /\
      m_mode st1 = m_mode st /\ m_can_prev st1 = true /\ m_can_next st1 = true.
  Proof.
    intros st k d Rn (z & t & dead & R' & I0 & Kz & Ez & Ck & Cd & Cp & Cn & HR & _).
    assert (inv (set_curr st None None) (z :: t) dead R') as I1 by (apply (inv_same st); auto).
    destruct (advance_spec _ _ _ _ _ I1) as (st1 & live1 & dead1 & E1 & J & Est1 & _).
    exists st1, live1, dead1. split; [exact E1|]. split; [|rewrite Est1; auto].
    apply (inv_ext _ _ _ (upd R' (o_seq z) (tl (R' (o_seq z))))); [|exact J].
    intros s Hs. rewrite (HR s Hs). unfold upd. destruct (Z.eqb_spec s (o_seq z)) as [->|]; reflexivity.
  Qed.

  (** ** Fuel *)

  Definition all_items : nat := fold_right (fun s n => (length (IT s) + n)%nat) O seqs.

  Lemma fold_perm : forall (f : Z -> nat) a b, Permutation a b ->
    fold_right (fun s n => (f s + n)%nat) O a = fold_right (fun s n => (f s + n)%nat) O b.
  Proof. intros f a b H. induction H; cbn [fold_right]; lia. Qed.

  Lemma seqs_nodup : NoDup seqs.
  Proof.
    clear - seqs_sorted. induction seqs_sorted as [|a l H IH HF]; [constructor|]. constructor; [|exact (IH H)].
    intros Hi. rewrite Forall_forall in HF. specialize (HF _ Hi). lia.
  Qed.

  Lemma total_inv : forall st live dead R, inv st live dead R -> total_items (m_arr st) = all_items.
  Proof.
    intros st live dead R I0. rewrite (i_arr _ _ _ _ I0).
    assert (Permutation (map o_seq (live ++ dead)) seqs) as HP.
    { apply NoDup_Permutation; [apply I0|apply seqs_nodup|]. intros s. symmetry. apply (i_seqs _ _ _ _ I0). }
    unfold all_items. rewrite <- (fold_perm _ _ _ HP).
    pose proof (i_items _ _ _ _ I0) as H. clear - H. induction (live ++ dead) as [|x l IH]; [reflexivity|].
    cbn [map fold_right total_items]. fold (total_items l). rewrite IH by (intros y Hy; apply H; now right).
    rewrite (H x) by now left. reflexivity.
  Qed.

  Lemma rest_len : forall s, (length (rest fwd s) <= length (s_items s))%nat.
  Proof.
    intros s. unfold rest. destruct (src_can_curr s); [|cbn [length]; lia].
    destruct fwd; [rewrite skipn_length; lia|]. rewrite rev_length, firstn_length. lia.
  Qed.

  Lemma Rsize_le : forall st live dead R, inv st live dead R -> (Rsize R <= all_items)%nat.
  Proof.
    intros st live dead R I0. unfold Rsize, all_items.
    assert (forall s, In s seqs -> (length (R s) <= length (IT s))%nat) as H.
    { intros s Hs. destruct (inv_arr_in _ _ _ _ _ I0 Hs) as (x & Hx & Ex & _ & Er).
      rewrite <- Er, <- Ex, <- (i_items _ _ _ _ I0 x Hx). apply rest_len. }
    clear - H. induction seqs as [|s l IH]; [reflexivity|]. cbn [fold_right].
    pose proof (H s (or_introl eq_refl)). specialize (IH (fun s' Hs' => H s' (or_intror Hs'))). lia.
  Qed.

  Lemma live_total : forall st x t dead R, inv st (x :: t) dead R -> Nat.eqb (total_items (m_arr st)) 0 = false.
  Proof.
    intros st x t dead R I0. apply Nat.eqb_neq. rewrite (total_inv _ _ _ _ I0). intros H.
    pose proof (Rsize_le _ _ _ _ I0). pose proof (Rsize_drop _ _ _ _ _ I0). lia.
  Qed.

  Lemma pos_flag : forall st k d Rn st1 live1 dead1, pos st k d Rn -> advance cfg (set_curr st None None) = Some st1 ->
    inv st1 live1 dead1 Rn -> m_can_prev st1 = true -> m_can_next st1 = true ->
    (if fwd then m_can_prev st1 else m_can_next st1) = negb (Nat.eqb (total_items (m_arr st1)) 0).
  Proof.
    intros st k d Rn st1 live1 dead1 (z & t & dead & R' & I0 & _) _ J P N.
    rewrite (total_inv _ _ _ _ J), <- (total_inv _ _ _ _ I0), (live_total _ _ _ _ _ I0). destruct fwd; assumption.
  Qed.

  Lemma settle_spec : forall f st live dead R,
    inv st live dead R -> allowed_R R -> m_mode st <> Raw ->
    (live <> [] -> m_can_prev st = true /\ m_can_next st = true) ->
    (if fwd then m_can_prev st else m_can_next st) = negb (Nat.eqb (total_items (m_arr st)) 0) ->
    (Rsize R <= f)%nat ->
    exists st', settle f st = Some st' /\ settled (m_mode st) st' R (Rsize R).
  Proof.
    intros f. remember (Rsize) as rs eqn:Ers. assert (forall R, rs R = Rsize R) as Hrs by (intros; now rewrite Ers). clear Ers.
    induction f as [|f IH]; intros st live dead R I0 Ha Hm Hc Hfl Hf; unfold settle; rewrite Hrs in *.
    - destruct live as [|x t].
      + unfold advance_one_loop. rewrite (i_rem _ _ _ _ I0). cbn [length]. eexists. split; [reflexivity|]. left. split; [|split; [destruct (m_fwd st); reflexivity|now apply (spec_end _ st dead)]].
        exists dead, R. rewrite (i_fwd _ _ _ _ I0). split; [apply (inv_same st); destruct fwd; auto; apply I0|]. destruct fwd; (split; [reflexivity|exact Hfl]).
      + exfalso. pose proof (Rsize_drop _ _ _ _ _ I0). lia.
    - destruct live as [|x t].
      + unfold advance_one_loop. rewrite (i_rem _ _ _ _ I0). cbn [length]. eexists. split; [reflexivity|]. left. split; [|split; [destruct (m_fwd st); reflexivity|now apply (spec_end _ st dead)]].
        exists dead, R. rewrite (i_fwd _ _ _ _ I0). split; [apply (inv_same st); destruct fwd; auto; apply I0|]. destruct fwd; (split; [reflexivity|exact Hfl]).
      + destruct (Hc ltac:(discriminate)) as [Cp Cn].
        destruct (one_loop_spec _ _ _ _ _ I0 Ha Hm Cp Cn) as (st' & c & d & E & Hpos & Hcol & Hfin & Hmd & _).
        rewrite E. pose proof (Rsize_drop _ _ _ _ _ I0) as Hsz.
        pose proof (allowed_drop (key_of x) R Ha) as Ha'.
        destruct (kept (m_mode st) d) eqn:Ek; cbn [negb].
        * exists st'. split; [reflexivity|]. right. exists (key_of x), d, (fun s => dropk (key_of x) (R s)).
          split; [exact Hpos|]. split; [exact Ha'|]. split; [exact Hmd|]. split; [exact Hsz|].
          intros L HL. pose proof (spec_step _ _ _ _ _ _ _ _ _ I0 Hcol Hfin HL) as H. now rewrite Ek in H.
        * cbn [advance_helper].
          destruct (advance_from_pos _ _ _ _ Hpos) as (st1 & live1 & dead1 & E1 & J & M1 & P1 & N1). rewrite E1.
          destruct (IH st1 live1 dead1 (fun s => dropk (key_of x) (R s)) J Ha' ltac:(congruence) ltac:(auto) (pos_flag _ _ _ _ _ _ _ Hpos E1 J P1 N1)) as (st'' & E2 & HS).
          { rewrite Hrs. lia. }
          unfold settle in E2. rewrite M1, Hmd in HS. exists st''. split; [exact E2|]. rewrite Hrs in HS.
          assert (forall L, spec_out (m_mode st) (fun s => dropk (key_of x) (R s)) L -> spec_out (m_mode st) R L) as Hlift.
          { intros L HL. pose proof (spec_step _ _ _ _ _ _ _ _ _ I0 Hcol Hfin HL) as H. now rewrite Ek in H. }
          destruct HS as [(H1 & H1m & H2)|(k' & d' & Rn & H1 & H2 & H3 & H4 & H5)].
          -- left. split; [exact H1|split; [exact H1m|now apply Hlift]].
          -- right. exists k', d', Rn. split; [exact H1|]. split; [exact H2|]. split; [exact H3|]. split; [lia|]. intros L HL. apply Hlift. now apply H5.
  Qed.

  Lemma advance_step : forall st k d Rn, pos st k d Rn -> allowed_R Rn -> m_mode st <> Raw ->
    exists st', merge_advance cfg st = Some st' /\ settled (m_mode st) st' Rn (Rsize Rn).
  Proof.
    intros st k d Rn Hp Ha Hm. destruct (advance_from_pos _ _ _ _ Hp) as (st1 & live1 & dead1 & E1 & J & M1 & P1 & N1).
    pose proof Hp as Hp0. destruct Hp0 as (z & t & dead & R' & I0 & _).
    destruct (settle_spec all_items st1 live1 dead1 Rn J Ha ltac:(congruence) ltac:(auto) (pos_flag _ _ _ _ _ _ _ Hp E1 J P1 N1) (Rsize_le _ _ _ _ J)) as (st' & E & HS).
    exists st'. rewrite M1 in HS. split; [|exact HS].
    unfold merge_advance. rewrite (total_inv _ _ _ _ I0). cbn [advance_helper]. rewrite E1. exact E.
  Qed.

  (** ** Setup *)

  Record pre (arr : list oit) (R : Z -> list (bytes * message)) : Prop := {
    p_eq : Forall (fun x => o_eq x = false) arr;
    p_nodup : NoDup (map o_seq arr);
    p_src : Forall (fun x => src_ok ord D fwd (o_src x)) arr;
    p_R : forall x, In x arr -> rest fwd (o_src x) = R (o_seq x);
    p_items : forall x, In x arr -> s_items (o_src x) = IT (o_seq x);
    p_cut : forall x y a b, In x arr -> In y arr ->
            In a (done fwd (o_src x)) -> In b (rest fwd (o_src y)) -> od (fst a) (fst b) <= 0;
    p_seqs : forall s, In s seqs <-> In s (map o_seq arr)
  }.

  Definition core (x : oit) := (o_seq x, o_src x, o_eq x).
  Definition core2 (x : oit) := (o_seq x, o_src x).

  Lemma existsb_perm : forall (f : oit -> bool) a b, Permutation a b -> existsb f a = existsb f b.
  Proof.
    intros f a b H. induction H; cbn [existsb]; try congruence.
    rewrite !orb_assoc. f_equal. apply orb_comm.
  Qed.

  Lemma part_spec : forall fuel front mid back cp cn,
    Forall live_ok front -> Forall (fun x => src_can_curr (o_src x) = false) back ->
    Forall (fun x => src_ok ord D fwd (o_src x)) mid -> (length mid <= fuel)%nat ->
    (front <> [] -> cp = true /\ cn = true) ->
    exists live dead cp' cn', part_loop fuel front mid back cp cn = Some (live, dead, cp', cn') /\
      Forall live_ok live /\ Forall (fun x => src_can_curr (o_src x) = false) dead /\
      Permutation (map core (front ++ mid ++ back)) (map core (live ++ dead)) /\
      (live <> [] -> cp' = true /\ cn' = true) /\
      cp' = cp || existsb (fun x => src_can_prev (o_src x)) mid /\
      cn' = cn || existsb (fun x => src_can_next (o_src x)) mid.
  Proof.
    induction fuel as [|f IH]; intros front mid back cp cn Hf Hb Hm Hl Hc.
    - destruct mid as [|x t]; [|cbn in Hl; lia]. cbn [part_loop]. exists (rev front), back, cp, cn. split; [reflexivity|].
      split; [now apply Forall_rev|]. split; [exact Hb|]. split.
      + apply Permutation_map. apply Permutation_app_tail. apply Permutation_rev.
      + cbn [existsb]. rewrite !orb_false_r. split; [|auto]. intros H. apply Hc. intros ->. now apply H.
    - destruct mid as [|x t].
      { cbn [part_loop]. exists (rev front), back, cp, cn. split; [reflexivity|].
        split; [now apply Forall_rev|]. split; [exact Hb|]. split.
        + apply Permutation_map. apply Permutation_app_tail. apply Permutation_rev.
        + cbn [existsb]. rewrite !orb_false_r. split; [|auto]. intros H. apply Hc. intros ->. now apply H. }
      cbn [part_loop]. inversion Hm as [|? ? Ox Hm']; subst. cbn [length] in Hl.
      destruct (src_can_curr (o_src x)) eqn:Ec; cbn [negb].
      + destruct (rest_step ord D fwd _ Ox Ec) as (k & m & Ecur & _). unfold load_curr. rewrite Ecur.
        destruct (IH (OIt (o_seq x) (o_src x) (Some k) (Some m) (o_eq x) :: front) t back (cp || src_can_prev (o_src x)) (cn || src_can_next (o_src x)))
          as (live & dead & cp' & cn' & E & H1 & H2 & H3 & H4 & H5); try assumption; try lia.
        * constructor; [|exact Hf]. split; [exact Ec|]. exists k, m. auto.
        * intros _. unfold src_can_curr in Ec. apply andb_true_iff in Ec. destruct Ec as [-> ->]. now rewrite !orb_true_r.
        * exists live, dead, cp', cn'. split; [exact E|]. split; [exact H1|]. split; [exact H2|]. split; [|split; [exact H4|cbn [existsb]; rewrite !orb_assoc; exact H5]].
          rewrite <- H3. rewrite !map_app. cbn [map app]. symmetry. apply Permutation_middle.
      + assert (forall mid', Permutation mid' t -> (length mid' <= f)%nat ->
           exists live dead cp' cn', part_loop f front mid' (x :: back) (cp || src_can_prev (o_src x)) (cn || src_can_next (o_src x)) = Some (live, dead, cp', cn') /\
           Forall live_ok live /\ Forall (fun x => src_can_curr (o_src x) = false) dead /\
           Permutation (map core (front ++ (x :: t) ++ back)) (map core (live ++ dead)) /\
           (live <> [] -> cp' = true /\ cn' = true) /\
           cp' = cp || existsb (fun x => src_can_prev (o_src x)) (x :: t) /\
           cn' = cn || existsb (fun x => src_can_next (o_src x)) (x :: t)) as HH.
        { intros mid' HP Hlen.
          destruct (IH front mid' (x :: back) (cp || src_can_prev (o_src x)) (cn || src_can_next (o_src x)))
            as (live & dead & cp' & cn' & E & H1 & H2 & H3 & H4 & H5); try assumption; try lia.
          - now constructor.
          - rewrite Forall_forall in *. intros y Hy. apply Hm'. now apply (Permutation_in _ HP).
          - intros H. destruct (Hc H) as [-> ->]. auto.
          - exists live, dead, cp', cn'. split; [exact E|]. split; [exact H1|]. split; [exact H2|].
            split; [|split; [exact H4|cbn [existsb]; rewrite !orb_assoc, <- !(existsb_perm _ _ _ HP); exact H5]].
            rewrite <- H3. apply Permutation_map. apply Permutation_app_head.
            transitivity (x :: mid' ++ back); [|apply Permutation_middle]. cbn [app]. constructor. apply Permutation_app_tail. now symmetry. }
        destruct (rev t) as [|l r] eqn:Er.
        * apply HH; [|cbn [length]; lia]. assert (t = []) as -> by (rewrite <- (rev_involutive t), Er; reflexivity). constructor.
        * assert (t = rev r ++ [l]) as Et by (rewrite <- (rev_involutive t), Er; reflexivity).
          apply HH.
          -- rewrite Et. apply Permutation_cons_append.
          -- rewrite Et, app_length in Hl. cbn [length] in *. lia.
  Qed.

  Lemma ins_sorted_perm : forall lt x l, Permutation (ins_sorted lt x l) (x :: l).
  Proof.
    intros lt x l. induction l as [|y r IH]; [apply Permutation_refl|]. cbn [ins_sorted]. destruct (lt x y); [apply Permutation_refl|].
    rewrite IH. apply perm_swap.
  Qed.
  Lemma sort_perm : forall lt l, Permutation (sort_oits lt l) l.
  Proof. intros lt l. induction l as [|x l IH]; [constructor|]. cbn [sort_oits fold_right]. fold (sort_oits lt l). rewrite ins_sorted_perm. now constructor. Qed.

  Definition live_dom (x : oit) : Prop := exists k, o_key x = Some k /\ D k.

  Lemma before_spec : forall x y, live_dom x -> live_dom y -> o_seq x <> o_seq y ->
    (oit_before cfg fwd x y = true -> ilt x y) /\ (oit_before cfg fwd x y = false -> ilt y x).
  Proof.
    intros x y (kx & Ex & Dx) (ky & Ey & Dy) Hs.
    destruct (comp_spec x y kx ky Ex Ey Dx Dy Hs) as (c & Ec & H1 & H2). unfold oit_before. rewrite Ec.
    destruct (Z.ltb_spec c 0) as [L|L]; split; intros H; try discriminate; [now apply H1|]. apply H2.
    destruct (Z.eq_dec c 0) as [->|]; [|lia]. exfalso.
    destruct (o_tri od TD (key_of x) (key_of y)) as [A|[A|A]].
    - enough (0 < 0) by lia. apply H1. now left.
    - destruct (Z.lt_trichotomy (o_seq x) (o_seq y)) as [B|[B|B]]; [|congruence|].
      + enough (0 < 0) by lia. apply H2. right. auto.
      + enough (0 < 0) by lia. apply H1. right. auto.
    - enough (0 < 0) by lia. apply H2. now left.
  Qed.

  Lemma ins_sorted_sorted : forall x l, live_dom x -> Forall live_dom l -> ~ In (o_seq x) (map o_seq l) ->
    StronglySorted ilt l -> StronglySorted ilt (ins_sorted (oit_before cfg fwd) x l).
  Proof.
    intros x l Dx. induction l as [|y r IH]; intros Hd Hn HS; [repeat constructor|].
    cbn [ins_sorted]. inversion Hd as [|? ? Dy Hd']; subst. inversion HS as [|? ? HS' HF]; subst. cbn [map In] in Hn.
    destruct (before_spec x y Dx Dy ltac:(intros A; apply Hn; now left)) as [B1 B2].
    destruct (oit_before cfg fwd x y) eqn:Eb.
    - specialize (B1 eq_refl). constructor; [exact HS|]. constructor; [exact B1|]. rewrite Forall_forall in *. intros w Hw.
      apply (ilt_trans x y w B1). now apply HF.
    - specialize (B2 eq_refl). constructor.
      + apply IH; auto.
      + rewrite Forall_forall in *. intros w Hw. apply (Permutation_in _ (ins_sorted_perm _ _ _)) in Hw. destruct Hw as [<-|Hw]; auto.
  Qed.

  Lemma sort_sorted : forall l, Forall live_dom l -> NoDup (map o_seq l) -> StronglySorted ilt (sort_oits (oit_before cfg fwd) l).
  Proof.
    induction l as [|x l IH]; intros Hd Hn; [constructor|]. inversion Hd; subst. cbn [map] in Hn. inversion Hn; subst.
    cbn [sort_oits fold_right]. fold (sort_oits (oit_before cfg fwd) l). apply ins_sorted_sorted; auto.
    - rewrite Forall_forall in *. intros y Hy. apply (Permutation_in _ (sort_perm _ _)) in Hy. auto.
    - intros Hi. apply (Permutation_in _ (Permutation_map o_seq (sort_perm _ _))) in Hi. contradiction.
  Qed.

  Lemma init_bits_cons : forall x y r, init_bits cfg (x :: y :: r) =
    match o_key x, o_key y with
    | Some a, Some b => with_eq (key_compare cfg a b =? 0) x :: init_bits cfg (y :: r)
    | _, _ => x :: init_bits cfg (y :: r)
    end.
  Proof. reflexivity. Qed.

  Lemma init_bits_vw : forall l, map vw (init_bits cfg l) = map vw l.
  Proof.
    induction l as [|x [|y r] IH]; [reflexivity|reflexivity|]. rewrite init_bits_cons.
    remember (init_bits cfg (y :: r)) as q. destruct (o_key x), (o_key y); cbn [map]; rewrite IH; reflexivity.
  Qed.

  Lemma vw_key : forall x y, vw x = vw y -> key_of x = key_of y.
  Proof. intros x y H. unfold vw in H. injection H as _ _ H _. unfold key_of. now rewrite H. Qed.

  Lemma init_bits_bits : forall l, Forall live_dom l -> Forall (fun x => o_eq x = false) l -> bits (init_bits cfg l).
  Proof.
    induction l as [|x [|y r] IH]; intros Hd He; [exact I|now inversion He|].
    inversion Hd as [|? ? (kx & Ex & Dx) Hd']; subst. inversion He as [|? ? _ He']; subst. specialize (IH Hd' He').
    inversion Hd' as [|? ? (ky & Ey & Dy) _]; subst.
    rewrite init_bits_cons. pose proof (init_bits_vw (y :: r)) as HV. remember (init_bits cfg (y :: r)) as q.
    assert (exists y' r', q = y' :: r' /\ vw y' = vw y) as (y' & r' & -> & Hy').
    { destruct q as [|y' r']; [discriminate|]. cbn [map] in HV. injection HV as HV1 HV2 HV3 HV4 _. exists y', r'. split; [reflexivity|]. unfold vw. congruence. }
    rewrite Ex, Ey. cbn [bits]. split; [|exact IH]. cbn [with_eq o_eq]. rewrite (vw_key _ _ Hy').
    unfold key_of at 1 2. cbn [with_eq o_key]. rewrite Ex, Ey.
    rewrite Z.eqb_eq. pose proof (AG kx ky Dx Dy) as HA. split; intros H.
    - rewrite H in HA. cbn [Z.sgn] in HA. apply (to_eq ord TO). lia.
    - subst ky. rewrite (proj2 (to_eq ord TO kx kx) eq_refl) in HA. cbn [Z.sgn] in HA. lia.
  Qed.

  Lemma vw_core2 : forall x y, vw x = vw y -> core2 x = core2 y.
  Proof. unfold vw, core2. intros x y H. congruence. Qed.

  Lemma map_vw_in : forall l1 l2, map vw l1 = map vw l2 -> forall x, In x l1 -> exists y, In y l2 /\ vw x = vw y.
  Proof.
    intros l1 l2 H x Hx. assert (In (vw x) (map vw l2)) as Hi by (rewrite <- H; now apply in_map).
    apply in_map_iff in Hi. destruct Hi as (y & E & Hy). eauto.
  Qed.

  Lemma ilt_vw : forall x x' y y', vw x = vw x' -> vw y = vw y' -> ilt x' y' -> ilt x y.
  Proof.
    intros x x' y y' E1 E2 H. unfold ilt in *. rewrite (vw_key _ _ E1), (vw_key _ _ E2).
    unfold vw in E1, E2. injection E1 as -> _ _ _. injection E2 as -> _ _ _. exact H.
  Qed.

  Lemma sorted_vw : forall l l', map vw l = map vw l' -> StronglySorted ilt l' -> StronglySorted ilt l.
  Proof.
    induction l as [|x l IH]; intros l' E HS; [constructor|]. destruct l' as [|x' l']; [discriminate|].
    cbn [map] in E. assert (vw x = vw x' /\ map vw l = map vw l') as [E1 E2] by (unfold vw in E |- *; injection E; intros; split; congruence).
    inversion HS as [|? ? HS' HF]; subst. constructor; [now apply (IH l')|]. rewrite Forall_forall in *.
    intros y Hy. destruct (map_vw_in _ _ E2 y Hy) as (y' & Hy' & Ey). apply (ilt_vw _ _ _ _ E1 Ey). now apply HF.
  Qed.

  Lemma setup_inv : forall st R, m_fwd st = fwd -> pre (m_arr st) R -> 
    exists st1 live dead, inv st1 live dead R /\ m_mode st1 = m_mode st /\
      (live <> [] -> m_can_prev st1 = true /\ m_can_next st1 = true) /\
      (if fwd then m_can_prev st1 else m_can_next st1) = negb (Nat.eqb (total_items (m_arr st1)) 0) /\
      setup cfg st = match advance_one_loop cfg st1 with
                     | None => None
                     | Some (st2, true) => merge_advance cfg st2
                     | Some (st2, false) => Some st2
                     end.
  Proof.
    intros st R Ef P0. pose proof P0 as P. destruct P as [Peq Pnd Psrc PR Pit Pcut Pseq]. unfold setup.
    destruct (part_spec (S (length (m_arr st))) [] (m_arr st) [] false false) as (live & dead & cp & cn & E & H1 & H2 & H3 & H4 & H5 & H6); try assumption; try constructor; try lia; try congruence.
    rewrite E. rewrite app_nil_r in H3. cbn [app] in H3.
    set (srt := sort_oits (oit_before cfg (m_fwd st)) live).
    assert (forall x, In x (live ++ dead) -> exists y, In y (m_arr st) /\ core x = core y) as Hin.
    { intros x Hx. assert (In (core x) (map core (m_arr st))) as Hi by (apply (Permutation_in _ (Permutation_sym H3)); now apply in_map).
      apply in_map_iff in Hi. destruct Hi as (y & Ey & Hy). eauto. }
    assert (NoDup (map o_seq (live ++ dead))) as Hnd.
    { apply (Permutation_NoDup (l := map o_seq (m_arr st))); [|exact Pnd].
      replace o_seq with (fun x => fst (fst (core x))) by reflexivity. rewrite <- !(map_map core (fun c => fst (fst c))). now apply Permutation_map. }
    assert (forall x, In x live -> live_dom x) as Hdom.
    { intros x Hx. pose proof H1 as H1'. rewrite Forall_forall in H1'. destruct (H1' x Hx) as (Cc & k & m & Ec & Ek & Em).
      exists k. split; [exact Ek|]. destruct (Hin x ltac:(apply in_or_app; now left)) as (y & Hy & Ey).
      rewrite Forall_forall in Psrc. pose proof (Psrc y Hy) as Oy. assert (o_src x = o_src y) as Es by (unfold core in Ey; congruence).
      rewrite <- Es in Oy. destruct (rest_step ord D fwd _ Oy Cc) as (k' & m' & Ec' & Er & _).
      pose proof (all_dom ord D fwd _ Oy) as Hd. rewrite Forall_forall in Hd. apply (Hd (k, m)). apply in_or_app. right.
      rewrite Er. left. congruence. }
    assert (Permutation srt live) as Hsp by apply sort_perm.
    assert (map vw (init_bits cfg srt) = map vw srt) as Hv by apply init_bits_vw.
    exists (set_can (set_arr st (init_bits cfg srt ++ dead) (length live)) cp cn), (init_bits cfg srt), dead.
    assert (length (init_bits cfg srt) = length live) as Hlen.
    { rewrite <- (map_length vw (init_bits cfg srt)), Hv, map_length. now apply Permutation_length. }
    assert (forall x, In x (init_bits cfg srt) -> exists y, In y live /\ vw x = vw y) as Hinl.
    { intros x Hx. destruct (map_vw_in _ _ Hv x Hx) as (y & Hy & Ey). exists y. split; [now apply (Permutation_in _ Hsp)|exact Ey]. }
    assert (forall x, In x (init_bits cfg srt ++ dead) -> exists y, In y (m_arr st) /\ core2 x = core2 y) as Hin2.
    { intros x Hx. apply in_app_or in Hx. destruct Hx as [Hx|Hx].
      - destruct (Hinl x Hx) as (y & Hy & Ey). destruct (Hin y ltac:(apply in_or_app; now left)) as (w & Hw & Ew).
        exists w. split; [exact Hw|]. rewrite (vw_core2 _ _ Ey). unfold core, core2 in *. congruence.
      - destruct (Hin x ltac:(apply in_or_app; now right)) as (w & Hw & Ew). exists w. split; [exact Hw|]. unfold core, core2 in *. congruence. }
    assert (map o_seq (init_bits cfg srt) = map o_seq srt) as Hsq.
    { replace o_seq with (fun x => fst (fst (fst (vw x)))) by reflexivity. rewrite <- !(map_map vw (fun c => fst (fst (fst c)))). now rewrite Hv. }
    assert (Permutation (map o_seq (init_bits cfg srt ++ dead)) (map o_seq (live ++ dead))) as Hsqp.
    { rewrite !map_app, Hsq. apply Permutation_app_tail. now apply Permutation_map. }
    assert (Permutation (map o_seq (m_arr st)) (map o_seq (live ++ dead))) as Hsqa.
    { replace o_seq with (fun x => fst (fst (core x))) by reflexivity. rewrite <- !(map_map core (fun c => fst (fst c))). now apply Permutation_map. }
    enough (inv (set_can (set_arr st (init_bits cfg srt ++ dead) (length live)) cp cn) (init_bits cfg srt) dead R) as IV.
    { split; [exact IV|]. split; [reflexivity|].
      assert (init_bits cfg srt <> [] -> cp = true /\ cn = true) as Hcc.
      { intros H. apply H4. intros ->. apply H. destruct (init_bits cfg srt); [reflexivity|discriminate]. }
      split; [exact Hcc|]. split; [|reflexivity].
      destruct (init_bits cfg srt) as [|x0 t0] eqn:Eib.
      - cbn [set_can set_arr m_can_prev m_can_next m_arr app].
        assert (live = []) as -> by (destruct live; [reflexivity|discriminate]). cbn [app] in H3.
        assert (total_items dead = total_items (m_arr st)) as ->.
        { clear - H3. apply Permutation_sym in H3.
          assert (forall l, total_items l = fold_right (fun c n => (length (s_items (snd (fst c))) + n)%nat) O (map core l)) as HT.
          { induction l as [|x l IH]; [reflexivity|]. cbn [total_items fold_right map]. fold (total_items l). now rewrite IH. }
          rewrite !HT. induction H3; cbn [fold_right]; lia. }
        assert (forall x, In x (m_arr st) -> src_can_curr (o_src x) = false) as Hdead.
        { intros x Hx. assert (In (core x) (map core dead)) as Hi by (apply (Permutation_in _ H3); now apply in_map).
          apply in_map_iff in Hi. destruct Hi as (y & Ey & Hy). rewrite Forall_forall in H2. specialize (H2 y Hy). unfold core in Ey. congruence. }
        assert (forall x, In x (m_arr st) -> (if fwd then src_can_prev (o_src x) else src_can_next (o_src x)) = negb (Nat.eqb (length (s_items (o_src x))) 0)) as Hone.
        { intros x Hx. specialize (Hdead x Hx). rewrite Forall_forall in Psrc. destruct (Psrc x Hx) as [_ _ Hp].
          assert (~ (0 <= s_pos (o_src x) < src_len (o_src x))) as Hno by (rewrite <- can_curr_iff; congruence).
          unfold src_can_prev, src_can_next. unfold src_len in *.
          destruct fwd; destruct (Nat.eqb_spec (length (s_items (o_src x))) 0); cbn [negb];
            repeat match goal with |- context [?a <=? ?b] => destruct (Z.leb_spec a b) | |- context [?a <? ?b] => destruct (Z.ltb_spec a b) end; cbn [andb]; try reflexivity; lia. }
        cbn [orb] in H5, H6. rewrite H5, H6.
        assert (existsb (fun x => if fwd then src_can_prev (o_src x) else src_can_next (o_src x)) (m_arr st) = negb (Nat.eqb (total_items (m_arr st)) 0)) as HE.
        { clear - Hone. induction (m_arr st) as [|x l IH]; [reflexivity|]. cbn [existsb total_items fold_right]. fold (total_items l).
          rewrite IH by (intros y Hy; apply Hone; now right). rewrite (Hone x) by now left.
          destruct (length (s_items (o_src x))), (total_items l); reflexivity. }
        destruct fwd; exact HE.
      - rewrite (live_total _ _ _ _ _ IV). destruct (Hcc ltac:(discriminate)) as [-> ->]. destruct fwd; reflexivity. }
    - constructor; cbn [set_can set_arr m_arr m_rem m_fwd].
      + reflexivity.
      + now symmetry.
      + exact Ef.
      + rewrite Forall_forall. intros x Hx. destruct (Hinl x Hx) as (y & Hy & Ey).
        pose proof H1 as H1'. rewrite Forall_forall in H1'. specialize (H1' y Hy). unfold live_ok in *. unfold vw in Ey. injection Ey as _ -> -> ->. exact H1'.
      + rewrite Forall_forall. intros x Hx. split; [rewrite Forall_forall in H2; now apply H2|].
        destruct (Hin x ltac:(apply in_or_app; now right)) as (w & Hw & Ew). rewrite Forall_forall in Peq. specialize (Peq w Hw). unfold core in Ew. congruence.
      + apply (sorted_vw _ srt Hv). unfold srt. rewrite Ef. apply sort_sorted; [now rewrite Forall_forall|].
        rewrite map_app in Hnd. clear - Hnd. induction (map o_seq live) as [|a l IH]; [constructor|]. cbn [app] in Hnd. inversion Hnd; subst. constructor; [|auto]. intros Hi. apply H1. apply in_or_app. now left.
      + apply init_bits_bits; rewrite Forall_forall; intros x Hx; apply (Permutation_in _ Hsp) in Hx; [now apply Hdom|].
        destruct (Hin x ltac:(apply in_or_app; now left)) as (w & Hw & Ew). rewrite Forall_forall in Peq. specialize (Peq w Hw). unfold core in Ew. congruence.
      + apply (Permutation_NoDup (Permutation_sym Hsqp)). exact Hnd.
      + rewrite Forall_forall. intros x Hx. destruct (Hin2 x Hx) as (w & Hw & Ew). rewrite Forall_forall in Psrc. specialize (Psrc w Hw). unfold core2 in Ew. injection Ew as _ ->. exact Psrc.
      + intros x Hx. destruct (Hin2 x Hx) as (w & Hw & Ew). unfold core2 in Ew. injection Ew as -> ->. now apply PR.
      + intros x Hx. destruct (Hin2 x Hx) as (w & Hw & Ew). unfold core2 in Ew. injection Ew as -> ->. now apply Pit.
      + intros x y a b Hx Hy. destruct (Hin2 x Hx) as (w & Hw & Ew). unfold core2 in Ew. injection Ew as _ ->.
        destruct (Hin2 y Hy) as (u & Hu & Eu). unfold core2 in Eu. injection Eu as _ ->. now apply Pcut.
      + intros s. rewrite Pseq. split; intros H.
        * apply (Permutation_in _ (Permutation_sym Hsqp)). now apply (Permutation_in _ Hsqa).
        * apply (Permutation_in _ (Permutation_sym Hsqa)). now apply (Permutation_in _ Hsqp).
  Qed.

  Lemma setup_spec : forall st R, m_fwd st = fwd -> pre (m_arr st) R -> allowed_R R -> m_mode st <> Raw ->
    exists st', setup cfg st = Some st' /\ settled (m_mode st) st' R (Rsize R).
  Proof.
    intros st R Ef P Ha Hm. destruct (setup_inv st R Ef P) as (st1 & live & dead & I0 & Em & Hc & Hfl & Es).
    rewrite <- Em in *.
    destruct (settle_spec (S all_items) st1 live dead R I0 Ha Hm Hc Hfl) as (st' & E & HS).
    { pose proof (Rsize_le _ _ _ _ I0). lia. }
    exists st'. split; [|exact HS]. rewrite Es. unfold settle in E.
    destruct live as [|x t].
    - unfold advance_one_loop in *. rewrite (i_rem _ _ _ _ I0) in *. cbn [length] in *. exact E.
    - destruct (Hc ltac:(discriminate)) as [Cp Cn].
      destruct (one_loop_spec _ _ _ _ _ I0 Ha Hm Cp Cn) as (st2 & c & d & E2 & (z & t' & dead' & R' & I2 & _) & _).
      rewrite E2 in *. destruct (negb (kept (m_mode st1) d)); [|exact E].
      unfold merge_advance. now rewrite (total_inv _ _ _ _ I2).
  Qed.

  (** ** Draining *)

  Definition step : mi -> option mi := if fwd then merge_next cfg else merge_prev cfg.
  Definition can : mi -> bool := if fwd then m_can_next else m_can_prev.

  Lemma step_advance : forall st, m_fwd st = fwd -> step st = merge_advance cfg st.
  Proof. intros st E. unfold step, merge_next, merge_prev. destruct fwd; rewrite E; reflexivity. Qed.

  Lemma drain_spec : forall n can', (can' = can \/ can' = merge_can_curr) -> forall md st R f,
    settled md st R n -> md <> Raw -> (n <= f)%nat ->
    exists L st', drain can' step f st = Some (map (fun p => (Some (fst p), Some (snd p))) L, st') /\
      spec_out md R L /\ at_end st' /\ m_mode st' = md.
  Proof.
    intros n can' Hcan. induction n as [n IH] using lt_wf_ind. intros md st R f HS Hmd Hf.
    destruct HS as [(He & Hm & HL)|(k & d & Rn & Hp & Ha & Hmm & Hsz & Hlift)].
    - exists [], st. split; [|auto]. destruct He as (dead & R' & _ & Hc & _).
      assert (can' st = false) as Hc' by (destruct Hcan as [-> | ->]; unfold can, merge_can_curr; destruct fwd; rewrite Hc; rewrite ?andb_false_r; reflexivity).
      destruct f; cbn [drain]; rewrite Hc'; reflexivity.
    - destruct f as [|f]; [lia|].
      pose proof Hp as Hp'. destruct Hp' as (z & t & dead & R' & I0 & Kz & Ez & Ck & Cd & Cp & Cn & HR & _).
      assert (can' st = true) as Hc' by (destruct Hcan as [-> | ->]; unfold can, merge_can_curr; [destruct fwd; assumption|now rewrite Cp, Cn]).
      cbn [drain]. rewrite Hc'. cbn [negb]. rewrite (step_advance st (i_fwd _ _ _ _ I0)).
      destruct (advance_step _ _ _ _ Hp Ha ltac:(congruence)) as (st1 & E1 & HS1). rewrite E1. rewrite Hmm in HS1.
      fold (Rsize Rn) in Hsz.
      destruct (IH (Rsize Rn) ltac:(lia) md st1 Rn f HS1 Hmd ltac:(lia)) as (L & st' & ED & HL & He & Hm').
      rewrite ED. exists ((k, d) :: L), st'. split; [|split; [now apply Hlift|auto]].
      unfold merge_curr. rewrite Ck, Cd. reflexivity.
  Qed.
End Run.
