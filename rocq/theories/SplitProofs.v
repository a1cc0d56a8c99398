(** * Proofs about the choice of split keys *)

From Coq Require Import List NArith ZArith Arith Bool Lia Sorting.Sorted Permutation.
From Verif Require Import Base Spec Spec_Merge Merge MergeScanProofs MergeRawProofs TrunkNode TrunkKeys TrunkLegal Split.
Import ListNotations.
Local Open Scope N_scope.

Section S.
Variable counts : bytes -> N * N.
Local Notation weight := (weight counts).
Local Notation entry := (bytes * message)%type.

Definition total (l : list entry) : N := fold_right (fun e n => weight (snd e) + n) 0 l.

Lemma total_app : forall a b, total (a ++ b) = total a + total b.
Proof. induction a as [|e a IH]; intros b; cbn [app total fold_right]; [reflexivity|]. fold (total (a ++ b)). fold (total a). rewrite IH. lia. Qed.
Lemma total_le : forall B l, Forall (fun e => weight (snd e) <= B) l -> total l <= N.of_nat (length l) * B.
Proof. intros B l H. induction H as [|e l He _ IH]; [cbn; lia|]. cbn [total fold_right length]. fold (total l). rewrite Nat2N.inj_succ. nia. Qed.

Lemma take_last : forall want l got, take_leaf counts true want got l = [].
Proof. intros want l. induction l as [|[k m] l IH]; intros got; cbn [take_leaf]; [reflexivity|]. rewrite orb_true_r. apply IH. Qed.

Lemma take_some : forall B want l got, want + B <= 2 ^ 64 -> Forall (fun e => weight (snd e) <= B) l ->
  exists seg, l = seg ++ take_leaf counts false want got l /\
    (take_leaf counts false want got l <> [] -> want <= got + total seg) /\
    (got < want -> (l <> [] -> seg <> []) /\ got + total seg < want + B \/ l = [] \/ B = 0).
Proof.
  intros B want l. induction l as [|[k m] l IH]; intros got HB Hl; cbn [take_leaf].
  - exists []. repeat split; [intros H; contradiction|]. intros _. right. left. reflexivity.
  - inversion_clear Hl as [|? ? Hw Hl']. cbn [snd] in Hw. rewrite orb_false_r. destruct (N.ltb_spec got want) as [L|L].
    + assert (E : w64 (got + weight m) = got + weight m \/ B = 0 \/ got + weight m = 2 ^ 64).
      { unfold w64. destruct (N.eq_dec (got + weight m) (2 ^ 64)); [auto|]. left. apply N.mod_small. lia. }
      assert (E' : w64 (got + weight m) = got + weight m) by (unfold w64; apply N.mod_small; lia).
      rewrite E'. destruct (IH (got + weight m) HB Hl') as (seg & H1 & H2 & H3). exists ((k, m) :: seg).
      cbn [app total fold_right snd]. fold (total seg). split; [f_equal; exact H1|]. split; [intros H; specialize (H2 H); lia|].
      intros _. destruct (N.eq_dec B 0) as [->|NB]; [auto|]. left. split; [discriminate|].
      destruct (N.ltb_spec (got + weight m) want) as [L2|L2].
      * destruct (H3 L2) as [[_ H]|[->|H]]; [lia| |lia]. cbn [take_leaf] in H1. destruct seg; [cbn; lia|discriminate].
      * assert (seg = []) as ->; [|cbn; lia]. destruct l as [|[k2 m2] l2]; [destruct seg; [reflexivity|discriminate]|].
        cbn [take_leaf] in H1. destruct (N.ltb_spec (got + weight m) want); [lia|]. cbn [orb] in H1.
        apply (f_equal (@length _)) in H1. rewrite app_length in H1. destruct seg; [reflexivity|cbn [length] in H1; lia].
    + exists []. repeat split; [intros _; cbn; lia|]. intros H. lia.
Qed.

(** ** The parts *)

Definition starts (k : bytes) (s : list entry) : Prop := exists m t, s = (k, m) :: t.

Lemma split_keys_parts : forall B want n fuel i l j ks,
  0 < want -> 0 < B -> want + B <= 2 ^ 64 -> Forall (fun e => weight (snd e) <= B) l -> N.of_nat i < n ->
  split_keys counts fuel i n want l = Some (j, ks) ->
  exists segs, concat segs = l /\ j = (i + length segs)%nat /\ N.of_nat j <= n /\ Forall2 starts ks (tl segs) /\
    Forall (fun s => s <> []) segs /\ Forall (fun s => want <= total s < want + B) (removelast segs).
Proof.
  intros B want n. induction fuel as [|f IH]; intros i l j ks W0 B0 HB Hl Hi E; cbn [split_keys] in E; [discriminate|].
  destruct l as [|e l0] eqn:El.
  { injection E as <- <-. exists []. cbn. repeat split; auto; lia. }
  rewrite <- El in *. assert (Hne : l <> []) by (rewrite El; discriminate). clear El e l0.
  destruct (N.eqb_spec (N.of_nat i) (n - 1)) as [Hlast|Hlast].
  - rewrite take_last in E. destruct l as [|e l0]; [contradiction|]. injection E as <- <-. exists [e :: l0].
    cbn [concat app length tl removelast]. rewrite app_nil_r. repeat split; auto; try lia; repeat constructor; discriminate.
  - destruct (take_some B want l 0 HB Hl) as (seg & H1 & H2 & H3).
    assert (H4 : seg <> [] /\ total seg < want + B).
    { destruct (H3 W0) as [[Ha Hb]|[Ha|Ha]]; [split; [apply Ha; exact Hne|lia]|contradiction|lia]. }
    destruct (take_leaf counts false want 0 l) as [|[k m] r] eqn:Et.
    + destruct l as [|e l0]; [contradiction|]. injection E as <- <-. exists [e :: l0].
      cbn [concat app length tl removelast]. rewrite app_nil_r. repeat split; auto; try lia; repeat constructor; discriminate.
    + assert (E2 : exists ks', split_keys counts f (S i) n want ((k, m) :: r) = Some (j, ks') /\ ks = k :: ks').
      { destruct l as [|e l0]; [contradiction|]. destruct (MAX_PIVOTS <=? S i)%nat; [discriminate|].
        destruct (split_keys counts f (S i) n want ((k, m) :: r)) as [[j' ks']|]; [|discriminate]. injection E as <- <-. eauto. }
      destruct E2 as (ks' & E2 & ->).
      assert (Hr : Forall (fun e => weight (snd e) <= B) ((k, m) :: r)) by (rewrite H1 in Hl; apply Forall_app in Hl; apply Hl).
      destruct (IH (S i) _ _ _ W0 B0 HB Hr ltac:(lia) E2) as (segs & G1 & G2 & G3 & G4 & G5 & G6).
      exists (seg :: segs). destruct segs as [|s0 segs]; [discriminate G1|].
      split; [cbn [concat] in *; rewrite G1; symmetry; exact H1|]. split; [cbn [length] in *; lia|]. split; [exact G3|].
      split; [|split].
      * cbn [tl]. constructor; [|exact G4]. inversion_clear G5 as [|? ? N0 _]. destruct s0 as [|[k0 m0] s0]; [contradiction|].
        cbn [concat app] in G1. injection G1 as -> -> _. exists m, s0. reflexivity.
      * constructor; [apply H4|exact G5].
      * change (removelast (seg :: s0 :: segs)) with (seg :: removelast (s0 :: segs)). constructor; [|exact G6].
        split; [|apply H4]. specialize (H2 ltac:(discriminate)). lia.
Qed.

(** enough room: an answer *)
Lemma split_keys_some : forall n want fuel i l, (i < MAX_PIVOTS)%nat -> n < N.of_nat MAX_PIVOTS -> N.of_nat i < n -> (MAX_PIVOTS - i <= fuel)%nat ->
  exists j ks, split_keys counts fuel i n want l = Some (j, ks) /\ (j <= Nat.max (S i) (N.to_nat n))%nat.
Proof.
  intros n want. induction fuel as [|f IH]; intros i l Hi Hn Hin Hf; [lia|]. cbn [split_keys].
  destruct l as [|e l0]; [exists i, []; split; [reflexivity|lia]|].
  destruct (N.eqb_spec (N.of_nat i) (n - 1)) as [Hlast|Hlast].
  - rewrite take_last. exists (S i), []. split; [reflexivity|lia].
  - destruct (take_leaf counts false want 0 (e :: l0)) as [|[k m] r]; [exists (S i), []; split; [reflexivity|lia]|].
    destruct (Nat.leb_spec MAX_PIVOTS (S i)) as [L|L]; [lia|].
    destruct (IH (S i) ((k, m) :: r) L Hn ltac:(lia) ltac:(lia)) as (j & ks & E & Hj). rewrite E. exists j, (k :: ks). split; [reflexivity|lia].
Qed.

(** ** No key fills a part *)

Section Order.
Variable ord : bytes -> bytes -> Z.
Hypothesis TO : total_order ord.
Local Notation le := (fun a b : entry => (ord (fst a) (fst b) <= 0)%Z).
Definition same (k : bytes) (e : entry) : bool := (ord (fst e) k =? 0)%Z.

Lemma refl0 : forall a, ord a a = 0%Z.
Proof using TO. intros. apply (to_eq _ TO). reflexivity. Qed.

Lemma once : forall k (l : list entry), ascending ord l -> (length (filter (same k) l) <= 1)%nat.
Proof using TO.
  intros k l H. induction H as [|a l H IH F]; [cbn; lia|]. cbn [filter]. destruct (same k a) eqn:E; [|exact IH].
  apply Z.eqb_eq, (to_eq _ TO) in E. assert (filter (same k) l = []) as ->; [|cbn; lia].
  destruct (filter (same k) l) as [|b r] eqn:Eb; [reflexivity|]. assert (Hb : In b (filter (same k) l)) by (rewrite Eb; left; reflexivity).
  apply filter_In in Hb. destruct Hb as [Hb Sb]. apply Z.eqb_eq, (to_eq _ TO) in Sb. rewrite Forall_forall in F. specialize (F b Hb). cbn beta in F.
  rewrite E, Sb, refl0 in F. lia.
Qed.
Lemma once_each : forall k (ls : list (list entry)), Forall (fun l => ascending ord l) ls -> (length (filter (same k) (concat ls)) <= length ls)%nat.
Proof using TO. intros k ls H. induction H as [|l ls H _ IH]; [cbn; lia|]. cbn [concat length]. rewrite filter_app, app_length. pose proof (once k l H). lia. Qed.
Lemma perm_filter : forall (f : entry -> bool) a b, Permutation a b -> length (filter f a) = length (filter f b).
Proof using. intros f a b H. induction H; cbn [filter]; repeat match goal with |- context [f ?x] => destruct (f x) end; cbn [length]; lia. Qed.

(** in a sorted list, a stretch longer than the number of equal keys goes up *)
Lemma goes_up : forall n a seg b r L, L = (a :: seg) ++ b :: r -> StronglySorted le L ->
  (forall k, (length (filter (same k) L) <= n)%nat) -> (n < length (a :: seg))%nat -> (ord (fst a) (fst b) < 0)%Z.
Proof using TO.
  intros n a seg b r L -> SS Hn Hl. cbn [app] in SS. inversion_clear SS as [|? ? SS' Fa]. rewrite Forall_forall in Fa.
  assert (Hab : (ord (fst a) (fst b) <= 0)%Z) by (apply Fa, in_or_app; right; left; reflexivity).
  destruct (Z.eq_dec (ord (fst a) (fst b)) 0) as [E|]; [|lia]. exfalso. apply (to_eq _ TO) in E.
  assert (A : forall e, In e seg -> same (fst a) e = true).
  { intros e He. apply Z.eqb_eq. assert (H1 : (ord (fst a) (fst e) <= 0)%Z) by (apply Fa, in_or_app; left; exact He).
    assert (H2 : (ord (fst e) (fst b) <= 0)%Z).
    { apply in_split in He. destruct He as (u & v & ->). clear - SS'. induction u as [|x u IH]; cbn [app] in SS'; inversion_clear SS' as [|? ? S F]; [|apply IH; exact S].
      rewrite Forall_forall in F. apply F. rewrite <- ?app_assoc. apply in_or_app. right. left. reflexivity. }
    rewrite <- E in H2. pose proof (to_antisym _ TO (fst a) (fst e)). pose proof (to_antisym _ TO (fst e) (fst a)).
    lia. }
  assert (F : forall l, (forall e, In e l -> same (fst a) e = true) -> filter (same (fst a)) l = l).
  { induction l as [|x l IH]; intros H; [reflexivity|]. cbn [filter]. rewrite (H x (or_introl eq_refl)). f_equal. apply IH. intros e He. apply H. right. exact He. }
  assert (A' : forall e, In e (a :: seg) -> same (fst a) e = true).
  { intros e [<-|He]; [unfold same; rewrite refl0; reflexivity | apply A; exact He]. }
  specialize (Hn (fst a)). rewrite filter_app, app_length, (F _ A') in Hn. lia.
Qed.
End Order.
End S.
