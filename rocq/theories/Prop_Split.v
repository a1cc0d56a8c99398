(** * C18: where a leaf is split

    /repo/src/trunk.c:5721-5908; the model is Split.v.  [branches] are what the rough
    iterators go through: for each branch of the leaf the keys of its index pages, in
    order, with the bytes stored below each. *)

From Coq Require Import List NArith ZArith Arith Bool Lia Sorting.Sorted Permutation.
From Verif Require Import Base Spec Spec_Merge Witness Merge MergeScanProofs TrunkNode TrunkTree TrunkKeys TrunkInv TrunkInvMem TrunkLegal
  Prop_Merge Prop_Trunk Split SplitProofs.
Import ListNotations.
Local Open Scope N_scope.

Lemma MP20 : MAX_PIVOTS = 20%nat. Proof. vm_compute. reflexivity. Qed.

Section Keys.
Variables (cfg : data_config) (counts : bytes -> N * N).
Hypothesis TO : total_order (key_compare cfg).

(** What a pivot of a branch says is below it *)
Definition below (e : bytes * bytes) : N := (fst (counts (snd e)) + snd (counts (snd e))) mod 2 ^ 32.
Fixpoint below_all (l : list (bytes * bytes)) : N := match l with [] => 0 | e :: r => below e + below_all r end.

(** Branches in order, with keys from [lo] to [hi] and at most [B] bytes below each *)
Record branches_ok (lo hi : key) (B : N) (bs : list (list (bytes * bytes))) : Prop := {
  b_num : (length bs <= 256)%nat;
  b_order : forall b, In b bs -> StronglySorted (fun x y => (key_compare cfg (fst x) (fst y) < 0)%Z) b;
  b_from : forall b e, In b bs -> In e b -> (data_key_compare cfg lo (KUser (fst e)) <= 0)%Z;
  b_to : forall b e, In b bs -> In e b -> (data_key_compare cfg (KUser (fst e)) hi < 0)%Z;
  b_size : forall b e, In b bs -> In e b -> below e <= B
}.

Lemma rough_ok : forall lo hi B bs, branches_ok lo hi B bs ->
  exists L, rough cfg bs = Some (map (fun e => (fst e, Msg MInsert (snd e))) L) /\ Permutation L (concat bs) /\
    StronglySorted (fun a b => (key_compare cfg (fst a) (fst b) <= 0)%Z) L.
Proof using TO.
  intros lo hi B bs H. set (f := fun e : bytes * bytes => (fst e, Msg MInsert (snd e))). set (g := fun e : bytes * message => (fst e, m_data (snd e))).
  assert (GF : forall l, map g (map f l) = l) by (induction l as [|[a b] l IH]; cbn [map]; [reflexivity | rewrite IH; reflexivity]).
  assert (Hah : map ahead (map pivots_of bs) = map (map f) bs) by (rewrite map_map; apply map_ext; reflexivity).
  assert (St : setting cfg (key_compare cfg) (fun _ => True) (map pivots_of bs)).
  { split; [exact TO|]. split; [intros a b _ _; reflexivity|]. split; [|rewrite map_length; pose proof (b_num _ _ _ _ H); lia]. constructor.
    - intros s Hs. apply in_map_iff in Hs. destruct Hs as (b & <- & Hb). cbn [pivots_of s_items]. unfold ascending.
      pose proof (b_order _ _ _ _ H b Hb) as So. clear - So. induction So as [|a l So IH F]; cbn [map]; constructor; [exact IH|].
      apply Forall_forall. intros x Hx. apply in_map_iff in Hx. destruct Hx as (y & <- & Hy). rewrite Forall_forall in F. exact (F y Hy).
    - intros; exact Logic.I.
    - intros s p Hs Hp. apply in_map_iff in Hs. destruct Hs as (b & <- & Hb). apply in_map_iff in Hp. destruct Hp as (e & <- & _). intro D. discriminate D.
    - intros s Hs. apply in_map_iff in Hs. destruct Hs as (b & <- & Hb). unfold src_len. cbn [pivots_of s_pos s_items]. lia.
    - intros s s' a b Hs _ Ha _. apply in_map_iff in Hs. destruct Hs as (c & <- & _). destruct Ha. }
  destruct (C07_raw_merge_is_a_sorted_permutation _ _ _ _ St) as (st & L & E & P & So & Dr). rewrite Hah in P, Dr.
  assert (Hc : concat (map (map f) bs) = map f (concat bs)) by (symmetry; apply concat_map).
  assert (HL : map f (map g L) = L).
  { rewrite Hc in P. assert (A : forall x, In x L -> exists y, x = f y) by (intros x Hx; apply (Permutation_in _ P), in_map_iff in Hx; destruct Hx as (y & <- & _); eauto).
    clear - A. induction L as [|x L IH]; [reflexivity|]. cbn [map]. f_equal; [destruct (A x (or_introl eq_refl)) as (y & ->); reflexivity | apply IH; intros z Hz; apply A; right; exact Hz]. }
  exists (map g L). split; [|split].
  - rewrite HL. unfold rough. rewrite E. destruct (Dr (length (concat bs))) as (st' & ->); [rewrite Hc, map_length; lia|].
    clear. unfold seen. induction L as [|[k m] L IH]; [reflexivity|]. cbn [map fold_right fst snd]. rewrite IH. reflexivity.
  - rewrite <- (GF (concat bs)), <- Hc. apply Permutation_map. exact P.
  - clear - So. induction So as [|a l So IH F]; cbn [map]; constructor; [exact IH|].
    apply Forall_forall. intros x Hx. apply in_map_iff in Hx. destruct Hx as (y & <- & Hy). rewrite Forall_forall in F. exact (F y Hy).
Qed.

(** ** The parts of a leaf *)

Definition begins (k : bytes) (p : list (bytes * bytes)) : Prop := exists d t, p = (k, d) :: t.

(** The pivots of the branches, in order, cut into as many parts as leaves, at most
    as many as wanted.  The split keys are the first keys of the parts after the
    first; every part but the last has the wanted bytes, and less than one pivot
    more. *)
Definition even_parts (n want B : N) (bs : list (list (bytes * bytes))) (j : nat) (ks : list bytes) (parts : list (list (bytes * bytes))) : Prop :=
  Permutation (concat parts) (concat bs) /\
  StronglySorted (fun a b => (key_compare cfg (fst a) (fst b) <= 0)%Z) (concat parts) /\
  length parts = j /\ N.of_nat j <= n /\ Forall2 begins ks (tl parts) /\ Forall (fun p => p <> []) parts /\
  Forall (fun p => want <= below_all p < want + B) (removelast parts).

Lemma total_below : forall s, total counts s = below_all (map (fun e => (fst e, m_data (snd e))) s).
Proof using. induction s as [|e s IH]; [reflexivity|]. cbn [total fold_right map below_all]. fold (total counts s). rewrite IH. reflexivity. Qed.
Lemma removelast_map : forall A B (f : A -> B) l, removelast (map f l) = map f (removelast l).
Proof using. intros A B f l. induction l as [|a [|b l] IH]; [reflexivity | reflexivity|]. cbn [map removelast] in *. rewrite IH. reflexivity. Qed.

Theorem C18_split_is_even : forall est tuples kv leaf_bytes max_tuples n want lo hi B bs keys max_keys j ks,
  split_plan est tuples kv leaf_bytes max_tuples = Some (n, want) -> n <> 1 ->
  branches_ok lo hi B bs -> 0 < B -> 0 < want -> want + B <= 2 ^ 64 ->
  split_points counts cfg est tuples kv leaf_bytes max_tuples bs keys max_keys = Some (j, ks) ->
  (j < 20)%nat /\ (j + keys <= max_keys)%nat /\ exists parts, even_parts n want B bs j ks parts.
Proof using TO.
  intros est tuples kv leaf_bytes max_tuples n want lo hi B bs keys max_keys j ks Pl N1 H B0 W0 HB E. unfold split_points in E. rewrite Pl in E.
  destruct (N.eqb_spec n 1) as [|_]; [contradiction|]. destruct (256 <? length bs)%nat; [discriminate|].
  destruct (rough_ok _ _ _ _ H) as (L & R & P & So). rewrite R in E. set (f := fun e : bytes * bytes => (fst e, Msg MInsert (snd e))) in *.
  destruct (split_keys counts (S MAX_PIVOTS) 0 n want (map f L)) as [[j' ks']|] eqn:Es; [|discriminate].
  destruct (Nat.leb_spec MAX_PIVOTS j') as [|J1]; [discriminate|]. destruct (Nat.ltb_spec max_keys (j' + keys)) as [|J2]; [discriminate|]. injection E as -> ->.
  assert (N0 : N.of_nat 0 < n).
  { unfold split_plan in Pl. destruct ((tuples =? 0) || (leaf_bytes =? 0)); [discriminate|]. injection Pl as <- _.
    match goal with |- context [if ?x <=? 1 then _ else _] => destruct (N.leb_spec x 1); [|lia] end. match goal with |- context [if ?x then 2 else 1] => destruct x; lia end. }
  assert (Hw : Forall (fun e => weight counts (snd e) <= B) (map f L)).
  { apply Forall_forall. intros x Hx. apply in_map_iff in Hx. destruct Hx as (e & <- & He). apply (Permutation_in _ P) in He. apply in_concat in He.
    destruct He as (b & Hb & He). exact (b_size _ _ _ _ H b e Hb He). }
  destruct (split_keys_parts counts B want n _ _ _ _ _ W0 B0 HB Hw N0 Es) as (segs & G1 & G2 & G3 & G4 & G5 & G6).
  split; [exact J1|]. split; [exact J2|]. set (g := fun e : bytes * message => (fst e, m_data (snd e))). exists (map (map g) segs).
  assert (HL : concat (map (map g) segs) = L).
  { rewrite <- concat_map, G1, map_map. clear. induction L as [|[a b] L IH]; cbn [map]; [reflexivity | rewrite IH; reflexivity]. }
  unfold even_parts. rewrite HL. split; [exact P|]. split; [exact So|]. split; [rewrite map_length; lia|]. split; [exact G3|]. split; [|split].
  - clear - G4. destruct segs as [|s0 segs]; [inversion G4; constructor|]. cbn [map tl] in *. induction G4 as [|k s ks segs (m & t & ->) _ IH]; cbn [map]; constructor; [|exact IH]. exists (m_data m), (map g t). reflexivity.
  - apply Forall_forall. intros x Hx. apply in_map_iff in Hx. destruct Hx as (s & <- & Hs). rewrite Forall_forall in G5. specialize (G5 s Hs). destruct s; [contradiction | discriminate].
  - rewrite removelast_map. apply Forall_forall. intros x Hx. apply in_map_iff in Hx. destruct Hx as (s & <- & Hs). rewrite Forall_forall in G6. specialize (G6 s Hs). rewrite total_below in G6. exact G6.
Qed.

(** ** The split keys ascend *)

Lemma below_le : forall B l, Forall (fun e => below e <= B) l -> below_all l <= N.of_nat (length l) * B.
Proof using. intros B l H. induction H as [|e l He _ IH]; [cbn; lia|]. cbn [below_all length]. rewrite Nat2N.inj_succ. nia. Qed.

Lemma parts_ascend : forall hi c parts ks lo,
  StronglySorted (fun a b => (key_compare cfg (fst a) (fst b) <= 0)%Z) (concat parts) ->
  (forall k, (length (filter (fun e => (key_compare cfg (fst e) k =? 0)%Z) (concat parts)) <= c)%nat) ->
  Forall (fun p => p <> []) parts -> Forall (fun p => (c < length p)%nat) (removelast parts) -> Forall2 begins ks (tl parts) ->
  (forall e, In e (concat parts) -> kle cfg lo (KUser (fst e)) /\ klt cfg (KUser (fst e)) hi) -> klt cfg lo hi ->
  Sorted (klt cfg) (lo :: map KUser ks ++ [hi]).
Proof using TO.
  intros hi c parts. induction parts as [|p parts IH]; intros ks lo So Hc Ne Le Fi Bd Lh.
  { cbn [tl] in Fi. inversion Fi. repeat constructor. exact Lh. }
  cbn [tl] in Fi. destruct parts as [|q parts]; [inversion Fi; repeat constructor; exact Lh|].
  inversion Fi as [|k ? ks' ? (d & t & ->) Fi']; subst. inversion_clear Ne as [|? ? Np Ne']. change (removelast (p :: ((k, d) :: t) :: parts)) with (p :: removelast (((k, d) :: t) :: parts)) in Le.
  inversion_clear Le as [|? ? Lp Le']. destruct p as [|a p]; [contradiction|].
  assert (Up : (key_compare cfg (fst a) k < 0)%Z).
  { clear IH Bd Lh Fi Fi'. cbn [concat] in So, Hc. set (f := fun e : bytes * bytes => (fst e, Msg MInsert (snd e))).
    apply (goes_up (key_compare cfg) TO c (f a) (map f p) (f (k, d)) (map f (t ++ concat parts)) (map f ((a :: p) ++ ((k, d) :: t) ++ concat parts))).
    - rewrite map_app. reflexivity.
    - clear - So. revert So. generalize ((a :: p) ++ ((k, d) :: t) ++ concat parts) as l. intros l So. induction So as [|x l So IH F]; cbn [map]; constructor; [exact IH|].
      apply Forall_forall. intros y Hy. apply in_map_iff in Hy. destruct Hy as (z & <- & Hz). rewrite Forall_forall in F. exact (F z Hz).
    - intro k0. specialize (Hc k0). revert Hc. generalize ((a :: p) ++ ((k, d) :: t) ++ concat parts) as l. intros l Hc.
      assert (E : length (filter (same (key_compare cfg) k0) (map f l)) = length (filter (fun e => (key_compare cfg (fst e) k0 =? 0)%Z) l)); [|rewrite E; exact Hc].
      clear. induction l as [|x l IH]; [reflexivity|]. cbn [map filter]. unfold same at 1. cbn [f fst]. destruct (key_compare cfg (fst x) k0 =? 0)%Z; cbn [length]; rewrite IH; reflexivity.
    - cbn [length] in *. rewrite map_length. exact Lp. }
  destruct (Bd a) as [B1 B2]; [left; reflexivity|]. destruct (Bd (k, d)) as [_ B3]; [apply in_concat; exists ((k, d) :: t); split; [right; left; reflexivity | left; reflexivity]|]. cbn [fst] in B3.
  assert (Uk : klt cfg (KUser (fst a)) (KUser k)) by exact Up.
  assert (Lk : klt cfg lo (KUser k)) by (clear - TO B1 Uk; ord TO).
  assert (So' : StronglySorted (fun a b => (key_compare cfg (fst a) (fst b) <= 0)%Z) (concat (((k, d) :: t) :: parts))).
  { change (concat ((a :: p) :: ((k, d) :: t) :: parts)) with ((a :: p) ++ concat (((k, d) :: t) :: parts)) in So. revert So. generalize (a :: p) as l. induction l as [|x l IHl]; intro So; [exact So|]. cbn [app] in So. inversion So. auto. }
  cbn [map app]. constructor; [|constructor; exact Lk]. apply (IH ks' (KUser k)); auto.
  - intro k0. specialize (Hc k0). change (concat ((a :: p) :: ((k, d) :: t) :: parts)) with ((a :: p) ++ concat (((k, d) :: t) :: parts)) in Hc. rewrite filter_app, app_length in Hc. lia.
  - intros e He. split; [|apply Bd; change (In e ((a :: p) ++ concat (((k, d) :: t) :: parts))); apply in_or_app; right; exact He].
    cbn [concat app] in So', He. inversion_clear So' as [|? ? _ F]. destruct He as [<-|He]; [cbn [fst]; unfold kle; cbn [data_key_compare]; rewrite (proj2 (to_eq _ TO k k) eq_refl); lia|].
    rewrite Forall_forall in F. exact (F e He).
Qed.

(** Full statement: without the condition that the pivots with one and the same key
    (at most one in each branch) have less than the wanted bytes; refuted below. *)
Theorem C18_split_keys_ascend_partial : forall est tuples kv leaf_bytes max_tuples n want lo hi B bs keys max_keys j ks,
  split_plan est tuples kv leaf_bytes max_tuples = Some (n, want) ->
  branches_ok lo hi B bs -> 0 < B -> N.of_nat (length bs) * B < want -> want + B <= 2 ^ 64 ->
  (data_key_compare cfg lo hi < 0)%Z ->
  split_points counts cfg est tuples kv leaf_bytes max_tuples bs keys max_keys = Some (j, ks) ->
  StronglySorted (fun a b => (data_key_compare cfg a b < 0)%Z) (lo :: map KUser ks ++ [hi]).
Proof using TO.
  intros est tuples kv leaf_bytes max_tuples n want lo hi B bs keys max_keys j ks Pl H B0 Hw HB Lh E.
  apply Sorted_StronglySorted; [intros a b c H1 H2; change (klt cfg a c); change (klt cfg a b) in H1; change (klt cfg b c) in H2; clear - TO H1 H2; ord TO|].
  destruct (N.eq_dec n 1) as [->|N1].
  { unfold split_points in E. rewrite Pl in E. cbn [N.eqb Pos.eqb] in E. destruct ((MAX_PIVOTS <=? 1)%nat || (max_keys <? 1 + keys)%nat); [discriminate|]. injection E as _ <-. repeat constructor. exact Lh. }
  destruct (C18_split_is_even _ _ _ _ _ _ _ _ _ _ _ _ _ _ _ Pl N1 H B0 ltac:(lia) HB E) as (_ & _ & parts & P & So & _ & _ & Fi & Ne & Ev).
  assert (In_bs : forall e, In e (concat parts) -> exists b, In b bs /\ In e b) by (intros e He; apply (Permutation_in _ P), in_concat in He; exact He).
  apply (parts_ascend hi (length bs) parts ks lo So); auto.
  - intro k. assert (Q : length (filter (fun e => (key_compare cfg (fst e) k =? 0)%Z) (concat parts)) = length (filter (fun e => (key_compare cfg (fst e) k =? 0)%Z) (concat bs))).
    { clear - P. induction P; cbn [filter]; repeat match goal with |- context [(?x =? 0)%Z] => destruct (x =? 0)%Z end; cbn [length]; lia. }
    rewrite Q. pose proof (b_order _ _ _ _ H) as Or. clear - Or TO. induction bs as [|b bs IH]; [cbn; lia|]. cbn [concat length]. rewrite filter_app, app_length.
    assert (I1 : (length (filter (fun e => (key_compare cfg (fst e) k =? 0)%Z) b) <= 1)%nat).
    { specialize (Or b (or_introl eq_refl)). induction Or as [|a l So IHl F]; [cbn; lia|]. cbn [filter]. destruct (Z.eqb_spec (key_compare cfg (fst a) k) 0) as [Ea|]; [|exact IHl].
      apply (to_eq _ TO) in Ea. cbn [length]. assert (Z0 : filter (fun e => (key_compare cfg (fst e) k =? 0)%Z) l = []); [|rewrite Z0; cbn; lia].
      clear IHl So. induction F as [|x l Fx _ IHl]; [reflexivity|]. cbn [filter]. destruct (Z.eqb_spec (key_compare cfg (fst x) k) 0) as [Ex|]; [|exact IHl].
      apply (to_eq _ TO) in Ex. rewrite Ea, Ex, (proj2 (to_eq _ TO k k) eq_refl) in Fx. lia. }
    specialize (IH (fun b Hb => Or b (or_intror Hb))). lia.
  - apply Forall_forall. intros p Hp. rewrite Forall_forall in Ev. specialize (Ev p Hp).
    assert (Hin : In p parts) by (clear - Hp; induction parts as [|x [|y l] IH]; cbn [removelast] in Hp; [destruct Hp | destruct Hp | destruct Hp as [<-|Hp]; [left; reflexivity | right; apply IH; exact Hp]]).
    assert (Le : below_all p <= N.of_nat (length p) * B).
    { apply below_le, Forall_forall. intros e He. destruct (In_bs e) as (b & Hb & He'); [apply in_concat; eauto|]. exact (b_size _ _ _ _ H b e Hb He'). }
    assert (N.of_nat (length bs) < N.of_nat (length p)) by nia. lia.
  - intros e He. destruct (In_bs e He) as (b & Hb & He'). split; [exact (b_from _ _ _ _ H b e Hb He') | exact (b_to _ _ _ _ H b e Hb He')].
Qed.

(** The choice succeeds when the arrays and the parent have room. *)
Theorem C18_split_keys_found : forall est tuples kv leaf_bytes max_tuples n want lo hi B bs keys max_keys,
  split_plan est tuples kv leaf_bytes max_tuples = Some (n, want) ->
  branches_ok lo hi B bs -> n < 20 -> (N.to_nat n + keys <= max_keys)%nat ->
  exists j ks, split_points counts cfg est tuples kv leaf_bytes max_tuples bs keys max_keys = Some (j, ks).
Proof using TO.
  intros est tuples kv leaf_bytes max_tuples n want lo hi B bs keys max_keys Pl H Hn Hk. unfold split_points. rewrite Pl.
  assert (N0 : 0 < n).
  { unfold split_plan in Pl. destruct ((tuples =? 0) || (leaf_bytes =? 0)); [discriminate|]. injection Pl as <- _.
    match goal with |- context [if ?x <=? 1 then _ else _] => destruct (N.leb_spec x 1); [|lia] end. match goal with |- context [if ?x then 2 else 1] => destruct x; lia end. }
  destruct (N.eqb_spec n 1) as [->|N1].
  { destruct (Nat.ltb_spec max_keys (1 + keys)); [cbn in Hk; lia|]. exists 1%nat, []. reflexivity. }
  destruct (Nat.ltb_spec 256 (length bs)) as [L|_]; [pose proof (b_num _ _ _ _ H); lia|].
  destruct (rough_ok _ _ _ _ H) as (L & -> & _ & _).
  destruct (split_keys_some counts n want (S MAX_PIVOTS) 0 (map (fun e => (fst e, Msg MInsert (snd e))) L)) as (j & ks & -> & Hj); [rewrite MP20; lia | rewrite MP20; lia | cbn; lia | lia|].
  destruct (Nat.leb_spec MAX_PIVOTS j) as [Lj|_]; [rewrite MP20 in Lj; lia|]. destruct (Nat.ltb_spec max_keys (j + keys)); [lia|]. exists j, ks. reflexivity.
Qed.

(** How many leaves, and how large: no more leaves than the bytes allow, and none
    smaller than the target, unless the leaf is split for its number of tuples. *)
Theorem C18_split_plan_bounds : forall est tuples kv leaf_bytes max_tuples n want,
  tuples * 19 < 2 ^ 64 -> tuples * kv < 2 ^ 64 ->
  split_plan est tuples kv leaf_bytes max_tuples = Some (n, want) ->
  0 < n /\ n * want <= kv /\ (n <= 2 \/ n * leaf_bytes <= kv /\ leaf_bytes <= want).
Proof using.
  intros est tuples kv leaf_bytes max_tuples n want H19 Hkv E. unfold split_plan in E.
  destruct (N.eqb_spec tuples 0) as [|T0]; [discriminate|]. destruct (N.eqb_spec leaf_bytes 0) as [|L0]; [discriminate|]. cbn [orb] in E.
  set (e := if w64 (tuples * 19) / 20 <? est then tuples else est) in *.
  assert (He : e <= tuples).
  { unfold e, w64. rewrite N.mod_small by exact H19. destruct (N.ltb_spec (tuples * 19 / 20) est); [lia|]. etransitivity; [eassumption|]. apply N.div_le_upper_bound; lia. }
  assert (Hu : w64 (e * kv) / tuples <= kv) by (unfold w64; rewrite N.mod_small by nia; apply N.div_le_upper_bound; [exact T0 | nia]).
  set (u := w64 (e * kv) / tuples) in *. clearbody u e. set (q := u / leaf_bytes) in *.
  assert (Hq : q * leaf_bytes <= kv) by (unfold q; pose proof (N.mul_div_le u leaf_bytes L0); lia). clearbody q.
  injection E as E1 E2. assert (N0 : 0 < n) by (subst n; destruct (N.leb_spec q 1); [|lia]; match goal with |- context [if ?x then 2 else 1] => destruct x; lia end).
  rewrite E1 in E2. split; [exact N0|]. split; [subst want; apply N.mul_div_le; lia|].
  destruct (N.leb_spec q 1) as [Q|Q]; [left; subst n; match goal with |- context [if ?x then 2 else 1] => destruct x; lia end|]. right. subst n. split; [exact Hq|]. subst want. apply N.div_le_lower_bound; lia.
Qed.
End Keys.

(** ** A leaf of the trunk split at the chosen keys *)

Section Trunk.
Variables (M mp : nat) (cfg : data_config) (hash : bytes -> N) (counts : bytes -> N * N).
Hypothesis TO : total_order (key_compare cfg).
Hypothesis LM : lawful_merge cfg.
Hypothesis Hmp : (mp <= MAX_PIVOTS)%nat.
Hypothesis M0 : (0 < M)%nat.
Hypothesis Hmp2 : (2 <= mp)%nat.

Lemma child_below : forall d target t n kids i c, subtree_at cfg d target t = Some (Tr n kids) -> route cfg n target = Some i -> nth_error kids i = Some c ->
  subtree_at cfg (S d) target t = Some c.
Proof using.
  induction d as [|d IH]; intros target t n kids i c E R K.
  - injection E as ->. cbn [subtree_at t_node t_kids]. rewrite R, K. reflexivity.
  - cbn [subtree_at] in E. destruct (route cfg (t_node t) target) as [i0|] eqn:R0; [|discriminate]. destruct (nth_error (t_kids t) i0) as [c0|] eqn:K0; [|discriminate].
    change (match route cfg (t_node t) target with None => None | Some i => match nth_error (t_kids t) i with None => None | Some c => subtree_at cfg (S d) target c end end = Some c).
    rewrite R0, K0. eapply IH; eauto.
Qed.
Lemma ascending_b_iff : forall l, StronglySorted (klt cfg) l -> ascending_b cfg l = true.
Proof using.
  intros l H. induction H as [|a l H IH F]; [reflexivity|]. destruct l as [|b l]; [reflexivity|]. inversion_clear F as [|? ? Fb _].
  change (ltb cfg a b && ascending_b cfg (b :: l) = true). rewrite IH, andb_true_r. apply Z.ltb_lt. exact Fb.
Qed.

(** Right after a flush emptied the pivot of a leaf, the leaf is split at the keys
    that the code chooses: no lookup changes, and every key is in the range of one
    leaf.  Full statement: the same for every state and without the condition on the
    pivots with the same key. *)
Theorem C18_chosen_split_preserves_partial :
  forall l st st' d target n kids i p c est tuples kv leaf_bytes max_tuples want_n want B bs keys max_keys j ks k,
  run M mp cfg hash init l = Some st -> guarded M mp cfg hash init l = true ->
  Forall (fun e => msg_allowed cfg (snd e)) (writes l) ->
  S d = height_of st -> (data_key_compare cfg target KPosInf < 0)%Z ->
  subtree_at cfg d target (st_tree st) = Some (Tr n kids) -> route cfg n target = Some i ->
  get_pivot n i = Some p -> nth_error kids i = Some c ->
  pv_sbn p = n_ebn n -> n_sbr (t_node c) <> n_ebr (t_node c) ->
  split_plan est tuples kv leaf_bytes max_tuples = Some (want_n, want) ->
  branches_ok cfg counts (min_key (t_node c)) (max_key (t_node c)) B bs ->
  0 < B -> N.of_nat (length bs) * B < want -> want + B <= 2 ^ 64 ->
  split_points counts cfg est tuples kv leaf_bytes max_tuples bs keys max_keys = Some (j, ks) ->
  exec M mp cfg hash st (SplitLeaf d target ks) = Some st' ->
  guard M cfg st (SplitLeaf d target ks) = true /\
  (exists v, reports (lookup M cfg hash st k) v /\ reports (lookup M cfg hash st' k) v) /\
  exists x lo hi t, nth_error (leaf_ranges (height_of st') (st_tree st')) x = Some (lo, hi) /\
    (data_key_compare cfg lo (KUser k) <= 0)%Z /\ (data_key_compare cfg (KUser k) hi < 0)%Z /\
    subtree_at cfg (height_of st') (KUser k) (st_tree st') = Some t /\ min_key (t_node t) = lo /\ max_key (t_node t) = hi /\
    forall x' lo' hi', nth_error (leaf_ranges (height_of st') (st_tree st')) x' = Some (lo', hi') ->
      (data_key_compare cfg lo' (KUser k) <= 0)%Z -> (data_key_compare cfg (KUser k) hi' < 0)%Z -> x' = x.
Proof using TO LM Hmp M0 Hmp2.
  intros l st st' d target n kids i p c est tuples kv leaf_bytes max_tuples want_n want B bs keys max_keys j ks k R G A Hd Ht Es Er Ep Ec Sb Nb Pl Bk B0 Hw HB Sp E.
  destruct (reach_inv M mp cfg hash TO LM Hmp M0 Hmp2 l st G A R) as [I _].
  destruct (leaf_unique M mp cfg hash TO LM Hmp M0 Hmp2 st target I Ht) as (_ & lo & hi & t & _ & L1 & L2 & Et & <- & <- & _).
  rewrite <- Hd, (child_below d target (st_tree st) n kids i c Es Er Ec) in Et. injection Et as <-.
  assert (Lh : klt cfg (min_key (t_node c)) (max_key (t_node c))) by (clear - TO L1 L2; ord TO).
  pose proof (C18_split_keys_ascend_partial cfg counts TO _ _ _ _ _ _ _ _ _ _ _ _ _ _ _ Pl Bk B0 Hw HB Lh Sp) as As.
  assert (Gs : guard M cfg st (SplitLeaf d target ks) = true).
  { cbn [guard]. apply andb_true_iff. split; [apply andb_true_iff; split; [apply Nat.ltb_lt; lia | apply Z.ltb_lt; exact Ht]|].
    unfold on_child. rewrite Es, Er, Ep, Ec. rewrite Sb, Nat.eqb_refl. cbn [andb]. rewrite (ascending_b_iff _ As), andb_true_r. apply negb_true_iff, Nat.eqb_neq. exact Nb. }
  split; [exact Gs|]. exact (C18_split_preserves_partial M mp cfg hash TO LM Hmp M0 Hmp2 l st (SplitLeaf d target ks) st' k R G A Logic.I Gs E).
Qed.
End Trunk.

(** ** Examples *)

(** the stored counts: the first byte, in thousands *)
Definition kilo (d : bytes) : N * N := match d with x :: _ => (0, 1000 * x) | [] => (0, 0) end.
(** three branches with shared keys, 4000 bytes below every key *)
Definition three_branches : list (list (bytes * bytes)) :=
  map (map (fun k => ([k], [4]))) [[1; 2; 3; 4; 5; 6]; [2; 4; 6; 8]; [4; 5; 6; 7; 9]].
(** 15 pivots, 60000 bytes, leaves of 20000: five pivots each *)
Example three_plan : split_plan 5000 5000 60000 20000 100000 = Some (3, 20000).
Proof. vm_compute. reflexivity. Qed.
Example three_points : split_points kilo append_cfg 5000 5000 60000 20000 100000 three_branches 4 14 = Some (3%nat, [[4]; [6]]).
Proof. vm_compute. reflexivity. Qed.
Example three_ok : branches_ok append_cfg kilo KNegInf KPosInf 4000 three_branches.
Proof.
  assert (S3 : forall b, In b three_branches -> StronglySorted (fun x y => (key_compare append_cfg (fst x) (fst y) < 0)%Z) b).
  { intros b Hb. cbn [three_branches map In] in Hb. repeat (destruct Hb as [<-|Hb]; [repeat constructor|]). destruct Hb. }
  constructor; [cbn; lia | exact S3 | intros; cbn; lia | intros; cbn; lia|].
  intros b e Hb He. unfold three_branches in Hb. apply in_map_iff in Hb. destruct Hb as (x & <- & _). apply in_map_iff in He. destruct He as (y & <- & _). vm_compute. discriminate.
Qed.
Example three_ascend : StronglySorted (fun a b => (data_key_compare append_cfg a b < 0)%Z) [KNegInf; KUser [4]; KUser [6]; KPosInf].
Proof.
  refine (C18_split_keys_ascend_partial append_cfg kilo lex_compare_total _ _ _ _ _ _ _ _ _ _ _ _ _ _ _ three_plan three_ok _ _ _ _ three_points); vm_compute; auto; discriminate.
Qed.

(** Ten keys flushed to the only leaf, which is then split in three *)
Definition ten : list (list (bytes * bytes)) := [map (fun k => ([N.of_nat k], [4])) (seq 1 10)].
Definition flushed : list step := firstn 15 setup.
Example ten_points :
  split_plan 5000 5000 30000 10000 100000 = Some (3, 10000) /\
  split_points kilo append_cfg 5000 5000 30000 10000 100000 ten 2 14 = Some (3%nat, [[4]; [7]]) /\
  N.of_nat (length ten) * 4000 < 10000.
Proof. vm_compute. repeat split; reflexivity. Qed.
Example ten_ok : branches_ok append_cfg kilo KNegInf KPosInf 4000 ten.
Proof.
  constructor; [cbn; lia | | intros; cbn; lia | intros; cbn; lia|]; intros b; [|intros e]; intros [<-|[]].
  - cbn [seq map]. repeat constructor.
  - intro He. apply in_map_iff in He. destruct He as (y & <- & _). vm_compute. discriminate.
Qed.
Example ten_leaf : guarded1 flushed = true /\
  match run1 flushed with
  | Some st =>
      height_of st = 1%nat /\
      match subtree_at append_cfg 0 KNegInf (st_tree st) with
      | Some (Tr n kids) =>
          match route append_cfg n KNegInf with
          | Some i =>
              match get_pivot n i, nth_error kids i with
              | Some p, Some c => pv_sbn p = n_ebn n /\ n_sbr (t_node c) <> n_ebr (t_node c) /\
                                  min_key (t_node c) = KNegInf /\ max_key (t_node c) = KPosInf
              | _, _ => False
              end
          | None => False
          end
      | None => False
      end /\
      match exec 64 14 append_cfg hb st (SplitLeaf 0 KNegInf [[4]; [7]]) with
      | Some st' => leaf_ranges 1 (st_tree st') = [(KNegInf, KUser [4]); (KUser [4], KUser [7]); (KUser [7], KPosInf)]
      | None => False
      end
  | None => False
  end.
Proof. vm_compute. repeat split; try reflexivity; discriminate. Qed.

(** ** Refutations *)

(** Forty branches with the pivot [5]: two of the split keys are equal, so that one
    of the leaves made has an empty range. *)
Definition hot : list (list (bytes * bytes)) := repeat [([5], [4])] 40.
Theorem C18_equal_split_keys_refuted :
  branches_ok append_cfg kilo KNegInf KPosInf 4000 hot /\
  split_plan 5000 5000 200000 65536 100000 = Some (3, 66666) /\
  split_points kilo append_cfg 5000 5000 200000 65536 100000 hot 4 14 = Some (3%nat, [[5]; [5]]).
Proof.
  split; [|vm_compute; split; reflexivity]. unfold hot.
  constructor; [rewrite repeat_length; lia | | intros; cbn; lia | intros; cbn; lia|]; intros b; [|intros e]; intro Hb; apply repeat_spec in Hb; subst b; [repeat constructor|].
  intros [<-|[]]. vm_compute. discriminate.
Qed.

(** 5883-5884: nothing bounds the number of leaves by the 20 entries of the array of
    split keys before they are written (5902 checks after).  Whether a leaf can get
    so large is not modelled. *)
Definition long : list (list (bytes * bytes)) := [map (fun k => ([N.of_nat k], [20])) (seq 1 100)].
Theorem C18_split_key_array_refuted :
  split_plan 50000 50000 2000000 65536 100000 = Some (30, 66666) /\
  (exists L, rough append_cfg long = Some L /\ length L = 100%nat) /\
  split_points kilo append_cfg 50000 50000 2000000 65536 100000 long 4 100 = None.
Proof. vm_compute. split; [reflexivity|]. split; [|reflexivity]. eexists. split; reflexivity. Qed.

Print Assumptions C18_split_is_even.
Print Assumptions C18_split_keys_ascend_partial.
Print Assumptions C18_split_keys_found.
Print Assumptions C18_split_plan_bounds.
Print Assumptions C18_chosen_split_preserves_partial.
Print Assumptions C18_equal_split_keys_refuted.
Print Assumptions C18_split_key_array_refuted.
