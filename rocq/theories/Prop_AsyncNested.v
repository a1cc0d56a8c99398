(** * C43: the asynchronous lookups in a btree and in a filter

    /repo/src/btree.c:2203-2453 and /repo/src/routing_filter.c:946-1162.  The
    sequence of outcomes of the requests for pages is arbitrary. *)

From Coq Require Import List Arith NArith ZArith Lia Bool.
From Verif Require Import Base Spec Codec Spec_Merge Search SearchProofs DataProofs Page PageProofs Btree BtreeLeafProofs BtreeProofs BtreeMapProofs BtreeRunProofs BtreeIter PackedArr PackedArrProofs Filter Witness Async AsyncNested AsyncProofs Prop_Btree Prop_BtreeIter Prop_Filter.
Import ListNotations.
Local Open Scope nat_scope.

(** ** Any tree, any filter *)

Theorem C43_btree_async_is_sync : forall cfg ht (t : tree ht) k fuel o x,
  btree_async cfg ht t k fuel o = Some x -> x = option_map (fun r => (r, 0)) (btree_lookup cfg ht t k).
Proof.
  intros cfg ht t k fuel o x H. unfold btree_async in H.
  destruct (drive (bturn cfg ht t k) bcallback fuel o 0 bctx_init) as [y|] eqn:E; [|discriminate].
  pose proof (drive_only _ _ (bden cfg k ht t) (bden_step cfg k ht t) _ _ _ _ _ _ _ (bd_start cfg k ht t None) E) as ->.
  unfold bres in H. destruct (btree_lookup cfg ht t k) as [[m|]|]; cbn in *; congruence.
Qed.
Theorem C43_btree_async_ends : forall cfg ht (t : tree ht) k o, fair o ->
  exists fuel, btree_async cfg ht t k fuel o = Some (option_map (fun r => (r, 0)) (btree_lookup cfg ht t k)).
Proof.
  intros cfg ht t k o F.
  destruct (drive_ends _ _ (bden cfg k ht t) 2 ltac:(intros c r m D; destruct D; reflexivity) (bden_step cfg k ht t) o F _ 0 _ _ (bd_start cfg k ht t None)) as [fuel E].
  exists fuel. unfold btree_async. unfold bctx_init. rewrite E. unfold bres. destruct (btree_lookup cfg ht t k) as [[m|]|]; reflexivity.
Qed.

Theorem C43_filter_async_is_sync : forall cfg f hash fuel o x,
  filter_async cfg f hash fuel o = Some x -> x = option_map (fun v => (v, 0)) (filter_lookup cfg (Some f) hash).
Proof.
  intros cfg f hash fuel o x H. unfold filter_async in H.
  pose proof (drive_only _ _ (rden cfg f hash) (rden_step cfg f hash) _ _ _ _ _ _ _ (rd_start cfg f hash) H) as ->.
  unfold rres. destruct (filter_lookup cfg (Some f) hash); reflexivity.
Qed.
Theorem C43_filter_async_ends : forall cfg f hash o, fair o ->
  exists fuel, filter_async cfg f hash fuel o = Some (option_map (fun v => (v, 0)) (filter_lookup cfg (Some f) hash)).
Proof.
  intros cfg f hash o F.
  destruct (drive_ends _ _ (rden cfg f hash) 1 ltac:(intros c r m D; destruct D; reflexivity) (rden_step cfg f hash) o F _ 0 _ _ (rd_start cfg f hash)) as [fuel E].
  exists fuel. unfold filter_async. rewrite E. unfold rres. destruct (filter_lookup cfg (Some f) hash); reflexivity.
Qed.

(** ** What has been written *)

(** The asynchronous lookup in a tree made by any writes finds their merge, and
    holds no page at its end. *)
Theorem C43_btree_async_finds_the_writes : forall cfg ord D P K ops t k o,
  setting cfg ord D P K -> writes_ok cfg P K ops -> built cfg P ops t -> D k -> fair o ->
  exists fuel, btree_async cfg (bt_h t) (bt_tree t) k fuel o = Some (Some (merged cfg k (messages_for k (List.filter (accepted P) ops)), 0)).
Proof.
  intros cfg ord D P K ops t k o S W B Dk F. destruct (C08_insertions_make_a_map cfg ord D P K ops S W) as (t' & E & L & _).
  unfold built in B. rewrite E in B. injection B as ->. destruct (C43_btree_async_ends cfg (bt_h t) (bt_tree t) k o F) as [fuel H].
  exists fuel. rewrite H. specialize (L k Dk). unfold bt_lookup in L. rewrite L. reflexivity.
Qed.
(** So for a filter. *)
Theorem C43_filter_async_exact : forall cfg mem batches f h o,
  geometry cfg -> (forall k i, wf_words (mem k i)) -> batches_ok batches ->
  build cfg mem None batches = Some (Some f) -> (h < 2 ^ 32)%N -> fair o ->
  exists fuel bits, filter_async cfg f h fuel o = Some (Some (bits, 0)) /\
    forall v, N.testbit bits v = true <-> exists hs h', In (hs, v) batches /\ In h' hs /\ same_top cfg h h'.
Proof.
  intros cfg mem batches f h o G Hm B E Hh F. destruct (C14_lookup_exact cfg mem batches (Some f) h G Hm B E Hh) as (bits & L & S).
  destruct (C43_filter_async_ends cfg f h o F) as [fuel H]. exists fuel, bits. split; [rewrite H, L; reflexivity | exact S].
Qed.

(** A tree with several leaves and a filter with several indices; every third
    request is refused and every third starts an I/O. *)
Definition by_turns (i : nat) : ev := match i mod 3 with 0 => Busy | 1 => Got | _ => Started end.
Lemma by_turns_fair : fair by_turns.
Proof.
  intro i. exists (3 * i + 1). split; [lia|]. unfold by_turns. replace (3 * i + 1) with (1 + i * 3) by lia. rewrite Nat.mod_add by lia. discriminate.
Qed.
Example C43_nested_example :
  bt_h ex_tree <> 0 /\
  btree_async append_cfg (bt_h ex_tree) (bt_tree ex_tree) [15;9]%N 20 by_turns =
    Some (option_map (fun r => (r, 0)) (bt_lookup append_cfg ex_tree [15;9]%N)) /\
  bt_lookup append_cfg ex_tree [15;9]%N <> Some None /\
  btree_async append_cfg (bt_h ex_tree) (bt_tree ex_tree) [15;8]%N 20 by_turns = Some (Some (None, 0)) /\
  match build ex_cfg (fun _ _ _ => 0%N) None ex_batches with
  | Some (Some f) => filter_async ex_cfg f (4 * 2 ^ 26 + 5) 20 by_turns = Some (Some (9%N, 0))
  | _ => False
  end.
Proof. vm_compute. repeat split; try reflexivity; discriminate. Qed.

Print Assumptions C43_btree_async_is_sync.
Print Assumptions C43_btree_async_ends.
Print Assumptions C43_filter_async_is_sync.
Print Assumptions C43_filter_async_ends.
Print Assumptions C43_btree_async_finds_the_writes.
Print Assumptions C43_filter_async_exact.
