(** * The asynchronous lookup in the trunk computes the synchronous one *)

From Coq Require Import List Arith NArith ZArith Lia Bool Sorted.
From Verif Require Import Base Spec Spec_Merge DataProofs Search.
From Verif Require Import TrunkNode TrunkRing TrunkRep TrunkReset TrunkFlush TrunkAlpha TrunkKeys TrunkView TrunkTree TrunkShape.
From Verif Require Import Async AsyncProofs AsyncSpec.
Import ListNotations.
Local Open Scope nat_scope.

(** ** The subbundles of a pivot, one after the other *)

Section Flat.
Context {A B : Type}.
Lemma each_map : forall (f : B -> acc -> option (acc * bool)) (g : A -> B) l a,
  lookup_each (fun x => f (g x)) l a = lookup_each f (map g l) a.
Proof.
  intros f g l. induction l as [|x l IH]; intro a; simpl; auto. destruct (f (g x) a) as [[a' []]|]; auto.
Qed.
Lemma each_app : forall (f : B -> acc -> option (acc * bool)) l1 l2 a,
  lookup_each f (l1 ++ l2) a =
  match lookup_each f l1 a with None => None | Some (a', true) => lookup_each f l2 a' | Some (a', false) => Some (a', false) end.
Proof.
  intros f l1. induction l1 as [|x l IH]; intros l2 a; simpl; auto. destruct (f x a) as [[a' []]|]; auto.
Qed.
Lemma each_concat : forall (f : B -> acc -> option (acc * bool)) (g : A -> list B) l a,
  lookup_each (fun x => lookup_each f (g x)) l a = lookup_each f (concat (map g l)) a.
Proof.
  intros f g l. induction l as [|x l IH]; intro a; simpl; auto. rewrite each_app. destruct (lookup_each f (g x) a) as [[a' []]|]; auto.
Qed.
Lemma each_ext : forall (f g : A -> acc -> option (acc * bool)) l a, (forall x a, f x a = g x a) -> lookup_each f l a = lookup_each g l a.
Proof.
  intros f g l a H. revert a. induction l as [|x l IH]; intro a; simpl; auto. rewrite H. destruct (g x a) as [[a' []]|]; auto.
Qed.
End Flat.

Section Node.
Variables (M : nat) (cfg : data_config) (h : bytes -> N).

Lemma seq_shift_by : forall s n, map (fun o => o + s) (seq 0 n) = seq s n.
Proof.
  intros s n. revert s. induction n as [|n IH]; intro s; [reflexivity|]. cbn [seq map]. f_equal.
  rewrite <- (IH (S s)), <- seq_shift, map_map. apply map_ext. intro. lia.
Qed.
Definition bundle_subs (n : node) (off : nat) : list subbundle :=
  let b := n_bn n (csub MAX_BUNDLES (n_ebn n) (off + 1)) in
  map (fun o => n_sb n (csub MAX_SUBBUNDLES (bn_esb b) (o + 1))) (seq 0 (bundle_subbundle_count b)).

Lemma bundle_subs_flat : forall n A X Q, rep M n A -> aok M A -> forall Y, an_bns A = X ++ Y ++ Q ->
  concat (map (bundle_subs n) (seq (length Q) (length Y))) =
  map (fun j => n_sb n (csub MAX_SUBBUNDLES (n_esb n) (j + 1))) (seq (length (concat Q)) (length (concat Y))).
Proof.
  intros n A X Q R K Y. revert Q. induction Y as [|b Y IH] using rev_ind; intros Q E; [reflexivity|].
  rewrite app_length, Nat.add_1_r. cbn [seq map concat].
  assert (E' : an_bns A = (X ++ Y) ++ b :: Q) by (rewrite E, <- !app_assoc; reflexivity).
  pose proof (IH (b :: Q)) as I. cbn [length] in I. rewrite I by (rewrite E', <- app_assoc; reflexivity). clear I.
  rewrite concat_app. cbn [concat]. rewrite app_nil_r, !app_length, (Nat.add_comm (length (concat Y))), seq_app, map_app.
  replace (length (concat Q) + length b) with (length b + length (concat Q)) by lia. f_equal.
  unfold bundle_subs.
  pose proof (bounds _ _ _ _ _ K E') as Bd. 
  assert (Eb : csub MAX_BUNDLES (n_ebn n) (length Q + 1) = cadd MAX_BUNDLES (n_sbn n) (length (X ++ Y))).
  { rewrite (r_ebn _ _ _ R), E', app_length. cbn [length]. pose proof B0. rewrite csub_cadd_amount by lia. f_equal. lia. }
  rewrite Eb. rewrite (subbundle_count_at M n A _ _ _ R K E'), (bundle_entry M n A _ _ _ R E'). cbn [bn_esb].
  rewrite (r_esb _ _ _ R). assert (Es : length (subs A) = length (concat (X ++ Y)) + length b + length (concat Q)).
  { rewrite (subs_split A _ _ _ E'), !app_length. lia. }
  rewrite Es. pose proof S0.
  rewrite <- (seq_shift_by (length (concat Q)) (length b)), !map_map.
  apply map_ext_in. intros o Io. apply in_seq in Io. f_equal.
  rewrite !csub_cadd_amount by lia. f_equal. lia.
Qed.

Lemma pivot_counts : forall n A p a, rep M n A -> aok M A -> off_ok A (ap_off a) (ap_boff a) -> piv_rep M n p a ->
  exists X Y, an_bns A = X ++ Y /\ pivot_bundle_count n p = length Y /\
    csub MAX_SUBBUNDLES (n_esb n) (pivot_start_subbundle n p) = length (concat Y) /\
    pivot_start_subbundle n p < MAX_SUBBUNDLES /\ n_esb n < MAX_SUBBUNDLES /\ length (concat Y) < MAX_SUBBUNDLES.
Proof.
  intros n A p a R K O (_ & _ & _ & _ & Q5).
  assert (Lb : ap_boff a <= length (an_bns A)) by (destruct O as [[-> _]|(_ & H & _)]; lia).
  exists (firstn (ap_boff a) (an_bns A)), (skipn (ap_boff a) (an_bns A)).
  pose proof (firstn_skipn (ap_boff a) (an_bns A)) as E. pose proof B0. pose proof S0. pose proof (ok_bns _ _ K). pose proof (ok_subs _ _ K) as Ks.
  assert (Es : length (subs A) = length (concat (firstn (ap_boff a) (an_bns A))) + length (concat (skipn (ap_boff a) (an_bns A)))).
  { unfold subs. rewrite <- E at 1. rewrite concat_app, app_length. reflexivity. }
  assert (Ep : pivot_start_subbundle n p = cadd MAX_SUBBUNDLES (n_ssb n) (length (concat (firstn (ap_boff a) (an_bns A))))).
  { unfold pivot_start_subbundle. rewrite Q5, (r_ebn _ _ _ R), cadd_eqb by lia. destruct (Nat.eqb_spec (ap_boff a) (length (an_bns A))) as [Z|Z].
    - rewrite (r_esb _ _ _ R). unfold subs. rewrite Z, firstn_all. reflexivity.
    - destruct (skipn (ap_boff a) (an_bns A)) as [|b Q] eqn:Eq; [apply (f_equal (@length _)) in Eq; rewrite skipn_length in Eq; cbn in Eq; lia|].
      replace (ap_boff a) with (length (firstn (ap_boff a) (an_bns A))) at 1 by (rewrite firstn_length; lia).
      rewrite (bundle_entry M n A _ _ _ R (eq_sym E)). reflexivity. }
  split; [auto|]. split; [|split; [|split; [|split]]].
  - unfold pivot_bundle_count. rewrite Q5, (r_ebn _ _ _ R), csub_cadd by lia. rewrite skipn_length. reflexivity.
  - rewrite Ep, (r_esb _ _ _ R), csub_cadd by lia. lia.
  - rewrite Ep. apply cadd_lt. lia.
  - rewrite (r_esb _ _ _ R). apply cadd_lt. lia.
  - lia.
Qed.

Lemma pivot_lookup_flat : forall n A p a k ac, rep M n A -> aok M A -> off_ok A (ap_off a) (ap_boff a) -> piv_rep M n p a ->
  pivot_lookup M cfg h n p k ac =
  match lookup_each (fun s => subbundle_lookup M cfg h n s k) (pivot_subs n p) ac with
  | None => None
  | Some (a', false) => Some (a', false)
  | Some (a', true) => filter_lookup M cfg h n (pv_filt p) (pv_sbr p) k a'
  end.
Proof.
  intros n A p a k ac R K O P. destruct (pivot_counts n A p a R K O P) as (X & Y & E & E1 & E2 & _).
  unfold pivot_lookup. rewrite E1. unfold pivot_subs. rewrite E2.
  pose proof (bundle_subs_flat n A X [] R K Y ltac:(rewrite app_nil_r; exact E)) as F. cbn [length concat] in F.
  rewrite <- F, <- each_concat. 
  match goal with |- match ?a with _ => _ end = match ?b with _ => _ end => replace a with b; [reflexivity | symmetry] end.
  apply each_ext. intros off ac'. unfold bundle_lookup, bundle_subs. rewrite <- each_map. reflexivity.
Qed.
End Node.

(** ** The ring of subbundles *)

Lemma ring_step : forall m e j, 0 < m -> j + 2 <= m -> csub m (csub m e (j + 1)) 1 = csub m e (j + 2).
Proof.
  intros m e j Hm H. Transparent csub. unfold csub. Opaque csub.
  rewrite <- (Nat.add_sub_assoc _ m 1) by lia. rewrite Nat.add_mod_idemp_l by lia.
  replace (e + m - (j + 1) + (m - 1)) with (e + m - (j + 2) + 1 * m) by lia. apply Nat.mod_add. lia.
Qed.
Lemma ring_end : forall m e s, s < m -> e < m -> csub m s 1 = csub m e (csub m e s + 1).
Proof.
  intros m e s Hs He. Transparent csub. unfold csub. Opaque csub.
  destruct (le_lt_dec s e) as [L|L].
  - replace (e + m - s) with (e - s + 1 * m) by lia. rewrite Nat.mod_add, (Nat.mod_small (e - s)) by lia. f_equal. lia.
  - rewrite (Nat.mod_small (e + m - s)) by lia. replace (s + m - 1) with (s - 1 + 1 * m) by lia. rewrite Nat.mod_add by lia. f_equal. lia.
Qed.
Lemma ring_eqb : forall m e i j, e < m -> i < m -> j < m -> (csub m e (i + 1) =? csub m e (j + 1)) = (i =? j).
Proof.
  intros m e i j He Hi Hj. Transparent csub. unfold csub. Opaque csub.
  assert (G : forall x, x < m -> (e + m - (x + 1)) mod m = if x <? e then e - (x + 1) else e + m - (x + 1)).
  { intros x Lx. destruct (Nat.ltb_spec x e); [|apply Nat.mod_small; lia]. replace (e + m - (x + 1)) with (e - (x + 1) + 1 * m) by lia. rewrite Nat.mod_add by lia. apply Nat.mod_small. lia. }
  rewrite !G by assumption. destruct (Nat.eqb_spec i j) as [->|N]; [apply Nat.eqb_refl|]. apply Nat.eqb_neq.
  destruct (Nat.ltb_spec i e), (Nat.ltb_spec j e); lia.
Qed.

(** ** The values found *)

Definition rest_of (vs : list nat) (v : option nat) : list nat :=
  match v with None => vs | Some v => filter (fun w => w <? v) vs end.
Lemma next_rest : forall vs v, next_value vs v = hd_error (rest_of vs v).
Proof. intros vs [v|]; reflexivity. Qed.
Lemma filter_desc : forall (f : nat -> bool) l, StronglySorted (fun a b => b < a) l -> StronglySorted (fun a b => b < a) (filter f l).
Proof.
  intros f l H. induction H as [|x l H IH F]; cbn [filter]; [constructor|]. destruct (f x); auto. constructor; auto.
  rewrite Forall_forall in *. intros y Hy. apply filter_In in Hy. apply F, Hy.
Qed.
Lemma values_desc : forall f hh, StronglySorted (fun a b => b < a) (filter_values f hh).
Proof.
  intros f hh. unfold filter_values. apply filter_desc. generalize (S (max_value f)) as n. intro n.
  induction n as [|n IH]; [constructor|]. rewrite seq_S, rev_app_distr. cbn [rev app]. constructor; [exact IH|].
  apply Forall_forall. intros y Hy. rewrite <- in_rev in Hy. apply in_seq in Hy. lia.
Qed.
Lemma rest_cons : forall vs v x r, StronglySorted (fun a b => b < a) vs -> rest_of vs v = x :: r -> rest_of vs (Some x) = r.
Proof.
  intros vs v x r H E. cbn [rest_of].
  assert (G : forall l y q, StronglySorted (fun a b => b < a) l -> l = y :: q -> filter (fun w => w <? y) l = q).
  { intros l y q Hl ->. inversion Hl as [|? ? H1 H2]; subst. cbn [filter]. rewrite Nat.ltb_irrefl.
    clear - H2. induction H2 as [|z q Hz H2 IH]; cbn [filter]; auto. apply Nat.ltb_lt in Hz. rewrite Hz, IH. reflexivity. }
  destruct v as [v|]; cbn [rest_of] in E; [|apply (G vs); auto].
  rewrite <- (G _ x r (filter_desc (fun w => w <? v) vs H) E).
  assert (X : x < v). { assert (I : In x (filter (fun w => w <? v) vs)) by (rewrite E; left; auto). apply filter_In in I. destruct I as [_ I]. apply Nat.ltb_lt in I. exact I. }
  clear E G H. induction vs as [|y vs IH]; cbn [filter]; auto.
  destruct (Nat.ltb_spec y x), (Nat.ltb_spec y v); cbn [filter]; try lia; rewrite IH; auto.
  - destruct (Nat.ltb_spec y x); [reflexivity | lia].
  - destruct (Nat.ltb_spec y x); [lia | reflexivity].
Qed.
Lemma rest_in : forall vs v x, In x (rest_of vs v) -> In x vs.
Proof. intros vs [v|] x H; auto. apply filter_In in H. apply H. Qed.

(** ** What is still to be computed *)

Section Machine.
Variables (M mp : nat) (cfg : data_config) (h : bytes -> N) (bh : branch -> nat) (st : state) (k : bytes) (mt : nat).
Hypothesis TO : total_order (key_compare cfg).
Local Notation klt := (TrunkKeys.klt cfg).
Local Notation kle := (TrunkKeys.kle cfg).
Local Notation twf := (TrunkShape.twf M mp cfg).
Local Notation fit := (AsyncSpec.fit M cfg h k).
Local Notation sub_fit := (AsyncSpec.sub_fit M h k).

Definition fin (a : acc) : option acc := finish cfg k (a, true).
Definition stop (a : acc) : option acc := finish cfg k (a, false).
Definition andthen (x : option (acc * bool)) (f : acc -> option acc) : option acc :=
  match x with None => None | Some (a, true) => f a | Some (a, false) => stop a end.
Definition below (ht : nat) (t : tree) (a : acc) : option acc :=
  match tree_lookup M cfg h ht t k a with None => None | Some r => finish cfg k r end.
Definition after_node (ht : nat) (t : tree) (i : nat) (a : acc) : option acc :=
  match ht with
  | O => fin a
  | S ht' => match nth_error (t_kids t) i with Some c => below ht' c a | None => None end
  end.
Definition in_pivot ht t i p (vs : list nat) (a : acc) : option acc :=
  andthen (lookup_values M cfg (t_node t) (pv_sbr p) vs k a) (after_node ht t i).
Definition nsubs (n : node) (p : pivot) : nat := csub MAX_SUBBUNDLES (n_esb n) (pivot_start_subbundle n p).
Definition sub_no (n : node) (j : nat) : subbundle := n_sb n (csub MAX_SUBBUNDLES (n_esb n) (j + 1)).
Definition subs_from (n : node) (p : pivot) (j : nat) : list subbundle := map (sub_no n) (seq j (nsubs n p - j)).
Definition in_subs ht t i p (j : nat) (a : acc) : option acc :=
  andthen (lookup_each (fun s => subbundle_lookup M cfg h (t_node t) s k) (subs_from (t_node t) p j) a)
          (in_pivot ht t i p (filter_values (pv_filt p) (h k))).
Definition in_sub ht t i p (j : nat) (vs : list nat) (a : acc) : option acc :=
  andthen (lookup_values M cfg (t_node t) (sb_sbr (sub_no (t_node t) j)) vs k a) (in_subs ht t i p (S j)).
Definition in_filters ht t i p (j f : nat) (a : acc) : option acc :=
  let s := sub_no (t_node t) j in
  andthen (compacted_lookup cfg h (t_node t) s (seq f (sb_filter_count s - f)) k a) (in_subs ht t i p (S j)).
Definition in_compacted ht t i p (j f : nat) (vs : list nat) (a : acc) : option acc :=
  let s := sub_no (t_node t) j in
  match vs with
  | [] => in_filters ht t i p j (S f) a
  | _ => andthen (match lookup_and_merge cfg (n_br (t_node t) (sb_sbr s)) k a with
                  | None => None
                  | Some (a', found) => Some (a', negb (found && acc_definitive a'))
                  end) (in_subs ht t i p (S j))
  end.

Lemma andthen_assoc : forall x f g,
  andthen (match x with None => None | Some (a, true) => f a | Some (a, false) => Some (a, false) end) g =
  andthen x (fun a => andthen (f a) g).
Proof. intros [[a []]|] f g; reflexivity. Qed.

(** The node in which the lookup is *)
Record within (ht : nat) (t : tree) (i : nat) (p : pivot) : Prop := {
  in_height : n_height (t_node t) = ht;
  in_route : route cfg (t_node t) (KUser k) = Some i;
  in_piv : get_pivot (t_node t) i = Some p;
  in_esb : n_esb (t_node t) < MAX_SUBBUNDLES;
  in_pss : pivot_start_subbundle (t_node t) p < MAX_SUBBUNDLES;
  in_few : nsubs (t_node t) p < MAX_SUBBUNDLES;
  in_fit : forall j, j < nsubs (t_node t) p -> sub_fit (t_node t) (sub_no (t_node t) j) = true;
  in_kid : match ht with
           | O => True
           | S ht' => exists c lo hi, nth_error (t_kids t) i = Some c /\ twf ht' c lo hi /\ kle lo (KUser k) /\ klt (KUser k) hi /\ fit ht' c = true
           end
}.

Lemma enter : forall ht t lo hi, twf ht t lo hi -> kle lo (KUser k) -> klt (KUser k) hi -> fit ht t = true ->
  exists i p, within ht t i p /\ forall a, below ht t a = in_subs ht t i p 0 a.
Proof.
  intros ht t lo hi T Hl Hh F. pose proof (twf_nwf _ _ _ _ _ _ _ T) as (W & Q1 & Q2).
  destruct (nview_at M mp cfg TO ht _ _ (KUser k) W) as (i & a & b & Er & Ea & _ & _ & _ & _); [rewrite Q1; exact Hl | rewrite Q2; exact Hh |].
  destruct (get_pivot_rep M _ _ i a (w_rep _ _ _ _ _ _ W) Ea) as (p & Ep & Hp).
  pose proof (ok_piv _ _ (w_aok _ _ _ _ _ _ W)) as Fo. rewrite Forall_forall in Fo. specialize (Fo a (nth_error_In _ _ Ea)).
  destruct (pivot_counts M _ _ p a (w_rep _ _ _ _ _ _ W) (w_aok _ _ _ _ _ _ W) Fo Hp) as (X & Y & _ & _ & E2 & E3 & E4 & E5).
  assert (Fs : forall j, j < nsubs (t_node t) p -> sub_fit (t_node t) (sub_no (t_node t) j) = true).
  { intros j Hj. destruct ht as [|ht]; cbn [AsyncSpec.fit] in F; rewrite Er, Ep in F; apply andb_true_iff in F; destruct F as [F _];
      rewrite forallb_forall in F; apply F; unfold pivot_subs; apply (in_map (sub_no (t_node t))); apply in_seq; unfold nsubs in Hj; lia. }
  exists i, p. split.
  - constructor; auto; [apply (w_height _ _ _ _ _ _ W) | unfold nsubs; lia |].
    destruct ht as [|ht]; auto. destruct (child_at M mp cfg TO ht t lo hi (KUser k) T Hl Hh) as (i' & c & lo' & hi' & Er' & Ec & _ & Tc & Hc1 & Hc2).
    rewrite Er in Er'. injection Er' as <-. exists c, lo', hi'. repeat split; auto.
    cbn [AsyncSpec.fit] in F. rewrite Er, Ep, Ec in F. apply andb_true_iff in F. apply F.
  - intro ac. pose proof (pivot_lookup_flat M cfg h _ _ p a k ac (w_rep _ _ _ _ _ _ W) (w_aok _ _ _ _ _ _ W) Fo Hp) as E.
    unfold in_subs, subs_from. rewrite Nat.sub_0_r. change (map (sub_no (t_node t)) (seq 0 (nsubs (t_node t) p))) with (pivot_subs (t_node t) p).
    assert (G : below ht t ac = andthen (pivot_lookup M cfg h (t_node t) p k ac) (after_node ht t i)).
    { unfold below. destruct ht as [|ht]; cbn [tree_lookup].
      - destruct (w_leaf _ _ _ _ _ _ W eq_refl) as (a0 & Ea0 & _).
        assert (i = 0) by (rewrite Ea0 in Ea; destruct i as [|[|i]]; [reflexivity | discriminate | discriminate]). subst i. rewrite Ep.
        destruct (pivot_lookup M cfg h (t_node t) p k ac) as [[a' []]|]; reflexivity.
      - rewrite Er, Ep. destruct (child_at M mp cfg TO ht t lo hi (KUser k) T Hl Hh) as (i' & c & lo' & hi' & Er' & Ec & _).
        rewrite Er in Er'. injection Er' as <-. rewrite Ec.
        destruct (pivot_lookup M cfg h (t_node t) p k ac) as [[a' []]|]; try reflexivity. cbn [andthen after_node]. rewrite Ec. reflexivity. }
    rewrite G, E. apply andthen_assoc.
Qed.

Lemma subs_from_end : forall n p, subs_from n p (nsubs n p) = [].
Proof. intros. unfold subs_from. rewrite Nat.sub_diag. reflexivity. Qed.
Lemma subs_from_next : forall n p j, j < nsubs n p -> subs_from n p j = sub_no n j :: subs_from n p (S j).
Proof. intros n p j H. unfold subs_from. replace (nsubs n p - j) with (S (nsubs n p - S j)) by lia. reflexivity. Qed.
Lemma in_subs_end : forall ht t i p a, in_subs ht t i p (nsubs (t_node t) p) a = in_pivot ht t i p (filter_values (pv_filt p) (h k)) a.
Proof. intros. unfold in_subs. rewrite subs_from_end. reflexivity. Qed.
Lemma in_subs_next : forall ht t i p j a, j < nsubs (t_node t) p ->
  in_subs ht t i p j a = if sb_compacted (sub_no (t_node t) j) then in_filters ht t i p j 0 a
                         else in_sub ht t i p j (filter_values (sb_filter (t_node t) (sub_no (t_node t) j) 0) (h k)) a.
Proof.
  intros ht t i p j a H. unfold in_subs at 1. rewrite subs_from_next by exact H. cbn [lookup_each].
  assert (G : forall x, andthen (match x with None => None | Some (a', true) => lookup_each (fun s => subbundle_lookup M cfg h (t_node t) s k) (subs_from (t_node t) p (S j)) a' | Some (a', false) => Some (a', false) end)
     (in_pivot ht t i p (filter_values (pv_filt p) (h k))) = andthen x (in_subs ht t i p (S j))).
  { intros [[a' []]|]; reflexivity. }
  rewrite G. unfold subbundle_lookup, in_filters, in_sub, filter_lookup. rewrite Nat.sub_0_r. destruct (sb_compacted _); reflexivity.
Qed.
Lemma in_filters_next : forall ht t i p j f a, f < sb_filter_count (sub_no (t_node t) j) ->
  in_filters ht t i p j f a = in_compacted ht t i p j f (filter_values (sb_filter (t_node t) (sub_no (t_node t) j) f) (h k)) a.
Proof.
  intros ht t i p j f a H. unfold in_filters. replace (sb_filter_count (sub_no (t_node t) j) - f) with (S (sb_filter_count (sub_no (t_node t) j) - S f)) by lia.
  cbn [seq compacted_lookup]. unfold in_compacted. destruct (filter_values _ _); reflexivity.
Qed.
Lemma in_filters_end : forall ht t i p j f a, sb_filter_count (sub_no (t_node t) j) <= f -> in_filters ht t i p j f a = in_subs ht t i p (S j) a.
Proof. intros ht t i p j f a H. unfold in_filters. replace (_ - f) with 0 by lia. reflexivity. Qed.

(** One branch: the two lookups stop at the same messages *)
Lemma branch_stop : forall b a a' fd, acc_definitive a = false -> lookup_and_merge cfg b k a = Some (a', fd) -> fd && acc_definitive a' = acc_definitive a'.
Proof.
  intros b a a' fd Ha H. unfold lookup_and_merge in H. destruct fd; auto.
  destruct (find_tuple cfg b k) as [m|].
  - destruct a as [n|]; [destruct (data_merge_tuples cfg k m n); discriminate | discriminate].
  - injection H as <-. rewrite Ha. reflexivity.
Qed.

Lemma in_pivot_nil : forall ht t i p a, in_pivot ht t i p [] a = after_node ht t i a.
Proof. reflexivity. Qed.
Lemma in_sub_nil : forall ht t i p j a, in_sub ht t i p j [] a = in_subs ht t i p (S j) a.
Proof. reflexivity. Qed.
Lemma values_cons : forall n start v r a f, andthen (lookup_values M cfg n start (v :: r) k a) f =
  match lookup_and_merge cfg (n_br n (cadd M start v)) k a with
  | None => None
  | Some (a', fd) => if fd && acc_definitive a' then stop a' else andthen (lookup_values M cfg n start r k a') f
  end.
Proof. intros. cbn [lookup_values]. destruct (lookup_and_merge _ _ _ _) as [[a' fd]|]; [|reflexivity]. destruct (fd && acc_definitive a'); reflexivity. Qed.

(** ** The relation *)

Definition ret (x : option acc) : option (acc * nat * nat) := option_map (fun a => (a, mt, 0)) x.

(** Which filter is looked at, what the values found in it lead to, and how much is
    left in the node *)
Inductive phase (ht : nat) (t : tree) (i : nat) (p : pivot) :
  lstate -> nat -> nat -> nat -> subbundle -> filt -> (list nat -> acc -> option acc) -> nat -> nat -> Prop :=
| ph_piv : forall sb e f cur, phase ht t i p LPivot sb e f cur (pv_filt p) (in_pivot ht t i p) 1 0
| ph_sub : forall j, j < nsubs (t_node t) p -> sb_compacted (sub_no (t_node t) j) = false ->
    phase ht t i p LSub (csub MAX_SUBBUNDLES (n_esb (t_node t)) (j + 1)) (csub MAX_SUBBUNDLES (pivot_start_subbundle (t_node t) p) 1) 0
      (sub_no (t_node t) j) (sb_filter (t_node t) (sub_no (t_node t) j) 0) (in_sub ht t i p j)
      (2 + (nsubs (t_node t) p - j)) (sb_filter_count (sub_no (t_node t) j))
| ph_com : forall j f, j < nsubs (t_node t) p -> sb_compacted (sub_no (t_node t) j) = true -> f < sb_filter_count (sub_no (t_node t) j) ->
    phase ht t i p LCompacted (csub MAX_SUBBUNDLES (n_esb (t_node t)) (j + 1)) (csub MAX_SUBBUNDLES (pivot_start_subbundle (t_node t) p) 1) f
      (sub_no (t_node t) j) (sb_filter (t_node t) (sub_no (t_node t) j) f) (in_compacted ht t i p j f)
      (2 + (nsubs (t_node t) p - j)) (sb_filter_count (sub_no (t_node t) j) - f).

Definition start_of (ls : lstate) (p : pivot) (cur : subbundle) : nat := match ls with LPivot => pv_sbr p | _ => sb_sbr cur end.

Inductive den : ctx -> option (acc * nat * nat) -> list nat -> Prop :=
| d_node : forall ht t lo hi pg hg sb e f ls cur piv fl fo v b lf a, acc_definitive a = false ->
    twf ht t lo hi -> kle lo (KUser k) -> klt (KUser k) hi -> fit ht t = true ->
    den (Ctx ANode (Some t) pg hg sb e f ls cur piv fl fo v b lf a mt 1) (ret (below ht t a)) [3 * ht + 2; 0; 0; 0; 0; 0]
| d_sub : forall ht t i p j pg ls cur fl fo v b lf a, acc_definitive a = false -> within ht t i p -> j <= nsubs (t_node t) p ->
    den (Ctx ASub (Some t) pg ht (csub MAX_SUBBUNDLES (n_esb (t_node t)) (j + 1)) (csub MAX_SUBBUNDLES (pivot_start_subbundle (t_node t) p) 1) 0 ls cur (Some i) fl fo v b lf a mt 1)
        (ret (in_subs ht t i p j a)) [3 * ht + 1; 2 + (nsubs (t_node t) p - j); sb_filter_count (sub_no (t_node t) j); 3; 0; 0]
| d_subf : forall ht t i p j f pg ls cur fl fo v b lf a, acc_definitive a = false -> within ht t i p -> j < nsubs (t_node t) p ->
    sb_compacted (sub_no (t_node t) j) = true -> f < sb_filter_count (sub_no (t_node t) j) ->
    den (Ctx ASub (Some t) pg ht (csub MAX_SUBBUNDLES (n_esb (t_node t)) (j + 1)) (csub MAX_SUBBUNDLES (pivot_start_subbundle (t_node t) p) 1) f ls cur (Some i) fl fo v b lf a mt 1)
        (ret (in_filters ht t i p j f a)) [3 * ht + 1; 2 + (nsubs (t_node t) p - j); sb_filter_count (sub_no (t_node t) j) - f; 3; 0; 0]
| d_pivot : forall ht t i p pg sb e f cur fl fo v b lf a, acc_definitive a = false -> within ht t i p ->
    den (Ctx APivot (Some t) pg ht sb e f LPivot cur (Some i) fl fo v b lf a mt 1)
        (ret (in_pivot ht t i p (filter_values (pv_filt p) (h k)) a)) [3 * ht + 1; 1; 0; 3; 0; 0]
| d_fstart : forall ht t i p pg sb e f ls cur fl K m2 m3 fo v b lf a, acc_definitive a = false -> within ht t i p -> phase ht t i p ls sb e f cur fl K m2 m3 ->
    den (Ctx AFilterStart (Some t) pg ht sb e f ls cur (Some i) fl fo v b lf a mt 1) (ret (K (filter_values fl (h k)) a)) [3 * ht + 1; m2; m3; 2; 0; 0]
| d_filter : forall ht t i p pg sb e f ls cur fl K m2 m3 fo b lf a, acc_definitive a = false -> within ht t i p -> phase ht t i p ls sb e f cur fl K m2 m3 ->
    den (Ctx AFilter (Some t) pg ht sb e f ls cur (Some i) fl fo None b lf a mt 1) (ret (K (filter_values fl (h k)) a)) [3 * ht + 1; m2; m3; 1; lf; 0]
| d_bstart : forall ht t i p pg sb e f ls cur fl K m2 m3 v b lf a, acc_definitive a = false -> within ht t i p -> phase ht t i p ls sb e f cur fl K m2 m3 ->
    ls <> LCompacted ->
    den (Ctx ABtreeStart (Some t) pg ht sb e f ls cur (Some i) fl (filter_values fl (h k)) v b lf a mt 1)
        (ret (K (rest_of (filter_values fl (h k)) v) a)) [3 * ht + 1; m2; m3; 0; 4 * length (rest_of (filter_values fl (h k)) v) + 1; 0]
| d_bstart_c : forall ht t i p pg sb e f cur fl K m2 m3 b lf a, acc_definitive a = false -> within ht t i p -> phase ht t i p LCompacted sb e f cur fl K m2 m3 ->
    den (Ctx ABtreeStart (Some t) pg ht sb e f LCompacted cur (Some i) fl (filter_values fl (h k)) None b lf a mt 1)
        (ret (K (filter_values fl (h k)) a)) [3 * ht + 1; m2; m3; 0; 5; 0]
| d_btree : forall ht t i p pg sb e f ls cur fl K m2 m3 v b lf a, acc_definitive a = false -> within ht t i p -> phase ht t i p ls sb e f cur fl K m2 m3 ->
    ls <> LCompacted -> b = n_br (t_node t) (cadd M (start_of ls p cur) v) ->
    den (Ctx ABtree (Some t) pg ht sb e f ls cur (Some i) fl (filter_values fl (h k)) (Some v) b lf a mt 1)
        (ret (K (v :: rest_of (filter_values fl (h k)) (Some v)) a)) [3 * ht + 1; m2; m3; 0; 4 * length (rest_of (filter_values fl (h k)) (Some v)) + 3; lf]
| d_btree_c : forall ht t i p pg sb e f cur fl K m2 m3 v fo b lf a, acc_definitive a = false -> within ht t i p -> phase ht t i p LCompacted sb e f cur fl K m2 m3 ->
    fo <> [] -> b = n_br (t_node t) (sb_sbr cur) ->
    den (Ctx ABtree (Some t) pg ht sb e f LCompacted cur (Some i) fl fo v b lf a mt 1)
        (ret (K fo a)) [3 * ht + 1; m2; m3; 0; 3; lf]
| d_next : forall ht t i p pg sb e f ls cur fl K m2 m3 v b lf a, acc_definitive a = false -> within ht t i p -> phase ht t i p ls sb e f cur fl K m2 m3 ->
    ls <> LCompacted ->
    den (Ctx ANext (Some t) pg ht sb e f ls cur (Some i) fl (filter_values fl (h k)) (Some v) b lf a mt 1)
        (ret (K (rest_of (filter_values fl (h k)) (Some v)) a)) [3 * ht + 1; m2; m3; 0; 4 * length (rest_of (filter_values fl (h k)) (Some v)) + 2; 0]
| d_next_none : forall ht t i p pg sb e f ls cur fl K m2 m3 fo b lf a, acc_definitive a = false -> within ht t i p -> phase ht t i p ls sb e f cur fl K m2 m3 ->
    ls <> LCompacted ->
    den (Ctx ANext (Some t) pg ht sb e f ls cur (Some i) fl fo None b lf a mt 1) (ret (K [] a)) [3 * ht + 1; m2; m3; 0; 0; 0]
| d_next_c0 : forall ht t i p pg sb e f cur fl K m2 m3 v b lf a, acc_definitive a = false -> within ht t i p -> phase ht t i p LCompacted sb e f cur fl K m2 m3 ->
    den (Ctx ANext (Some t) pg ht sb e f LCompacted cur (Some i) fl [] v b lf a mt 1) (ret (K [] a)) [3 * ht + 1; m2; m3; 0; 0; 0]
| d_next_c1 : forall ht t i p j pg f cur fl v x fo b lf a, acc_definitive a = false -> within ht t i p -> j < nsubs (t_node t) p ->
    den (Ctx ANext (Some t) pg ht (csub MAX_SUBBUNDLES (n_esb (t_node t)) (j + 1)) (csub MAX_SUBBUNDLES (pivot_start_subbundle (t_node t) p) 1) f LCompacted cur (Some i) fl (x :: fo) v b lf a mt 1)
        (ret (in_subs ht t i p (S j) a)) [3 * ht + 1; 2 + (nsubs (t_node t) p - j); sb_filter_count (sub_no (t_node t) j) - f; 0; 2; 0]
| d_done : forall ht t i p pg sb e f ls cur fl fo v b lf a, acc_definitive a = false -> within ht t i p ->
    den (Ctx ADone (Some t) pg ht sb e f ls cur (Some i) fl fo v b lf a mt 1) (ret (after_node ht t i a)) [3 * ht + 1; 0; 0; 1; 0; 0]
| d_child : forall ht t i p pg sb e f ls cur fl fo v b lf a, acc_definitive a = false -> within (S ht) t i p ->
    den (Ctx AChild (Some t) pg (S ht) sb e f ls cur (Some i) fl fo v b lf a mt 1) (ret (after_node (S ht) t i a)) [3 * S ht + 1; 0; 0; 0; 0; 0]
| d_unget : forall ht t0 t lo hi hg sb e f ls cur piv fl fo v b lf a, acc_definitive a = false ->
    twf ht t lo hi -> kle lo (KUser k) -> klt (KUser k) hi -> fit ht t = true ->
    den (Ctx AUnget (Some t0) (Some t) hg sb e f ls cur piv fl fo v b lf a mt 2) (ret (below ht t a)) [3 * ht + 3; 0; 0; 0; 0; 0]
| d_early : forall nd pg hg sb e f ls cur piv fl fo v b lf a,
    den (Ctx AEarly nd pg hg sb e f ls cur piv fl fo v b lf a mt 0) (ret (stop a)) [0; 1; 0; 0; 0; 0]
| d_end : forall nd pg hg sb e f ls cur piv fl fo v b lf a,
    den (Ctx AEnd nd pg hg sb e f ls cur piv fl fo v b lf a mt 0) (ret (stop a)) [0; 0; 0; 0; 0; 0].

Lemma den_len : forall c r m, den c r m -> length m = 6.
Proof. intros c r m D. destruct D; reflexivity. Qed.

Definition step_ok (e : ev) (r : option (acc * nat * nat)) (m : list nat) (x : tres) : Prop :=
  match x with
  | Loop _ c' => exists m', den c' r m' /\ lexlt m' m
  | Retry c' => e = Busy /\ exists m', den c' r m' /\ (m' = m \/ lexlt m' m)
  | Wait c' => exists c'' m', callback st c' = Some c'' /\ den c'' r m' /\ lexlt m' m
  | Finished x => r = Some x
  | Dead => r = None
  end.

Lemma step_eq : forall c r r' m, den c r' m -> r' = r -> den c r m.
Proof. intros; subst; assumption. Qed.

Ltac red_ctx := cbv beta iota zeta delta [set_state set_node set_page set_height set_sb set_end set_fno set_ls set_cur set_pdata set_filter set_found set_value set_branch set_left set_acc set_mt set_refs
  c_state c_node c_page c_height c_sb c_end c_fno c_ls c_cur c_piv c_filter c_found c_value c_branch c_left c_acc c_mt c_refs step_ok].
Ltac lex := cbn [lexlt]; lia.

Lemma at_end : forall ht t i p j, within ht t i p -> j <= nsubs (t_node t) p ->
  (csub MAX_SUBBUNDLES (n_esb (t_node t)) (j + 1) =? csub MAX_SUBBUNDLES (pivot_start_subbundle (t_node t) p) 1) = (j =? nsubs (t_node t) p).
Proof.
  intros ht t i p j W Hj. rewrite (ring_end MAX_SUBBUNDLES (n_esb (t_node t)) _ (in_pss _ _ _ _ W) (in_esb _ _ _ _ W)).
  pose proof (in_few _ _ _ _ W). fold (nsubs (t_node t) p). apply ring_eqb; [apply (in_esb _ _ _ _ W) | lia | lia].
Qed.
Lemma next_pos : forall ht t i p j, within ht t i p -> j < nsubs (t_node t) p ->
  csub MAX_SUBBUNDLES (csub MAX_SUBBUNDLES (n_esb (t_node t)) (j + 1)) 1 = csub MAX_SUBBUNDLES (n_esb (t_node t)) (S j + 1).
Proof.
  intros ht t i p j W Hj. pose proof (in_few _ _ _ _ W). rewrite ring_step by lia. f_equal. lia.
Qed.

Lemma sub_step : forall e ht t i p j f pg ls cur fl fo v b lf a m, acc_definitive a = false -> within ht t i p -> j <= nsubs (t_node t) p ->
  f = 0 \/ (j < nsubs (t_node t) p /\ sb_compacted (sub_no (t_node t) j) = true /\ f < sb_filter_count (sub_no (t_node t) j)) ->
  lexlt [3 * ht + 1; 2 + (nsubs (t_node t) p - j); sb_filter_count (sub_no (t_node t) j) - f; 2; 0; 0] m ->
  lexlt [3 * ht + 1; 1; 0; 3; 0; 0] m ->
  step_ok e (ret (if f =? 0 then in_subs ht t i p j a else in_filters ht t i p j f a)) m
    (sub_turn (t_node t) (Ctx ASub (Some t) pg ht (csub MAX_SUBBUNDLES (n_esb (t_node t)) (j + 1))
       (csub MAX_SUBBUNDLES (pivot_start_subbundle (t_node t) p) 1) f ls cur (Some i) fl fo v b lf a mt 1)).
Proof.
  intros e ht t i p j f pg ls cur fl fo v b lf a m Ha W Hj Hf Hm Hm'. unfold sub_turn. cbn [c_sb c_end]. rewrite (at_end _ _ _ _ _ W Hj).
  destruct (Nat.eqb_spec j (nsubs (t_node t) p)) as [E|E].
  - assert (f = 0) by (destruct Hf as [|[L _]]; lia). subst f j. rewrite Nat.eqb_refl. cbn [step_ok]. eexists. split; [|exact Hm'].
    eapply step_eq; [eapply d_pivot; eauto|]. f_equal. symmetry. apply in_subs_end.
  - assert (L : j < nsubs (t_node t) p) by lia. pose proof (in_fit _ _ _ _ W j L) as F. unfold AsyncSpec.sub_fit in F.
    fold (sub_no (t_node t) j). cbv zeta. cbn [c_fno]. destruct (sb_compacted (sub_no (t_node t) j)) eqn:Ec.
    + apply andb_true_iff in F. destruct F as [F1 F2]. apply Nat.ltb_lt in F1.
      assert (Lf : f < sb_filter_count (sub_no (t_node t) j)) by (destruct Hf as [|(_ & _ & ?)]; lia).
      cbn [step_ok]. eexists. split; [|exact Hm]. eapply step_eq; [eapply d_fstart; [exact Ha | exact W | apply ph_com; auto]|]. f_equal.
      rewrite <- in_filters_next by exact Lf. destruct (Nat.eqb_spec f 0) as [->|]; auto. rewrite (in_subs_next _ _ _ _ _ _ L), Ec. reflexivity.
    + assert (f = 0) by (destruct Hf as [|(_ & Q & _)]; [assumption | congruence]). subst f. rewrite Nat.eqb_refl.
      cbn [step_ok]. eexists. split; [|rewrite Nat.sub_0_r in Hm; exact Hm]. eapply step_eq; [eapply d_fstart; [exact Ha | exact W | apply ph_sub; auto]|]. f_equal.
      rewrite (in_subs_next _ _ _ _ _ _ L), Ec. reflexivity.
Qed.

(** The values of a pivot or of an uncompacted subbundle *)
Lemma phase_cons : forall ht t i p ls sb e f cur fl K m2 m3 v r a, phase ht t i p ls sb e f cur fl K m2 m3 -> ls <> LCompacted ->
  K (v :: r) a = match lookup_and_merge cfg (n_br (t_node t) (cadd M (start_of ls p cur) v)) k a with
                 | None => None
                 | Some (a', fd) => if fd && acc_definitive a' then stop a' else K r a'
                 end.
Proof. intros ht t i p ls sb e f cur fl K m2 m3 v r a P N. destruct P; [apply values_cons | apply values_cons | congruence]. Qed.
Lemma phase_filter : forall ht t i p ls sb e f cur fl K m2 m3, within ht t i p -> phase ht t i p ls sb e f cur fl K m2 m3 ->
  fl = [] -> ls = LPivot.
Proof.
  intros ht t i p ls sb e f cur fl K m2 m3 W P. destruct P as [|j L E|j f L E Lf]; auto; intro Z; exfalso;
    pose proof (in_fit _ _ _ _ W j L) as F; unfold AsyncSpec.sub_fit in F; rewrite E in F; apply andb_true_iff in F; destruct F as [F1 F2].
  - rewrite Z in F1. discriminate.
  - rewrite forallb_forall in F2. specialize (F2 f ltac:(apply in_seq; lia)). rewrite Z in F2. discriminate.
Qed.
Lemma phase_bound : forall ht t i p sb e f cur fl K m2 m3 v, within ht t i p -> phase ht t i p LSub sb e f cur fl K m2 m3 ->
  In v (filter_values fl (h k)) -> sb_sbr cur + v < M.
Proof.
  intros ht t i p sb e f cur fl K m2 m3 v W P I. remember LSub as ls eqn:El. destruct P as [|j L E|j f L E Lf]; try discriminate.
  pose proof (in_fit _ _ _ _ W j L) as F. unfold AsyncSpec.sub_fit in F. rewrite E in F. apply andb_true_iff in F. destruct F as [_ F2].
  rewrite forallb_forall in F2. apply Nat.ltb_lt, F2, I.
Qed.
Lemma values_nil : forall hh, filter_values [] hh = [].
Proof. intro hh. unfold filter_values. cbn. reflexivity. Qed.

Lemma fstart_step : forall e ht t i p pg sb e0 f ls cur fl K m2 m3 fo v b lf a m, acc_definitive a = false -> within ht t i p ->
  phase ht t i p ls sb e0 f cur fl K m2 m3 -> lexlt [3 * ht + 1; m2; m3; 1; 2; 0] m ->
  step_ok e (ret (K (filter_values fl (h k)) a)) m
    (filter_start (Ctx AFilterStart (Some t) pg ht sb e0 f ls cur (Some i) fl fo v b lf a mt 1)).
Proof.
  intros e ht t i p pg sb e0 f ls cur fl K m2 m3 fo v b lf a m Ha W P Hm. unfold filter_start. cbv zeta. cbn [set_value c_filter c_ls].
  destruct fl as [|x fl].
  - pose proof (phase_filter _ _ _ _ _ _ _ _ _ _ _ _ _ W P eq_refl) as ->. exists [3 * ht + 1; m2; m3; 0; 0; 0]. split.
    + eapply step_eq; [eapply d_next_none; eauto; discriminate|]. rewrite values_nil. reflexivity.
    + destruct m as [|a1 [|a2 [|a3 [|a4 m]]]]; cbn [lexlt] in *; lia.
  - exists [3 * ht + 1; m2; m3; 1; 2; 0]. split; [|exact Hm]. eapply d_filter; eauto.
Qed.

Theorem den_step : forall e c r m, den c r m -> step_ok e r m (turn M cfg h bh st k e c).
Proof.
  intros e c r m D. destruct D.
  - (* ANode *)
    destruct (enter ht t lo hi ltac:(eassumption) ltac:(assumption) ltac:(assumption) ltac:(assumption)) as (i & p & W & E).
    unfold turn. cbn [c_state c_node]. unfold node_turn. rewrite (in_route _ _ _ _ W), (in_piv _ _ _ _ W), E, (in_height _ _ _ _ W).
    apply (sub_step e ht t i p 0 0); auto; [lia | lex | lex].
  - apply (sub_step e ht t i p j 0); auto; [rewrite Nat.sub_0_r; lex | lex].
  - pose proof (sub_step e ht t i p j f pg ls cur fl fo v b lf a [3 * ht + 1; 2 + (nsubs (t_node t) p - j); sb_filter_count (sub_no (t_node t) j) - f; 3; 0; 0]) as S.
    destruct (Nat.eqb_spec f 0) as [->|N].
    + cbn [Nat.eqb] in S. rewrite (in_subs_next _ _ _ _ _ _ H1), H2 in S. apply S; auto; [lia | lex | lex].
    + apply S; auto; [lia | lex | lex].
  - (* APivot *)
    unfold turn. cbn [c_state c_node c_piv]. rewrite (in_piv _ _ _ _ H0). apply (fstart_step e ht t i p) with (m2 := 1) (m3 := 0) (K := in_pivot ht t i p); auto; [apply ph_piv | lex].
  - unfold turn. cbn [c_state]. eapply fstart_step; eauto. lex.
  - (* AFilter *)
    unfold turn. cbn [c_state c_left]. destruct lf as [|lf].
    + red_ctx. destruct ls.
      * eexists; split; [eapply step_eq; [eapply d_bstart; eauto; discriminate | reflexivity] | lex].
      * eexists; split; [eapply step_eq; [eapply d_bstart; eauto; discriminate | reflexivity] | lex].
      * eexists; split; [eapply step_eq; [eapply d_bstart_c; eauto | reflexivity] | lex].
    + destruct e; cbn [get_nested]; red_ctx.
      * eexists. split; [eapply d_filter; eauto|]. lex.
      * split; auto. eexists. split; [eapply d_filter; eauto | left; reflexivity].
      * do 2 eexists. split; [reflexivity|]. red_ctx. split; [eapply d_filter; eauto|]. lex.
  - (* ABtreeStart, with values *)
    unfold turn. cbn [c_state c_node c_piv]. rewrite (in_piv _ _ _ _ H0). unfold btree_start.
    pose proof (values_desc fl (h k)) as Sd. set (vs := filter_values fl (h k)) in *.
    destruct ls; [| |congruence]; red_ctx; rewrite next_rest; destruct (rest_of vs v) as [|x q] eqn:Er; cbn [hd_error]; red_ctx.
    + eexists; split; [eapply d_next_none; eauto | cbn [length]; lex].
    + eexists; split; [eapply step_eq; [eapply d_btree with (K := K); eauto; reflexivity | fold vs; rewrite (rest_cons _ _ _ _ Sd Er); reflexivity] |].
      fold vs. rewrite (rest_cons _ _ _ _ Sd Er). cbn [length]. lex.
    + eexists; split; [eapply d_next_none; eauto | cbn [length]; lex].
    + assert (Lx : sb_sbr cur + x < M).
      { eapply phase_bound; eauto. fold vs. apply (rest_in vs v). rewrite Er. left. reflexivity. }
      rewrite (proj2 (Nat.ltb_lt _ _) Lx). red_ctx.
      eexists; split; [eapply step_eq; [eapply d_btree with (K := K); eauto |] |].
      * cbn [start_of]. f_equal. Transparent cadd. unfold cadd. Opaque cadd. symmetry. apply Nat.mod_small. exact Lx.
      * fold vs. rewrite (rest_cons _ _ _ _ Sd Er). reflexivity.
      * fold vs. rewrite (rest_cons _ _ _ _ Sd Er). cbn [length]. lex.
  - (* ABtreeStart of a compacted subbundle *)
    unfold turn. cbn [c_state c_node c_piv]. rewrite (in_piv _ _ _ _ H0). unfold btree_start. red_ctx.
    destruct (filter_values fl (h k)) as [|x q] eqn:Ev; red_ctx.
    + eexists; split; [eapply d_next_c0; eauto | lex].
    + eexists; split; [eapply d_btree_c; eauto; discriminate | lex].
  - (* ABtree, with values *)
    unfold turn. cbn [c_state c_left]. destruct lf as [|lf].
    + unfold btree_done. red_ctx. rewrite (phase_cons _ _ _ _ _ _ _ _ _ _ _ _ _ v _ a H1 H2), <- H3.
      destruct (lookup_and_merge cfg b k a) as [[a' fd]|] eqn:El; [|reflexivity].
      rewrite (branch_stop _ _ _ _ H El). red_ctx. destruct (acc_definitive a') eqn:Ed; red_ctx.
      * eexists; split; [eapply d_early | lex].
      * eexists; split; [eapply d_next; eauto | lex].
    + destruct e; cbn [get_nested]; red_ctx.
      * eexists. split; [eapply d_btree; eauto|]. lex.
      * split; auto. eexists. split; [eapply d_btree; eauto | left; reflexivity].
      * do 2 eexists. split; [reflexivity|]. red_ctx. split; [eapply d_btree; eauto|]. lex.
  - (* ABtree of a compacted subbundle *)
    unfold turn. cbn [c_state c_left]. destruct lf as [|lf].
    + unfold btree_done. red_ctx. remember LCompacted as ls eqn:Els. destruct H1 as [|j L E|j f L E Lf]; try discriminate. clear Els.
      destruct fo as [|x fo]; [congruence|]. cbn [in_compacted]. rewrite <- H3.
      destruct (lookup_and_merge cfg b k a) as [[a' fd]|] eqn:El; [|reflexivity].
      rewrite (branch_stop _ _ _ _ H El). red_ctx. destruct (acc_definitive a') eqn:Ed; cbn [negb andthen]; red_ctx.
      * eexists; split; [eapply d_early | lex].
      * eexists; split; [eapply d_next_c1; eauto | lex].
    + destruct e; cbn [get_nested]; red_ctx.
      * eexists. split; [eapply d_btree_c; eauto|]. lex.
      * split; auto. eexists. split; [eapply d_btree_c; eauto | left; reflexivity].
      * do 2 eexists. split; [reflexivity|]. red_ctx. split; [eapply d_btree_c; eauto|]. lex.
  - (* ANext after a branch *)
    unfold turn, next_turn. red_ctx. destruct ls; [| |congruence]; red_ctx.
    + eexists; split; [eapply d_bstart; eauto | lex].
    + eexists; split; [eapply d_bstart; eauto | lex].
  - (* ANext after the last value *)
    unfold turn, next_turn. red_ctx. destruct H1 as [|j L E|]; [| |congruence]; red_ctx.
    + eexists; split; [eapply d_done; eauto | lex].
    + rewrite (next_pos _ _ _ _ _ H0 L). eexists; split; [eapply step_eq; [eapply (d_sub ht t i p (S j)); auto|reflexivity] | lex].
  - (* ANext, nothing found by this filter of a compacted subbundle *)
    unfold turn, next_turn. red_ctx. remember LCompacted as ls eqn:Els. destruct H1 as [|j L E|j f L E Lf]; try discriminate. clear Els.
    cbn [in_compacted]. destruct (Nat.leb_spec (sb_filter_count (sub_no (t_node t) j)) (S f)) as [Q|Q]; red_ctx.
    + rewrite (next_pos _ _ _ _ _ H0 L), in_filters_end by exact Q. eexists; split; [eapply (d_sub ht t i p (S j)); auto | lex].
    + eexists; split; [eapply (d_subf ht t i p j (S f)); auto | lex].
  - (* ANext, the compacted subbundle is done *)
    unfold turn, next_turn. red_ctx. rewrite (next_pos _ _ _ _ _ H0 H1). eexists; split; [eapply (d_sub ht t i p (S j)); auto | lex].
  - (* ADone *)
    unfold turn, done_turn. red_ctx. destruct ht as [|ht]; cbn [Nat.eqb]; red_ctx.
    + cbn [after_node]. unfold fin, finish. destruct a as [m|]; red_ctx.
      * cbn [acc_definitive] in H. assert (Ec : m_class m <> MInsert) by (unfold is_definitive in H; destruct (m_class m); congruence).
        assert (G : step_ok e (ret (match data_merge_tuples_final cfg k m with Some m' => stop (Some m') | None => None end)) [3 * 0 + 1; 0; 0; 1; 0; 0]
          (match data_merge_tuples_final cfg k m with Some m' => Loop false (Ctx AEnd None pg 0 sb e0 f ls cur (Some i) fl fo v b lf (Some m') mt 0) | None => Dead end)).
        { destruct (data_merge_tuples_final cfg k m) as [m'|]; [|reflexivity]. cbn [step_ok]. eexists; split; [eapply d_end | lex]. }
        assert (G2 : forall (x : option message), match match x with Some m' => Some (Some m') | None => None end with Some (Some m') => match m_class m' with MDelete => Some None | _ => Some (Some m') end | Some None => Some None | None => None end =
          match x with Some m' => stop (Some m') | None => None end) by (intros [m'|]; reflexivity).
        rewrite G2. destruct (m_class m); try congruence; exact G.
      * eexists; split; [eapply d_end | lex].
    + eexists; split; [eapply d_child; eauto | lex].
  - (* AChild *)
    destruct (in_kid _ _ _ _ H0) as (c & lo & hi & Ec & Tc & Hl & Hh & Fc).
    unfold turn. red_ctx. unfold child_of. red_ctx. rewrite Ec. cbn [after_node]. rewrite Ec. destruct e; cbn [get_trunk]; red_ctx.
    + eexists; split; [eapply d_unget; eauto | lex].
    + split; auto. eexists; split; [eapply step_eq; [eapply d_child; eauto|] | left; reflexivity]. cbn [after_node]. rewrite Ec. reflexivity.
    + do 2 eexists. unfold callback, child_of. red_ctx. rewrite Ec. split; [reflexivity|]. red_ctx. split; [eapply d_unget; eauto | lex].
  - (* AUnget *)
    unfold turn. red_ctx. eexists; split; [eapply d_node; eauto | lex].
  - unfold turn. red_ctx. eexists; split; [eapply d_end | lex].
  - unfold turn, end_turn. red_ctx. unfold stop, finish. destruct a as [m|]; [destruct (m_class m)|]; reflexivity.
Qed.
End Machine.

(** ** The memtables and the root *)

Section Root.
Variables (M mp : nat) (cfg : data_config) (h : bytes -> N) (bh : branch -> nat) (st : state) (k : bytes).
Hypothesis TO : total_order (key_compare cfg).

Lemma mts_go : forall l a a', acc_definitive a = false -> mts_lookup cfg l k a = Some (a', true) -> acc_definitive a' = false.
Proof.
  induction l as [|b l IH]; intros a a' Ha H; cbn [mts_lookup] in H; [injection H as <-; exact Ha|].
  destruct (lookup_and_merge cfg b k a) as [[a1 fd]|]; [|discriminate]. destruct (acc_definitive a1) eqn:E; [discriminate|]. eapply IH; eauto.
Qed.

(** The lookup of the memtables done again for each of the [n] times that the root
    was not to be had, into the same accumulator *)
Fixpoint again (n i : nat) (a : acc) : option (acc * nat * nat) :=
  match mts_lookup cfg (st_mts st) k a with
  | None => None
  | Some (a', false) => ret i (stop cfg k a')
  | Some (a', true) =>
      match n with
      | O => ret i (below M cfg h k (height_of st) (st_tree st) a')
      | S n' => again n' (S i) a'
      end
  end.

Hypothesis T : TrunkShape.twf M mp cfg (height_of st) (st_tree st) KNegInf KPosInf.
Hypothesis F : AsyncSpec.fit M cfg h k (height_of st) (st_tree st) = true.
Local Notation drive1 := (drive (turn M cfg h bh st k) (callback st)).

Lemma early_drive : forall fuel o i mt nd pg hg sb e f ls cur piv fl fo v b lf a x,
  drive1 fuel o i (Ctx AEarly nd pg hg sb e f ls cur piv fl fo v b lf a mt 0) = Some x -> x = ret mt (stop cfg k a).
Proof.
  intros. eapply (drive_only _ _ (den M mp cfg h k mt)); [|apply d_early|eassumption].
  intros e' c r m D. apply (den_step M mp cfg h bh st k mt TO e' c r m D).
Qed.

Lemma mem_drive : forall n i0 i o nd pg hg sb e f ls cur piv fl fo v b lf a, acc_definitive a = false ->
  (forall j, j < n -> o (i0 + j) = Busy) -> o (i0 + n) = Got ->
  let c := Ctx AMem nd pg hg sb e f ls cur piv fl fo v b lf a i 0 in
  (forall fuel x, drive1 fuel o i0 c = Some x -> x = again n i a) /\
  (fair o -> exists fuel, drive1 fuel o i0 c = Some (again n i a)).
Proof.
  induction n as [|n IH]; intros i0 i o nd pg hg sb e f ls cur piv fl fo v b lf a Ha Hb Hg c.
  - rewrite Nat.add_0_r in Hg. cbn [again].
    assert (G : forall fuel, drive1 (S fuel) o i0 c =
      match mts_lookup cfg (st_mts st) k a with
      | None => Some None
      | Some (a', false) => drive1 fuel o i0 (Ctx AEarly nd pg hg sb e f ls cur piv fl fo v b lf a' i 0)
      | Some (a', true) => drive1 fuel o (S i0) (Ctx ANode (Some (st_tree st)) (Some (st_tree st)) hg sb e f ls cur piv fl fo v b lf a' i 1)
      end).
    { intro fuel. cbn [drive]. rewrite Hg. unfold c, turn, mem_turn, root_turn. cbv beta iota zeta delta [c_state set_mt c_mt c_acc set_acc get_trunk set_state set_refs set_page set_node c_node c_page c_height c_sb c_end c_fno c_ls c_cur c_piv c_filter c_found c_value c_branch c_left c_refs].
      destruct (mts_lookup cfg (st_mts st) k a) as [[a' []]|]; rewrite ?Nat.sub_succ, ?Nat.sub_0_r; reflexivity. }
    destruct (mts_lookup cfg (st_mts st) k a) as [[a' []]|] eqn:El.
    + pose proof (mts_go _ _ _ Ha El) as Ha'.
      assert (D : forall hg sb e f ls cur piv fl fo v b lf, den M mp cfg h k i (Ctx ANode (Some (st_tree st)) (Some (st_tree st)) hg sb e f ls cur piv fl fo v b lf a' i 1)
         (ret i (below M cfg h k (height_of st) (st_tree st) a')) [3 * height_of st + 2; 0; 0; 0; 0; 0]).
      { intros. eapply d_node; eauto. - unfold TrunkKeys.kle. cbn. lia. - apply klt_pos_inf. }
      split.
      * intros [|fuel] x H; [discriminate|]. rewrite G in H. eapply (drive_only _ _ (den M mp cfg h k i)); [|apply D|eassumption].
        intros e' c' r m D'. apply (den_step M mp cfg h bh st k i TO e' c' r m D').
      * intro Fo. destruct (drive_ends (turn M cfg h bh st k) (callback st) (den M mp cfg h k i) 6 (den_len M mp cfg h k i) (fun e' c' r m D' => den_step M mp cfg h bh st k i TO e' c' r m D') o Fo _ (S i0) _ _ (D hg sb e f ls cur piv fl fo v b lf)) as [fuel E].
        exists (S fuel). rewrite G. exact E.
    + split.
      * intros [|fuel] x H; [discriminate|]. rewrite G in H. eapply early_drive; eauto.
      * intro Fo. exists 3. rewrite G. cbn. unfold stop, finish. destruct a' as [m|]; [destruct (m_class m)|]; reflexivity.
    + split; [intros [|fuel] x H; [discriminate|]; rewrite G in H; congruence | intro; exists 1; rewrite G; reflexivity].
  - assert (H0 : o i0 = Busy) by (rewrite <- (Nat.add_0_r i0); apply Hb; lia). cbn [again].
    assert (G : forall fuel, drive1 (S fuel) o i0 c =
      match mts_lookup cfg (st_mts st) k a with
      | None => Some None
      | Some (a', false) => drive1 fuel o i0 (Ctx AEarly nd pg hg sb e f ls cur piv fl fo v b lf a' i 0)
      | Some (a', true) => drive1 fuel o (S i0) (Ctx AMem nd pg hg sb e f ls cur piv fl fo v b lf a' (S i) 0)
      end).
    { intro fuel. cbn [drive]. rewrite H0. unfold c, turn, mem_turn, root_turn. cbv beta iota zeta delta [c_state set_mt c_mt c_acc set_acc get_trunk set_state set_refs set_page set_node c_node c_page c_height c_sb c_end c_fno c_ls c_cur c_piv c_filter c_found c_value c_branch c_left c_refs].
      destruct (mts_lookup cfg (st_mts st) k a) as [[a' []]|]; rewrite ?Nat.sub_succ, ?Nat.sub_0_r; reflexivity. }
    destruct (mts_lookup cfg (st_mts st) k a) as [[a' []]|] eqn:El.
    + pose proof (mts_go _ _ _ Ha El) as Ha'.
      destruct (IH (S i0) (S i) o nd pg hg sb e f ls cur piv fl fo v b lf a' Ha') as [I1 I2].
      { intros j Hj. rewrite <- (Hb (S j)) by lia. f_equal. lia. }
      { rewrite <- Hg. f_equal. lia. }
      split.
      * intros [|fuel] x H; [discriminate|]. rewrite G in H. eapply I1; eauto.
      * intro Fo. destruct (I2 Fo) as [fuel E]. exists (S fuel). rewrite G. exact E.
    + split.
      * intros [|fuel] x H; [discriminate|]. rewrite G in H. eapply early_drive; eauto.
      * intro Fo. exists 3. rewrite G. cbn. unfold stop, finish. destruct a' as [m|]; [destruct (m_class m)|]; reflexivity.
    + split; [intros [|fuel] x H; [discriminate|]; rewrite G in H; congruence | intro; exists 1; rewrite G; reflexivity].
Qed.

Lemma start_same : forall a0 fuel o, lookup_async M cfg h bh st k a0 fuel o =
  drive1 fuel o 0 (Ctx AMem None None 0 0 0 0 LPivot (SB false 0 0 0 0) None [] [] None [] 0 None 0 0).
Proof. intros a0 [|fuel] o; reflexivity. Qed.

Theorem async_root : forall n a0 o, (forall j, j < n -> o j = Busy) -> o n = Got ->
  (forall fuel x, lookup_async M cfg h bh st k a0 fuel o = Some x -> x = again n 0 None) /\
  (fair o -> exists fuel, lookup_async M cfg h bh st k a0 fuel o = Some (again n 0 None)).
Proof.
  intros n a0 o Hb Hg. pose proof (mem_drive n 0 0 o None None 0 0 0 0 LPivot (SB false 0 0 0 0) None [] [] None [] 0 None eq_refl Hb Hg) as [H1 H2].
  split.
  - intros fuel x H. rewrite start_same in H. eapply H1; eauto.
  - intro Fo. destruct (H2 Fo) as [fuel E]. exists fuel. rewrite start_same. exact E.
Qed.

Theorem again_once : again 0 0 None = option_map (fun a => (a, 0, 0)) (lookup M cfg h st k).
Proof.
  cbn [again]. unfold lookup, ret, below, stop. destruct (mts_lookup cfg (st_mts st) k None) as [[a' []]|]; reflexivity.
Qed.

(** The key is in no memtable *)
Lemma mts_absent : forall l, Forall (fun b => find_tuple cfg b k = None) l -> forall a, acc_definitive a = false -> mts_lookup cfg l k a = Some (a, true).
Proof.
  intros l H. induction H as [|b l H Hl IH]; intros a Ha; cbn [mts_lookup]; auto. unfold lookup_and_merge. rewrite H, Ha. apply IH, Ha.
Qed.
Theorem again_absent : Forall (fun b => find_tuple cfg b k = None) (st_mts st) -> forall n i,
  again n i None = option_map (fun a => (a, n + i, 0)) (lookup M cfg h st k).
Proof.
  intros H n. induction n as [|n IH]; intro i; cbn [again]; rewrite (mts_absent _ H None eq_refl).
  - unfold lookup. rewrite (mts_absent _ H None eq_refl). reflexivity.
  - rewrite IH. f_equal. replace (n + S i) with (S n + i) by lia. reflexivity.
Qed.
End Root.

(** The root is read from disk *)
Theorem root_io_dead : forall M cfg h bh st k n a0 o, Forall (fun b => find_tuple cfg b k = None) (st_mts st) ->
  (forall j, j < n -> o j = Busy) -> o n = Started -> forall fuel, lookup_async M cfg h bh st k a0 (S (S n) + fuel) o = Some None.
Proof.
  intros M cfg h bh st k n a0 o H Hb Hg fuel. rewrite start_same.
  assert (G : forall n i0 i, (forall j, j < n -> o (i0 + j) = Busy) -> o (i0 + n) = Started ->
    drive (turn M cfg h bh st k) (callback st) (S (S n) + fuel) o i0 (Ctx AMem None None 0 0 0 0 LPivot (SB false 0 0 0 0) None [] [] None [] 0 None i 0) = Some None).
  { clear n Hb Hg. induction n as [|n IH]; intros i0 i Hb Hg.
    - rewrite Nat.add_0_r in Hg. cbn [Nat.add drive]. rewrite Hg. unfold turn at 1, mem_turn, root_turn. cbn [c_state c_acc c_mt set_mt set_acc]. rewrite (mts_absent cfg k _ H None eq_refl). reflexivity.
    - assert (E0 : o i0 = Busy) by (rewrite <- (Nat.add_0_r i0); apply Hb; lia).
      change (S (S (S n)) + fuel) with (S (S (S n) + fuel)). cbn [drive]. rewrite E0. unfold turn at 1, mem_turn, root_turn. cbn [c_state c_acc c_mt set_mt set_acc]. rewrite (mts_absent cfg k _ H None eq_refl).
      apply (IH (S i0) (S i)); [intros j Hj; rewrite <- (Hb (S j)) by lia; f_equal; lia | rewrite <- Hg; f_equal; lia]. }
  apply (G n 0 0); [exact Hb | exact Hg].
Qed.
