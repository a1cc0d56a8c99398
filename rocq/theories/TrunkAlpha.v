(** * Reading the lists back out of a trunk node

    A node represents at most one abstract node, and it can be computed. *)

From Coq Require Import List Arith NArith ZArith Lia Bool.
From Verif Require Import Base TrunkNode TrunkRing TrunkRep TrunkReset TrunkFlush TrunkClear.
Import ListNotations.

Definition alpha_sub (M : nat) (n : node) (s : subbundle) : asub :=
  AS (sb_compacted s) (map (n_br n) (cwalk M (sb_sbr s) (sb_ebr s))) (map (sb_filter n s) (seq 0 (sb_filter_count s))).
Definition alpha_bundle (M : nat) (n : node) (b : bundle) : list asub :=
  map (fun i => alpha_sub M n (n_sb n i)) (cwalk MAX_SUBBUNDLES (bn_ssb b) (bn_esb b)).
Definition alpha_piv (M : nat) (n : node) (p : pivot) : apiv :=
  AP (pv_key p) (pv_gen p) (csub M (pv_sbr p) (n_sbr n)) (csub MAX_BUNDLES (pv_sbn p) (n_sbn n)) (pv_filt p).
Definition alpha (M : nat) (n : node) : anode :=
  AN (map (n_br n) (cwalk M (n_sbr n) (n_sfrac n)))
     (map (fun i => alpha_bundle M n (n_bn n i)) (cwalk MAX_BUNDLES (n_sbn n) (n_ebn n)))
     (map (alpha_piv M n) (children_pivots n)) (max_key n).

Lemma map_seq_eq : forall {A} (f : nat -> A) l a, (forall i x, nth_error l i = Some x -> f (a + i) = x) ->
  map f (seq a (length l)) = l.
Proof.
  intros A f l. induction l as [|x r IH]; intros a H; simpl; auto. f_equal.
  - specialize (H 0 x eq_refl). rewrite Nat.add_0_r in H. exact H.
  - apply IH. intros i y E. specialize (H (S i) y E). rewrite <- Nat.add_succ_comm in H. exact H.
Qed.

Lemma alpha_sub_eq : forall M n A x s y, rep M n A -> aok M A -> subs A = x ++ s :: y ->
  alpha_sub M n (n_sb n (cadd MAX_SUBBUNDLES (n_ssb n) (length x))) = s.
Proof.
  intros M n A x s y R K E. unfold alpha_sub.
  destruct (sub_filters M n A x s y _ R K E eq_refl) as [F1 F2]. rewrite F1, F2.
  rewrite (sub_entry _ _ _ _ _ _ R E). cbn [sb_compacted sb_sbr sb_ebr]. rewrite (sub_branches _ _ _ _ _ _ R K E).
  destruct s. reflexivity.
Qed.

Lemma alpha_bundle_eq : forall M n A X b Y, rep M n A -> aok M A -> an_bns A = X ++ b :: Y ->
  alpha_bundle M n (n_bn n (cadd MAX_BUNDLES (n_sbn n) (length X))) = b.
Proof.
  intros M n A X b Y R K E. unfold alpha_bundle. rewrite (bundle_entry _ _ _ _ _ _ R E). cbn [bn_ssb bn_esb].
  pose proof (bounds _ _ _ _ _ K E) as B. rewrite cwalk_cadd by (auto; lia). rewrite map_map.
  replace (length (concat X) + length b - length (concat X)) with (length b) by lia.
  apply map_seq_eq. intros i s Es. destruct (nth_error_split _ _ Es) as (x & y & Eb & Lx). subst i.
  rewrite <- app_length. apply (alpha_sub_eq M n A _ s (y ++ concat Y)); auto.
  unfold subs. rewrite E, concat_app. simpl. rewrite Eb, <- !app_assoc. reflexivity.
Qed.

Theorem alpha_eq : forall M n A, rep M n A -> aok M A -> alpha M n = A.
Proof.
  intros M n A R K. pose proof (r_sbr _ _ _ R) as R0. assert (Mp : 0 < M) by lia.
  pose proof (ok_brs _ _ K) as K1. pose proof (ok_bns _ _ K) as K2. unfold brs in K1. rewrite app_length in K1.
  destruct (r_piv _ _ _ R) as (ps & last & Ep & El & F).
  destruct (children_pivots_eq _ _ _ Ep) as [C1 C2].
  unfold alpha. rewrite C1. destruct A as [W B P H]. cbn [an_whole an_bns an_piv an_hi] in *. f_equal.
  - rewrite (r_sfrac _ _ _ R). cbn [an_whole]. rewrite <- (cadd_0 M (n_sbr n) R0) at 1.
    rewrite (ring_walk M (n_br n) (n_sbr n) (brs (AN W B P H)) 0 (length W)) by (try apply (r_br _ _ _ R); try lia; unfold brs; cbn [an_whole]; rewrite app_length; lia).
    rewrite Nat.sub_0_r. unfold brs. cbn [an_whole skipn]. apply firstn_app_exact.
  - rewrite (r_ebn _ _ _ R). cbn [an_bns]. rewrite <- (cadd_0 MAX_BUNDLES (n_sbn n) (r_sbn _ _ _ R)) at 1.
    rewrite cwalk_cadd by (auto; lia). rewrite map_map, Nat.sub_0_r. apply map_seq_eq. intros i b Eb.
    destruct (nth_error_split _ _ Eb) as (X & Y & E & Lx). subst i. simpl.
    apply (alpha_bundle_eq M n (AN W B P H) X b Y); auto.
  - pose proof (ok_piv _ _ K) as Q. cbn [an_piv] in Q. clear - F Q Mp R K R0.
    assert (Hb : forall a, off_ok (AN W B P H) (ap_off a) (ap_boff a) -> ap_off a < M /\ ap_boff a < MAX_BUNDLES).
    { intros a O. apply off_ok_le in O. pose proof (ok_brs _ _ K). pose proof (ok_bns _ _ K). lia. }
    pose proof (r_sbn _ _ _ R) as R1.
    clear R K. induction F as [|p a ps P' (Q1 & Q2 & Q3 & Q4 & Q5) F IH]; auto. simpl. inversion Q; subst.
    rewrite IH by assumption. f_equal. unfold alpha_piv. rewrite Q1, Q2, Q3, Q4, Q5.
    apply Hb in H2. rewrite !csub_base by (auto; lia). destruct a. reflexivity.
  - unfold max_key, pivot_key, get_pivot. rewrite C2, Ep, nth_error_app2, Nat.sub_diag by lia. exact El.
Qed.

Lemma rep_alpha : forall M n A, rep M n A -> aok M A -> rep M n (alpha M n) /\ aok M (alpha M n).
Proof. intros M n A R K. rewrite (alpha_eq _ _ _ R K). auto. Qed.
