(** * What a trunk node holds: lists in place of circular arrays

    [rep M n A]: the arrays and numbers of the node [n] hold the whole branches,
    the bundles of subbundles and the pivots of the abstract node [A]. *)

From Coq Require Import List Arith NArith Lia Bool.
From Verif Require Import Base TrunkNode TrunkRing.
Import ListNotations.

Lemma B0 : 0 < MAX_BUNDLES. Proof. unfold MAX_BUNDLES. lia. Qed.
Lemma S0 : 0 < MAX_SUBBUNDLES. Proof. unfold MAX_SUBBUNDLES. lia. Qed.
Lemma F0 : 0 < MAX_SB_FILTERS. Proof. unfold MAX_SB_FILTERS. lia. Qed.
Lemma SF : MAX_SUBBUNDLES = MAX_SB_FILTERS. Proof. reflexivity. Qed.
Global Opaque cadd csub MAX_BUNDLES MAX_SUBBUNDLES MAX_SB_FILTERS.
#[global] Hint Resolve B0 S0 F0 cadd_lt : core.

Record asub := AS { as_comp : bool; as_brs : list branch; as_fls : list filt }.
(** A pivot: its first live branch and bundle, counted from those of the node *)
Record apiv := AP { ap_key : key; ap_gen : nat; ap_off : nat; ap_boff : nat; ap_filt : filt }.
Record anode := AN { an_whole : list branch; an_bns : list (list asub); an_piv : list apiv; an_hi : key }.

Definition brs_of (l : list asub) : list branch := flat_map as_brs l.
Definition fls_of (l : list asub) : list filt := flat_map as_fls l.
Definition nbr (l : list asub) : nat := length (brs_of l).
Definition nfl (l : list asub) : nat := length (fls_of l).
Definition subs (A : anode) : list asub := concat (an_bns A).
Definition brs (A : anode) : list branch := an_whole A ++ brs_of (subs A).
Definition fls (A : anode) : list filt := fls_of (subs A).

Lemma brs_of_app : forall x y, brs_of (x ++ y) = brs_of x ++ brs_of y.
Proof. intros. unfold brs_of. apply flat_map_app. Qed.
Lemma fls_of_app : forall x y, fls_of (x ++ y) = fls_of x ++ fls_of y.
Proof. intros. unfold fls_of. apply flat_map_app. Qed.
Lemma nbr_app : forall x y, nbr (x ++ y) = nbr x + nbr y.
Proof. intros. unfold nbr. rewrite brs_of_app, app_length. reflexivity. Qed.
Lemma nfl_app : forall x y, nfl (x ++ y) = nfl x + nfl y.
Proof. intros. unfold nfl. rewrite fls_of_app, app_length. reflexivity. Qed.
Lemma nbr_cons : forall s r, nbr (s :: r) = length (as_brs s) + nbr r.
Proof. intros. unfold nbr, brs_of. simpl. apply app_length. Qed.
Lemma nfl_cons : forall s r, nfl (s :: r) = length (as_fls s) + nfl r.
Proof. intros. unfold nfl, fls_of. simpl. apply app_length. Qed.
Lemma nbr_nil : nbr [] = 0. Proof. reflexivity. Qed.
Lemma nfl_nil : nfl [] = 0. Proof. reflexivity. Qed.

(** The subbundle and bundle entries for a list, [b] branches, [f] filters and
    [j] subbundles after the start *)
Fixpoint sub_entries (M sbr sfl b f : nat) (l : list asub) : list subbundle :=
  match l with
  | [] => []
  | s :: r =>
      SB (as_comp s) (cadd M sbr b) (cadd M sbr (b + length (as_brs s)))
         (cadd MAX_SB_FILTERS sfl f) (cadd MAX_SB_FILTERS sfl (f + length (as_fls s)))
      :: sub_entries M sbr sfl (b + length (as_brs s)) (f + length (as_fls s)) r
  end.
Fixpoint bn_entries (ssb j : nat) (l : list (list asub)) : list bundle :=
  match l with
  | [] => []
  | b :: r => BN (cadd MAX_SUBBUNDLES ssb j) (cadd MAX_SUBBUNDLES ssb (j + length b))
              :: bn_entries ssb (j + length b) r
  end.

Lemma sub_entries_length : forall M sbr sfl l b f, length (sub_entries M sbr sfl b f l) = length l.
Proof. intros M sbr sfl l. induction l; intros; simpl; auto. Qed.
Lemma bn_entries_length : forall ssb l j, length (bn_entries ssb j l) = length l.
Proof. intros ssb l. induction l; intros; simpl; auto. Qed.

Lemma sub_entries_app : forall M sbr sfl x y b f,
  sub_entries M sbr sfl b f (x ++ y) = sub_entries M sbr sfl b f x ++ sub_entries M sbr sfl (b + nbr x) (f + nfl x) y.
Proof.
  intros M sbr sfl x. induction x as [|s r IH]; intros y b f; simpl.
  - rewrite nbr_nil, nfl_nil, !Nat.add_0_r. reflexivity.
  - rewrite IH, nbr_cons, nfl_cons, !Nat.add_assoc. reflexivity.
Qed.
Lemma bn_entries_app : forall ssb x y j,
  bn_entries ssb j (x ++ y) = bn_entries ssb j x ++ bn_entries ssb (j + length (concat x)) y.
Proof.
  intros ssb x. induction x as [|s r IH]; intros y j; simpl.
  - rewrite Nat.add_0_r. reflexivity.
  - rewrite IH, !app_length, !Nat.add_assoc. reflexivity.
Qed.

Lemma sub_entries_base : forall M sbr sfl k h l b f, 0 < M ->
  sub_entries M (cadd M sbr k) (cadd MAX_SB_FILTERS sfl h) b f l = sub_entries M sbr sfl (k + b) (h + f) l.
Proof.
  intros M sbr sfl k h l. induction l as [|s r IH]; intros b f H; simpl; auto.
  rewrite !cadd_cadd by auto. rewrite IH by auto. rewrite !Nat.add_assoc. reflexivity.
Qed.
Lemma bn_entries_base : forall ssb k l j, bn_entries (cadd MAX_SUBBUNDLES ssb k) j l = bn_entries ssb (k + j) l.
Proof.
  intros ssb k l. induction l as [|s r IH]; intros j; simpl; auto.
  rewrite !cadd_cadd by auto. rewrite IH. rewrite !Nat.add_assoc. reflexivity.
Qed.

(** A pivot is at the start of a whole branch or of a bundle *)
Definition off_ok (A : anode) (o bo : nat) : Prop :=
  (bo = 0 /\ o <= length (an_whole A)) \/
  (0 < bo /\ bo <= length (an_bns A) /\ o = length (an_whole A) + nbr (concat (firstn bo (an_bns A)))).
Definition piv_rep (M : nat) (n : node) (p : pivot) (a : apiv) : Prop :=
  pv_key p = ap_key a /\ pv_gen p = ap_gen a /\ pv_filt p = ap_filt a /\
  pv_sbr p = cadd M (n_sbr n) (ap_off a) /\ pv_sbn p = cadd MAX_BUNDLES (n_sbn n) (ap_boff a).

Record aok (M : nat) (A : anode) : Prop := {
  ok_brs : length (brs A) < M;
  ok_bns : length (an_bns A) < MAX_BUNDLES;
  ok_subs : length (subs A) < MAX_SUBBUNDLES;
  ok_fls : length (fls A) < MAX_SB_FILTERS;
  ok_nonempty : Forall (fun b => b <> []) (an_bns A);
  ok_sub_nonempty : Forall (fun s => as_brs s <> []) (subs A);
  ok_piv : Forall (fun p => off_ok A (ap_off p) (ap_boff p)) (an_piv A);
  ok_children : an_piv A <> []
}.

Record rep (M : nat) (n : node) (A : anode) : Prop := {
  r_sbr : n_sbr n < M;
  r_sbn : n_sbn n < MAX_BUNDLES;
  r_ssb : n_ssb n < MAX_SUBBUNDLES;
  r_sfl : n_sfl n < MAX_SB_FILTERS;
  r_sfrac : n_sfrac n = cadd M (n_sbr n) (length (an_whole A));
  r_ebr : n_ebr n = cadd M (n_sbr n) (length (brs A));
  r_ebn : n_ebn n = cadd MAX_BUNDLES (n_sbn n) (length (an_bns A));
  r_esb : n_esb n = cadd MAX_SUBBUNDLES (n_ssb n) (length (subs A));
  r_efl : n_efl n = cadd MAX_SB_FILTERS (n_sfl n) (length (fls A));
  r_br : ring_is M (n_br n) (n_sbr n) (brs A);
  r_fl : ring_is MAX_SB_FILTERS (n_fl n) (n_sfl n) (fls A);
  r_sb : ring_is MAX_SUBBUNDLES (n_sb n) (n_ssb n)
           (sub_entries M (n_sbr n) (n_sfl n) (length (an_whole A)) 0 (subs A));
  r_bn : ring_is MAX_BUNDLES (n_bn n) (n_sbn n) (bn_entries (n_ssb n) 0 (an_bns A));
  r_piv : exists ps last, n_piv n = ps ++ [last] /\ pv_key last = an_hi A /\ Forall2 (piv_rep M n) ps (an_piv A)
}.

Lemma brs_split : forall W X b Y, an_whole W = an_whole W -> an_bns W = X ++ b :: Y ->
  brs W = an_whole W ++ brs_of (concat X) ++ brs_of b ++ brs_of (concat Y).
Proof.
  intros W X b Y _ H. unfold brs, subs. rewrite H, concat_app. simpl. rewrite !brs_of_app. reflexivity.
Qed.

(** ** Reading a bundle *)
Section Bundle.
Variables (M : nat) (n : node) (A : anode) (X Y : list (list asub)) (b : list asub).
Hypothesis R : rep M n A.
Hypothesis K : aok M A.
Hypothesis E : an_bns A = X ++ b :: Y.

Lemma subs_split : subs A = concat X ++ b ++ concat Y.
Proof. unfold subs. rewrite E, concat_app. reflexivity. Qed.

Lemma bundle_nonempty : b <> [].
Proof. pose proof (ok_nonempty _ _ K) as N. rewrite E in N. apply Forall_app in N. destruct N as [_ N]. inversion N. auto. Qed.

Lemma bundle_entry : n_bn n (cadd MAX_BUNDLES (n_sbn n) (length X)) =
  BN (cadd MAX_SUBBUNDLES (n_ssb n) (length (concat X))) (cadd MAX_SUBBUNDLES (n_ssb n) (length (concat X) + length b)).
Proof.
  apply (r_bn _ _ _ R). rewrite E, bn_entries_app. rewrite nth_error_app2 by (rewrite bn_entries_length; lia).
  rewrite bn_entries_length, Nat.sub_diag. simpl. reflexivity.
Qed.

Lemma sub_at : forall x s y, concat X ++ b ++ concat Y = x ++ s :: y ->
  n_sb n (cadd MAX_SUBBUNDLES (n_ssb n) (length x)) =
  SB (as_comp s) (cadd M (n_sbr n) (length (an_whole A) + nbr x)) (cadd M (n_sbr n) (length (an_whole A) + nbr x + length (as_brs s)))
     (cadd MAX_SB_FILTERS (n_sfl n) (nfl x)) (cadd MAX_SB_FILTERS (n_sfl n) (nfl x + length (as_fls s))).
Proof.
  intros x s y H. apply (r_sb _ _ _ R). rewrite subs_split, H, sub_entries_app.
  rewrite nth_error_app2 by (rewrite sub_entries_length; lia).
  rewrite sub_entries_length, Nat.sub_diag. simpl. reflexivity.
Qed.

Lemma bounds : length (concat X) + length b + length (concat Y) < MAX_SUBBUNDLES /\
  length (an_whole A) + nbr (concat X) + nbr b + nbr (concat Y) < M /\
  nfl (concat X) + nfl b + nfl (concat Y) < MAX_SB_FILTERS /\
  length X + S (length Y) < MAX_BUNDLES.
Proof.
  pose proof (ok_brs _ _ K) as H1. pose proof (ok_subs _ _ K) as H2. pose proof (ok_fls _ _ K) as H3. pose proof (ok_bns _ _ K) as H4.
  unfold brs, fls in *. rewrite subs_split in *. rewrite E in H4.
  rewrite !app_length in *. rewrite !brs_of_app, !app_length in H1. rewrite !fls_of_app, !app_length in H3.
  unfold nbr, nfl. simpl in H4. lia.
Qed.

Lemma b_first : exists s r, b = s :: r.
Proof. pose proof bundle_nonempty. destruct b; [congruence | eauto]. Qed.
Lemma b_last : exists r s, b = r ++ [s].
Proof. pose proof bundle_nonempty. destruct (exists_last H) as (r & s & ->). eauto. Qed.

Let bn := n_bn n (cadd MAX_BUNDLES (n_sbn n) (length X)).

Lemma start_branch_at : bundle_start_branch n bn = cadd M (n_sbr n) (length (an_whole A) + nbr (concat X)).
Proof.
  unfold bundle_start_branch, bn. rewrite bundle_entry. cbn [bn_ssb].
  destruct b_first as (s & r & Eb). rewrite (sub_at (concat X) s (r ++ concat Y)) by (rewrite Eb; reflexivity). reflexivity.
Qed.

Lemma last_sub_at : forall r s, b = r ++ [s] ->
  n_sb n (csub MAX_SUBBUNDLES (bn_esb bn) 1) =
  SB (as_comp s) (cadd M (n_sbr n) (length (an_whole A) + nbr (concat X ++ r))) (cadd M (n_sbr n) (length (an_whole A) + nbr (concat X) + nbr b))
     (cadd MAX_SB_FILTERS (n_sfl n) (nfl (concat X ++ r))) (cadd MAX_SB_FILTERS (n_sfl n) (nfl (concat X) + nfl b)).
Proof.
  intros r s Eb. unfold bn. rewrite bundle_entry. cbn [bn_esb].
  pose proof S0. rewrite csub_cadd_amount by (rewrite ?Eb, ?app_length; simpl; lia).
  replace (length (concat X) + length b - 1) with (length (concat X ++ r)) by (rewrite Eb, !app_length; simpl; lia).
  rewrite (sub_at (concat X ++ r) s (concat Y)) by (rewrite Eb, <- !app_assoc; reflexivity).
  rewrite Eb, !nbr_app, !nfl_app, nbr_cons, nfl_cons, nbr_nil, nfl_nil, !Nat.add_0_r, !Nat.add_assoc. reflexivity.
Qed.

Lemma end_branch_at : bundle_end_branch n bn = cadd M (n_sbr n) (length (an_whole A) + nbr (concat X) + nbr b).
Proof. unfold bundle_end_branch. destruct b_last as (r & s & Eb). rewrite (last_sub_at r s Eb). reflexivity. Qed.
Lemma end_filter_at : bundle_end_filter n bn = cadd MAX_SB_FILTERS (n_sfl n) (nfl (concat X) + nfl b).
Proof. unfold bundle_end_filter. destruct b_last as (r & s & Eb). rewrite (last_sub_at r s Eb). reflexivity. Qed.
Lemma start_filter_at : bundle_start_filter n bn = cadd MAX_SB_FILTERS (n_sfl n) (nfl (concat X)).
Proof.
  unfold bundle_start_filter, bn. rewrite bundle_entry. cbn [bn_ssb].
  destruct b_first as (s & r & Eb). rewrite (sub_at (concat X) s (r ++ concat Y)) by (rewrite Eb; reflexivity). reflexivity.
Qed.

Lemma M_pos : 0 < M. Proof. pose proof (r_sbr _ _ _ R). lia. Qed.

Lemma branch_count_at : bundle_branch_count M n bn = nbr b.
Proof.
  unfold bundle_branch_count. rewrite end_branch_at, start_branch_at.
  pose proof bounds. pose proof M_pos. rewrite csub_cadd by lia. lia.
Qed.
Lemma subbundle_count_at : bundle_subbundle_count bn = length b.
Proof.
  unfold bundle_subbundle_count, bn. rewrite bundle_entry. cbn [bn_ssb bn_esb].
  pose proof bounds. rewrite csub_cadd by (auto; lia). lia.
Qed.
Lemma sb_filter_count_at : forall x s y, concat X ++ b ++ concat Y = x ++ s :: y ->
  sb_filter_count (n_sb n (cadd MAX_SUBBUNDLES (n_ssb n) (length x))) = length (as_fls s).
Proof.
  intros x s y H. rewrite (sub_at x s y H). unfold sb_filter_count. cbn [sb_efl sb_sfl].
  pose proof bounds as B. rewrite <- SF in B |- *. 
  assert (G : nfl x + length (as_fls s) < MAX_SUBBUNDLES).
  { assert (G : nfl (concat X ++ b ++ concat Y) = nfl (x ++ s :: y)) by (rewrite H; reflexivity).
    rewrite !nfl_app, nfl_cons in G. lia. }
  rewrite csub_cadd by (auto; lia). lia.
Qed.

Lemma filter_count_at : bundle_filter_count n bn = nfl b.
Proof.
  unfold bundle_filter_count, bn. rewrite bundle_entry. cbn [bn_ssb bn_esb].
  pose proof bounds as B. rewrite cwalk_cadd by (auto; lia).
  replace (length (concat X) + length b - length (concat X)) with (length b) by lia.
  assert (G : forall r l c, b = l ++ r ->
    fold_left (fun c i => c + sb_filter_count (n_sb n i))
      (map (cadd MAX_SUBBUNDLES (n_ssb n)) (seq (length (concat X ++ l)) (length r))) c = c + nfl r).
  { induction r as [|s r IH]; intros l c Eb; simpl.
    - rewrite nfl_nil. lia.
    - rewrite (sb_filter_count_at (concat X ++ l) s (r ++ concat Y)) by (rewrite Eb, <- !app_assoc; reflexivity).
      replace (S (length (concat X ++ l))) with (length (concat X ++ (l ++ [s]))) by (rewrite !app_length; simpl; lia).
      rewrite IH by (rewrite Eb, <- app_assoc; reflexivity). rewrite nfl_cons. lia. }
  specialize (G b [] 0 eq_refl). rewrite app_nil_r in G. rewrite G. reflexivity.
Qed.
End Bundle.
