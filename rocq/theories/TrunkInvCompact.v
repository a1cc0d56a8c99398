(** * The invariant when a compaction starts *)

From Coq Require Import List Arith NArith ZArith Lia Bool Sorted.
From Verif Require Import Base Spec Spec_Merge DataProofs Search Merge MergeProofs MergeRunProofs MergeScanProofs Prop_Merge.
From Verif Require Import TrunkNode TrunkRing TrunkRep TrunkOps TrunkReset TrunkFlush TrunkClear TrunkReplace TrunkSplit.
From Verif Require Import TrunkAlpha TrunkKeys TrunkView TrunkTree TrunkShape TrunkLookup TrunkEffects TrunkInstall TrunkSplitEff TrunkInv TrunkInvMem TrunkInvNode TrunkInvFlush TrunkInvSplit.
Import ListNotations.
Local Open Scope nat_scope.

Set Default Proof Using "All".
Section Compact.
Variables (M mp : nat) (cfg : data_config) (hash : bytes -> N).
Hypothesis TO : total_order (key_compare cfg).
Hypothesis LM : lawful_merge cfg.
Hypothesis Hmp : mp <= MAX_PIVOTS.
Hypothesis M0 : 0 < M.
Local Notation klt := (klt cfg).
Local Notation kle := (kle cfg).
Local Notation nwf := (nwf M mp cfg).
Local Notation twf := (twf M mp cfg).
Local Notation nview := (nview M cfg).
Local Notation view_at := (view_at M cfg).
Local Notation branch_ok := (branch_ok cfg).
Local Notation view_ok := (view_ok cfg hash).
Local Notation views := (views M cfg).
Local Notation swf := (swf M mp cfg).
Local Notation content := (content M cfg).
Local Notation job_ok := (job_ok cfg hash).
Local Notation job_base := (job_base cfg hash).
Local Notation inv := (inv M mp cfg hash).
Local Notation exec := (exec M mp cfg hash).
Local Notation bound := (bound cfg).
Local Notation count := (count cfg).
Local Notation excl := (excl cfg).
Local Notation local := (local M mp cfg).

(** ** The merge that a compaction runs *)

Lemma source_single : forall k m (l : branch), ascending (key_compare cfg) l -> In (k, m) l -> source_messages k l = [m].
Proof.
  intros k m l Hs Il. rewrite <- messages_of_source. apply (messages_single (key_compare cfg) TO true); auto.
Qed.
Lemma source_in : forall k m (l : branch), In m (source_messages k l) -> In (k, m) l.
Proof.
  intros k m. induction l as [|[k' m'] r IH]; cbn; [auto|]. destruct (bytes_eq_dec k k') as [->|N]; intro Q; [destruct Q as [->|Q]|]; auto.
Qed.
Lemma source_absent : forall k (l : branch), (forall m, ~ In (k, m) l) -> source_messages k l = [].
Proof. intros k l Q. destruct (source_messages k l) as [|m r] eqn:Es; [reflexivity|]. exfalso. apply (Q m). apply source_in. rewrite Es. left. reflexivity. Qed.

Lemma drained_seen : forall L, drained (seen L) = Some L.
Proof. induction L as [|[k m] r IH]; [reflexivity|]. unfold drained in *. cbn [seen map fold_right fst snd]. fold (seen r). rewrite IH. reflexivity. Qed.

Lemma src_sources : forall ls, Forall branch_ok ls -> sources cfg (key_compare cfg) (fun _ => True) (map (fun l => Src l 0) ls).
Proof.
  intros ls F. rewrite Forall_forall in F.
  assert (Q : forall s, In s (map (fun l => Src l 0) ls) -> exists l, s = Src l 0 /\ branch_ok l) by (intros s I; apply in_map_iff in I; destruct I as (l & <- & I); eauto).
  constructor.
  - intros s I. destruct (Q s I) as (l & -> & O & _). exact O.
  - auto.
  - intros s e I Ie. destruct (Q s I) as (l & -> & _ & O). rewrite Forall_forall in O. apply O. exact Ie.
  - intros s I. destruct (Q s I) as (l & -> & _). cbn. unfold src_len. cbn. lia.
  - intros s s' a b I _ Ia _. destruct (Q s I) as (l & -> & _). cbn in Ia. contradiction.
Qed.
Lemma ahead_src : forall ls : list branch, map ahead (map (fun l => Src l 0) ls) = ls.
Proof. intro ls. rewrite map_map. cbn. apply map_id. Qed.

Definition same_effect (full : bool) (out : branch) (ls : list branch) : Prop :=
  forall u, (forall x, (full = true -> x = None) -> replay cfg u (source_messages u out) x = replay cfg u (key_messages u ls) x) /\
            (source_messages u out <> [] -> key_messages u ls <> []).

Lemma compact_merge : forall ls (full : bool), Forall branch_ok ls -> length ls < 1024 ->
  exists st st' out, merge_create cfg (if full then Full else Intermediate) (map (fun l => Src l 0) ls) = Some (Some st) /\
    drain m_can_next (merge_next cfg) (length (concat ls)) st = Some (seen out, st') /\ branch_ok out /\ same_effect full out ls.
Proof.
  intros ls full F Hl. pose proof (src_sources ls F) as SC. assert (Hl' : length (map (fun l => Src l 0) ls) < 1024) by (rewrite map_length; exact Hl).
  assert (AG : agrees cfg (key_compare cfg) (fun _ => True)) by (intros a b _ _; reflexivity).
  assert (HMS : forall k, msgs (seqs_of (length (map (fun l => Src l 0) ls))) (at_seq (map ahead (map (fun l => Src l 0) ls))) k = key_messages k ls).
  { intro k. rewrite <- (map_length ahead (map (fun l => Src l 0) ls)), msgs_at_seq, ahead_src. reflexivity. }
  pose proof (ahead_allowed _ _ _ _ SC) as AL. rewrite ahead_src in AL.
  destruct full.
  - destruct (forward_scan cfg (key_compare cfg) TO (fun _ => True) AG _ SC Full ltac:(discriminate) Hl') as (st & L & E & HL & HD).
    destruct (full_meaning cfg (key_compare cfg) (map (fun l => Src l 0) ls) true _ ls L LM AL HMS HL) as (L2 & EL & HS & HI).
    destruct (HD m_can_next (length (concat ls)) (or_introl eq_refl) ltac:(rewrite ahead_src; lia)) as (st' & Ed & _).
    exists st, st', L. split; [exact E|]. split; [exact Ed|]. assert (As : ascending (key_compare cfg) L) by apply HL.
    assert (Hin : forall k m, In (k, m) L <-> exists v, m = Msg MInsert v /\ replay cfg k (key_messages k ls) None = Some v).
    { intros k m. rewrite EL. unfold kvs. rewrite in_map_iff. split.
      - intros ([k' v] & Q & I). cbn in Q. injection Q as -> <-. exists v. split; [reflexivity|]. apply HI. exact I.
      - intros (v & -> & Q). exists (k, v). split; [reflexivity|]. apply HI. exact Q. }
    split.
    + split; [exact As|]. rewrite Forall_forall. intros [k m] I. apply Hin in I. destruct I as (v & -> & _). cbn. discriminate.
    + intro u. destruct (replay cfg u (key_messages u ls) None) as [v|] eqn:Er.
      * assert (I : In (u, Msg MInsert v) L) by (apply Hin; eauto). rewrite (source_single _ _ _ As I). split.
        { intros x Hx. rewrite (Hx eq_refl), Er. reflexivity. }
        { intros _ Q. rewrite Q in Er. discriminate. }
      * assert (N : source_messages u L = []). { apply source_absent. intros m I. apply Hin in I. destruct I as (v & _ & Q). congruence. }
        rewrite N. split; [|congruence]. intros x Hx. rewrite (Hx eq_refl), Er. reflexivity.
  - destruct (forward_scan cfg (key_compare cfg) TO (fun _ => True) AG _ SC Intermediate ltac:(discriminate) Hl') as (st & L & E & HL & HD).
    destruct (inter_meaning cfg (key_compare cfg) (map (fun l => Src l 0) ls) true _ ls L LM AL HMS HL) as (HK & HM).
    destruct (HD m_can_next (length (concat ls)) (or_introl eq_refl) ltac:(rewrite ahead_src; lia)) as (st' & Ed & _).
    exists st, st', L. split; [exact E|]. split; [exact Ed|]. assert (As : ascending (key_compare cfg) L) by apply HL.
    split.
    + split; [exact As|]. rewrite Forall_forall. intros [k m] I. destruct HL as [_ HL]. apply HL in I. destruct I as (c & Ec & Ef & _). cbn in Ef. injection Ef as ->.
      rewrite HMS in Ec. assert (N : key_messages k ls <> []) by (intro Q; rewrite Q in Ec; discriminate).
      destruct (collapse_defined cfg k (key_messages k ls) (spec_messages_allowed cfg ls k AL) N) as (c2 & Ec2 & Ha). assert (Q : c2 = m) by congruence. cbn [snd]. rewrite <- Q. exact Ha.
    + intro u. destruct (source_messages u L) as [|m r] eqn:Es.
      * split; [|congruence]. intros x _. assert (N : key_messages u ls = []).
        { destruct (key_messages u ls) as [|y z] eqn:Ek; [reflexivity|]. exfalso. assert (I : In u (map fst L)) by (apply HK; rewrite Ek; discriminate).
          apply in_map_iff in I. destruct I as ([u' m] & Q & I). cbn in Q. subst u'. rewrite (source_single _ _ _ As I) in Es. discriminate. }
        rewrite N. reflexivity.
      * assert (I : In (u, m) L) by (apply source_in; rewrite Es; left; reflexivity). rewrite (source_single _ _ _ As I) in Es. injection Es as Er. subst r. split.
        { intros x _. rewrite <- (HM u m x I). reflexivity. }
        { intros _. apply HK. apply in_map_iff. exists (u, m). auto. }
Qed.

(** ** The tuples that a compaction reads of a branch *)

Notation key_in := (key_in cfg).
Lemma key_in_iff : forall lo hi k, key_in lo hi k = true <-> kle lo (KUser k) /\ klt (KUser k) hi.
Proof. intros. unfold TrunkNode.key_in, TrunkKeys.kle, TrunkKeys.klt. rewrite andb_true_iff, Z.leb_le, Z.ltb_lt. reflexivity. Qed.

Fixpoint rsorted (lo : key) (rs : list (key * key)) : Prop :=
  match rs with [] => True | (a, b) :: r => kle lo a /\ klt a b /\ rsorted b r end.
Definition covered (rs : list (key * key)) (k : bytes) : bool := existsb (fun r => key_in (fst r) (snd r) k) rs.
Fixpoint live_in (n : node) (b : nat) (ps : list pivot) (k : bytes) : bool :=
  match ps with
  | p :: ((p' :: _) as r) => (branch_live_for_pivot M n b p && key_in (pv_key p) (pv_key p') k) || live_in n b r k
  | _ => false
  end.

Lemma rsorted_le : forall rs lo lo', kle lo' lo -> rsorted lo rs -> rsorted lo' rs.
Proof. intros [|[a b] r] lo lo' L; cbn; [auto|]. intros (Q1 & Q2 & Q3). repeat split; auto. ord TO. Qed.

Lemma skip_spec : forall n b ps start L,
  StronglySorted klt (map pv_key ps) ->
  match start with Some s => s = L /\ Forall (klt s) (map pv_key ps) | None => Forall (kle L) (map pv_key ps) end ->
  rsorted L (skip_ranges M n b ps start) /\
  forall k, covered (skip_ranges M n b ps start) k =
    (match start, ps with Some s, p :: _ => key_in s (pv_key p) k | _, _ => false end) || live_in n b ps k.
Proof.
  intros n b ps. induction ps as [|p [|p' r] IH]; intros start L Hs Hst.
  - cbn. split; [exact I|]. intros k. destruct start; reflexivity.
  - destruct start as [s|]; cbn.
    + destruct Hst as [-> Hf]. inversion Hf; subst. split; [repeat split; [apply (kle_refl M mp cfg hash TO LM)|assumption]|]. intro k. rewrite !orb_false_r. reflexivity.
    + split; [exact I|]. reflexivity.
  - cbn [map] in Hs. pose proof (StronglySorted_inv Hs) as [Hs' Hp].
    change (skip_ranges M n b (p :: p' :: r) start) with
      (if branch_live_for_pivot M n b p then skip_ranges M n b (p' :: r) (match start with Some s => Some s | None => Some (pv_key p) end)
       else match start with Some s => (s, pv_key p) :: skip_ranges M n b (p' :: r) None | None => skip_ranges M n b (p' :: r) None end).
    change (live_in n b (p :: p' :: r)) with (fun k => (branch_live_for_pivot M n b p && key_in (pv_key p) (pv_key p') k) || live_in n b (p' :: r) k).
    cbv beta. assert (Lpp : klt (pv_key p) (pv_key p')) by (inversion Hp; auto).
    destruct (branch_live_for_pivot M n b p) eqn:El; destruct start as [s|].
    + destruct Hst as [Q Hf]. subst s. inversion Hf as [|? ? Hf1 Hf2]; subst. destruct (IH (Some L) L Hs' (conj eq_refl Hf2)) as [I1 I2].
      split; [exact I1|]. intro k. rewrite I2. cbn [andb]. rewrite orb_assoc. f_equal. apply eq_true_iff_eq. rewrite orb_true_iff, !key_in_iff.
      split; [intros [Q1 Q2]; destruct (kle_lt_dec cfg TO (pv_key p) (KUser k)); auto | intros [[Q1 Q2]|[Q1 Q2]]; split; ord TO].
    + inversion Hst as [|? ? Hf1 Hf2]; subst. destruct (IH (Some (pv_key p)) (pv_key p) Hs' (conj eq_refl Hp)) as [I1 I2].
      split; [eapply rsorted_le; eauto|]. intro k. rewrite I2. reflexivity.
    + destruct Hst as [Q Hf]. subst s. inversion Hf as [|? ? Hf1 Hf2]; subst. 
      assert (F : Forall (kle (pv_key p)) (map pv_key (p' :: r))) by (eapply Forall_impl; [|exact Hp]; intros; ord TO).
      destruct (IH None (pv_key p) Hs' F) as [I1 I2]. split; [cbn [rsorted]; split; [apply (kle_refl M mp cfg hash TO LM)|]; split; assumption|].
      intro k. unfold covered in *. cbn [existsb fst snd]. rewrite I2. reflexivity.
    + inversion Hst as [|? ? Hf1 Hf2]; subst.
      assert (F : Forall (kle (pv_key p)) (map pv_key (p' :: r))) by (eapply Forall_impl; [|exact Hp]; intros; ord TO).
      destruct (IH None (pv_key p) Hs' F) as [I1 I2]. split; [eapply rsorted_le; eauto|]. intro k. rewrite I2. reflexivity.
Qed.

Lemma list_nth_ext : forall (A : Type) (l l' : list A), (forall i, nth_error l i = nth_error l' i) -> l = l'.
Proof.
  induction l as [|x l IH]; intros [|y l'] Q; [reflexivity | specialize (Q 0); discriminate | specialize (Q 0); discriminate|].
  pose proof (Q 0) as Q0. cbn in Q0. injection Q0 as ->. f_equal. apply IH. intro i. exact (Q (S i)).
Qed.
Lemma source_filter : forall (f : bytes -> bool) (l : branch) k, source_messages k (filter (fun e => f (fst e)) l) = if f k then source_messages k l else [].
Proof.
  intros f l k. induction l as [|[k' m] r IH]; cbn; [destruct (f k); reflexivity|]. destruct (f k') eqn:Ef; cbn; destruct (bytes_eq_dec k k') as [->|N]; rewrite ?IH, ?Ef; auto.
Qed.
Lemma source_app : forall k (a b : branch), source_messages k (a ++ b) = source_messages k a ++ source_messages k b.
Proof. intros k a b. induction a as [|[k' m] r IH]; cbn; [reflexivity|]. destruct (bytes_eq_dec k k'); rewrite IH; reflexivity. Qed.

Lemma ranges_below : forall rs lo k, rsorted lo rs -> klt (KUser k) lo -> covered rs k = false.
Proof.
  induction rs as [|[a b] r IH]; intros lo k H L; [reflexivity|]. cbn [rsorted] in H. destruct H as (H1 & H2 & H3). unfold covered. cbn [existsb fst snd].
  assert (N : key_in a b k = false). { destruct (key_in a b k) eqn:Ek; [|reflexivity]. apply key_in_iff in Ek. destruct Ek. exfalso. ord TO. }
  rewrite N. cbn [orb]. apply (IH b); auto. ord TO.
Qed.

Lemma ranges_messages : forall (br : branch) rs lo k, rsorted lo rs ->
  source_messages k (flat_map (fun r => branch_range cfg (fst r) (snd r) br) rs) = if covered rs k then source_messages k br else [].
Proof.
  intros br. induction rs as [|[a b] r IH]; intros lo k H; [reflexivity|]. cbn [rsorted] in H. destruct H as (H1 & H2 & H3). cbn [flat_map fst snd].
  rewrite source_app. unfold branch_range at 1. rewrite (source_filter (fun x => key_in a b x)). rewrite (IH b k H3). unfold covered at 2. cbn [existsb fst snd]. fold (covered r k).
  destruct (key_in a b k) eqn:Ek; cbn [orb]; [|reflexivity]. apply key_in_iff in Ek. rewrite (ranges_below r b k H3) by apply Ek. apply app_nil_r.
Qed.

Lemma ascending_app : forall (a b : branch), ascending (key_compare cfg) a -> ascending (key_compare cfg) b ->
  (forall x y, In x a -> In y b -> klt (KUser (fst x)) (KUser (fst y))) -> ascending (key_compare cfg) (a ++ b).
Proof.
  unfold ascending. induction a as [|x a IH]; intros b Ha Hb Q; [exact Hb|]. cbn. apply StronglySorted_inv in Ha. destruct Ha as [Ha Fx]. constructor.
  - apply IH; auto. intros; apply Q; auto. right. assumption.
  - apply Forall_app. split; [exact Fx|]. rewrite Forall_forall. intros y Iy. apply (Q x y); [left; reflexivity | exact Iy].
Qed.
Lemma ascending_filter : forall f (a : branch), ascending (key_compare cfg) a -> ascending (key_compare cfg) (filter f a).
Proof.
  unfold ascending. induction a as [|x a IH]; intro Ha; [constructor|]. apply StronglySorted_inv in Ha. destruct Ha as [Ha Fx]. cbn. destruct (f x); [|auto]. constructor; [auto|].
  rewrite Forall_forall in *. intros y Iy. apply filter_In in Iy. apply Fx. apply Iy.
Qed.

Lemma ranges_ascending : forall (br : branch) rs lo, branch_ok br -> rsorted lo rs ->
  branch_ok (flat_map (fun r => branch_range cfg (fst r) (snd r) br) rs) /\
  forall e, In e (flat_map (fun r => branch_range cfg (fst r) (snd r) br) rs) -> kle lo (KUser (fst e)).
Proof.
  intros br rs lo [O1 O2]. revert lo. induction rs as [|[a b] r IH]; intros lo H; [split; [split; constructor | contradiction]|].
  cbn [rsorted] in H. destruct H as (H1 & H2 & H3). destruct (IH b H3) as [[I1 I2] I3]. cbn [flat_map fst snd].
  assert (Q : forall e, In e (branch_range cfg a b br) -> In e br /\ kle a (KUser (fst e)) /\ klt (KUser (fst e)) b).
  { intros e Ie. unfold branch_range in Ie. apply filter_In in Ie. destruct Ie as [Ie Ke]. apply key_in_iff in Ke. auto. }
  split; [split|].
  - apply ascending_app; auto; [apply ascending_filter; exact O1|]. intros x y Ix Iy. destruct (Q x Ix) as (_ & _ & Q2). specialize (I3 y Iy). ord TO.
  - apply Forall_app. split; [|exact I2]. rewrite Forall_forall in *. intros e Ie. apply O2. apply (Q e Ie).
  - intros e Ie. apply in_app_or in Ie. destruct Ie as [Ie|Ie]; [destruct (Q e Ie) as (_ & Q1 & _); ord TO|]. specialize (I3 e Ie). ord TO.
Qed.

Lemma ranges_in : forall (br : branch) rs e, In e (flat_map (fun r => branch_range cfg (fst r) (snd r) br) rs) -> In e br /\ covered rs (fst e) = true.
Proof.
  intros br rs e I. apply in_flat_map in I. destruct I as (r & Ir & I). unfold branch_range in I. apply filter_In in I. destruct I as [I1 I2]. split; [exact I1|].
  unfold covered. apply existsb_exists. exists r. auto.
Qed.

(** ** Which keys a branch of a bundle is read for *)

Lemma live_at : forall n b ps i p p' k, StronglySorted klt (map pv_key ps) -> nth_error ps i = Some p -> nth_error ps (S i) = Some p' ->
  kle (pv_key p) (KUser k) -> klt (KUser k) (pv_key p') -> live_in n b ps k = branch_live_for_pivot M n b p.
Proof.
  intros n b ps. induction ps as [|p0 [|p1 r] IH]; intros i p p' k Hs E1 E2 K1 K2; [destruct i; discriminate | destruct i; discriminate|].
  cbn [map] in Hs. pose proof (StronglySorted_inv Hs) as [Hs' Hp].
  change (live_in n b (p0 :: p1 :: r) k) with ((branch_live_for_pivot M n b p0 && key_in (pv_key p0) (pv_key p1) k) || live_in n b (p1 :: r) k).
  destruct i as [|i].
  - cbn in E1, E2. injection E1 as <-. injection E2 as <-.
    assert (Q : key_in (pv_key p0) (pv_key p1) k = true) by (apply key_in_iff; auto). rewrite Q, andb_true_r.
    assert (N : live_in n b (p1 :: r) k = false).
    { clear - Hs' K2 TO LM Hmp M0 hash. revert p1 Hs' K2. induction r as [|p2 r IH]; intros p1 Hs K2; [reflexivity|]. cbn [map] in Hs. pose proof (StronglySorted_inv Hs) as [Hs' Hp].
      change (live_in n b (p1 :: p2 :: r) k) with ((branch_live_for_pivot M n b p1 && key_in (pv_key p1) (pv_key p2) k) || live_in n b (p2 :: r) k).
      assert (Q : key_in (pv_key p1) (pv_key p2) k = false). { destruct (key_in (pv_key p1) (pv_key p2) k) eqn:Ek; [|reflexivity]. apply key_in_iff in Ek. exfalso. destruct Ek. ord TO. }
      rewrite Q, andb_false_r. apply IH; auto. inversion Hp; subst. ord TO. }
    rewrite N, orb_false_r. reflexivity.
  - rewrite <- (IH i p p' k Hs' E1 E2 K1 K2).
    assert (Q : key_in (pv_key p0) (pv_key p1) k = false).
    { destruct (key_in (pv_key p0) (pv_key p1) k) eqn:Ek; [|reflexivity]. apply key_in_iff in Ek. exfalso. destruct Ek as [_ Ek].
      assert (L : kle (pv_key p1) (pv_key p)).
      { cbn [nth_error] in E1. destruct i as [|i]; [cbn in E1; injection E1 as <-; apply (kle_refl M mp cfg hash TO LM)|].
        pose proof (StronglySorted_inv Hs') as [_ Hf]. rewrite Forall_forall in Hf. cbn in E1. specialize (Hf (pv_key p) (in_map pv_key _ _ (nth_error_In _ _ E1))). ord TO. }
      ord TO. }
    rewrite Q, andb_false_r. reflexivity.
Qed.

Lemma live_range : forall n b ps k, live_in n b ps k = true -> exists i p p', nth_error ps i = Some p /\ nth_error ps (S i) = Some p' /\
  branch_live_for_pivot M n b p = true /\ kle (pv_key p) (KUser k) /\ klt (KUser k) (pv_key p').
Proof.
  intros n b ps. induction ps as [|p0 [|p1 r] IH]; intros k E; [discriminate|discriminate|].
  change (live_in n b (p0 :: p1 :: r) k) with ((branch_live_for_pivot M n b p0 && key_in (pv_key p0) (pv_key p1) k) || live_in n b (p1 :: r) k) in E.
  apply orb_true_iff in E. destruct E as [E|E].
  - apply andb_true_iff in E. destruct E as [E1 E2]. apply key_in_iff in E2. exists 0, p0, p1. auto.
  - destruct (IH k E) as (i & p & p' & Q). exists (S i), p, p'. exact Q.
Qed.

Lemma node_keys : forall ht n A, nwf ht n A -> map pv_key (n_piv n) = akeys A.
Proof.
  intros ht n A W. destruct (r_piv _ _ _ (w_rep _ _ _ _ _ _ W)) as (ps & last & E1 & E2 & F). unfold akeys. rewrite E1, map_app. cbn [map]. rewrite E2. f_equal.
  clear - F. induction F as [|p a ps as' (Q & _) F IH]; [reflexivity|]. cbn. congruence.
Qed.

Section Bundle.
Variables (ht : nat) (n : node) (A : anode) (X Y : list (list asub)) (bs : list asub) (o : nat).
Hypothesis W : nwf ht n A.
Hypothesis EA : an_bns A = X ++ bs :: Y.
Hypothesis O1 : length (an_whole A) + nbr (concat X) <= o.
Hypothesis O2 : o < length (an_whole A) + nbr (concat X) + nbr bs.
Let b := cadd M (n_sbr n) o.

Lemma live_boff : forall p a, piv_rep M n p a -> off_ok A (ap_off a) (ap_boff a) -> branch_live_for_pivot M n b p = (ap_boff a <=? length X).
Proof.
  intros p a (_ & _ & _ & Es & _) Ho. pose proof (w_rep _ _ _ _ _ _ W) as R. pose proof (w_aok _ _ _ _ _ _ W) as K. pose proof (bounds M A X Y bs K EA) as (_ & B & _).
  pose proof (ok_brs _ _ K) as Lb. assert (Eb : length (brs A) = length (an_whole A) + nbr (concat X) + nbr bs + nbr (concat Y)).
  { rewrite (brs_split A X bs Y eq_refl EA), !app_length. unfold nbr. lia. }
  unfold branch_live_for_pivot. rewrite Es, (r_ebr _ _ _ R). unfold b.
  assert (Lo : ap_off a <= length (brs A)) by (apply off_ok_le in Ho; lia).
  rewrite (csub_cadd M (n_sbr n) (length (brs A)) (ap_off a)) by lia.
  assert (Ha : ap_off a <= o <-> ap_boff a <= length X).
  { destruct Ho as [[H1 H2]|(H1 & H2 & H3)]; [lia|]. rewrite H3. rewrite EA. destruct (le_lt_dec (ap_boff a) (length X)) as [L|L].
    - rewrite firstn_app. replace (ap_boff a - length X) with 0 by lia. cbn [firstn]. rewrite app_nil_r.
      assert (nbr (concat (firstn (ap_boff a) X)) <= nbr (concat X)).
      { rewrite <- (firstn_skipn (ap_boff a) X) at 2. rewrite concat_app, nbr_app. lia. }
      lia.
    - rewrite firstn_app, firstn_all2 by lia. replace (ap_boff a - length X) with (S (ap_boff a - length X - 1)) by lia. cbn [firstn].
      rewrite concat_app, nbr_app. cbn [concat]. rewrite nbr_app. lia. }
  destruct (Nat.leb_spec (ap_boff a) (length X)) as [L|L].
  - rewrite csub_cadd by lia. apply Nat.ltb_lt. lia.
  - rewrite csub_cadd_back by lia. apply Nat.ltb_ge. lia.
Qed.

Lemma view_bundle : forall a hi, In a (an_piv A) -> vbundle (cadd MAX_BUNDLES (n_sbn n) (length X)) (view_of n A a hi) = if ap_boff a <=? length X then Some bs else None.
Proof.
  intros a hi Ia. pose proof (w_rep _ _ _ _ _ _ W) as R. pose proof (w_aok _ _ _ _ _ _ W) as K. pose proof (bounds M A X Y bs K EA) as (_ & _ & _ & B).
  pose proof (off_ok_le _ _ _ (piv_off_ok _ _ _ _ _ _ _ W Ia)) as [_ L]. rewrite EA, app_length in L. cbn [length] in L.
  unfold vbundle. cbn [view_of v_bns v_bno]. rewrite EA. pose proof (r_sbn _ _ _ R).
  destruct (Nat.leb_spec (ap_boff a) (length X)) as [Q|Q].
  - rewrite csub_cadd by lia. rewrite <- (Nat.add_0_r (length X - ap_boff a)). rewrite TrunkRing.nth_error_skipn. rewrite nth_error_app2 by lia.
    replace (ap_boff a + (length X - ap_boff a + 0) - length X) with 0 by lia. reflexivity.
  - rewrite csub_cadd_back by lia. apply nth_error_None. rewrite skipn_length, app_length. cbn [length]. lia.
Qed.

(** The tuples of the branch for a key: all, or none if the bundle is not there for it *)
Lemma skiperator_spec : rsorted (an_lo A) (skip_ranges M n b (n_piv n) None) /\
  (forall k v, nview n (KUser k) = Some v -> kle (an_lo A) (KUser k) -> klt (KUser k) (an_hi A) ->
     covered (skip_ranges M n b (n_piv n) None) k = match vbundle (cadd MAX_BUNDLES (n_sbn n) (length X)) v with Some _ => true | None => false end) /\
  (forall k, covered (skip_ranges M n b (n_piv n) None) k = true -> kle (an_lo A) (KUser k) /\ klt (KUser k) (an_hi A)).
Proof.
  pose proof (w_rep _ _ _ _ _ _ W) as R. pose proof (w_aok _ _ _ _ _ _ W) as K. pose proof (node_keys _ _ _ W) as Ek. pose proof (w_sorted _ _ _ _ _ _ W) as Hs.
  assert (Hlo : Forall (kle (an_lo A)) (map pv_key (n_piv n))).
  { rewrite Ek. unfold akeys in *. unfold an_lo. destruct (an_piv A) as [|a r] eqn:Ea; [exfalso; apply (ok_children _ _ K Ea)|]. cbn [map app] in *.
    apply StronglySorted_inv in Hs. destruct Hs as [_ Hf]. constructor; [apply (kle_refl M mp cfg hash TO LM)|]. eapply Forall_impl; [|exact Hf]. intros; ord TO. }
  rewrite <- Ek in Hs. destruct (skip_spec n b (n_piv n) None (an_lo A) Hs Hlo) as [S1 S2]. split; [exact S1|].
  assert (Pair : forall i p p', nth_error (n_piv n) i = Some p -> nth_error (n_piv n) (S i) = Some p' -> exists a, nth_error (an_piv A) i = Some a /\ piv_rep M n p a /\ cell (akeys A) i (pv_key p) (pv_key p')).
  { intros i p p' E1 E2. destruct (r_piv _ _ _ R) as (ps & last & F1 & F2 & F3). assert (Li : i < length ps).
    { assert (S i < length (n_piv n)) by (apply nth_error_Some; congruence). rewrite F1, app_length in H. cbn in H. lia. }
    destruct (nth_error (an_piv A) i) as [a|] eqn:Ea; [|apply nth_error_None in Ea; apply Forall2_length in F3; lia].
    exists a. split; [reflexivity|]. split.
    - destruct (Forall2_nth _ _ _ F3 i a Ea) as (q & Eq & Q). rewrite F1, nth_error_app1 in E1 by exact Li. assert (q = p) by congruence. subst q. exact Q.
    - unfold cell. rewrite <- Ek. apply pairs_nth; split; apply map_nth_error; assumption. }
  split.
  - intros k v Ev K1 K2. rewrite S2. cbn [orb]. destruct (nview_at M mp cfg TO _ n A (KUser k) W K1 K2) as (i & a & hi & Er & Ea & Ei & Ev' & C1 & C2).
    assert (Q : exists p p', nth_error (n_piv n) i = Some p /\ nth_error (n_piv n) (S i) = Some p').
    { destruct (r_piv _ _ _ R) as (ps & last & F1 & F2 & F3). apply Forall2_length in F3. assert (i < length (an_piv A)) by (apply nth_error_Some; congruence).
      destruct (nth_error (n_piv n) i) as [p|] eqn:E1; [|apply nth_error_None in E1; rewrite F1, app_length in E1; cbn in E1; lia].
      destruct (nth_error (n_piv n) (S i)) as [p'|] eqn:E2; [|apply nth_error_None in E2; rewrite F1, app_length in E2; cbn in E2; lia]. eauto. }
    destruct Q as (p & p' & E1 & E2). destruct (Pair i p p' E1 E2) as (a' & Ea' & Pr & Ce). assert (a' = a) by congruence. subst a'.
    unfold cell in Ce. rewrite Ei in Ce. injection Ce as Q1 Q2. subst hi.
    rewrite (live_at n b (n_piv n) i p p' k Hs E1 E2 ltac:(rewrite <- Q1; exact C1) C2).
    pose proof (nth_error_In _ _ Ea) as Ia. rewrite (live_boff p a Pr (piv_off_ok _ _ _ _ _ _ _ W Ia)).
    assert (v = view_of n A a (pv_key p')) by congruence. subst v. rewrite (view_bundle a _ Ia). destruct (ap_boff a <=? length X); reflexivity.
  - intros k Ec. rewrite S2 in Ec. cbn [orb] in Ec. destruct (live_range _ _ _ _ Ec) as (i & p & p' & E1 & E2 & _ & C1 & C2). destruct (Pair i p p' E1 E2) as (a & _ & _ & Ce).
    destruct (cell_in_range cfg TO A _ _ (w_sorted _ _ _ _ _ _ W) (nth_error_In _ _ Ce)) as (B1 & B2 & _). split; ord TO.
Qed.
End Bundle.

Lemma sources_spec : forall ht n A X Y bs, nwf ht n A -> an_bns A = X ++ bs :: Y ->
  (forall k v, nview n (KUser k) = Some v -> kle (an_lo A) (KUser k) -> klt (KUser k) (an_hi A) -> view_ok k v) ->
  let bno := cadd MAX_BUNDLES (n_sbn n) (length X) in
  Forall branch_ok (compact_sources M cfg n bno) /\ length (compact_sources M cfg n bno) = nbr bs /\
  (forall k v, nview n (KUser k) = Some v -> kle (an_lo A) (KUser k) -> klt (KUser k) (an_hi A) ->
     key_messages k (compact_sources M cfg n bno) = match vbundle bno v with Some _ => key_messages k (brs_of bs) | None => [] end) /\
  (forall k, key_messages k (compact_sources M cfg n bno) <> [] -> kle (an_lo A) (KUser k) /\ klt (KUser k) (an_hi A)) /\
  (compact_full n bno = true -> ht = 0 /\ X = [] /\ an_whole A = []).
Proof.
  intros ht n A X Y bs W EA Hok bno. pose proof (w_rep _ _ _ _ _ _ W) as R. pose proof (w_aok _ _ _ _ _ _ W) as K. pose proof (bounds M A X Y bs K EA) as (_ & B & _).
  set (o0 := length (an_whole A) + nbr (concat X)) in *.
  assert (Es : compact_sources M cfg n bno = map (fun o => skiperator M cfg n (cadd M (n_sbr n) o)) (seq o0 (nbr bs))).
  { unfold compact_sources. cbv zeta. unfold bno. rewrite (start_branch_at M n A X Y bs R K EA), (end_branch_at M n A X Y bs R K EA). fold o0.
    rewrite cwalk_cadd by lia. rewrite map_map. replace (o0 + nbr bs - o0) with (nbr bs) by lia. reflexivity. }
  assert (Br : forall o, o0 <= o -> o < o0 + nbr bs -> nth_error (brs_of bs) (o - o0) = Some (n_br n (cadd M (n_sbr n) o))).
  { intros o Q1 Q2. destruct (nth_error (brs_of bs) (o - o0)) as [x|] eqn:Ex; [|apply nth_error_None in Ex; unfold nbr in Q2; lia]. f_equal. symmetry.
    apply (r_br _ _ _ R). rewrite (brs_split A X bs Y eq_refl EA). unfold nbr in o0. rewrite nth_error_app2 by (subst o0; unfold nbr in *; lia). rewrite nth_error_app2 by (subst o0; unfold nbr in *; lia).
    rewrite nth_error_app1 by (apply nth_error_Some in Q2 || (unfold nbr in *; subst o0; lia)). rewrite <- Ex. f_equal. subst o0. unfold nbr. lia. }
  assert (Msg : forall o k v, o0 <= o -> o < o0 + nbr bs -> nview n (KUser k) = Some v -> kle (an_lo A) (KUser k) -> klt (KUser k) (an_hi A) ->
     source_messages k (skiperator M cfg n (cadd M (n_sbr n) o)) = match vbundle bno v with Some _ => source_messages k (n_br n (cadd M (n_sbr n) o)) | None => [] end).
  { intros o k v Q1 Q2 Ev K1 K2. destruct (skiperator_spec ht n A X Y bs o W EA ltac:(subst o0; lia) ltac:(subst o0; lia)) as (S1 & S2 & _).
    unfold skiperator. rewrite (ranges_messages _ _ _ k S1), (S2 k v Ev K1 K2). fold bno. destruct (vbundle bno v); reflexivity. }
  split; [|split; [|split; [|split]]].
  - rewrite Es. rewrite Forall_forall. intros l Il. apply in_map_iff in Il. destruct Il as (o & <- & Io). apply in_seq in Io.
    destruct (skiperator_spec ht n A X Y bs o W EA ltac:(subst o0; lia) ltac:(subst o0; lia)) as (S1 & S2 & S3).
    destruct (skiperator M cfg n (cadd M (n_sbr n) o)) as [|e r] eqn:Esk; [split; constructor|]. rewrite <- Esk. unfold skiperator in *.
    eapply ranges_ascending; [|exact S1].
    destruct (ranges_in (n_br n (cadd M (n_sbr n) o)) (skip_ranges M n (cadd M (n_sbr n) o) (n_piv n) None) e ltac:(rewrite Esk; left; reflexivity)) as [_ Ce].
    destruct (S3 _ Ce) as [K1 K2]. destruct (nview_facts M mp cfg hash TO LM _ n A (KUser (fst e)) W K1 K2) as (v & Ev & _).
    specialize (S2 _ v Ev K1 K2). rewrite Ce in S2. fold bno in S2. destruct (vbundle bno v) as [b'|] eqn:Evb; [|discriminate].
    destruct (Hok _ v Ev K1 K2) as (_ & _ & F). unfold v_branches in F. apply Forall_app in F. destruct F as [_ F]. rewrite Forall_forall in F. apply F.
    assert (b' = bs).
    { destruct (nview_at M mp cfg TO _ n A (KUser (fst e)) W K1 K2) as (i & a & hi & _ & Ea & _ & Ev' & _). assert (v = view_of n A a hi) by congruence. subst v.
      unfold bno in Evb. rewrite (view_bundle ht n A X Y bs o W EA ltac:(subst o0; lia) ltac:(subst o0; lia) a hi (nth_error_In _ _ Ea)) in Evb. destruct (ap_boff a <=? length X); congruence. }
    subst b'. unfold vbundle in Evb. apply nth_error_In in Evb. apply in_split in Evb. destruct Evb as (y1 & y2 & Ey). rewrite Ey, concat_app. cbn [concat]. rewrite !brs_of_app.
    apply in_or_app. right. apply in_or_app. left. apply (nth_error_In _ (o - o0)). apply Br; lia.
  - rewrite Es, map_length, seq_length. reflexivity.
  - intros k v Ev K1 K2. rewrite Es. unfold key_messages. rewrite map_map.
    assert (Q : map (fun o => source_messages k (skiperator M cfg n (cadd M (n_sbr n) o))) (seq o0 (nbr bs)) =
                map (fun o => match vbundle bno v with Some _ => source_messages k (n_br n (cadd M (n_sbr n) o)) | None => [] end) (seq o0 (nbr bs))).
    { apply map_ext_in. intros o Io. apply in_seq in Io. apply Msg; auto; lia. }
    rewrite Q. destruct (vbundle bno v).
    + rewrite <- (map_map (fun o => n_br n (cadd M (n_sbr n) o)) (source_messages k)). do 2 f_equal. apply list_nth_ext. intro i.
      destruct (lt_dec i (nbr bs)) as [L|L].
      * rewrite (map_nth_error _ i (seq o0 (nbr bs)) (d := o0 + i)).
        2:{ rewrite (nth_error_nth' _ 0) by (rewrite seq_length; exact L). rewrite seq_nth by exact L. reflexivity. }
        rewrite <- (Br (o0 + i)) by lia. f_equal. lia.
      * assert (Q1 : nth_error (map (fun o => n_br n (cadd M (n_sbr n) o)) (seq o0 (nbr bs))) i = None) by (apply nth_error_None; rewrite map_length, seq_length; lia).
        assert (Q2 : nth_error (brs_of bs) i = None) by (apply nth_error_None; unfold nbr in L; lia). congruence.
    + clear. induction (seq o0 (nbr bs)); cbn; auto.
  - intros k N. rewrite Es in N. unfold key_messages in N. rewrite map_map in N.
    assert (Q : exists o, o0 <= o < o0 + nbr bs /\ source_messages k (skiperator M cfg n (cadd M (n_sbr n) o)) <> []).
    { assert (Q : forall l, concat (map (fun o => source_messages k (skiperator M cfg n (cadd M (n_sbr n) o))) l) <> [] -> exists o, In o l /\ source_messages k (skiperator M cfg n (cadd M (n_sbr n) o)) <> []).
      { induction l as [|o l IH]; cbn; [congruence|]. destruct (source_messages k (skiperator M cfg n (cadd M (n_sbr n) o))) eqn:Eo; cbn.
        - intro Q. destruct (IH Q) as (o' & I & Q'). eauto.
        - intros _. exists o. split; [auto|]. congruence. }
      destruct (Q _ N) as (o & I & Q'). apply in_seq in I. exists o. split; [lia | exact Q']. }
    destruct Q as (o & Lo & Q). destruct (skiperator_spec ht n A X Y bs o W EA ltac:(subst o0; lia) ltac:(subst o0; lia)) as (S1 & S2 & S3).
    unfold skiperator in Q. rewrite (ranges_messages _ _ _ k S1) in Q. apply S3. destruct (covered _ k); [reflexivity | congruence].
  - intro Q. unfold compact_full in Q. apply andb_true_iff in Q. destruct Q as [Q1 Q2]. apply Nat.eqb_eq in Q1, Q2. rewrite (w_height _ _ _ _ _ _ W) in Q1. split; [exact Q1|].
    unfold bno in Q2. rewrite (start_branch_at M n A X Y bs R K EA) in Q2. fold o0 in Q2.
    rewrite <- (cadd_0 M (n_sbr n) (r_sbr _ _ _ R)) in Q2 at 2. apply cadd_inj in Q2; [|lia|lia|lia]. subst o0. assert (Z1 : length (an_whole A) = 0) by lia. assert (Z2 : nbr (concat X) = 0) by lia.
    split; [|apply length_zero_iff_nil; exact Z1]. destruct X as [|x X']; [reflexivity|]. exfalso. pose proof (ok_nonempty _ _ K) as N1. pose proof (ok_sub_nonempty _ _ K) as N2.
    rewrite EA in N1. inversion N1 as [|? ? Nx _]; subst. destruct x as [|s x']; [congruence|]. unfold subs in N2. rewrite EA in N2. cbn in N2. inversion N2 as [|? ? Ns _]; subst.
    cbn [concat app] in Z2. rewrite nbr_cons in Z2. destruct (as_brs s); [congruence|]. cbn in Z2. lia.
Qed.

(** ** The step *)

Definition no_job (js : list job) (n : node) (bno : nat) : Prop :=
  Forall (fun j => rq_height (j_q j) = n_height n -> rq_bno (j_q j) = bno ->
                   kle (rq_hi (j_q j)) (min_key n) \/ kle (max_key n) (j_lo j) \/ (n_height n = 0 /\ n_id n <> rq_id (j_q j))) js.
Definition compact_legal (st : state) (d : nat) (target : key) (bno : nat) : Prop :=
  d <= height_of st /\ klt target KPosInf /\ bno < MAX_BUNDLES /\
  forall n, node_at cfg d target (st_tree st) = Some n -> no_job (st_jobs st) n bno.

Theorem compact_step : forall st st' d target bno, inv st -> compact_legal st d target bno -> exec st (Compact d target bno) = Some st' ->
  inv st' /\ forall x, content st' x = content st x.
Proof.
  intros st st' d target bno Hi (Ld & Ht & Lb & G) E. pose proof (i_wf _ _ _ _ _ Hi) as T. unfold TrunkTree.exec in E.
  destruct (node_view M mp cfg hash TO LM st (height_of st - d) target T ltac:(lia) Ht) as (n & A & En & W & R1 & R2 & R3 & Vn & R4).
  replace (height_of st - (height_of st - d)) with d in En by lia. rewrite En in E. specialize (G n En).
  destruct (start_compaction M cfg hash n bno) as [j|] eqn:Ej; [|discriminate]. injection E as <-.
  unfold start_compaction in Ej. destruct (bundle_live n bno) eqn:El; [|discriminate]. destruct (compact_output M cfg n bno) as [out|] eqn:Eo; [|discriminate].
  pose proof (w_rep _ _ _ _ _ _ W) as R. pose proof (w_aok _ _ _ _ _ _ W) as K.
  destruct (bundle_live_inv _ _ _ _ R K Lb El) as (x & Lx & Ebno).
  destruct (nth_error (an_bns A) x) as [bs|] eqn:Ebs; [|apply nth_error_None in Ebs; lia]. destruct (nth_error_split _ _ Ebs) as (X & Y & EA & LX). subst x.
  assert (Hok : forall k v, nview n (KUser k) = Some v -> kle (an_lo A) (KUser k) -> klt (KUser k) (an_hi A) -> view_ok k v).
  { intros k v Ev K1 K2. rewrite <- Vn in Ev by auto. apply (i_ok _ _ _ _ _ Hi (height_of st - d) k v); [lia | exact Ev]. }
  destruct (sources_spec _ n A X Y bs W EA Hok) as (S1 & S2 & S3 & S4 & S5). rewrite <- Ebno in *.
  assert (Hout : branch_ok out /\ same_effect (compact_full n bno) out (compact_sources M cfg n bno)).
  { unfold compact_output in Eo. cbv zeta in Eo. destruct (le_lt_dec 1024 (length (compact_sources M cfg n bno))) as [Lm|Lm].
    - exfalso. unfold merge_create in Eo. rewrite map_length in Eo. match type of Eo with context [MAX_MERGE_ARITY <=? ?x] => destruct (Nat.leb_spec MAX_MERGE_ARITY x) as [_|Lm2]; [discriminate|] end.
      apply (Nat.lt_irrefl 1024). eapply Nat.le_lt_trans; [exact Lm | exact Lm2].
    - destruct (compact_merge _ (compact_full n bno) S1 Lm) as (m & m' & out' & E1 & E2 & O1 & O2). rewrite E1, E2, drained_seen in Eo. injection Eo as <-. auto. }
  destruct Hout as [Ob Se]. destruct (rep_min_max _ _ _ R) as [Emin Emax].
  assert (Ok : forall e, In e out -> kle (an_lo A) (KUser (fst e)) /\ klt (KUser (fst e)) (an_hi A)).
  { intros [k m] Ie. apply S4. apply (proj2 (Se k)). destruct Ob as [Oa _]. cbn. rewrite (source_single _ _ _ Oa Ie). discriminate. }
  pose proof (node_id_lt M mp cfg hash TO LM Hmp M0 st (height_of st - d) n A Hi ltac:(lia) W R4 Vn) as Lid.
  injection Ej as <-. remember (Job _ _ _) as j eqn:Ej.
  assert (Bj : job_base (views st) (height_of st) (st_next st) j (akeys A) out).
  { apply (start_base M mp cfg hash TO LM Hmp M0 st (height_of st - d) n A j out T ltac:(lia) W R3 Vn Lid); subst j; auto. }
  assert (Eh : n_height n = height_of st - d) by apply (w_height _ _ _ _ _ _ W).
  assert (Lw : klt (an_lo A) (an_hi A)) by ord TO.
  split; [|intro x; reflexivity]. constructor; try apply Hi; cbn [st_jobs].
  - apply Forall_app. split; [exact (i_jobs _ _ _ _ _ Hi)|]. constructor; [|constructor]. exists (akeys A), out, (compact_full n bno). split; [exact Bj|].
    unfold TrunkInv.phase_ok. pose proof (jb_bound_lo _ _ _ _ _ _ _ _ Bj) as Bl. subst j. cbn [j_lo j_q j_ph rq_lo rq_hi rq_height rq_out] in *. rewrite Emin, Emax in *.
    split; [apply (kle_refl M mp cfg hash TO LM)|]. split; [exact Lw|]. split; [exact Bl|]. split; [reflexivity|]. split.
    + intros i lo hi Ce. split; [|auto]. intro Q. exfalso. destruct (cell_in_range cfg TO A _ _ (w_sorted _ _ _ _ _ _ W) (nth_error_In _ _ Ce)) as (B1 & _). ord TO.
    + intros k v (A1 & A2 & A3 & A4). cbn [j_lo j_q rq_lo rq_hi rq_height rq_id rq_bno rq_gens] in *. split; [|intro Q; exfalso; ord TO]. intros _. unfold TrunkInv.pending_at. cbn [j_lo j_q rq_lo rq_hi rq_height rq_id rq_bno rq_gens].
      change (views st (n_height n) k = Some v) in A3. rewrite Eh, Vn in A3 by auto. destruct (nview_at M mp cfg TO _ n A k W A1 A2) as (i & a & hi & _ & Ea & _ & Ev' & _). assert (v = view_of n A a hi) by congruence. subst v.
      pose proof (nth_error_In _ _ Ea) as Ia.
      assert (Nb : 0 < nbr bs).
      { assert (nbr bs <> 0); [|lia]. intro Z. pose proof (bundle_nonempty M A X Y bs K EA) as N. destruct bs as [|s r]; [congruence|]. pose proof (ok_sub_nonempty _ _ K) as N2. unfold subs in N2. rewrite EA, concat_app in N2.
        apply Forall_app in N2. destruct N2 as [_ N2]. cbn in N2. inversion N2; subst. rewrite nbr_cons in Z. destruct (as_brs s); [congruence|]. cbn in Z. lia. }
      pose proof (view_bundle _ n A X Y bs (length (an_whole A) + nbr (concat X)) W EA ltac:(lia) ltac:(lia) a hi Ia) as Evb. rewrite <- Ebno in Evb. rewrite Evb.
      destruct (Nat.leb_spec (ap_boff a) (length X)) as [L|L].
      * split; [|split].
        -- intros u ->. pose proof (S3 u _ A3 A1 A2) as Q3. rewrite Evb in Q3. rewrite <- Q3. apply (Se u).
        -- eapply (start_known M mp cfg hash TO LM Hmp M0); eauto.
        -- intro F. destruct (S5 F) as (Z1 & Z2 & Z3). split; [congruence|]. subst X. cbn [length] in *. assert (ap_boff a = 0) by lia. cbn [view_of v_bno v_whole]. rewrite H, Z3. split; [congruence | apply skipn_nil].
      * intros u ->. destruct (source_messages u out) eqn:Eu; [reflexivity|]. exfalso. apply (proj2 (Se u)); [congruence|]. rewrite (S3 u _ A3 A1 A2), Evb. reflexivity.
  - apply (excl_snoc M mp cfg hash TO LM Hmp M0); [exact (i_excl _ _ _ _ _ Hi)|]. unfold no_job in G. eapply Forall_impl; [|exact G]. intros j' Gj. unfold TrunkInv.excl.
    subst j. cbn [j_lo j_q rq_hi rq_height rq_bno rq_id].
    destruct (Nat.eq_dec (rq_height (j_q j')) (n_height n)) as [Q1|]; [|auto]. destruct (Nat.eq_dec (rq_bno (j_q j')) bno) as [Q2|]; [|auto].
    destruct (Gj Q1 Q2) as [Q|[Q|[Q3 Q4]]]; auto. do 4 right. split; [congruence | congruence].
Qed.

End Compact.
