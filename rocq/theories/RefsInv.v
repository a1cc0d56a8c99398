(** * Invariant of the tree, the requests and the record *)
From Coq Require Import List NArith ZArith Arith Bool Lia.
From Verif Require Import Base Spec Search SearchProofs TrunkKeys Refs RefsSpec RefsCount RefsLedger.
Import ListNotations.
Local Open Scope Z_scope.
Set Default Proof Using "All".
Section Inv.
Variable d : data_config.
Variable TO : total_order (key_compare d).
Notation cnt := (cnt d). Notation zov := (zov d). Notation ov := (ov d). Notation up := (up d).
Notation wsum := (wsum d). Notation sumov := (sumov d). Notation pts := (pts d). Notation delta := (delta d).
Notation asc := (asc d). Notation pcs := (pcs d). Notation M := (M d). Notation lsum := (lsum d). Notation tlsum := (tlsum d).
Notation jm := (jm d). Notation jsum := (jsum d).

(** *** Levels *)
Definition node_ok (n : rnode) : Prop := r_pivs n <> [] /\ asc (r_pivs n) (r_hi n) /\ dead_ok (r_slots n) (r_pivs n).
Fixpoint tiled (lo : key) (l : list rnode) (hi : key) : Prop :=
  match l with [] => lo = hi | n :: l' => r_lo n = lo /\ node_ok n /\ tiled (r_hi n) l' hi end.
Definition levels_ok (lv : list (list rnode)) : Prop := forall l, In l lv -> tiled KNegInf l KPosInf.

Lemma tiled_app : forall a c lo hi, tiled lo (a ++ c) hi <-> exists m, tiled lo a m /\ tiled m c hi.
Proof.
  induction a as [|n a IH]; intros c lo hi; cbn [app tiled].
  - split; [intros H; exists lo; auto | intros (m & -> & H); exact H].
  - rewrite IH. split; [intros (? & ? & m & ? & ?); exists m; auto | intros (m & (? & ? & ?) & ?); eauto].
Qed.
Lemma node_lt : forall n, node_ok n -> klt d (r_lo n) (r_hi n).
Proof. intros n (A & B & _). exact (asc_lt d TO _ _ B A). Qed.
Lemma tiled_le : forall l lo hi, tiled lo l hi -> kle d lo hi.
Proof.
  induction l as [|n l IH]; intros lo hi H; cbn [tiled] in H; [subst; ord TO|]. destruct H as (<- & O & T). specialize (IH _ _ T). pose proof (node_lt _ O). ord TO.
Qed.
Lemma tiled_mid : forall a n c lo hi, tiled lo (a ++ n :: c) hi -> tiled lo a (r_lo n) /\ node_ok n /\ tiled (r_hi n) c hi.
Proof. intros a n c lo hi H. apply tiled_app in H. destruct H as (m & H1 & H2). cbn [tiled] in H2. destruct H2 as (<- & ? & ?). auto. Qed.
Lemma tiled_in : forall l lo hi n, tiled lo l hi -> In n l -> kle d lo (r_lo n) /\ node_ok n /\ kle d (r_hi n) hi.
Proof.
  intros l lo hi n H I. apply in_split in I. destruct I as (a & c & ->). apply tiled_mid in H. destruct H as (H1 & H2 & H3).
  apply tiled_le in H1, H3. auto.
Qed.
Lemma levels_node : forall lv n, levels_ok lv -> In n (concat lv) -> node_ok n.
Proof. intros lv n L I. apply in_concat in I. destruct I as (l & I1 & I2). exact (proj1 (proj2 (tiled_in _ _ _ _ (L l I1) I2))). Qed.
Lemma in_sub : forall A i (ns : list A) l x, In x (sub i ns l) -> In x ns \/ In x l.
Proof.
  intros A i ns l. revert i. induction l as [|y l IH]; intros i x H; cbn [sub] in H; [auto|]. destruct i.
  - apply in_app_or in H. destruct H; auto. right. right. auto.
  - destruct H as [->|H]; [right; left; auto|]. destruct (IH _ _ H); auto. right. right. auto.
Qed.
Lemma levels_put : forall lv h i n ns, levels_ok lv -> node_at lv h i = Some n -> tiled (r_lo n) ns (r_hi n) -> levels_ok (put lv h i ns).
Proof.
  intros lv h i n ns L H T. unfold node_at in H. unfold put. destruct (nth_error lv h) as [l|] eqn:E; [|discriminate].
  intros l' I. apply in_sub in I. destruct I as [[<-|[]]|I]; [|apply L; auto].
  destruct (sub_split d TO _ i ns l n H) as (a & c & E1 & E2 & _). rewrite E2.
  pose proof (L l (nth_error_In _ _ E)) as TL. rewrite E1 in TL. apply tiled_mid in TL. destruct TL as (T1 & _ & T3).
  apply tiled_app. exists (r_lo n). split; auto. apply tiled_app. exists (r_hi n). auto.
Qed.
Definition bdry (lv : list (list rnode)) (h : nat) (k : key) : Prop :=
  k = KPosInf \/ exists l n, nth_error lv h = Some l /\ In n l /\ r_lo n = k.
Lemma nth_error_sub_eq : forall A h (x : A) lv y, nth_error lv h = Some y -> nth_error (sub h [x] lv) h = Some x.
Proof. intros A h x lv. revert h. induction lv as [|z lv IH]; intros [|h] y H; cbn in *; try discriminate; auto. eapply IH; eauto. Qed.
Lemma bdry_put : forall lv h i n ns h' k, node_at lv h i = Some n -> node_ok n -> tiled (r_lo n) ns (r_hi n) ->
  bdry lv h' k -> bdry (put lv h i ns) h' k.
Proof.
  intros lv h i n ns h' k H O T [B|(l & m & B1 & B2 & B3)]; [left; auto|]. right. unfold node_at in H. unfold put.
  destruct (nth_error lv h) as [l0|] eqn:E; [|discriminate]. destruct (Nat.eq_dec h h') as [<-|N].
  - assert (l = l0) by congruence. subst l. exists (sub i ns l0). rewrite (nth_error_sub_eq _ _ _ _ _ E).
    destruct (sub_split d TO _ i ns l0 n H) as (a & c & E1 & E2 & _). rewrite E2. rewrite E1 in B2. apply in_app_or in B2.
    destruct B2 as [B2|[B2|B2]].
    + exists m. repeat split; auto. apply in_or_app. auto.
    + subst m. pose proof (node_lt _ O) as LT. destruct ns as [|m ns]; cbn [tiled] in T; [exfalso; rewrite T in LT; ord TO|].
      exists m. repeat split; [apply in_or_app; right; left; auto | destruct T; congruence].
    + exists m. repeat split; auto. apply in_or_app. right. apply in_or_app. auto.
  - exists l, m. rewrite (nth_error_sub_ne d TO _ _ _ _ (sub i ns l0)); auto.
Qed.
Lemma bdry_inside : forall lv h i n k, levels_ok lv -> node_at lv h i = Some n -> bdry lv h k -> kle d (r_lo n) k -> klt d k (r_hi n) -> k = r_lo n.
Proof.
  intros lv h i n k L H B K1 K2. unfold node_at in H. destruct (nth_error lv h) as [l|] eqn:E; [|discriminate].
  pose proof (L l (nth_error_In _ _ E)) as T. destruct (sub_split d TO _ i [] l n H) as (a & c & E1 & _ & _). rewrite E1 in T.
  apply tiled_mid in T. destruct T as (T1 & T2 & T3). destruct B as [->|(l' & m & B1 & B2 & B3)].
  - exfalso. pose proof (kle_pos_inf d (r_hi n)). ord TO.
  - assert (l' = l) by congruence. subst l' k. rewrite E1 in B2. apply in_app_or in B2. destruct B2 as [B2|[B2|B2]].
    + destruct (tiled_in _ _ _ _ T1 B2) as (_ & X1 & X2). pose proof (node_lt _ X1). exfalso. ord TO.
    + congruence.
    + destruct (tiled_in _ _ _ _ T3 B2) as (X0 & _). exfalso. ord TO.
Qed.
Lemma bdry_hi : forall lv h i n, levels_ok lv -> node_at lv h i = Some n -> bdry lv h (r_hi n).
Proof.
  intros lv h i n L H. unfold node_at in H. destruct (nth_error lv h) as [l|] eqn:E; [|discriminate].
  pose proof (L l (nth_error_In _ _ E)) as T. destruct (sub_split d TO _ i [] l n H) as (a & c & E1 & _ & _). pose proof T as T'. rewrite E1 in T'.
  apply tiled_mid in T'. destruct T' as (T1 & T2 & T3). destruct c as [|m c]; cbn [tiled] in T3; [left; exact T3|].
  right. exists l, m. split; auto. rewrite E1. split; [apply in_or_app; right; right; left; auto | tauto].
Qed.
Lemma bdry_lo : forall lv h i n, node_at lv h i = Some n -> bdry lv h (r_lo n).
Proof.
  intros lv h i n H. unfold node_at in H. destruct (nth_error lv h) as [l|] eqn:E; [|discriminate].
  right. exists l, n. repeat split; auto. eapply nth_error_In; eauto.
Qed.
Lemma concat_put_in : forall lv h i ns n x, node_at lv h i = Some n -> In x (concat (put lv h i ns)) -> In x ns \/ In x (concat lv).
Proof.
  intros lv h i ns n x H I. destruct (put_split d TO _ _ _ ns _ H) as (a & c & E1 & E2). rewrite E1. rewrite E2 in I.
  apply in_app_or in I. destruct I as [I|I]; [right; apply in_or_app; auto|]. apply in_app_or in I. destruct I as [I|I]; auto.
  right. apply in_or_app. right. right. auto.
Qed.

(** *** Only the bundles that no request before number [j] will replace *)
Definition young (j : nat) (s : slot) : bool := match s_tag s with None => true | Some t => (j <=? t)%nat end.
Definition mslot (j : nat) (s : slot) : slot := if young j s then s else Slot (s_tag s) [].
Definition mnode (j : nat) (n : rnode) : rnode := RNode (r_id n) (r_pivs n) (r_hi n) (map (mslot j) (r_slots n)).
Definition pcsj (j : nat) (b : bid) (e : xt) (lv : list (list rnode)) : Z := pcs b e (map (map (mnode j)) lv).

Lemma map_sub : forall A B (f : A -> B) i ns l, map f (sub i ns l) = sub i (map f ns) (map f l).
Proof.
  intros A B f i ns l. revert i. induction l as [|x l IH]; intros [|i]; cbn [sub map]; auto.
  - apply map_app.
  - rewrite IH. reflexivity.
Qed.
Lemma nth_error_map' : forall A B (f : A -> B) l i, nth_error (map f l) i = option_map f (nth_error l i).
Proof. induction l; intros [|i]; cbn; auto. Qed.
Lemma mask_put : forall j lv h i ns, map (map (mnode j)) (put lv h i ns) = put (map (map (mnode j)) lv) h i (map (mnode j) ns).
Proof.
  intros. unfold put. rewrite nth_error_map'. destruct (nth_error lv h); cbn [option_map]; [|reflexivity]. rewrite map_sub. cbn [map]. rewrite map_sub. reflexivity.
Qed.
Lemma mask_at : forall j lv h i, node_at (map (map (mnode j)) lv) h i = option_map (mnode j) (node_at lv h i).
Proof. intros. unfold node_at. rewrite nth_error_map'. destruct (nth_error lv h); cbn [option_map]; [|reflexivity]. apply nth_error_map'. Qed.
Definition nw (j : nat) (b : bid) (e : xt) (n : rnode) : Z := wsum b (map (mslot j) (r_slots n)) (r_pivs n) (r_hi n) e.
Fixpoint nws (j : nat) (b : bid) (e : xt) (l : list rnode) : Z := match l with [] => 0 | n :: l' => nw j b e n + nws j b e l' end.
Lemma nw_cnt : forall j b e n, cnt b e (node_pieces (mnode j n)) = nw j b e n.
Proof. intros. unfold node_pieces, nw. cbn [mnode r_slots r_pivs r_hi]. apply cnt_pieces. exact TO. Qed.
Lemma pcsj_put : forall j b e lv h i ns n, node_at lv h i = Some n ->
  pcsj j b e (put lv h i ns) = pcsj j b e lv - nw j b e n + nws j b e ns.
Proof.
  intros. unfold pcsj. rewrite mask_put. rewrite (pcs_put d TO b e _ h i _ (mnode j n)) by (rewrite mask_at, H; reflexivity).
  rewrite nw_cnt. f_equal. induction ns as [|x ns IH]; [reflexivity|]. cbn [map flat_map nws]. rewrite cnt_app, nw_cnt, IH by exact TO. reflexivity.
Qed.
Lemma mslot_0 : forall s, mslot 0 s = s.
Proof. intros [[t|] bs]; reflexivity. Qed.
Lemma pcsj_0 : forall b e lv, pcsj 0 b e lv = pcs b e lv.
Proof.
  intros. unfold pcsj. f_equal. rewrite <- (map_id lv) at 2. apply map_ext. intros l. rewrite <- (map_id l) at 2. apply map_ext.
  intros [i p h sl]. unfold mnode. cbn. f_equal. rewrite <- (map_id sl) at 2. apply map_ext. apply mslot_0.
Qed.
Lemma mslot_occ : forall j b s, occ b (s_brs (mslot j s)) <= occ b (s_brs s).
Proof. intros. unfold mslot. destruct (young j s); [lia|]. cbn. apply (occ_nn d TO). Qed.
Lemma mslots_occ : forall j b l, occ b (flat_map s_brs (map (mslot j) l)) <= occ b (flat_map s_brs l).
Proof. intros j b. induction l as [|s l IH]; cbn [map flat_map]; [lia|]. rewrite !(occ_app d TO). pose proof (mslot_occ j b s). lia. Qed.
Lemma skipn_map' : forall A B (f : A -> B) n l, skipn n (map f l) = map f (skipn n l).
Proof. induction n; intros [|x l]; cbn; auto. Qed.
Lemma mlive_occ : forall j b sl p, occ b (live_brs (map (mslot j) sl) p) <= occ b (live_brs sl p).
Proof. intros. unfold live_brs. rewrite skipn_map'. apply mslots_occ. Qed.
Lemma dead_ok_m : forall j sl l, dead_ok sl l -> dead_ok (map (mslot j) sl) l.
Proof. intros j sl l H p I. rewrite map_length. apply H. exact I. Qed.

Lemma wsum_app : forall b sl l l' hi e, wsum b sl (l ++ l') hi e = wsum b sl l (next_key l' hi) e + wsum b sl l' hi e.
Proof. intros. rewrite <- !(cnt_pieces d TO). rewrite (pieces_app d TO), (cnt_app d TO). reflexivity. Qed.

(** *** The invariant *)
Definition slot_ok (s : rst) (sl : slot) : Prop :=
  (forall t, s_tag sl = Some t -> (t < t_job s)%nat) /\ (forall b, In b (s_brs sl) -> made (t_led s) b).
Definition job_ok (s : rst) (j : job) : Prop :=
  (j_id j < t_job s)%nat /\
  bdry (t_lev s) (j_h j) (j_lo j) /\ bdry (t_lev s) (j_h j) (j_hi j) /\ klt d (j_lo j) (j_hi j) /\
  (forall b r, In (b, r) (j_src j) -> made (t_led s) b) /\
  match j_ph j with
  | Placing ob pos reps lost =>
      bdry (t_lev s) (j_h j) pos /\ kle d (j_lo j) pos /\ klt d pos (j_hi j) /\ lost_ok d lost /\
      (reps = 0%nat -> forall e, lsum lost e = up (j_lo j) e - up pos e) /\
      (j_h j = 0%nat -> pos = j_lo j /\ lost = []) /\
      (forall b, ob = Some b -> In (EvNew b (j_lo j) (j_hi j)) (t_led s))
  | _ => True
  end.
Definition cov (s : rst) : Prop := forall j b r e, In j (t_jobs s) -> j_ph j = Queued -> In (b, r) (j_src j) ->
  kle d (fst e) (snd e) -> ov r e = true -> 1 <= pcsj (j_id j) b e (t_lev s).
Record Inv (s : rst) : Prop := {
  i_lev : levels_ok (t_lev s);
  i_top : forall l, nth_error (t_lev s) (pred (length (t_lev s))) = Some l -> length l = 1%nat;
  i_ids : NoDup (map j_id (t_jobs s));
  i_slots : forall n sl, In n (concat (t_lev s)) -> In sl (r_slots n) -> slot_ok s sl;
  i_jobs : forall j, In j (t_jobs s) -> job_ok s j;
  i_lost : forall p, In p (t_lost s) -> made (t_led s) (fst p) /\ kle d (fst (snd p)) (snd (snd p));
  i_cnt : cnt_ok d s;
  i_led : led_ok (t_led s);
  i_cov : cov s
}.

Lemma jm_nn : forall s j b e, job_ok s j -> 0 <= jm b e j.
Proof.
  intros s j b e (_ & _ & _ & _ & _ & H). unfold RefsLedger.jm. destruct (j_ph j) as [| |[b'|] pos reps lost]; try lia.
  - apply cnt_nn. exact TO.
  - destruct H as (_ & _ & _ & H & _). destruct (_ =? _)%nat; [|lia]. pose proof (lsum_nn d TO e lost H). pose proof (up_01 d TO pos e). lia.
Qed.
Lemma jsum_nn : forall s b e l, (forall j, In j l -> job_ok s j) -> 0 <= jsum b e l.
Proof. induction l as [|j l IH]; intros H; cbn [RefsLedger.jsum]; [lia|]. pose proof (jm_nn s j b e (H j (or_introl eq_refl))). specialize (IH (fun j I => H j (or_intror I))). lia. Qed.
Lemma M_nn' : forall s b e, (forall j, In j (t_jobs s) -> job_ok s j) -> (forall p, In p (t_lost s) -> made (t_led s) (fst p) /\ kle d (fst (snd p)) (snd (snd p))) -> 0 <= M s b e.
Proof.
  intros s b e J L. unfold RefsLedger.M, RefsCount.pcs. pose proof (cnt_nn d TO b e (all_pieces (t_lev s))). pose proof (jsum_nn s b e _ J).
  pose proof (tlsum_nn d TO b e (t_lost s) (fun p I => proj2 (L p I))). lia.
Qed.
Lemma M_nn : forall s b e, Inv s -> 0 <= M s b e.
Proof. intros s b e I. apply M_nn'; apply I. Qed.
Lemma M_pcs : forall s b e, Inv s -> pcs b e (t_lev s) <= M s b e.
Proof.
  intros s b e I. unfold RefsLedger.M. pose proof (jsum_nn s b e _ (i_jobs _ I)).
  pose proof (tlsum_nn d TO b e (t_lost s) (fun p H => proj2 (i_lost _ I p H))). lia.
Qed.
Lemma M_jm : forall s b e j, Inv s -> In j (t_jobs s) -> jm b e j <= M s b e.
Proof.
  intros s b e j I IJ. unfold RefsLedger.M, RefsCount.pcs. pose proof (cnt_nn d TO b e (all_pieces (t_lev s))).
  pose proof (tlsum_nn d TO b e (t_lost s) (fun p H => proj2 (i_lost _ I p H))).
  assert (jm b e j <= jsum b e (t_jobs s)); [|lia]. pose proof (i_jobs _ I) as J. clear - IJ J TO.
  apply in_split in IJ. destruct IJ as (a & c & E). rewrite E in *. rewrite (jsum_app d TO). cbn [RefsLedger.jsum].
  assert (0 <= jsum b e a) by (apply (jsum_nn s); intros; apply J; apply in_or_app; auto).
  assert (0 <= jsum b e c) by (apply (jsum_nn s); intros; apply J; apply in_or_app; right; right; auto). lia.
Qed.

(** A branch that was not built has no references. *)
Lemma pieces_in : forall b r sl l hi, In (b, r) (pieces sl l hi) -> exists s, In s sl /\ In b (s_brs s).
Proof.
  induction l as [|p l IH]; intros hi H; cbn [pieces] in H; [contradiction|]. apply in_app_or in H. destruct H as [H|H]; [|eauto].
  apply in_map_iff in H. destruct H as (x & E & I). inversion E; subst. unfold live_brs in I. apply in_flat_map in I. destruct I as (s & I1 & I2).
  exists s. split; auto. rewrite <- (firstn_skipn (p_dead p) sl). apply in_or_app. auto.
Qed.
Lemma M_unmade : forall s b e, Inv s -> ~ made (t_led s) b -> M s b e = 0.
Proof.
  intros s b e I N. unfold RefsLedger.M, RefsCount.pcs.
  assert (A : cnt b e (all_pieces (t_lev s)) = 0).
  { pose proof (cnt_nn d TO b e (all_pieces (t_lev s))). destruct (Z_le_dec 1 (cnt b e (all_pieces (t_lev s)))) as [L|L]; [|lia]. exfalso.
    apply (cnt_pos d TO) in L. destruct L as (r & L & _). unfold all_pieces in L. apply in_flat_map in L. destruct L as (n & L1 & L2).
    apply pieces_in in L2. destruct L2 as (sl & L2 & L3). apply N. exact (proj2 (i_slots _ I n sl L1 L2) _ L3). }
  assert (B : jsum b e (t_jobs s) = 0).
  { pose proof (i_jobs _ I) as J. clear - J N TO. induction (t_jobs s) as [|j l IH]; [reflexivity|]. cbn [RefsLedger.jsum]. rewrite IH by (intros; apply J; right; auto).
    destruct (J j (or_introl eq_refl)) as (_ & _ & _ & _ & S & P). unfold RefsLedger.jm. destruct (j_ph j) as [| |[b'|] pos reps lost]; try lia.
    - pose proof (cnt_nn d TO b e (j_src j)). destruct (Z_le_dec 1 (cnt b e (j_src j))) as [L|L]; [|lia]. exfalso.
      apply (cnt_pos d TO) in L. destruct L as (r & L & _). exact (N (S _ _ L)).
    - destruct (Nat.eqb_spec b' b); [|lia]. subst. exfalso. apply N. destruct P as (_ & _ & _ & _ & _ & _ & P). exists (j_lo j), (j_hi j). auto. }
  assert (C : tlsum b e (t_lost s) = 0).
  { pose proof (i_lost _ I) as L. clear - L N TO. induction (t_lost s) as [|p l IH]; [reflexivity|]. cbn [RefsLedger.tlsum]. rewrite IH by (intros; apply L; right; auto).
    destruct (Nat.eqb_spec (fst p) b); [|lia]. exfalso. apply N. subst. exact (proj1 (L p (or_introl eq_refl))). }
  lia.
Qed.

Lemma made_app : forall l l' b, made l b -> made (l ++ l') b.
Proof. intros l l' b (lo & hi & H). exists lo, hi. apply in_or_app. auto. Qed.
Lemma slot_lift : forall s s' sl, slot_ok s sl -> (t_job s <= t_job s')%nat -> (exists evs, t_led s' = t_led s ++ evs) -> slot_ok s' sl.
Proof.
  intros s s' sl [A B] J (evs & E). split.
  - intros t H. specialize (A t H). lia.
  - intros b H. rewrite E. apply made_app. auto.
Qed.
Lemma job_lift : forall s s' j, job_ok s j -> (t_job s <= t_job s')%nat -> (exists evs, t_led s' = t_led s ++ evs) ->
  (forall h k, bdry (t_lev s) h k -> bdry (t_lev s') h k) -> job_ok s' j.
Proof.
  intros s s' j (A1 & A2 & A3 & A4 & A5 & A6) J (evs & E) B. split; [lia|]. split; [auto|]. split; [auto|]. split; [auto|]. split.
  - intros. rewrite E. apply made_app. eauto.
  - destruct (j_ph j); auto. destruct A6 as (X1 & X2 & X3 & X4 & X5 & X6 & X7). repeat (split; auto).
    intros. rewrite E. apply in_or_app. auto.
Qed.

(** A step that changes the tree only *)
Lemma tree_step : forall s s', Inv s -> t_jobs s' = t_jobs s -> t_lost s' = t_lost s -> t_job s' = t_job s ->
  (exists evs, t_led s' = t_led s ++ evs) -> levels_ok (t_lev s') ->
  (forall l, nth_error (t_lev s') (pred (length (t_lev s'))) = Some l -> length l = 1%nat) ->
  (forall h k, bdry (t_lev s) h k -> bdry (t_lev s') h k) ->
  (forall n sl, In n (concat (t_lev s')) -> In sl (r_slots n) -> slot_ok s' sl) ->
  (forall j b e, kle d (fst e) (snd e) -> pcsj j b e (t_lev s) <= pcsj j b e (t_lev s')) ->
  ((forall b e, 0 <= M s' b e) -> cnt_ok d s' /\ led_ok (t_led s')) ->
  Inv s'.
Proof.
  intros s s' I EJ EL ET EV LV TOP BD SL MONO CERT.
  assert (JO : forall j, In j (t_jobs s') -> job_ok s' j).
  { intros j H. rewrite EJ in H. apply (job_lift s); auto; [apply I; auto | lia]. }
  assert (LO : forall p, In p (t_lost s') -> made (t_led s') (fst p) /\ kle d (fst (snd p)) (snd (snd p))).
  { intros p H. rewrite EL in H. destruct (i_lost _ I p H) as [X Y]. split; auto. destruct EV as (evs & ->). apply made_app. exact X. }
  destruct CERT as [C1 C2]. { intros. apply M_nn'; auto. }
  constructor; auto.
  - rewrite EJ. apply I.
  - intros j b r e H1 H2 H3 H4 H5. rewrite EJ in H1. pose proof (i_cov _ I j b r e H1 H2 H3 H4 H5). pose proof (MONO (j_id j) b e H4). lia.
Qed.

Lemma top_put : forall lv h i x l, (forall l, nth_error lv (pred (length lv)) = Some l -> length l = 1%nat) ->
  (h <> pred (length lv) \/ length x = 1%nat) ->
  nth_error (put lv h i x) (pred (length (put lv h i x))) = Some l -> length l = 1%nat.
Proof.
  assert (LS : forall A i (x : A) l, length (sub i [x] l) = length l).
  { intros A i x l. revert i. induction l; intros [|i]; cbn [sub app length]; auto. }
  intros lv h i x l T H E. unfold put in E. destruct (nth_error lv h) as [l0|] eqn:E0; [|auto].
  rewrite LS in E. destruct (Nat.eq_dec h (pred (length lv))) as [Q|Q].
  - destruct H as [H|H]; [contradiction|]. rewrite <- Q in E. rewrite (nth_error_sub_eq _ _ _ _ _ E0) in E. inversion E; subst l.
    destruct x as [|x [|? ?]]; try discriminate. rewrite LS. apply T. rewrite <- Q. exact E0.
  - rewrite (nth_error_sub_ne d TO _ _ _ _ (sub i x l0)) in E by auto. apply T. exact E.
Qed.
End Inv.
