(** * The invariant when a compaction builds and installs its filters *)

From Coq Require Import List Arith NArith ZArith Lia Bool Sorted.
From Verif Require Import Base Spec Spec_Merge DataProofs Search.
From Verif Require Import TrunkNode TrunkRing TrunkRep TrunkOps TrunkReset TrunkFlush TrunkClear TrunkReplace TrunkSplit.
From Verif Require Import TrunkAlpha TrunkKeys TrunkView TrunkTree TrunkShape TrunkLookup TrunkEffects TrunkInstall TrunkSplitEff TrunkInv TrunkInvMem TrunkInvNode TrunkInvFlush TrunkInvSplit TrunkInvCompact TrunkInvJob TrunkInvReplace.
Import ListNotations.
Local Open Scope nat_scope.

Set Default Proof Using "All".
Section Bld.
Variables (M mp : nat) (cfg : data_config) (hash : bytes -> N).
Hypothesis TO : total_order (key_compare cfg).
Hypothesis LM : lawful_merge cfg.
Hypothesis Hmp : mp <= MAX_PIVOTS.
Hypothesis M0 : 0 < M.
Local Notation klt := (klt cfg).
Local Notation kle := (kle cfg).
Local Notation nwf := (nwf M mp cfg).
Local Notation twf := (twf M mp cfg).
Local Notation nview := (nview M cfg).
Local Notation view_at := (view_at M cfg).
Local Notation branch_ok := (branch_ok cfg).
Local Notation view_ok := (view_ok cfg hash).
Local Notation views := (views M cfg).
Local Notation swf := (swf M mp cfg).
Local Notation content := (content M cfg).
Local Notation job_ok := (job_ok cfg hash).
Local Notation job_base := (job_base cfg hash).
Local Notation inv := (inv M mp cfg hash).
Local Notation exec := (exec M mp cfg hash).
Local Notation bound := (bound cfg).
Local Notation count := (count cfg).
Local Notation excl := (excl cfg).
Local Notation local := (local M mp cfg).

Local Notation phase_ok := (phase_ok cfg).
Local Notation active := (active cfg).

(** ** The fingerprints of a cell *)

Definition before (c : key) (e : bytes * message) : bool := (data_key_compare cfg (KUser (fst e)) c <? 0)%Z.
Lemma before_iff : forall c e, before c e = true <-> klt (KUser (fst e)) c.
Proof. intros. unfold before, TrunkKeys.klt. apply Z.ltb_lt. Qed.
Lemma before_not : forall c e, before c e = false <-> kle c (KUser (fst e)).
Proof.
  intros. split; intro H.
  - destruct (kle_lt_dec cfg TO c (KUser (fst e))) as [L|L]; [exact L|]. apply before_iff in L. congruence.
  - destruct (before c e) eqn:E; [|reflexivity]. apply before_iff in E. exfalso. ord TO.
Qed.
Lemma cut_sorted : forall c (l : branch), ascending (key_compare cfg) l -> l = filter (before c) l ++ filter (fun e => negb (before c e)) l.
Proof.
  intros c l. unfold ascending. induction l as [|e l IH]; intro Hs; [reflexivity|]. apply StronglySorted_inv in Hs. destruct Hs as [Hs Hf]. cbn [filter].
  destruct (before c e) eqn:E; cbn [negb app]; [f_equal; apply IH; exact Hs|].
  assert (Hl : forall x, In x l -> before c x = false).
  { intros x Ix. rewrite Forall_forall in Hf. specialize (Hf x Ix). apply before_not in E. apply before_not. assert (Q : klt (KUser (fst e)) (KUser (fst x))) by exact Hf. ord TO. }
  assert (E1 : filter (before c) l = []) by (clear - Hl; induction l as [|x l IH]; [reflexivity|]; cbn; rewrite (Hl x) by (left; reflexivity); apply IH; intros; apply Hl; right; auto).
  assert (E2 : filter (fun x => negb (before c x)) l = l) by (clear - Hl; induction l as [|x l IH]; [reflexivity|]; cbn; rewrite (Hl x) by (left; reflexivity); cbn; f_equal; apply IH; intros; apply Hl; right; auto).
  rewrite E1, E2. reflexivity.
Qed.
Lemma count_split : forall lo hi (l : branch), kle lo hi -> length (filter (before hi) l) = length (filter (before lo) l) + count lo hi l.
Proof.
  intros lo hi l L. unfold TrunkInv.count, branch_range. induction l as [|e l IH]; [reflexivity|]. cbn [filter].
  destruct (before lo e) eqn:E1; destruct (before hi e) eqn:E2; destruct (key_in cfg lo hi (fst e)) eqn:E3; cbn [length]; try lia; exfalso;
    rewrite ?before_iff, ?before_not in *; try (apply (key_in_iff M mp cfg hash TO LM Hmp M0) in E3; destruct E3; ord TO); try ord TO.
  assert (key_in cfg lo hi (fst e) = true) by (apply (key_in_iff M mp cfg hash TO LM Hmp M0); auto). congruence.
Qed.

Lemma sum_out_S : forall q i, sum_out q (S i) = sum_out q i + rq_out q i.
Proof.
  intros q i. unfold sum_out. rewrite seq_S. rewrite fold_right_app. cbn [fold_right plus].
  assert (G : forall l z, fold_right (fun j a => rq_out q j + a) z l = fold_right (fun j a => rq_out q j + a) 0 l + z) by (induction l as [|x l IH]; intro z; cbn; [reflexivity | rewrite IH; lia]).
  rewrite G. lia.
Qed.

Lemma sum_before : forall V H nx j ks out, job_base V H nx j ks out -> counted cfg j ks out ->
  forall i lo, nth_error ks i = Some lo -> length (filter (before lo) out) = sum_out (j_q j) i.
Proof.
  intros V H nx j ks out B Hc. induction i as [|i IH]; intros lo E.
  - destruct (jb_ends _ _ _ _ _ _ _ _ B) as (mid & Ek). rewrite Ek in E. cbn in E. injection E as <-.
    assert (E0 : filter (before (j_lo j)) out = []).
    { pose proof (jb_keys _ _ _ _ _ _ _ _ B) as Kk. clear - Kk TO hash LM Hmp M0. induction out as [|e l IH]; [reflexivity|]. cbn. rewrite (proj2 (before_not (j_lo j) e)) by (apply Kk; left; reflexivity). apply IH. intros; apply Kk; right; auto. }
    rewrite E0. reflexivity.
  - destruct (nth_error ks i) as [lo0|] eqn:E0; [|apply nth_error_None in E0; assert (nth_error ks (S i) <> None) by congruence; apply nth_error_Some in H0; lia].
    assert (Ce : cell ks i lo0 lo) by (apply pairs_nth; auto). destruct (cell_ends M mp cfg hash TO LM Hmp M0 _ _ _ _ _ _ _ _ _ B Ce) as (_ & C2 & _).
    rewrite (count_split lo0 lo) by ord TO. rewrite (IH lo0 eq_refl), sum_out_S, (Hc i lo0 lo Ce). reflexivity.
Qed.
Lemma slice_range : forall V H nx j ks out, job_base V H nx j ks out -> counted cfg j ks out -> forall i lo hi, cell ks i lo hi ->
  slice (j_q j) i = map (fun e => hash (fst e)) (branch_range cfg lo hi out).
Proof.
  intros V H nx j ks out B Hc i lo hi Ce. unfold slice. rewrite (jb_fps _ _ _ _ _ _ _ _ B), skipn_map, firstn_map. f_equal.
  rewrite (Hc i lo hi Ce). destruct (cell_ends M mp cfg hash TO LM Hmp M0 _ _ _ _ _ _ _ _ _ B Ce) as (_ & C2 & _). pose proof Ce as Ce'. apply pairs_nth in Ce'. destruct Ce' as [E1 E2].
  rewrite <- (sum_before _ _ _ _ _ _ B Hc i lo E1). pose proof (jb_out _ _ _ _ _ _ _ _ B) as [Ha _].
  set (up := filter (fun e => negb (before lo e)) out).
  assert (Eup : skipn (length (filter (before lo) out)) out = up).
  { rewrite (cut_sorted lo out Ha) at 2. fold up. generalize (filter (before lo) out) as x. intro x. rewrite skipn_app, skipn_all, Nat.sub_diag. reflexivity. }
  rewrite Eup. assert (Hu : ascending (key_compare cfg) up) by (apply (ascending_filter M mp cfg hash TO LM Hmp M0); exact Ha).
  assert (Eu : filter (before hi) up = branch_range cfg lo hi out).
  { unfold up, branch_range. clear - TO LM Hmp M0 hash C2. induction out as [|e l IH]; [reflexivity|]. cbn [filter]. destruct (before lo e) eqn:E1; cbn [negb].
    - rewrite IH. destruct (key_in cfg lo hi (fst e)) eqn:E3; [|reflexivity]. apply (key_in_iff M mp cfg hash TO LM Hmp M0) in E3. apply before_iff in E1. exfalso. destruct E3. ord TO.
    - cbn [filter]. rewrite IH. apply before_not in E1. destruct (before hi e) eqn:E2.
      + apply before_iff in E2. rewrite (proj2 (key_in_iff M mp cfg hash TO LM Hmp M0 lo hi (fst e))) by auto. reflexivity.
      + apply before_not in E2. destruct (key_in cfg lo hi (fst e)) eqn:E3; [|reflexivity]. apply (key_in_iff M mp cfg hash TO LM Hmp M0) in E3. exfalso. destruct E3. ord TO. }
  rewrite (cut_sorted hi up Hu), Eu. unfold TrunkInv.count. rewrite firstn_app, firstn_all, Nat.sub_diag. cbn [firstn]. apply app_nil_r.
Qed.

(** ** Building *)

Theorem build_step_inv : forall st i st', inv st -> exec st (BuildStep i) = Some st' -> inv st' /\ forall x, content st' x = content st x.
Proof.
  intros st i st' Hi E. pose proof (i_wf _ _ _ _ _ Hi) as T. cbn [TrunkTree.exec] in E.
  destruct (nth_error (st_jobs st) i) as [j|] eqn:Ej; [|discriminate].
  destruct (node_at cfg (height_of st - rq_height (j_q j)) (rq_lo (j_q j)) (st_tree st)) as [n|] eqn:En; [|discriminate].
  destruct (build_step M cfg n j) as [o|] eqn:Er; [|discriminate]. injection E as <-.
  pose proof (i_jobs _ _ _ _ _ Hi) as Fj. rewrite Forall_forall in Fj. destruct (Fj j (nth_error_In _ _ Ej)) as (ks & out & full & B & Ph).
  unfold build_step in Er. cbv zeta in Er. destruct (j_ph j) as [oo any| |] eqn:Eph; try discriminate.
  apply (job_quiet M mp cfg hash TO LM Hmp M0 st i j o Hi Ej).
  pose proof Ph as Ph0. unfold TrunkInv.phase_ok in Ph. rewrite Eph in Ph. destruct Ph as (P1 & P2 & P3 & P4 & P5).
  pose proof (jb_height _ _ _ _ _ _ _ _ B) as Lh. pose proof (jb_bound_hi _ _ _ _ _ _ _ _ B) as Bh. pose proof (jb_bno _ _ _ _ _ _ _ _ B) as Lb. pose proof (jb_top _ _ _ _ _ _ _ _ B) as [Tl Tu].
  assert (Hc : klt (rq_lo (j_q j)) KPosInf) by ord TO.
  destruct (job_node M mp cfg hash TO LM Hmp M0 st j (rq_lo (j_q j)) Hi Lh Hc P3 P2 Bh) as (n0 & A & En0 & W & EA & R1 & R2 & R3 & R4 & Vn).
  assert (n0 = n) by congruence. subst n0. pose proof (w_height _ _ _ _ _ _ W) as Hh.
  assert (Hu : kle (an_hi A) KPosInf) by ord TO.
  destruct (rep_min_max M n A (w_rep _ _ _ _ _ _ W)) as [_ Emx].
  destruct (node_bounds M mp cfg hash TO LM Hmp M0 st (rq_height (j_q j)) n A T Lh W Hu Vn) as [Bn1 Bn2].
  destruct ((n_height n =? 0) && negb (n_id n =? rq_id (j_q j))) eqn:Eid; [injection Er as <-; exact I|].
  destruct (negb (bundle_live n (rq_bno (j_q j)))).
  { injection Er as <-. unfold next_build. destruct (Z.ltb_spec (data_key_compare cfg (max_key n) (rq_hi (j_q j))) 0) as [L|L]; [|exact I]. rewrite Emx in *.
    assert (L' : klt (an_hi A) (rq_hi (j_q j))) by exact L. split; [repeat split; reflexivity|]. exists ks, out, full. split.
    - destruct B as [b1 b2 b3 b4 b5 b6 b7 b8 b9 b10 b11 b12 b13 b14 b15]. constructor; assumption.
    - unfold TrunkInv.phase_ok. cbn [j_q j_ph j_lo set_lo rq_lo rq_hi rq_height rq_out]. split; [ord TO|]. split; [exact L'|]. split; [exact Bn2|]. split; [exact P4 | exact P5]. }
  destruct (Nat.eqb_spec (rq_bno (j_q j)) (n_sbn n)) as [Es|Ns]; cbn [negb] in Er.
  2: { injection Er as <-. split; [repeat split; reflexivity|]. exists ks, out, full. auto. }
  destruct (prepare_build_filter M n (j_q j)) as [s|] eqn:Es1; [|discriminate]. destruct (build_filters (j_q j) s) as [s'|] eqn:Es2; [|discriminate]. injection Er as <-.
  destruct (build_effect M mp cfg TO _ n A (j_q j) s s' W Es Es1 Es2) as (_ & S1 & S2 & S3).
  split; [repeat split; reflexivity|]. exists ks, out, full. split.
  - destruct B as [b1 b2 b3 b4 b5 b6 b7 b8 b9 b10 b11 b12 b13 b14 b15]. constructor; assumption.
  - unfold TrunkInv.phase_ok. cbn [j_q j_ph j_lo]. split; [exact P1|]. split; [exact P2|]. split; [exact P3|]. split; [exact P4|]. split; [exact P5|]. rewrite S1, S2.
    split; [ord TO|]. split; [ord TO|]. split; [exact R4|]. split; [exact Bn1|]. split; [exact Bn2|].
    intros k v b (A1 & A2 & A3 & A4) K1 K2 Eb. cbn [j_q] in A3. rewrite Vn in A3 by auto. destruct (S3 k v b K1 K2 A3 Eb) as (Q1 & _ & Q2). split; [exact Q1 | exact Q2].
Qed.

(** ** Installing *)

Lemma csub_next : forall m a b, a < m -> b < m -> a <> b -> csub m a b = S (csub m a (cadd m b 1)).
Proof.
  intros m a b La Lb N. Transparent csub cadd. unfold csub, cadd. Opaque csub cadd.
  assert (G : forall x s, x < m -> s < m -> (x + m - s) mod m = if s <=? x then x - s else x + m - s).
  { intros x s Lx Ls. destruct (Nat.leb_spec s x). - replace (x + m - s) with ((x - s) + 1 * m) by lia. rewrite Nat.mod_add by lia. apply Nat.mod_small. lia. - apply Nat.mod_small. lia. }
  destruct (Nat.eq_dec (S b) m) as [Q|Q].
  - replace (b + 1) with (0 + 1 * m) by lia. rewrite Nat.mod_add, Nat.mod_0_l by lia. rewrite !G by lia. destruct (Nat.leb_spec b a); destruct (Nat.leb_spec 0 a); lia.
  - rewrite (Nat.mod_small (b + 1)) by lia. rewrite !G by lia. destruct (Nat.leb_spec b a); destruct (Nat.leb_spec (b + 1) a); lia.
Qed.
Lemma csub_last : forall m b, 0 < m -> b < m -> S (csub m b (cadd m b 1)) = m.
Proof.
  intros m b H L. Transparent csub cadd. unfold csub, cadd. Opaque csub cadd. destruct (Nat.eq_dec (S b) m) as [Q|Q].
  - replace (b + 1) with (0 + 1 * m) by lia. rewrite Nat.mod_add, Nat.mod_0_l by lia. replace (b + m - 0) with (b + 1 * m) by lia. rewrite Nat.mod_add, Nat.mod_small by lia. exact Q.
  - rewrite (Nat.mod_small (b + 1)) by lia. rewrite Nat.mod_small by lia. lia.
Qed.

Lemma akeys_pair_at : forall A x a, nth_error (an_piv A) x = Some a -> exists hi, nth_error (pairs (akeys A)) x = Some (ap_key a, hi).
Proof.
  intros A x a E. assert (L : x < length (an_piv A)) by (apply nth_error_Some; congruence).
  destruct (nth_error (akeys A) (S x)) as [hi|] eqn:Eh; [|apply nth_error_None in Eh; rewrite akeys_length in Eh; lia]. exists hi. apply pairs_nth. split; [|exact Eh].
  rewrite akeys_piv by exact L. rewrite E. reflexivity.
Qed.

(** The view once the bundle is whole *)
Lemma installed_view : forall k v out fls r bno f lo hi, v_bns v = [AS true [out] fls] :: r -> lo = v_lo v -> hi = v_hi v -> kle lo k -> klt k hi ->
  f = filt_add (v_filt v) (map (fun e => hash (fst e)) (branch_range cfg lo hi out)) (length (v_whole v)) ->
  let v' := v_with v bno (v_whole v ++ [out]) r f in
  (forall u, k = KUser u -> view_ok u v -> view_ok u v') /\ v_branches v' = v_branches v.
Proof.
  intros k v out fls r bno f lo hi Eb El Eh K1 K2 Ef v'.
  assert (Ev' : v_bns v' = r) by reflexivity. assert (Ew : v_whole v' = v_whole v ++ [out]) by reflexivity. assert (Ef' : v_filt v' = f) by reflexivity. clearbody v'.
  assert (Br : v_branches v' = v_branches v). { unfold v_branches. rewrite Ev', Ew, Eb. cbn [concat]. rewrite brs_of_app. cbn [brs_of flat_map as_brs app]. rewrite <- app_assoc. reflexivity. }
  split; [|exact Br]. intros u Ek (H1 & H2 & H3). unfold TrunkView.view_ok. rewrite Br. split; [|split; [|exact H3]].
  - rewrite Ef', Ew. subst f. destruct H1 as [H1a H1b]. split.
    + intros x w Ix. rewrite app_length. cbn [length]. apply (filt_add_in M mp cfg hash TO LM Hmp M0) in Ix. destruct Ix as [[_ ->]|Ix]; [lia|]. specialize (H1a x w Ix). lia.
    + intros w br Ew' Ns. apply (filt_add_in M mp cfg hash TO LM Hmp M0). destruct (Nat.lt_ge_cases w (length (v_whole v))) as [C|C].
      * right. rewrite nth_error_app1 in Ew' by exact C. apply (H1b w br); auto.
      * rewrite nth_error_app2 in Ew' by exact C. destruct (w - length (v_whole v)) as [|d] eqn:Ed; [|destruct d; discriminate]. cbn in Ew'. injection Ew' as <-. left. split; [|lia].
        destruct (source_messages u out) as [|m ms] eqn:Es; [congruence|]. apply in_map_iff. exists (u, m). split; [reflexivity|]. unfold branch_range. apply filter_In. split.
        -- apply (source_in M mp cfg hash TO LM Hmp M0). rewrite Es. left. reflexivity.
        -- apply (key_in_iff M mp cfg hash TO LM Hmp M0). subst k. auto.
  - rewrite Ev'. rewrite Eb in H2. cbn [concat] in H2. apply Forall_app in H2. apply H2.
Qed.

Theorem install_step_inv : forall st i st', inv st -> exec st (InstallStep i) = Some st' -> inv st' /\ forall x, content st' x = content st x.
Proof.
  intros st i st' Hi E. pose proof (i_wf _ _ _ _ _ Hi) as T. cbn [TrunkTree.exec] in E.
  destruct (nth_error (st_jobs st) i) as [j|] eqn:Ej; [|discriminate]. destruct (j_ph j) as [| |s] eqn:Eph; try discriminate.
  destruct (node_at cfg (height_of st - rq_height (j_q j)) (sc_lo s) (st_tree st)) as [n|] eqn:En; [|discriminate].
  destruct (install_step cfg n j) as [[n' o]|] eqn:Er; [|discriminate].
  destruct (put_node cfg (height_of st - rq_height (j_q j)) (sc_lo s) n' (st_tree st)) as [t'|] eqn:Ep; [|discriminate]. injection E as <-.
  pose proof (i_jobs _ _ _ _ _ Hi) as Fj. rewrite Forall_forall in Fj. destruct (Fj j (nth_error_In _ _ Ej)) as (ks & out & full & B & Ph).
  unfold install_step in Er. cbv zeta in Er. rewrite Eph in Er.
  unfold TrunkInv.phase_ok in Ph. rewrite Eph in Ph. destruct Ph as (P1 & P2 & P3 & P4 & P5 & P6 & P7 & P8 & P9 & P10 & P11).
  pose proof (jb_height _ _ _ _ _ _ _ _ B) as Lh. pose proof (jb_bound_hi _ _ _ _ _ _ _ _ B) as Bh. pose proof (jb_bno _ _ _ _ _ _ _ _ B) as Lb. pose proof (jb_top _ _ _ _ _ _ _ _ B) as [Tl Tu].
  remember (j_q j) as q eqn:Eq. remember (rq_height q) as h eqn:Eh.
  assert (Hc : klt (sc_lo s) KPosInf) by ord TO.
  destruct (job_node M mp cfg hash TO LM Hmp M0 st j (sc_lo s)) as (n0 & A & En0 & W & EA & R1 & R2 & R3 & R4 & Vn); rewrite <- ?Eq, <- ?Eh; auto; [ord TO|].
  rewrite <- Eq, <- Eh in *. assert (n0 = n) by congruence. subst n0. pose proof (w_height _ _ _ _ _ _ W) as Hh.
  assert (Hu : kle (an_hi A) KPosInf) by ord TO.
  assert (R5 : kle (an_hi A) (sc_hi s)).
  { destruct (kle_lt_dec cfg TO (an_hi A) (sc_hi s)) as [L|L]; [exact L|]. exfalso. destruct (nview_facts M mp cfg hash TO LM _ n A (sc_lo s) W R1 R3) as (v & Ev & _ & N1 & N2 & _).
    rewrite <- Vn in Ev by auto. apply (P10 _ v Ev Hc); rewrite ?N1, ?N2; auto. ord TO. }
  destruct (node_bounds M mp cfg hash TO LM Hmp M0 st h n A T Lh W Hu Vn) as [Bn1 Bn2].
  destruct ((n_height n =? 0) && negb (n_id n =? rq_id q)) eqn:Eid.
  { injection Er as <- <-. assert (t' = st_tree st) by (exact (put_same M mp cfg hash TO LM Hmp M0 st (height_of st - h) (sc_lo s) n t' T ltac:(lia) Hc En Ep)). subst t'. apply (job_quiet M mp cfg hash TO LM Hmp M0 st i j None Hi Ej I). }
  assert (Hid : h = 0 -> n_id n = rq_id q).
  { intro Z. rewrite Hh, Z in Eid. cbn in Eid. apply negb_false_iff in Eid. apply Nat.eqb_eq. exact Eid. }
  assert (Act : forall k v, kle (an_lo A) k -> klt k (an_hi A) -> nview n k = Some v -> active (views st) j k v).
  { intros k v K1 K2 Ev. unfold TrunkInv.active. rewrite <- Eq, <- Eh. split; [ord TO|]. split; [ord TO|]. rewrite Vn by auto. split; [exact Ev|]. intro Z.
    destruct (nview_facts M mp cfg hash TO LM _ n A k W K1 K2) as (w & Ew & _ & _ & _ & Iw & _). rewrite <- Hid by exact Z. congruence. }
  assert (Vf : forall k v, kle (an_lo A) k -> klt k (an_hi A) -> nview n k = Some v -> view_facts cfg k v /\ v_nlo v = an_lo A /\ v_nhi v = an_hi A).
  { intros k v K1 K2 Ev. destruct (nview_facts M mp cfg hash TO LM _ n A k W K1 K2) as (w & Ew & Fw & N1 & N2 & _). assert (w = v) by congruence. subst w. auto. }
  destruct (replace_filters n q s) as [[n1 s']|] eqn:Erf; [|discriminate].
  destruct (install_effect M mp cfg TO _ n A q s n1 s' W Lb Erf) as ((f & Es' & Hf) & Hp & A' & W' & Ek & Hv).
  destruct (akeys_ends A A' Ek) as (Ea1 & Ea2 & _). destruct (rep_min_max M n1 A' (w_rep _ _ _ _ _ _ W')) as [_ Emx]. rewrite Ea2 in Emx.
  assert (En' : n1 = n') by (destruct (data_key_compare cfg (max_key n1) (sc_hi s') =? 0)%Z; congruence). subst n1.
  assert (Shape : forall k v b, kle (an_lo A) k -> klt k (an_hi A) -> nview n k = Some v -> vbundle (rq_bno q) v = Some b ->
     (exists fls, b = [AS true [out] fls]) /\ cell ks (generation_to_pos q (v_gen v)) (v_lo v) (v_hi v) /\
     sc_new s (generation_to_pos q (v_gen v)) = filt_add (v_filt v) (map (fun e => hash (fst e)) (branch_range cfg (v_lo v) (v_hi v) out)) (length (v_whole v))).
  { intros k v b K1 K2 Ev Eb. pose proof (Act k v K1 K2 Ev) as Av. assert (Rp := P5 k v Av b). rewrite <- Eq in Rp. destruct (Rp Eb) as [Sh Kn]. split; [exact Sh|].
    destruct (known_pos M mp cfg hash TO LM Hmp M0 _ _ _ _ _ _ v B Kn) as (Ce & _). rewrite <- Eq in Ce. split; [exact Ce|].
    destruct (P11 k v b Av ltac:(ord TO) ltac:(ord TO) Eb) as [_ Q]. rewrite Q. f_equal. rewrite Eq. apply (slice_range _ _ _ _ _ _ B P4). rewrite <- Eq. exact Ce. }
  eapply (job_commit M mp cfg hash TO LM Hmp M0 st i j (sc_lo s) n n' A A' t' o Hi Ej); rewrite <- ?Eq, <- ?Eh; auto; [ord TO| |].
  - intros k K1 K2. destruct (Hv k K1 K2) as (v & Ev & Q). destruct (Vf k v K1 K2 Ev) as (Fv & _). destruct (vbundle (rq_bno q) v) as [b|] eqn:Eb.
    + destruct Q as (Q1 & r & Q2 & Q3). destruct (Shape k v b K1 K2 Ev Eb) as ((fls & ->) & Ce & En2). cbn [brs_of flat_map as_brs app] in Q3.
      exists v, (cadd MAX_BUNDLES (v_bno v) 1), (v_whole v ++ [out]), r, (sc_new s (generation_to_pos q (v_gen v))). split; [exact Ev|]. split; [exact Q3|].
      destruct (installed_view k v out fls r (cadd MAX_BUNDLES (v_bno v) 1) _ (v_lo v) (v_hi v) Q2 eq_refl eq_refl (vf_lo _ _ _ Fv) (vf_hi _ _ _ Fv) En2) as [G1 G2].
      split; [|split; [exact G1 | intros u y _ _; rewrite G2; reflexivity]].
      intros bno Lbno Nb. right. split; [|intro Z; congruence]. unfold vbundle. cbn [v_with v_bns v_bno]. rewrite Q2, (csub_next MAX_BUNDLES bno (v_bno v) Lbno (vf_bno _ _ _ Fv)) by congruence. reflexivity.
    + exists v, (v_bno v), (v_whole v), (v_bns v), (v_filt v). replace (v_with v (v_bno v) (v_whole v) (v_bns v) (v_filt v)) with v by (destruct v; reflexivity).
      split; [exact Ev|]. split; [exact Q|]. split; [|split; auto]. intros bno _ _. right. auto.
  - intro Lc. destruct o as [j2|]; [|exact I].
    destruct (put_local M mp cfg hash TO LM Hmp M0 st h (sc_lo s) n n' A' t' T ltac:(lia) Hc En W' ltac:(rewrite Ek, EA; reflexivity) Ep) as (_ & _ & _ & _ & _ & _ & Hst).
    remember (St t' (st_next st) (st_mts st) (set_job i (Some j2) (st_jobs st))) as st2 eqn:Est2.
    destruct (Hst st2 ltac:(subst st2; reflexivity)) as (_ & _ & _ & _ & V3 & _). rewrite Ea1, Ea2 in V3.
    assert (Top : forall k, klt k (rq_hi q) -> klt k KPosInf) by (intros; ord TO).
    (* the views of the node have no bundle left for the job *)
    assert (Gone : forall k v, kle (an_lo A) k -> klt k (an_hi A) -> views st2 h k = Some v -> vbundle (rq_bno q) v = None).
    { intros k v K1 K2 Ev. rewrite V3 in Ev by auto. destruct (Hv k K1 K2) as (w & Ew & Q). destruct (Vf k w K1 K2 Ew) as (Fw & _). destruct (vbundle (rq_bno q) w) as [b|] eqn:Eb; [|congruence].
      destruct Q as (Q1 & r & Q2 & Q3). assert (v = v_with w (cadd MAX_BUNDLES (v_bno w) 1) (v_whole w ++ brs_of b) r (sc_new s (generation_to_pos q (v_gen w)))) by congruence. subst v.
      unfold vbundle. cbn [v_with v_bns v_bno]. apply nth_error_None. pose proof (vf_bns _ _ _ Fw) as Ln. rewrite Q2 in Ln. cbn [length] in Ln. rewrite Q1. pose proof (csub_last MAX_BUNDLES (rq_bno q) ltac:(lia) Lb). lia. }
    assert (Back : forall k v, active (views st2) j k v -> vbundle (rq_bno q) v <> None -> active (views st) j k v /\ (klt k (an_lo A) \/ kle (an_hi A) k)).
    { intros k v (A1 & A2 & A3 & A4) Nv. rewrite <- Eq, <- ?Eh in *.
      assert (Dec : (klt k (an_lo A) \/ kle (an_hi A) k) \/ (kle (an_lo A) k /\ klt k (an_hi A))) by (destruct (kle_lt_dec cfg TO (an_lo A) k); [destruct (kle_lt_dec cfg TO (an_hi A) k)|]; auto).
      destruct Dec as [D|[D1 D2]]; [|rewrite (Gone k v D1 D2 A3) in Nv; congruence]. split; [|exact D].
      unfold TrunkInv.active. rewrite <- Eq, <- Eh. split; [exact A1|]. split; [exact A2|]. rewrite <- (lc_out _ _ _ _ _ _ _ _ Lc) by auto. split; assumption. }
    assert (Rep : forall k v, active (views st2) j k v -> replaced_at j ks out v).
    { intros k v Av b Eb. rewrite <- Eq in Eb. destruct (Back k v Av ltac:(congruence)) as [Av' _]. apply (P5 k v Av'). rewrite <- Eq. exact Eb. }
    assert (BL : forall c, bound (views st) h c -> bound (views st2) h c) by (intro c; eapply (local_bound M mp cfg hash TO LM Hmp M0); eauto).
    assert (JB : forall j3, alike j j3 -> rq_gens (j_q j3) = rq_gens (j_q j) -> rq_fps (j_q j3) = rq_fps (j_q j) -> job_base (views st2) (height_of st2) (st_next st) j3 ks out).
    { intros j3 Al Eg Efp. apply (base_local M mp cfg hash TO LM Hmp M0 st st2 h (an_lo A) (an_hi A) j j3 ks out T Lc B Al Eg Efp). }
    subst s'. cbn [set_new sc_hi sc_lo sc_build sc_old sc_value sc_new] in Er. rewrite Emx in Er. destruct (Z.eqb_spec (data_key_compare cfg (an_hi A) (sc_hi s)) 0) as [Q|Q].
    + injection Er as Er. unfold next_build in Er. rewrite <- Eq in Er. destruct (Z.ltb_spec (data_key_compare cfg (an_hi A) (rq_hi q)) 0) as [L|L]; [|discriminate]. injection Er as <-.
      assert (L' : klt (an_hi A) (rq_hi q)) by exact L.
      assert (Al : alike j (Job (j_lo j) (set_lo (an_hi A) q) Build)) by (unfold alike; rewrite <- Eq; repeat split; reflexivity). split; [exact Al|].
      exists ks, out, full. split; [apply (JB _ Al); rewrite <- Eq; reflexivity|].
      unfold TrunkInv.phase_ok. cbn [j_q j_ph j_lo set_lo rq_lo rq_hi rq_height rq_out]. rewrite <- Eh. split; [ord TO|]. split; [exact L'|]. split; [apply BL; exact Bn2|]. split.
      * intros x lo hi Ce. cbn [j_q set_lo rq_out]. rewrite Eq. apply (P4 x lo hi Ce).
      * intros k v (A1 & A2 & A3 & A4). cbn [j_q j_lo set_lo rq_hi rq_height rq_id] in *.
        assert (Av : active (views st2) j k v) by (unfold TrunkInv.active; rewrite <- Eq; repeat split; auto).
        pose proof (Rep k v Av) as Rk. unfold replaced_at, known in *. cbn [j_q set_lo rq_bno rq_gens] in *. rewrite <- Eq in Rk. exact Rk.
    + injection Er as <-. assert (L' : klt (an_hi A) (sc_hi s)). { unfold TrunkKeys.kle in R5. unfold TrunkKeys.klt. lia. }
      match goal with |- alike j ?x /\ _ => assert (Al : alike j x) by (unfold alike; rewrite <- Eq; repeat split; reflexivity) end. split; [exact Al|].
      exists ks, out, full. split; [apply (JB _ Al); rewrite <- Eq; reflexivity|].
      unfold TrunkInv.phase_ok. cbn [j_q j_ph j_lo rq_lo rq_hi rq_height rq_out sc_lo sc_hi sc_new]. rewrite <- Eh.
      assert (AvE : forall ph k v, active (views st2) (Job (j_lo j) q ph) k v -> active (views st2) j k v).
      { intros ph k v (A1 & A2 & A3 & A4). unfold TrunkInv.active. rewrite <- Eq. repeat split; auto. }
      split; [exact P1|]. split; [exact P2|]. split; [apply BL; exact P3|]. split; [|split; [|split; [ord TO|split; [exact L'|split; [exact P8|split; [apply BL; exact Bn2|split; [apply BL; exact P10|]]]]]]].
      * intros x lo hi Ce. cbn [j_q]. rewrite Eq. apply (P4 x lo hi Ce).
      * intros k v Av. pose proof (Rep k v (AvE _ k v Av)) as Rk. unfold replaced_at, known in *. cbn [j_q] in *. rewrite <- Eq in Rk. exact Rk.
      * intros k v b Av K1 K2 Eb. destruct (Back k v (AvE _ k v Av) ltac:(congruence)) as [Av' _].
        assert (K1' : kle (sc_lo s) k) by ord TO. destruct (P11 k v b Av' K1' K2 Eb) as [Q1 Q2]. split; [exact Q1|]. rewrite <- Q2. apply Hf. intros a Ia Z.
        assert (Rk := P5 k v Av' b). rewrite <- Eq in Rk. destruct (Rk Eb) as [_ Kn]. destruct (known_pos M mp cfg hash TO LM Hmp M0 _ _ _ _ _ _ v B Kn) as (Ce & Lp & Eg). rewrite <- Eq in Ce, Lp, Eg.
        assert (Np : generation_to_pos q (ap_gen a) <> MAX_PIVOTS) by lia. destruct (gpos_found _ _ Np) as [_ Ga]. rewrite Z in Ga.
        destruct (In_nth_error _ _ Ia) as (x & Ex).
        assert (Lx : exists hi, nth_error (pairs (akeys A)) x = Some (ap_key a, hi)) by (apply akeys_pair_at; assumption).
        destruct Lx as (hi & Ei). destruct (cell_in_range cfg TO A _ _ (w_sorted _ _ _ _ _ _ W) (nth_error_In _ _ Ei)) as (B1 & B2 & B3).
        assert (Ka : klt (ap_key a) (an_hi A)) by ord TO.
        pose proof (nview_char M mp cfg TO _ n A (ap_key a) x a hi W Ex Ei (kle_refl M mp cfg hash TO LM _) B3) as Eva.
        pose proof (Act _ _ B1 Ka Eva) as Aa.
        assert (Ga2 : v_gen (view_of n A a hi) = rq_gens (j_q j) (generation_to_pos q (v_gen v))) by (cbn [view_of v_gen]; rewrite <- Eq; congruence).
        destruct (jb_gen_cell _ _ _ _ _ _ _ _ B _ _ _ _ _ Aa Ce Ga2) as [G1 G2].
        destruct Av' as (_ & A2 & A3 & _). rewrite <- Eq in A2, A3. rewrite <- Eh in A3.
        assert (Ev2 : views st h (ap_key a) = Some v) by (apply (views_cell M mp cfg hash TO LM st h k (ap_key a) v T Lh ltac:(ord TO) A3); assumption).
        rewrite Vn in Ev2 by auto. destruct (Vf _ v B1 Ka Ev2) as (Fv & _ & N2).
        destruct (views_some M mp cfg hash TO LM st h k T Lh ltac:(ord TO)) as (w & Ew & Fw). assert (w = v) by congruence. subst w.
        pose proof (vf_hi _ _ _ Fw). pose proof (vf_nhi _ _ _ Fw) as Z2. rewrite N2 in Z2. ord TO.
Qed.

End Bld.
