(** Every step of the concurrent trunk keeps the invariant and is a step, or none, or two,
    of the atomic table. *)
From Coq Require Import List Arith Bool Lia.
Import ListNotations.
From Verif Require Import CTrunk CTrunkSpec CTrunkInv CTrunkOps CTrunkProofs.
Local Open Scope nat_scope.

(** What the atomic machine does meanwhile. *)
Inductive sim (m : table) : sthr -> label -> table -> sthr -> Prop :=
| sim_none : forall x, sim m x Tau m x
| sim_call : forall c, sim m SIdle (Called c) m (SCalled c)
| sim_act : forall c, sim m (SCalled c) Tau (fst (apply c m)) (SDone (snd (apply c m)))
| sim_ret : forall r, sim m (SDone r) (Returned r) m SIdle
| sim_both : forall c r, snd (apply c m) = r -> sim m (SCalled c) (Returned r) (fst (apply c m)) SIdle
| sim_stale : forall x v, x = SAny \/ x = SDone (RGet v) -> sim m x Stale m SAny
| sim_any : forall v, sim m SAny (Returned (RGet v)) m SIdle.

Lemma cont_msgs : forall c k, cont c k = msgs c k.
Proof.
  intros c k. unfold cont, msgs. induction c as [|[k' v] c IH]; cbn; auto. destruct (k' =? k); cbn; rewrite IH; auto.
Qed.

Lemma kids_lt : forall g nx nb q c, wf g nx nb -> q < nx -> In c (kids (g q)) -> c < nx.
Proof.
  intros g nx nb q c W Hq Hc. unfold kids in Hc. destruct (Nat.eqb_spec (ht (g q)) 0) as [Z|Z]; [destruct Hc|].
  apply in_map_iff in Hc. destruct Hc as (p & <- & Hp). destruct (W q Hq) as (_ & _ & V3).
  destruct (chain_in _ _ _ _ V3 Hp) as (e & K). apply K. auto.
Qed.
Lemma slot_in : forall k ps p, slot k ps = Some p -> In p ps.
Proof.
  intros k ps. induction ps as [|q ps IH]; intros p; cbn [slot]; [discriminate|]. destruct (k <? pk q); [discriminate|].
  destruct (slot k ps); intros [= <-]; [right; auto|left; auto].
Qed.
Lemma slot_kid : forall n k p, slot k (pvs n) = Some p -> ht n <> 0 -> In (ch p) (kids n).
Proof.
  intros n k p H Z. unfold kids. rewrite (proj2 (Nat.eqb_neq _ _) Z). apply in_map. eapply slot_in; eauto.
Qed.

(** What is in the node, for a thread that has it or gets it. *)
Lemma mem_at : forall s ef m f i t a, inv s ef m f -> nth_error (ths s) i = Some t -> p4 t = None ->
  (In a (reads t ++ locks t) \/ can_get s i a = true) -> mem s a = ef a.
Proof.
  intros s ef m f i t a V Hi H4 H. apply (v_mem _ _ _ _ V). intros j u Hj n E.
  destruct (Nat.eq_dec j i) as [->|Z]; [rewrite Hi in Hj; injection Hj as <-; congruence|].
  assert (Ma : In a (mine u)) by (destruct u; try discriminate; cbn in *; injection E; auto).
  destruct H as [H|H].
  - eapply (v_ex _ _ _ _ V j i); eauto.
  - eapply nobody_spec; [exact H|exact Z|exact Hj|]. apply mine_locks. auto.
Qed.

(** A step that leaves the nodes alone. *)
Lemma frame_go : forall s ef m f i t t' fr' m' x', inv s ef m f -> nth_error (ths s) i = Some t ->
  p4 t = None -> p4 t' = None -> priv t' = [] -> m' = m ->
  (forall a, In a (reads t' ++ locks t') -> In a (reads t ++ locks t) \/ can_get s i a = true) ->
  (forall a, In a (mine t') -> In a (mine t)) ->
  (root_claim t' = true -> root_claim t = true \/ no_claim s = true) ->
  (forall a, In a (pages t') -> In a (pages t) \/ a = root s \/ exists q, In q (pages t) /\ In a (kids (ef q))) ->
  pcok ef (nb s) (br s) (root s) m t' x' ->
  inv (St (mem s) (nx s) (root s) (br s) (nb s) fr' (put (ths s) i t')) ef m' (now f i x').
Proof.
  intros s ef m f i t t' fr' m' x' V Hi H4 H4' HP -> HN HM HC HG HK.
  pose proof (v_wf _ _ _ _ V) as W. pose proof (v_root _ _ _ _ V) as (R1 & R2 & R3).
  eapply frame; [exact V|exact Hi|apply eff_refl; auto|..].
  - intros a n. rewrite H4'. discriminate.
  - intros a _. right. split; auto. intros n. rewrite H4. discriminate.
  - apply (v_ht _ _ _ _ V).
  - auto.
  - rewrite HP. intros a Ha. rewrite app_nil_r in Ha. destruct (HG a Ha) as [X|[->|(q & Q1 & Q2)]]; auto.
    + eapply (v_pg _ _ _ _ V); [exact Hi|]. apply in_or_app. auto.
    + apply (kids_lt ef (nx s) (nb s) q a W); auto. eapply (v_pg _ _ _ _ V); [exact Hi|]. apply in_or_app. auto.
  - intros a Ha. destruct (HN a Ha); auto.
  - auto.
  - auto.
  - intros _ O [S1 S2] S3 S4. split; [split; auto|]. intros a Ha. destruct (HG a Ha) as [X|[->|(q & Q1 & Q2)]]; auto.
    apply (S2 q a); auto. eapply (v_pg _ _ _ _ V); [exact Hi|]. apply in_or_app. auto.
  - rewrite HP. split; [split; intros; tauto|]. intros; tauto.
  - auto.
  - auto.
  - auto.
  - auto.
Qed.

Lemma pcok_read : forall g nx nb B a k, wf g nx nb -> a < nx -> inr (g a) k ->
  exists p, slot k (pvs (g a)) = Some p /\
    lk g B a k = all_of B (skipn 0 (bs p)) k ++ (if ht (g a) =? 0 then [] else lk g B (ch p) k).
Proof.
  intros g nx nb B a k W Ha I. destruct (lk_node g B nx nb a k (W a Ha) I) as (p & E1 & E2 & E3 & E4). exists p. auto.
Qed.

Lemma skipn_nth : forall {A} (l : list A) j b, nth_error l j = Some b -> skipn j l = b :: skipn (S j) l.
Proof. induction l as [|x l IH]; intros [|j] b H; cbn in *; try discriminate; [congruence|]. apply IH. auto. Qed.

Definition good (s : state) (i : nat) (m : table) (f : nat -> sthr) (s' : state) (t' : pc) (l : label) : Prop :=
  exists ef' m' x', inv (set_ths s' (put (ths s) i t')) ef' m' (now f i x') /\ sim m (f i) l m' x'.

Lemma get_ok : forall s ef m f i t x s' t' l, inv s ef m f -> nth_error (ths s) i = Some t ->
  go s i t x = Some (s', t', l) ->
  match t with G0 _ | G1 _ | G2 _ _ _ _ | G3 _ _ _ _ => True | _ => False end ->
  good s i m f s' t' l.
Proof.
  intros s ef m f i t x s' t' l V Hi E Ht. pose proof (v_pc _ _ _ _ V _ _ Hi) as PC.
  pose proof (v_wf _ _ _ _ V) as W. pose proof (v_root _ _ _ _ V) as (R1 & R2 & R3).
  destruct t; try tauto; destruct x; try discriminate; cbn [go] in E; cbn in PC.
  - injection E as <- <- <-. exists ef, m, (f i). split; [|apply sim_none].
    eapply frame_go; eauto; cbn; intros; try tauto; discriminate.
  - destruct (can_get s i (root s)) eqn:G; [|discriminate]. injection E as <- <- <-.
    exists ef, m, (SDone (RGet (m k))). split; [|rewrite PC; apply sim_act].
    eapply frame_go; eauto; cbn; try (intros; try tauto; discriminate).
    + intros a [<-|[]]. auto.
    + intros a [<-|[]]. auto.
    + split; [apply whole_inr; auto|]. destruct (pcok_read ef (nx s) (nb s) (br s) (root s) k W R1 (whole_inr _ _ R2)) as (p & P1 & P2).
      exists p. split; auto. right. do 2 f_equal. rewrite <- R3, P2. reflexivity.
  - destruct PC as (I & p & Sp & Ex). rewrite (mem_at _ _ _ _ _ _ a V Hi eq_refl ltac:(left; cbn; auto)) in E. rewrite Sp in E.
    assert (La : a < nx s) by (eapply (v_pg _ _ _ _ V); [exact Hi|]; cbn; auto).
    destruct (nth_error (bs p) i0) as [b|] eqn:Eb.
    + destruct (fr s b k).
      { injection E as <- <- <-. exists ef, m, SAny. split; [|destruct Ex as [Ex|Ex]; [apply (sim_stale m _ []); auto|eapply sim_stale; eauto]].
        eapply frame_go; eauto; cbn; try (intros; try tauto; discriminate). split; auto. exists p. auto. }
      injection E as <- <- <-.
      exists ef, m, (f i). split; [|apply sim_none].
      eapply frame_go; eauto; cbn; try (intros; try tauto; discriminate).
      split; auto. exists p. split; auto. destruct Ex as [Ex|Ex]; [left; auto|right]. rewrite Ex. rewrite (skipn_nth _ _ _ Eb). cbn. rewrite <- !app_assoc. auto.
    + apply nth_error_None in Eb. rewrite (skipn_all2 _ Eb) in Ex. cbn in Ex.
      destruct (Nat.eqb_spec (ht (ef a)) 0) as [Z|Z].
      * injection E as <- <- <-. exists ef, m, SIdle. split; [|destruct Ex as [Ex|Ex]; rewrite Ex; [apply sim_any|rewrite app_nil_r; apply sim_ret]].
        eapply frame_go; eauto; cbn; intros; try tauto; discriminate.
      * destruct (can_get s i (ch p)) eqn:G; [|discriminate]. injection E as <- <- <-.
        exists ef, m, (f i). split; [|apply sim_none].
        destruct (lk_node ef (br s) _ _ a k (W a La) I) as (p' & E1 & E2 & E3 & E4). rewrite Sp in E1. injection E1 as <-.
        destruct (E4 Z) as (K1 & K2 & K3).
        eapply frame_go; eauto; cbn; try (intros; try tauto; discriminate).
        -- intros a' [<-|[<-|[]]]; auto.
        -- intros a' [<-|[<-|[]]]; auto. right. right. exists a. split; auto. eapply slot_kid; eauto.
  - destruct PC as (I & Ex). injection E as <- <- <-. exists ef, m, (f i). split; [|apply sim_none].
    assert (La : c < nx s) by (eapply (v_pg _ _ _ _ V); [exact Hi|]; cbn; auto).
    eapply frame_go; eauto; cbn; try (intros; try tauto; discriminate).
    split; auto. destruct (pcok_read ef (nx s) (nb s) (br s) c k W La I) as (p & P1 & P2).
    exists p. split; auto. destruct Ex as [Ex|Ex]; [left; auto|right]. rewrite Ex, P2. reflexivity.
Qed.

Lemma frame_done : forall s ef m f i t fr', inv s ef m f -> nth_error (ths s) i = Some t -> p4 t = None ->
  inv (St (mem s) (nx s) (root s) (br s) (nb s) fr' (put (ths s) i Idle)) ef m (now f i SIdle).
Proof.
  intros s ef m f i t fr' V Hi H4. eapply frame_go; eauto; cbn; try (intros; try tauto; discriminate).
Qed.

Lemma merge_done : forall m x, merging x -> sim m x (Returned RDone) m SIdle.
Proof. intros m x (k & h & e & sg & ->). apply (sim_both m (CMerge k h e sg) RDone). reflexivity. Qed.

Lemma path_ok : forall s ef m f i t x s' t' l, inv s ef m f -> nth_error (ths s) i = Some t ->
  go s i t x = Some (s', t', l) ->
  match t with P0 _ | P1 _ | P2 _ _ _ | P3 _ _ _ | P4 _ _ _ _ | K0 _ _ _ | K1 _ _ _ _ | K2 _ _ _ | P6 _ _ => True | _ => False end ->
  good s i m f s' t' l.
Proof.
  intros s ef m f i t x s' t' l V Hi E Ht. pose proof (v_pc _ _ _ _ V _ _ Hi) as PC.
  pose proof (v_wf _ _ _ _ V) as W. pose proof (v_root _ _ _ _ V) as (R1 & R2 & R3). pose proof (v_ht _ _ _ _ V) as VH.
  assert (PG : forall a, In a (pages t ++ priv t) -> a < nx s) by (intros a Ha; eapply (v_pg _ _ _ _ V); eauto).
  destruct t; try tauto; destruct x; try discriminate; cbn [go] in E; cbn in PC.
  - (* P0 *) destruct (no_claim s) eqn:NC; [|discriminate]. injection E as <- <- <-. exists ef, m, (f i). split; [|apply sim_none].
    eapply frame_go; eauto; cbn; try (intros; try tauto; discriminate).
  - (* P1 *) destruct (can_get s i (root s)) eqn:G; [|discriminate]. injection E as <- <- <-.
    assert (ME : mem s (root s) = ef (root s)) by (eapply mem_at; eauto).
    pose proof (eff_fresh ef (nx s) (nb s) (br s) (ef (root s)) W (W _ R1)) as EF.
    exists (upd ef (nx s) (ef (root s))), m, (f i). split; [|apply sim_none].
    assert (U : forall A (h : nat -> A) y a, a < nx s -> upd h (nx s) y a = h a) by (intros; apply upd_other; lia).
    unfold with_mem, set_ths; cbn [mem nx root br nb fr ths].
    eapply frame; [exact V|exact Hi|exact EF|..]; cbn [p4 priv root_claim].
    + discriminate.
    + intros a _. destruct (Nat.eq_dec a (nx s)) as [->|Z]; [left; rewrite !upd_same; auto|right].
      rewrite !upd_other by auto. split; auto. discriminate.
    + intros a. unfold upd. destruct (a =? nx s); auto.
    + intros a Ha. left. apply U. auto.
    + cbn. intros a [<-|[<-|[]]]; lia.
    + cbn. intros a [<-|[]]. auto.
    + cbn. intros a [<-|[]]. auto.
    + auto.
    + discriminate.
    + split; [split|]; intros; tauto.
    + rewrite U by auto. split; [lia|]. split; auto. intros k. rewrite (e_lk _ _ _ _ _ _ _ _ EF); auto. apply whole_inr; auto.
    + rewrite U by auto. auto.
    + auto.
    + destruct PC as [M O]. cbn.
      assert (PX : pcok (upd ef (nx s) (ef (root s))) (nb s) (br s) (root s) m (P1 o) (f i)).
      { eapply pcok_ext; [exact EF|exact W|exact R1| | | | |cbn; auto]; cbn; try tauto. rewrite U; auto. }
      destruct PX as [_ O']. split; auto. split; auto. rewrite upd_same. split; [|split; [|split]]; auto.
      * split; rewrite U by auto; [apply whole_inr; auto|apply O].
      * rewrite U; auto.
      * intros k. pose proof (lk_fresh ef (nx s) (nb s) (br s) [] (root s) k W R1 (whole_inr _ _ R2) (Forall_nil _)) as L.
        rewrite add_all_nil in L. rewrite L, <- R3. auto.
  - (* P2 *) destruct (no_reader s) eqn:NR; [|discriminate]. injection E as <- <- <-.
    destruct PC as (M & (O1 & O2 & O3 & O4) & N & Wa & Hh & Hl).
    exists ef, m, (f i). split; [|apply sim_none]. unfold with_root, set_ths; cbn [mem nx root br nb fr ths].
    eapply frame; [exact V|exact Hi|apply eff_refl; auto|..]; cbn [p4 priv root_claim].
    + discriminate.
    + intros b _. right. split; auto. discriminate.
    + auto.
    + auto.
    + intros b Hb. apply PG. cbn in *. tauto.
    + cbn. auto.
    + cbn. auto.
    + discriminate.
    + discriminate.
    + split; [split|]; intros; tauto.
    + split; [apply PG; cbn; auto|]. auto.
    + auto.
    + auto.
    + cbn. split; auto. split; [split; auto; split; auto; split; auto; lia|]. split; auto. split; [apply whole_inr; auto|lia].
  - (* P3 *) destruct PC as (M & O & N & [Ne1 Ne2]).
    assert (Le : e < nx s) by (apply PG; cbn; auto).
    assert (ME : mem s e = ef e) by (eapply mem_at; eauto; left; cbn; auto). rewrite ME in E.
    destruct (Nat.ltb_spec (hh o) (ht (ef e))) as [L|L].
    + destruct (wfn_slot _ _ _ _ _ (W e Le) Ne1) as (_ & p & _ & _ & _ & _ & _ & Sp). rewrite Sp in E.
      destruct (can_get s i (ch p)) eqn:G; [|discriminate]. injection E as <- <- <-.
      assert (MC : mem s (ch p) = ef (ch p)) by (eapply mem_at; eauto).
      destruct (reslot_eff ef (nx s) (nb s) (br s) e (sk o) p W Le Ne1 ltac:(lia) Sp) as (EF & K1 & K2 & K3 & K4 & K5).
      set (n := Nd (ht (ef e)) (reslot (sk o) (pvs (ef e)) (nx s)) (ub (ef e))) in *.
      set (ef' := upd (upd ef (nx s) (ef (ch p))) e n) in *.
      assert (Gn : ef' (nx s) = ef (ch p)) by (unfold ef'; rewrite upd_other by lia; apply upd_same).
      assert (Ge : ef' e = n) by apply upd_same.
      assert (Go : forall a, a <> nx s -> a <> e -> ef' a = ef a) by (intros a Z1 Z2; unfold ef'; rewrite !upd_other by auto; auto).
      exists ef', m, (f i). split; [|apply sim_none].
      unfold with_mem, set_ths; cbn [mem nx root br nb fr ths]. fold n.
      eapply frame; [exact V|exact Hi|exact EF|..]; cbn [p4 priv root_claim].
      * discriminate.
      * intros a _. unfold ef'. destruct (Nat.eq_dec a e) as [->|Z]; [left; rewrite !upd_same; auto|].
        rewrite !(upd_other _ e _ _ Z). destruct (Nat.eq_dec a (nx s)) as [->|Z']; [left; rewrite !upd_same; auto|].
        rewrite !upd_other by auto. right. split; auto. discriminate.
      * intros a. unfold ef', upd. destruct (a =? e); auto. destruct (a =? nx s); auto.
      * intros a Ha. destruct (Nat.eq_dec a e) as [->|Z]; [right; left; cbn; auto|]. left. apply Go; lia.
      * cbn. intros a [<-|[<-|[]]]; [lia|]. assert (old < nx s) by (apply PG; cbn; auto). lia.
      * cbn. intros a [<-|[]]. auto.
      * cbn. intros a [<-|[]]. auto.
      * discriminate.
      * intros _ O0 [S1 S2] S3 S4.
        assert (Oe : ~ In e O0) by (apply S3; cbn; auto).
        split; [split; auto|].
        -- intros q c Hq Hc Hin. destruct (Nat.eq_dec q e) as [->|Z].
           ++ rewrite Ge in Hin. destruct (K5 c Hin) as [X|X]; [eapply S2; [exact Le|exact Oe|exact X]|]. intros Y. apply S4 in Y. lia.
           ++ destruct (Nat.eq_dec q (nx s)) as [->|Z'].
              ** rewrite Gn in Hin. eapply S2; [exact K1| |exact Hin]. eapply S2; [exact Le|exact Oe|exact K4].
              ** rewrite Go in Hin by auto. eapply S2; [|exact Hc|exact Hin]. lia.
        -- cbn. intros a [<-|[<-|[]]]; [intros Y; apply S4 in Y; lia|]. apply S3. cbn. auto.
      * split; [split|]; intros; tauto.
      * split; [lia|]. split.
        -- eapply whole_hdr; [|exact R2]. symmetry. apply (e_hdr _ _ _ _ _ _ _ _ EF _ R1).
        -- intros k. rewrite (e_lk _ _ _ _ _ _ _ _ EF); auto. apply whole_inr; auto.
      * rewrite (hdr_ht _ _ (e_hdr _ _ _ _ _ _ _ _ EF _ R1)). auto.
      * auto.
      * assert (PX : pcok ef' (nb s) (br s) (root s) m (K0 o e old) (f i)).
        { eapply pcok_ext; [exact EF|exact W|exact R1| | | | |cbn; auto]; cbn; try tauto.
          - rewrite (hdr_ht _ _ (e_hdr _ _ _ _ _ _ _ _ EF _ R1)). auto. }
        destruct PX as (M' & O' & N'). cbn. split; auto. split; auto. split; auto. unfold okn. rewrite Gn. split; auto. lia.
    + destruct (Nat.eqb_spec (hh o) (ht (ef e))) as [Z|Z]; [|lia].
      destruct ((ht (ef e) =? 0) && negb (same (ub (ef e)) (ek o))).
      * injection E as <- <- <-. exists ef, m, SIdle. split; [|apply merge_done; auto]. eapply frame_done; eauto.
      * injection E as <- <- <-. exists ef, m, (f i). split; [|apply sim_none].
        unfold with_mem, set_ths; cbn [mem nx root br nb fr ths].
        eapply frame; [exact V|exact Hi|apply eff_refl; auto|..]; cbn [p4 priv root_claim].
        -- intros a n [= <- <-]. auto.
        -- intros a Ha. right. rewrite upd_other; [split; auto; discriminate|]. intros ->. eapply Ha. reflexivity.
        -- intros a. unfold upd. destruct (Nat.eqb_spec a e) as [->|]; auto.
        -- auto.
        -- intros b Hb. apply PG. cbn in *. tauto.
        -- cbn. auto.
        -- cbn. auto.
        -- discriminate.
        -- intros _ O0 [S1 S2] S3 S4. split; [split; auto|]. exact S3.
        -- split; [split|]; intros; tauto.
        -- auto.
        -- auto.
        -- auto.
        -- cbn. split; auto. split; auto. split; auto. split; auto.
  - (* P4 *) destruct PC as (M & O & N & Ne).
    assert (Le : e < nx s) by (apply PG; cbn; auto).
    assert (En : ef e = n) by (eapply (v_p4 _ _ _ _ V); eauto; reflexivity). subst n.
    injection E as <- <- <-. destruct O as (O1 & O2 & O3 & O4).
    destruct (replaced_eff ef (nx s) (nb s) (br s) e (seg o) (nbr o) W Le O2 O3) as [EF K].
    set (n := replaced (seg o) [nbr o] (ef e)) in *.
    exists (upd ef e n), m, (f i). split; [|apply sim_none].
    unfold with_mem, set_ths; cbn [mem nx root br nb fr ths].
    eapply frame; [exact V|exact Hi|exact EF|..]; cbn [p4 priv root_claim].
    + discriminate.
    + intros a _. destruct (Nat.eq_dec a e) as [->|Z]; [left; rewrite !upd_same; auto|right].
      rewrite !upd_other by auto. split; auto. intros n' [= X _]. congruence.
    + intros a. unfold upd. destruct (Nat.eqb_spec a e) as [->|]; auto.
    + intros a Ha. destruct (Nat.eq_dec a e) as [->|Z]; [right; left; cbn; auto|]. left. apply upd_other. auto.
    + intros b Hb. apply PG. cbn in *. tauto.
    + cbn. auto.
    + cbn. auto.
    + discriminate.
    + intros _ O0 [S1 S2] S3 S4. split; [split; auto|exact S3]. intros q c Hq Hc Hin.
      destruct (Nat.eq_dec q e) as [->|Z]; [rewrite upd_same, K in Hin|rewrite upd_other in Hin by auto]; eapply S2; eauto.
    + split; [split|]; intros; tauto.
    + split; [lia|]. split.
      * eapply whole_hdr; [|exact R2]. symmetry. apply (e_hdr _ _ _ _ _ _ _ _ EF _ R1).
      * intros k. rewrite (e_lk _ _ _ _ _ _ _ _ EF); auto. apply whole_inr; auto.
    + rewrite (hdr_ht _ _ (e_hdr _ _ _ _ _ _ _ _ EF _ R1)). auto.
    + auto.
    + eapply pcok_ext; [exact EF|exact W|exact R1| | | | |cbn; unfold okr; auto 10]; cbn; try tauto.
      * rewrite (hdr_ht _ _ (e_hdr _ _ _ _ _ _ _ _ EF _ R1)). auto.
  - (* K0 *) destruct (can_get s i old) eqn:G; [|discriminate]. injection E as <- <- <-. exists ef, m, (f i). split; [|apply sim_none].
    eapply frame_go; eauto; cbn; try (intros; try tauto; discriminate).
    intros a [<-|[<-|[]]]; auto.
  - (* K1 *) destruct (unread s i a) eqn:G; [|discriminate]. injection E as <- <- <-. exists ef, m, (f i). split; [|apply sim_none].
    eapply frame_go; eauto; cbn; try (intros; try tauto; discriminate).
    + intros b [<-|[<-|[]]]; destruct up; cbn; auto 10.
    + intros b [<-|[<-|[]]]; left; unfold pages; cbn; destruct up; cbn; auto 10.
  - (* K2 *) destruct PC as (M & O & [Na1 Na2]).
    assert (La : a < nx s) by (apply PG; cbn; auto).
    assert (ME : mem s a = ef a) by (eapply mem_at; eauto; left; cbn; auto). rewrite ME in E.
    destruct (Nat.ltb_spec (hh o) (ht (ef a))) as [L|L].
    + destruct (lk_node ef (br s) _ _ a _ (W a La) Na1) as (p & Sp & _ & _ & E4). rewrite Sp in E.
      destruct (E4 ltac:(lia)) as (K1 & K2 & K3).
      destruct (can_get s i (ch p)) eqn:G; [|discriminate]. injection E as <- <- <-. exists ef, m, (f i). split; [|apply sim_none].
      eapply frame_go; eauto; cbn; try (intros; try tauto; discriminate).
      * intros b [<-|[<-|[<-|[]]]]; auto.
      * intros b [<-|[<-|[<-|[]]]]; auto. right. right. exists a. split; auto. eapply slot_kid; eauto. lia.
      * split; auto. split; auto. split; auto. lia.
    + destruct (Nat.eqb_spec (hh o) (ht (ef a))) as [Z|Z]; [|lia]. injection E as <- <- <-. exists ef, m, (f i). split; [|apply sim_none].
      unfold freed, set_ths; cbn [mem nx root br nb fr ths]. eapply frame_go; eauto; cbn; try (intros; try tauto; discriminate).
  - (* P6 *) destruct PC as (M & O). 
    assert (D : good s i m f s Idle (Returned RDone)).
    { exists ef, m, SIdle. split; [|apply merge_done; auto]. eapply frame_done; eauto. }
    destruct (ub (mem s e)) as [y|]; [destruct (below y (ek o))|]; injection E as <- <- <-; auto.
    exists ef, m, (f i). split; [|apply sim_none].
    eapply frame_go; eauto; cbn; try (intros; try tauto; discriminate).
Qed.

Lemma mem_priv : forall s ef m f i t a, inv s ef m f -> nth_error (ths s) i = Some t -> p4 t = None ->
  In a (priv t) -> mem s a = ef a.
Proof.
  intros s ef m f i t a V Hi H4 H. apply (v_mem _ _ _ _ V). intros j u Hj n E.
  destruct (Nat.eq_dec j i) as [->|Z]; [rewrite Hi in Hj; injection Hj as <-; congruence|].
  assert (Ma : In a (mine u)) by (destruct u; try discriminate; cbn in *; injection E; auto).
  destruct (v_priv _ _ _ _ V i t Hi) as [_ P]. eapply (P j u a); auto.
  apply in_or_app. right. apply in_or_app. left. apply mine_locks. auto.
Qed.

Lemma store_both : forall ns g g' a b,
  store g a ns b = store g' a ns b \/ (store g a ns b = g b /\ store g' a ns b = g' b).
Proof.
  intros ns g g' a b. destruct (nth_error ns (b - a)) as [P|] eqn:E.
  - destruct (Nat.lt_ge_cases b a) as [L|L]; [right; split; apply store_old; auto|left].
    replace b with (a + (b - a)) by lia. rewrite !(store_new _ _ _ _ _ E). auto.
  - assert (Y : forall h, store h a ns b = h b).
    { intros h. destruct (store_one ns h a b) as [X|(j & P & -> & X)]; auto. replace (a + j - a) with j in E by lia. congruence. }
    right. split; apply Y.
Qed.

Lemma inc_ok : forall s ef m f i t x s' t' l, inv s ef m f -> nth_error (ths s) i = Some t ->
  go s i t x = Some (s', t', l) -> match t with I0 _ | I1 _ | I2 _ _ _ => True | _ => False end ->
  good s i m f s' t' l.
Proof.
  intros s ef m f i t x s' t' l V Hi E Ht. pose proof (v_pc _ _ _ _ V _ _ Hi) as PC.
  pose proof (v_wf _ _ _ _ V) as W. pose proof (v_root _ _ _ _ V) as (R1 & R2 & R3). pose proof (v_ht _ _ _ _ V) as VH.
  assert (PG : forall a, In a (pages t ++ priv t) -> a < nx s) by (intros a Ha; eapply (v_pg _ _ _ _ V); eauto).
  destruct (v_priv _ _ _ _ V i t Hi) as [SP DP].
  assert (OP : forall j u a, nth_error (ths s) j = Some u -> In a (pages u) -> a < nx s).
  { intros j u a Hj Ha. eapply (v_pg _ _ _ _ V); eauto. apply in_or_app. auto. }
  destruct t; try tauto; destruct x; try discriminate; cbn [go] in E; cbn in PC.
  - (* I0 *) destruct (no_claim s) eqn:NC; [|discriminate]. injection E as <- <- <-. exists ef, m, (f i). split; [|apply sim_none].
    eapply frame_go; eauto; cbn; try (intros; try tauto; discriminate).
  - (* I1 *) destruct (can_get s i (root s)) eqn:G; [|discriminate]. injection E as <- <- <-.
    assert (ME : mem s (root s) = ef (root s)) by (eapply mem_at; eauto).
    pose proof (eff_branch ef (nx s) (nb s) (br s) (cont c) W) as E1.
    pose proof (e_wf _ _ _ _ _ _ _ _ E1) as W1.
    assert (F1 : Forall (fun b => b < S (nb s)) [nb s]) by (constructor; auto; lia).
    pose proof (eff_fresh ef (nx s) _ (upd (br s) (nb s) (cont c)) _ W1 (add_all_wfn _ _ _ _ _ F1 (W1 _ R1))) as E2.
    pose proof (eff_trans _ _ _ _ _ _ _ _ _ _ _ _ E1 E2) as EF.
    set (n := add_all [nb s] (ef (root s))) in *. set (ef' := upd ef (nx s) n) in *. set (B' := upd (br s) (nb s) (cont c)) in *.
    exists ef', m, (f i). split; [|apply sim_none].
    assert (U : forall a, a < nx s -> ef' a = ef a) by (intros; apply upd_other; lia).
    assert (Un : ef' (nx s) = n) by apply upd_same.
    unfold with_mem, with_branch, set_ths; cbn [mem nx root br nb fr ths]. rewrite ME. fold n. fold B'.
    eapply frame; [exact V|exact Hi|exact EF|..]; cbn [p4 priv root_claim].
    + discriminate.
    + intros a _. unfold ef'. destruct (Nat.eq_dec a (nx s)) as [->|Z]; [left; rewrite !upd_same; auto|right].
      rewrite !upd_other by auto. split; auto. discriminate.
    + intros a. unfold ef', upd. destruct (a =? nx s); auto.
    + intros a Ha. left. apply U. auto.
    + cbn. intros a [<-|[]]; lia.
    + cbn. tauto.
    + cbn. tauto.
    + auto.
    + discriminate.
    + split; [split|].
      * cbn. lia.
      * intros q c0 Hq Hc Hin. cbn in Hc. rewrite U in Hin by lia. assert (c0 < nx s) by (eapply kids_lt; [exact W| |exact Hin]; lia). cbn. lia.
      * intros j u a _ Hj Ha. pose proof (OP _ _ _ Hj Ha). cbn. lia.
    + rewrite U by auto. split; [lia|]. split; auto. intros k. rewrite (e_lk _ _ _ _ _ _ _ _ EF); auto. apply whole_inr; auto.
    + rewrite U by auto. auto.
    + auto.
    + cbn. split; auto. split; auto. rewrite Un, U by auto. split; [|split].
      * eapply whole_hdr; [|exact R2]. unfold n. rewrite add_all_hdr. auto.
      * cbn. auto.
      * intros k. unfold ef', n. rewrite (lk_fresh ef (nx s) (S (nb s)) B' [nb s] (root s) k W1 R1 (whole_inr _ _ R2) F1).
        rewrite (e_lk _ _ _ _ _ _ _ _ E1) by (auto; apply whole_inr; auto). rewrite R3. f_equal. cbn. unfold B'. rewrite upd_same. apply app_nil_r.
  - (* I2, the switch *) destruct (no_reader s) eqn:NR; [|discriminate]. injection E as <- <- <-.
    destruct PC as (X & Pa & Wa & Hh & Hl).
    exists ef, (fst (apply (CInc c) m)), SIdle. split.
    + unfold with_root, set_ths; cbn [mem nx root br nb fr ths].
      eapply frame; [exact V|exact Hi|apply eff_refl; auto|..]; cbn [p4 priv root_claim].
      * discriminate.
      * intros b _. right. split; auto. discriminate.
      * auto.
      * auto.
      * cbn. tauto.
      * cbn. tauto.
      * cbn. tauto.
      * discriminate.
      * discriminate.
      * split; [split|]; intros; tauto.
      * split; [apply PG; cbn; auto|]. split; auto. intros k. rewrite Hl, cont_msgs. reflexivity.
      * auto.
      * auto.
      * cbn. auto.
    + rewrite X. apply sim_both. reflexivity.
  - (* I2, a flush *) destruct (isin p own) eqn:Ip; [|discriminate]. apply isin_In in Ip.
    destruct PC as (X & Pa & Wa & Hh & Hl).
    assert (Lp : p < nx s) by (apply PG; cbn; auto).
    assert (ME : mem s p = ef p) by (eapply mem_priv; eauto).
    destruct (nth_error (pvs (mem s p)) i0) as [q|] eqn:Hq; [|discriminate].
    destruct (can_get s i (ch q)) eqn:G; [|discriminate]. cbn [andb] in E.
    assert (MC : mem s (ch q) = ef (ch q)) by (eapply mem_at; eauto).
    unfold flush in E. rewrite Hq in E. rewrite MC, ME in *.
    destruct (Nat.eqb_spec (ht (ef p)) 0) as [Z|Z]; [discriminate|].
    destruct (pieces (add_all (bs q) (ef (ch q))) cs) as [ns|] eqn:Es; [|discriminate]. injection E as <- <- <-.
    destruct (flush_eff ef (nx s) (nb s) (br s) p i0 q cs ns W Lp Hq Z Es) as (EF & _ & _ & _ & _).
    set (n := Nd (ht (ef p)) (firstn i0 (pvs (ef p)) ++ heads (nx s) ns ++ skipn (S i0) (pvs (ef p))) (ub (ef p))) in *.
    set (ef' := upd (store ef (nx s) ns) p n) in *.
    exists ef', m, (f i). split; [|apply sim_none].
    assert (U : forall a, a < nx s -> a <> p -> ef' a = ef a).
    { intros b Hb Hz. unfold ef'. rewrite upd_other by auto. apply store_old. auto. }
    unfold with_mem, set_ths; cbn [mem nx root br nb fr ths]. replace (nx s + length ns - nx s) with (length ns) by lia.
    assert (Rp : root s <> p) by (intros Y; apply (proj1 SP); rewrite Y; cbn; auto).
    eapply frame; [exact V|exact Hi|exact EF|..]; cbn [p4 priv root_claim].
    + discriminate.
    + intros b _. unfold ef'. destruct (Nat.eq_dec b p) as [->|Zb]; [left; rewrite !upd_same; auto|].
      rewrite !upd_other by auto. destruct (store_both ns (mem s) ef (nx s) b) as [Y|Y]; [auto|right]. split; auto. discriminate.
    + intros b. unfold ef'. destruct (Nat.eq_dec b p) as [->|Zb]; [rewrite !upd_same; auto|].
      rewrite !upd_other by auto. destruct (store_both ns (mem s) ef (nx s) b) as [Y|[-> ->]]; [rewrite Y|]; auto.
    + intros b Hb. destruct (Nat.eq_dec b p) as [->|Zb]; [right; right; auto|]. left. apply U; auto.
    + cbn. intros b Hb. apply in_app_or in Hb. destruct Hb as [Hb|Hb]; [apply in_seq in Hb; lia|].
      assert (b < nx s) by (apply PG; cbn; auto). lia.
    + cbn. tauto.
    + cbn. tauto.
    + auto.
    + discriminate.
    + split; [split|].
      * intros Hb. apply in_app_or in Hb. destruct Hb as [Hb|Hb]; [apply in_seq in Hb; lia|]. apply (proj1 SP). auto.
      * intros y c0 Hy Hc Hin Hb.
        assert (Ly : y < nx s).
        { destruct (Nat.lt_ge_cases y (nx s)) as [|Y]; auto. exfalso. apply Hc. apply in_or_app. left. apply in_seq. lia. }
        rewrite U in Hin; [|auto|intros ->; apply Hc; apply in_or_app; auto].
        apply in_app_or in Hb. destruct Hb as [Hb|Hb].
        -- apply in_seq in Hb. assert (c0 < nx s) by (eapply kids_lt; [exact W| |exact Hin]; lia). lia.
        -- eapply (proj2 SP); [exact Ly| |exact Hin|exact Hb]. intros Y. apply Hc. apply in_or_app. auto.
      * intros j u b Hj Hu Hb Hin. apply in_app_or in Hin. destruct Hin as [Hin|Hin].
        -- apply in_seq in Hin. pose proof (OP _ _ _ Hu Hb). lia.
        -- eapply DP; eauto.
    + rewrite U by auto. split; [lia|]. split; auto. intros k. rewrite (e_lk _ _ _ _ _ _ _ _ EF); auto. apply whole_inr; auto.
    + rewrite U by auto. auto.
    + auto.
    + assert (La : a < nx s) by (apply PG; cbn; auto).
      cbn. split; auto. split; [apply in_or_app; auto|]. rewrite (U (root s)) by auto.
      pose proof (e_hdr _ _ _ _ _ _ _ _ EF a La) as HD. split; [eapply whole_hdr; [symmetry; exact HD|auto]|].
      rewrite (hdr_ht _ _ HD). split; auto. intros k. rewrite (e_lk _ _ _ _ _ _ _ _ EF); auto. apply whole_inr; auto.
  - (* I2, a root more *) destruct PC as (X & Pa & Wa & Hh & Hl).
    assert (La : a < nx s) by (apply PG; cbn; auto).
    assert (ME : mem s a = ef a) by (eapply mem_priv; eauto).
    unfold grow in E. rewrite ME in E.
    destruct (pieces (ef a) cs) as [ns|] eqn:Es; [|discriminate]. injection E as <- <- <-.
    destruct (grow_eff ef (nx s) (nb s) (br s) a cs ns W La Es) as (EF & HL & HK & _ & _).
    set (n := Nd (S (ht (ef a))) (heads (nx s) ns) (ub (ef a))) in *.
    set (ef' := upd (store ef (nx s) ns) (nx s + length ns) n) in *.
    exists ef', m, (f i). split; [|apply sim_none].
    assert (U : forall a, a < nx s -> ef' a = ef a).
    { intros b Hb. unfold ef'. rewrite upd_other by lia. apply store_old. auto. }
    unfold with_mem, set_ths; cbn [mem nx root br nb fr ths]. replace (match nx s with 0 => S (nx s + length ns) | S l0 => nx s + length ns - l0 end) with (S (length ns)) by (destruct (nx s); lia).
    change (pred (S (nx s + length ns))) with (nx s + length ns).
    eapply frame; [exact V|exact Hi|exact EF|..]; cbn [p4 priv root_claim].
    + discriminate.
    + intros b _. unfold ef'. destruct (Nat.eq_dec b (nx s + length ns)) as [->|Zb]; [left; rewrite !upd_same; auto|].
      rewrite !upd_other by auto. destruct (store_both ns (mem s) ef (nx s) b) as [Y|Y]; [auto|right]. split; auto. discriminate.
    + intros b. unfold ef'. destruct (Nat.eq_dec b (nx s + length ns)) as [->|Zb]; [rewrite !upd_same; auto|].
      rewrite !upd_other by auto. destruct (store_both ns (mem s) ef (nx s) b) as [Y|[-> ->]]; [rewrite Y|]; auto.
    + intros b Hb. left. apply U; auto.
    + intros b Hb. change (In b (seq (nx s) (S (length ns)) ++ own)) in Hb. apply in_app_or in Hb. destruct Hb as [Hb|Hb]; [apply in_seq in Hb; lia|].
      assert (b < nx s) by (apply PG; cbn; auto). lia.
    + cbn. tauto.
    + cbn. tauto.
    + auto.
    + discriminate.
    + split; [split|].
      * intros Hb. apply in_app_or in Hb. destruct Hb as [Hb|Hb]; [apply in_seq in Hb; lia|]. apply (proj1 SP). auto.
      * intros y c0 Hy Hc Hin Hb.
        assert (Ly : y < nx s).
        { destruct (Nat.lt_ge_cases y (nx s)) as [|Y]; auto. exfalso. apply Hc. apply in_or_app. left. apply in_seq. lia. }
        rewrite U in Hin by auto.
        apply in_app_or in Hb. destruct Hb as [Hb|Hb].
        -- apply in_seq in Hb. assert (c0 < nx s) by (eapply kids_lt; [exact W| |exact Hin]; lia). lia.
        -- eapply (proj2 SP); [exact Ly| |exact Hin|exact Hb]. intros Y. apply Hc. apply in_or_app. auto.
      * intros j u b Hj Hu Hb Hin. apply in_app_or in Hin. destruct Hin as [Hin|Hin].
        -- apply in_seq in Hin. pose proof (OP _ _ _ Hu Hb). lia.
        -- eapply DP; eauto.
    + rewrite U by auto. split; [lia|]. split; auto. intros k. rewrite (e_lk _ _ _ _ _ _ _ _ EF); auto. apply whole_inr; auto.
    + rewrite U by auto. auto.
    + auto.
    + assert (Un : ef' (nx s + length ns) = n) by apply upd_same.
      cbn [pcok]. split; auto. split; [apply in_or_app; left; apply in_seq; lia|]. rewrite (U (root s)), Un by auto.
      split; [|split].
      * destruct Wa as [W1 W2]. split; [rewrite HL; auto|auto].
      * cbn. lia.
      * intros k. unfold ef'. rewrite HK; auto. apply whole_inr; auto.
Qed.

Lemma start_ok : forall s ef m f i c s' t', inv s ef m f -> nth_error (ths s) i = Some Idle ->
  start s c = Some (s', t') -> good s i m f s' t' (Called c).
Proof.
  intros s ef m f i c s' t' V Hi E. pose proof (v_pc _ _ _ _ V _ _ Hi) as PC. cbn in PC.
  pose proof (v_wf _ _ _ _ V) as W. pose proof (v_root _ _ _ _ V) as (R1 & R2 & R3). pose proof (v_ht _ _ _ _ V) as VH.
  exists ef, m, (SCalled c). 
  destruct c as [k|c|k h e sg]; cbn [start] in E.
  - injection E as <- <-. split; [|rewrite PC; apply sim_call].
    eapply frame_go; eauto; cbn; try (intros; try tauto; discriminate).
  - injection E as <- <-. split; [|rewrite PC; apply sim_call].
    eapply frame_go; eauto; cbn; try (intros; try tauto; discriminate).
  - destruct (Nat.leb_spec h (ht (mem s (root s)))) as [L|L]; [|discriminate].
    destruct (forallb (fun b => b <? nb s) sg) eqn:F; [|discriminate]. cbn [andb] in E. injection E as <- <-.
    split; [|rewrite PC; apply sim_call].
    assert (FS : Forall (fun b => b < nb s) sg).
    { apply Forall_forall. intros b Hb. rewrite forallb_forall in F. apply Nat.ltb_lt. auto. }
    pose proof (eff_branch ef (nx s) (nb s) (br s) (all_of (br s) sg) W) as EF.
    unfold with_branch, set_ths; cbn [mem nx root br nb fr ths].
    eapply frame; [exact V|exact Hi|exact EF|..]; cbn [p4 priv root_claim].
    + discriminate.
    + intros b _. right. split; auto. discriminate.
    + auto.
    + auto.
    + cbn. tauto.
    + cbn. tauto.
    + cbn. tauto.
    + discriminate.
    + intros _ O S1 S2 S3. split; auto.
    + split; [split|]; intros; tauto.
    + split; auto. split; auto. intros k0. rewrite (e_lk _ _ _ _ _ _ _ _ EF); auto. apply whole_inr; auto.
    + auto.
    + auto.
    + cbn [pcok]. split; [exists k, h, e, sg; auto|]. split; [|split; [|split]]; cbn [seg nbr hh].
      * eapply Forall_impl; [|exact FS]. cbn. intros; lia.
      * lia.
      * intros k0. rewrite upd_same. symmetry. eapply all_of_ext; [|exact FS]. intros b Hb. apply upd_other. lia.
      * rewrite <- VH. auto.
Qed.
