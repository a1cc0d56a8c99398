(** * The log holds what the specification says *)

From Coq Require Import List NArith ZArith Arith Bool Lia Permutation Sorted.
From Verif Require Import Base Codec CodecProofs PageBytes PageBytesProofs Log LogSpec.
Import ListNotations.
Local Open Scope N_scope.
Arguments N.pow : simpl never.

Lemma blen_app : forall a b : bytes, blen (a ++ b) = blen a + blen b.
Proof. intros. unfold blen. rewrite app_length. lia. Qed.
Lemma enc8_blen : forall x, blen (enc_le 8 x) = 8.
Proof. intros. unfold blen. now rewrite enc_le_len. Qed.

Lemma dec8 : forall x r, x < 2 ^ 64 -> dec_le 8 (enc_le 8 x ++ r) = Some (x, r).
Proof. intros x r H. apply dec_enc_le. exact H. Qed.

Lemma rd64_poke_disj : forall bs o d bs' a, poke bs o d = Some bs' -> (a + 8 <= o \/ o + blen d <= a) -> rd64 bs' a = rd64 bs a.
Proof.
  intros bs o d bs' a P H. unfold rd64. now rewrite (slice_poke_disj _ _ _ _ _ 8 P).
Qed.
Lemma rd64_poke_same : forall bs o x bs', wr64 bs o x = Some bs' -> x < 2 ^ 64 -> rd64 bs' o = Some x.
Proof.
  intros bs o x bs' P H. unfold wr64 in P. apply slice_poke_same in P. rewrite enc8_blen in P.
  unfold rd64. rewrite P. cbn [obind]. rewrite <- (app_nil_r (enc_le 8 x)), dec8 by exact H. reflexivity.
Qed.

Lemma required_size : forall e, required e = size e.
Proof. intros. unfold required, size, entry_hdr, blen. lia. Qed.
Lemma size_min : forall e, 14 <= size e. Proof. intros. unfold size. lia. Qed.
Lemma sizes_app : forall a b, sizes (a ++ b) = sizes a + sizes b.
Proof. induction a as [|e a IH]; intros; cbn [app sizes]; [lia|]. rewrite IH. lia. Qed.
Lemma sizes_count : forall es, 14 * N.of_nat (length es) <= sizes es.
Proof. induction es as [|e r IH]; cbn [sizes length]; [lia|]. pose proof (size_min e). lia. Qed.

Definition enc_entry (kf : N) (e : entry) : bytes :=
  enc_le 8 (e_gen e) ++ copy_tuple_to_ondisk_tuple kf (e_key e) (e_msg e).
Lemma enc_entry_len : forall kf e, blen (enc_entry kf e) = size e.
Proof.
  intros. unfold enc_entry. rewrite blen_app, enc8_blen, tuple_size. unfold sizeof_ondisk_tuple, sizeof_ondisk_tuple_hdr, size, blen. lia.
Qed.

(** The entries [es] are in the page from [off] on *)
Fixpoint content (bs : bytes) (off : N) (es : list entry) : Prop :=
  match es with
  | [] => True
  | e :: r => (exists kf, slice bs off (size e) = Some (enc_entry kf e)) /\ content bs (off + size e) r
  end.

Lemma content_app : forall a bs off b,
  content bs off (a ++ b) <-> content bs off a /\ content bs (off + sizes a) b.
Proof.
  induction a as [|e a IH]; intros; cbn [app content sizes].
  - rewrite N.add_0_r. tauto.
  - rewrite IH. rewrite N.add_assoc. tauto.
Qed.
Lemma content_poke : forall es bs off o d bs', poke bs o d = Some bs' ->
  (o + blen d <= off \/ off + sizes es <= o) -> content bs off es -> content bs' off es.
Proof.
  induction es as [|e r IH]; intros bs off o d bs' P D C; cbn [content sizes] in *; [exact Logic.I|].
  destruct C as [[kf C1] C2]. split.
  - exists kf. rewrite (slice_poke_disj _ _ _ _ _ _ P); [exact C1|lia].
  - eapply IH; [exact P| |exact C2]. lia.
Qed.

Definition entry_ok (e : entry) : Prop := e_gen e < 2 ^ 64 /\ e_gen e <> INVALID_GENERATION.

Lemma slice_split : forall bs o n d a b, slice bs o n = Some d -> d = a ++ b ->
  slice bs o (blen a) = Some a /\ slice bs (o + blen a) (blen b) = Some b.
Proof.
  intros bs o n d a b H E. subst d. pose proof (slice_bound _ _ _ _ H) as B. pose proof (slice_len _ _ _ _ H) as L.
  rewrite blen_app in L.
  assert (A1 : slice (a ++ b) 0 (blen a) = Some a).
  { unfold slice. rewrite blen_app. destruct (N.leb_spec (0 + blen a) (blen a + blen b)); [|lia].
    cbn [N.to_nat skipn]. replace (N.to_nat (blen a)) with (length a) by (unfold blen; lia).
    now rewrite firstn_app, firstn_all, Nat.sub_diag, firstn_O, app_nil_r. }
  assert (A2 : slice (a ++ b) (blen a) (blen b) = Some b).
  { unfold slice. rewrite blen_app. destruct (N.leb_spec (blen a + blen b) (blen a + blen b)); [|lia].
    replace (N.to_nat (blen a)) with (length a) by (unfold blen; lia).
    replace (N.to_nat (blen b)) with (length b) by (unfold blen; lia).
    rewrite skipn_app, skipn_all, Nat.sub_diag, skipn_O, app_nil_l. now rewrite firstn_all. }
  split.
  - pose proof (slice_sub _ _ _ _ _ _ _ H A1) as X. now rewrite N.add_0_r in X.
  - exact (slice_sub _ _ _ _ _ _ _ H A2).
Qed.

Lemma rd16_slice : forall bs o x, slice bs o 2 = Some (enc_u16 x) -> x < 2 ^ 16 -> rd16 bs o = Some x.
Proof.
  intros bs o x H L. unfold rd16. rewrite H. unfold enc_u16. f_equal.
  pose proof (dec_enc_u16 x [] L) as D. unfold dec_u16, enc_u16 in D. cbn [app] in D. now injection D.
Qed.

Lemma read_entry_ok : forall bs off e kf,
  slice bs off (size e) = Some (enc_entry kf e) -> size e < 2 ^ 16 -> e_gen e < 2 ^ 64 ->
  read_entry bs off = Some (e, size e).
Proof.
  intros bs off e kf H SZ G.
  destruct (slice_split _ _ _ _ _ _ H eq_refl) as [H1 H2]. rewrite enc8_blen in H1, H2.
  assert (LK : blen (e_key e) < 2 ^ 16) by (unfold size, blen in *; lia).
  assert (LM : blen (m_data (e_msg e)) < 2 ^ 16) by (unfold size, blen in *; lia).
  pose proof H2 as H2'. unfold copy_tuple_to_ondisk_tuple in H2.
  destruct (slice_split _ _ _ _ _ _ H2 eq_refl) as [K1 K2]. rewrite enc_u16_len in K1, K2.
  destruct (slice_split _ _ _ _ _ _ K2 eq_refl) as [_ K3]. change (blen [kf]) with 1 in K3.
  destruct (slice_split _ _ _ _ _ _ K3 eq_refl) as [K4 _]. rewrite enc_u16_len in K4.
  unfold read_entry, rd64. rewrite H1. cbn [obind]. rewrite <- (app_nil_r (enc_le 8 (e_gen e))), dec8 by exact G.
  cbn [obind fst]. rewrite (rd16_slice _ _ _ K1 LK). cbn [obind].
  replace (off + 11) with (off + 8 + 2 + 1) by lia. rewrite (rd16_slice _ _ _ K4 LM). cbn [obind].
  rewrite tuple_size in H2'. unfold sizeof_ondisk_tuple, sizeof_ondisk_tuple_hdr in H2'. rewrite H2'. cbn [obind].
  rewrite <- (app_nil_r (copy_tuple_to_ondisk_tuple kf (e_key e) (e_msg e))), tuple_roundtrip by assumption.
  cbn [obind fst snd]. f_equal. f_equal; [destruct e; reflexivity|]. unfold size, entry_hdr, blen. lia.
Qed.

Lemma complete_nth : forall ps i p, nth_error (complete ps) i = Some p -> nth_error ps i = Some p /\ s_done p = true.
Proof.
  induction ps as [|q r IH]; intros i p H; cbn [complete] in H; [now destruct i|].
  destruct (s_done q) eqn:D; [|now destruct i]. destruct i as [|i]; cbn in *; [injection H as <-; auto|auto].
Qed.
Lemma complete_app : forall ps, exists r, ps = complete ps ++ r.
Proof.
  induction ps as [|q r [x IH]]; cbn [complete]; [now exists []|]. destruct (s_done q); [|now exists (q :: r)].
  exists x. cbn. now rewrite <- IH.
Qed.
Lemma complete_len : forall ps, (length (complete ps) <= length ps)%nat.
Proof. intros ps. destruct (complete_app ps) as [r E]. rewrite E at 2. rewrite app_length. lia. Qed.

Section P.
Context (psz : N) (ppe : nat) (csum : bytes -> bytes) (magic : N) (ext : nat -> N) (K : nat).
Hypothesis PSZ : 34 <= psz < 2 ^ 16.
Hypothesis CS : forall b, length (csum b) = 16%nat.
Hypothesis MG : magic < 2 ^ 64.
Hypothesis PPE : (0 < ppe)%nat.
(* the extents that the mini allocator can take *)
Hypothesis EXT_INJ : forall i j, (i <= K)%nat -> (j <= K)%nat -> ext i = ext j -> i = j.
Hypothesis EXT_AL : forall i, (i <= K)%nat -> ext i mod (N.of_nat ppe * psz) = 0.
Hypothesis EXT_NZ : forall i, (i <= K)%nat -> 0 < ext i < 2 ^ 64.

Lemma extent_of : forall i, (i < K * ppe)%nat -> (i / ppe < K)%nat.
Proof. intros i H. apply Nat.div_lt_upper_bound; lia. Qed.

Definition ended (bs : bytes) (off : N) : Prop := psz - off < 14 \/ rd64 bs off = Some INVALID_GENERATION.

Lemma read_page_ok : forall es fuel bs off,
  content bs off es -> Forall entry_ok es -> off + sizes es <= psz -> ended bs (off + sizes es) ->
  (length es < fuel)%nat -> read_page psz fuel bs off = Some es.
Proof.
  induction es as [|e r IH]; intros fuel bs off C F L E FU; (destruct fuel as [|fuel]; [cbn in FU; lia|]);
    cbn [read_page]; unfold terminal; cbn [content sizes length] in *; destruct (N.leb_spec off psz); try lia; cbn [andb].
  - rewrite N.add_0_r in E. destruct E as [E|E]; unfold entry_hdr; destruct (N.ltb_spec (psz - off) 14); try reflexivity; try lia.
    rewrite E. cbn [obind]. now rewrite N.eqb_refl.
  - destruct C as [[kf C1] C2]. inversion F as [|? ? [G1 G2] F']; subst. pose proof (size_min e).
    unfold entry_hdr. destruct (N.ltb_spec (psz - off) 14); [lia|].
    assert (RE : read_entry bs off = Some (e, size e)) by (eapply read_entry_ok; [exact C1|lia|exact G1]).
    assert (RG : rd64 bs off = Some (e_gen e)).
    { unfold read_entry in RE. destruct (rd64 bs off) as [g|]; [|discriminate]. cbn [obind] in RE.
      destruct (rd16 bs (off + 8)); [|discriminate]. cbn [obind] in RE.
      destruct (rd16 bs (off + 11)); [|discriminate]. cbn [obind] in RE.
      destruct (slice bs (off + 8) _); [|discriminate]. cbn [obind] in RE.
      destruct (ondisk_tuple_decode _); [|discriminate]. cbn [obind] in RE. injection RE as E1 _. now rewrite <- E1. }
    rewrite RG. cbn [obind]. destruct (N.eqb_spec (e_gen e) INVALID_GENERATION); [contradiction|].
    rewrite RE. cbn [obind fst snd]. rewrite (IH fuel); [reflexivity|exact C2|exact F'|lia| |lia].
    now rewrite <- N.add_assoc.
Qed.

(** A page in memory against a page of the specification *)
Record page_ok (bs : bytes) (i : nat) (p : spage) : Prop := {
  po_len : blen bs = psz;
  po_magic : rd64 bs at_magic = Some magic;
  po_next : rd64 bs at_next_extent = Some (next_extent ppe ext i);
  po_num : rd16 bs at_entries = Some (N.of_nat (length (s_entries p)));
  po_size : 34 + sizes (s_entries p) <= psz;
  po_cont : content bs 34 (s_entries p);
  po_done : s_done p = true ->
    ended bs (34 + sizes (s_entries p)) /\
    exists d, slice bs 16 (psz - 16) = Some d /\ slice bs 0 16 = Some (csum d)
}.

Lemma csum_blen : forall b, blen (csum b) = 16.
Proof. intros. unfold blen. now rewrite CS. Qed.

Lemma new_page_ok : forall mem i t,
  blen mem = psz -> (i < K * ppe)%nat ->
  exists b1 b2 b3, wr64 mem at_magic magic = Some b1 /\ wr64 b1 at_next_extent (next_extent ppe ext i) = Some b2 /\
    wr16 b2 at_entries 0 = Some b3 /\ page_ok b3 i (SPage t [] false).
Proof.
  intros mem i t L LK. unfold wr64, wr16.
  destruct (poke_some mem at_magic (enc_le 8 magic)) as [b1 P1]; [rewrite enc8_blen; unfold at_magic; lia|].
  pose proof (poke_len _ _ _ _ P1) as L1.
  destruct (poke_some b1 at_next_extent (enc_le 8 (next_extent ppe ext i))) as [b2 P2]; [rewrite enc8_blen; unfold at_next_extent; lia|].
  pose proof (poke_len _ _ _ _ P2) as L2.
  destruct (poke_some b2 at_entries (enc_u16 0)) as [b3 P3]; [rewrite enc_u16_len; unfold at_entries; lia|].
  pose proof (poke_len _ _ _ _ P3) as L3.
  exists b1, b2, b3. split; [exact P1|]. split; [exact P2|]. split; [exact P3|].
  constructor; cbn [s_entries s_done length sizes content].
  - lia.
  - rewrite (rd64_poke_disj _ _ _ _ _ P3), (rd64_poke_disj _ _ _ _ _ P2); [eapply rd64_poke_same; [exact P1|exact MG]| |];
      rewrite ?enc8_blen, ?enc_u16_len; unfold at_magic, at_next_extent, at_entries; lia.
  - rewrite (rd64_poke_disj _ _ _ _ _ P3); [eapply rd64_poke_same; [exact P2|apply EXT_NZ; now apply extent_of]|].
    rewrite enc_u16_len; unfold at_next_extent, at_entries; lia.
  - exact (rd16_wr16_same _ _ _ _ P3 eq_refl).
  - lia.
  - exact Logic.I.
  - discriminate.
Qed.

Lemma finish_page_ok : forall bs i t es,
  page_ok bs i (SPage t es false) ->
  exists b, finish_page psz csum bs (34 + sizes es) = Some b /\ page_ok b i (SPage t es true).
Proof.
  intros bs i t es [L M NX NU SZ C _]. cbn [s_entries s_done] in *. unfold finish_page, page_csum, entry_hdr.
  assert (X : exists b1, (if 14 <=? psz - (34 + sizes es) then wr64 bs (34 + sizes es) INVALID_GENERATION else Some bs) = Some b1 /\
    blen b1 = psz /\ rd64 b1 at_magic = Some magic /\ rd64 b1 at_next_extent = Some (next_extent ppe ext i) /\
    rd16 b1 at_entries = Some (N.of_nat (length es)) /\ content b1 34 es /\ ended b1 (34 + sizes es)).
  { destruct (N.leb_spec 14 (psz - (34 + sizes es))).
    - unfold wr64. destruct (poke_some bs (34 + sizes es) (enc_le 8 INVALID_GENERATION)) as [b1 P]; [rewrite enc8_blen; lia|].
      exists b1. rewrite P. pose proof (poke_len _ _ _ _ P). split; [reflexivity|]. split; [lia|].
      rewrite !(rd64_poke_disj _ _ _ _ _ P), (rd16_poke_disj _ _ _ _ _ P) by (rewrite ?enc8_blen; unfold at_magic, at_next_extent, at_entries; lia).
      repeat (split; [assumption|]). split.
      + eapply content_poke; [exact P| |exact C]. lia.
      + right. eapply rd64_poke_same; [exact P|]. unfold INVALID_GENERATION. lia.
    - exists bs. repeat (split; [first [reflexivity|assumption]|]). left. lia. }
  destruct X as (b1 & E & L1 & M1 & N1 & U1 & C1 & D1). rewrite E. cbn [obind].
  destruct (slice_some b1 16 (psz - 16)) as [d SD]; [lia|]. rewrite SD. cbn [obind].
  destruct (poke_some b1 0 (csum d)) as [b P]; [rewrite csum_blen; lia|]. exists b. split; [exact P|].
  pose proof (poke_len _ _ _ _ P).
  constructor; cbn [s_entries s_done].
  - lia.
  - rewrite (rd64_poke_disj _ _ _ _ _ P); [exact M1|rewrite csum_blen; unfold at_magic; lia].
  - rewrite (rd64_poke_disj _ _ _ _ _ P); [exact N1|rewrite csum_blen; unfold at_next_extent; lia].
  - rewrite (rd16_poke_disj _ _ _ _ _ P); [exact U1|rewrite csum_blen; unfold at_entries; lia].
  - exact SZ.
  - eapply content_poke; [exact P| |exact C1]. rewrite csum_blen. lia.
  - intros _. split.
    + destruct D1 as [D1|D1]; [left; exact D1|right]. rewrite (rd64_poke_disj _ _ _ _ _ P); [exact D1|rewrite csum_blen; lia].
    + exists d. split; [rewrite (slice_poke_disj _ _ _ _ _ _ P); [exact SD|rewrite csum_blen; lia]|].
      pose proof (slice_poke_same _ _ _ _ P) as Q. now rewrite csum_blen in Q.
Qed.

Lemma put_entry_ok : forall bs i t es e,
  page_ok bs i (SPage t es false) -> 34 + sizes es + size e <= psz ->
  exists b, put_entry bs (34 + sizes es) e = Some b /\ page_ok b i (SPage t (es ++ [e]) false).
Proof.
  intros bs i t es e [L M NX NU SZ C _] R. cbn [s_entries s_done] in *. pose proof (size_min e).
  unfold put_entry. destruct (rd8_some bs (34 + sizes es + 10)) as [kf KF]; [lia|]. rewrite KF. cbn [obind].
  change (enc_le 8 (e_gen e) ++ copy_tuple_to_ondisk_tuple kf (e_key e) (e_msg e)) with (enc_entry kf e).
  destruct (poke_some bs (34 + sizes es) (enc_entry kf e)) as [b1 P]; [rewrite enc_entry_len; lia|]. rewrite P. cbn [obind].
  pose proof (poke_len _ _ _ _ P) as L1.
  rewrite (rd16_poke_disj _ _ _ _ _ P), NU by (rewrite enc_entry_len; unfold at_entries; lia). cbn [obind]. unfold wr16.
  destruct (poke_some b1 at_entries (enc_u16 (N.of_nat (length es) + 1))) as [b P2]; [rewrite enc_u16_len; unfold at_entries; lia|].
  exists b. split; [exact P2|]. pose proof (poke_len _ _ _ _ P2) as L2. pose proof (sizes_count es).
  constructor; cbn [s_entries s_done].
  - lia.
  - rewrite (rd64_poke_disj _ _ _ _ _ P2), (rd64_poke_disj _ _ _ _ _ P); [exact M| |];
      rewrite ?enc_entry_len, ?enc_u16_len; unfold at_magic, at_entries; lia.
  - rewrite (rd64_poke_disj _ _ _ _ _ P2), (rd64_poke_disj _ _ _ _ _ P); [exact NX| |];
      rewrite ?enc_entry_len, ?enc_u16_len; unfold at_next_extent, at_entries; lia.
  - rewrite app_length. cbn [length]. replace (N.of_nat (length es + 1)) with (N.of_nat (length es) + 1) by lia.
    apply (rd16_wr16_same _ _ _ _ P2). lia.
  - rewrite sizes_app. cbn [sizes]. lia.
  - apply (content_poke _ _ _ _ _ _ P2); [left; rewrite enc_u16_len; unfold at_entries; lia|].
    apply content_app. split; [eapply content_poke; [exact P| |exact C]; lia|]. cbn [content]. split; [|exact Logic.I].
    exists kf. pose proof (slice_poke_same _ _ _ _ P) as Q. now rewrite enc_entry_len in Q.
  - discriminate.
Qed.

Lemma valid_ok : forall bs i p, page_ok bs i p -> s_done p = true -> page_valid psz csum magic bs = Some true.
Proof.
  intros bs i p [L M _ _ _ _ D] H. destruct (D H) as [_ (d & D1 & D2)].
  unfold page_valid, page_csum. rewrite M, D2, D1. cbn [obind]. rewrite N.eqb_refl.
  destruct (list_eq_dec N.eq_dec (csum d) (csum d)); [reflexivity|contradiction].
Qed.

Lemma page_addr_inj : forall i j, (i < K * ppe)%nat -> (j < K * ppe)%nat -> page_addr psz ppe ext i = page_addr psz ppe ext j -> i = j.
Proof.
  intros i j LI LJ H. unfold page_addr in H. apply extent_of in LI, LJ.
  assert (Z : N.of_nat ppe * psz <> 0) by (apply N.neq_mul_0; lia).
  assert (B : forall k, N.of_nat (k mod ppe) * psz < N.of_nat ppe * psz).
  { intros k. apply N.mul_lt_mono_pos_r; [lia|]. pose proof (Nat.mod_upper_bound k ppe). lia. }
  assert (Q : forall k, (k / ppe < K)%nat -> (ext (k / ppe) + N.of_nat (k mod ppe) * psz) mod (N.of_nat ppe * psz) = N.of_nat (k mod ppe) * psz).
  { intros k LK. rewrite N.add_mod, EXT_AL, N.add_0_l, N.mod_mod by (first [exact Z|lia]). now rewrite N.mod_small by apply B. }
  assert (E : N.of_nat (i mod ppe) * psz = N.of_nat (j mod ppe) * psz) by (pose proof (Q i LI) as Qi; rewrite H, (Q j LJ) in Qi; now symmetry).
  assert (E2 : (i mod ppe = j mod ppe)%nat) by (apply Nat2N.inj; apply N.mul_cancel_r in E; [exact E|lia]).
  rewrite E in H. assert (E3 : ext (i / ppe) = ext (j / ppe)) by lia. apply EXT_INJ in E3; [|lia|lia].
  rewrite (Nat.div_mod i ppe), (Nat.div_mod j ppe) by lia. now rewrite E2, E3.
Qed.

(** *** Every write does what the specification does *)

Fixpoint upd (ps : list spage) (i : nat) (p : spage) : list spage :=
  match ps, i with
  | [], _ => []
  | _ :: r, O => p :: r
  | q :: r, S j => q :: upd r j p
  end.
Lemma upd_len : forall ps i p, length (upd ps i p) = length ps.
Proof. induction ps as [|q r IH]; intros [|i] p; cbn; auto. Qed.
Lemma upd_same : forall ps i p, (i < length ps)%nat -> nth_error (upd ps i p) i = Some p.
Proof. induction ps as [|q r IH]; intros [|i] p H; cbn in *; try lia; [reflexivity|]. apply IH. lia. Qed.
Lemma upd_other : forall ps i j p, i <> j -> nth_error (upd ps i p) j = nth_error ps j.
Proof. induction ps as [|q r IH]; intros [|i] [|j] p H; cbn; auto; try congruence. Qed.

Definition open_page (t : nat) (p : spage) : bool := Nat.eqb (s_tid p) t && negb (s_done p).

Lemma put_at : forall cap t e ps i p, nth_error ps i = Some p -> open_page t p = true ->
  (forall j q, (j < i)%nat -> nth_error ps j = Some q -> open_page t q = false) ->
  put cap t e ps = if sizes (s_entries p) + size e <=? cap
                   then (upd ps i (SPage t (s_entries p ++ [e]) false), true)
                   else (upd ps i (SPage t (s_entries p) true), false).
Proof.
  intros cap t e. induction ps as [|q r IH]; intros [|i] p H O B; cbn in H; try discriminate; cbn [put upd].
  - injection H as ->. fold (open_page t p). rewrite O. destruct (_ <=? _); reflexivity.
  - fold (open_page t q). rewrite (B 0%nat q (Nat.lt_0_succ i) eq_refl).
    rewrite (IH i p H O) by (intros j q' L Q; apply (B (S j) q'); [lia|exact Q]).
    destruct (_ <=? _); reflexivity.
Qed.
Lemma put_none : forall cap t e ps, (forall j q, nth_error ps j = Some q -> open_page t q = false) -> put cap t e ps = (ps, false).
Proof.
  intros cap t e. induction ps as [|q r IH]; intros B; cbn [put]; [reflexivity|].
  fold (open_page t q). rewrite (B O q eq_refl). now rewrite IH by (intros j q' Q; exact (B (S j) q' Q)).
Qed.

Record Rep (l : log) (ps : list spage) : Prop := {
  r_n : g_pages l = length ps;
  r_max : (g_pages l <= K * ppe)%nat;
  r_len : forall a, blen (g_mem l a) = psz;
  r_pages : forall i p, nth_error ps i = Some p -> page_ok (g_mem l (page_addr psz ppe ext i)) i p;
  r_thr : forall t a off, g_thr l t = Some (a, off) -> exists i p, nth_error ps i = Some p /\
    open_page t p = true /\ a = page_addr psz ppe ext i /\ off = 34 + sizes (s_entries p);
  r_none : forall t, g_thr l t = None -> forall i p, nth_error ps i = Some p -> open_page t p = false;
  r_uniq : forall t i j p q, nth_error ps i = Some p -> nth_error ps j = Some q ->
    open_page t p = true -> open_page t q = true -> i = j
}.

Lemma open_tid : forall t p, open_page t p = true -> s_tid p = t /\ s_done p = false.
Proof. intros t p H. unfold open_page in H. apply andb_true_iff in H as [A B]. apply Nat.eqb_eq in A. now apply negb_true_iff in B. Qed.
Lemma open_false : forall t p, s_done p = true -> open_page t p = false.
Proof. intros t p H. unfold open_page. rewrite H. apply andb_false_r. Qed.
Lemma open_two : forall t u p, open_page t p = true -> open_page u p = true -> t = u.
Proof. intros t u p A B. apply open_tid in A, B. destruct A, B. congruence. Qed.
Lemma open_new : forall t es, open_page t (SPage t es false) = true.
Proof. intros. unfold open_page. cbn. now rewrite Nat.eqb_refl. Qed.

Lemma nth_snoc : forall A (l : list A) x i y, nth_error (l ++ [x]) i = Some y ->
  (nth_error l i = Some y /\ (i < length l)%nat) \/ (i = length l /\ y = x).
Proof.
  intros A l x i y H. destruct (Nat.lt_ge_cases i (length l)) as [L|L].
  - rewrite nth_error_app1 in H by exact L. auto.
  - rewrite nth_error_app2 in H by exact L. right. destruct (i - length l)%nat as [|k] eqn:E; cbn in H.
    + injection H as ->. split; [lia|reflexivity].
    + now destruct k.
Qed.

Definition pages_ok (n : nat) (mem : N -> bytes) (ps : list spage) : Prop :=
  n = length ps /\ (n <= K * ppe)%nat /\ (forall a, blen (mem a) = psz) /\
  forall i p, nth_error ps i = Some p -> page_ok (mem (page_addr psz ppe ext i)) i p.

Lemma pages_new : forall n mem thr ps t, pages_ok n mem ps -> (n < K * ppe)%nat ->
  exists mem', new_page psz ppe magic ext (Log n mem thr) t =
      Some (Log (S n) mem' (set_thr thr t (page_addr psz ppe ext n, 34))) /\
    pages_ok (S n) mem' (ps ++ [SPage t [] false]).
Proof.
  intros n mem thr ps t (A & AK & B & C) LK. unfold new_page. cbn [g_pages g_mem g_thr].
  destruct (new_page_ok (mem (page_addr psz ppe ext n)) n t (B _) LK) as (b1 & b2 & b3 & E1 & E2 & E3 & OK).
  rewrite E1. cbn [obind]. rewrite E2. cbn [obind]. rewrite E3. cbn [obind].
  eexists. split; [reflexivity|]. unfold pages_ok. rewrite app_length. cbn [length]. split; [lia|]. split; [lia|]. split.
  - intros a. unfold set_mem. destruct (a =? _); [exact (po_len _ _ _ OK)|apply B].
  - intros i p H. apply nth_snoc in H as [[H L]|[-> ->]]; unfold set_mem.
    + destruct (N.eqb_spec (page_addr psz ppe ext i) (page_addr psz ppe ext n)) as [E|E]; [apply page_addr_inj in E; lia|]. now apply C.
    + rewrite <- A, N.eqb_refl. exact OK.
Qed.

Lemma nth_lt : forall A (l : list A) i x, nth_error l i = Some x -> (i < length l)%nat.
Proof. intros. apply nth_error_Some. congruence. Qed.
Lemma pages_upd : forall n mem ps i p b, pages_ok n mem ps -> (i < length ps)%nat ->
  page_ok b i p -> pages_ok n (set_mem mem (page_addr psz ppe ext i) b) (upd ps i p).
Proof.
  intros n mem ps i p b (A & AK & B & C) L OK. unfold pages_ok. rewrite upd_len. split; [exact A|]. split; [exact AK|]. split.
  - intros a. unfold set_mem. destruct (a =? _); [exact (po_len _ _ _ OK)|apply B].
  - intros j q H. unfold set_mem. destruct (N.eqb_spec (page_addr psz ppe ext j) (page_addr psz ppe ext i)) as [E|E].
    + pose proof (nth_lt _ _ _ _ H) as LJ. rewrite upd_len in LJ. apply page_addr_inj in E; [|lia|lia]. subst j. rewrite upd_same in H by exact L. injection H as <-. exact OK.
    + rewrite upd_other in H by (intros ->; now apply E). now apply C.
Qed.

Lemma upd_snoc : forall ps p q, upd (ps ++ [p]) (length ps) q = ps ++ [q].
Proof. induction ps as [|x r IH]; intros; cbn; [reflexivity|]. now rewrite IH. Qed.
Lemma some_pair : forall A B (a c : A) (b d : B), Some (a, b) = Some (c, d) -> a = c /\ b = d.
Proof. intros A B a c b d H. injection H as -> ->. now split. Qed.

(** A fresh page with its first entry *)
Lemma first_entry : forall n mem thr ps t e, pages_ok n mem ps -> size e <= psz - 34 -> (n < K * ppe)%nat ->
  exists l2, new_page psz ppe magic ext (Log n mem thr) t = Some l2 /\
    g_thr l2 t = Some (page_addr psz ppe ext n, 34) /\
    exists b, put_entry (g_mem l2 (page_addr psz ppe ext n)) 34 e = Some b /\
      pages_ok (g_pages l2) (set_mem (g_mem l2) (page_addr psz ppe ext n) b) (ps ++ [SPage t [e] false]) /\
      forall u v, set_thr (g_thr l2) t v u = set_thr thr t v u.
Proof.
  intros n mem thr ps t e P R LK. destruct (pages_new n mem thr ps t P LK) as (mem' & E & P').
  exists (Log (S n) mem' (set_thr thr t (page_addr psz ppe ext n, 34))). split; [exact E|]. cbn [g_thr g_mem g_pages].
  split; [unfold set_thr; now rewrite Nat.eqb_refl|].
  destruct P as (A & _ & _ & _). pose proof P' as (_ & _ & _ & C').
  assert (NT : nth_error (ps ++ [SPage t [] false]) n = Some (SPage t [] false)).
  { rewrite nth_error_app2 by lia. now replace (n - length ps)%nat with O by lia. }
  pose proof (C' n _ NT) as OK. pose proof (size_min e).
  destruct (put_entry_ok _ _ t [] e OK) as (b & PE & OK'); [cbn [sizes]; lia|].
  change (34 + sizes []) with 34 in PE. exists b. split; [exact PE|]. split.
  - pose proof (pages_upd _ _ _ n _ b P' ltac:(rewrite app_length; cbn; lia) OK') as Q. subst n.
    rewrite upd_snoc in Q. exact Q.
  - intros u v. unfold set_thr. now destruct (Nat.eqb u t).
Qed.

Lemma write_rep : forall l ps t e, Rep l ps -> size e <= psz - 34 -> (length (spec_write (psz - 34) ps (t, e)) <= K * ppe)%nat ->
  exists l', log_write psz ppe csum magic ext l t e = Some l' /\ Rep l' (spec_write (psz - 34) ps (t, e)).
Proof.
  intros [n mem thr] ps t e [RN RK RL RP RT RO RU] SZ. cbn [g_pages g_mem g_thr] in *.
  assert (P : pages_ok n mem ps) by (split; [exact RN|]; split; [exact RK|]; split; assumption).
  unfold log_write, spec_write. cbn [fst snd g_thr]. intros LEN1. revert LEN1. destruct (thr t) as [[a off]|] eqn:ET.
  - (* the thread is filling page [i] *)
    cbn [obind g_thr]. rewrite ET. cbn [g_mem g_pages]. destruct (RT t a off ET) as (i & p & NI & OP & -> & ->).
    destruct (open_tid _ _ OP) as [TID DN]. pose proof (nth_lt _ _ _ _ NI) as LI.
    assert (PE : p = SPage t (s_entries p) false) by (destruct p; cbn in *; congruence).
    pose proof (RP i p NI) as OK. rewrite PE in OK. pose proof (po_size _ _ _ OK) as PS. cbn [s_entries] in PS.
    rewrite (put_at _ t e ps i p NI OP) by (intros j q L Q; destruct (open_page t q) eqn:OQ; [|reflexivity]; pose proof (RU t i j p q NI Q OP OQ); lia).
    rewrite required_size.
    destruct (N.leb_spec (sizes (s_entries p) + size e) (psz - 34)) as [FIT|FIT];
      destruct (N.ltb_spec (psz - (34 + sizes (s_entries p))) (size e)) as [LT|LT]; try lia; cbn [fst snd obind]; intros LEN1.
    + (* it fits *)
      cbn [g_thr]. rewrite ET. cbn [g_mem g_pages g_thr].
      destruct (put_entry_ok _ _ _ _ e OK) as (b & PB & OK'); [lia|]. rewrite PB. cbn [obind].
      eexists. split; [reflexivity|]. destruct (pages_upd n mem ps i _ b P LI OK') as (X1 & XK & X2 & X3).
      constructor; cbn [g_pages g_mem g_thr]; [exact X1|exact XK|exact X2|exact X3| | |].
      * intros u a0 off0 H. unfold set_thr in H. destruct (Nat.eqb_spec u t) as [->|NE].
        -- apply some_pair in H as [<- <-]. exists i, (SPage t (s_entries p ++ [e]) false). rewrite upd_same by exact LI.
           rewrite open_new. cbn [s_entries]. rewrite sizes_app. cbn [sizes]. rewrite ?required_size. split; [reflexivity|]. split; [reflexivity|]. split; [reflexivity|lia].
        -- destruct (RT u a0 off0 H) as (j & q & NJ & OQ & A1 & A2). exists j, q. rewrite upd_other; [auto|].
           intros ->. rewrite NI in NJ. injection NJ as ->. apply NE. exact (open_two _ _ _ OQ OP).
      * intros u H j q NJ. unfold set_thr in H. destruct (Nat.eqb_spec u t) as [EU|NE]; [discriminate|].
        destruct (Nat.eq_dec i j) as [<-|NIJ].
        -- rewrite upd_same in NJ by exact LI. injection NJ as <-. unfold open_page. cbn. now destruct (Nat.eqb_spec t u); [congruence|].
        -- rewrite upd_other in NJ by exact NIJ. exact (RO u H j q NJ).
      * assert (KK : forall u j q, nth_error (upd ps i (SPage t (s_entries p ++ [e]) false)) j = Some q -> open_page u q = true ->
                    exists q', nth_error ps j = Some q' /\ open_page u q' = true).
        { intros u j q NJ OQ. destruct (Nat.eq_dec i j) as [<-|NIJ].
          - rewrite upd_same in NJ by exact LI. injection NJ as <-. exists p. split; [exact NI|].
            assert (t = u) by exact (open_two _ _ _ (open_new t _) OQ). now subst u.
          - rewrite upd_other in NJ by exact NIJ. eauto. }
        intros u j1 j2 q1 q2 N1 N2 O1 O2. destruct (KK _ _ _ N1 O1) as (q1' & M1 & V1). destruct (KK _ _ _ N2 O2) as (q2' & M2 & V2).
        exact (RU u j1 j2 q1' q2' M1 M2 V1 V2).
    + (* the page is complete; a new one is taken *)
      destruct (finish_page_ok _ _ _ _ OK) as (b & PB & OK'). rewrite PB. cbn [obind].
      pose proof (pages_upd n mem ps i _ b P LI OK') as P2.
      destruct (first_entry n (set_mem mem (page_addr psz ppe ext i) b) thr _ t e P2 SZ ltac:(rewrite app_length, upd_len in LEN1; cbn in LEN1; lia)) as (l2 & E2 & T2 & b2 & PB2 & P3 & TE).
      rewrite E2. cbn [obind]. rewrite T2, PB2. cbn [obind].
      eexists. split; [reflexivity|]. destruct P3 as (X1 & XK & X2 & X3).
      remember (upd ps i (SPage t (s_entries p) true)) as ps2 eqn:EPS.
      assert (NO : forall j q, nth_error ps2 j = Some q -> open_page t q = false).
      { intros j q NJ. subst ps2. destruct (Nat.eq_dec i j) as [<-|NIJ].
        - rewrite upd_same in NJ by exact LI. injection NJ as <-. now apply open_false.
        - rewrite upd_other in NJ by exact NIJ. destruct (open_page t q) eqn:OQ; [|reflexivity]. exfalso. apply NIJ. exact (RU t i j p q NI NJ OP OQ). }
      assert (KK : forall u j q, nth_error ps2 j = Some q -> open_page u q = true -> nth_error ps j = Some q).
      { intros u j q NJ OQ. subst ps2. destruct (Nat.eq_dec i j) as [<-|NIJ].
        - rewrite upd_same in NJ by exact LI. injection NJ as <-. rewrite open_false in OQ by reflexivity. discriminate.
        - now rewrite upd_other in NJ by exact NIJ. }
      assert (LEN : length ps2 = n) by (subst ps2; rewrite upd_len; now symmetry).
      constructor; cbn [g_pages g_mem g_thr]; [exact X1|exact XK|exact X2|exact X3| | |].
      * intros u a0 off0 H. rewrite TE in H. unfold set_thr in H. destruct (Nat.eqb_spec u t) as [->|NE].
        -- apply some_pair in H as [<- <-]. exists n, (SPage t [e] false).
           rewrite nth_error_app2 by lia. replace (n - length ps2)%nat with O by lia. cbn [nth_error].
           rewrite open_new. cbn [s_entries sizes]. rewrite ?required_size. split; [reflexivity|]. split; [reflexivity|]. split; [reflexivity|lia].
        -- destruct (RT u a0 off0 H) as (j & q & NJ & OQ & A1 & A2). exists j, q.
           assert (NIJ : i <> j) by (intros <-; rewrite NI in NJ; injection NJ as ->; apply NE; exact (open_two _ _ _ OQ OP)).
           rewrite nth_error_app1 by (rewrite LEN, RN; exact (nth_lt _ _ _ _ NJ)).
           subst ps2. rewrite upd_other by exact NIJ. auto.
      * intros u H j q NJ. rewrite TE in H. unfold set_thr in H. destruct (Nat.eqb_spec u t) as [EU|NE]; [discriminate|].
        apply nth_snoc in NJ as [[NJ _]|[_ ->]].
        -- destruct (open_page u q) eqn:OQ; [|reflexivity]. rewrite <- OQ. exact (RO u H j q (KK _ _ _ NJ OQ)).
        -- unfold open_page. cbn. now destruct (Nat.eqb_spec t u); [congruence|].
      * intros u j1 j2 q1 q2 N1 N2 O1 O2.
        apply nth_snoc in N1 as [[N1 _]|[-> ->]]; apply nth_snoc in N2 as [[N2 _]|[-> ->]]; try reflexivity.
        -- exact (RU u j1 j2 _ _ (KK _ _ _ N1 O1) (KK _ _ _ N2 O2) O1 O2).
        -- assert (t = u) by exact (open_two _ _ _ (open_new t _) O2). subst u. rewrite (NO _ _ N1) in O1. discriminate.
        -- assert (t = u) by exact (open_two _ _ _ (open_new t _) O1). subst u. rewrite (NO _ _ N2) in O2. discriminate.
  - (* the first write of the thread *)
    rewrite put_none by exact (RO t ET). cbn [fst snd]. intros LEN1.
    destruct (first_entry n mem thr ps t e P SZ ltac:(rewrite app_length in LEN1; cbn in LEN1; lia)) as (l2 & E2 & T2 & b2 & PB2 & P3 & TE).
    rewrite E2. cbn [obind]. rewrite T2. pose proof (size_min e).
    rewrite required_size. destruct (N.ltb_spec (psz - 34) (size e)); [lia|]. cbn [obind]. rewrite T2, PB2. cbn [obind].
    eexists. split; [reflexivity|]. destruct P3 as (X1 & XK & X2 & X3).
    constructor; cbn [g_pages g_mem g_thr]; [exact X1|exact XK|exact X2|exact X3| | |].
    + intros u a0 off0 HH. rewrite TE in HH. unfold set_thr in HH. destruct (Nat.eqb_spec u t) as [->|NE].
      * apply some_pair in HH as [<- <-]. exists n, (SPage t [e] false).
        rewrite nth_error_app2 by lia. replace (n - length ps)%nat with O by lia. cbn [nth_error].
        rewrite open_new. cbn [s_entries sizes]. rewrite ?required_size. split; [reflexivity|]. split; [reflexivity|]. split; [reflexivity|lia].
      * destruct (RT u a0 off0 HH) as (j & q & NJ & OQ & A1 & A2). exists j, q.
        rewrite nth_error_app1 by exact (nth_lt _ _ _ _ NJ). auto.
    + intros u HH j q NJ. rewrite TE in HH. unfold set_thr in HH. destruct (Nat.eqb_spec u t) as [EU|NE]; [discriminate|].
      apply nth_snoc in NJ as [[NJ _]|[_ ->]]; [exact (RO u HH j q NJ)|].
      unfold open_page. cbn. now destruct (Nat.eqb_spec t u); [congruence|].
    + intros u j1 j2 q1 q2 N1 N2 O1 O2.
      apply nth_snoc in N1 as [[N1 _]|[-> ->]]; apply nth_snoc in N2 as [[N2 _]|[-> ->]]; try reflexivity.
      * exact (RU u j1 j2 _ _ N1 N2 O1 O2).
      * assert (t = u) by exact (open_two _ _ _ (open_new t _) O2). subst u. rewrite (RO t ET _ _ N1) in O1. discriminate.
      * assert (t = u) by exact (open_two _ _ _ (open_new t _) O1). subst u. rewrite (RO t ET _ _ N2) in O2. discriminate.
Qed.

Lemma init_rep : forall mem, (forall a, blen (mem a) = psz) -> Rep (log_init mem) [].
Proof.
  intros mem H. constructor; cbn [log_init g_pages g_mem g_thr].
  - reflexivity.
  - lia.
  - exact H.
  - intros [|i] p N; discriminate.
  - intros; discriminate.
  - intros t _ [|i] p N; discriminate.
  - intros t [|i] j p q N; discriminate.
Qed.

Lemma put_length : forall cap t e ps, length (fst (put cap t e ps)) = length ps.
Proof.
  intros cap t e. induction ps as [|p r IH]; [reflexivity|]. cbn [put]. destruct (_ && _); [destruct (_ <=? _); reflexivity|]. cbn. now rewrite IH.
Qed.
Lemma spec_grows : forall cap ws ps, (length ps <= length (fold_left (spec_write cap) ws ps))%nat.
Proof.
  intros cap. induction ws as [|[t e] ws IH]; intros ps; cbn [fold_left]; [lia|]. etransitivity; [|apply IH].
  unfold spec_write. destruct (snd (put _ _ _ _)); rewrite ?app_length, put_length; lia.
Qed.
Lemma writes_rep : forall ws l ps, (length (fold_left (spec_write (psz - 34)) ws ps) <= K * ppe)%nat -> Rep l ps -> Forall (fun w => size (snd w) <= psz - 34) ws ->
  exists l', log_writes psz ppe csum magic ext l ws = Some l' /\ Rep l' (fold_left (spec_write (psz - 34)) ws ps).
Proof.
  induction ws as [|[t e] r IH]; intros l ps LK R F; cbn [log_writes fold_left] in *; [eauto|].
  inversion F as [|? ? F1 F2]; subst. destruct (write_rep l ps t e R F1 ltac:(pose proof (spec_grows (psz - 34) r (spec_write (psz - 34) ps (t, e))); lia)) as (l1 & E & R1). rewrite E. cbn [obind]. now apply IH.
Qed.

(** *** Reading the log *)

Notation addr := (page_addr psz ppe ext).

Lemma addr_split : forall q j, (j < ppe)%nat -> addr (q * ppe + j) = ext q + N.of_nat j * psz.
Proof.
  intros q j L. unfold page_addr. rewrite Nat.div_add_l, Nat.div_small by lia.
  rewrite (Nat.add_comm (q * ppe) j), Nat.mod_add, Nat.mod_small by lia. now rewrite Nat.add_0_r.
Qed.
Lemma next_split : forall q j, (j < ppe)%nat -> next_extent ppe ext (q * ppe + j) = ext (S q).
Proof. intros q j L. unfold next_extent. rewrite Nat.div_add_l, Nat.div_small by lia. now rewrite Nat.add_0_r. Qed.

Section Scan.
Context (mem : N -> bytes) (cs : list spage) (live : N -> bool).
Hypothesis GOOD : forall i p, nth_error cs i = Some p -> page_ok (mem (addr i)) i p /\ s_done p = true.
Hypothesis STOP : page_valid psz csum magic (mem (addr (length cs))) = Some false.
Hypothesis MAX : (length cs <= K * ppe)%nat.
Hypothesis LIVE : forall q, (q * ppe < length cs)%nat -> live (ext q) = true.

Definition pages_from (i n : nat) : list bytes := map (fun k => mem (addr k)) (seq i n).

Lemma scan_extent_ok : forall k q j nx, (j + k = ppe)%nat -> (q * ppe + j <= length cs)%nat ->
  scan_extent psz csum magic mem (ext q) j k nx =
  Some (if (q * ppe + ppe <=? length cs)%nat then (pages_from (q * ppe + j) k, Some (if k then nx else ext (S q)))
        else (pages_from (q * ppe + j) (length cs - (q * ppe + j)), None)).
Proof.
  induction k as [|k IH]; intros q j nx J L; cbn [scan_extent].
  - destruct (Nat.leb_spec (q * ppe + ppe) (length cs)); [reflexivity|lia].
  - rewrite <- addr_split by lia. destruct (Nat.eq_dec (q * ppe + j) (length cs)) as [E|E].
    + rewrite E, STOP. cbn [obind]. destruct (Nat.leb_spec (q * ppe + ppe) (length cs)); [lia|].
      now rewrite Nat.sub_diag.
    + destruct (nth_error cs (q * ppe + j)) as [p|] eqn:EN; [|apply nth_error_None in EN; lia].
      destruct (GOOD _ _ EN) as [OK D]. rewrite (valid_ok _ _ _ OK D). cbn [obind].
      rewrite (po_next _ _ _ OK), next_split by lia. cbn [obind].
      rewrite (IH q (S j) _ ltac:(lia) ltac:(lia)). cbn [obind].
      destruct (Nat.leb_spec (q * ppe + ppe) (length cs)); cbn [fst snd]; f_equal; f_equal.
      * unfold pages_from. cbn [seq map]. now rewrite <- plus_n_Sm.
      * destruct k; reflexivity.
      * replace (length cs - (q * ppe + j))%nat with (S (length cs - (q * ppe + S j))) by lia.
        unfold pages_from. cbn [seq map]. now rewrite <- plus_n_Sm.
Qed.

Lemma scan_log_ok : forall fuel q, (q * ppe <= length cs)%nat -> (length cs < (q + fuel) * ppe)%nat ->
  scan_log psz ppe csum magic fuel mem live (ext q) = Some (pages_from (q * ppe) (length cs - q * ppe)).
Proof.
  induction fuel as [|f IH]; intros q L FU; [rewrite Nat.add_0_r in FU; lia|]. cbn [scan_log].
  destruct (N.eqb_spec (ext q) 0) as [E|_]; [assert (q <= K)%nat by (apply (Nat.mul_le_mono_pos_r _ _ ppe); lia); pose proof (EXT_NZ q); lia|]. cbn [negb andb].
  destruct (live (ext q)) eqn:LV.
  - rewrite (scan_extent_ok ppe q 0 0 ltac:(lia) ltac:(lia)). cbn [obind]. rewrite Nat.add_0_r.
    destruct (Nat.leb_spec (q * ppe + ppe) (length cs)); cbn [fst snd]; [|reflexivity].
    destruct ppe as [|m] eqn:EP; [lia|]. rewrite <- EP in *.
    rewrite IH by (rewrite ?Nat.mul_succ_l; try lia; now rewrite Nat.add_succ_comm). cbn [obind]. f_equal.
    unfold pages_from. rewrite <- map_app. f_equal. rewrite Nat.mul_succ_l, <- seq_app. f_equal. lia.
  - destruct (Nat.lt_ge_cases (q * ppe) (length cs)) as [L2|L2]; [rewrite LIVE in LV by exact L2; discriminate|].
    replace (length cs - q * ppe)%nat with O by lia. reflexivity.
Qed.

Lemma read_pages_ok : forall r i, (forall k p, nth_error r k = Some p -> nth_error cs (i + k) = Some p) ->
  Forall (fun p => Forall entry_ok (s_entries p)) r ->
  read_pages psz (pages_from i (length r)) = Some (flat_map s_entries r) /\
  count_entries (pages_from i (length r)) = Some (N.of_nat (length (flat_map s_entries r))).
Proof.
  induction r as [|p r IH]; intros i H F; [split; reflexivity|].
  unfold pages_from. cbn [length seq map read_pages count_entries flat_map].
  inversion F as [|? ? F1 F2]; subst.
  pose proof (H O p eq_refl) as HP. rewrite Nat.add_0_r in HP. destruct (GOOD _ _ HP) as [OK D].
  destruct (IH (S i)) as [A B]; [intros k q Q; rewrite Nat.add_succ_comm; exact (H (S k) q Q)|exact F2|].
  fold (pages_from (S i) (length r)). pose proof (po_size _ _ _ OK) as SZ. pose proof (sizes_count (s_entries p)).
  rewrite (read_page_ok (s_entries p)); [|exact (po_cont _ _ _ OK)|exact F1|exact SZ|exact (proj1 (po_done _ _ _ OK D))|lia].
  rewrite (po_num _ _ _ OK). cbn [obind]. rewrite A, B. cbn [obind]. split; [reflexivity|]. f_equal. rewrite app_length. lia.
Qed.

Lemma log_entries_ok : forall fuel, (length cs < fuel * ppe)%nat -> Forall (fun p => Forall entry_ok (s_entries p)) cs ->
  log_entries psz ppe csum magic fuel mem live (ext 0) = Some (flat_map s_entries cs).
Proof.
  intros fuel FU F. unfold log_entries. rewrite (scan_log_ok fuel 0 ltac:(cbn; lia) FU). cbn [obind Nat.mul].
  rewrite Nat.sub_0_r. destruct (read_pages_ok cs 0 (fun k p H => H) F) as [A B]. rewrite B, A. cbn [obind].
  now rewrite N.eqb_refl.
Qed.
End Scan.

Lemma rep_entries : forall l ps fuel live, Rep l ps -> Forall (fun p => Forall entry_ok (s_entries p)) ps ->
  page_valid psz csum magic (g_mem l (addr (length (complete ps)))) <> Some true ->
  (forall q, (q * ppe < length (complete ps))%nat -> live (ext q) = true) ->
  (length (complete ps) < fuel * ppe)%nat ->
  log_entries psz ppe csum magic fuel (g_mem l) live (ext 0) = Some (flat_map s_entries (complete ps)).
Proof.
  intros l ps fuel live R F ST LV FU.
  apply log_entries_ok; [| | |exact LV|exact FU|].
  - intros i p H. apply complete_nth in H as [H D]. split; [exact (r_pages _ _ R i p H)|exact D].
  - pose proof (r_len _ _ R (addr (length (complete ps)))) as L.
    remember (g_mem l (addr (length (complete ps)))) as bs eqn:EB. clear EB. unfold page_valid, page_csum, rd64 in *.
    destruct (slice_some bs at_magic 8) as [x X]; [unfold at_magic; lia|]. rewrite X in *. cbn [obind] in *.
    pose proof (slice_len _ _ _ _ X) as XL.
    assert (exists y, dec_le 8 x = Some y) as [y Y].
    { do 8 (destruct x as [|? x]; [cbn in XL; discriminate|]). eexists. reflexivity. }
    rewrite Y in *. cbn [obind] in *.
    destruct (slice_some bs 0 16) as [c C]; [lia|]. rewrite C in *. cbn [obind] in *.
    destruct (slice_some bs 16 (psz - 16)) as [d D]; [lia|]. rewrite D in *. cbn [obind] in *.
    destruct (_ && _); [contradiction|reflexivity].
  - pose proof (complete_len ps). pose proof (r_max _ _ R). rewrite (r_n _ _ R) in *. lia.
  - destruct (complete_app ps) as [r E]. rewrite E in F. now apply Forall_app in F.
Qed.

End P.

(** *** What the specification says about threads *)

Lemma by_thread_app : forall t a b, by_thread t (a ++ b) = by_thread t a ++ by_thread t b.
Proof. intros. unfold by_thread. now rewrite filter_app, map_app. Qed.
Lemma labelled_app : forall a b, labelled (a ++ b) = labelled a ++ labelled b.
Proof. intros. apply flat_map_app. Qed.
Lemma labelled_snd : forall ps, map snd (labelled ps) = flat_map s_entries ps.
Proof.
  induction ps as [|p r IH]; [reflexivity|]. cbn [labelled flat_map]. rewrite map_app. fold (labelled r). rewrite IH. f_equal.
  rewrite map_map. cbn. apply map_id.
Qed.
Lemma by_thread_pairs : forall t u es, by_thread t (map (pair u) es) = if Nat.eqb u t then es else [].
Proof.
  intros t u es. unfold by_thread. induction es as [|e r IH]; cbn; [now destruct (Nat.eqb u t)|].
  destruct (Nat.eqb u t); cbn; now rewrite IH.
Qed.

(** A thread has at most one page that is not complete, its last *)
Fixpoint last_open (ps : list spage) : Prop :=
  match ps with
  | [] => True
  | p :: r => (s_done p = false -> by_thread (s_tid p) (labelled r) = [] /\ Forall (fun q => s_tid q <> s_tid p) r) /\ last_open r
  end.

Lemma no_pages : forall t r, Forall (fun q => s_tid q <> t) r -> by_thread t (labelled r) = [].
Proof.
  intros t r F. induction F as [|q r N F IH]; [reflexivity|]. cbn [labelled flat_map]. fold (labelled r).
  rewrite by_thread_app, by_thread_pairs, IH. destruct (Nat.eqb_spec (s_tid q) t); [contradiction|reflexivity].
Qed.

Lemma put_tids : forall cap t e ps, map s_tid (fst (put cap t e ps)) = map s_tid ps.
Proof.
  intros cap t e. induction ps as [|p r IH]; [reflexivity|]. cbn [put].
  destruct (Nat.eqb_spec (s_tid p) t) as [E|E]; cbn [andb].
  - destruct (negb (s_done p)); [destruct (_ <=? _); cbn; now rewrite E|]. cbn. now rewrite IH.
  - cbn. now rewrite IH.
Qed.
Lemma forall_tids : forall u a b, map s_tid a = map s_tid b -> Forall (fun q => s_tid q <> u) a -> Forall (fun q => s_tid q <> u) b.
Proof.
  intros u. induction a as [|x a IH]; intros [|y b] E F; try discriminate; [constructor|].
  cbn in E. injection E as E1 E2. inversion F; subst. constructor; [congruence|]. now apply IH.
Qed.

Lemma put_threads : forall cap t e ps, last_open ps ->
  last_open (fst (put cap t e ps)) /\
  (snd (put cap t e ps) = true -> forall u, by_thread u (labelled (fst (put cap t e ps))) = by_thread u (labelled ps) ++ by_thread u [(t, e)]) /\
  (snd (put cap t e ps) = false -> labelled (fst (put cap t e ps)) = labelled ps /\
     forall p, In p (fst (put cap t e ps)) -> s_tid p = t -> s_done p = true).
Proof.
  intros cap t e. induction ps as [|p r IH]; intros L.
  { cbn. split; [exact Logic.I|]. split; [discriminate|]. intros _. split; [reflexivity|contradiction]. }
  cbn [last_open] in L. destruct L as [L1 L2]. specialize (IH L2). cbn [put].
  destruct (Nat.eqb_spec (s_tid p) t) as [E|E]; cbn [andb]; [destruct (s_done p) eqn:D; cbn [negb]|].
  2: { destruct (L1 eq_refl) as [B F]. destruct (_ <=? _); cbn [fst snd].
    - split; [|split; [|discriminate]].
      + cbn [last_open s_tid s_done]. rewrite <- E. split; [intros _; split; assumption|exact L2].
      + intros _ u. cbn [labelled flat_map s_tid s_entries]. fold (labelled r).
        rewrite !by_thread_app, !by_thread_pairs, E. change [(t, e)] with (map (pair t) [e]). rewrite by_thread_pairs.
        destruct (Nat.eqb_spec t u) as [EU|]; [|now rewrite app_nil_r].
        rewrite <- EU. rewrite <- E. rewrite B. now rewrite !app_nil_r.
    - split; [|split; [discriminate|]].
      + cbn [last_open s_tid s_done]. split; [discriminate|exact L2].
      + intros _. split; [cbn [labelled flat_map s_tid s_entries]; now rewrite E|].
        intros q [<-|Q] TQ; [reflexivity|]. rewrite Forall_forall in F. exfalso. apply (F q Q). congruence. }
  all: destruct IH as (A & B & C); remember (put cap t e r) as x eqn:EX; cbn [fst snd].
  all: split; [cbn [last_open]; split; [|exact A]; intros DP;
    assert (F : Forall (fun q => s_tid q <> s_tid p) r) by (first [exact (proj2 (L1 DP))|congruence]);
    assert (F' : Forall (fun q => s_tid q <> s_tid p) (fst x)) by
      (eapply forall_tids; [|exact F]; rewrite EX; symmetry; apply put_tids);
    split; [now apply no_pages|exact F']|].
  all: split; [intros SX u; cbn [labelled flat_map]; fold (labelled (fst x)); fold (labelled r);
    rewrite !by_thread_app, (B SX), app_assoc; reflexivity|].
  all: intros SX; destruct (C SX) as [C1 C2]; split; [cbn [labelled flat_map]; fold (labelled (fst x)); fold (labelled r); now rewrite C1|].
  all: intros q [<-|Q] TQ; [|exact (C2 q Q TQ)]; congruence.
Qed.

Lemma last_open_snoc : forall t es ps, last_open ps -> (forall p, In p ps -> s_tid p = t -> s_done p = true) ->
  last_open (ps ++ [SPage t es false]).
Proof.
  intros t es. induction ps as [|p r IH]; intros L D.
  - cbn. split; [intros _; split; [reflexivity|constructor]|exact Logic.I].
  - cbn [app last_open] in *. destruct L as [L1 L2]. split; [|apply IH; [exact L2|intros q Q; apply D; now right]].
    intros DP. destruct (L1 DP) as [_ F].
    assert (F' : Forall (fun q => s_tid q <> s_tid p) (r ++ [SPage t es false])).
    { apply Forall_app. split; [exact F|]. constructor; [|constructor]. cbn. intros E. rewrite (D p (or_introl eq_refl) (eq_sym E)) in DP. discriminate. }
    split; [now apply no_pages|exact F'].
Qed.

Lemma spec_threads : forall cap ws ps, last_open ps ->
  last_open (fold_left (spec_write cap) ws ps) /\
  forall u, by_thread u (labelled (fold_left (spec_write cap) ws ps)) = by_thread u (labelled ps) ++ by_thread u ws.
Proof.
  intros cap. induction ws as [|[t e] ws IH]; intros ps L; cbn [fold_left].
  - split; [exact L|]. intros. now rewrite app_nil_r.
  - assert (X : last_open (spec_write cap ps (t, e)) /\
      forall u, by_thread u (labelled (spec_write cap ps (t, e))) = by_thread u (labelled ps) ++ by_thread u [(t, e)]).
    { unfold spec_write. cbn [fst snd]. destruct (put_threads cap t e ps L) as (A & B & C).
      destruct (snd (put cap t e ps)); [split; [exact A|exact (B eq_refl)]|]. destruct (C eq_refl) as [C1 C2].
      split; [now apply last_open_snoc|]. intros u. rewrite labelled_app, by_thread_app, C1. reflexivity. }
    destruct X as [X1 X2]. destruct (IH _ X1) as [Y1 Y2]. split; [exact Y1|]. intros u.
    rewrite Y2, X2, <- app_assoc. f_equal. change ((t, e) :: ws) with ([(t, e)] ++ ws). now rewrite by_thread_app.
Qed.

Lemma spec_forall : forall (P : entry -> Prop) cap ws ps, Forall (fun p => Forall P (s_entries p)) ps ->
  Forall (fun w => P (snd w)) ws -> Forall (fun p => Forall P (s_entries p)) (fold_left (spec_write cap) ws ps).
Proof.
  intros P cap. induction ws as [|[t e] ws IH]; intros ps F W; [exact F|]. cbn [fold_left]. inversion W as [|? ? W1 W2]; subst.
  apply IH; [|exact W2]. unfold spec_write. cbn [fst snd] in *.
  assert (K : Forall (fun p => Forall P (s_entries p)) (fst (put cap t e ps))).
  { clear IH W2 W. induction F as [|p r F1 F2 IHF]; cbn [put]; [constructor|].
    destruct (_ && _); [destruct (_ <=? _)|]; cbn [fst]; constructor; cbn [s_entries]; auto.
    apply Forall_app. split; [exact F1|]. constructor; [exact W1|constructor]. }
  destruct (snd (put cap t e ps)); [exact K|]. apply Forall_app. split; [exact K|]. constructor; [|constructor]. cbn. constructor; [exact W1|constructor].
Qed.

(** *** Sorting *)

Lemma compare_near : forall a b, (- 2 ^ 31 < Z.of_N a - Z.of_N b < 2 ^ 31)%Z -> compare_gen a b = (Z.of_N a - Z.of_N b)%Z.
Proof.
  intros a b H. unfold compare_gen. change (2 ^ 32)%Z with (2 * 2 ^ 31)%Z.
  remember (Z.of_N a - Z.of_N b)%Z as d eqn:E. clear E. change (2 ^ 31)%Z with 2147483648%Z in *.
  destruct (Z.le_gt_cases 0 d) as [L|L].
  - rewrite Z.mod_small by lia. destruct (Z.ltb_spec d 2147483648); lia.
  - rewrite <- (Z.mod_add d 1) by lia. rewrite Z.mod_small by lia. destruct (Z.ltb_spec (d + 1 * (2 * 2147483648)) 2147483648); lia.
Qed.

Definition near (es : list entry) : Prop :=
  forall a b, In a es -> In b es -> (Z.of_N (e_gen a) - Z.of_N (e_gen b) < 2 ^ 31)%Z.

Lemma sorts_near : forall es es', near es -> sorts es es' ->
  Permutation es es' /\ StronglySorted (fun a b => e_gen a <= e_gen b) es'.
Proof.
  intros es es' NR [P S0]. split; [exact P|].
  assert (CN : forall a b, In a es -> In b es -> compare_gen (e_gen a) (e_gen b) = (Z.of_N (e_gen a) - Z.of_N (e_gen b))%Z).
  { intros a b A B. apply compare_near. pose proof (NR a b A B). pose proof (NR b a B A). lia. }
  assert (CO : consistent es).
  { split.
    - intros a b A B. rewrite !CN by assumption. lia.
    - intros a b c A B C. rewrite !CN by assumption. lia. }
  specialize (S0 CO). assert (IN : forall x, In x es' -> In x es) by (intros x X; eapply Permutation_in; [symmetry; exact P|exact X]).
  clear P NR CO. induction S0 as [|a l SS IH F]; constructor.
  - apply IH. intros x X. apply IN. now right.
  - rewrite Forall_forall in *. intros x X. specialize (F x X). rewrite CN in F; [lia|apply IN; now left|apply IN; now right].
Qed.

Lemma drain_ok : forall r done fuel, (length r < fuel)%nat ->
  li_drain fuel (LogItor (done ++ r) (N.of_nat (length done))) = Some r.
Proof.
  induction r as [|e r IH]; intros done fuel F; (destruct fuel as [|fuel]; [cbn in F; lia|]); cbn [li_drain]; unfold li_can_next, li_curr, li_next; cbn [li_pos li_entries].
  - rewrite app_nil_r, N.ltb_irrefl. reflexivity.
  - rewrite app_length. cbn [length] in *. destruct (N.ltb_spec (N.of_nat (length done)) (N.of_nat (length done + S (length r)))); [|lia].
    rewrite Nat2N.id, nth_error_app2, Nat.sub_diag by lia. cbn [nth_error obind].
    replace (done ++ e :: r) with ((done ++ [e]) ++ r) by now rewrite <- app_assoc.
    replace (N.of_nat (length done) + 1) with (N.of_nat (length (done ++ [e]))) by (rewrite app_length; cbn; lia).
    rewrite IH by lia. reflexivity.
Qed.
