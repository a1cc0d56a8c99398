(** * C38: log pages replay what was written *)

From Coq Require Import List NArith ZArith Arith Bool Lia Permutation Sorted.
From Verif Require Import Base Codec CodecProofs PageBytes PageBytesProofs Log LogSpec LogProofs.
Import ListNotations.
Local Open Scope N_scope.
Arguments N.pow : simpl never.

(** Pages hold a header and are smaller than 64 KiB; the extents [ext 0] to [ext K] are
    different, aligned, and not at address 0. *)
Record geometry (psz : N) (ppe : nat) (csum : bytes -> bytes) (magic : N) (ext : nat -> N) (K : nat) : Prop := {
  ge_psz : 34 <= psz < 2 ^ 16;
  ge_csum : forall b, length (csum b) = 16%nat;
  ge_magic : magic < 2 ^ 64;
  ge_ppe : (0 < ppe)%nat;
  ge_inj : forall i j, (i <= K)%nat -> (j <= K)%nat -> ext i = ext j -> i = j;
  ge_al : forall i, (i <= K)%nat -> ext i mod (N.of_nat ppe * psz) = 0;
  ge_nz : forall i, (i <= K)%nat -> 0 < ext i < 2 ^ 64
}.

(** What the writers do: any threads, any order, entries that fit on a page, generations
    other than the largest; not more pages than there are extents. *)
Record writers (psz : N) (ppe K : nat) (mem : N -> bytes) (ws : list (nat * entry)) : Prop := {
  wr_mem : forall a, length (mem a) = N.to_nat psz;
  wr_fit : Forall (fun w => size (snd w) <= psz - 34) ws;
  wr_gen : Forall (fun w => e_gen (snd w) < 2 ^ 64 - 1) ws;
  wr_room : (length (spec_writes (psz - 34) ws) <= K * ppe)%nat
}.

Section C38.
Context (psz : N) (ppe : nat) (csum : bytes -> bytes) (magic : N) (ext : nat -> N) (K : nat).
Context (mem : N -> bytes) (ws : list (nat * entry)).

Notation pages := (spec_writes (psz - 34) ws).
Notation addr := (page_addr psz ppe ext).

Lemma reach_rep : geometry psz ppe csum magic ext K -> writers psz ppe K mem ws ->
  exists l, log_writes psz ppe csum magic ext (log_init mem) ws = Some l /\ Rep psz ppe csum magic ext K l pages /\
    Forall (fun p => Forall entry_ok (s_entries p)) pages.
Proof.
  intros G W. destruct G as [g1 g2 g3 g4 g5 g6 g7], W as [w1 w2 w3 w4].
  destruct (writes_rep psz ppe csum magic ext K g1 g2 g3 g4 g5 g6 g7 ws (log_init mem) [] w4) as (l & E & R).
  - apply init_rep; try assumption. intros a. unfold blen. rewrite w1. lia.
  - exact w2.
  - exists l. split; [exact E|]. split; [exact R|]. apply spec_forall; [constructor|].
    eapply Forall_impl; [|exact w3]. intros [t e] H. cbn in *. unfold entry_ok, INVALID_GENERATION. lia.
Qed.

(** Every write succeeds and stays inside its page, and each page that is complete is
    accepted and reads as the entries written to it, in order. *)
Theorem C38_page : geometry psz ppe csum magic ext K -> writers psz ppe K mem ws ->
  exists l, log_writes psz ppe csum magic ext (log_init mem) ws = Some l /\
    forall i p, nth_error pages i = Some p -> s_done p = true ->
      page_valid psz csum magic (g_mem l (addr i)) = Some true /\
      read_page psz (S (N.to_nat psz)) (g_mem l (addr i)) hdr_size = Some (s_entries p).
Proof.
  intros G W. destruct (reach_rep G W) as (l & E & R & F). exists l. split; [exact E|]. intros i p N D.
  pose proof (r_pages _ _ _ _ _ _ _ _ R i p N) as OK. split; [exact (valid_ok psz ppe csum magic ext _ _ _ OK D)|].
  pose proof (po_size _ _ _ _ _ _ _ _ OK) as SZ. pose proof (sizes_count (s_entries p)). destruct G as [g1 g2 g3 g4 g5 g6 g7].
  apply (read_page_ok psz ppe csum magic ext K g1 g2 g3 g4 g5 g6 g7).
  - exact (po_cont _ _ _ _ _ _ _ _ OK).
  - rewrite Forall_forall in F. apply F. eapply nth_error_In. exact N.
  - exact SZ.
  - exact (proj1 (po_done _ _ _ _ _ _ _ _ OK D)).
  - lia.
Qed.

(** The pages of the specification hold, for each thread, what it wrote, in order. *)
Theorem C38_pages : forall t, by_thread t (labelled pages) = by_thread t ws.
Proof. intros t. exact (proj2 (spec_threads (psz - 34) ws [] Logic.I) t). Qed.

(** The iterator: the entries of the pages before the first that is not complete, each
    once, by generation.  The first page that is not complete must not look complete by
    accident. *)
Definition no_accident (l : log) : Prop :=
  page_valid psz csum magic (g_mem l (addr (length (complete pages)))) <> Some true.
Definition in_use (live : N -> bool) : Prop :=
  forall q, (q * ppe < length (complete pages))%nat -> live (ext q) = true.

Theorem C38_iterator : geometry psz ppe csum magic ext K -> writers psz ppe K mem ws ->
  exists l, log_writes psz ppe csum magic ext (log_init mem) ws = Some l /\
    forall live fuel, no_accident l -> in_use live -> (length pages < fuel * ppe)%nat ->
    exists es, log_entries psz ppe csum magic fuel (g_mem l) live (ext 0%nat) = Some es /\
      es = flat_map s_entries (complete pages) /\
      forall es', near es -> sorts es es' ->
        Permutation es es' /\ StronglySorted (fun a b => e_gen a <= e_gen b) es' /\
        li_drain (S (length es')) (LogItor es' 0) = Some es'.
Proof.
  intros G W. destruct (reach_rep G W) as (l & E & R & F). exists l. split; [exact E|].
  intros live fuel NA LV FU. exists (flat_map s_entries (complete pages)).
  pose proof (complete_len pages). destruct G as [g1 g2 g3 g4 g5 g6 g7].
  split; [|split; [reflexivity|]].
  - eapply rep_entries; try eassumption. lia.
  - intros es' NR SO. destruct (sorts_near _ _ NR SO) as [A B]. split; [exact A|]. split; [exact B|].
    exact (drain_ok es' [] (S (length es')) (Nat.lt_succ_diag_r _)).
Qed.

(** A log with another number reads nothing from pages of this one. *)
Theorem C38_foreign : geometry psz ppe csum magic ext K -> writers psz ppe K mem ws ->
  exists l, log_writes psz ppe csum magic ext (log_init mem) ws = Some l /\
    forall magic' live fuel, magic' <> magic -> complete pages <> [] ->
      log_entries psz ppe csum magic' (S fuel) (g_mem l) live (ext 0%nat) = Some [].
Proof.
  intros G W. destruct (C38_page G W) as (l & E & H). exists l. split; [exact E|].
  intros magic' live fuel NE NC.
  assert (P : exists p, nth_error pages 0 = Some p /\ s_done p = true).
  { destruct (spec_writes (psz - 34) ws) as [|p r]; [cbn in NC; congruence|]. exists p. split; [reflexivity|].
    cbn in NC. destruct (s_done p); congruence. }
  destruct P as (p & P1 & P2). destruct (H 0%nat p P1 P2) as [V _].
  assert (A : addr 0 = ext 0%nat + N.of_nat 0 * psz).
  { unfold page_addr. pose proof (ge_ppe _ _ _ _ _ _ G). rewrite Nat.div_small, Nat.mod_small by lia. lia. }
  rewrite A in V. unfold page_valid in V.
  set (bs := g_mem l (ext 0%nat + N.of_nat 0 * psz)) in *.
  destruct (rd64 bs at_magic) as [m|] eqn:E1; [|discriminate]. cbn [obind] in V.
  destruct (slice bs 0 16) as [c|] eqn:E2; [|discriminate]. cbn [obind] in V.
  destruct (page_csum psz csum bs) as [k|] eqn:E3; [|discriminate]. cbn [obind] in V.
  injection V as V. apply andb_true_iff in V as [V _]. apply N.eqb_eq in V. subst m.
  assert (PV : page_valid psz csum magic' bs = Some false).
  { unfold page_valid. rewrite E1, E2, E3. cbn [obind]. rewrite (proj2 (N.eqb_neq magic magic')) by congruence. reflexivity. }
  unfold log_entries. cbn [scan_log].
  destruct (negb (ext 0%nat =? 0) && live (ext 0%nat)); [|reflexivity].
  pose proof (ge_ppe _ _ _ _ _ _ G) as PP. destruct ppe as [|n]; [lia|].
  cbn [scan_extent]. fold bs. rewrite PV. reflexivity.
Qed.

(** So of each thread's writes the iterator has a prefix, nothing else and nothing
    twice. *)
Theorem C38_threads : geometry psz ppe csum magic ext K -> writers psz ppe K mem ws ->
  exists l, log_writes psz ppe csum magic ext (log_init mem) ws = Some l /\
    forall live fuel, no_accident l -> in_use live -> (length pages < fuel * ppe)%nat ->
    exists lw, log_entries psz ppe csum magic fuel (g_mem l) live (ext 0%nat) = Some (map snd lw) /\
      forall t, exists rest, by_thread t ws = by_thread t lw ++ rest.
Proof.
  intros G W. destruct (C38_iterator G W) as (l & E & H). exists l. split; [exact E|]. intros live fuel NA LV FU.
  destruct (H live fuel NA LV FU) as (es & E2 & -> & _). exists (labelled (complete pages)).
  rewrite labelled_snd. split; [exact E2|]. intros t. destruct (complete_app pages) as [r ER].
  exists (by_thread t (labelled r)). now rewrite <- C38_pages, <- by_thread_app, <- labelled_app, <- ER.
Qed.

(** With one thread, only the page it is filling is missing. *)
Lemma one_tid : forall cap t vs ps, Forall (fun p => s_tid p = t) ps -> Forall (fun w : nat * entry => fst w = t) vs ->
  Forall (fun p => s_tid p = t) (fold_left (spec_write cap) vs ps).
Proof.
  intros cap t. induction vs as [|[u e] vs IH]; intros ps P V; [exact P|]. inversion V as [|? ? V1 V2]; subst. cbn [fst] in *.
  cbn [fold_left]. apply IH; [|exact V2].
  assert (X : Forall (fun p => s_tid p = u) (fst (put cap u e ps))).
  { rewrite Forall_forall in P |- *. intros p H. assert (I2 : In (s_tid p) (map s_tid ps)) by (rewrite <- (put_tids cap u e ps); now apply in_map).
    apply in_map_iff in I2 as (q & <- & Q). now apply P. }
  unfold spec_write. cbn [fst snd]. destruct (snd (put cap u e ps)); [exact X|]. apply Forall_app. split; [exact X|]. now constructor.
Qed.
Lemma one_open : forall t ps, last_open ps -> Forall (fun p => s_tid p = t) ps ->
  ps = complete ps \/ exists p, ps = complete ps ++ [p].
Proof.
  intros t. induction ps as [|p r IH]; intros L T; [now left|]. cbn [last_open complete] in *. destruct L as [L1 L2].
  inversion T as [|? ? T1 T2]; subst. destruct (s_done p) eqn:D.
  - destruct (IH L2 T2) as [E|[q E]]; [left|right; exists q]; cbn; now rewrite <- E.
  - right. exists p. cbn. destruct (L1 eq_refl) as [_ F]. destruct r as [|q r]; [reflexivity|].
    inversion F; inversion T2; subst. congruence.
Qed.

Theorem C38_single : geometry psz ppe csum magic ext K -> writers psz ppe K mem ws ->
  forall t, Forall (fun w => fst w = t) ws ->
  exists l, log_writes psz ppe csum magic ext (log_init mem) ws = Some l /\
    forall live fuel, no_accident l -> in_use live -> (length pages < fuel * ppe)%nat ->
    exists es rest, log_entries psz ppe csum magic fuel (g_mem l) live (ext 0%nat) = Some es /\
      map snd ws = es ++ rest /\ sizes rest <= psz - 34.
Proof.
  intros G W t T. destruct (reach_rep G W) as (l & E & R & F). destruct (C38_iterator G W) as (l' & E' & H).
  rewrite E in E'. injection E' as <-. exists l. split; [exact E|]. intros live fuel NA LV FU.
  destruct (H live fuel NA LV FU) as (es & E2 & EE & _). exists es.
  assert (WT : map snd ws = flat_map s_entries pages).
  { rewrite <- labelled_snd. transitivity (by_thread t ws).
    - unfold by_thread. f_equal. clear -T. induction T as [|w r A B IH]; [reflexivity|]. cbn. rewrite A, Nat.eqb_refl. now rewrite <- IH.
    - rewrite <- C38_pages. pose proof (one_tid (psz - 34) t ws [] (Forall_nil _) T) as OT. fold pages in OT.
      clear -OT. induction OT as [|p r A B IH]; [reflexivity|]. cbn [labelled flat_map]. fold (labelled r).
      rewrite by_thread_app, by_thread_pairs, A, Nat.eqb_refl, map_app, IH, map_map. cbn. now rewrite map_id. }
  destruct (one_open t pages (proj1 (spec_threads (psz - 34) ws [] Logic.I)) (one_tid (psz - 34) t ws [] (Forall_nil _) T)) as [C|[p C]].
  - exists []. split; [exact E2|]. split; [rewrite app_nil_r, WT, EE; now rewrite <- C|]. cbn. lia.
  - exists (s_entries p). split; [exact E2|]. split.
    + rewrite WT, EE. rewrite C at 1. rewrite flat_map_app. cbn. now rewrite app_nil_r.
    + assert (N : nth_error pages (length (complete pages)) = Some p).
      { rewrite C at 1. rewrite nth_error_app2, Nat.sub_diag by lia. reflexivity. }
      pose proof (po_size _ _ _ _ _ _ _ _ (r_pages _ _ _ _ _ _ _ _ R _ _ N)). lia.
Qed.

(** Not "all entries of completed pages": one thread that has written a single entry
    first hides everything that the others write afterwards, however many pages they
    complete. *)
Lemma head_stays : forall cap t e0 vs ps, Forall (fun w : nat * entry => fst w <> t) vs ->
  exists r, fold_left (spec_write cap) vs (SPage t [e0] false :: ps) = SPage t [e0] false :: r.
Proof.
  intros cap t e0. induction vs as [|[u e] vs IH]; intros ps V; cbn [fold_left]; [eauto|].
  inversion V as [|? ? V1 V2]; subst. cbn [fst] in V1. unfold spec_write at 2. cbn [fst snd put s_tid s_done].
  destruct (Nat.eqb_spec t u) as [E|_]; [congruence|]. cbn [andb snd fst].
  destruct (snd (put cap u e ps)); cbn [app]; apply IH; exact V2.
Qed.
Theorem C38_hidden_refuted : geometry psz ppe csum magic ext K -> writers psz ppe K mem ws ->
  forall t e vs, ws = (t, e) :: vs -> Forall (fun w => fst w <> t) vs ->
  exists l, log_writes psz ppe csum magic ext (log_init mem) ws = Some l /\
    forall live fuel, no_accident l -> (length pages < fuel * ppe)%nat ->
      log_entries psz ppe csum magic fuel (g_mem l) live (ext 0%nat) = Some [].
Proof.
  intros G W t e vs EW V. destruct (C38_iterator G W) as (l & E & H). exists l. split; [exact E|].
  intros live fuel NA FU.
  assert (C : complete pages = []).
  { rewrite EW. unfold spec_writes. cbn [fold_left]. unfold spec_write at 2. cbn [put fst snd app].
    destruct (head_stays (psz - 34) t e vs [] V) as [r ->]. reflexivity. }
  destruct (H live fuel NA) as (es & E2 & -> & _); [|exact FU|].
  - intros q Q. rewrite C in Q. cbn in Q. lia.
  - rewrite E2, C. reflexivity.
Qed.

(** An entry that does not fit on a page is not refused: a write leaves the page (only a
    debug assertion, shard_log.c:245-246).  The B-tree's limits on keys and messages
    (btree.h:54-60, checked at btree.c:1758-1764 before the log is written) keep such
    entries away. *)
Lemma put_entry_none : forall bs e, blen bs = psz -> 34 <= psz -> psz - 34 < size e -> put_entry bs 34 e = None.
Proof.
  intros bs e L P S1. unfold put_entry. destruct (rd8 bs (34 + 10)) as [kf|]; [|reflexivity]. cbn [obind]. unfold poke.
  change (enc_le 8 (e_gen e) ++ copy_tuple_to_ondisk_tuple kf (e_key e) (e_msg e)) with (enc_entry kf e).
  rewrite enc_entry_len. destruct (N.leb_spec (34 + size e) (blen bs)); [lia|reflexivity].
Qed.
Lemma new_page_then : forall l t l2, (forall a, blen (g_mem l a) = psz) -> new_page psz ppe magic ext l t = Some l2 ->
  g_thr l2 t = Some (addr (g_pages l), 34) /\ forall a, blen (g_mem l2 a) = psz.
Proof.
  intros l t l2 L H. unfold new_page in H.
  destruct (wr64 _ at_magic magic) as [b1|] eqn:E1; [|discriminate]. cbn [obind] in H.
  destruct (wr64 b1 _ _) as [b2|] eqn:E2; [|discriminate]. cbn [obind] in H.
  destruct (wr16 b2 _ _) as [b3|] eqn:E3; [|discriminate]. cbn [obind] in H. injection H as <-. cbn [g_thr g_mem].
  split; [unfold set_thr; now rewrite Nat.eqb_refl|]. intros a. unfold set_mem. destruct (a =? _); [|apply L].
  unfold wr64, wr16 in *. apply poke_len in E1, E2, E3. rewrite E3, E2, E1. apply L.
Qed.
Lemma finish_len : forall bs off b, finish_page psz csum bs off = Some b -> blen b = blen bs.
Proof.
  intros bs off b H. unfold finish_page in H. destruct (entry_hdr <=? psz - off).
  - destruct (wr64 bs off INVALID_GENERATION) as [b1|] eqn:E; [|discriminate]. cbn [obind] in H.
    destruct (page_csum psz csum b1) as [c|]; [|discriminate]. cbn [obind] in H. unfold wr64 in E. apply poke_len in H, E. congruence.
  - cbn [obind] in H. destruct (page_csum psz csum bs) as [c|]; [|discriminate]. exact (poke_len _ _ _ _ H).
Qed.
Lemma set_len : forall m a b, (forall x, blen (m x) = psz) -> blen b = psz -> forall x, blen (set_mem m a b x) = psz.
Proof. intros m a b H B x. unfold set_mem. destruct (x =? a); auto. Qed.
Theorem C38_oversize : geometry psz ppe csum magic ext K -> writers psz ppe K mem ws ->
  exists l, log_writes psz ppe csum magic ext (log_init mem) ws = Some l /\
    forall t e, psz - 34 < size e -> log_write psz ppe csum magic ext l t e = None.
Proof.
  intros G W. destruct (reach_rep G W) as (l & E & R & F). exists l. split; [exact E|]. intros t e S1.
  pose proof (ge_psz _ _ _ _ _ _ G) as PZ. pose proof (r_len _ _ _ _ _ _ _ _ R) as LL. unfold log_write.
  destruct (g_thr l t) as [[a off]|] eqn:ET; cbn [obind].
  - rewrite ET. destruct (r_thr _ _ _ _ _ _ _ _ R _ _ _ ET) as (i & p & N & _ & _ & ->).
    pose proof (po_size _ _ _ _ _ _ _ _ (r_pages _ _ _ _ _ _ _ _ R i p N)) as SZ.
    rewrite required_size. destruct (N.ltb_spec (psz - (34 + sizes (s_entries p))) (size e)); [|lia].
    destruct (finish_page _ _ _ _) as [b|] eqn:EF; [|reflexivity]. cbn [obind].
    destruct (new_page _ _ _ _ _ t) as [l2|] eqn:EN; [|reflexivity]. cbn [obind].
    destruct (new_page_then (Log _ (set_mem (g_mem l) a b) _) t l2 (set_len _ a b LL (eq_trans (finish_len _ _ _ EF) (LL a))) EN) as [T2 L2].
    rewrite T2, put_entry_none; [reflexivity|apply L2|lia|exact S1].
  - destruct (new_page _ _ _ _ _ t) as [l1|] eqn:EN; [|reflexivity]. cbn [obind].
    destruct (new_page_then _ _ _ LL EN) as [T1 L1]. rewrite T1, required_size.
    destruct (N.ltb_spec (psz - 34) (size e)); [|lia].
    destruct (finish_page _ _ _ _) as [b|] eqn:EF; [|reflexivity]. cbn [obind].
    destruct (new_page _ _ _ _ (Log _ _ _) t) as [l2|] eqn:EN2; [|reflexivity]. cbn [obind].
    destruct (new_page_then (Log _ (set_mem (g_mem l1) (addr (g_pages l)) b) _) t l2
      (set_len _ (addr (g_pages l)) b L1 (eq_trans (finish_len _ _ _ EF) (L1 _))) EN2) as [T2 L2].
    rewrite T2, put_entry_none; [reflexivity|apply L2|lia|exact S1].
Qed.
End C38.

Theorem C38_fits : forall psz e, 4096 <= psz -> N.of_nat (length (e_key e)) <= psz / 8 ->
  N.of_nat (length (m_data (e_msg e))) <= 35 * psz / 100 -> size e <= psz - 34.
Proof.
  intros psz e P A B. unfold size.
  pose proof (N.mul_div_le psz 8). pose proof (N.mul_div_le (35 * psz) 100). lia.
Qed.
Example fits_case : size (Entry 3 (repeat 1 512) (Msg MUpdate (repeat 2 1433))) <= 4096 - 34.
Proof. apply C38_fits; vm_compute; discriminate. Qed.

(** Not "in generation order": two generations between 2^31 and 2^32 apart are put in
    the wrong order. *)
Theorem C38_order_refuted : forall a b es', 2 ^ 31 < e_gen b - e_gen a < 2 ^ 32 -> sorts [a; b] es' -> es' = [b; a].
Proof.
  intros a b es' H [P S1].
  assert (C1 : (0 < compare_gen (e_gen a) (e_gen b))%Z).
  { unfold compare_gen. replace (Z.of_N (e_gen a) - Z.of_N (e_gen b))%Z with (- Z.of_N (e_gen b - e_gen a))%Z by lia.
    remember (e_gen b - e_gen a) as d eqn:ED. clear ED. change (2 ^ 31) with 2147483648 in H. change (2 ^ 32) with 4294967296 in H.
    change (2 ^ 31)%Z with 2147483648%Z. change (2 ^ 32)%Z with 4294967296%Z.
    rewrite <- (Z.mod_add _ 1), Z.mod_small by lia. destruct (Z.ltb_spec (- Z.of_N d + 1 * 4294967296) 2147483648); lia. }
  assert (C2 : (compare_gen (e_gen b) (e_gen a) <= 0)%Z).
  { unfold compare_gen. replace (Z.of_N (e_gen b) - Z.of_N (e_gen a))%Z with (Z.of_N (e_gen b - e_gen a))%Z by lia.
    remember (e_gen b - e_gen a) as d eqn:ED. clear ED. change (2 ^ 31) with 2147483648 in H. change (2 ^ 32) with 4294967296 in H.
    change (2 ^ 31)%Z with 2147483648%Z. change (2 ^ 32)%Z with 4294967296%Z.
    rewrite Z.mod_small by lia. destruct (Z.ltb_spec (Z.of_N d) 2147483648); lia. }
  assert (CR : forall x, compare_gen x x = 0%Z) by (intros; unfold compare_gen; rewrite Z.sub_diag; reflexivity).
  assert (CO : consistent [a; b]).
  { split.
    - intros x y [<-|[<-|[]]] [<-|[<-|[]]]; rewrite ?CR; lia.
    - intros x y z [<-|[<-|[]]] [<-|[<-|[]]] [<-|[<-|[]]]; rewrite ?CR; lia. }
  specialize (S1 CO). apply Permutation_length_2_inv in P as [->| ->]; [|reflexivity].
  inversion S1 as [|? ? _ F]; subst. inversion F; subst. lia.
Qed.

(** shard_log.c:98-99, the counter starts at 0 in each process: the first logs of two
    processes have the same magic number.  If the second gets the first one's extents,
    its iterator returns the entries of the first before anything is written. *)
Definition log_magic (sum64 : bytes -> N) (idx : N) : N := sum64 (enc_le 8 idx).
Theorem C38_stale_refuted : forall psz ppe csum sum64 ext K mem ws,
  geometry psz ppe csum (log_magic sum64 0) ext K -> writers psz ppe K mem ws ->
  exists l, log_writes psz ppe csum (log_magic sum64 0) ext (log_init mem) ws = Some l /\
    forall live fuel, no_accident psz ppe csum (log_magic sum64 0) ext ws l -> in_use psz ppe ext ws live ->
      (length (spec_writes (psz - 34) ws) < fuel * ppe)%nat ->
      log_entries psz ppe csum (log_magic sum64 0) fuel (g_mem (log_init (g_mem l))) live (ext 0%nat)
        = Some (flat_map s_entries (complete (spec_writes (psz - 34) ws))).
Proof.
  intros psz ppe csum sum64 ext K mem ws G W. destruct (C38_iterator _ _ _ _ _ _ _ _ G W) as (l & E & H).
  exists l. split; [exact E|]. intros live fuel NA LV FU. destruct (H live fuel NA LV FU) as (es & E2 & -> & _). exact E2.
Qed.

(** can_prev is always true, also at the first entry. *)
Theorem C38_can_prev_refuted : forall es, li_can_prev (LogItor es 0) = true.
Proof. reflexivity. Qed.

(** *** A case: pages of 80 bytes, two to an extent, two threads *)

Definition x_csum (b : bytes) : bytes := repeat (fold_left (fun s x => (3 * s + x) mod 256) b 7) 16.
Definition x_ext (i : nat) : N := 160 * N.of_nat (S i).
Definition x_mem (_ : N) : bytes := repeat 1 80.
Definition x_entry (g : N) (n : nat) : entry := Entry g (repeat g n) (Msg MInsert [g; 5]).
Definition x_ws : list (nat * entry) :=
  [(0%nat, x_entry 2 3); (1%nat, x_entry 1 8); (0%nat, x_entry 4 7); (0%nat, x_entry 3 20); (1%nat, x_entry 6 9); (1%nat, x_entry 5 1)].

Example x_geometry : geometry 80 2 x_csum 77 x_ext 10.
Proof.
  constructor.
  - lia.
  - intros b. apply repeat_length.
  - lia.
  - lia.
  - intros i j _ _ H. unfold x_ext in H. lia.
  - intros i _. unfold x_ext. rewrite N.mul_comm. apply N.mod_mul. lia.
  - intros i H. unfold x_ext. lia.
Qed.
Example x_writers : writers 80 2 10 x_mem x_ws.
Proof.
  constructor.
  - reflexivity.
  - repeat constructor; vm_compute; discriminate.
  - repeat constructor.
  - vm_compute. lia.
Qed.
Example x_pages : map (fun p => (s_tid p, map e_gen (s_entries p), s_done p)) (spec_writes (80 - 34) x_ws) =
  [(0%nat, [2; 4], true); (1%nat, [1], true); (0%nat, [3], false); (1%nat, [6; 5], false)].
Proof. reflexivity. Qed.
Example x_reads :
  match log_writes 80 2 x_csum 77 x_ext (log_init x_mem) x_ws with
  | Some l => page_valid 80 x_csum 77 (g_mem l (page_addr 80 2 x_ext 2)) = Some false /\
      option_map (map e_gen) (log_entries 80 2 x_csum 77 3 (g_mem l) (fun _ => true) (x_ext 0)) = Some [2; 4; 1]
  | None => False
  end.
Proof. vm_compute. split; reflexivity. Qed.

(** The largest generation is taken for the end of its page, and the entries after it
    are not read: the array that is sorted is then not filled. *)
Definition y_ws : list (nat * entry) :=
  [(0%nat, x_entry 1 3); (0%nat, Entry (2 ^ 64 - 1) [9] (Msg MInsert [])); (0%nat, x_entry 2 20)].
Theorem C38_last_generation_refuted : exists psz ppe csum magic ext mem ws l,
  geometry psz ppe csum magic ext 10 /\ (forall a, length (mem a) = N.to_nat psz) /\
  Forall (fun w => size (snd w) <= psz - 34 /\ e_gen (snd w) < 2 ^ 64) ws /\
  log_writes psz ppe csum magic ext (log_init mem) ws = Some l /\
  page_valid psz csum magic (g_mem l (ext 0%nat)) = Some true /\
  length (flat_map s_entries (complete (spec_writes (psz - 34) ws))) = 2%nat /\
  option_map (@length entry) (read_page psz 100 (g_mem l (ext 0%nat)) hdr_size) = Some 1%nat /\
  log_entries psz ppe csum magic 3 (g_mem l) (fun _ => true) (ext 0%nat) = None.
Proof.
  exists 80, 2%nat, x_csum, 77, x_ext, x_mem, y_ws.
  destruct (log_writes 80 2 x_csum 77 x_ext (log_init x_mem) y_ws) as [l|] eqn:E; [|vm_compute in E; discriminate].
  exists l. split; [exact x_geometry|]. split; [reflexivity|]. split; [repeat constructor; vm_compute; discriminate|].
  split; [reflexivity|]. vm_compute in E. injection E as <-. vm_compute. repeat split.
Qed.

Print Assumptions C38_page.
Print Assumptions C38_pages.
Print Assumptions C38_iterator.
Print Assumptions C38_foreign.
Print Assumptions C38_threads.
Print Assumptions C38_single.
Print Assumptions C38_hidden_refuted.
Print Assumptions C38_oversize.
Print Assumptions C38_fits.
Print Assumptions C38_order_refuted.
Print Assumptions C38_stale_refuted.
Print Assumptions C38_can_prev_refuted.
Print Assumptions C38_last_generation_refuted.
