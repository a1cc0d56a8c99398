(** * Proofs about histories of creating, opening and closing *)

From Coq Require Import List NArith Arith Bool Lia.
From Verif Require Import Config Life LifeSpec LifeProofs.
Import ListNotations.

(** ** Super blocks in histories *)

Definition is_close (o : op) : bool := match o with OpClose => true | _ => false end.

(** The super blocks written by [o] *)
Definition fits (o : op) (w : write) : Prop :=
  match w with
  | WSuper k s => k = 0 /\ s_unmounted s = is_close o
  | WMeta ids => o = OpCreate /\ ids = new_ids
  | _ => True
  end.

Lemma fits_pages : forall o act, Forall (fits o) (wpages act).
Proof. intros o act. apply Forall_forall. intros w I1. apply in_map_iff in I1 as (p & <- & _). exact Logic.I. Qed.

Lemma Forall_firstn : forall A (P : A -> Prop) l n, Forall P l -> Forall P (firstn n l).
Proof. intros A P l n H. rewrite <- (firstn_skipn n l) in H. apply Forall_app in H. apply H. Qed.

(** What was last, after more *)
Definition last_of (o : op) (ws : list write) (before : option (op * option super)) : option (op * option super) :=
  match last_write ws with Some s => Some (o, Some s) | None => before end.

Lemma last_write_app : forall a b, last_write (a ++ b) = match last_write b with Some s => Some s | None => last_write a end.
Proof.
  induction a as [|w a IH]; intros b; cbn; [destruct (last_write b); reflexivity|]. rewrite IH. destruct (last_write b); reflexivity.
Qed.

(** The device and the last super block agree *)
Definition agree (d0 : disk) (last : option (op * option super)) (d : disk) : Prop :=
  d_super d 0 = match last with None => d_super d0 0 | Some (_, v) => v end /\
  (forall o s, last = Some (o, Some s) -> s_unmounted s = is_close o).

Lemma agree_write : forall d0 last d o w, fits o w -> agree d0 last d -> agree d0 (last_of o [w] last) (write_disk d w).
Proof.
  intros d0 last d o w F (A & B). unfold last_of. destruct w as [ids|k s|r|a v]; cbn in *; try (split; assumption).
  destruct F as (-> & U). split; [reflexivity|]. intros o' s' E. injection E as <- <-. exact U.
Qed.

Lemma last_of_app : forall o a b last, last_of o (a ++ b) last = last_of o b (last_of o a last).
Proof. intros. unfold last_of. rewrite last_write_app. destruct (last_write b); reflexivity. Qed.

Lemma agree_writes : forall d0 o ws last d, Forall (fits o) ws -> agree d0 last d -> agree d0 (last_of o ws last) (disk_after d ws).
Proof.
  intros d0 o ws. induction ws as [|w ws IH]; intros last d F A; [exact A|]. inversion F as [|? ? F1 F2]. subst.
  change (w :: ws) with ([w] ++ ws). rewrite last_of_app. apply IH; [exact F2|]. exact (agree_write _ _ _ _ _ F1 A).
Qed.

Lemma meta_writes : forall o ws d, Forall (fits o) ws -> d_meta d = None \/ d_meta d = Some new_ids ->
  d_meta (disk_after d ws) = None \/ d_meta (disk_after d ws) = Some new_ids.
Proof.
  intros o ws. induction ws as [|w ws IH]; intros d F M; [exact M|]. inversion F as [|? ? F1 F2]. subst. cbn. apply IH; [exact F2|].
  destruct w as [ids|k s|r|a v]; cbn in *; try exact M. destruct F1 as (_ & ->). right. reflexivity.
Qed.

Lemma died_fits : forall d0 d o ws ws' h d' last, Forall (fits o) ws -> died_in d ws ws' h d' ->
  agree d0 last d -> d_meta d = None \/ d_meta d = Some new_ids ->
  agree d0 (if match h with Some w => is_super w | None => false end then Some (o, None) else last_of o ws' last) d' /\
  (d_meta d' = None \/ d_meta d' = Some new_ids).
Proof.
  intros d0 d o ws ws' h d' last F D A M. destruct D as [n|n w d' E H].
  - split; [apply agree_writes; [apply Forall_firstn, F|exact A]|apply (meta_writes o); [apply Forall_firstn, F|exact M]].
  - pose proof (agree_writes d0 o (firstn n ws) last d (Forall_firstn _ _ _ n F) A) as A'.
    pose proof (meta_writes o (firstn n ws) d (Forall_firstn _ _ _ n F) M) as M'.
    assert (FW : fits o w) by (rewrite Forall_forall in F; apply F; exact (nth_error_In _ _ E)).
    remember (disk_after d (firstn n ws)) as d1. destruct H as [ids|k s|r r' HR|a v v']; cbn in *.
    + split; [exact A'|left; reflexivity].
    + destruct FW as (-> & _). split; [|exact M']. split; [reflexivity|]. intros o' s' E'. discriminate.
    + split; [exact A'|exact M'].
    + split; [exact A'|exact M'].
Qed.

Lemma call_fits : forall q d act fails o es, (q_open q = true -> d_meta d = None \/ d_meta d = Some new_ids) ->
  run (create_or_open q d act) fails = (o, es) -> Forall (fits (op_of q)) (writes_of es).
Proof.
  intros q d act fails o es M R. apply run_call_writes in R. unfold op_of in *. destruct (q_open q).
  - destruct o as [[slot im|p]|].
    + destruct R as (ids & s & E1 & E2 & _ & _ & _ & ->). destruct (M eq_refl) as [M' | M']; rewrite M' in E1; [discriminate|].
      injection E1 as <-. injection E2 as <-. apply Forall_app. split; [apply fits_pages|]. constructor; [|constructor]. split; reflexivity.
    + destruct R as [-> | ->]; repeat constructor.
    + destruct R as [-> | ->]; repeat constructor.
  - destruct o as [[slot im|p]|].
    + destruct R as (_ & ->). apply Forall_app. split; [apply fits_pages|]. repeat constructor.
    + destruct R as [-> | (e & ->)]; repeat constructor.
    + destruct R as [-> | [-> | (e & ->)]]; [constructor|apply fits_pages|repeat constructor].
Qed.

Lemma close_fits : forall q k im act fails o es, run (close q k 0 im act) fails = (o, es) -> Forall (fits OpClose) (writes_of es).
Proof.
  intros q k im act fails o es R. apply run_close_writes in R as (im' & tl & _ & _ & T & ->).
  apply Forall_app. split; [apply fits_pages|]. constructor; [split; reflexivity|]. destruct T as [-> | ->]; repeat constructor.
Qed.

(** ** The invariant *)

Record hinv (d0 : disk) (h : list label) (w : world) : Prop := {
  hi_agree : agree d0 (last_super h) (w_disk w);
  hi_meta : d_meta (w_disk w) = None \/ d_meta (w_disk w) = Some new_ids;
  hi_live : forall q k slot im, w_live w = Some (q, k, slot, im) ->
    slot = 0 /\ d_meta (w_disk w) = Some new_ids
}.

Lemma meta_pages : forall act d, d_meta (disk_after d (wpages act)) = d_meta d.
Proof.
  intros act. unfold wpages. induction (act_pages act) as [|p ps IH]; intros d; [reflexivity|]. exact (IH _).
Qed.

Lemma disk_after_app : forall d a b, disk_after d (a ++ b) = disk_after (disk_after d a) b.
Proof. intros. apply fold_left_app. Qed.

Lemma history_inv : forall d0 h w, d_meta d0 = None -> history d0 h w -> hinv d0 h w.
Proof.
  intros d0 h w B H. induction H as [|h w l w' H IH S1].
  - split; cbn; [split; [reflexivity|discriminate]|left; exact B|discriminate].
  - destruct IH as [A M L].
    destruct S1 as [d q k act fails slot im es C R | d q act fails p es R | d q act fails o es ws hf d' R D | d q k slot im im'
                   | d l a v | d l ws hf d' a v D | d q k slot im act fails im' es R P | d q k slot im act fails o es ws hf d' R D];
      cbn [w_disk w_live] in *.
    + pose proof (call_fits q d act fails _ es (fun _ => M) R) as F.
      split; cbn [w_disk w_live last_super l_op l_half l_writes].
      * exact (agree_writes d0 _ _ _ _ F A).
      * exact (meta_writes _ _ _ F M).
      * intros q' k' slot' im' E. injection E as <- <- <- <-. apply run_call_writes in R. unfold op_of in *. destruct (q_open q).
        -- destruct R as (ids & s & E1 & E2 & _ & _ & _ & ->). destruct M as [M | M]; rewrite M in E1; [discriminate|].
           injection E1 as <-. injection E2 as <-. split; [reflexivity|]. rewrite disk_after_app. cbn. rewrite meta_pages. exact M.
        -- destruct R as (-> & ->). split; [reflexivity|]. rewrite disk_after_app. reflexivity.
    + pose proof (call_fits q d act fails _ es (fun _ => M) R) as F.
      split; cbn [w_disk w_live last_super l_op l_half l_writes]; [exact (agree_writes d0 _ _ _ _ F A)|exact (meta_writes _ _ _ F M)|discriminate].
    + pose proof (call_fits q d act fails _ es (fun _ => M) R) as F. destruct (died_fits d0 d _ _ _ _ _ _ F D A M) as (A' & M').
      split; cbn [w_disk w_live last_super l_op l_half l_writes]; [exact A'|exact M'|discriminate].
    + split; cbn [w_disk w_live last_super l_op l_half l_writes last_write]; [exact A|exact M|].
      intros q' k' slot' im0 E. injection E as <- <- <- <-. exact (L _ _ _ _ eq_refl).
    + split; cbn [w_disk w_live last_super l_op l_half l_writes last_write]; [exact A|exact M|]. intros q' k' slot' im0 E. exact (L _ _ _ _ E).
    + assert (F : Forall (fits OpRun) [WPage a v]) by repeat constructor.
      destruct (died_fits d0 d _ _ _ _ _ _ F D A M) as (A' & M').
      split; cbn [w_disk w_live last_super l_op l_half l_writes]; [exact A'|exact M'|discriminate].
    + destruct (L _ _ _ _ eq_refl) as (-> & _). pose proof (close_fits _ _ _ _ _ _ _ R) as F.
      split; cbn [w_disk w_live last_super l_op l_half l_writes]; [exact (agree_writes d0 _ _ _ _ F A)|exact (meta_writes _ _ _ F M)|discriminate].
    + destruct (L _ _ _ _ eq_refl) as (-> & _). pose proof (close_fits _ _ _ _ _ _ _ R) as F.
      destruct (died_fits d0 d _ _ _ _ _ _ F D A M) as (A' & M').
      split; cbn [w_disk w_live last_super l_op l_half l_writes]; [exact A'|exact M'|discriminate].
Qed.

(** ** Calls in which nothing fails *)

Definition never : nat -> bool := fun _ => false.
Definition always {A} (m : M A) (a : A) : Prop := forall n, exists n' es, m never n = (Ret a, n', es).

Lemma always_ret : forall A (a : A), always (ret a) a.
Proof. intros A a n. eexists _, _. reflexivity. Qed.
Lemma always_emit : forall e, always (emit e) tt.
Proof. intros e n. eexists _, _. reflexivity. Qed.
Lemma always_works : always works true.
Proof. intros n. eexists _, _. reflexivity. Qed.
Lemma always_bind : forall A B (m : M A) (k : A -> M B) a b, always m a -> always (k a) b -> always (bind m k) b.
Proof.
  intros A B m k a b H1 H2 n. unfold bind. destruct (H1 n) as (n1 & e1 & ->). destruct (H2 n1) as (n2 & e2 & ->).
  eexists _, _. reflexivity.
Qed.
Lemma always_acquire : forall r, always (acquire r) true.
Proof. intros r n. eexists _, _. reflexivity. Qed.
Lemma always_aod : forall r, always (acquire_or_die r) tt.
Proof. intros r n. eexists _, _. reflexivity. Qed.
Lemma always_check : forall b, b = true -> always (check b) tt.
Proof. intros b -> n. eexists _, _. reflexivity. Qed.
Lemma always_join : forall n g j, always (join_threads g j n) tt.
Proof. induction n as [|n IH]; intros g j; cbn [join_threads]; [apply always_ret|]. eapply always_bind; [apply always_emit|apply IH]. Qed.
Lemma always_make : forall n g j, always (make_threads g j n) (j + n, true).
Proof.
  induction n as [|n IH]; intros g j; cbn [make_threads]; [rewrite Nat.add_0_r; apply always_ret|].
  eapply always_bind; [apply always_acquire|]. cbv iota. replace (j + S n) with (S j + n) by lia. apply IH.
Qed.
Lemma always_release : forall rs, always (release_all rs) tt.
Proof. induction rs as [|r rs IH]; cbn [release_all]; [apply always_ret|]. eapply always_bind; [apply always_emit|exact IH]. Qed.
Lemma always_pages : forall ps, always (write_pages ps) tt.
Proof. induction ps as [|[a v] ps IH]; cbn [write_pages]; [apply always_ret|]. eapply always_bind; [apply always_emit|exact IH]. Qed.
Lemma always_group_init : forall g n, always (group_init g n) (n, true).
Proof.
  intros. unfold group_init. eapply always_bind; [apply always_acquire|]. cbn [negb].
  eapply always_bind; [apply always_make|]. apply always_ret.
Qed.
Lemma always_group_deinit : forall g n, always (group_deinit g n) tt.
Proof.
  intros. unfold group_deinit, stop_threads. eapply always_bind; [|apply always_emit]. eapply always_bind; [apply always_emit|apply always_join].
Qed.
Lemma always_destroy : forall n1 n2 reg, always (tasks_destroy n1 n2 reg) tt.
Proof.
  intros. unfold tasks_destroy. do 2 (eapply always_bind; [apply always_group_deinit|]).
  eapply always_bind; [destruct reg; [apply always_emit|apply always_ret]|apply always_emit].
Qed.
Lemma always_tasks : forall n1 n2, always (tasks_create n1 n2) (inl true).
Proof.
  intros. unfold tasks_create. do 2 (eapply always_bind; [apply always_acquire|cbn [negb]]).
  do 2 (eapply always_bind; [apply always_group_init|cbn [negb snd fst]]). apply always_ret.
Qed.
Lemma always_io_deinit : always io_deinit tt.
Proof. unfold io_deinit. eapply always_bind; apply always_emit. Qed.
Lemma always_unmount : forall refs, always (al_unmount refs) tt.
Proof.
  intros. unfold al_unmount. eapply always_bind; [apply always_works|]. eapply always_bind; [apply always_check; reflexivity|].
  do 4 (eapply always_bind; [apply always_emit|]). apply always_emit.
Qed.
Lemma always_fail : forall a b p, always (fail_kvs a b p) (Bad p).
Proof.
  intros. unfold fail_kvs. eapply always_bind; [destruct b; [apply always_emit|apply always_ret]|].
  eapply always_bind; [destruct a; [apply always_emit|apply always_ret]|apply always_ret].
Qed.

(** The sizes in the configuration fit what the parts assert *)
Definition sizes_fit (k : kvs) : bool :=
  N.eqb (N.modulo (u_io_depth (k_cfg k)) 32) 0 &&
  match allocator_valid k with Ok _ => true | _ => false end &&
  (N.eqb (N.modulo (k_cache_pages k) 64) 0 && N.eqb (u_cache_size (k_cfg k)) (k_cache_pages k * 4096)).

Lemma always_io : forall depth, N.eqb (N.modulo depth 32) 0 = true -> always (io_init depth) None.
Proof.
  intros depth H. unfold io_init. eapply always_bind; [apply always_check, H|]. eapply always_bind; [apply always_acquire|].
  cbn [negb]. do 2 (eapply always_bind; [apply always_works|cbn [negb]]). eapply always_bind; [apply always_aod|apply always_ret].
Qed.

Lemma always_call : forall q d act k r, init_config (q_conf q) = Ok k -> sizes_fit k = true ->
  (q_open q = true -> d_meta d <> None) ->
  always (if q_open q then trunk_mount d act
          else do r <- trunk_create (Image (new_refs (k_disk_extents k)) (d_pages d) 0 0 0) act; ret (Some r)) r ->
  always (create_or_open q d act) (match r with Some (slot, im) => Good slot im | None => Bad PTrunk end).
Proof.
  intros q d act k r C F M T. unfold create_or_open.
  apply andb_true_iff in F as (F & F3). apply andb_true_iff in F as (F1 & F2).
  apply always_bind with (a := true); [destruct (q_shmem q && negb (q_has_heap q)); [apply always_acquire|apply always_ret]|]. cbn [negb].
  eapply always_bind; [apply always_acquire|]. cbn [negb]. rewrite C. cbv zeta.
  eapply always_bind; [apply always_io, F1|]. cbv iota. eapply always_bind; [apply always_tasks|]. cbv iota.
  apply always_bind with (a := true).
  { destruct (q_open q).
    - unfold al_mount. do 2 (eapply always_bind; [apply always_acquire|cbn [negb]]). eapply always_bind; [apply always_check, F2|].
      eapply always_bind; [apply always_acquire|cbn [negb]]. eapply always_bind; [apply always_works|].
      eapply always_bind; [apply always_check; reflexivity|]. specialize (M eq_refl). destruct (d_meta d); [|congruence].
      eapply always_bind; [apply always_check; reflexivity|]. eapply always_bind; [apply always_works|].
      eapply always_bind; [apply always_check; reflexivity|]. apply always_ret.
    - unfold al_init. destruct (allocator_valid k); try discriminate.
      do 3 (eapply always_bind; [apply always_acquire|cbn [negb]]). apply always_ret. }
  cbn [negb]. apply always_bind with (a := true).
  { unfold cache_init. eapply always_bind; [apply always_check, F3|]. unfold cache_resources. cbn [acquire_all].
    apply always_bind with (a := None); [|apply always_ret].
    do 6 (eapply always_bind; [apply always_acquire|cbv iota]). apply always_ret. }
  cbn [negb]. apply always_bind with (a := r).
  { destruct (q_open q); exact T. }
  destruct r as [[slot im]|]; [apply always_ret|].
  eapply always_bind; [apply always_release|]. eapply always_bind; [apply always_unmount|].
  eapply always_bind; [apply always_destroy|]. eapply always_bind; [apply always_io_deinit|apply always_fail].
Qed.

Lemma always_run : forall A (m : M A) a, always m a -> exists es, run m never = (Ret a, es).
Proof. intros A m a H. unfold run. destruct (H 0) as (n & es & ->). exists es. reflexivity. Qed.

Lemma create_runs : forall q d act k, init_config (q_conf q) = Ok k -> sizes_fit k = true -> q_open q = false ->
  exists es, run (create_or_open q d act) never = (Ret (Good 0 (act_image act (Image (new_refs (k_disk_extents k)) (d_pages d) 0 0 0))), es).
Proof.
  intros q d act k C F O. apply always_run.
  apply (always_call q d act k (Some (0, act_image act (Image (new_refs (k_disk_extents k)) (d_pages d) 0 0 0)))); try assumption; [congruence|].
  rewrite O. eapply always_bind; [|apply always_ret]. unfold trunk_create.
  eapply always_bind; [apply always_aod|]. do 2 (eapply always_bind; [apply always_emit|]). eapply always_bind; [apply always_aod|]. cbv zeta.
  eapply always_bind; [apply always_pages|]. change (take_slot (repeat 0%N MAX_ROOT_IDS) trunk_id) with (Some (0, new_ids)). cbv iota beta.
  eapply always_bind; [apply always_works|]. eapply always_bind; [apply always_check; reflexivity|]. eapply always_bind; [apply always_emit|].
  eapply always_bind; [|apply always_ret]. unfold write_super. eapply always_bind; apply always_emit.
Qed.

Lemma open_runs : forall q d act k ids slot, init_config (q_conf q) = Ok k -> sizes_fit k = true -> q_open q = true ->
  d_meta d = Some ids -> find_id ids trunk_id 0 = Some slot ->
  exists es, run (create_or_open q d act) never =
    (Ret match d_super d slot with
         | Some s => if mountable s then Good slot (act_image act (Image (d_refs d) (d_pages d) (s_root s) (s_next s) (s_tail s))) else Bad PTrunk
         | None => Bad PTrunk
         end, es).
Proof.
  intros q d act k ids slot C F O E1 E2. apply always_run.
  assert (T : forall r, always (trunk_mount d act) r -> always (create_or_open q d act) (match r with Some (slot, im) => Good slot im | None => Bad PTrunk end)).
  { intros r T. apply (always_call q d act k r); try assumption; [congruence|]. rewrite O. exact T. }
  assert (T0 : forall r, always (match (match d_super d slot with
             | Some s => if s_unmounted s && (N.ltb 0 (s_time s)) && negb (N.eqb (s_root s) 0) then Some s else None
             | None => None
             end) with
      | None => emit (Rel RSpl) ;; ret None
      | Some s =>
          acquire_or_die RTrunk ;;
          let im := act_image act (Image (d_refs d) (d_pages d) (s_root s) (s_next s) (s_tail s)) in
          write_pages (act_pages act) ;;
          write_super slot im (act_time act) false ;;
          ret (Some (slot, im))
      end) r -> always (trunk_mount d act) r).
  { intros r H. unfold trunk_mount. eapply always_bind; [apply always_aod|]. do 2 (eapply always_bind; [apply always_emit|]).
    rewrite E1, E2. exact H. }
  destruct (d_super d slot) as [s|].
  - fold (mountable s) in T0. destruct (mountable s).
    + apply (T (Some (slot, act_image act (Image (d_refs d) (d_pages d) (s_root s) (s_next s) (s_tail s))))). apply T0.
      eapply always_bind; [apply always_aod|]. cbv zeta. eapply always_bind; [apply always_pages|].
      eapply always_bind; [|apply always_ret]. unfold write_super. eapply always_bind; apply always_emit.
    + apply (T None). apply T0. eapply always_bind; [apply always_emit|apply always_ret].
  - apply (T None). apply T0. eapply always_bind; [apply always_emit|apply always_ret].
Qed.

Lemma close_runs : forall q k slot im act, exists es, run (close q k slot im act) never = (Ret (act_image act im), es).
Proof.
  intros. apply always_run. unfold close. apply always_bind with (a := act_image act im).
  - unfold trunk_unmount. do 2 (eapply always_bind; [apply always_emit|]). cbv zeta. eapply always_bind; [apply always_emit|].
    eapply always_bind; [apply always_pages|]. eapply always_bind; [unfold write_super; eapply always_bind; apply always_emit|].
    eapply always_bind; [apply always_emit|apply always_ret].
  - eapply always_bind; [apply always_release|]. eapply always_bind; [apply always_unmount|]. eapply always_bind; [apply always_destroy|].
    eapply always_bind; [apply always_io_deinit|]. eapply always_bind; [apply always_emit|].
    eapply always_bind; [destruct (_ && _); [apply always_emit|apply always_ret]|apply always_ret].
Qed.

(** ** After a close *)

(** An attempt to open that wrote reference counts at most *)
Definition inert (l : label) : Prop :=
  l_op l = OpOpen /\ forall w, In w (l_writes l) \/ l_half l = Some w -> exists r, w = WRefs r.

Definition holds_image (d : disk) (im : image) (now : N) : Prop :=
  (forall e, d_refs d e = i_refs im e) /\ (forall a, d_pages d a = i_pages im a) /\ d_meta d = Some new_ids /\
  d_super d 0 = Some (Super (i_root im) (i_next im) (i_tail im) now true).

Lemma refs_only : forall ws d im now, (forall w, In w ws -> exists r, w = WRefs r /\ (forall e, r e = i_refs im e)) ->
  holds_image d im now -> holds_image (disk_after d ws) im now.
Proof.
  induction ws as [|w ws IH]; intros d im now H I1; [exact I1|]. cbn. apply IH; [intros w' X; apply H; right; exact X|].
  destruct (H w (or_introl eq_refl)) as (r & -> & E). destruct I1 as (_ & I2 & I3 & I4). repeat split; assumption.
Qed.

Lemma open_refs : forall q d act fails o es r, q_open q = true -> run (create_or_open q d act) fails = (o, es) ->
  In (WRefs r) (writes_of es) -> r = d_refs d.
Proof.
  intros q d act fails o es r O R I1. apply run_call_writes in R. rewrite O in R. destruct o as [[slot im|p]|].
  - destruct R as (ids & s & _ & _ & _ & _ & _ & E). rewrite E in I1. apply in_app_iff in I1 as [I1 | [I1 | []]]; [|discriminate].
    apply in_map_iff in I1 as (x & X & _). discriminate.
  - destruct R as [E | E]; rewrite E in I1; [destruct I1|]. destruct I1 as [I1 | []]. injection I1 as <-. reflexivity.
  - destruct R as [E | E]; rewrite E in I1; [destruct I1|]. destruct I1 as [I1 | []]. injection I1 as <-. reflexivity.
Qed.

Lemma firstn_in : forall A (l : list A) n x, In x (firstn n l) -> In x l.
Proof. intros A l n x H. rewrite <- (firstn_skipn n l). apply in_app_iff. left. exact H. Qed.

Lemma inert_step : forall w l w' im now, wstep w l w' -> inert l -> w_live w = None -> holds_image (w_disk w) im now ->
  holds_image (w_disk w') im now.
Proof.
  intros w l w' im now S1 (O & N1) V H.
  destruct S1 as [d q k act fails slot im0 es C R | d q act fails p es R | d q act fails o es ws hf d' R D | d q k slot im0 im'
                 | d l a v | d l ws hf d' a v D | d q k slot im0 act fails im' es R P | d q k slot im0 act fails o es ws hf d' R D];
    cbn [w_disk w_live l_op l_writes l_half] in *; try discriminate.
  - assert (OQ : q_open q = true) by (unfold op_of in O; destruct (q_open q); [reflexivity|discriminate]).
    apply refs_only; [|exact H]. intros w I1. destruct (N1 w (or_introl I1)) as (r & ->). exists r. split; [reflexivity|].
    rewrite (open_refs q d act fails _ es r OQ R I1). apply H.
  - assert (OQ : q_open q = true) by (unfold op_of in O; destruct (q_open q); [reflexivity|discriminate]).
    apply refs_only; [|exact H]. intros w I1. destruct (N1 w (or_introl I1)) as (r & ->). exists r. split; [reflexivity|].
    rewrite (open_refs q d act fails _ es r OQ R I1). apply H.
  - assert (OQ : q_open q = true) by (unfold op_of in O; destruct (q_open q); [reflexivity|discriminate]).
    assert (K : forall n, (forall w, In w (firstn n (writes_of es)) -> exists r, w = WRefs r) ->
                holds_image (disk_after d (firstn n (writes_of es))) im now).
    { intros n K. apply refs_only; [|exact H]. intros w I1. destruct (K w I1) as (r & ->). exists r. split; [reflexivity|].
      apply firstn_in in I1. rewrite (open_refs q d act fails _ es r OQ R I1). apply H. }
    destruct D as [n|n w d' E HW].
    + apply K. intros w I1. apply N1. left. exact I1.
    + specialize (K n (fun w I1 => N1 w (or_introl I1))). destruct (N1 w (or_intror eq_refl)) as (r & ->).
      pose proof (open_refs q d act fails _ es r OQ R (nth_error_In _ _ E)) as ER.
      remember (disk_after d (firstn n (writes_of es))) as d1. inversion HW as [ | |r0 r' HR E0 E1| ]. subst r0.
      destruct K as (K1 & K2 & K3 & K4). repeat split; cbn; try assumption. intros e. destruct (HR e) as [-> | ->]; [apply K1|].
      rewrite ER. apply H.
Qed.

Lemma live_after_inert : forall w l w', wstep w l w' -> l_op l = OpOpen -> w_live w = None.
Proof. intros w l w' S1 O. destruct S1; cbn in *; try reflexivity; discriminate. Qed.

Lemma disk_pages_after : forall ws d, Forall (fun w => match w with WPage _ _ => False | _ => True end) ws -> forall a, d_pages (disk_after d ws) a = d_pages d a.
Proof.
  induction ws as [|w ws IH]; intros d F a; [reflexivity|]. inversion F as [|? ? F1 F2]. subst.
  change (disk_after d (w :: ws)) with (disk_after (write_disk d w) ws). rewrite IH by exact F2.
  destruct w; cbn in *; tauto || reflexivity.
Qed.

Lemma close_holds : forall d0 h w ws im w', d_meta d0 = None -> history d0 h w ->
  wstep w (Label OpClose ws None Accepted (Some im)) w' ->
  exists now, last_write ws = Some (Super (i_root im) (i_next im) (i_tail im) now true) /\ holds_image (w_disk w') im now.
Proof.
  intros d0 h w ws im w' B H S1. pose proof (history_inv _ _ _ B H) as [_ _ L]. inversion S1 as [ | | | | | |d q k slot im0 act fails im' es R P| ]; subst.
  - destruct (L _ _ _ _ eq_refl) as (-> & M). cbn [w_disk] in *.
    apply run_close_writes in R as (im1 & tl & -> & [X | (X & ->)] & _ & E); [discriminate|]. injection X as ->.
    exists (act_time act). rewrite E. split.
    + rewrite last_write_app. reflexivity.
    + rewrite disk_after_app. repeat split.
      * intros a. rewrite disk_pages_after by repeat constructor. apply P.
      * cbn. rewrite meta_pages. exact M.
Qed.

Lemma inert_holds : forall d0 hs h w ws im, d_meta d0 = None -> Forall inert hs ->
  history d0 (hs ++ Label OpClose ws None Accepted (Some im) :: h) w ->
  exists now, last_write ws = Some (Super (i_root im) (i_next im) (i_tail im) now true) /\ holds_image (w_disk w) im now.
Proof.
  intros d0 hs. induction hs as [|l hs IH]; intros h w ws im B F H; cbn [app] in H; inversion H as [|h' w0 l' w' H0 S1]; subst.
  - exact (close_holds _ _ _ _ _ _ B H0 S1).
  - inversion F as [|? ? F1 F2]. subst. destruct (IH h w0 ws im B F2 H0) as (now & E & K). exists now. split; [exact E|].
    exact (inert_step _ _ _ _ _ S1 F1 (live_after_inert _ _ _ S1 (proj1 F1)) K).
Qed.
