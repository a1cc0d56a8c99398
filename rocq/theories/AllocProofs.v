(** * Proofs about the extent allocator *)

From Coq Require Import List NArith ZArith Arith Bool Lia.
From Verif Require Import Count Alloc.
Import ListNotations.

(** References taken minus dropped, by an independent count of the events. *)
Definition ev_delta (e : nat) (ev : al_event) : Z :=
  match ev with
  | EAlloc _ x => if Nat.eqb x e then 2 else 0
  | EInc x _ => if Nat.eqb x e then 1 else 0
  | EDec x _ => if Nat.eqb x e then -1 else 0
  end%Z.
Definition balance (disk : nat -> N) (h : list al_event) (e : nat) : Z :=
  fold_left (fun acc ev => acc + ev_delta e ev)%Z h (Z.of_N (disk e)).

Lemma balance_snoc : forall disk h ev e,
  balance disk (h ++ [ev]) e = (balance disk h e + ev_delta e ev)%Z.
Proof. intros. unfold balance. now rewrite fold_left_app. Qed.

Definition ev_ok (disk : nat -> N) (pre : list al_event) (ev : al_event) : Prop :=
  match ev with
  | EAlloc _ e => balance disk pre e = 0%Z
  | EInc e r => (0 < balance disk pre e)%Z /\ Z.of_N r = (balance disk pre e + 1)%Z
  | EDec e r => (0 < balance disk pre e)%Z /\ Z.of_N r = (balance disk pre e - 1)%Z
  end.

Definition ev_in (n : nat) (ev : al_event) : Prop :=
  match ev with EAlloc _ e | EInc e _ | EDec e _ => e < n end.

(** The extent a thread is in the middle of returning, or has returned. *)
Definition pc_got (p : al_pc) : option nat :=
  match p with
  | ACount h | AMax h _ | AMaxCas h _ _ => Some h
  | ARet r => r
  | _ => None
  end.
Fixpoint last_alloc (t : nat) (h : list al_event) : option nat :=
  match h with
  | [] => None
  | ev :: r => match last_alloc t r with
               | Some e => Some e
               | None => match ev with EAlloc u e => if Nat.eqb u t then Some e else None | _ => None end
               end
  end.

Lemma last_alloc_snoc : forall t h ev,
  last_alloc t (h ++ [ev]) =
  match ev with EAlloc u e => if Nat.eqb u t then Some e else last_alloc t h | _ => last_alloc t h end.
Proof.
  induction h; intros ev; cbn.
  - destruct ev; try reflexivity.
  - rewrite IHh. destruct ev; try reflexivity. destruct (Nat.eqb t0 t); reflexivity.
Qed.

Definition pc_in (n : nat) (p : al_pc) : Prop :=
  match p with
  | AFetch f => f < n
  | ARead f h | ACas f h => f < n /\ h < n
  | ACount h | AMax h _ | AMaxCas h _ _ => h < n
  | ARet (Some h) => h < n
  | _ => True
  end.

Definition nonzero (refs : nat -> N) (i : nat) : bool := negb (N.eqb (refs i) 0).
Definition at_count (pcs : nat -> al_pc) (t : nat) : bool :=
  match pcs t with ACount _ => true | _ => false end.
Definition at_deccount (pcs : nat -> al_pc) (t : nat) : bool :=
  match pcs t with ADecCount _ => true | _ => false end.

Record al_inv (n T : nat) (disk : nat -> N) (s : al) : Prop := {
  ai_refs : forall e, (al_refs s e < 256)%N;
  ai_bal : forall e, Z.of_N (al_refs s e) = balance disk (al_hist s) e;
  ai_hist : forall pre ev suf, al_hist s = pre ++ ev :: suf -> ev_ok disk pre ev;
  ai_evin : Forall (ev_in n) (al_hist s);
  ai_curr : (al_curr s + Z.of_nat (cnt (at_count (al_pcs s)) T)
             = Z.of_nat (cnt (nonzero (al_refs s)) n) + Z.of_nat (cnt (at_deccount (al_pcs s)) T))%Z;
  ai_pcs : forall t, pc_in n (al_pcs s t);
  ai_got : forall t e, pc_got (al_pcs s t) = Some e -> last_alloc t (al_hist s) = Some e
}.

Lemma al_mount_inv : forall n T disk, (forall e, (disk e < 256)%N) -> al_inv n T disk (al_mount n disk).
Proof.
  intros n T disk Hd. constructor; cbn; intros; try discriminate; try assumption; try exact I; auto.
  - destruct pre; discriminate.
Qed.

Definition req_ok (n : nat) (q : al_req) : Prop :=
  match q with QAlloc => True | QInc e | QDec e => e < n end.

Lemma snoc_split : forall {A} (l : list A) x pre y suf,
  l ++ [x] = pre ++ y :: suf ->
  (suf = [] /\ pre = l /\ y = x) \/ (exists suf', suf = suf' ++ [x] /\ l = pre ++ y :: suf').
Proof.
  intros A l x pre y suf H. destruct suf as [|z suf0] using rev_ind.
  - left. apply app_inj_tail in H. destruct H; subst. auto.
  - clear IHsuf0. right. exists suf0.
    rewrite app_comm_cons, app_assoc in H. apply app_inj_tail in H. destruct H; subst. auto.
Qed.

Lemma hist_snoc : forall disk h ev,
  (forall pre e suf, h = pre ++ e :: suf -> ev_ok disk pre e) -> ev_ok disk h ev ->
  forall pre e suf, h ++ [ev] = pre ++ e :: suf -> ev_ok disk pre e.
Proof.
  intros disk h ev H1 H2 pre e suf H. apply snoc_split in H.
  destruct H as [(-> & -> & ->)|(suf' & -> & ->)]; [assumption|]. eapply H1; reflexivity.
Qed.

Lemma hand_extent_lt : forall n h, 0 < n -> hand_extent n h < n.
Proof.
  intros n h Hn. unfold hand_extent. pose proof (N.mod_lt h (N.of_nat n) ltac:(lia)). lia.
Qed.

Lemma after_probe_in : forall n f h, f < n -> h < n -> pc_in n (al_after_probe n f h).
Proof. intros. unfold al_after_probe. destruct (Nat.eqb _ _); cbn; auto. Qed.
Lemma after_probe_got : forall n f h, pc_got (al_after_probe n f h) = None.
Proof. intros. unfold al_after_probe. destruct (Nat.eqb _ _); reflexivity. Qed.

(** Counting threads at a position when one thread moves. *)
Lemma cnt_pc_upd : forall (p : al_pc -> bool) pcs t v T, t < T ->
  cnt (fun u => p (upd pcs t v u)) T + b2n (p (pcs t)) = cnt (fun u => p (pcs u)) T + b2n (p v).
Proof.
  intros p pcs t v T Ht.
  rewrite (cnt_change (fun u => p (pcs u)) (fun u => p (upd pcs t v u)) T t Ht).
  - now rewrite upd_same. - intros. now rewrite upd_other.
Qed.

Definition is_count (p : al_pc) := match p with ACount _ => true | _ => false end.
Definition is_deccount (p : al_pc) := match p with ADecCount _ => true | _ => false end.

Lemma al_step_inv : forall n T disk s t q s',
  0 < n -> t < T -> req_ok n q -> al_inv n T disk s -> al_step n s t q = ANext s' ->
  al_inv n T disk s'.
Proof.
  intros n T disk s t q s' Hn Ht Hq I H.
  destruct I as [I1 I2 I3 I4 I5 I6 I7].
  assert (P : forall v, cnt (at_count (upd (al_pcs s) t v)) T + b2n (is_count (al_pcs s t))
                        = cnt (at_count (al_pcs s)) T + b2n (is_count v))
    by (intro v; exact (cnt_pc_upd is_count (al_pcs s) t v T Ht)).
  assert (Q : forall v, cnt (at_deccount (upd (al_pcs s) t v)) T + b2n (is_deccount (al_pcs s t))
                        = cnt (at_deccount (al_pcs s)) T + b2n (is_deccount v))
    by (intro v; exact (cnt_pc_upd is_deccount (al_pcs s) t v T Ht)).
  assert (R : forall e v, e < n -> cnt (nonzero (upd (al_refs s) e v)) n + b2n (nonzero (al_refs s) e)
                        = cnt (nonzero (al_refs s)) n + b2n (negb (N.eqb v 0))).
  { intros e v He. rewrite (cnt_change (nonzero (al_refs s)) (nonzero (upd (al_refs s) e v)) n e He).
    - unfold nonzero. now rewrite upd_same.
    - intros i Hi. unfold nonzero. now rewrite upd_other. }
  (* moves that change only the program counter (and hand, max) *)
  assert (Simple : forall p hand mx,
     pc_in n p -> (forall e, pc_got p = Some e -> pc_got (al_pcs s t) = Some e) ->
     is_count p = is_count (al_pcs s t) -> is_deccount p = is_deccount (al_pcs s t) ->
     al_inv n T disk (Al (al_refs s) hand (al_curr s) mx (upd (al_pcs s) t p) (al_hist s))).
  { intros p hand mx H1 H2 H3 H4. constructor; cbn [al_refs al_hand al_curr al_pcs al_hist]; try assumption.
    - specialize (P p). specialize (Q p). rewrite H3 in P. rewrite H4 in Q. lia.
    - intro u. destruct (Nat.eq_dec u t) as [->|]; [rewrite upd_same | rewrite upd_other by assumption]; auto.
    - intros u e. destruct (Nat.eq_dec u t) as [->|]; [rewrite upd_same | rewrite upd_other by assumption]; auto. }
  pose proof (I6 t) as Pt.
  unfold al_step in H.
  assert (Client : (al_pcs s t = AIdle \/ exists r, al_pcs s t = ARet r) ->
     match q with
      | QAlloc => ANext (al_goto s t (AFetch (hand_extent n (al_hand s))))
      | QInc e =>
          let r := ((al_refs s e + 1) mod 256)%N in
          if N.eqb r 1 || N.eqb r 0 then AAbort
          else ANext (Al (upd (al_refs s) e r) (al_hand s) (al_curr s) (al_max s)
                         (upd (al_pcs s) t AIdle) (al_hist s ++ [EInc e r]))
      | QDec e =>
          let r := ((al_refs s e + 255) mod 256)%N in
          if N.eqb r 255 then AAbort
          else ANext (Al (upd (al_refs s) e r) (al_hand s) (al_curr s) (al_max s)
                         (upd (al_pcs s) t (if N.eqb r 0 then ADecCount r else AIdle))
                         (al_hist s ++ [EDec e r]))
      end = ANext s' -> al_inv n T disk s').
  { intros Hidle HH.
    assert (Hc0 : is_count (al_pcs s t) = false) by (destruct Hidle as [->|[r ->]]; reflexivity).
    assert (Hd0 : is_deccount (al_pcs s t) = false) by (destruct Hidle as [->|[r ->]]; reflexivity).
    destruct q as [|e|e]; cbn zeta in HH.
    - injection HH as HH; subst s'. apply Simple; cbn; auto; try discriminate.
      now apply hand_extent_lt.
    - remember ((al_refs s e + 1) mod 256)%N as r eqn:Er.
      destruct (N.eqb_spec r 1); [discriminate|]. destruct (N.eqb_spec r 0); [discriminate|].
      injection HH as HH; subst s'. pose proof (I1 e) as Be. cbn in Hq.
      assert (Hr : r = (al_refs s e + 1)%N /\ (0 < al_refs s e)%N).
      { destruct (N.eq_dec (al_refs s e) 255) as [E|E].
        - rewrite E in Er. compute in Er. congruence.
        - rewrite N.mod_small in Er by lia. split; [assumption|].
          destruct (N.eq_dec (al_refs s e) 0) as [E0|]; [rewrite E0 in Er; cbn in Er; congruence | lia]. }
      destruct Hr as [Hr Hpos].
      constructor; cbn [al_refs al_hand al_curr al_pcs al_hist].
      + intro x. destruct (Nat.eq_dec x e) as [->|]; [rewrite upd_same | rewrite upd_other by assumption; apply I1].
        rewrite Er. apply N.mod_lt. lia.
      + intro x. rewrite balance_snoc. cbn [ev_delta].
        destruct (Nat.eq_dec x e) as [->|Hx].
        * rewrite upd_same, Nat.eqb_refl, <- I2. lia.
        * rewrite upd_other by assumption. destruct (Nat.eqb_spec e x); [congruence|]. rewrite <- I2. lia.
      + apply hist_snoc; [exact I3|]. cbn. rewrite <- I2. lia.
      + apply Forall_app. split; [assumption|]. constructor; [exact Hq | constructor].
      + specialize (P AIdle). specialize (Q AIdle). specialize (R e r Hq).
        rewrite Hc0 in P. rewrite Hd0 in Q. cbn in P, Q.
        assert (nonzero (al_refs s) e = true) by (unfold nonzero; destruct (N.eqb_spec (al_refs s e) 0); [lia|reflexivity]).
        rewrite H0 in R. destruct (N.eqb_spec r 0); [lia|]. cbn in R. lia.
      + intro u. destruct (Nat.eq_dec u t) as [->|]; [rewrite upd_same; exact I | rewrite upd_other by assumption; apply I6].
      + intros u x. rewrite last_alloc_snoc.
        destruct (Nat.eq_dec u t) as [->|]; [rewrite upd_same; discriminate | rewrite upd_other by assumption; apply I7].
    - remember ((al_refs s e + 255) mod 256)%N as r eqn:Er.
      destruct (N.eqb_spec r 255); [discriminate|].
      injection HH as HH; subst s'. pose proof (I1 e) as Be. cbn in Hq.
      assert (Hr : al_refs s e = (r + 1)%N).
      { destruct (N.eq_dec (al_refs s e) 0) as [E|E].
        - rewrite E in Er. compute in Er. congruence.
        - replace (al_refs s e + 255)%N with ((al_refs s e - 1) + 1 * 256)%N in Er by lia.
          rewrite N.mod_add in Er by lia. rewrite N.mod_small in Er by lia. lia. }
      constructor; cbn [al_refs al_hand al_curr al_pcs al_hist].
      + intro x. destruct (Nat.eq_dec x e) as [->|]; [rewrite upd_same; lia | rewrite upd_other by assumption; apply I1].
      + intro x. rewrite balance_snoc. cbn [ev_delta].
        destruct (Nat.eq_dec x e) as [->|Hx].
        * rewrite upd_same, Nat.eqb_refl, <- I2. lia.
        * rewrite upd_other by assumption. destruct (Nat.eqb_spec e x); [congruence|]. rewrite <- I2. lia.
      + apply hist_snoc; [exact I3|]. cbn. rewrite <- I2. lia.
      + apply Forall_app. split; [assumption|]. constructor; [exact Hq | constructor].
      + specialize (P (if N.eqb r 0 then ADecCount r else AIdle)).
        specialize (Q (if N.eqb r 0 then ADecCount r else AIdle)). specialize (R e r Hq).
        rewrite Hc0 in P. rewrite Hd0 in Q.
        assert (nonzero (al_refs s) e = true) by (unfold nonzero; destruct (N.eqb_spec (al_refs s e) 0); [lia|reflexivity]).
        rewrite H0 in R. destruct (N.eqb_spec r 0); cbn in P, Q, R; lia.
      + intro u. destruct (Nat.eq_dec u t) as [->|]; [rewrite upd_same | rewrite upd_other by assumption; apply I6].
        destruct (N.eqb r 0); exact I.
      + intros u x. rewrite last_alloc_snoc.
        destruct (Nat.eq_dec u t) as [->|]; [rewrite upd_same | rewrite upd_other by assumption; apply I7].
        destruct (N.eqb r 0); discriminate. }
  destruct (al_pcs s t) as [|first|first h|first h|h|h c|h c m|r|r] eqn:Ep; cbn [pc_in] in Pt.
  - apply Client; auto.
  - injection H as H; subst s'. apply Simple; cbn; auto; try discriminate.
    split; [assumption | now apply hand_extent_lt].
  - injection H as H; subst s'. unfold al_goto. destruct Pt.
    destruct (N.eqb (al_refs s h) 0).
    + apply Simple; cbn; auto; discriminate.
    + apply Simple; [now apply after_probe_in | rewrite after_probe_got; discriminate | | ];
        unfold al_after_probe; destruct (Nat.eqb _ _); reflexivity.
  - destruct Pt as [Pf Ph]. destruct (N.eqb_spec (al_refs s h) 0) as [E|E].
    + injection H as H; subst s'.
      constructor; cbn [al_refs al_hand al_curr al_pcs al_hist].
      * intro x. destruct (Nat.eq_dec x h) as [->|]; [rewrite upd_same; lia | rewrite upd_other by assumption; apply I1].
      * intro x. rewrite balance_snoc. cbn [ev_delta].
        destruct (Nat.eq_dec x h) as [->|Hx].
        -- rewrite upd_same, Nat.eqb_refl, <- I2, E. reflexivity.
        -- rewrite upd_other by assumption. destruct (Nat.eqb_spec h x); [congruence|]. rewrite <- I2. lia.
      * apply hist_snoc; [exact I3|]. cbn. rewrite <- I2, E. reflexivity.
      * apply Forall_app. split; [assumption|]. constructor; [exact Ph | constructor].
      * specialize (P (ACount h)). specialize (Q (ACount h)). specialize (R h 2%N Ph).
        assert (nonzero (al_refs s) h = false) by (unfold nonzero; rewrite E; reflexivity).
        rewrite H in R. cbn in P, Q, R. lia.
      * intro u. destruct (Nat.eq_dec u t) as [->|]; [rewrite upd_same; exact Ph | rewrite upd_other by assumption; apply I6].
      * intros u x. rewrite last_alloc_snoc.
        destruct (Nat.eq_dec u t) as [->|]; [rewrite upd_same, Nat.eqb_refl; cbn; congruence | rewrite upd_other by assumption].
        destruct (Nat.eqb_spec t u); [congruence | apply I7].
    + injection H as H; subst s'. unfold al_goto.
      apply Simple; [now apply after_probe_in | rewrite after_probe_got; discriminate | | ];
        unfold al_after_probe; destruct (Nat.eqb _ _); reflexivity.
  - injection H as H; subst s'. constructor; cbn [al_refs al_hand al_curr al_pcs al_hist]; try assumption.
    + specialize (P (AMax h (al_curr s + 1))). specialize (Q (AMax h (al_curr s + 1))). cbn in P, Q. lia.
    + intro u. destruct (Nat.eq_dec u t) as [->|]; [rewrite upd_same; exact Pt | rewrite upd_other by assumption; apply I6].
    + intros u x. destruct (Nat.eq_dec u t) as [->|]; [rewrite upd_same; cbn; intros; apply I7; rewrite Ep; assumption | rewrite upd_other by assumption; apply I7].
  - injection H as H; subst s'. unfold al_goto. destruct (al_max s <? c)%Z; apply Simple; cbn; auto.
  - injection H as H; subst s'. apply Simple; cbn; auto.
  - apply Client; eauto.
  - injection H as H; subst s'. constructor; cbn [al_refs al_hand al_curr al_pcs al_hist]; try assumption.
    + specialize (P AIdle). specialize (Q AIdle). cbn in P, Q. lia.
    + intro u. destruct (Nat.eq_dec u t) as [->|]; [rewrite upd_same; exact I | rewrite upd_other by assumption; apply I6].
    + intros u x. destruct (Nat.eq_dec u t) as [->|]; [rewrite upd_same; discriminate | rewrite upd_other by assumption; apply I7].
Qed.

Definition asched_ok (n T : nat) (sched : list (nat * al_req)) : Prop :=
  Forall (fun p => fst p < T /\ req_ok n (snd p)) sched.

Lemma al_run_inv : forall n T disk sched s s', 0 < n -> asched_ok n T sched -> al_inv n T disk s ->
  al_run n s sched = ANext s' -> al_inv n T disk s'.
Proof.
  intros n T disk sched. induction sched as [|[t q] rest IH]; intros s s' Hn Hs I H; cbn in H.
  - now injection H as <-.
  - inversion Hs as [|x y [Ha Hb] Hc]; subst. destruct (al_step n s t q) as [|s1] eqn:E; [discriminate|].
    eapply IH; [assumption | assumption | | eassumption]. eapply al_step_inv; eauto.
Qed.

(** ** A single allocation without interference *)

Definition same_refs_but (s s' : al) (e : nat) : Prop :=
  forall x, x <> e -> al_refs s' x = al_refs s x.

Lemma hand_extent_eq : forall n h, 0 < n -> hand_extent n (N.of_nat h) = h mod n.
Proof.
  intros n h Hn. unfold hand_extent. rewrite <- Nat2N.inj_mod. apply Nat2N.id.
Qed.

(** After the winning compare-and-swap. *)
Lemma solo_finish : forall n s t h fuel, al_pcs s t = ACount h -> 4 <= fuel ->
  exists s', al_solo n s t fuel = Some (Some h, s') /\ al_refs s' = al_refs s
             /\ al_hand s' = al_hand s /\ al_pcs s' t = AIdle
             /\ (forall u, u <> t -> al_pcs s' u = al_pcs s u).
Proof.
  intros n s t h fuel Hp Hf.
  destruct fuel as [|[|[|[|f]]]]; try lia.
  cbn [al_solo]. unfold al_step at 1. rewrite Hp. cbn [al_pcs]. rewrite upd_same.
  unfold al_step at 1. cbn [al_pcs al_max]. rewrite upd_same. unfold al_goto at 1. cbn [al_pcs]. rewrite upd_same.
  destruct (al_max s <? al_curr s + 1)%Z eqn:Em.
  - unfold al_step at 1. cbn [al_pcs al_goto al_max al_refs al_hand al_curr al_hist]. rewrite upd_same. cbn [al_pcs]. rewrite upd_same.
    unfold al_step at 1. cbn [al_pcs al_goto al_max al_refs al_hand al_curr al_hist]. rewrite upd_same. cbn [al_pcs].
    rewrite Z.eqb_refl, Z.ltb_irrefl. cbn [al_goto al_pcs al_max]. rewrite ?Z.ltb_irrefl, ?upd_same.
    eexists. split; [reflexivity|]. cbn. repeat split.
    + now rewrite upd_same. + intros u Hu. now rewrite !upd_other.
  - eexists. split; [reflexivity|]. cbn. repeat split.
    + now rewrite upd_same. + intros u Hu. now rewrite !upd_other.
Qed.

Definition solo_result (n : nat) (s : al) (t : nat) (r : option nat) (s' : al) (H0 : nat) : Prop :=
  (forall u, u <> t -> al_pcs s' u = al_pcs s u) /\ al_pcs s' t = AIdle /\
  match r with
  | None => (forall e, e < n -> al_refs s e <> 0%N) /\ al_refs s' = al_refs s
            /\ al_hand s' = N.of_nat (H0 + n)
  | Some e => exists j, j < n /\ e = (H0 + j) mod n /\ al_refs s e = 0%N
              /\ (forall i, i < j -> al_refs s ((H0 + i) mod n) <> 0%N)
              /\ al_refs s' e = 2%N /\ same_refs_but s s' e
              /\ al_hand s' = N.of_nat (H0 + j + 1)
  end.

Lemma cyclic_cover : forall n H0 e, 0 < n -> e < n -> exists j, j < n /\ e = (H0 + j) mod n.
Proof.
  intros n H0 e Hn He. destruct (le_lt_dec (H0 mod n) e).
  - exists (e - H0 mod n). split; [lia|].
    rewrite <- Nat.add_mod_idemp_l by lia. rewrite Nat.mod_small; lia.
  - exists (n - H0 mod n + e). pose proof (Nat.mod_upper_bound H0 n ltac:(lia)). split; [lia|].
    rewrite <- Nat.add_mod_idemp_l by lia.
    replace (H0 mod n + (n - H0 mod n + e)) with (e + 1 * n) by lia.
    rewrite Nat.mod_add by lia. now rewrite Nat.mod_small.
Qed.

Lemma after_probe_first : forall n H0 k, 0 < n -> k < n ->
  al_after_probe n (H0 mod n) ((H0 + k) mod n) = if Nat.eqb (S k) n then ARet None else AFetch (H0 mod n).
Proof.
  intros n H0 k Hn Hk. unfold al_after_probe.
  replace (((H0 + k) mod n + 1) mod n) with ((H0 + (k + 1)) mod n).
  2: { rewrite Nat.add_mod_idemp_l by lia. f_equal. lia. }
  destruct (Nat.eqb_spec (S k) n) as [E|E].
  - replace (H0 + (k + 1)) with (H0 + 1 * n) by lia. rewrite Nat.mod_add by lia. now rewrite Nat.eqb_refl.
  - destruct (Nat.eqb_spec ((H0 + (k + 1)) mod n) (H0 mod n)) as [E2|]; [|reflexivity].
    exfalso. pose proof (Nat.mod_upper_bound H0 n ltac:(lia)).
    rewrite <- Nat.add_mod_idemp_l in E2 by lia.
    destruct (le_lt_dec n (H0 mod n + (k + 1))).
    + replace (H0 mod n + (k + 1)) with ((H0 mod n + (k + 1) - n) + 1 * n) in E2 by lia.
      rewrite Nat.mod_add in E2 by lia. rewrite Nat.mod_small in E2 by lia. lia.
    + rewrite Nat.mod_small in E2 by lia. lia.
Qed.

Lemma solo_probe : forall m n s t H0 k fuel, 0 < n -> n - k = m -> k < n ->
  (N.of_nat (H0 + n) < 2 ^ 64)%N ->
  al_pcs s t = AFetch (H0 mod n) -> al_hand s = N.of_nat (H0 + k) ->
  (forall i, i < k -> al_refs s ((H0 + i) mod n) <> 0%N) -> 2 * m + 6 <= fuel ->
  exists r s', al_solo n s t fuel = Some (r, s') /\ solo_result n s t r s' H0.
Proof.
  induction m; intros n s t H0 k fuel Hn Hm Hk Hw Hp Hh Hb Hf; [lia|].
  destruct fuel as [|[|f]]; try lia.
  cbn [al_solo]. unfold al_step at 1. rewrite Hp. cbn [al_pcs]. rewrite upd_same.
  rewrite Hh. rewrite hand_extent_eq by assumption.
  assert (Hh' : ((N.of_nat (H0 + k) + 1) mod 2 ^ 64)%N = N.of_nat (H0 + S k)).
  { rewrite N.mod_small; lia. }
  rewrite Hh'. unfold al_step at 1. cbn [al_pcs al_refs]. rewrite upd_same.
  remember ((H0 + k) mod n) as h eqn:Eh.
  unfold al_goto at 1. cbn [al_pcs]. rewrite upd_same.
  destruct (N.eqb_spec (al_refs s h) 0) as [E|E].
  - destruct f as [|f]; [lia|]. cbn [al_solo].
    unfold al_step at 1, al_goto at 1. cbn [al_pcs al_refs al_goto]. rewrite upd_same, E. cbn [N.eqb al_pcs]. rewrite upd_same.
    match goal with |- context [al_solo n ?s1 t f] => destruct (solo_finish n s1 t h f) as (s' & X1 & X2 & X3 & X4 & X5) end.
    { cbn. now rewrite upd_same. } { lia. }
    exists (Some h), s'. split; [exact X1|]. unfold solo_result. split; [|split; [assumption|]].
    + intros u Hu. rewrite X5 by assumption. cbn. now rewrite !upd_other.
    + exists k. repeat split; try assumption.
      * rewrite X2. cbn. now rewrite upd_same.
      * intros x Hx. rewrite X2. cbn. now rewrite upd_other.
      * rewrite X3. cbn. lia.
  - rewrite Eh. rewrite after_probe_first by assumption. rewrite <- Eh.
    destruct (Nat.eqb_spec (S k) n) as [Ek|Ek].
    + eexists None, _. split; [reflexivity|]. unfold solo_result. cbn. split; [|split; [now rewrite upd_same|]].
      { intros u Hu. now rewrite !upd_other. }
      split; [|split; [reflexivity | f_equal; lia]].
      intros e He. destruct (cyclic_cover n H0 e Hn He) as (j & Hj & ->).
      destruct (Nat.eq_dec j k) as [->|]; [congruence|]. apply Hb. lia.
    + match goal with |- context [al_solo n ?s1 t _] =>
        destruct (IHm n s1 t H0 (S k) f) as (r & s' & X1 & X2) end; try lia.
      { cbn. now rewrite upd_same. } { reflexivity. }
      { cbn. intros i Hi. destruct (Nat.eq_dec i k) as [->|]; [congruence | apply Hb; lia]. }
      exists r, s'. split; [exact X1|]. unfold solo_result in *. cbn in X2.
      destruct X2 as (Y1 & Y2 & Y3). split; [|split; [assumption|exact Y3]].
      intros u Hu. rewrite Y1 by assumption. now rewrite !upd_other.
Qed.

Lemma solo_alloc : forall n s t H0, 0 < n -> al_hand s = N.of_nat H0 -> (N.of_nat (H0 + n) < 2 ^ 64)%N ->
  (al_pcs s t = AIdle \/ exists r, al_pcs s t = ARet r) ->
  exists r s', al_solo n s t (3 * n + 10) = Some (r, s') /\ solo_result n s t r s' H0.
Proof.
  intros n s t H0 Hn Hh Hw Hp.
  replace (3 * n + 10) with (S (3 * n + 9)) by lia. cbn [al_solo].
  assert (E : al_step n s t QAlloc = ANext (al_goto s t (AFetch (H0 mod n)))).
  { unfold al_step. destruct Hp as [->|[r ->]]; rewrite Hh, hand_extent_eq by assumption; reflexivity. }
  rewrite E. unfold al_goto at 1. cbn [al_pcs]. rewrite upd_same.
  destruct (solo_probe n n (al_goto s t (AFetch (H0 mod n))) t H0 0 (3 * n + 9)) as (r & s' & X1 & X2); try lia.
  { cbn. now rewrite upd_same. } { cbn. rewrite Hh. f_equal. lia. }
  exists r, s'. split; [exact X1|]. unfold solo_result in *. cbn in X2.
  destruct X2 as (Y1 & Y2 & Y3). split; [|split; [assumption|exact Y3]].
  intros u Hu. rewrite Y1 by assumption. now rewrite !upd_other.
Qed.

(** ** rc_allocator_init *)

Lemma init_loop_ok : forall k n s i, 0 < n -> (N.of_nat n < 2 ^ 63)%N -> i + k <= n ->
  al_hand s = N.of_nat i -> al_pcs s 0 = AIdle ->
  (forall e, al_refs s e = if Nat.ltb e i then 2%N else 0%N) ->
  exists s', al_init_loop n s i k = Some s'
    /\ (forall e, al_refs s' e = if Nat.ltb e (i + k) then 2%N else 0%N).
Proof.
  induction k; intros n s i Hn Hb Hi Hh Hp Hr.
  - exists s. split; [reflexivity|]. intro e. rewrite Hr. now rewrite Nat.add_0_r.
  - unfold al_init_loop; fold al_init_loop.
    destruct (solo_alloc n s 0 i) as (r & s' & X1 & X2); auto; try lia.
    rewrite X1. destruct X2 as (Y1 & Y2 & Y3). destruct r as [e|].
    + destruct Y3 as (j & Hj & He & Hz & Hprev & H2 & Hsame & Hhand).
      assert (j = 0).
      { destruct j; [reflexivity|]. exfalso. apply (Hprev 0); [lia|]. rewrite Hr.
        rewrite Nat.add_0_r, Nat.mod_small by lia. now rewrite Nat.ltb_irrefl. }
      subst j. rewrite Nat.add_0_r, Nat.mod_small in He by lia. subst e. rewrite Nat.eqb_refl.
      destruct (IHk n s' (S i)) as (s'' & Z1 & Z2); auto; try lia.
      * intro e. destruct (Nat.eq_dec e i) as [->|].
        -- rewrite H2. replace (Nat.ltb i (S i)) with true; [reflexivity | symmetry; apply Nat.ltb_lt; lia].
        -- rewrite Hsame by assumption. rewrite Hr.
           destruct (Nat.ltb_spec e i), (Nat.ltb_spec e (S i)); auto; lia.
      * exists s''. split; [exact Z1|]. intro e. rewrite Z2. now replace (S i + k) with (i + S k) by lia.
    + exfalso. destruct Y3 as (Y3 & _). apply (Y3 i); [lia|]. rewrite Hr. now rewrite Nat.ltb_irrefl.
Qed.

Lemma init_loop_fails : forall k n s i, 0 < n -> (N.of_nat n < 2 ^ 63)%N -> i <= n -> n < i + k ->
  al_hand s = N.of_nat i -> al_pcs s 0 = AIdle ->
  (forall e, al_refs s e = if Nat.ltb e i then 2%N else 0%N) ->
  al_init_loop n s i k = None.
Proof.
  induction k; intros n s i Hn Hb Hi Hk Hh Hp Hr; [lia|].
  unfold al_init_loop; fold al_init_loop.
  destruct (solo_alloc n s 0 i) as (r & s' & X1 & X2); auto; try lia.
  rewrite X1. destruct X2 as (Y1 & Y2 & Y3). destruct r as [e|]; [|reflexivity].
  destruct Y3 as (j & Hj & He & Hz & Hprev & H2 & Hsame & Hhand).
  destruct (Nat.eqb_spec e i) as [Ei|]; [|reflexivity]. subst e.
  destruct (Nat.eq_dec i n) as [->|].
  - exfalso. pose proof (Nat.mod_upper_bound (n + j) n ltac:(lia)). lia.
  - assert (j = 0).
    { destruct j; [reflexivity|]. exfalso. apply (Hprev 0); [lia|]. rewrite Hr.
      rewrite Nat.add_0_r, Nat.mod_small by lia. now rewrite Nat.ltb_irrefl. }
    subst j. apply IHk; auto; try lia.
    + intro e. destruct (Nat.eq_dec e i) as [->|].
      * rewrite <- Ei at 1. rewrite H2. replace (Nat.ltb i (S i)) with true; [reflexivity | symmetry; apply Nat.ltb_lt; lia].
      * rewrite Hsame by congruence. rewrite Hr.
        destruct (Nat.ltb_spec e i), (Nat.ltb_spec e (S i)); auto; lia.
Qed.
