(** * Memtables: writes and lookups are linearizable *)

From Coq Require Import List Arith NArith Bool Lia.
From Verif Require Import Base Spec Spec_Merge Spec_Linear DataProofs Mtable MtableInv MtableProofs MtableKeep MtableSlot MtableHist.
Import ListNotations.

(** What a thread's call is doing *)
Inductive opclass := CWrite (w : write) | CDone | CLook (k : bytes) (n0 : nat) | CNone.
Definition cls (p : pc) : opclass :=
  match p with
  | I0 w | I1 w | I2 w _ | I3 w _ | I4 w _ | I5 w _ | I6 w _ | I7 w _ | I8 w _ | I9 w _ | I10 w _ => CWrite w
  | I11 => CDone
  | L1 k n0 | L2 k n0 _ | L3 k n0 _ _ | L4 k n0 _ _ | L5 k n0 _ _ _ | L6 k n0 _ | LDone k n0 _ => CLook k n0
  | _ => CNone
  end.

Section Lin.
Variable cfg : data_config.
Variable N : nat.
Hypothesis HN : 2 <= N.
Notation step := (step cfg N).

Lemma step_class : forall st t c st', step st t c = Next st' ->
  (forall u, u <> t -> g_pc st' u = g_pc st u) /\
  ((exists w, g_pc st t = Idle /\ c = Begin_insert w /\ cls (g_pc st' t) = CWrite w /\ g_hist st' = g_hist st) \/
   (exists k, g_pc st t = Idle /\ c = Begin_lookup k /\ cls (g_pc st' t) = CLook k (length (g_hist st)) /\ g_hist st' = g_hist st) \/
   (g_pc st t = I11 /\ cls (g_pc st' t) = CNone /\ g_hist st' = g_hist st) \/
   (exists k n0 v, g_pc st t = LDone k n0 v /\ cls (g_pc st' t) = CNone /\ g_hist st' = g_hist st) \/
   (exists w g, g_pc st t = I9 w g /\ cls (g_pc st' t) = CDone /\ g_hist st' = g_hist st ++ [w]) \/
   ((forall o, o_st o = st -> shown o t c = []) /\ g_hist st' = g_hist st /\ cls (g_pc st' t) = cls (g_pc st t))).
Proof.
  intros st t c st' H. split.
  { intros u D. apply step_R in H. apply (pc_other _ _ _ _ _ H). auto. }
  unfold Mtable.step in H. destruct (g_pc st t) eqn:P;
    repeat match type of H with
    | (match c with Begin_insert _ => _ | Begin_lookup _ => _ | Begin_iterator => _ | Take_task _ => _ | Go _ => _ end) = _ => destruct c eqn:?
    | (if ?x then _ else _) = _ => destruct x eqn:?
    | transition _ _ _ _ _ _ _ = _ => unfold transition in H
    | dec_ref _ _ _ _ _ _ = _ => unfold dec_ref in H
    | (let _ := _ in _) = _ => cbv zeta in H
    | match ?x with _ => _ end = _ => destruct x eqn:?
    end; try discriminate H; injection H as <-;
    try match goal with |- context [resume _ ?x _] => destruct x end;
    unfold resume; cbn; rewrite ?upd_eq; cbn;
    try (right; right; right; right; right; split; [intros o <-; unfold shown; rewrite P; reflexivity|split; [reflexivity|reflexivity]]).
  - left. eauto 10.
  - right. left. eauto 10.
  - do 4 right. left. eauto 10.
  - do 2 right. left. auto.
  - do 5 right. split; [intros o <-; unfold shown; rewrite P; reflexivity|]. split; [|reflexivity]. destruct (_ && _); reflexivity.
  - do 3 right. left. eauto 10.
Qed.

(** ** The relation between the history and the state *)
Record lin (o : obs) (ids : list nat) (pt : nat -> nat) : Prop := {
  k_lin : linearization cfg (o_evs o) ids pt;
  k_writes : writes_of (o_evs o) ids = g_hist (o_st o);
  k_len : length ids = length (g_hist (o_st o));
  k_open : forall t, cls (g_pc (o_st o) t) <> CNone ->
     o_open o t < length (o_evs o) /\
     (forall r, nth_error (o_evs o) r <> Some (Write_return (o_open o t))) /\
     (forall r v, nth_error (o_evs o) r <> Some (Lookup_return (o_open o t) v));
  k_inj : forall t u, cls (g_pc (o_st o) t) <> CNone -> cls (g_pc (o_st o) u) <> CNone -> o_open o t = o_open o u -> t = u;
  k_write : forall t w, cls (g_pc (o_st o) t) = CWrite w ->
     nth_error (o_evs o) (o_open o t) = Some (Write_call (fst w) (snd w)) /\ ~ In (o_open o t) ids;
  k_done : forall t, cls (g_pc (o_st o) t) = CDone -> In (o_open o t) ids;
  k_look : forall t k n0, cls (g_pc (o_st o) t) = CLook k n0 ->
     nth_error (o_evs o) (o_open o t) = Some (Lookup_call k) /\ n0 <= length ids /\
     (forall r i, nth_error (o_evs o) r = Some (Write_return i) -> r < o_open o t -> In i (firstn n0 ids)) /\
     (forall r i v, nth_error (o_evs o) r = Some (Lookup_return i v) -> r < o_open o t -> pt i <= n0)
}.

Lemma nth_snoc : forall {A} (l : list A) x i y, nth_error (l ++ [x]) i = Some y -> nth_error l i = Some y \/ (i = length l /\ x = y).
Proof.
  intros A l x i y H. destruct (Nat.lt_ge_cases i (length l)) as [L|L].
  - rewrite nth_error_app1 in H by auto. auto.
  - rewrite nth_error_app2 in H by auto. destruct (i - length l) as [|n] eqn:E; cbn in H.
    + injection H as ->. right. split; auto. lia.
    + destruct n; discriminate.
Qed.
Lemma nth_keep : forall {A} (l l' : list A) i y, nth_error l i = Some y -> nth_error (l ++ l') i = Some y.
Proof. intros. rewrite nth_error_app1; auto. apply nth_error_Some. congruence. Qed.
Lemma writes_keep : forall evs x ids, (forall i, In i ids -> i < length evs) -> writes_of (evs ++ x) ids = writes_of evs ids.
Proof.
  intros evs x ids. induction ids as [|i r IH]; intros H; cbn; auto.
  rewrite nth_error_app1 by (apply H; left; auto). rewrite IH by (intros; apply H; right; auto). reflexivity.
Qed.
Lemma writes_firstn : forall evs ids n, (forall i, In i ids -> exists k m, nth_error evs i = Some (Write_call k m)) ->
  writes_of evs (firstn n ids) = firstn n (writes_of evs ids).
Proof.
  intros evs ids. induction ids as [|i r IH]; intros n H; [rewrite !firstn_nil; reflexivity|].
  destruct n as [|n]; [reflexivity|]. cbn [firstn writes_of]. destruct (H i (or_introl eq_refl)) as [k [m E]]. rewrite E.
  cbn. f_equal. apply IH. intros. apply H. right. auto.
Qed.
Lemma in_firstn : forall {A} n (l : list A) x, In x (firstn n l) -> In x l.
Proof. intros. rewrite <- (firstn_skipn n l). apply in_or_app. auto. Qed.
Lemma firstn_keep : forall {A} n (l l' : list A), n <= length l -> firstn n (l ++ l') = firstn n l.
Proof. intros. rewrite firstn_app. replace (n - length l) with 0 by lia. cbn. apply app_nil_r. Qed.

Lemma ids_lt : forall evs ids pt i, linearization cfg evs ids pt -> In i ids -> i < length evs.
Proof. intros evs ids pt i L H. destruct (lin_write _ _ _ _ L i H) as [k [m E]]. apply nth_error_Some. congruence. Qed.

(** *** The history grows *)
(** A call *)
Lemma lin_call : forall evs ids pt x, linearization cfg evs ids pt ->
  (forall i, x <> Write_return i) -> (forall i v, x <> Lookup_return i v) -> linearization cfg (evs ++ [x]) ids pt.
Proof.
  intros evs ids pt x L X Y. pose proof (ids_lt evs ids pt) as IL.
  assert (forall r i, nth_error (evs ++ [x]) r = Some (Write_return i) -> nth_error evs r = Some (Write_return i)) as A
    by (intros r i H; apply nth_snoc in H; destruct H as [H|[_ H]]; [auto|destruct (X i); auto]).
  assert (forall r i v, nth_error (evs ++ [x]) r = Some (Lookup_return i v) -> nth_error evs r = Some (Lookup_return i v)) as B
    by (intros r i v H; apply nth_snoc in H; destruct H as [H|[_ H]]; [auto|destruct (Y i v); auto]).
  constructor.
  - apply (lin_nodup _ _ _ _ L).
  - intros i H. destruct (lin_write _ _ _ _ L i H) as [k [m E]]. exists k, m. apply nth_keep. auto.
  - intros r i H. apply (lin_returned _ _ _ _ L r i). auto.
  - intros r i j H. apply (lin_ww _ _ _ _ L r). auto.
  - intros r i v H. destruct (lin_value _ _ _ _ L r i v (B _ _ _ H)) as [E1 [k [E2 E3]]]. split; auto. exists k. split; [apply nth_keep; auto|].
    rewrite writes_keep; auto. intros j Hj. apply (IL j L). apply in_firstn in Hj. auto.
  - intros r i r' j v H1 H2 H3. apply (lin_wl _ _ _ _ L r i r' j v); auto.
  - intros r i v j H1. apply (lin_lw _ _ _ _ L r i v j); auto.
  - intros r i v r' j v' H1 H2 H3. apply (lin_ll _ _ _ _ L r i v r' j v'); auto.
  - intros r i v H1. apply (lin_pt _ _ _ _ L r i v); auto.
  - intros r r' i H1 H2. apply (lin_once _ _ _ _ L r r' i).
    + destruct H1 as [H1|[v H1]]; [left|right; exists v]; auto.
    + destruct H2 as [H2|[v H2]]; [left|right; exists v]; auto.
Qed.

(** A write takes effect. *)
Lemma lin_effect : forall evs ids pt i k m, linearization cfg evs ids pt -> nth_error evs i = Some (Write_call k m) -> ~ In i ids ->
  linearization cfg evs (ids ++ [i]) pt.
Proof.
  intros evs ids pt i k m L C Z. pose proof (ids_lt evs ids pt) as IL.
  assert (forall r j v, nth_error evs r = Some (Lookup_return j v) -> firstn (pt j) (ids ++ [i]) = firstn (pt j) ids) as FK
    by (intros r j v H; apply firstn_keep; apply (lin_pt _ _ _ _ L r j v H)).
  constructor.
  - apply NoDup_app_snoc; auto. apply (lin_nodup _ _ _ _ L).
  - intros j H. apply in_app_or in H. destruct H as [H|[<-|[]]]; [apply (lin_write _ _ _ _ L j H)|eauto].
  - intros r j H. destruct (lin_returned _ _ _ _ L r j H). split; auto. apply in_or_app. auto.
  - intros r j j' H1 H2 H3. apply in_app_or in H3. destruct H3 as [H3|[<-|[]]].
    + destruct (lin_ww _ _ _ _ L r j j' H1 H2 H3) as [a [b [c ->]]]. exists a, b, (c ++ [i]). rewrite <- !app_assoc. cbn. rewrite <- !app_assoc. reflexivity.
    + destruct (lin_returned _ _ _ _ L r j H1) as [_ H4]. apply in_split in H4. destruct H4 as [a [b ->]].
      exists a, b, []. rewrite <- app_assoc. reflexivity.
  - intros r j v H. rewrite (FK r j v H). apply (lin_value _ _ _ _ L r j v H).
  - intros r j r' j' v H1 H2 H3. rewrite (FK r' j' v H3). apply (lin_wl _ _ _ _ L r j r' j' v); auto.
  - intros r j v j' H1. rewrite (FK r j v H1). apply (lin_lw _ _ _ _ L r j v j'); auto.
  - apply (lin_ll _ _ _ _ L).
  - intros r j v H. rewrite app_length. pose proof (lin_pt _ _ _ _ L r j v H). lia.
  - apply (lin_once _ _ _ _ L).
Qed.

(** A write returns. *)
Lemma lin_write_return : forall evs ids pt i, linearization cfg evs ids pt -> In i ids ->
  (forall r, nth_error evs r <> Some (Write_return i)) -> (forall r v, nth_error evs r <> Some (Lookup_return i v)) ->
  linearization cfg (evs ++ [Write_return i]) ids pt.
Proof.
  intros evs ids pt i L Hi N1 N2. pose proof (ids_lt evs ids pt) as IL.
  assert (forall r j v, nth_error (evs ++ [Write_return i]) r = Some (Lookup_return j v) -> nth_error evs r = Some (Lookup_return j v)) as B
    by (intros r j v H; apply nth_snoc in H; destruct H as [H|[_ H]]; [auto|discriminate]).
  assert (forall r j, nth_error (evs ++ [Write_return i]) r = Some (Write_return j) ->
            nth_error evs r = Some (Write_return j) \/ (r = length evs /\ j = i)) as A
    by (intros r j H; apply nth_snoc in H; destruct H as [H|[H1 H]]; [auto|injection H as <-; auto]).
  constructor.
  - apply (lin_nodup _ _ _ _ L).
  - intros j H. destruct (lin_write _ _ _ _ L j H) as [k [m E]]. exists k, m. apply nth_keep. auto.
  - intros r j H. destruct (A r j H) as [H'|[-> ->]]; [apply (lin_returned _ _ _ _ L r j); auto|]. split; auto.
  - intros r j j' H H1 H2. destruct (A r j H) as [H'|[-> ->]]; [apply (lin_ww _ _ _ _ L r); auto|]. apply (IL j' L) in H2. lia.
  - intros r j v H. destruct (lin_value _ _ _ _ L r j v (B _ _ _ H)) as [E1 [k [E2 E3]]]. split; auto. exists k. split; [apply nth_keep; auto|].
    rewrite writes_keep; auto. intros j' Hj. apply (IL j' L). apply in_firstn in Hj. auto.
  - intros r j r' j' v H1 H2 H3. destruct (A r j H1) as [H'|[-> ->]]; [apply (lin_wl _ _ _ _ L r j r' j' v); auto|].
    destruct (lin_value _ _ _ _ L r' j' v (B _ _ _ H3)) as [E _]. exfalso. assert (r' < length evs) by (apply nth_error_Some; rewrite (B _ _ _ H3); discriminate). lia.
  - intros r j v j' H1. apply (lin_lw _ _ _ _ L r j v j'); auto.
  - intros r j v r' j' v' H1 H2 H3. apply (lin_ll _ _ _ _ L r j v r' j' v'); auto.
  - intros r j v H1. apply (lin_pt _ _ _ _ L r j v); auto.
  - intros r r' j H1 H2.
    assert (forall q, (nth_error (evs ++ [Write_return i]) q = Some (Write_return j) \/ exists v, nth_error (evs ++ [Write_return i]) q = Some (Lookup_return j v)) ->
      (nth_error evs q = Some (Write_return j) \/ exists v, nth_error evs q = Some (Lookup_return j v)) \/ (q = length evs /\ j = i)) as Q.
    { intros q [H|[v H]]; [destruct (A q j H); auto|]. left. right. exists v. auto. }
    apply Q in H1. apply Q in H2. destruct H1 as [H1|[-> ->]].
    + destruct H2 as [H2|[-> ->]]; [apply (lin_once _ _ _ _ L r r' j); auto|].
      exfalso. destruct H1 as [H1|[v H1]]; [apply (N1 r)|apply (N2 r v)]; auto.
    + destruct H2 as [H2|[-> _]]; auto. exfalso. destruct H2 as [H2|[v H2]]; [apply (N1 r')|apply (N2 r' v)]; auto.
Qed.

(** A lookup returns. *)
Lemma lin_lookup_return : forall evs ids pt i k n v, linearization cfg evs ids pt ->
  nth_error evs i = Some (Lookup_call k) ->
  (forall r, nth_error evs r <> Some (Write_return i)) -> (forall r w, nth_error evs r <> Some (Lookup_return i w)) ->
  n <= length ids ->
  v = replay cfg k (source_messages k (writes_of evs (firstn n ids))) None ->
  (forall r j, nth_error evs r = Some (Write_return j) -> r < i -> In j (firstn n ids)) ->
  (forall r j w, nth_error evs r = Some (Lookup_return j w) -> r < i -> pt j <= n) ->
  linearization cfg (evs ++ [Lookup_return i v]) ids (upd pt i n).
Proof.
  intros evs ids pt i k n v L Hi N1 N2 Hn Hv HW HL. pose proof (ids_lt evs ids pt) as IL.
  assert (i < length evs) as Il by (apply nth_error_Some; congruence).
  assert (forall r j w, nth_error (evs ++ [Lookup_return i v]) r = Some (Lookup_return j w) ->
     (nth_error evs r = Some (Lookup_return j w) /\ upd pt i n j = pt j /\ j <> i) \/ (r = length evs /\ j = i /\ w = v /\ upd pt i n j = n)) as B.
  { intros r j w H. apply nth_snoc in H. destruct H as [H|[H1 H]].
    - left. assert (j <> i) by (intros ->; eapply N2; eauto). rewrite upd_neq by auto. auto.
    - right. injection H as <- <-. rewrite upd_eq. auto. }
  assert (forall r j, nth_error (evs ++ [Lookup_return i v]) r = Some (Write_return j) -> nth_error evs r = Some (Write_return j)) as A
    by (intros r j H; apply nth_snoc in H; destruct H as [H|[_ H]]; [auto|discriminate]).
  constructor.
  - apply (lin_nodup _ _ _ _ L).
  - intros j H. destruct (lin_write _ _ _ _ L j H) as [k' [m E]]. exists k', m. apply nth_keep. auto.
  - intros r j H. apply (lin_returned _ _ _ _ L r j). auto.
  - intros r j j' H. apply (lin_ww _ _ _ _ L r). auto.
  - intros r j w H. destruct (B r j w H) as [[H' [U _]]|[-> [-> [-> U]]]]; rewrite U.
    + destruct (lin_value _ _ _ _ L r j w H') as [E1 [k' [E2 E3]]]. split; auto. exists k'. split; [apply nth_keep; auto|].
      rewrite writes_keep; auto. intros j' Hj. apply (IL j' L). apply in_firstn in Hj. auto.
    + split; auto. exists k. split; [apply nth_keep; auto|].
      rewrite writes_keep; auto. intros j' Hj. apply (IL j' L). apply in_firstn in Hj. auto.
  - intros r j r' j' w H1 H2 H3. apply A in H1. destruct (B r' j' w H3) as [[H' [U _]]|[-> [-> [-> U]]]]; rewrite U.
    + apply (lin_wl _ _ _ _ L r j r' j' w); auto.
    + apply (HW r); auto.
  - intros r j w j' H1. destruct (B r j w H1) as [[H' [U _]]|[-> [-> [-> U]]]]; rewrite U.
    + apply (lin_lw _ _ _ _ L r j w j'); auto.
    + intros H. apply in_firstn in H. apply (IL j' L H).
  - intros r j w r' j' w' H1 H2 H3.
    destruct (B r' j' w' H3) as [[H' [U' D']]|[-> [-> [-> U']]]]; destruct (B r j w H1) as [[H [U D]]|[-> [-> [-> U]]]]; rewrite ?U, ?U'.
    + apply (lin_ll _ _ _ _ L r j w r' j' w'); auto.
    + destruct (lin_value _ _ _ _ L r' j' w' H') as [E _].
      exfalso. assert (r' < length evs) by (apply nth_error_Some; rewrite H'; discriminate). lia.
    + apply (HL r j w); auto.
    + lia.
  - intros r j w H1. destruct (B r j w H1) as [[H' [U _]]|[-> [-> [-> U]]]]; rewrite U; auto. apply (lin_pt _ _ _ _ L r j w); auto.
  - intros r r' j H1 H2.
    assert (forall q, (nth_error (evs ++ [Lookup_return i v]) q = Some (Write_return j) \/ exists w, nth_error (evs ++ [Lookup_return i v]) q = Some (Lookup_return j w)) ->
      (nth_error evs q = Some (Write_return j) \/ exists w, nth_error evs q = Some (Lookup_return j w)) \/ (q = length evs /\ j = i)) as Q.
    { intros q [H|[w H]]; [left; left; auto|]. destruct (B q j w H) as [[H' _]|[-> [-> _]]]; auto. left. right. eauto. }
    apply Q in H1. apply Q in H2. destruct H1 as [H1|[-> ->]].
    + destruct H2 as [H2|[-> ->]]; [apply (lin_once _ _ _ _ L r r' j); auto|].
      exfalso. destruct H1 as [H1|[w H1]]; [apply (N1 r)|apply (N2 r w)]; auto.
    + destruct H2 as [H2|[-> _]]; auto. exfalso. destruct H2 as [H2|[w H2]]; [apply (N1 r')|apply (N2 r' w)]; auto.
Qed.

Lemma lin_init : forall op pt, lin (Obs init [] op) [] pt.
Proof.
  intros op pt. constructor; cbn; auto; try congruence; try tauto.
  constructor; cbn; try tauto; try constructor; intros; repeat match goal with H : nth_error [] ?r = _ |- _ => destruct r; discriminate H end;
    match goal with H : _ \/ _ |- _ => destruct H as [H|[? H]]; destruct r; discriminate H end.
Qed.

Lemma upd_same : forall {A} (f : nat -> A) i x j, upd f i x j = if j =? i then x else f j.
Proof. reflexivity. Qed.

Lemma lin_step : forall o t c o' ids pt, inv cfg N (o_st o) -> lin o ids pt -> observe cfg N o t c = Some o' -> exists ids' pt', lin o' ids' pt'.
Proof.
  intros [st evs op] t c o' ids pt I L H. unfold observe in H. cbn [o_st o_evs o_open] in *.
  destruct (step st t c) as [st'| |] eqn:S; try discriminate H. injection H as <-.
  destruct L as [KL KW Kn KO KI KWr KD KK]. cbn [o_st o_evs o_open] in *.
  pose proof (fun i => ids_lt evs ids pt i KL) as IL.
  destruct (step_class st t c st' S) as [Oth C].
  assert (forall u, u <> t -> cls (g_pc st' u) = cls (g_pc st u)) as Ocl by (intros u D; rewrite Oth; auto).
  assert (forall (x : event) r y, nth_error (evs ++ [x]) r = Some y -> y <> x -> nth_error evs r = Some y) as NS
    by (intros x r y H D; apply nth_snoc in H; destruct H as [H|[_ H]]; congruence).
  destruct C as [[[k m] [P [-> [E Hh]]]]|[[k [P [-> [E Hh]]]]|[[P [E Hh]]|[[k [n0 [v [P [E Hh]]]]]|[[w [g [P [E Hh]]]]|[Sh [Hh E]]]]]]].
  - (* an insert is called *)
    exists ids, pt. unfold shown. cbn [o_st o_evs o_open]. rewrite P.
    assert (forall u, cls (g_pc st u) <> CNone -> u <> t) as Dt by (intros u Hu ->; rewrite P in Hu; apply Hu; reflexivity).
    constructor; cbn [o_st o_evs o_open].
    + apply lin_call; [auto|discriminate|discriminate].
    + rewrite writes_keep by auto. rewrite Hh. auto.
    + rewrite Hh. auto.
    + intros u Hu. rewrite app_length. cbn. rewrite upd_same. destruct (Nat.eqb_spec u t) as [->|D].
      * split; [lia|]. split.
        -- intros r Hr. apply NS in Hr; [|discriminate]. destruct (lin_returned _ _ _ _ KL r _ Hr) as [_ Q]. apply IL in Q. lia.
        -- intros r v Hr. apply NS in Hr; [|discriminate]. destruct (lin_value _ _ _ _ KL r _ v Hr) as [Q _].
           assert (r < length evs) by (apply nth_error_Some; congruence). lia.
      * rewrite Ocl in Hu by auto. destruct (KO u Hu) as [Q1 [Q2 Q3]]. split; [lia|]. split.
        -- intros r Hr. apply NS in Hr; [|discriminate]. apply (Q2 r Hr).
        -- intros r v Hr. apply NS in Hr; [|discriminate]. apply (Q3 r v Hr).
    + intros u u' Hu Hu'. rewrite !upd_same. destruct (Nat.eqb_spec u t) as [->|D]; destruct (Nat.eqb_spec u' t) as [->|D']; auto.
      * rewrite Ocl in Hu' by auto. destruct (KO u' Hu'). lia.
      * rewrite Ocl in Hu by auto. destruct (KO u Hu). lia.
      * rewrite Ocl in Hu, Hu' by auto. apply KI; auto.
    + intros u w Hu. rewrite upd_same. destruct (Nat.eqb_spec u t) as [->|D].
      * rewrite E in Hu. injection Hu as <-. split; [|intros Q; apply IL in Q; lia].
        rewrite nth_error_app2 by lia. rewrite Nat.sub_diag. reflexivity.
      * rewrite Ocl in Hu by auto. destruct (KWr u w Hu). split; auto. apply nth_keep. auto.
    + intros u Hu. rewrite upd_same. destruct (Nat.eqb_spec u t) as [->|D]; [congruence|]. rewrite Ocl in Hu by auto. apply KD; auto.
    + intros u k' n0 Hu. rewrite upd_same. destruct (Nat.eqb_spec u t) as [->|D]; [congruence|]. rewrite Ocl in Hu by auto.
      destruct (KK u k' n0 Hu) as [Q1 [Q2 [Q3 Q4]]]. split; [apply nth_keep; auto|]. split; auto. split.
      * intros r i Hr. apply NS in Hr; [|discriminate]. apply (Q3 r i Hr).
      * intros r i v Hr. apply NS in Hr; [|discriminate]. apply (Q4 r i v Hr).
  - (* a lookup is called *)
    exists ids, pt. unfold shown. cbn [o_st o_evs o_open]. rewrite P.
    constructor; cbn [o_st o_evs o_open].
    + apply lin_call; [auto|discriminate|discriminate].
    + rewrite writes_keep by auto. rewrite Hh. auto.
    + rewrite Hh. auto.
    + intros u Hu. rewrite app_length. cbn. rewrite upd_same. destruct (Nat.eqb_spec u t) as [->|D].
      * split; [lia|]. split.
        -- intros r Hr. apply NS in Hr; [|discriminate]. destruct (lin_returned _ _ _ _ KL r _ Hr) as [_ Q]. apply IL in Q. lia.
        -- intros r v Hr. apply NS in Hr; [|discriminate]. destruct (lin_value _ _ _ _ KL r _ v Hr) as [Q _].
           assert (r < length evs) by (apply nth_error_Some; congruence). lia.
      * rewrite Ocl in Hu by auto. destruct (KO u Hu) as [Q1 [Q2 Q3]]. split; [lia|]. split.
        -- intros r Hr. apply NS in Hr; [|discriminate]. apply (Q2 r Hr).
        -- intros r v Hr. apply NS in Hr; [|discriminate]. apply (Q3 r v Hr).
    + intros u u' Hu Hu'. rewrite !upd_same. destruct (Nat.eqb_spec u t) as [->|D]; destruct (Nat.eqb_spec u' t) as [->|D']; auto.
      * rewrite Ocl in Hu' by auto. destruct (KO u' Hu'). lia.
      * rewrite Ocl in Hu by auto. destruct (KO u Hu). lia.
      * rewrite Ocl in Hu, Hu' by auto. apply KI; auto.
    + intros u w Hu. rewrite upd_same. destruct (Nat.eqb_spec u t) as [->|D]; [congruence|].
      rewrite Ocl in Hu by auto. destruct (KWr u w Hu). split; auto. apply nth_keep. auto.
    + intros u Hu. rewrite upd_same. destruct (Nat.eqb_spec u t) as [->|D]; [congruence|]. rewrite Ocl in Hu by auto. apply KD; auto.
    + intros u k' n0 Hu. rewrite upd_same. destruct (Nat.eqb_spec u t) as [->|D].
      * rewrite E in Hu. injection Hu as <- <-. split; [rewrite nth_error_app2 by lia; rewrite Nat.sub_diag; reflexivity|].
        split; [lia|]. rewrite <- Kn. rewrite firstn_all. split.
        -- intros r i Hr _. apply NS in Hr; [|discriminate]. apply (lin_returned _ _ _ _ KL r i Hr).
        -- intros r i v Hr _. apply NS in Hr; [|discriminate]. apply (lin_pt _ _ _ _ KL r i v Hr).
      * rewrite Ocl in Hu by auto.
        destruct (KK u k' n0 Hu) as [Q1 [Q2 [Q3 Q4]]]. split; [apply nth_keep; auto|]. split; auto. split.
        -- intros r i Hr. apply NS in Hr; [|discriminate]. apply (Q3 r i Hr).
        -- intros r i v Hr. apply NS in Hr; [|discriminate]. apply (Q4 r i v Hr).
  - (* an insert returns *)
    exists ids, pt. unfold shown. cbn [o_st o_evs o_open]. rewrite P.
    assert (cls (g_pc st t) = CDone) as Ct by (rewrite P; reflexivity).
    assert (cls (g_pc st t) <> CNone) as Cn by congruence. destruct (KO t Cn) as [T1 [T2 T3]].
    assert (forall u, cls (g_pc st' u) <> CNone -> u <> t) as Dt by (intros u Hu ->; congruence).
    constructor; cbn [o_st o_evs o_open].
    + apply lin_write_return; auto.
    + rewrite writes_keep by auto. rewrite Hh. auto.
    + rewrite Hh. auto.
    + intros u Hu. pose proof (Dt u Hu) as D. rewrite Ocl in Hu by auto. destruct (KO u Hu) as [Q1 [Q2 Q3]].
      rewrite app_length. cbn. split; [lia|]. split.
      * intros r Hr. apply nth_snoc in Hr. destruct Hr as [Hr|[_ Hr]]; [apply (Q2 r Hr)|]. injection Hr as Hr. apply D. apply KI; auto.
      * intros r v Hr. apply NS in Hr; [|discriminate]. apply (Q3 r v Hr).
    + intros u u' Hu Hu'. pose proof (Dt u Hu). pose proof (Dt u' Hu'). rewrite Ocl in Hu, Hu' by auto. apply KI; auto.
    + intros u w Hu. assert (u <> t) by (apply Dt; congruence). rewrite Ocl in Hu by auto. destruct (KWr u w Hu). split; auto. apply nth_keep. auto.
    + intros u Hu. assert (u <> t) by (apply Dt; congruence). rewrite Ocl in Hu by auto. apply KD; auto.
    + intros u k' n0 Hu. assert (u <> t) by (apply Dt; congruence). rewrite Ocl in Hu by auto.
      destruct (KK u k' n0 Hu) as [Q1 [Q2 [Q3 Q4]]]. split; [apply nth_keep; auto|]. split; auto. split.
      * intros r i Hr Lr. apply nth_snoc in Hr. destruct Hr as [Hr|[-> Hr]]; [apply (Q3 r i Hr Lr)|].
        assert (op u < length evs) by (apply KO; congruence). lia.
      * intros r i v Hr. apply NS in Hr; [|discriminate]. apply (Q4 r i v Hr).
  - (* a lookup returns *)
    pose proof (v_look _ _ _ I t) as V. rewrite P in V. destruct V as [H [tail [V1 [V2 V3]]]].
    exists ids, (upd pt (op t) (length H)). unfold shown. cbn [o_st o_evs o_open]. rewrite P.
    assert (cls (g_pc st t) = CLook k n0) as Ct by (rewrite P; reflexivity).
    assert (cls (g_pc st t) <> CNone) as Cn by congruence. destruct (KO t Cn) as [T1 [T2 T3]].
    destruct (KK t k n0 Ct) as [U1 [U2 [U3 U4]]].
    assert (length H <= length ids) as Hl by (rewrite Kn, V1, app_length; lia).
    assert (forall u, cls (g_pc st' u) <> CNone -> u <> t) as Dt by (intros u Hu ->; congruence).
    assert (forall r i w, nth_error evs r = Some (Lookup_return i w) -> i <> op t) as Di by (intros r i w Hr ->; apply (T3 r w Hr)).
    constructor; cbn [o_st o_evs o_open].
    + apply lin_lookup_return with (k := k); auto.
      * rewrite writes_firstn by apply (lin_write _ _ _ _ KL). rewrite KW, V1, firstn_app, Nat.sub_diag, firstn_all, firstn_O, app_nil_r. auto.
      * intros r j Hr Lr. apply (U3 r j Hr) in Lr. rewrite <- (firstn_skipn n0 (firstn (length H) ids)). rewrite firstn_firstn.
        replace (Nat.min n0 (length H)) with n0 by lia. apply in_or_app. auto.
      * intros r j w Hr Lr. pose proof (U4 r j w Hr Lr). lia.
    + rewrite writes_keep by auto. rewrite Hh. auto.
    + rewrite Hh. auto.
    + intros u Hu. pose proof (Dt u Hu) as D. rewrite Ocl in Hu by auto. destruct (KO u Hu) as [Q1 [Q2 Q3]].
      rewrite app_length. cbn. split; [lia|]. split.
      * intros r Hr. apply NS in Hr; [|discriminate]. apply (Q2 r Hr).
      * intros r w Hr. apply nth_snoc in Hr. destruct Hr as [Hr|[_ Hr]]; [apply (Q3 r w Hr)|]. injection Hr as Hr _. apply D. apply KI; auto.
    + intros u u' Hu Hu'. pose proof (Dt u Hu). pose proof (Dt u' Hu'). rewrite Ocl in Hu, Hu' by auto. apply KI; auto.
    + intros u w Hu. assert (u <> t) by (apply Dt; congruence). rewrite Ocl in Hu by auto. destruct (KWr u w Hu). split; auto. apply nth_keep. auto.
    + intros u Hu. assert (u <> t) by (apply Dt; congruence). rewrite Ocl in Hu by auto. apply KD; auto.
    + intros u k' n1 Hu. assert (u <> t) by (apply Dt; congruence). rewrite Ocl in Hu by auto.
      destruct (KK u k' n1 Hu) as [Q1 [Q2 [Q3 Q4]]]. split; [apply nth_keep; auto|]. split; auto. split.
      * intros r i Hr. apply NS in Hr; [|discriminate]. apply (Q3 r i Hr).
      * intros r i w Hr Lr. apply nth_snoc in Hr. destruct Hr as [Hr|[-> Hr]].
        -- rewrite upd_neq by (eapply Di; eauto). apply (Q4 r i w Hr Lr).
        -- assert (op u < length evs) by (apply KO; congruence). lia.
  - (* a write takes effect *)
    exists (ids ++ [op t]), pt. unfold shown. cbn [o_st o_evs o_open]. rewrite P. rewrite app_nil_r.
    assert (cls (g_pc st t) = CWrite w) as Ct by (rewrite P; reflexivity).
    assert (cls (g_pc st t) <> CNone) as Cn by congruence.
    destruct (KWr t w Ct) as [U1 U2].
    assert (forall u, cls (g_pc st' u) <> CNone -> cls (g_pc st u) <> CNone) as Cu.
    { intros u Hu. destruct (Nat.eq_dec u t) as [->|D]; auto. rewrite Ocl in Hu; auto. }
    constructor; cbn [o_st o_evs o_open].
    + eapply lin_effect; eauto.
    + rewrite Hh, <- KW. clear - U1. induction ids as [|i r IH]; cbn; [rewrite U1; destruct w; reflexivity|]. rewrite IH.
      destruct (nth_error evs i) as [[]|]; reflexivity.
    + rewrite Hh, !app_length. cbn. lia.
    + intros u Hu. apply KO; auto.
    + intros u u' Hu Hu'. apply KI; auto.
    + intros u w' Hu. assert (u <> t) as D by (intros ->; congruence). rewrite Ocl in Hu by auto. destruct (KWr u w' Hu) as [Q1 Q2]. split; auto.
      intros Q. apply in_app_or in Q. destruct Q as [Q|[Q|[]]]; [auto|]. apply D. symmetry. apply KI; auto. congruence.
    + intros u Hu. apply in_or_app. destruct (Nat.eq_dec u t) as [->|D]; [right; left; auto|]. rewrite Ocl in Hu by auto. left. apply KD; auto.
    + intros u k' n1 Hu. assert (u <> t) as D by (intros ->; congruence). rewrite Ocl in Hu by auto.
      destruct (KK u k' n1 Hu) as [Q1 [Q2 [Q3 Q4]]]. rewrite app_length. rewrite firstn_keep by auto. split; auto. split; [lia|auto].
  - (* any other step *)
    exists ids, pt. rewrite (Sh (Obs st evs op) eq_refl), app_nil_r.
    assert (forall u, cls (g_pc st' u) = cls (g_pc st u)) as Ec by (intros u; destruct (Nat.eq_dec u t) as [->|D]; auto).
    assert (forall u, cls (g_pc st' u) <> CNone -> (match g_pc st t with Idle => upd op t (length evs) | _ => op end) u = op u) as Eo.
    { intros u Hu. destruct (g_pc st t) eqn:P; auto. rewrite upd_same. destruct (Nat.eqb_spec u t) as [->|D]; auto.
      rewrite Ec, P in Hu. destruct Hu. reflexivity. }
    constructor; cbn [o_st o_evs o_open]; rewrite ?Hh; auto.
    + intros u Hu. rewrite Eo by auto. apply KO. rewrite <- Ec. auto.
    + intros u u' Hu Hu'. rewrite !Eo by auto. apply KI; rewrite <- Ec; auto.
    + intros u w Hu. rewrite Eo by congruence. apply KWr. rewrite <- Ec. auto.
    + intros u Hu. rewrite Eo by congruence. apply KD. rewrite <- Ec. auto.
    + intros u k n0 Hu. rewrite Eo by congruence. apply KK. rewrite <- Ec. auto.
Qed.

Lemma seen_reach : forall o, seen_run cfg N o -> reach cfg N (o_st o).
Proof.
  intros o H. induction H as [|o t c o' H IH E]; [constructor|]. unfold observe in E.
  destruct (step (o_st o) t c) as [st'| |] eqn:S; try discriminate E. injection E as <-. eapply reach_step; eauto.
Qed.

Theorem seen_linearizable : forall o, seen_run cfg N o -> linearizable cfg (o_evs o).
Proof.
  intros o H. assert (exists ids pt, lin o ids pt) as [ids [pt L]].
  { induction H as [|o t c o' H [ids [pt IH]] E]; [exists [], (fun _ => 0); apply lin_init|].
    eapply lin_step; eauto. eapply inv_reach; eauto. apply seen_reach; auto. }
  exists ids, pt. apply (k_lin _ _ _ L).
Qed.
End Lin.
