(** C44: fragments of the shared-memory heap never overlap. *)
From Coq Require Import List NArith Bool Lia Permutation Arith.
From Verif Require Import Shm ShmSpec ShmProofs.
Import ListNotations.
Local Open Scope N_scope.

Lemma frag_in f x : a_size f <= a_real f -> in_frag f x -> inr (freg f) x.
Proof. unfold in_frag, inr. cbn [freg g_a g_n]. lia. Qed.

(** No byte belongs to two fragments, whatever the threads do. *)
Theorem C44_disjoint start size ctrl k s i j f g x :
  segment start size ctrl -> reach start size ctrl k s ->
  nth_error (live s) i = Some f -> nth_error (live s) j = Some g -> i <> j ->
  in_frag f x -> in_frag g x -> False.
Proof.
  intros S R I J NE X Y. destruct (reach_inv _ _ _ _ _ S R) as [V _ _ _ Z].
  pose proof (frag_in f x (Z f (nth_error_In _ _ I)) X) as X'.
  pose proof (frag_in g x (Z g (nth_error_In _ _ J)) Y) as Y'.
  pose proof (i_own _ _ V x) as C. unfold own in C. rewrite cov_app in C.
  assert (2 <= cov (map freg (live s)) x)%nat; [|lia].
  destruct (put_split _ _ _ I) as (u & v & E & L & _). rewrite E in J |- *.
  assert (G : In g (u ++ v)).
  { destruct (Nat.lt_ge_cases j i) as [H|H].
    - rewrite nth_error_app1 in J by lia. apply in_or_app. left. eapply nth_error_In; eauto.
    - rewrite nth_error_app2 in J by lia. destruct (j - length u)%nat eqn:D; [lia|].
      cbn [nth_error] in J. apply in_or_app. right. eapply nth_error_In; eauto. }
  rewrite map_app, cov_app. cbn [map cov].
  apply inrb_iff in X'. rewrite X'.
  apply (in_map freg) in G. rewrite map_app in G.
  pose proof (cov_in _ _ _ G Y') as Q. rewrite cov_app in Q. lia.
Qed.

(** Fragments are inside the segment, past its control block, and at cache lines. *)
Theorem C44_inside start size ctrl k s f :
  segment start size ctrl -> reach start size ctrl k s -> In f (live s) ->
  start + ctrl <= a_addr f /\ a_addr f + a_size f <= start + size
  /\ a_addr f mod LINE = 0.
Proof.
  intros S R I. destruct (reach_inv _ _ _ _ _ S R) as [V _ B T Z].
  specialize (Z f I).
  destruct (i_good _ _ V (freg f)) as (G1 & G2 & G3 & G4 & _).
  { apply in_or_app. left. apply in_map. exact I. }
  destruct (i_base _ _ V) as (_ & _ & B2 & _). cbn [freg g_a g_n] in *.
  split; [|split]; [lia|lia|exact G4].
Qed.

(** The assertions of alloc (542) and of the tracker (803) hold. *)
Theorem C44_no_abort start size ctrl k s :
  segment start size ctrl -> reach start size ctrl k s -> ~ In Boom (agents s).
Proof.
  intros S R I. exact (v_pc _ _ _ (reach_inv _ _ _ _ _ S R) _ I).
Qed.

(** Zeroing a recycled fragment touches no fragment in use. *)
Theorem C44_writes start size ctrl k s i c s' r f x :
  segment start size ctrl -> reach start size ctrl k s -> ok_call (start + size) c ->
  step s i c = Some (s', Some r) -> In f (live s) -> in_range r x -> ~ in_frag f x.
Proof.
  intros S R K E I X Y. pose proof (reach_inv _ _ _ _ _ S R) as V.
  destruct (step_inv _ _ _ _ _ _ _ V K E) as [_ W].
  apply (W r x eq_refl X f I). apply frag_in; [apply (v_size _ _ _ V f I)|exact Y].
Qed.

(** A fragment stays with its holder until the holder frees it. *)
Lemma In_del {A} (l : list A) k f g : nth_error l k = Some g -> In f l -> In f (del l k) \/ f = g.
Proof.
  intros N I. destruct (del_split _ _ _ N) as (u & v & -> & _ & ->).
  apply in_app_or in I. destruct I as [I|[I|I]]; auto; left; apply in_or_app; auto.
Qed.
Theorem C44_kept s i c s' w f :
  step s i c = Some (s', w) -> In f (live s) ->
  In f (live s') \/ (nth_error (agents s) i = Some Idle
                     /\ exists k, c = Release k /\ nth_error (live s) k = Some f).
Proof.
  unfold step. intros E I. destruct (nth_error (agents s) i) as [p|] eqn:N; [|discriminate].
  assert (GEN : (let '(h', fs, p', w') := section (hp s) p in
      Some (St h' (fs ++ live s) (put (agents s) i p'), w')) = Some (s', w) -> In f (live s')).
  { destruct (section (hp s) p) as [[[h' fs] p'] w']. intros Q. injection Q as <- <-.
    cbn [live]. apply in_or_app. auto. }
  destruct p; try (left; apply GEN; exact E).
  destruct c as [n|k].
  - injection E as <- <-. left. exact I.
  - destruct (nth_error (live s) k) as [g|] eqn:G; [|discriminate].
    injection E as <- <-. cbn [live].
    destruct (In_del _ _ _ _ G I) as [J| ->]; [left; exact J|right; eauto].
Qed.

(** The counters: every byte after the control block is counted once. *)
Theorem C44_accounting start size ctrl k s :
  segment start size ctrl -> reach start size ctrl k s ->
  h_used (hp s) + h_avail (hp s) = size - ctrl
  /\ (forall f, In f (live s) -> a_addr f + a_size f <= start + ctrl + h_used (hp s)).
Proof.
  intros S R. destruct (reach_inv _ _ _ _ _ S R) as [V _ B T Z].
  destruct (i_base _ _ V) as (_ & B1 & B2 & _). destruct (i_used _ _ V) as [U1 U2].
  destruct S as (_ & S2 & _). split; [lia|].
  intros f I. specialize (Z f I).
  destruct (i_good _ _ V (freg f)) as (G1 & G2 & G3 & _).
  { apply in_or_app. left. apply in_map. exact I. }
  cbn [freg g_a g_n] in *. lia.
Qed.

(** A request at the end of the used part gets nothing exactly if the free bytes
    are too few. *)
Theorem C44_null start size ctrl k s i c s' w n :
  segment start size ctrl -> reach start size ctrl k s ->
  nth_error (agents s) i = Some (Bump n) -> step s i c = Some (s', w) ->
  (h_avail (hp s) < n <-> nth_error (agents s') i = Some Idle /\ live s' = live s)
  /\ (n <= h_avail (hp s) ->
        h_avail (hp s') = h_avail (hp s) - n
        /\ ((exists f, live s' = f :: live s /\ a_size f = n)
            \/ exists a, nth_error (agents s') i = Some (Track a n))).
Proof.
  intros S R N E. destruct (reach_inv _ _ _ _ _ S R) as [V P B T Z].
  assert (K : ok_size (start + size) n) by (apply (P (Bump n)); eapply nth_error_In; eauto).
  destruct (i_base _ _ V) as (_ & B1 & B2 & B3). destruct (i_used _ _ V) as [U1 U2].
  destruct K as (K1 & K2 & K3). rewrite <- T in K3.
  unfold step in E. rewrite N in E. cbn [section] in E.
  destruct (put_split _ _ _ N) as (u & v & EA & LU & PU).
  assert (NTH : forall p, nth_error (put (agents s) i p) i = Some p).
  { intros p. rewrite PU, nth_error_app2, LU, Nat.sub_diag by lia. reflexivity. }
  rewrite !(w64_small (h_next (hp s) + n)) in E by lia.
  destruct (h_end (hp s) <? h_next (hp s) + n) eqn:C.
  - apply N.ltb_lt in C. injection E as <- <-. cbn [agents live app].
    rewrite NTH. split; [split; [auto|lia]|lia].
  - apply N.ltb_ge in C.
    assert (AV : w64 (h_avail (hp s) + (2 ^ 64 - n)) = h_avail (hp s) - n)
      by (apply w64_sub; lia).
    rewrite AV in E.
    destruct (LARGE <=? n); injection E as <- <-; cbn [agents live hp h_avail app];
      rewrite NTH.
    + split; [split; [lia|intros [Q _]; discriminate Q]|].
      intros _. split; [reflexivity|right; eauto].
    + split; [split; [lia|intros [_ Q]]|].
      * exfalso. apply (f_equal (@length frag)) in Q. cbn [length] in Q. lia.
      * intros _. split; [reflexivity|left; eexists; split; reflexivity].
Qed.

(** Once a tracked large fragment has been freed, a large request that fits it is
    served from freed memory: the used part does not grow. *)
Lemma find_some n l : (exists s, In s l /\ n <= f_size s /\ f_free s = true) ->
  find_large n l <> None.
Proof.
  intros (s & I & L & F). induction l as [|t r IH]; [destruct I|]. cbn [find_large].
  destruct ((n <=? f_size t) && f_free t) eqn:C; [discriminate|].
  destruct I as [->|I].
  - rewrite F in C. apply N.leb_le in L. rewrite L in C. discriminate.
  - specialize (IH I). destruct (find_large n r) as [[y r']|]; [discriminate|congruence].
Qed.
Theorem C44_recycled start size ctrl k s i c s1 w1 f t j c2 n s2 w2 :
  segment start size ctrl -> reach start size ctrl k s ->
  nth_error (agents s) i = Some (Free2 f) ->
  In t (h_slots (hp s)) -> f_addr t = a_addr f ->
  step s i c = Some (s1, w1) ->
  n <= a_real f -> nth_error (agents s1) j = Some (Find n) ->
  step s1 j c2 = Some (s2, w2) ->
  h_used (hp s2) = h_used (hp s)
  /\ exists g, live s2 = g :: live s1 /\ a_size g = n.
Proof.
  intros S R N I A E LN N2 E2. destruct (reach_inv _ _ _ _ _ S R) as [V P B T Z].
  unfold step in E. rewrite N in E. cbn [section] in E.
  destruct (i_sgood _ _ V t I) as (GT & LT & HT).
  assert (CH : h_hip (hp s) <? a_addr f = false) by (apply N.ltb_ge; lia).
  rewrite CH in E. injection E as <- <-.
  assert (O : In (freg f) (own s)).
  { apply in_or_app. right. apply in_flat_map. exists (Free2 f).
    split; [eapply nth_error_In; eauto|left; reflexivity]. }
  pose proof (i_good _ _ V _ O) as GF.
  unfold step in E2. rewrite N2 in E2. cbn [section hp w_slots h_slots] in E2.
  destruct (mark_split (a_addr f) (h_slots (hp s))) as [(u & q & v & EL & EA & M)|[_ M]];
    [|exfalso; exact (M t I A)].
  assert (IQ : In q (h_slots (hp s))) by (rewrite EL; apply in_elt).
  assert (SZ : f_size q = a_real f).
  { destruct (i_tied _ _ V _ q O IQ) as [D|[Q _]].
    - exfalso. destruct (i_sgood _ _ V q IQ) as [(_ & P1 & _) _].
      destruct GF as (_ & P2 & _). cbn [freg sreg g_n] in *.
      apply (D (a_addr f)); unfold inr; cbn [freg sreg g_a g_n]; lia.
    - apply (f_equal g_n) in Q. cbn [freg sreg g_n] in Q. auto. }
  destruct (find_large n (mark_free (a_addr f) (h_slots (hp s)))) as [[y l]|] eqn:F.
  - injection E2 as <- <-. cbn [hp live w_slots h_used app]. split; [reflexivity|].
    eexists. split; reflexivity.
  - exfalso. revert F. apply find_some. rewrite M.
    exists (Slot (f_addr q) (f_size q) true). split; [apply in_elt|].
    cbn [f_size f_free]. split; [lia|reflexivity].
Qed.

(** Realloc that does not shrink: the copy stays inside the new fragment, which is
    nobody else's. *)
Lemma finish_inv m : forall h p rest h' fs p',
  AInv h (pcreg p ++ rest) -> pcok (h_end h) p -> finish m h p = (h', fs, p') ->
  AInv h' (map freg fs ++ pcreg p' ++ rest)
  /\ forall f, In f fs -> a_size f <= a_real f.
Proof.
  induction m as [|m IH]; intros h p rest h' fs p' V K E; cbn [finish] in E.
  - injection E as <- <- <-. split; [exact V|intros f []].
  - assert (GEN : (let '(h', fs, p', _) := section h p in
             match fs with [] => finish m h' p' | _ => (h', fs, p') end) = (h', fs, p') ->
       AInv h' (map freg fs ++ pcreg p' ++ rest)
       /\ forall f, In f fs -> a_size f <= a_real f).
    { destruct (section h p) as [[[h1 f1] p1] w1] eqn:SE.
      destruct (section_inv _ _ _ _ _ _ _ V K SE) as (V1 & K1 & T1 & _ & Z1 & _).
      destruct f1 as [|f0 f1].
      - intros Q. apply (IH h1 p1 rest); auto. rewrite T1. exact K1.
      - intros Q. injection Q as <- <- <-. split; [exact V1|exact Z1]. }
    destruct p; try (apply GEN; exact E).
    + injection E as <- <- <-. split; [exact V|intros f []].
    + destruct K.
Qed.
Definition asks (p : pc) (n : N) : Prop :=
  match p with Find m | Bump m | Track _ m => m = n | _ => True end.
Lemma section_asks h p h' fs p' w n : asks p n ->
  section h p = (h', fs, p', w) -> asks p' n /\ (forall f, In f fs -> a_size f = n).
Proof.
  intros A E. destruct p; cbn [section asks] in *; subst;
    repeat match type of E with
    | context [match ?x with _ => _ end] => destruct x
    end; try discriminate; injection E as <- <- <- <-;
    split; cbn [asks]; auto; intros g J; repeat destruct J as [<-|J]; auto; destruct J.
Qed.
Lemma finish_asks m : forall h p h' fs p' n, asks p n ->
  finish m h p = (h', fs, p') -> forall f, In f fs -> a_size f = n.
Proof.
  induction m as [|m IH]; intros h p h' fs p' n A E; cbn [finish] in E.
  - injection E as <- <- <-. intros f [].
  - assert (GEN : (let '(h', fs, p', _) := section h p in
             match fs with [] => finish m h' p' | _ => (h', fs, p') end) = (h', fs, p') ->
       forall f, In f fs -> a_size f = n).
    { destruct (section h p) as [[[h1 f1] p1] w1] eqn:SE.
      destruct (section_asks _ _ _ _ _ _ _ A SE) as [A1 F1].
      destruct f1 as [|f0 f1].
      - intros Q. exact (IH h1 p1 _ _ _ n A1 Q).
      - intros Q. injection Q as <- <- <-. exact F1. }
    destruct p; try (apply GEN; exact E); injection E as <- <- <-; intros f [].
Qed.
Theorem C44_realloc start size ctrl k s old n f w h' x :
  segment start size ctrl -> reach start size ctrl k s ->
  In old (live s) -> ok_size (start + size) n -> a_size old <= n ->
  realloc (hp s) old n = Some (f, w, h') -> in_range w x ->
  in_frag f x /\ (forall g, In g (live s) -> ~ in_frag g x).
Proof.
  intros S R I K LE E X. destruct (reach_inv _ _ _ _ _ S R) as [V P B T Z].
  unfold realloc in E.
  destruct (finish 3 (hp s) (enter (hp s) n)) as [[h1 fs] p1] eqn:F.
  destruct fs as [|f0 fs]; [discriminate|]. destruct p1; try discriminate.
  injection E as <- <- <-.
  rewrite <- T in K. destruct (enter_ok _ _ _ V K) as [Q1 Q2].
  assert (V0 : AInv (hp s) (pcreg (enter (hp s) n) ++ own s)) by (rewrite Q2; exact V).
  destruct (finish_inv _ _ _ _ _ _ _ V0 Q1 F) as [V1 Z1].
  assert (SZ : a_size f0 = n).
  { eapply finish_asks; [|exact F|left; reflexivity].
    unfold enter. destruct (negb _); [exact Logic.I|].
    destruct (LARGE <=? n); reflexivity. }
  unfold in_range in X. cbn [fst snd] in X.
  assert (XF : in_frag f0 x) by (unfold in_frag; lia).
  split; [exact XF|]. intros g J Y.
  pose proof (frag_in f0 x (Z1 f0 (or_introl eq_refl)) XF) as X1.
  pose proof (frag_in g x (Z g J) Y) as Y1.
  pose proof (i_own _ _ V1 x) as C. cbn [map app cov] in C.
  apply inrb_iff in X1. rewrite X1 in C. rewrite !cov_app in C.
  assert (1 <= cov (own s) x)%nat; [|lia].
  eapply cov_in; [|exact Y1]. apply in_or_app. left. apply in_map. exact J.
Qed.

(** The callers' rounding gives whole cache lines if the alignment is a multiple of
    a cache line and nothing wraps. *)
Theorem C44_rounded align n : align mod LINE = 0 -> 0 < align -> n + align < 2 ^ 64 ->
  rounded align n mod LINE = 0 /\ n <= rounded align n < n + align.
Proof.
  intros A P H. unfold rounded.
  assert (L : LINE <> 0) by (unfold LINE; lia).
  pose proof (N.mod_upper_bound n align ltac:(lia)) as U.
  pose proof (N.mod_upper_bound (align - n mod align) align ltac:(lia)) as U2.
  set (X := (align - n mod align) mod align) in *.
  rewrite w64_small by (clearbody X; clear U; lia).
  split; [|clearbody X; clear U; lia]. subst X.
  assert (M : (n + (align - n mod align) mod align) mod align = 0).
  { rewrite N.add_mod_idemp_r by lia.
    pose proof (N.div_mod n align ltac:(lia)) as D.
    replace (n + (align - n mod align)) with ((n / align + 1) * align) by nia.
    apply N.mod_mul. lia. }
  apply N.mod_divide in M; [|lia]. apply N.mod_divide in A; [|exact L].
  apply N.mod_divide; [exact L|]. eapply N.divide_trans; eauto.
Qed.

(** ** Examples and counterexamples *)
Definition s0 : state := init 65536 1048576 6400 3.
Lemma seg0 : segment 65536 1048576 6400.
Proof. repeat split; vm_compute; congruence. Qed.

Fixpoint okrun (top : N) (l : list (nat * call)) : Prop :=
  match l with [] => True | (_, c) :: r => ok_call top c /\ okrun top r end.
Lemma run_reach start size ctrl k l : forall s s', reach start size ctrl k s ->
  okrun (start + size) l -> run s l = Some s' -> reach start size ctrl k s'.
Proof.
  induction l as [|[i c] r IH]; intros s s' R K E; cbn [run] in E.
  - injection E as <-. exact R.
  - destruct K as [K1 K2]. destruct (step s i c) as [[s1 w]|] eqn:ST; [|discriminate].
    apply (IH s1 s'); auto. eapply reach1; eauto.
Qed.

(** Three threads: two large fragments taken at once, one freed and recycled by a
    smaller large request while a third thread takes and frees a small one. *)
Definition ex_run : list (nat * call) :=
  [(0, Malloc 65536); (1, Malloc 40960); (0, Malloc 64); (1, Malloc 64);
   (1, Malloc 64); (0, Malloc 64); (0, Malloc 64); (1, Malloc 64);   (* both tracked *)
   (2, Malloc 128); (2, Malloc 64);                                    (* a small one *)
   (0, Release 2); (0, Malloc 64); (0, Malloc 64);                     (* a large one freed *)
   (1, Malloc 38912); (1, Malloc 64);                                  (* recycled *)
   (2, Release 1); (2, Malloc 64)]%nat.
Definition ex_state : state := Eval vm_compute in
  match run s0 ex_run with Some s => s | None => s0 end.
Example C44_ex : reach 65536 1048576 6400 3 ex_state
  /\ length (live ex_state) = 2%nat /\ length (h_slots (hp ex_state)) = 2%nat.
Proof.
  split; [|split; vm_compute; reflexivity].
  apply (run_reach _ _ _ _ ex_run s0); [apply reach0| |vm_compute; reflexivity].
  repeat split; vm_compute; congruence.
Qed.

Definition overlap (s : state) : bool :=
  match live s with
  | f :: g :: _ => (a_addr f <? a_addr g + a_size g) && (a_addr g <? a_addr f + a_size f)
  | _ => false
  end.

(** A request of size 0 (a realloc to 0, platform_inline.h 483, asks for that): its
    fragment has the next one's address, so freeing it frees the next one. *)
Definition empty_run : list (nat * call) :=
  [(0, Malloc (rounded 64 0)); (0, Malloc 64); (0, Malloc 64); (0, Malloc 64);
   (0, Release 1); (0, Malloc 64); (1, Malloc 64); (1, Malloc 64)]%nat.
Theorem C44_empty_refuted :
  exists s, run s0 empty_run = Some s /\ overlap s = true.
Proof. eexists. split; vm_compute; reflexivity. Qed.

(** A size that is not a multiple of 64 (an alignment below 64): the next request
    aborts. *)
Theorem C44_unaligned_refuted :
  exists s, run s0 [(0, Malloc (rounded 8 20)); (0, Malloc 64); (1, Malloc 64)]%nat = Some s
            /\ nth_error (agents s) 1 = Some Boom.
Proof. eexists. split; vm_compute; reflexivity. Qed.

(** A huge size: the end test wraps, the request succeeds and moves the start of the
    unused part back over a fragment in use. *)
Definition huge_run : list (nat * call) :=
  [(0, Malloc 64); (0, Malloc 64); (0, Malloc (2 ^ 64 - 64)); (0, Malloc 64);
   (0, Malloc 64); (0, Malloc 64); (1, Malloc 64); (1, Malloc 64)]%nat.
Theorem C44_huge_refuted :
  match run s0 huge_run with
  | Some s => match live s with
              | [f; g; e] => (a_addr f =? a_addr e) && (a_size g =? 2 ^ 64 - 64)
              | _ => false
              end
  | None => false
  end = true.
Proof. vm_compute. reflexivity. Qed.

(** Realloc to a smaller size: the copy has the old size, and runs into the fragment
    another thread could take next. *)
Theorem C44_shrink_refuted :
  exists s old f w h', run s0 [(0, Malloc 4096); (0, Malloc 64)]%nat = Some s
    /\ live s = [old] /\ realloc (hp s) old 64 = Some (f, w, h')
    /\ in_range w (a_addr f + 64) /\ ~ in_frag f (a_addr f + 64).
Proof.
  do 5 eexists. split; [vm_compute; reflexivity|]. split; [reflexivity|].
  split; [vm_compute; reflexivity|].
  unfold in_range, in_frag. cbn [fst snd a_addr a_size]. split; lia.
Qed.

(** An alignment above a cache line is not honoured. *)
Theorem C44_alignment_refuted :
  exists s f, run s0 [(0, Malloc (rounded 4096 4096)); (0, Malloc 64)]%nat = Some s
    /\ live s = [f] /\ a_addr f mod 4096 <> 0.
Proof. do 2 eexists. split; [vm_compute; reflexivity|]. split; [reflexivity|]. vm_compute. congruence. Qed.

(** Small fragments are lost unless freed in the reverse order, last one first and only
    one: with everything freed, bytes are still counted as used. *)
Theorem C44_lost_refuted :
  exists s, run s0 [(0, Malloc 64); (0, Malloc 64); (0, Malloc 64); (0, Malloc 64);
                    (0, Release 0); (0, Malloc 64); (0, Release 0); (0, Malloc 64); (0, Malloc 64)]%nat
            = Some s /\ live s = [] /\ agents s = [Idle; Idle; Idle] /\ h_used (hp s) = 64.
Proof. eexists. split; [vm_compute; reflexivity|]. repeat split. Qed.

Example C44_rounded_ex : rounded 64 100 = 128 /\ rounded 4096 1 = 4096 /\ rounded 64 64 = 64.
Proof. vm_compute. auto. Qed.
Example C44_realloc_ex : exists s old f w h',
  run s0 [(0, Malloc 128); (0, Malloc 64)]%nat = Some s /\ live s = [old]
  /\ realloc (hp s) old 256 = Some (f, w, h') /\ a_addr f <> a_addr old /\ snd w = 128.
Proof.
  do 5 eexists. split; [vm_compute; reflexivity|]. split; [reflexivity|].
  split; [vm_compute; reflexivity|]. cbn [a_addr snd]. split; [discriminate|reflexivity].
Qed.

Print Assumptions C44_disjoint.
Print Assumptions C44_inside.
Print Assumptions C44_no_abort.
Print Assumptions C44_writes.
Print Assumptions C44_kept.
Print Assumptions C44_accounting.
Print Assumptions C44_null.
Print Assumptions C44_recycled.
Print Assumptions C44_realloc.
Print Assumptions C44_rounded.
Print Assumptions C44_empty_refuted.
Print Assumptions C44_unaligned_refuted.
Print Assumptions C44_huge_refuted.
Print Assumptions C44_shrink_refuted.
Print Assumptions C44_alignment_refuted.
Print Assumptions C44_lost_refuted.
