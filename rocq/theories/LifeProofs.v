(** * Proofs about creating, opening and closing *)

From Coq Require Import List NArith Arith Bool Lia.
From Verif Require Import Config Life LifeSpec.
Import ListNotations.

(** ** What a call does, seen by an observer of its events *)

Section Wp.
Context {S : Type}.
Variable obs : S -> event -> S.

Definition wp {A} (m : M A) (fails : nat -> bool) (n : nat) (s : S) (Q : A -> nat -> S -> Prop) (QD : S -> Prop) : Prop :=
  match m fails n with
  | (Ret a, n', es) => Q a n' (fold_left obs es s)
  | (Died, _, es) => QD (fold_left obs es s)
  end.

Lemma wp_ret : forall A (a : A) fails n s (Q : A -> nat -> S -> Prop) QD, Q a n s -> wp (ret a) fails n s Q QD.
Proof. intros. exact H. Qed.

Lemma wp_die : forall A fails n s (Q : A -> nat -> S -> Prop) (QD : S -> Prop), QD s -> wp die fails n s Q QD.
Proof. intros. exact H. Qed.

Lemma wp_emit : forall e fails n s (Q : unit -> nat -> S -> Prop) QD, Q tt n (obs s e) -> wp (emit e) fails n s Q QD.
Proof. intros. exact H. Qed.

Lemma wp_works : forall fails n s (Q : bool -> nat -> S -> Prop) QD,
  (forall b, Q b (Datatypes.S n) s) -> wp works fails n s Q QD.
Proof. intros. exact (H _). Qed.

Lemma wp_bind : forall A B (m : M A) (k : A -> M B) fails n s Q QD,
  wp m fails n s (fun a n' s' => wp (k a) fails n' s' Q QD) QD -> wp (bind m k) fails n s Q QD.
Proof.
  intros A B m k fails n s Q QD H. unfold wp, bind in *. destruct (m fails n) as [[[a|] n1] e1]; [|exact H].
  destruct (k a fails n1) as [[[b|] n2] e2]; rewrite fold_left_app; exact H.
Qed.

Lemma wp_mono : forall A (m : M A) fails n s (Q Q' : A -> nat -> S -> Prop) (QD QD' : S -> Prop),
  wp m fails n s Q QD -> (forall a n' s', Q a n' s' -> Q' a n' s') -> (forall s', QD s' -> QD' s') -> wp m fails n s Q' QD'.
Proof. intros A m fails n s Q Q' QD QD' H H1 H2. unfold wp in *. destruct (m fails n) as [[[a|] n1] e1]; auto. Qed.

Lemma wp_check : forall b fails n s (Q : unit -> nat -> S -> Prop) (QD : S -> Prop),
  (b = true -> Q tt n s) -> (b = false -> QD s) -> wp (check b) fails n s Q QD.
Proof. intros b fails n s Q QD H1 H2. destruct b; [exact (H1 eq_refl)|exact (H2 eq_refl)]. Qed.

Lemma wp_acquire : forall r fails n s (Q : bool -> nat -> S -> Prop) QD,
  (forall m, Q true m (obs s (Acq r))) -> (forall m, Q false m s) -> wp (acquire r) fails n s Q QD.
Proof.
  intros r fails n s Q QD H1 H2. unfold acquire. apply wp_bind, wp_works. intros [|].
  - apply wp_bind, wp_emit, wp_ret, H1.
  - apply wp_ret, H2.
Qed.

Lemma wp_acquire_or_die : forall r fails n s (Q : unit -> nat -> S -> Prop) (QD : S -> Prop),
  (forall m, Q tt m (obs s (Acq r))) -> QD s -> wp (acquire_or_die r) fails n s Q QD.
Proof.
  intros r fails n s Q QD H1 H2. unfold acquire_or_die. apply wp_bind, wp_acquire; intros m.
  - apply wp_ret, H1.
  - apply wp_die, H2.
Qed.

Lemma wp_run : forall A (m : M A) fails s (Q : A -> nat -> S -> Prop) (QD : S -> Prop) o es,
  wp m fails 0 s Q QD -> run m fails = (o, es) ->
  match o with Ret a => exists n, Q a n (fold_left obs es s) | Died => QD (fold_left obs es s) end.
Proof.
  intros A m fails s Q QD o es H R. unfold run in R. unfold wp in H.
  destruct (m fails 0) as [[o' n'] e']. injection R as <- <-. destruct o' as [a|]; [exists n'; exact H|exact H].
Qed.

End Wp.

Arguments wp_mono {S} obs {A} m fails n s Q Q' QD QD'.

(** ** Threads held *)

(** Threads [j], ..., [j + n - 1] of group [g], the last first *)
Fixpoint thr (g j n : nat) : list resource :=
  match n with O => [] | S n' => thr g (S j) n' ++ [RThread g j] end.

Definition is_thread (g : nat) (r : resource) : bool := match r with RThread g' _ => g' =? g | _ => false end.

Lemma same_refl : forall r, same r r = true.
Proof. intros r. unfold same. destruct (resource_eq_dec r r); congruence. Qed.

Lemma same_neq : forall a b, a <> b -> same a b = false.
Proof. intros a b H. unfold same. destruct (resource_eq_dec a b); congruence. Qed.

Lemma thr_in : forall n g j r, In r (thr g j n) -> exists i, r = RThread g i /\ j <= i.
Proof.
  induction n as [|n IH]; intros g j r H; [destruct H|]. cbn in H. apply in_app_iff in H as [H | [<- | []]].
  - destruct (IH _ _ _ H) as (i & -> & L). exists i. split; [reflexivity|lia].
  - exists j. split; [reflexivity|lia].
Qed.

Lemma holds_app : forall r a b, holds r (a ++ b) = holds r a || holds r b.
Proof. intros. apply existsb_app. Qed.

Lemma without_app : forall r a b, without r (a ++ b) = without r a ++ without r b.
Proof. intros. apply filter_app. Qed.

Lemma holds_false : forall r l, ~ In r l -> holds r l = false.
Proof.
  intros r l H. destruct (holds r l) eqn:E; [|reflexivity]. apply existsb_exists in E as (x & I1 & E).
  unfold same in E. destruct (resource_eq_dec r x); [subst; contradiction|discriminate].
Qed.

Lemma without_id : forall r l, ~ In r l -> without r l = l.
Proof.
  intros r l. induction l as [|a l IH]; intros H; [reflexivity|]. cbn. rewrite same_neq; [|intros ->; apply H; left; reflexivity].
  cbn. f_equal. apply IH. intros X. apply H. right. exact X.
Qed.

Lemma thr_not_in : forall n g j r, is_thread g r = false -> ~ In r (thr g j n).
Proof. intros n g j r H I1. apply thr_in in I1 as (i & -> & _). cbn in H. rewrite Nat.eqb_refl in H. discriminate. Qed.

Lemma holds_thr : forall n g j r, is_thread g r = false -> holds r (thr g j n) = false.
Proof. intros. apply holds_false, thr_not_in. exact H. Qed.

Lemma without_thr : forall n g j r, is_thread g r = false -> without r (thr g j n) = thr g j n.
Proof. intros. apply without_id, thr_not_in. exact H. Qed.

Lemma levels_thr : forall n g j k, 3 <= k -> forallb (fun x => level x <=? k) (thr g j n) = true.
Proof.
  intros n g j k H. apply forallb_forall. intros x I1. apply thr_in in I1 as (i & -> & _). apply Nat.leb_le. exact H.
Qed.

Lemma thr_snoc : forall n g j, RThread g (j + n) :: thr g j n = thr g j (S n).
Proof.
  induction n as [|n IH]; intros g j; [cbn; rewrite Nat.add_0_r; reflexivity|].
  change (thr g j (S n)) with (thr g (S j) n ++ [RThread g j]).
  change (thr g j (S (S n))) with (thr g (S j) (S n) ++ [RThread g j]).
  rewrite <- IH. cbn. f_equal. f_equal. lia.
Qed.

Lemma thr_next : forall n g j, ~ In (RThread g (j + n)) (thr g j n).
Proof.
  induction n as [|n IH]; intros g j H; [destruct H|]. cbn in H. apply in_app_iff in H as [H | [H | []]].
  - apply (IH g (S j)). replace (S j + n) with (j + S n) by lia. exact H.
  - injection H. lia.
Qed.

Lemma thr_first : forall n g j, ~ In (RThread g j) (thr g (S j) n).
Proof. intros n g j H. apply thr_in in H as (i & E & L). injection E as ->. lia. Qed.

(** ** The rule on resources *)

(** Also: was this thread registered? *)
Definition registers (e : event) : bool := match e with Acq RReg => true | _ => false end.
Definition rule2 (s : option (list resource) * bool) (e : event) : option (list resource) * bool :=
  (rule (fst s) e, snd s || registers e).

Lemma rule2_acq : forall r l b, holds r l = false -> rule2 (Some l, b) (Acq r) = (Some (r :: l), b || registers (Acq r)).
Proof. intros r l b H. unfold rule2. cbn [fst snd rule]. rewrite H. reflexivity. Qed.

Lemma rule2_rel : forall r l l' b, holds r l = true -> forallb (fun x => level x <=? level r) l = true -> without r l = l' ->
  rule2 (Some l, b) (Rel r) = (Some l', b).
Proof. intros r l l' b H1 H2 <-. unfold rule2. cbn [fst snd rule]. rewrite H1, H2. cbn. rewrite orb_false_r. reflexivity. Qed.

Lemma rule2_use : forall r l b, holds r l = true -> rule2 (Some l, b) (Use r) = (Some l, b).
Proof. intros r l b H. unfold rule2. cbn [fst snd rule]. rewrite H. cbn. rewrite orb_false_r. reflexivity. Qed.

Lemma rule2_unuse : forall r l b, holds r l = false -> rule2 (Some l, b) (Use r) = (None, b).
Proof. intros r l b H. unfold rule2. cbn [fst snd rule]. rewrite H. cbn. rewrite orb_false_r. reflexivity. Qed.

Lemma rule2_wr : forall w l b, holds RFd l = true -> rule2 (Some l, b) (Wr w) = (Some l, b).
Proof. intros w l b H. unfold rule2. cbn [fst snd rule]. rewrite H. cbn. rewrite orb_false_r. reflexivity. Qed.

Lemma rule2_none : forall e b, registers e = false -> rule2 (None, b) e = (None, b).
Proof. intros e b H. unfold rule2. cbn [fst snd rule]. rewrite H, orb_false_r. reflexivity. Qed.

Lemma rule2_fold : forall es s, fold_left rule2 es s = (fold_left rule es (fst s), snd s || existsb registers es).
Proof.
  induction es as [|e es IH]; intros [s b]; cbn; [rewrite orb_false_r; reflexivity|].
  rewrite IH. cbn. rewrite orb_assoc. reflexivity.
Qed.

Lemma holds_cons : forall r a l, holds r (a :: l) = same r a || holds r l.
Proof. reflexivity. Qed.
Lemma without_cons : forall r a l, without r (a :: l) = if same r a then without r l else a :: without r l.
Proof. intros. unfold without. cbn. destruct (same r a); reflexivity. Qed.

Notation post A := (A -> nat -> option (list resource) * bool -> Prop).

(** *** Threads *)

Definition of_group (g : nat) (r : resource) : bool :=
  match r with RThread g' _ | RCond g' => g' =? g | _ => false end.
Definition free_of (g : nat) (l : list resource) : Prop := forallb (fun r => negb (of_group g r)) l = true.
Definition low (l : list resource) : Prop := forallb (fun x => level x <=? 3) l = true.

Lemma free_not_thread : forall g l i, free_of g l -> ~ In (RThread g i) l.
Proof.
  intros g l i H I1. unfold free_of in H. rewrite forallb_forall in H. specialize (H _ I1). cbn in H.
  rewrite Nat.eqb_refl in H. discriminate.
Qed.
Lemma free_not_cond : forall g l, free_of g l -> ~ In (RCond g) l.
Proof.
  intros g l H I1. unfold free_of in H. rewrite forallb_forall in H. specialize (H _ I1). cbn in H.
  rewrite Nat.eqb_refl in H. discriminate.
Qed.

Lemma join_spec : forall n g j l fails c b (Q : post unit) QD,
  (forall i, ~ In (RThread g i) l) -> low l -> (forall c', Q tt c' (Some l, b)) ->
  wp rule2 (join_threads g j n) fails c (Some (thr g j n ++ l), b) Q QD.
Proof.
  induction n as [|n IH]; intros g j l fails c b Q QD F L HQ; cbn [join_threads thr].
  - apply wp_ret, HQ.
  - apply wp_bind, wp_emit. rewrite <- app_assoc. cbn [app].
    rewrite rule2_rel with (l' := thr g (S j) n ++ l).
    + apply IH; assumption.
    + rewrite holds_app, holds_cons, same_refl, orb_true_r. reflexivity.
    + rewrite forallb_app. rewrite levels_thr; [|reflexivity]. exact L.
    + rewrite without_app, without_cons, same_refl, (without_id _ l (F j)), without_id; [reflexivity|apply thr_first].
Qed.

Lemma stop_spec : forall n g l fails c b (Q : post unit) QD,
  free_of g l -> low l -> (forall c', Q tt c' (Some (RCond g :: l), b)) ->
  wp rule2 (stop_threads g n) fails c (Some (thr g 0 n ++ RCond g :: l), b) Q QD.
Proof.
  intros n g l fails c b Q QD F L HQ. unfold stop_threads. apply wp_bind, wp_emit. rewrite rule2_use.
  - apply join_spec; [|exact L|exact HQ]. intros i [H | H]; [discriminate|]. exact (free_not_thread _ _ _ F H).
  - rewrite holds_app, holds_cons, same_refl, orb_true_r. reflexivity.
Qed.

Lemma make_spec : forall n g j l fails c b (Q : post (nat * bool)) QD,
  (forall i, ~ In (RThread g i) l) ->
  (forall c', Q (j + n, true) c' (Some (thr g 0 (j + n) ++ l), b)) ->
  (forall m c', Q (m, false) c' (Some (thr g 0 m ++ l), b)) ->
  wp rule2 (make_threads g j n) fails c (Some (thr g 0 j ++ l), b) Q QD.
Proof.
  induction n as [|n IH]; intros g j l fails c b Q QD F H1 H2; cbn [make_threads].
  - apply wp_ret. rewrite Nat.add_0_r in H1. apply H1.
  - apply wp_bind, wp_acquire; intros m.
    + rewrite rule2_acq.
      * cbn [registers]. rewrite orb_false_r. change (RThread g j :: thr g 0 j ++ l) with ((RThread g (0 + j) :: thr g 0 j) ++ l).
        rewrite thr_snoc. apply IH; [exact F| |exact H2]. intros c'. replace (S j + n) with (j + S n) by lia. apply H1.
      * rewrite holds_app, (holds_false _ l (F j)), orb_false_r. apply holds_false. exact (thr_next j g 0).
    + apply wp_ret, H2.
Qed.

Lemma group_init_spec : forall n g l fails c b (Q : post (nat * bool)) QD,
  free_of g l -> low l ->
  (forall c', Q (n, true) c' (Some (thr g 0 n ++ RCond g :: l), b)) ->
  (forall c', Q (0, false) c' (Some l, b)) ->
  wp rule2 (group_init g n) fails c (Some l, b) Q QD.
Proof.
  intros n g l fails c b Q QD F L H1 H2. unfold group_init. apply wp_bind, wp_acquire; intros m; cbn [negb].
  - rewrite rule2_acq by (apply holds_false, free_not_cond, F). cbn [registers]. rewrite orb_false_r.
    apply wp_bind. apply (make_spec n g 0 (RCond g :: l)).
    + intros i [H | H]; [discriminate|]. exact (free_not_thread _ _ _ F H).
    + intros c'. apply wp_ret. apply H1.
    + intros k c'. cbn [fst snd]. apply wp_bind. apply stop_spec; [exact F|exact L|]. intros c''.
      apply wp_bind, wp_emit. rewrite rule2_rel with (l' := l).
      * apply wp_ret, H2.
      * rewrite holds_cons, same_refl. reflexivity.
      * exact L.
      * rewrite without_cons, same_refl. apply without_id, free_not_cond, F.
  - apply wp_ret, H2.
Qed.

Lemma group_deinit_spec : forall n g l fails c b (Q : post unit) QD,
  free_of g l -> low l -> (forall c', Q tt c' (Some l, b)) ->
  wp rule2 (group_deinit g n) fails c (Some (thr g 0 n ++ RCond g :: l), b) Q QD.
Proof.
  intros n g l fails c b Q QD F L H. unfold group_deinit. apply wp_bind, stop_spec; [exact F|exact L|]. intros c'.
  apply wp_emit. rewrite rule2_rel with (l' := l); [apply H| |exact L|].
  - rewrite holds_cons, same_refl. reflexivity.
  - rewrite without_cons, same_refl. apply without_id, free_not_cond, F.
Qed.

(** Below other things held *)
Lemma join_spec_under : forall n g j pre l fails c b (Q : post unit) QD,
  (forall i, ~ In (RThread g i) pre) -> low pre -> (forall i, ~ In (RThread g i) l) -> low l ->
  (forall c', Q tt c' (Some (pre ++ l), b)) ->
  wp rule2 (join_threads g j n) fails c (Some (pre ++ thr g j n ++ l), b) Q QD.
Proof.
  induction n as [|n IH]; intros g j pre l fails c b Q QD FP LP F L HQ; cbn [join_threads thr].
  - apply wp_ret, HQ.
  - apply wp_bind, wp_emit. rewrite <- app_assoc. cbn [app].
    rewrite rule2_rel with (l' := pre ++ thr g (S j) n ++ l).
    + apply IH; assumption.
    + rewrite !holds_app, holds_cons, same_refl, !orb_true_r. reflexivity.
    + rewrite !forallb_app. rewrite levels_thr; [|reflexivity]. cbn [level]. unfold low in *. rewrite LP. exact L.
    + rewrite !without_app, without_cons, same_refl, (without_id _ l (F j)), (without_id _ pre (FP j)), without_id; [reflexivity|apply thr_first].
Qed.

Lemma group_deinit_under : forall n g pre l fails c b (Q : post unit) QD,
  free_of g pre -> low pre -> free_of g l -> low l -> (forall c', Q tt c' (Some (pre ++ l), b)) ->
  wp rule2 (group_deinit g n) fails c (Some (pre ++ thr g 0 n ++ RCond g :: l), b) Q QD.
Proof.
  intros n g pre l fails c b Q QD FP LP F L H. unfold group_deinit, stop_threads. do 2 apply wp_bind. apply wp_emit.
  rewrite rule2_use by (rewrite !holds_app, holds_cons, same_refl, !orb_true_r; reflexivity).
  apply join_spec_under; [|exact LP| |exact L|].
  - intros i. apply free_not_thread, FP.
  - intros i [X | X]; [discriminate|]. exact (free_not_thread _ _ _ F X).
  - intros c'. apply wp_emit. rewrite rule2_rel with (l' := pre ++ l); [apply H| | |].
    + rewrite holds_app, holds_cons, same_refl, orb_true_r. reflexivity.
    + rewrite forallb_app. cbn [level]. unfold low in *. rewrite LP. exact L.
    + rewrite without_app, without_cons, same_refl, !without_id; [reflexivity| |]; apply free_not_cond; assumption.
Qed.

(** Once broken, broken *)
Lemma join_none : forall n g j fails c b (Q : post unit) QD,
  (forall c', Q tt c' (None, b)) -> wp rule2 (join_threads g j n) fails c (None, b) Q QD.
Proof.
  induction n as [|n IH]; intros g j fails c b Q QD H; cbn [join_threads]; [apply wp_ret, H|].
  apply wp_bind, wp_emit. rewrite rule2_none by reflexivity. apply IH, H.
Qed.

Lemma group_deinit_none : forall n g s fails c b (Q : post unit) QD,
  rule2 (s, b) (Use (RCond g)) = (None, b) ->
  (forall c', Q tt c' (None, b)) -> wp rule2 (group_deinit g n) fails c (s, b) Q QD.
Proof.
  intros n g s fails c b Q QD E H. unfold group_deinit, stop_threads. do 2 apply wp_bind. apply wp_emit. rewrite E.
  apply join_none. intros c'. apply wp_emit. rewrite rule2_none by reflexivity. apply H.
Qed.

(** *** Everything held below the allocator *)

Lemma low_holds : forall r l, low l -> 3 < level r -> holds r l = false.
Proof.
  intros r l L H. apply holds_false. intros I1. unfold low in L. rewrite forallb_forall in L. specialize (L _ I1).
  apply Nat.leb_le in L. lia.
Qed.
Lemma low_without : forall r l, low l -> 3 < level r -> without r l = l.
Proof.
  intros r l L H. apply without_id. intros I1. unfold low in L. rewrite forallb_forall in L. specialize (L _ I1).
  apply Nat.leb_le in L. lia.
Qed.
Lemma low_levels : forall l k, low l -> 3 <= k -> forallb (fun x => level x <=? k) l = true.
Proof.
  intros l k L H. apply forallb_forall. intros x I1. unfold low in L. rewrite forallb_forall in L. specialize (L _ I1).
  apply Nat.leb_le in L. apply Nat.leb_le. lia.
Qed.

Ltac same_eval :=
  match goal with |- context [same ?a ?b] => let v := eval vm_compute in (same a b) in change (same a b) with v end.

Ltac side L :=
  repeat first
    [ reflexivity
    | assumption
    | rewrite holds_cons | rewrite without_cons | rewrite holds_app | rewrite without_app
    | same_eval
    | rewrite holds_thr by reflexivity | rewrite without_thr by reflexivity
    | rewrite forallb_app | rewrite levels_thr by (cbn; lia)
    | rewrite (low_holds _ _ L) by (cbn; lia) | rewrite (low_without _ _ L) by (cbn; lia)
    | rewrite (low_levels _ _ L) by (cbn; lia)
    | progress cbn [orb andb negb level forallb Nat.leb app holds existsb without filter] ].

Ltac wo L :=
  repeat first
    [ rewrite without_cons | rewrite without_app | same_eval | rewrite without_thr by reflexivity
    | rewrite (low_without _ _ L) by (cbn; lia) | progress cbv iota ].

Lemma rule2_rel' : forall r l b, holds r l = true -> forallb (fun x => level x <=? level r) l = true ->
  rule2 (Some l, b) (Rel r) = (Some (without r l), b).
Proof. intros. apply rule2_rel; auto. Qed.

Ltac ev L :=
  first [ rewrite rule2_acq by (side L) | rewrite rule2_rel' by (side L); wo L | rewrite rule2_use by (side L)
        | rewrite rule2_wr by (side L) | rewrite rule2_none by reflexivity ];
  cbn [registers]; rewrite ?orb_false_r.

(** Allocator *)
Definition al_held (l : list resource) : list resource := RRefs :: RMeta :: RAlLock :: l.

Lemma al_init_spec : forall k l fails c b (Q : post bool) (QD : _ -> Prop),
  low l -> (forall c', Q true c' (Some (al_held l), b)) -> (forall c', Q false c' (Some l, b)) ->
  wp rule2 (al_init k) fails c (Some l, b) Q QD.
Proof.
  intros k l fails c b Q QD L H1 H2. unfold al_init. destruct (allocator_valid k); try (apply wp_ret, H2).
  apply wp_bind, wp_acquire; intros m1; cbn [negb]; [|apply wp_ret, H2]. ev L.
  apply wp_bind, wp_acquire; intros m2; cbn [negb].
  2:{ apply wp_bind, wp_emit. ev L. apply wp_ret, H2. }
  ev L. apply wp_bind, wp_acquire; intros m3; cbn [negb].
  2:{ apply wp_bind, wp_emit. ev L. apply wp_bind, wp_emit. ev L. apply wp_ret, H2. }
  ev L. apply wp_ret, H1.
Qed.

Lemma al_mount_spec : forall k d l fails c b (Q : post bool) (QD : _ -> Prop),
  low l -> (forall c', Q true c' (Some (al_held l), b)) -> (forall c', Q false c' (Some l, b)) ->
  (forall h, QD (Some h, b)) ->
  wp rule2 (al_mount k d) fails c (Some l, b) Q QD.
Proof.
  intros k d l fails c b Q QD L H1 H2 H3. unfold al_mount.
  apply wp_bind, wp_acquire; intros m1; cbn [negb]; [|apply wp_ret, H2]. ev L.
  apply wp_bind, wp_acquire; intros m2; cbn [negb].
  2:{ apply wp_bind, wp_emit. ev L. apply wp_ret, H2. }
  ev L. apply wp_bind, wp_check; intros _; [|apply H3].
  apply wp_bind, wp_acquire; intros m3; cbn [negb].
  2:{ apply wp_bind, wp_emit. ev L. apply wp_bind, wp_emit. ev L. apply wp_ret, H2. }
  ev L. apply wp_bind, wp_works. intros b1. apply wp_bind, wp_check; intros _; [|apply H3].
  apply wp_bind, wp_check; intros _; [|apply H3].
  apply wp_bind, wp_works. intros b2. apply wp_bind, wp_check; intros _; [|apply H3].
  apply wp_ret, H1.
Qed.

Lemma al_unmount_spec : forall refs l fails c b (Q : post unit) (QD : _ -> Prop),
  low l -> holds RFd l = true -> (forall c', Q tt c' (Some l, b)) -> (forall h, QD (Some h, b)) ->
  wp rule2 (al_unmount refs) fails c (Some (al_held l), b) Q QD.
Proof.
  intros refs l fails c b Q QD L F H1 H2. unfold al_unmount, al_held.
  apply wp_bind, wp_works. intros b1. apply wp_bind, wp_check; intros _; [|apply H2].
  apply wp_bind, wp_emit. ev L. apply wp_bind, wp_emit. rewrite rule2_wr by (side L).
  apply wp_bind, wp_emit. ev L. apply wp_bind, wp_emit. ev L. apply wp_emit. ev L. apply H1.
Qed.

(** Cache, over the allocator *)
Definition cache_held (l : list resource) : list resource := RBusy :: RPin :: RCount :: RData :: REntry :: RLookup :: al_held l.

Lemma cache_deinit_spec : forall l fails c b (Q : post unit) (QD : _ -> Prop),
  low l -> (forall c', Q tt c' (Some (al_held l), b)) ->
  wp rule2 cache_deinit fails c (Some (cache_held l), b) Q QD.
Proof.
  intros l fails c b Q QD L H1. unfold cache_deinit, cache_held, al_held, cache_resources. cbn [release_all].
  do 6 (apply wp_bind, wp_emit; ev L). apply wp_ret, H1.
Qed.

Lemma cache_init_spec : forall k l fails c b (Q : post bool) (QD : _ -> Prop),
  low l -> (forall c', Q true c' (Some (cache_held l), b)) -> (forall c', Q false c' (Some (al_held l), b)) ->
  (forall h, QD (Some h, b)) ->
  wp rule2 (cache_init k) fails c (Some (al_held l), b) Q QD.
Proof.
  intros k l fails c b Q QD L H1 H2 H3. unfold cache_init, cache_resources, al_held.
  apply wp_bind, wp_check; intros _; [|apply H3]. apply wp_bind. cbn [acquire_all].
  do 6 (apply wp_bind, wp_acquire; intros ?;
        [ ev L
        | cbn [app]; apply wp_ret; cbn [release_all]; apply wp_bind;
          repeat (apply wp_bind, wp_emit; ev L); apply wp_ret, wp_ret, H2 ]).
  apply wp_ret, wp_ret, H1.
Qed.

(** Trunk, over the cache *)
Definition trunk_held (l : list resource) : list resource := RTrunk :: RSrq :: RSpl :: cache_held l.

Lemma write_pages_spec : forall ps l fails c b (Q : post unit) (QD : _ -> Prop),
  holds RFd l = true -> (forall c', Q tt c' (Some l, b)) ->
  wp rule2 (write_pages ps) fails c (Some l, b) Q QD.
Proof.
  induction ps as [|[a v] ps IH]; intros l fails c b Q QD F H; cbn [write_pages]; [apply wp_ret, H|].
  apply wp_bind, wp_emit. rewrite rule2_wr by exact F. apply IH; assumption.
Qed.

Lemma write_pages_none : forall ps fails c b (Q : post unit) (QD : _ -> Prop),
  (forall c', Q tt c' (None, b)) -> wp rule2 (write_pages ps) fails c (None, b) Q QD.
Proof.
  induction ps as [|[a v] ps IH]; intros fails c b Q QD H; cbn [write_pages]; [apply wp_ret, H|].
  apply wp_bind, wp_emit. rewrite rule2_none by reflexivity. apply IH; assumption.
Qed.

(** Without a registered thread the rule is broken in trunk_create and trunk_mount *)
Definition after_reg (l h : list resource) (b : bool) : option (list resource) * bool :=
  (if holds RReg l then Some h else None, b).

Lemma trunk_create_spec : forall im0 act l fails c b (Q : post (nat * image)) (QD : _ -> Prop),
  low l -> holds RFd l = true ->
  (forall r c', Q r c' (after_reg l (trunk_held l) b)) -> (forall h, QD (h, b)) ->
  wp rule2 (trunk_create im0 act) fails c (Some (cache_held l), b) Q QD.
Proof.
  intros im0 act l fails c b Q QD L F H1 H2. unfold trunk_create, cache_held, al_held.
  apply wp_bind, wp_acquire_or_die; [intros m|apply H2]. ev L.
  apply wp_bind, wp_emit. ev L. apply wp_bind, wp_emit. unfold after_reg in H1.
  destruct (holds RReg l) eqn:R.
  - rewrite rule2_use by (side L). apply wp_bind, wp_acquire_or_die; [intros m'|apply H2]. ev L.
    apply wp_bind, write_pages_spec; [side L|]. intros c'.
    destruct (take_slot _ _) as [[slot ids]|]; [|apply wp_die, H2].
    apply wp_bind, wp_works. intros b1. apply wp_bind, wp_check; intros _; [|apply H2].
    apply wp_bind, wp_emit. rewrite rule2_wr by (side L). unfold write_super. do 2 apply wp_bind. apply wp_emit.
    rewrite rule2_use by (side L). apply wp_emit. rewrite rule2_wr by (side L). apply wp_ret, H1.
  - rewrite rule2_unuse by (side L). apply wp_bind, wp_acquire_or_die; [intros m'|apply H2]. ev L.
    apply wp_bind, write_pages_none. intros c'.
    destruct (take_slot _ _) as [[slot ids]|]; [|apply wp_die, H2].
    apply wp_bind, wp_works. intros b1. apply wp_bind, wp_check; intros _; [|apply H2].
    apply wp_bind, wp_emit. ev L. unfold write_super. do 2 apply wp_bind. apply wp_emit. ev L.
    apply wp_emit. ev L. apply wp_ret, H1.
Qed.

Lemma trunk_mount_spec : forall d act l fails c b (Q : post (option (nat * image))) (QD : _ -> Prop),
  low l -> holds RFd l = true ->
  (forall r c', Q (Some r) c' (after_reg l (trunk_held l) b)) ->
  (forall c', Q None c' (after_reg l (RSrq :: cache_held l) b)) -> (forall h, QD (h, b)) ->
  wp rule2 (trunk_mount d act) fails c (Some (cache_held l), b) Q QD.
Proof.
  intros d act l fails c b Q QD L F H1 H1' H2. unfold trunk_mount, cache_held, al_held.
  apply wp_bind, wp_acquire_or_die; [intros m|apply H2]. ev L.
  apply wp_bind, wp_emit. ev L. apply wp_bind, wp_emit. unfold after_reg in H1, H1'.
  destruct (holds RReg l) eqn:R.
  - rewrite rule2_use by (side L). destruct (find_id _ _ _) as [slot|]; [|apply wp_die, H2].
    destruct (match d_super d slot with Some _ => _ | None => _ end) as [s|].
    + apply wp_bind, wp_acquire_or_die; [intros m'|apply H2]. ev L.
      apply wp_bind, write_pages_spec; [side L|]. intros c'. unfold write_super. do 2 apply wp_bind. apply wp_emit.
      rewrite rule2_use by (side L). apply wp_emit. rewrite rule2_wr by (side L). apply wp_ret, H1.
    + apply wp_bind, wp_emit. ev L. apply wp_ret, H1'.
  - rewrite rule2_unuse by (side L). destruct (find_id _ _ _) as [slot|]; [|apply wp_die, H2].
    destruct (match d_super d slot with Some _ => _ | None => _ end) as [s|].
    + apply wp_bind, wp_acquire_or_die; [intros m'|apply H2]. ev L.
      apply wp_bind, write_pages_none. intros c'. unfold write_super. do 2 apply wp_bind. apply wp_emit. ev L.
      apply wp_emit. ev L. apply wp_ret, H1.
    + apply wp_bind, wp_emit. ev L. apply wp_ret, H1'.
Qed.

Lemma trunk_unmount_spec : forall slot im act l fails c b (Q : post image) (QD : _ -> Prop),
  low l -> holds RFd l = true -> holds RReg l = true ->
  (forall r c', Q r c' (Some (cache_held l), b)) ->
  wp rule2 (trunk_unmount slot im act) fails c (Some (trunk_held l), b) Q QD.
Proof.
  intros slot im act l fails c b Q QD L F R H1. unfold trunk_unmount, trunk_held, cache_held, al_held.
  apply wp_bind, wp_emit. ev L. apply wp_bind, wp_emit. rewrite rule2_use by (side L).
  apply wp_bind, wp_emit. ev L. apply wp_bind, write_pages_spec; [side L|]. intros c'.
  unfold write_super. do 2 apply wp_bind. apply wp_emit. rewrite rule2_use by (side L).
  apply wp_emit. rewrite rule2_wr by (side L). apply wp_bind, wp_emit. ev L. apply wp_ret, H1.
Qed.

(** *** Tasks, over the I/O handle *)

Definition base (heap : bool) : list resource := RReqs :: RFd :: RKvs :: (if heap then [RHeap] else []).
Definition tasks_held (reg heap : bool) (n1 n2 : nat) : list resource :=
  thr 2 0 n2 ++ RCond 2 :: thr 1 0 n1 ++ RCond 1 :: (if reg then RReg :: RTask :: base heap else RTask :: base heap).

Lemma forallb_thr : forall f n g j, (forall i, f (RThread g i) = true) -> forallb f (thr g j n) = true.
Proof. intros f n g j H. apply forallb_forall. intros x I1. apply thr_in in I1 as (i & -> & _). apply H. Qed.

Lemma tasks_low : forall reg heap n1 n2, low (tasks_held reg heap n1 n2).
Proof.
  intros reg heap n1 n2. unfold low, tasks_held. rewrite forallb_app, forallb_thr by reflexivity. cbn [andb forallb level Nat.leb].
  rewrite forallb_app, forallb_thr by reflexivity. destruct reg, heap; reflexivity.
Qed.

Lemma tasks_fd : forall reg heap n1 n2, holds RFd (tasks_held reg heap n1 n2) = true.
Proof.
  intros reg heap n1 n2. unfold tasks_held. rewrite holds_app, holds_cons, holds_app, holds_cons. rewrite !holds_thr by reflexivity.
  destruct reg, heap; reflexivity.
Qed.

Lemma tasks_reg : forall reg heap n1 n2, holds RReg (tasks_held reg heap n1 n2) = reg.
Proof.
  intros reg heap n1 n2. unfold tasks_held. rewrite holds_app, holds_cons, holds_app, holds_cons. rewrite !holds_thr by reflexivity.
  destruct reg, heap; reflexivity.
Qed.

Lemma tasks_free2 : forall (reg heap : bool) n1, free_of 2 (thr 1 0 n1 ++ RCond 1 :: (if reg then RReg :: RTask :: base heap else RTask :: base heap)).
Proof. intros. unfold free_of. rewrite forallb_app, forallb_thr by reflexivity. destruct reg, heap; reflexivity. Qed.
Lemma tasks_low1 : forall (reg heap : bool) n1, low (thr 1 0 n1 ++ RCond 1 :: (if reg then RReg :: RTask :: base heap else RTask :: base heap)).
Proof. intros. unfold low. rewrite forallb_app, forallb_thr by reflexivity. destruct reg, heap; reflexivity. Qed.
Lemma tasks_free1 : forall reg heap : bool, free_of 1 (if reg then RReg :: RTask :: base heap else RTask :: base heap).
Proof. intros [] []; reflexivity. Qed.
Lemma tasks_low0 : forall reg heap : bool, low (if reg then RReg :: RTask :: base heap else RTask :: base heap).
Proof. intros [] []; reflexivity. Qed.

Lemma tasks_destroy_spec : forall n1 n2 reg heap fails c b (Q : post unit) QD,
  (forall c', Q tt c' (Some (base heap), b)) ->
  wp rule2 (tasks_destroy n1 n2 reg) fails c (Some (tasks_held reg heap n1 n2), b) Q QD.
Proof.
  intros n1 n2 reg heap fails c b Q QD H. unfold tasks_destroy, tasks_held.
  apply wp_bind. change (RCond 2 :: thr 1 0 n1 ++ RCond 1 :: ?l) with ([RCond 2] ++ thr 1 0 n1 ++ RCond 1 :: l).
  rewrite app_assoc. apply group_deinit_under.
  - unfold free_of. rewrite forallb_app, forallb_thr by reflexivity. reflexivity.
  - unfold low. rewrite forallb_app, forallb_thr by reflexivity. reflexivity.
  - apply tasks_free1.
  - apply tasks_low0.
  - intros c1. rewrite <- app_assoc. cbn [app]. apply wp_bind, group_deinit_spec.
    + destruct reg, heap; reflexivity.
    + apply tasks_low0.
    + intros c2. destruct reg; apply wp_bind.
      * apply wp_emit. rewrite rule2_rel with (l' := RTask :: base heap) by (destruct heap; reflexivity).
        apply wp_emit. rewrite rule2_rel with (l' := base heap) by (destruct heap; reflexivity). apply H.
      * apply wp_ret. apply wp_emit. rewrite rule2_rel with (l' := base heap) by (destruct heap; reflexivity). apply H.
Qed.

(** Out of its parts: fails with nothing held, or breaks the rule, or is up *)
Lemma tasks_create_spec : forall n1 n2 heap fails c (Q : post (bool + place)) (QD : _ -> Prop),
  (forall reg c', Q (inl reg) c' (Some (tasks_held reg heap n1 n2), reg)) ->
  (forall c', Q (inr PTaskMem) c' (Some (base heap), false)) ->
  (forall b c', Q (inr PTaskGroup) c' (None, b)) ->
  (forall h b, QD (Some h, b)) ->
  wp rule2 (tasks_create n1 n2) fails c (Some (base heap), false) Q QD.
Proof.
  intros n1 n2 heap fails c Q QD H1 H2 H3 H4. unfold tasks_create.
  apply wp_bind, wp_acquire; intros m1; cbn [negb]; [|apply wp_ret, H2].
  rewrite rule2_acq by (destruct heap; reflexivity). cbn [registers orb].
  assert (G : forall reg c', wp rule2
    (do r1 <- group_init 1 n1;
     if negb (snd r1) then
       check reg ;; emit (Rel RReg) ;; tasks_destroy (fst r1) 0 false ;; ret (inr PTaskGroup)
     else
     do r2 <- group_init 2 n2;
     if negb (snd r2) then
       check reg ;; emit (Rel RReg) ;; tasks_destroy (fst r1) (fst r2) false ;; ret (inr PTaskGroup)
     else ret (inl reg)) fails c'
    (Some (if reg then RReg :: RTask :: base heap else RTask :: base heap), reg) Q QD).
  { intros reg c'. apply wp_bind, group_init_spec; [apply tasks_free1|apply tasks_low0| |]; intros c1; cbn [fst snd negb].
    - apply wp_bind, group_init_spec; [apply tasks_free2|apply tasks_low1| |]; intros c2; cbn [fst snd negb].
      + apply wp_ret, H1.
      + apply wp_bind, wp_check; intros E; [|subst; apply H4]. subst reg.
        apply wp_bind, wp_emit. rewrite rule2_rel with (l' := thr 1 0 n1 ++ RCond 1 :: RTask :: base heap).
        * apply wp_bind. unfold tasks_destroy. apply wp_bind, group_deinit_spec; [destruct heap; reflexivity|destruct heap; reflexivity|].
          intros c3. apply wp_bind, group_deinit_none; [apply rule2_unuse; destruct heap; reflexivity|].
          intros c4. apply wp_bind, wp_ret, wp_emit. rewrite rule2_none by reflexivity. apply wp_ret, H3.
        * rewrite holds_app, holds_thr by reflexivity. destruct heap; reflexivity.
        * rewrite forallb_app, levels_thr by reflexivity. destruct heap; reflexivity.
        * rewrite without_app, without_thr by reflexivity. destruct heap; reflexivity.
    - apply wp_bind, wp_check; intros E; [|subst; apply H4]. subst reg.
      apply wp_bind, wp_emit. rewrite rule2_rel with (l' := RTask :: base heap) by (destruct heap; reflexivity).
      apply wp_bind. unfold tasks_destroy. apply wp_bind, group_deinit_none; [apply rule2_unuse; destruct heap; reflexivity|].
      intros c3. apply wp_bind, group_deinit_none; [reflexivity|]. intros c4.
      apply wp_bind, wp_ret, wp_emit. rewrite rule2_none by reflexivity. apply wp_ret, H3. }
  apply wp_bind, wp_acquire; intros m2.
  - rewrite rule2_acq by (destruct heap; reflexivity). exact (G true m2).
  - exact (G false m2).
Qed.

Lemma fail_spec : forall heap p fails c b (Q : post result) QD,
  (forall c', Q (Bad p) c' (Some [], b)) ->
  wp rule2 (fail_kvs heap true p) fails c (Some (RKvs :: (if heap then [RHeap] else [])), b) Q QD.
Proof.
  intros heap p fails c b Q QD H. unfold fail_kvs. apply wp_bind, wp_emit.
  rewrite rule2_rel with (l' := if heap then [RHeap] else []) by (destruct heap; reflexivity).
  destruct heap; apply wp_bind; [apply wp_emit; rewrite rule2_rel with (l' := []) by reflexivity|apply wp_ret]; apply wp_ret, H.
Qed.

Lemma down_spec : forall heap p fails c b (Q : post result) QD,
  (forall c', Q (Bad p) c' (Some [], b)) ->
  wp rule2 (io_deinit ;; fail_kvs heap true p) fails c (Some (base heap), b) Q QD.
Proof.
  intros heap p fails c b Q QD H. apply wp_bind. unfold io_deinit. apply wp_bind, wp_emit.
  rewrite rule2_rel with (l' := RReqs :: RKvs :: (if heap then [RHeap] else [])) by (destruct heap; reflexivity).
  apply wp_emit. rewrite rule2_rel with (l' := RKvs :: (if heap then [RHeap] else [])) by (destruct heap; reflexivity).
  apply fail_spec, H.
Qed.

(** *** The whole call *)

(** Failures that do not give back everything *)
Definition leaky (p : place) : bool :=
  match p with PIoStat | PIoFallocate | PTaskGroup | PTrunk => true | _ => false end.

Definition make_heap (q : request) : bool := q_shmem q && negb (q_has_heap q).

Definition n1_of (k : kvs) : nat := threads (u_memtable_threads (k_cfg k)).
Definition n2_of (k : kvs) : nat := threads (u_normal_threads (k_cfg k)).

Definition up_held (q : request) (k : kvs) (reg : bool) : list resource :=
  tasks_held reg (make_heap q) (n1_of k) (n2_of k).

(** The end of a call *)
Definition call_end (q : request) (r : result) (s : option (list resource) * bool) : Prop :=
  match r with
  | Bad p => if leaky p then fst s = None else fst s = Some []
  | Good _ _ => exists k reg, init_config (q_conf q) = Ok k /\ s = after_reg (up_held q k reg) (trunk_held (up_held q k reg)) reg
  end.

Lemma release_all_none : forall rs fails c b (Q : post unit) QD,
  (forall c', Q tt c' (None, b)) -> wp rule2 (release_all rs) fails c (None, b) Q QD.
Proof.
  induction rs as [|r rs IH]; intros fails c b Q QD H; cbn [release_all]; [apply wp_ret, H|].
  apply wp_bind, wp_emit. rewrite rule2_none by reflexivity. apply IH, H.
Qed.

Lemma al_unmount_none : forall refs fails c b (Q : post unit) (QD : _ -> Prop),
  (forall c', Q tt c' (None, b)) -> QD (None, b) -> wp rule2 (al_unmount refs) fails c (None, b) Q QD.
Proof.
  intros refs fails c b Q QD H HD. unfold al_unmount. apply wp_bind, wp_works. intros b1.
  apply wp_bind, wp_check; intros _; [|exact HD].
  do 4 (apply wp_bind, wp_emit; rewrite rule2_none by reflexivity). apply wp_emit; rewrite rule2_none by reflexivity. apply H.
Qed.

Lemma tasks_destroy_none : forall n1 n2 reg fails c b (Q : post unit) QD,
  (forall c', Q tt c' (None, b)) -> wp rule2 (tasks_destroy n1 n2 reg) fails c (None, b) Q QD.
Proof.
  intros n1 n2 reg fails c b Q QD H. unfold tasks_destroy.
  apply wp_bind, group_deinit_none; [apply rule2_none; reflexivity|]. intros c1.
  apply wp_bind, group_deinit_none; [apply rule2_none; reflexivity|]. intros c2. apply wp_bind.
  destruct reg; [apply wp_emit; rewrite rule2_none by reflexivity|apply wp_ret]; apply wp_emit; rewrite rule2_none by reflexivity; apply H.
Qed.

Lemma fail_none : forall heap p fails c b (Q : post result) QD,
  (forall c', Q (Bad p) c' (None, b)) -> wp rule2 (fail_kvs heap true p) fails c (None, b) Q QD.
Proof.
  intros heap p fails c b Q QD H. unfold fail_kvs. apply wp_bind, wp_emit. rewrite rule2_none by reflexivity.
  apply wp_bind. destruct heap; [apply wp_emit; rewrite rule2_none by reflexivity|apply wp_ret]; apply wp_ret, H.
Qed.

Lemma down_none : forall heap p fails c b (Q : post result) QD,
  (forall c', Q (Bad p) c' (None, b)) -> wp rule2 (io_deinit ;; fail_kvs heap true p) fails c (None, b) Q QD.
Proof.
  intros heap p fails c b Q QD H. apply wp_bind. unfold io_deinit. apply wp_bind, wp_emit. rewrite rule2_none by reflexivity.
  apply wp_emit. rewrite rule2_none by reflexivity. apply fail_none, H.
Qed.

(** A descriptor left open when the handle is freed *)
Lemma fail_leak : forall heap p fails c b (Q : post result) QD,
  (forall c', Q (Bad p) c' (None, b)) ->
  wp rule2 (fail_kvs heap true p) fails c (Some (RFd :: RKvs :: (if heap then [RHeap] else [])), b) Q QD.
Proof.
  intros heap p fails c b Q QD H. unfold fail_kvs. apply wp_bind, wp_emit.
  replace (rule2 _ _) with (@None (list resource), b) by (unfold rule2; destruct heap, b; reflexivity).
  apply wp_bind. destruct heap; [apply wp_emit; rewrite rule2_none by reflexivity|apply wp_ret]; apply wp_ret, H.
Qed.

Lemma io_init_spec : forall depth heap fails c b (Q : post (option place)) (QD : _ -> Prop),
  (forall c', Q None c' (Some (base heap), b)) ->
  (forall c', Q (Some PIoOpen) c' (Some (RKvs :: (if heap then [RHeap] else [])), b)) ->
  (forall p c', p = PIoStat \/ p = PIoFallocate -> Q (Some p) c' (Some (RFd :: RKvs :: (if heap then [RHeap] else [])), b)) ->
  (forall s, QD s) ->
  wp rule2 (io_init depth) fails c (Some (RKvs :: (if heap then [RHeap] else [])), b) Q QD.
Proof.
  intros depth heap fails c b Q QD H1 H2 H3 HD. unfold io_init.
  apply wp_bind, wp_check; intros _; [|apply HD].
  apply wp_bind, wp_acquire; intros m1; cbn [negb]; [|apply wp_ret, H2].
  rewrite rule2_acq by (destruct heap; reflexivity). cbn [registers]. rewrite orb_false_r.
  apply wp_bind, wp_works. intros [|]; cbn [negb]; [|apply wp_ret, H3; auto].
  apply wp_bind, wp_works. intros [|]; cbn [negb]; [|apply wp_ret, H3; auto].
  apply wp_bind, wp_acquire_or_die; [intros m2|apply HD].
  rewrite rule2_acq by (destruct heap; reflexivity). cbn [registers]. rewrite orb_false_r. apply wp_ret, H1.
Qed.

Lemma create_or_open_spec : forall q d act fails c,
  wp rule2 (create_or_open q d act) fails c (Some [], false) (fun r _ s => call_end q r s) (fun _ => True).
Proof.
  intros q d act fails c. unfold create_or_open. fold (make_heap q).
  assert (B : forall c', wp rule2
    (do ok <- acquire RKvs;
     if negb ok then fail_kvs (make_heap q) false PKvs else
     match init_config (q_conf q) with
     | BadParam => fail_kvs (make_heap q) true PConfig
     | Ok k =>
      let n1 := threads (u_memtable_threads (k_cfg k)) in
      let n2 := threads (u_normal_threads (k_cfg k)) in
      do io <- io_init (u_io_depth (k_cfg k));
      match io with
      | Some p => fail_kvs (make_heap q) true p
      | None =>
          do t <- tasks_create n1 n2;
          match t with
          | inr p => io_deinit ;; fail_kvs (make_heap q) true p
          | inl reg =>
              do al <- (if q_open q then al_mount k d else al_init k);
              let refs := if q_open q then d_refs d else new_refs (k_disk_extents k) in
              if negb al then
                tasks_destroy n1 n2 reg ;; io_deinit ;; fail_kvs (make_heap q) true PAllocator
              else
              do cc <- cache_init k;
              if negb cc then
                al_unmount refs ;;
                tasks_destroy n1 n2 reg ;; io_deinit ;; fail_kvs (make_heap q) true PCache
              else
              do spl <- (if q_open q then trunk_mount d act
                         else do r <- trunk_create (Image refs (d_pages d) 0 0 0) act; ret (Some r));
              match spl with
              | Some (slot, im) => ret (Good slot im)
              | None =>
                  cache_deinit ;; al_unmount refs ;;
                  tasks_destroy n1 n2 reg ;; io_deinit ;; fail_kvs (make_heap q) true PTrunk
              end
          end
      end
     | _ => die
     end) fails c' (Some (if make_heap q then [RHeap] else []), false) (fun r _ s => call_end q r s) (fun _ => True)).
  { intros c0. apply wp_bind, wp_acquire; intros m1; cbn [negb].
    2:{ unfold fail_kvs. apply wp_bind, wp_ret, wp_bind. destruct (make_heap q); [apply wp_emit|apply wp_ret]; apply wp_ret; reflexivity. }
    rewrite rule2_acq by (destruct (make_heap q); reflexivity). cbn [registers orb].
    destruct (init_config (q_conf q)) as [k| | | | ] eqn:EC; try (apply wp_die; exact Logic.I); try (apply fail_spec; reflexivity).
    cbv zeta. fold (n1_of k) (n2_of k).
    apply wp_bind, io_init_spec; try (intros; exact Logic.I).
    2:{ intros c1. apply fail_spec. reflexivity. }
    2:{ intros p c1 [-> | ->]; apply fail_leak; reflexivity. }
    intros c1. apply wp_bind, tasks_create_spec; try (intros; exact Logic.I).
    2:{ intros c2. apply down_spec. reflexivity. }
    2:{ intros b c2. apply down_none. reflexivity. }
    intros reg c2. fold (up_held q k reg).
    pose proof (tasks_low reg (make_heap q) (n1_of k) (n2_of k)) as L. fold (up_held q k reg) in L.
    pose proof (tasks_fd reg (make_heap q) (n1_of k) (n2_of k)) as F. fold (up_held q k reg) in F.
    assert (AL : forall c3 al, wp rule2
      (if negb al then tasks_destroy (n1_of k) (n2_of k) reg ;; io_deinit ;; fail_kvs (make_heap q) true PAllocator
       else
         do cc <- cache_init k;
         if negb cc then
           al_unmount (if q_open q then d_refs d else new_refs (k_disk_extents k)) ;;
           tasks_destroy (n1_of k) (n2_of k) reg ;; io_deinit ;; fail_kvs (make_heap q) true PCache
         else
         do spl <- (if q_open q then trunk_mount d act
                    else do r <- trunk_create (Image (if q_open q then d_refs d else new_refs (k_disk_extents k)) (d_pages d) 0 0 0) act; ret (Some r));
         match spl with
         | Some (slot, im) => ret (Good slot im)
         | None =>
             cache_deinit ;; al_unmount (if q_open q then d_refs d else new_refs (k_disk_extents k)) ;;
             tasks_destroy (n1_of k) (n2_of k) reg ;; io_deinit ;; fail_kvs (make_heap q) true PTrunk
         end) fails c3 (Some (if al then al_held (up_held q k reg) else up_held q k reg), reg)
      (fun r _ s => call_end q r s) (fun _ => True)).
    { intros c3 [|]; cbn [negb].
      2:{ apply wp_bind, tasks_destroy_spec. intros c4. apply down_spec. reflexivity. }
      apply wp_bind, cache_init_spec; [exact L| | |intros; exact Logic.I].
      2:{ intros c4. cbn [negb]. apply wp_bind, al_unmount_spec; [exact L|exact F| |intros; exact Logic.I]. intros c5.
          apply wp_bind, tasks_destroy_spec. intros c6. apply down_spec. reflexivity. }
      intros c4. cbn [negb]. apply wp_bind. destruct (q_open q) eqn:EO.
      - apply trunk_mount_spec; [exact L|exact F| | |intros; exact Logic.I].
        + intros [slot im] c5. apply wp_ret. exists k, reg. split; [exact EC|reflexivity].
        + intros c5. unfold after_reg.
          assert (N1 : forall s c', s = None \/ s = Some (RSrq :: cache_held (up_held q k reg)) ->
            wp rule2 cache_deinit fails c' (s, reg) (fun _ c6 s' => s' = (None, reg)) (fun _ => True)).
          { intros s c' [-> | ->].
            - unfold cache_deinit. apply release_all_none. reflexivity.
            - unfold cache_deinit, cache_resources. cbn [release_all]. apply wp_bind, wp_emit.
              replace (rule2 _ _) with (@None (list resource), reg).
              + repeat (apply wp_bind, wp_emit; rewrite rule2_none by reflexivity). apply wp_ret. reflexivity.
              + unfold rule2. cbn [fst snd rule registers]. rewrite orb_false_r. cbn [forallb level Nat.leb andb].
                rewrite andb_false_r. reflexivity. }
          apply wp_bind. eapply wp_mono; [apply N1|cbv beta; intros [] c6 s' ->|intros; exact Logic.I].
          { destruct (holds RReg (up_held q k reg)); auto. }
          apply wp_bind, al_unmount_none; [|exact Logic.I]. intros c7.
          apply wp_bind, tasks_destroy_none. intros c8. apply down_none. reflexivity.
      - apply wp_bind, trunk_create_spec; [exact L|exact F| |intros; exact Logic.I].
        intros [slot im] c5. apply wp_ret, wp_ret. exists k, reg. split; [exact EC|reflexivity]. }
    apply wp_bind. destruct (q_open q).
    - apply al_mount_spec; [exact L| | |intros; exact Logic.I]; intros c3; [exact (AL c3 true)|exact (AL c3 false)].
    - apply al_init_spec; [exact L| |]; intros c3; [exact (AL c3 true)|exact (AL c3 false)]. }
  destruct (make_heap q).
  - apply wp_bind, wp_acquire; intros m1; cbn [negb]; [rewrite rule2_acq by reflexivity; exact (B m1)|].
    unfold fail_kvs. apply wp_bind, wp_ret, wp_bind, wp_ret, wp_ret. reflexivity.
  - apply wp_bind, wp_ret. cbn [negb]. exact (B c).
Qed.

Lemma close_spec : forall q k slot im act fails c b,
  wp rule2 (close q k slot im act) fails c (Some (trunk_held (up_held q k true)), b)
     (fun _ _ s => s = (Some [], b)) (fun s => exists h, s = (Some h, b)).
Proof.
  intros q k slot im act fails c b. unfold close.
  pose proof (tasks_low true (make_heap q) (n1_of k) (n2_of k)) as L.
  pose proof (tasks_fd true (make_heap q) (n1_of k) (n2_of k)) as F.
  pose proof (tasks_reg true (make_heap q) (n1_of k) (n2_of k)) as R.
  apply wp_bind, trunk_unmount_spec; [exact L|exact F|exact R|]. intros im' c1.
  apply wp_bind, cache_deinit_spec; [exact L|]. intros c2.
  apply wp_bind, al_unmount_spec; [exact L|exact F| |intros h; exists h; reflexivity]. intros c3.
  apply wp_bind, tasks_destroy_spec. intros c4. fold (make_heap q).
  apply wp_bind. unfold io_deinit. apply wp_bind, wp_emit.
  rewrite rule2_rel with (l' := RReqs :: RKvs :: (if make_heap q then [RHeap] else [])) by (destruct (make_heap q); reflexivity).
  apply wp_emit. rewrite rule2_rel with (l' := RKvs :: (if make_heap q then [RHeap] else [])) by (destruct (make_heap q); reflexivity).
  apply wp_bind, wp_emit. rewrite rule2_rel with (l' := if make_heap q then [RHeap] else []) by (destruct (make_heap q); reflexivity).
  apply wp_bind. destruct (make_heap q); [apply wp_emit; rewrite rule2_rel with (l' := []) by reflexivity|apply wp_ret]; apply wp_ret; reflexivity.
Qed.

(** ** Writes to the device *)

Definition wobs (s : list write) (e : event) : list write := s ++ writes_of [e].

Lemma wobs_fold : forall es s, fold_left wobs es s = s ++ writes_of es.
Proof.
  induction es as [|e es IH]; intros s; cbn [fold_left]; [cbn; rewrite app_nil_r; reflexivity|].
  rewrite IH. unfold wobs, writes_of. cbn [flat_map]. rewrite app_nil_r, app_assoc. reflexivity.
Qed.

Definition silent {A} (m : M A) : Prop := forall fails n, writes_of (snd (m fails n)) = [].

Lemma writes_app : forall a b, writes_of (a ++ b) = writes_of a ++ writes_of b.
Proof. intros. apply flat_map_app. Qed.

Lemma silent_ret : forall A (a : A), silent (ret a).
Proof. intros A a fails n. reflexivity. Qed.
Lemma silent_die : forall A, silent (@die A).
Proof. intros A fails n. reflexivity. Qed.
Lemma silent_works : silent works.
Proof. intros fails n. reflexivity. Qed.
Lemma silent_emit : forall e, writes_of [e] = [] -> silent (emit e).
Proof. intros e H fails n. exact H. Qed.
Lemma silent_bind : forall A B (m : M A) (k : A -> M B), silent m -> (forall a, silent (k a)) -> silent (bind m k).
Proof.
  intros A B m k H1 H2 fails n. unfold bind. specialize (H1 fails n). destruct (m fails n) as [[[a|] n1] e1]; [|exact H1].
  specialize (H2 a fails n1). destruct (k a fails n1) as [[o n2] e2]. cbn [snd] in *. rewrite writes_app, H1, H2. reflexivity.
Qed.

Ltac silence :=
  repeat match goal with
  | |- silent (ret _) => apply silent_ret
  | |- silent die => apply silent_die
  | |- silent works => apply silent_works
  | |- silent (emit _) => apply silent_emit; reflexivity
  | |- silent (bind _ _) => apply silent_bind; [|intros ?]
  | |- silent (match ?x with _ => _ end) => destruct x
  end.

Lemma silent_acquire : forall r, silent (acquire r).
Proof. intros r. unfold acquire. silence. Qed.
Lemma silent_aod : forall r, silent (acquire_or_die r).
Proof. intros r. unfold acquire_or_die. apply silent_bind; [apply silent_acquire|]. intros []; silence. Qed.
Lemma silent_check : forall b, silent (check b).
Proof. intros []; unfold check; silence. Qed.
Lemma silent_join : forall n g j, silent (join_threads g j n).
Proof. induction n as [|n IH]; intros g j; cbn [join_threads]; silence. apply IH. Qed.
Lemma silent_make : forall n g j, silent (make_threads g j n).
Proof. induction n as [|n IH]; intros g j; cbn [make_threads]; silence; first [apply IH|apply silent_acquire]. Qed.
Lemma silent_stop : forall g n, silent (stop_threads g n).
Proof. intros. unfold stop_threads. silence. apply silent_join. Qed.
Lemma silent_io : forall depth, silent (io_init depth).
Proof. intros. unfold io_init. silence; first [apply silent_check|apply silent_acquire|apply silent_aod]. Qed.
Lemma silent_io_deinit : silent io_deinit.
Proof. unfold io_deinit. silence. Qed.
Lemma silent_group_init : forall g n, silent (group_init g n).
Proof. intros. unfold group_init. silence; first [apply silent_acquire|apply silent_make|apply silent_stop]. Qed.
Lemma silent_group_deinit : forall g n, silent (group_deinit g n).
Proof. intros. unfold group_deinit. silence. apply silent_stop. Qed.
Lemma silent_destroy : forall n1 n2 reg, silent (tasks_destroy n1 n2 reg).
Proof. intros. unfold tasks_destroy. silence; apply silent_group_deinit. Qed.
Lemma silent_tasks : forall n1 n2, silent (tasks_create n1 n2).
Proof.
  intros. unfold tasks_create.
  silence; first [apply silent_acquire|apply silent_group_init|apply silent_check|apply silent_destroy].
Qed.
Lemma silent_al_init : forall k, silent (al_init k).
Proof. intros. unfold al_init. silence; apply silent_acquire. Qed.
Lemma silent_al_mount : forall k d, silent (al_mount k d).
Proof. intros. unfold al_mount. silence; first [apply silent_acquire|apply silent_check]. Qed.
Lemma silent_release : forall rs, silent (release_all rs).
Proof. induction rs as [|r rs IH]; cbn [release_all]; silence. exact IH. Qed.
Lemma silent_acquire_all : forall rs have, silent (acquire_all rs have).
Proof. induction rs as [|r rs IH]; intros have; cbn [acquire_all]; silence; first [apply IH|apply silent_acquire]. Qed.
Lemma silent_cache : forall k, silent (cache_init k).
Proof. intros. unfold cache_init. silence; first [apply silent_check|apply silent_acquire_all|apply silent_release]. Qed.
Lemma silent_fail : forall a b p, silent (fail_kvs a b p).
Proof. intros. unfold fail_kvs. silence. Qed.

Lemma wp_silent : forall A (m : M A) fails c s (Q : A -> nat -> list write -> Prop) (QD : list write -> Prop),
  silent m -> (forall a c', Q a c' s) -> QD s -> wp wobs m fails c s Q QD.
Proof.
  intros A m fails c s Q QD H H1 H2. unfold wp. specialize (H fails c). destruct (m fails c) as [[[a|] n] es]; cbn [snd] in H;
    rewrite wobs_fold, H, app_nil_r; auto.
Qed.

Lemma wobs_quiet : forall s e, writes_of [e] = [] -> wobs s e = s.
Proof. intros s e H. unfold wobs. rewrite H, app_nil_r. reflexivity. Qed.

Definition wpages (act : activity) : list write := map (fun p => WPage (fst p) (snd p)) (act_pages act).

Lemma wp_pages : forall ps fails c s (Q : unit -> nat -> list write -> Prop) QD,
  (forall c', Q tt c' (s ++ map (fun p => WPage (fst p) (snd p)) ps)) -> wp wobs (write_pages ps) fails c s Q QD.
Proof.
  induction ps as [|[a v] ps IH]; intros fails c s Q QD H; cbn [write_pages map] in *.
  - apply wp_ret. rewrite <- (app_nil_r s). apply H.
  - apply wp_bind, wp_emit. apply IH. intros c'. unfold wobs. cbn [writes_of flat_map app]. rewrite <- app_assoc. apply H.
Qed.

Lemma wp_super : forall slot im now u fails c s (Q : unit -> nat -> list write -> Prop) QD,
  (forall c', Q tt c' (s ++ [WSuper slot (Super (i_root im) (i_next im) (i_tail im) now u)])) ->
  wp wobs (write_super slot im now u) fails c s Q QD.
Proof.
  intros slot im now u fails c s Q QD H. unfold write_super. apply wp_bind, wp_emit. rewrite wobs_quiet by reflexivity.
  apply wp_emit. unfold wobs. apply H.
Qed.

Lemma wp_unmount : forall refs fails c s (Q : unit -> nat -> list write -> Prop) (QD : _ -> Prop),
  (forall c', Q tt c' (s ++ [WRefs refs])) -> QD s -> wp wobs (al_unmount refs) fails c s Q QD.
Proof.
  intros refs fails c s Q QD H HD. unfold al_unmount. apply wp_bind, wp_works. intros b. apply wp_bind, wp_check; intros _; [|exact HD].
  apply wp_bind, wp_emit. rewrite wobs_quiet by reflexivity. apply wp_bind, wp_emit.
  do 2 (apply wp_bind, wp_emit; rewrite wobs_quiet by reflexivity). apply wp_emit. rewrite wobs_quiet by reflexivity. apply H.
Qed.

(** What is written by a call that ends like this *)
Definition start_super (im : image) (act : activity) : super := Super (i_root im) (i_next im) (i_tail im) (act_time act) false.

Definition mountable (s : super) : bool := s_unmounted s && N.ltb 0 (s_time s) && negb (N.eqb (s_root s) 0).

Definition open_writes (d : disk) (act : activity) (r : result) (ws : list write) : Prop :=
  match r with
  | Good slot im => exists ids s, d_meta d = Some ids /\ find_id ids trunk_id 0 = Some slot /\ d_super d slot = Some s /\
      mountable s = true /\ im = act_image act (Image (d_refs d) (d_pages d) (s_root s) (s_next s) (s_tail s)) /\
      ws = wpages act ++ [WSuper slot (start_super im act)]
  | Bad p => ws = [] \/ ws = [WRefs (d_refs d)]
  end.

Definition new_ids : list N := 1%N :: repeat 0%N 29.

Definition create_writes (d : disk) (act : activity) (r : result) (ws : list write) : Prop :=
  match r with
  | Good slot im => slot = 0 /\ ws = wpages act ++ [WMeta new_ids; WSuper 0 (start_super im act)]
  | Bad p => ws = [] \/ exists extents, ws = [WRefs (new_refs extents)]
  end.

Lemma call_writes : forall q d act fails c,
  wp wobs (create_or_open q d act) fails c []
     (fun r _ ws => if q_open q then open_writes d act r ws else create_writes d act r ws)
     (fun ws => if q_open q then ws = [] \/ ws = [WRefs (d_refs d)]
                else ws = [] \/ ws = wpages act \/ exists extents, ws = [WRefs (new_refs extents)]).
Proof.
  intros q d act fails c. unfold create_or_open.
  remember (fun ws => if q_open q then ws = [] \/ ws = [WRefs (d_refs d)]
                else ws = [] \/ ws = wpages act \/ exists extents, ws = [WRefs (new_refs extents)]) as PD eqn:EPD.
  assert (HD : PD []) by (subst PD; destruct (q_open q); auto).
  assert (HR : forall k, PD [WRefs (if q_open q then d_refs d else new_refs (k_disk_extents k))])
    by (intros k; subst PD; destruct (q_open q); [auto|right; right; eexists; reflexivity]).
  remember (fun (r : result) (_ : nat) ws => if q_open q then open_writes d act r ws else create_writes d act r ws) as P eqn:EP.
  assert (HB : forall p c', P (Bad p) c' []) by (intros p c'; subst P; destruct (q_open q); cbn; auto).
  assert (HBR : forall k p c', P (Bad p) c' [WRefs (if q_open q then d_refs d else new_refs (k_disk_extents k))])
    by (intros k p c'; subst P; destruct (q_open q); cbn; [auto|right; eexists; reflexivity]).
  apply wp_bind, wp_silent; [destruct (_ && _); [apply silent_acquire|apply silent_ret]| |exact HD].
  intros ok0 c0. destruct ok0; cbn [negb].
  2:{ unfold fail_kvs. repeat (apply wp_bind, wp_ret). apply wp_ret, HB. }
  assert (HF : forall a b p c' s, (forall x, P (Bad p) x s) -> wp wobs (fail_kvs a b p) fails c' s P PD).
  { intros a b p c' s H. unfold fail_kvs. apply wp_bind. destruct b; [apply wp_emit; rewrite wobs_quiet by reflexivity|apply wp_ret];
      apply wp_bind; (destruct a; [apply wp_emit; rewrite wobs_quiet by reflexivity|apply wp_ret]); apply wp_ret, H. }
  apply wp_bind, wp_silent; [apply silent_acquire| |exact HD]. intros ok1 c1. destruct ok1; cbn [negb].
  2:{ apply HF. intros; apply HB. }
  destruct (init_config (q_conf q)) as [k| | | | ]; try (apply wp_die, HD); try (apply HF; intros; apply HB).
  cbv zeta. apply wp_bind, wp_silent; [apply silent_io| |exact HD]. intros io c2. destruct io as [p|]; [apply HF; intros; apply HB|].
  apply wp_bind, wp_silent; [apply silent_tasks| |exact HD]. intros t c3. destruct t as [reg|p].
  2:{ apply wp_bind, wp_silent; [apply silent_io_deinit| |exact HD]. intros. apply HF. intros; apply HB. }
  assert (HT : forall n1 n2 p c' s, (forall x, P (Bad p) x s) -> PD s ->
    wp wobs (tasks_destroy n1 n2 reg ;; io_deinit ;; fail_kvs (q_shmem q && negb (q_has_heap q)) true p) fails c' s P PD).
  { intros n1 n2 p c' s H H'. apply wp_bind, wp_silent; [apply silent_destroy| |exact H']. intros _ x.
    apply wp_bind, wp_silent; [apply silent_io_deinit| |exact H']. intros _ y. apply HF, H. }
  apply wp_bind, wp_silent; [destruct (q_open q); [apply silent_al_mount|apply silent_al_init]| |exact HD]. intros al c4.
  destruct al; cbn [negb]. 2:{ apply HT; [intros; apply HB|exact HD]. }
  apply wp_bind, wp_silent; [apply silent_cache| |exact HD]. intros cc c5. destruct cc; cbn [negb].
  2:{ apply wp_bind, wp_unmount; [|exact HD]. intros c6. cbn [app]. apply HT; [intros; apply HBR|apply HR]. }
  assert (HN : forall c', wp wobs
    (cache_deinit ;; al_unmount (if q_open q then d_refs d else new_refs (k_disk_extents k)) ;;
     tasks_destroy (threads (u_memtable_threads (k_cfg k))) (threads (u_normal_threads (k_cfg k))) reg ;; io_deinit ;;
     fail_kvs (q_shmem q && negb (q_has_heap q)) true PTrunk) fails c' [] P PD).
  { intros c'. apply wp_bind, wp_silent; [apply silent_release| |exact HD]. intros _ c6.
    apply wp_bind, wp_unmount; [|exact HD]. intros c7. cbn [app]. apply HT; [intros; apply HBR|apply HR]. }
  apply wp_bind. destruct (q_open q) eqn:EO.
  - unfold trunk_mount. apply wp_bind, wp_silent; [apply silent_aod| |exact HD]. intros _ c6.
    do 2 (apply wp_bind, wp_emit; rewrite wobs_quiet by reflexivity).
    destruct (find_id _ _ _) as [slot|] eqn:EF; [|apply wp_die; exact HD].
    destruct (d_super d slot) as [s|] eqn:ES.
    + fold (mountable s). destruct (mountable s) eqn:EM.
      * apply wp_bind, wp_silent; [apply silent_aod| |exact HD]. intros _ c7. cbv zeta. apply wp_bind, wp_pages. intros c8.
        apply wp_bind, wp_super. intros c9. apply wp_ret, wp_ret. subst P. cbn [open_writes].
        destruct (d_meta d) as [ids|]; [|discriminate]. exists ids, s. repeat split; assumption.
      * apply wp_bind, wp_emit. rewrite wobs_quiet by reflexivity. apply wp_ret. apply HN.
    + apply wp_bind, wp_emit. rewrite wobs_quiet by reflexivity. apply wp_ret. apply HN.
  - apply wp_bind. unfold trunk_create. apply wp_bind, wp_silent; [apply silent_aod| |exact HD]. intros _ c6.
    do 2 (apply wp_bind, wp_emit; rewrite wobs_quiet by reflexivity).
    apply wp_bind, wp_silent; [apply silent_aod| |exact HD]. intros _ c7. cbv zeta. apply wp_bind, wp_pages. intros c8.
    change (take_slot (repeat 0%N MAX_ROOT_IDS) trunk_id) with (Some (0, new_ids)).
    cbv iota beta. apply wp_bind, wp_works. intros b. apply wp_bind, wp_check; intros _; [|subst PD; cbn [app]; auto].
    apply wp_bind, wp_emit. apply wp_bind, wp_super. intros c9. apply wp_ret, wp_ret, wp_ret. subst P. cbn [create_writes].
    split; [reflexivity|]. unfold wobs, wpages. cbn [writes_of flat_map app]. rewrite <- app_assoc. reflexivity.
Qed.

Lemma close_writes : forall q k slot im act fails c,
  wp wobs (close q k slot im act) fails c []
     (fun im' _ ws => im' = act_image act im /\
        ws = wpages act ++ [WSuper slot (Super (i_root im') (i_next im') (i_tail im') (act_time act) true); WRefs (i_refs im')])
     (fun ws => let im' := act_image act im in
        ws = wpages act ++ [WSuper slot (Super (i_root im') (i_next im') (i_tail im') (act_time act) true)] \/
        ws = wpages act ++ [WSuper slot (Super (i_root im') (i_next im') (i_tail im') (act_time act) true); WRefs (i_refs im')]).
Proof.
  intros q k slot im act fails c. unfold close, trunk_unmount. do 2 apply wp_bind. apply wp_emit. rewrite wobs_quiet by reflexivity.
  apply wp_bind, wp_emit. rewrite wobs_quiet by reflexivity. cbv zeta.
  apply wp_bind, wp_emit. rewrite wobs_quiet by reflexivity. apply wp_bind, wp_pages. intros c1. fold (wpages act). cbn [app].
  apply wp_bind, wp_super. intros c2. apply wp_bind, wp_emit. rewrite wobs_quiet by reflexivity. apply wp_ret.
  apply wp_bind, wp_silent; [apply silent_release| |auto]. intros _ c3. apply wp_bind, wp_unmount; [|auto]. intros c4.
  rewrite <- app_assoc. cbn [app].
  apply wp_bind, wp_silent; [apply silent_destroy| |auto]. intros _ c5.
  apply wp_bind, wp_silent; [apply silent_io_deinit| |auto]. intros _ c6.
  apply wp_bind, wp_emit. rewrite wobs_quiet by reflexivity. apply wp_bind.
  destruct (_ && _); [apply wp_emit; rewrite wobs_quiet by reflexivity|apply wp_ret]; apply wp_ret; split; reflexivity.
Qed.

(** As facts on runs *)
Lemma run_call_writes : forall q d act fails o es, run (create_or_open q d act) fails = (o, es) ->
  match o with
  | Ret r => if q_open q then open_writes d act r (writes_of es) else create_writes d act r (writes_of es)
  | Died => if q_open q then writes_of es = [] \/ writes_of es = [WRefs (d_refs d)]
            else writes_of es = [] \/ writes_of es = wpages act \/ exists extents, writes_of es = [WRefs (new_refs extents)]
  end.
Proof.
  intros q d act fails o es R. pose proof (wp_run wobs _ _ _ [] _ _ o es (call_writes q d act fails 0) R) as H.
  rewrite wobs_fold in H. cbn [app] in H. destruct o as [r|]; [destruct H as (_ & H)|]; exact H.
Qed.

Lemma run_close_writes : forall q k slot im act fails o es, run (close q k slot im act) fails = (o, es) ->
  exists im' tl, im' = act_image act im /\ (o = Died \/ o = Ret im' /\ tl = [WRefs (i_refs im')]) /\ (tl = [] \/ tl = [WRefs (i_refs im')]) /\
    writes_of es = wpages act ++ WSuper slot (Super (i_root im') (i_next im') (i_tail im') (act_time act) true) :: tl.
Proof.
  intros q k slot im act fails o es R. pose proof (wp_run wobs _ _ _ [] _ _ o es (close_writes q k slot im act fails 0) R) as H.
  rewrite wobs_fold in H. cbn [app] in H. destruct o as [r|].
  - destruct H as (_ & -> & ->). eexists _, [WRefs _]. split; [reflexivity|]. split; [right; split; reflexivity|]. split; [right|]; reflexivity.
  - destruct H as [-> | ->]; eexists _, _; (split; [reflexivity|]; split; [left; reflexivity|]; split; [|reflexivity]); auto.
Qed.
