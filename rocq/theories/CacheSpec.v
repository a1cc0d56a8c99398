(** What the users of the page cache rely on, in their own terms: which pages a
    caller has, claims or has write locked between the calls it makes, and the
    rules a caller keeps.  Nothing here looks at the flags or the counters. *)
From Coq Require Import List Arith Bool.
From Verif Require Import Cache.
Import ListNotations.
Local Open Scope nat_scope.

(** The caller has come back from cache_get, cache_get_async (or its callback)
    or cache_alloc for address [a] and has not finished cache_unget. *)
Definition has_page (a : nat) (p : lpc) : Prop :=
  match p with
  | Held b | UAcc b | UAccSet b | Claimed b | CWb b | CScan _ b | Locked b => b = a
  | _ => False
  end.

(** It has come back from cache_try_claim with true, or from cache_alloc, and
    has not called cache_unclaim. *)
Definition claims_page (a : nat) (p : lpc) : Prop :=
  match p with
  | Claimed b | CWb b | CScan _ b | Locked b => b = a
  | _ => False
  end.

(** It has come back from cache_lock or cache_alloc and has not called
    cache_unlock. *)
Definition locks_page (a : nat) (p : lpc) : Prop :=
  match p with Locked b => b = a | _ => False end.

(** Agent [i] is at [p] on entry [e]. *)
Definition at_entry (s : state) (i e : nat) (p : lpc) : Prop :=
  exists t, nth_error (ags s) i = Some (t, On e p).

(** Agent [i] has page [a], in entry [e]. *)
Definition has (s : state) (i a e : nat) : Prop :=
  exists p, at_entry s i e p /\ has_page a p.
Definition claims (s : state) (i a : nat) : Prop :=
  exists e p, at_entry s i e p /\ claims_page a p.
Definition locks (s : state) (i a : nat) : Prop :=
  exists e p, at_entry s i e p /\ locks_page a p.

(** Calls in progress.  A call of cache_get, cache_get_async or cache_prefetch
    for [a] that has not got the page or started its I/O. *)
Definition ktarget (k : kind) (a : nat) : bool :=
  match k with KGet b | KAsync b | KPre b => b =? a | _ => false end.
Definition ftarget (f : fkind) (a : nat) : bool :=
  match f with FGet b | FAsync b | FPre b => b =? a | FAlloc _ => false end.
Definition ntarget (n : next) (a : nat) : bool :=
  match n with NIdle => false | NLook k => ktarget k a | NMiss f => ftarget f a end.

Definition lgetting (a : nat) (p : lpc) : bool :=
  match p with
  | RTest k | RInc k | RFree k | RWl k _ | RAcc k | RAccSet k => ktarget k a
  | RDec n => ntarget n a
  | GAddr k b => ktarget k a || (b =? a)
  | GLoad b | GLoadA b => b =? a
  | FCas f | FInc f | FSet f => ftarget f a
  | LLook f b | LAddr f b => ftarget f a || (b =? a)
  | LDec b | LFree b | NReq b | NMap b | NDa b
  | PAddr b | PLook b | PDa b | PFree b => b =? a
  | _ => false
  end.
Definition getting (a : nat) (x : apc) : bool :=
  match x with
  | Idle => false
  | Look k => ktarget k a
  | Miss f => ftarget f a
  | On _ p => lgetting a p
  end.

(** A call of cache_alloc for [a] that has not come back. *)
Definition fallocs (f : fkind) (a : nat) : bool :=
  match f with FAlloc b => b =? a | _ => false end.
Definition lallocating (a : nat) (p : lpc) : bool :=
  match p with
  | FCas f | FInc f | FSet f | RDec (NMiss f) => fallocs f a
  | AAddr b | AMap b => b =? a
  | _ => false
  end.
Definition allocating (a : nat) (x : apc) : bool :=
  match x with
  | Miss f => fallocs f a
  | On _ p => lallocating a p
  | _ => false
  end.

(** A discard of [a] (the page's extent is being given back) in progress. *)
Definition kdisc (k : kind) (a : nat) : bool :=
  match k with KDisc b => b =? a | _ => false end.
Definition ldiscarding (a : nat) (p : lpc) : bool :=
  match p with
  | RTest k | RInc k | RFree k | RWl k _ | RAcc k | RAccSet k => kdisc k a
  | RDec (NLook k) => kdisc k a
  | DLoad b | DAddr b | DClaim b | DWset b | DWb b | DScan _ b | DMap b | DDa b =>
      b =? a
  | _ => false
  end.
Definition discarding (a : nat) (x : apc) : bool :=
  match x with
  | Look k => kdisc k a
  | On _ p => ldiscarding a p
  | _ => false
  end.

(** No agent but [i] satisfies [f]. *)
Definition none_but (s : state) (i : nat) (f : apc -> bool) : Prop :=
  forall j t x, j <> i -> nth_error (ags s) j = Some (t, x) -> f x = false.

(** An agent that has found page [a] in entry [e] and waits for its load, or has
    the page. *)
Definition found (e : nat) (x : apc) : bool :=
  match x with
  | On e' p =>
      (e' =? e) &&
      match p with
      | GLoad _ | GLoadA _ | Held _ | UAcc _ | UAccSet _ | Claimed _ | CWb _
      | CScan _ _ | Locked _ | DClaim _ | DWset _ | DWb _ | DScan _ _ | DMap _
      | DDa _ => true
      | _ => false
      end
  | _ => false
  end.

(** The rules.  Address [a] is got or prefetched only while its extent is
    allocated: not while it is being given back or is only just being handed
    out; it is given back only when no such call is in progress; it is
    allocated only when it is not cached and nobody uses it. *)
Definition caller_rule (s : state) (i : nat) (c : cmd) : Prop :=
  match c with
  | SGet a | SAsync a | SPre a =>
      none_but s i (fun x => discarding a x || allocating a x)
  | SDisc a =>
      none_but s i (fun x => getting a x || discarding a x || allocating a x)
  | SAlloc a =>
      none_but s i (fun x => getting a x || discarding a x || allocating a x)
      /\ lkp s a = None
  | SEvictAll _ => False
  | _ => True
  end.

(** What must not happen inside the cache: a 256th reference through one
    counter; and giving up a load that another agent has already found. *)
Definition no_race (s : state) (i : nat) : Prop :=
  match nth_error (ags s) i with
  | Some (t, On e (RInc _)) | Some (t, On e (FInc _)) =>
      rc (ents s e) (slot t) < 255
  | Some (t, On e (NDa _)) | Some (t, On e (PDa _)) => none_but s i (found e)
  | _ => True
  end.

(** All the states the code can reach, for threads [ts]... *)
Inductive reach (ts : list nat) : state -> Prop :=
| r_init : reach ts (init ts)
| r_step s i c s' : reach ts s -> step s i c = Some s' -> reach ts s'.

(** ... and those it reaches when the rules are kept and neither race happens. *)
Inductive kept (ts : list nat) : state -> Prop :=
| k_init : kept ts (init ts)
| k_step s i c s' :
    kept ts s -> caller_rule s i c -> no_race s i ->
    step s i c = Some s' -> kept ts s'.

(** Several steps in a row, for concrete runs. *)
Fixpoint steps (s : state) (l : list (nat * cmd)) : option state :=
  match l with
  | [] => Some s
  | (i, c) :: r =>
      match step s i c with Some s' => steps s' r | None => None end
  end.

(** ** Concrete runs.  The same rules, decided. *)
Fixpoint nbutb (f : apc -> bool) (i : nat) (l : list (nat * apc)) {struct l} : bool :=
  match l with
  | [] => true
  | x :: r =>
      match i with
      | 0 => forallb (fun y => negb (f (snd y))) r
      | S i' => negb (f (snd x)) && nbutb f i' r
      end
  end.

Definition ruleb (s : state) (i : nat) (c : cmd) : bool :=
  match c with
  | SGet a | SAsync a | SPre a =>
      nbutb (fun x => discarding a x || allocating a x) i (ags s)
  | SDisc a =>
      nbutb (fun x => getting a x || discarding a x || allocating a x) i (ags s)
  | SAlloc a =>
      nbutb (fun x => getting a x || discarding a x || allocating a x) i (ags s)
      && match lkp s a with None => true | Some _ => false end
  | SEvictAll _ => false
  | _ => true
  end.

Definition raceb (s : state) (i : nat) : bool :=
  match nth_error (ags s) i with
  | Some (t, On e (RInc _)) | Some (t, On e (FInc _)) =>
      rc (ents s e) (slot t) <? 255
  | Some (t, On e (NDa _)) | Some (t, On e (PDa _)) => nbutb (found e) i (ags s)
  | _ => true
  end.

(** States reached with the callers' rules kept, whatever happens inside the
    cache. *)
Inductive ruled (ts : list nat) : state -> Prop :=
| u_init : ruled ts (init ts)
| u_step s i c s' :
    ruled ts s -> caller_rule s i c -> step s i c = Some s' -> ruled ts s'.

(** The state after a run; [None] if a step is impossible or breaks a rule. *)
Fixpoint krun (s : state) (l : list (nat * cmd)) : option state :=
  match l with
  | [] => Some s
  | (i, c) :: r =>
      if ruleb s i c && raceb s i then
        match step s i c with Some s' => krun s' r | None => None end
      else None
  end.
Fixpoint urun (s : state) (l : list (nat * cmd)) : option state :=
  match l with
  | [] => Some s
  | (i, c) :: r =>
      if ruleb s i c then
        match step s i c with Some s' => urun s' r | None => None end
      else None
  end.

Lemma nbutb_ok f l : forall i, nbutb f i l = true ->
  forall j t x, j <> i -> nth_error l j = Some (t, x) -> f x = false.
Proof.
  induction l as [|y l IH]; intros i H j t x N E; [destruct j; discriminate|].
  destruct i as [|i]; cbn in H.
  - destruct j as [|j]; [congruence|]. cbn in E. apply nth_error_In in E.
    rewrite forallb_forall in H. specialize (H _ E). cbn in H. destruct (f x); [discriminate|reflexivity].
  - apply andb_true_iff in H as [H1 H2]. destruct j as [|j]; cbn in E.
    + injection E as ->. cbn in H1. destruct (f x); [discriminate|reflexivity].
    + apply (IH i H2 j t x); auto.
Qed.

Lemma ruleb_ok s i c : ruleb s i c = true -> caller_rule s i c.
Proof.
  destruct c; cbn [ruleb caller_rule]; intros H; try exact Logic.I; try discriminate;
    try (exact (nbutb_ok _ _ _ H)).
  apply andb_true_iff in H as [H1 H2]. split; [exact (nbutb_ok _ _ _ H1)|].
  destruct (lkp s a); [discriminate|reflexivity].
Qed.

Lemma raceb_ok s i : raceb s i = true -> no_race s i.
Proof.
  unfold raceb, no_race. destruct (nth_error (ags s) i) as [[t x]|]; [|auto].
  destruct x as [|k|f|e p]; auto. destruct p; intros H; auto;
    first [apply Nat.ltb_lt; exact H|exact (nbutb_ok _ _ _ H)].
Qed.

Lemma krun_kept ts l : forall s s', kept ts s -> krun s l = Some s' -> kept ts s'.
Proof.
  induction l as [|[i c] l IH]; intros s s' K H; cbn in H; [congruence|].
  destruct (ruleb s i c && raceb s i) eqn:E; [|discriminate]. apply andb_true_iff in E as [E1 E2].
  destruct (step s i c) as [s1|] eqn:E3; [|discriminate].
  eapply IH; [|exact H]. eapply k_step; eauto; [apply ruleb_ok; auto|apply raceb_ok; auto].
Qed.

Lemma urun_ruled ts l : forall s s', ruled ts s -> urun s l = Some s' -> ruled ts s'.
Proof.
  induction l as [|[i c] l IH]; intros s s' K H; cbn in H; [congruence|].
  destruct (ruleb s i c) eqn:E; [|discriminate].
  destruct (step s i c) as [s1|] eqn:E3; [|discriminate].
  eapply IH; [|exact H]. eapply u_step; eauto. apply ruleb_ok; auto.
Qed.

Lemma steps_reach ts l : forall s s', reach ts s -> steps s l = Some s' -> reach ts s'.
Proof.
  induction l as [|[i c] l IH]; intros s s' K H; cbn in H; [congruence|].
  destruct (step s i c) as [s1|] eqn:E3; [|discriminate].
  eapply IH; [|exact H]. eapply r_step; eauto.
Qed.
