(** What a user of the page cache may expect to find in a page: what was last
    written to it.  Nothing here looks at buffers, flags or the lookup table. *)
From Coq Require Import List Arith Bool.
From Verif Require Import Cache CacheSpec CacheData.
Import ListNotations.
Local Open Scope nat_scope.

(** Word [o] of page [a]; [None]: anything. *)
Definition promise := nat -> nat -> option nat.

(** A page nobody has touched is what the device had; a word is what was last
    written by a caller that had the page locked; a page that is being allocated
    or given back may hold anything. *)
Definition promised (d : dstate) (i : nat) (c : dcmd) (pr : promise) : promise :=
  match nth_error (ags (base d)) i with
  | Some (_, pl) =>
      fun a o =>
        if discarding a pl || allocating a pl then None
        else match c, pl with
             | Put o' v, On _ (Locked b) =>
                 if (a =? b) && (o =? o') then Some v else pr a o
             | _, _ => pr a o
             end
  | None => pr
  end.

(** Rules of the callers on top of those of [CacheSpec]: cache_mark_dirty is called
    at some time between cache_lock and cache_unlock if the page is written to
    (cache.h 404, 448). *)
Definition unlock_rule (d : dstate) (i : nat) (c : dcmd) : Prop :=
  match nth_error (ags (base d)) i, c with
  | Some (_, On _ (Locked _)), Base (Go A0) =>
      x_wrote (exts d i) = true -> x_marked (exts d i) = true
  | _, _ => True
  end.

(** What must not happen in addition to [no_race]: an entry found through the lookup
    table (1356, 1369), or the one whose page is to be synced (2700), is given to
    another page before the writeback flag is set. *)
Definition no_reuse (d : dstate) (i : nat) : Prop :=
  match nth_error (ags (base d)) i with
  | Some (_, On e (W0 _)) | Some (_, On e S0) =>
      flags_eqb (st (ents (base d) e)) st_clean1 = true ->
      x_ph (exts d i) = 0 \/ da (ents (base d) e) = x_addr (exts d i)
  | Some (_, On e W0b) | Some (_, On e S0b) =>
      flags_eqb (st (ents (base d) e)) st_clean2 = true ->
      x_ph (exts d i) = 0 \/ da (ents (base d) e) = x_addr (exts d i)
  | _ => True
  end.

Definition rules (d : dstate) (i : nat) (c : dcmd) : Prop :=
  match c with
  | Base c => caller_rule (base d) i c /\ no_race (base d) i
  | _ => True
  end.

Section Runs.
Context (psz : nat) (ts : list nat) (m0 d0 : nat -> nat -> nat).

(** Everything the code can do while something holds at every step ... *)
Inductive dwhile (P : dstate -> nat -> dcmd -> Prop) : dstate -> promise -> Prop :=
| dr_init : dwhile P (dinit ts m0 d0) (fun a o => Some (d0 a o))
| dr_step d pr i c d' :
    dwhile P d pr -> P d i c -> dstep psz d i c = Some d' -> dwhile P d' (promised d i c pr).

(** ... and what it does when the rules are kept and no entry is reused at the
    wrong moment. *)
Inductive dkept : dstate -> promise -> Prop :=
| dk_init : dkept (dinit ts m0 d0) (fun a o => Some (d0 a o))
| dk_step d pr i c d' :
    dkept d pr -> rules d i c -> unlock_rule d i c -> no_reuse d i ->
    dstep psz d i c = Some d' -> dkept d' (promised d i c pr).
End Runs.

(** ** Runs given as lists, for examples. *)
Definition unlockb (d : dstate) (i : nat) (c : dcmd) : bool :=
  match nth_error (ags (base d)) i, c with
  | Some (_, On _ (Locked _)), Base (Go A0) =>
      negb (x_wrote (exts d i)) || x_marked (exts d i)
  | _, _ => true
  end.
Definition at_page (d : dstate) (i e : nat) : bool :=
  (x_ph (exts d i) =? 0) ||
  match da (ents (base d) e), x_addr (exts d i) with
  | Some a, Some b => a =? b | None, None => true | _, _ => false
  end.
Definition reuseb (d : dstate) (i : nat) : bool :=
  match nth_error (ags (base d)) i with
  | Some (_, On e (W0 _)) | Some (_, On e S0) =>
      negb (flags_eqb (st (ents (base d) e)) st_clean1) || at_page d i e
  | Some (_, On e W0b) | Some (_, On e S0b) =>
      negb (flags_eqb (st (ents (base d) e)) st_clean2) || at_page d i e
  | _ => true
  end.
Definition rulesb (d : dstate) (i : nat) (c : dcmd) : bool :=
  match c with Base c => ruleb (base d) i c && raceb (base d) i | _ => true end.

Fixpoint drun (psz : nat) (ok : dstate -> nat -> dcmd -> bool) (d : dstate) (pr : promise)
    (l : list (nat * dcmd)) : option (dstate * promise) :=
  match l with
  | [] => Some (d, pr)
  | (i, c) :: r =>
      if ok d i c then
        match dstep psz d i c with
        | Some d' => drun psz ok d' (promised d i c pr) r
        | None => None
        end
      else None
  end.

Lemma rulesb_ok d i c : rulesb d i c = true -> rules d i c.
Proof.
  destruct c; cbn; auto. intros H. apply andb_true_iff in H as [A B].
  split; [apply ruleb_ok; exact A|apply raceb_ok; exact B].
Qed.
Lemma unlockb_ok d i c : unlockb d i c = true -> unlock_rule d i c.
Proof.
  unfold unlockb, unlock_rule. destruct (nth_error _ i) as [[t x]|]; [|auto].
  destruct x as [| | |e p]; auto. destruct p; auto. destruct c as [c| | | |]; auto.
  destruct c as [x| | | | | | | | | | | |]; auto. destruct x; auto.
  intros H W. rewrite W in H. exact H.
Qed.
Lemma at_page_ok d i e : at_page d i e = true ->
  x_ph (exts d i) = 0 \/ da (ents (base d) e) = x_addr (exts d i).
Proof.
  unfold at_page. intros H. apply orb_true_iff in H as [H|H]; [left; apply Nat.eqb_eq; exact H|right].
  destruct (da _), (x_addr _); try discriminate; [|reflexivity]. apply Nat.eqb_eq in H. congruence.
Qed.
Lemma reuseb_ok d i : reuseb d i = true -> no_reuse d i.
Proof.
  unfold reuseb, no_reuse. destruct (nth_error _ i) as [[t x]|]; [|auto].
  destruct x as [| | |e p]; auto. destruct p; auto; intros H C; rewrite C in H; apply at_page_ok; exact H.
Qed.

Lemma drun_while psz ts m0 d0 ok (P : dstate -> nat -> dcmd -> Prop) l :
  (forall d i c, ok d i c = true -> P d i c) ->
  forall d pr d' pr', dwhile psz ts m0 d0 P d pr -> drun psz ok d pr l = Some (d', pr') ->
  dwhile psz ts m0 d0 P d' pr'.
Proof.
  intros OK. induction l as [|[i c] l IH]; intros d pr d' pr' K H; cbn in H; [congruence|].
  destruct (ok d i c) eqn:E; [|discriminate]. destruct (dstep psz d i c) as [d1|] eqn:S1; [|discriminate].
  eapply IH; [|exact H]. eapply dr_step; eauto.
Qed.

Definition all_rules (d : dstate) (i : nat) (c : dcmd) : bool :=
  rulesb d i c && unlockb d i c && reuseb d i.
Lemma drun_kept psz ts m0 d0 l : forall d pr d' pr',
  dkept psz ts m0 d0 d pr -> drun psz all_rules d pr l = Some (d', pr') -> dkept psz ts m0 d0 d' pr'.
Proof.
  induction l as [|[i c] l IH]; intros d pr d' pr' K H; cbn in H; [congruence|].
  destruct (all_rules d i c) eqn:E; [|discriminate]. destruct (dstep psz d i c) as [d1|] eqn:S1; [|discriminate].
  unfold all_rules in E. apply andb_true_iff in E as [E E3]. apply andb_true_iff in E as [E1 E2].
  eapply IH; [|exact H]. eapply dk_step; eauto; [apply rulesb_ok|apply unlockb_ok|apply reuseb_ok]; assumption.
Qed.
