(** * Memtables: the cases of a step, and the invariant

    The invariant of the runs of Mtable.v; MtableProofs.v shows that every step
    keeps it. *)

From Coq Require Import List Arith NArith Bool Lia.
From Verif Require Import Base Spec Spec_Merge Mtable.
Import ListNotations.

Section Inv.
Variable cfg : data_config.
Variable N : nat.
Notation at_gen := (at_gen N).
Notation put_slot := (put_slot N).
Notation step := (step cfg N).

(** The successful steps, one constructor per case. *)
Inductive stepR (st : state) (t : nat) : state -> Prop :=
| S_ins : forall w, g_pc st t = Idle -> stepR st t (go t (I0 w) st)
| S_look : forall k l, g_pc st t = Idle -> g_llock st = Readers l ->
    stepR st t (go t (L1 k (length (g_hist st))) (set_g_llock (Readers (t :: l)) st))
| S_iter : forall l, g_pc st t = Idle -> g_llock st = Readers l ->
    stepR st t (go t R1 (set_g_llock (Readers (t :: l)) st))
| S_task : forall i g, g_pc st t = Idle -> nth_error (g_tasks st) i = Some g ->
    stepR st t (go t (F0 g) (put_slot (set_g_tasks (firstn i (g_tasks st) ++ skipn (S i) (g_tasks st)) st) g
                               (set_tok (Own t) (at_gen st g))))
| S_I0 : forall w l, g_pc st t = I0 w -> g_ilock st = Readers l ->
    stepR st t (go t (I1 w) (set_g_ilock (Readers (t :: l)) st))
| S_I1 : forall w, g_pc st t = I1 w -> stepR st t (go t (I2 w (g_gen st)) st)
| S_I2 : forall w g, g_pc st t = I2 w g -> s_st (at_gen st g) = Ready -> stepR st t (go t (I3 w g) st)
| S_Iretry : forall w g, (g_pc st t = I2 w g \/ g_pc st t = I4 w g \/ g_pc st t = I5 w g) ->
    stepR st t (go t (I0 w) (set_g_ilock (lock_unget t (g_ilock st)) st))
| S_I3f : forall w g, g_pc st t = I3 w g -> s_tree (at_gen st g) <> [] -> stepR st t (go t (I4 w g) st)
| S_I3 : forall w g, g_pc st t = I3 w g -> stepR st t (go t (I9 w g) st)
| S_I4 : forall w g, g_pc st t = I4 w g -> s_st (at_gen st (S g)) = Ready -> stepR st t (go t (I5 w g) st)
| S_I5 : forall w g, g_pc st t = I5 w g -> g_ilock st = Readers [t] ->
    stepR st t (go t (I6 w g) (set_g_ilock (Writer t) st))
| S_I6 : forall w g, g_pc st t = I6 w g -> s_st (at_gen st g) = Ready ->
    stepR st t (go t (I7 w g) (put_slot st g (set_tok (Own t) (set_st Finalized (at_gen st g)))))
| S_I7 : forall w g, g_pc st t = I7 w g ->
    stepR st t (go t (I8 w g) (set_g_empty true (set_g_gen (S (g_gen st)) st)))
| S_I8 : forall w g, g_pc st t = I8 w g -> stepR st t (go t (I10 w g) (set_g_ilock (Readers []) st))
| S_I10 : forall w g, g_pc st t = I10 w g -> s_gen (at_gen st g) = g ->
    stepR st t (go t (I0 w) (put_slot (set_g_tasks (g_tasks st ++ [g]) st) g (set_tok InQueue (at_gen st g))))
| S_I9 : forall w g, g_pc st t = I9 w g -> s_gen (at_gen st g) = g ->
    stepR st t (go t I11 (set_g_hist (g_hist st ++ [w])
                            (put_slot st g (set_tree (s_tree (at_gen st g) ++ [w]) (at_gen st g)))))
| S_I11 : g_pc st t = I11 -> stepR st t (go t Idle (set_g_ilock (lock_unget t (g_ilock st)) (set_g_empty false st)))
| S_F0 : forall g, g_pc st t = F0 g -> s_gen (at_gen st g) = g -> s_st (at_gen st g) = Finalized ->
    stepR st t (go t (F1 g) (put_slot st g (set_st Compacting (at_gen st g))))
| S_F1 : forall g, g_pc st t = F1 g -> s_tree (at_gen st g) <> [] ->
    stepR st t (go t (F2 g) (put_slot st g (set_cmt (s_tree (at_gen st g)) (at_gen st g))))
| S_F2 : forall g, g_pc st t = F2 g -> s_gen (at_gen st g) = g -> s_st (at_gen st g) = Compacting ->
    stepR st t (go t (F3 g) (put_slot st g (set_st Compacted (at_gen st g))))
| S_F3leave : forall g, g_pc st t = F3 g -> g <> g_inc st -> s_gen (at_gen st g) = g -> s_st (at_gen st g) = Compacted ->
    stepR st t (go t Idle (put_slot st g (set_tok Nobody (at_gen st g))))
| S_F3gone : forall g, g_pc st t = F3 g -> s_gen (at_gen st g) <> g \/ s_st (at_gen st g) <> Compacted ->
    stepR st t (go t Idle st)
| S_F3 : forall g, g_pc st t = F3 g -> s_gen (at_gen st g) = g -> g = g_inc st -> s_st (at_gen st g) = Compacted ->
    stepR st t (go t (F5 g) (set_g_incorp (Some t) (put_slot st g (set_tok Nobody (set_st Assigned (at_gen st g))))))
| S_F5 : forall g, g_pc st t = F5 g -> stepR st t (go t (F6 g (g_root st ++ s_cmt (at_gen st g))) st)
| S_F6 : forall g nr, g_pc st t = F6 g nr -> g_llock st = Readers [] -> stepR st t (go t (F7 g nr) (set_g_llock (Writer t) st))
| S_F7 : forall g nr, g_pc st t = F7 g nr -> s_gen (at_gen st g) = g -> s_st (at_gen st g) = Assigned ->
    stepR st t (go t (F8 g nr) (put_slot st g (set_st Incorporating (at_gen st g))))
| S_F8 : forall g nr, g_pc st t = F8 g nr -> s_gen (at_gen st g) = g -> s_st (at_gen st g) = Incorporating ->
    stepR st t (go t (F9 g nr) (put_slot st g (set_st Incorporated (at_gen st g))))
| S_F9 : forall g nr, g_pc st t = F9 g nr -> g_ret st = g -> stepR st t (go t (F10 g nr) (set_g_ret (S (g_ret st)) st))
| S_F10 : forall g nr, g_pc st t = F10 g nr -> stepR st t (go t (F11 g) (set_g_root nr st))
| S_F11 : forall g, g_pc st t = F11 g -> stepR st t (go t (F12 g) (set_g_llock (Readers []) st))
| S_F12 : forall g, g_pc st t = F12 g -> s_gen (at_gen st g) = g -> 1 < s_refs (at_gen st g) ->
    stepR st t (go t (F13 g) (put_slot st g (set_base false (set_refs (s_refs (at_gen st g) - 1) (at_gen st g)))))
| S_F12last : forall g, g_pc st t = F12 g -> s_gen (at_gen st g) = g -> s_refs (at_gen st g) = 1 ->
    s_st (at_gen st g) = Incorporated ->
    stepR st t (go t (Q1 g (AFlush g)) (put_slot st g (set_rec (Some t) (set_base false (set_refs 0 (at_gen st g))))))
| S_Q1 : forall g a, g_pc st t = Q1 g a ->
    stepR st t (go t (Q2 g a) (put_slot st g (set_base true (set_refs 1 (set_tree [] (at_gen st g))))))
| S_Q2 : forall g a, g_pc st t = Q2 g a ->
    stepR st t (go t (Q3 g a) (put_slot st g (set_gen (s_gen (at_gen st g) + N) (at_gen st g))))
| S_Q3 : forall g a, g_pc st t = Q3 g a -> s_st (at_gen st g) = Incorporated ->
    stepR st t (resume t a (put_slot st g (set_rec None (set_st Ready (at_gen st g)))))
| S_F13gone : forall g, g_pc st t = F13 g -> s_gen (at_gen st (S g)) <> S g ->
    stepR st t (go t Idle (set_g_incorp None st))
| S_F13 : forall g, g_pc st t = F13 g -> s_gen (at_gen st (S g)) = S g -> g_inc st = g -> s_st (at_gen st (S g)) = Compacted ->
    stepR st t (go t (F5 (S g)) (put_slot (set_g_inc (S g) st) (S g) (set_tok Nobody (set_st Assigned (at_gen st (S g))))))
| S_F13stop : forall g, g_pc st t = F13 g -> s_gen (at_gen st (S g)) = S g -> g_inc st = g -> s_st (at_gen st (S g)) <> Compacted ->
    stepR st t (go t Idle (set_g_incorp None (set_g_inc (S g) st)))
| S_L1 : forall k n0, g_pc st t = L1 k n0 -> stepR st t (go t (L2 k n0 (g_gen st)) st)
| S_L2 : forall k n0 gs, g_pc st t = L2 k n0 gs -> stepR st t (go t (L3 k n0 (S gs) []) st)
| S_L3root : forall k n0 j seen, g_pc st t = L3 k n0 j seen -> j = g_ret st ->
    stepR st t (go t (L6 k n0 (g_root st ++ seen)) st)
| S_L3stop : forall k n0 j seen, g_pc st t = L3 k n0 j seen -> may_stop k seen = true ->
    stepR st t (go t (LDone k n0 (answer cfg k seen)) (set_g_llock (lock_unget t (g_llock st)) st))
| S_L3 : forall k n0 j seen, g_pc st t = L3 k n0 j seen -> j <> g_ret st -> stepR st t (go t (L4 k n0 j seen) st)
| S_L4 : forall k n0 j seen, g_pc st t = L4 k n0 j seen ->
    stepR st t (go t (L5 k n0 j seen (ok_to_lookup_compacted (s_st (at_gen st (j - 1))))) st)
| S_L5 : forall k n0 j seen b, g_pc st t = L5 k n0 j seen b ->
    stepR st t (go t (L3 k n0 (j - 1) ((if b then s_cmt (at_gen st (j - 1)) else s_tree (at_gen st (j - 1))) ++ seen)) st)
| S_L6 : forall k n0 seen, g_pc st t = L6 k n0 seen ->
    stepR st t (go t (LDone k n0 (answer cfg k seen)) (set_g_llock (lock_unget t (g_llock st)) st))
| S_LDone : forall k n0 v, g_pc st t = LDone k n0 v -> stepR st t (go t Idle st)
| S_R1 : g_pc st t = R1 -> stepR st t (go t (R2 (g_gen st)) st)
| S_R2 : forall gs, g_pc st t = R2 gs -> stepR st t (go t (R3 (S gs) []) st)
| S_R3end : forall j held, g_pc st t = R3 j held -> j = g_ret st ->
    stepR st t (go t (RHold held) (set_g_llock (lock_unget t (g_llock st)) st))
| S_R3skip : forall j held, g_pc st t = R3 j held -> j <> g_ret st -> stepR st t (go t (R3 (j - 1) held) st)
| S_R3 : forall j held, g_pc st t = R3 j held -> j <> g_ret st -> stepR st t (go t (R4 j held) st)
| S_R4 : forall j held, g_pc st t = R4 j held -> s_gen (at_gen st (j - 1)) = j - 1 ->
    stepR st t (go t (R3 (j - 1) ((j - 1) :: held))
      (put_slot st (j - 1) (set_holders (t :: s_holders (at_gen st (j - 1)))
                              (set_refs (S (s_refs (at_gen st (j - 1)))) (at_gen st (j - 1))))))
| S_RH0 : g_pc st t = RHold [] -> stepR st t (go t Idle st)
| S_RH : forall g held, g_pc st t = RHold (g :: held) -> s_gen (at_gen st g) = g -> 1 < s_refs (at_gen st g) ->
    stepR st t (go t (RHold held) (put_slot st g (set_holders (drop t (s_holders (at_gen st g)))
                                                    (set_refs (s_refs (at_gen st g) - 1) (at_gen st g)))))
| S_RHlast : forall g held, g_pc st t = RHold (g :: held) -> s_gen (at_gen st g) = g -> s_refs (at_gen st g) = 1 ->
    s_st (at_gen st g) = Incorporated ->
    stepR st t (go t (Q1 g (AIter held)) (put_slot st g (set_rec (Some t)
      (set_holders (drop t (s_holders (at_gen st g))) (set_refs 0 (at_gen st g)))))).

Lemma mstate_eqb_eq : forall a b, mstate_eqb a b = true <-> a = b.
Proof. intros a b; destruct a, b; cbn; split; congruence. Qed.
Lemma mstate_eqb_neq : forall a b, mstate_eqb a b = false <-> a <> b.
Proof. intros a b; destruct a, b; cbn; split; congruence. Qed.

Ltac bools := repeat match goal with
  | H : _ && _ = true |- _ => apply andb_true_iff in H; destruct H
  | H : mstate_eqb _ _ = true |- _ => apply mstate_eqb_eq in H
  | H : mstate_eqb _ _ = false |- _ => apply mstate_eqb_neq in H
  | H : get_ok _ _ _ = true |- _ => apply Nat.eqb_eq in H
  | H : get_ok _ _ _ = false |- _ => apply Nat.eqb_neq in H
  | H : (_ =? _) = true |- _ => apply Nat.eqb_eq in H
  | H : (_ =? _) = false |- _ => apply Nat.eqb_neq in H
  end.

Lemma step_R : forall st t c st', step st t c = Next st' -> stepR st t st'.
Proof.
  intros st t c st' H. unfold Mtable.step in H.
  destruct (g_pc st t) eqn:P.
  - destruct c; try discriminate H.
    + injection H as <-. constructor; auto.
    + destruct (g_llock st) eqn:L; cbn in H; [|discriminate H]. injection H as <-. econstructor; eauto.
    + destruct (g_llock st) eqn:L; cbn in H; [|discriminate H]. injection H as <-. econstructor; eauto.
    + destruct (nth_error (g_tasks st) i) eqn:E; [|discriminate H]. injection H as <-. econstructor; eauto.
  - destruct (g_ilock st) eqn:L; cbn in H; [|discriminate H]. injection H as <-. econstructor; eauto.
  - injection H as <-. constructor; auto.
  - destruct (mstate_eqb (s_st (at_gen st g)) Ready) eqn:E; bools; injection H as <-; [constructor; auto|].
    apply S_Iretry with (g := g); auto.
  - destruct c; try discriminate H. destruct b.
    + destruct (s_tree (at_gen st g)) eqn:E; [discriminate H|]. injection H as <-. constructor; auto. congruence.
    + injection H as <-. constructor; auto.
  - destruct (mstate_eqb (s_st (at_gen st (S g))) Ready) eqn:E; bools; injection H as <-; [constructor; auto|].
    apply S_Iretry with (g := g); auto.
  - destruct c; try discriminate H. destruct b.
    + unfold lock_excl in H. destruct (g_ilock st) as [[|x [|]]|] eqn:E; try discriminate H.
      destruct (x =? t) eqn:X; [|discriminate H]. bools. subst x. injection H as <-. constructor; auto.
    + injection H as <-. apply S_Iretry with (g := g); auto.
  - destruct (mstate_eqb _ _) eqn:E; [|discriminate H]. bools. injection H as <-. constructor; auto.
  - destruct (_ && _) eqn:E; [|discriminate H]. injection H as <-. constructor; auto.
  - injection H as <-. constructor; auto.
  - destruct (get_ok N st g) eqn:E; [|discriminate H]. bools. injection H as <-. constructor; auto.
  - destruct (_ && _) eqn:E; [|discriminate H]. bools. injection H as <-. constructor; auto.
  - injection H as <-. constructor; auto.
  - unfold transition in H. destruct (_ && _) eqn:E; [|discriminate H]. bools. injection H as <-. apply S_F0; auto.
  - destruct (s_tree (at_gen st g)) eqn:E; [discriminate H|]. injection H as <-. rewrite <- E. apply S_F1; auto. congruence.
  - unfold transition in H. destruct (_ && _) eqn:E; [|discriminate H]. bools. injection H as <-. apply S_F2; auto.
  - destruct (get_ok N st g) eqn:E1; destruct (g =? g_inc st) eqn:E2; destruct (mstate_eqb (s_st (at_gen st g)) Compacted) eqn:E3;
      cbn in H; bools; injection H as <-; try (apply S_F3gone with (g := g); auto; fail).
    + apply S_F3; auto.
    + apply S_F3leave; auto.
  - destruct (_ && _) eqn:E; [|discriminate H]. injection H as <-. constructor; auto.
  - destruct (g_llock st) as [[|]|] eqn:E; try discriminate H. injection H as <-. constructor; auto.
  - unfold transition in H. destruct (_ && _) eqn:E; [|discriminate H]. bools. injection H as <-. apply S_F7; auto.
  - unfold transition in H. destruct (_ && _) eqn:E; [|discriminate H]. bools. injection H as <-. apply S_F8; auto.
  - destruct (_ =? _) eqn:E; [|discriminate H]. bools. injection H as <-. constructor; auto.
  - injection H as <-. econstructor; eauto.
  - injection H as <-. econstructor; eauto.
  - unfold dec_ref in H. destruct (get_ok N st g) eqn:E; [|discriminate H]. bools.
    destruct (s_refs (at_gen st g)) as [|[|n]] eqn:R; [discriminate H| |].
    + destruct (mstate_eqb _ _) eqn:X; [|discriminate H]. bools. injection H as <-. apply S_F12last; auto.
    + injection H as <-. assert (1 < s_refs (at_gen st g)) as R1 by lia.
      pose proof (S_F12 st t g P E R1) as K. rewrite R in K. exact K.
  - destruct (negb (get_ok N st (S g))) eqn:E.
    + apply negb_true_iff in E. bools. injection H as <-. apply S_F13gone with (g := g); auto.
    + apply negb_false_iff in E. bools. destruct (_ =? _) eqn:X in H; [|discriminate H]. bools.
      assert (g_inc st = g) by lia.
      destruct (mstate_eqb _ _) eqn:Y in H; bools; injection H as <-; replace (g_inc st + 1) with (S g) by lia.
      * apply S_F13; auto.
      * apply S_F13stop; auto.
  - injection H as <-. constructor; auto.
  - injection H as <-. constructor; auto.
  - destruct (mstate_eqb _ _) eqn:E; [|discriminate H]. bools. injection H as <-. apply S_Q3; auto.
  - injection H as <-. constructor; auto.
  - destruct (_ <=? _) eqn:E; [|discriminate H]. injection H as <-. constructor; auto.
  - destruct (j =? g_ret st) eqn:E; bools.
    + injection H as <-. apply S_L3root with (j := j); auto.
    + destruct (match c with Go b => b | _ => false end && may_stop k seen) eqn:X.
      * bools. injection H as <-. apply S_L3stop with (j := j); auto.
      * destruct (_ && _) eqn:Y in H; [|discriminate H]. injection H as <-. constructor; auto.
  - injection H as <-. constructor; auto.
  - destruct (_ && _) eqn:E; [discriminate H|]. injection H as <-. constructor; auto.
  - injection H as <-. constructor; auto.
  - injection H as <-. eapply S_LDone; eauto.
  - injection H as <-. constructor; auto.
  - injection H as <-. constructor; auto.
  - destruct (j =? g_ret st) eqn:E; bools.
    + injection H as <-. apply S_R3end with (j := j); auto.
    + destruct (_ && _) eqn:Y in H; [|discriminate H]. destruct (ok_to_lookup_compacted _); injection H as <-; constructor; auto.
  - destruct (get_ok N st (j - 1)) eqn:E; [|discriminate H]. bools. injection H as <-. constructor; auto.
  - destruct held as [|g held]; [injection H as <-; constructor; auto|].
    unfold dec_ref in H. destruct (get_ok N st g) eqn:E; [|discriminate H]. bools.
    destruct (s_refs (at_gen st g)) as [|[|n]] eqn:R; [discriminate H| |].
    + destruct (mstate_eqb _ _) eqn:X; [|discriminate H]. bools. injection H as <-. apply S_RHlast; auto.
    + injection H as <-. assert (1 < s_refs (at_gen st g)) as R1 by lia.
      pose proof (S_RH st t g held P E R1) as K. rewrite R in K. exact K.
Qed.

(** ** The invariant *)

(** Readers and writers of the two locks *)
Definition i_reader (p : pc) : bool :=
  match p with I1 _ | I2 _ _ | I3 _ _ | I4 _ _ | I5 _ _ | I9 _ _ | I11 => true | _ => false end.
Definition i_writer (p : pc) : bool := match p with I6 _ _ | I7 _ _ | I8 _ _ => true | _ => false end.
Definition l_reader (p : pc) : bool :=
  match p with L1 _ _ | L2 _ _ _ | L3 _ _ _ _ | L4 _ _ _ _ | L5 _ _ _ _ _ | L6 _ _ _ | R1 | R2 _ | R3 _ _ | R4 _ _ => true | _ => false end.
Definition l_writer (p : pc) : bool := match p with F7 _ _ | F8 _ _ | F9 _ _ | F10 _ _ | F11 _ => true | _ => false end.
Definition holds_lock (k : lock) (t : nat) (rd wr : bool) : Prop :=
  match k with Readers l => wr = false /\ (rd = true -> In t l) | Writer t' => rd = false /\ (wr = true -> t = t') end.

(** What an inserter knows about the current memtable *)
Definition ins_ok (st : state) (p : pc) : Prop :=
  match p with
  | I2 _ g => g = g_gen st
  | I3 _ g | I9 _ g => g = g_gen st /\ s_st (at_gen st g) = Ready
  | I4 _ g => g = g_gen st /\ s_st (at_gen st g) = Ready /\ s_tree (at_gen st g) <> []
  | I5 _ g | I6 _ g => g = g_gen st /\ s_st (at_gen st g) = Ready /\ s_tree (at_gen st g) <> [] /\ s_st (at_gen st (S g)) = Ready
  | I7 _ g => g = g_gen st /\ s_st (at_gen st (S g)) = Ready
  | _ => True
  end.

(** The generation that a thread is responsible for, and its state *)
Definition owned (p : pc) : option (nat * mstate) :=
  match p with
  | I7 _ g | I8 _ g | I10 _ g | F0 g => Some (g, Finalized)
  | F1 g | F2 g => Some (g, Compacting)
  | _ => None
  end.
Definition own_ok (st : state) (t : nat) (p : pc) : Prop :=
  (forall g m, owned p = Some (g, m) -> s_gen (at_gen st g) = g /\ s_tok (at_gen st g) = Own t /\ s_st (at_gen st g) = m) /\
  match p with
  | F2 g => s_cmt (at_gen st g) = s_tree (at_gen st g)
  | I8 _ g | I10 _ g | F0 g => g < g_gen st
  | _ => True
  end.

(** The incorporating thread *)
Definition inc_pc (p : pc) : bool :=
  match p with
  | F5 _ | F6 _ _ | F7 _ _ | F8 _ _ | F9 _ _ | F10 _ _ | F11 _ | F12 _ | F13 _
  | Q1 _ (AFlush _) | Q2 _ (AFlush _) | Q3 _ (AFlush _) => true
  | _ => false
  end.
Definition before_switch (st : state) (g : nat) (m : mstate) : Prop :=
  g = g_ret st /\ g_inc st = g /\ s_gen (at_gen st g) = g /\ s_st (at_gen st g) = m.
Definition after_switch (st : state) (g : nat) : Prop := g_ret st = S g /\ g_inc st = g.
Definition inc_ok (st : state) (p : pc) : Prop :=
  match p with
  | F5 g => before_switch st g Assigned
  | F6 g nr | F7 g nr => before_switch st g Assigned /\ nr = g_root st ++ s_cmt (at_gen st g)
  | F8 g nr => before_switch st g Incorporating /\ nr = g_root st ++ s_cmt (at_gen st g)
  | F9 g nr => before_switch st g Incorporated /\ nr = g_root st ++ s_cmt (at_gen st g)
  | F10 g _ | F11 g | F12 g =>
      after_switch st g /\ s_gen (at_gen st g) = g /\ s_st (at_gen st g) = Incorporated /\ s_base (at_gen st g) = true
      /\ s_rec (at_gen st g) = None
  | F13 g | Q1 _ (AFlush g) | Q2 _ (AFlush g) | Q3 _ (AFlush g) => after_switch st g
  | _ => True
  end.

(** The recycling thread *)
Definition rec_ok (st : state) (t : nat) (p : pc) : Prop :=
  match p with
  | Q1 g _ => s_rec (at_gen st g) = Some t /\ s_gen (at_gen st g) = g /\ s_base (at_gen st g) = false
  | Q2 g _ => s_rec (at_gen st g) = Some t /\ s_gen (at_gen st g) = g /\ g < g_ret st /\ s_tree (at_gen st g) = [] /\ s_base (at_gen st g) = true
  | Q3 g _ => s_rec (at_gen st g) = Some t /\ s_gen (at_gen st g) = g + N /\ g_gen st < g + N /\ s_tree (at_gen st g) = [] /\ s_base (at_gen st g) = true
  | _ => True
  end.

(** The references of an iterator *)
Definition helds (p : pc) : list nat :=
  match p with
  | R3 _ h | R4 _ h | RHold h | Q1 _ (AIter h) | Q2 _ (AIter h) | Q3 _ (AIter h) => h
  | _ => []
  end.
Definition hold_ok (st : state) (t : nat) (p : pc) : Prop :=
  NoDup (helds p) /\
  (forall g, In g (helds p) -> s_gen (at_gen st g) = g /\ In t (s_holders (at_gen st g))) /\
  match p with
  | R2 gs => g_ret st <= gs <= g_gen st
  | R3 j h => g_ret st <= j <= S (g_gen st) /\ forall g, In g h -> j <= g
  | R4 j h => g_ret st < j <= S (g_gen st) /\ forall g, In g h -> j <= g
  | _ => True
  end.

(** The writes in the memtables of generations [a .. a+n-1] *)
Definition conts (st : state) (a n : nat) : list write := flat_map (fun i => s_tree (at_gen st i)) (seq a n).
(** The writes that are incorporated; while the root is being switched, they are
    those of the new root. *)
Definition eff_root (st : state) : list write :=
  match g_incorp st with
  | Some t => match g_pc st t with F10 _ nr => nr | _ => g_root st end
  | None => g_root st
  end.
Definition look_ok (st : state) (p : pc) : Prop :=
  match p with
  | L1 _ n0 => n0 <= length (g_hist st)
  | L2 _ n0 gs => g_ret st <= gs <= g_gen st /\ n0 <= length (g_root st ++ conts st (g_ret st) (S gs - g_ret st))
  | L3 _ n0 j seen =>
      g_ret st <= j <= S (g_gen st) /\
      (exists tail, g_hist st = g_root st ++ conts st (g_ret st) (j - g_ret st) ++ seen ++ tail) /\
      n0 <= length (g_root st ++ conts st (g_ret st) (j - g_ret st) ++ seen)
  | L4 _ n0 j seen =>
      g_ret st < j <= S (g_gen st) /\
      (exists tail, g_hist st = g_root st ++ conts st (g_ret st) (j - g_ret st) ++ seen ++ tail) /\
      n0 <= length (g_root st ++ conts st (g_ret st) (j - g_ret st) ++ seen)
  | L5 _ n0 j seen b =>
      g_ret st < j <= S (g_gen st) /\
      (exists tail, g_hist st = g_root st ++ conts st (g_ret st) (j - g_ret st) ++ seen ++ tail) /\
      n0 <= length (g_root st ++ conts st (g_ret st) (j - g_ret st) ++ seen) /\
      (b = true -> ok_to_lookup_compacted (s_st (at_gen st (j - 1))) = true)
  | L6 _ n0 seen => (exists tail, g_hist st = seen ++ tail) /\ n0 <= length seen
  | LDone k n0 v => exists H tail, g_hist st = H ++ tail /\ n0 <= length H /\ v = replay cfg k (source_messages k H) None
  | _ => True
  end.

(** One slot *)
Definition st_ok (st : state) (s : slot) : Prop :=
  match s_st s with
  | Ready => g_gen st <= s_gen s /\ s_rec s = None /\ s_tok s = Nobody /\ (g_gen st < s_gen s -> s_tree s = [])
  | Finalized => g_ret st <= s_gen s <= g_gen st /\ s_rec s = None /\ s_tree s <> [] /\ s_tok s <> Nobody
                 /\ (s_gen s = g_gen st -> exists t w, s_tok s = Own t /\ g_pc st t = I7 w (s_gen s))
  | Compacting => g_ret st <= s_gen s < g_gen st /\ s_rec s = None /\ s_tree s <> [] /\ exists t, s_tok s = Own t
  | Compacted => g_ret st <= s_gen s < g_gen st /\ s_rec s = None /\ s_cmt s = s_tree s
                 /\ (s_tok s = Nobody /\ g_inc st < s_gen s \/ exists t, s_tok s = Own t)
  | Assigned => s_gen s = g_ret st /\ s_gen s < g_gen st /\ s_rec s = None /\ s_cmt s = s_tree s /\ s_tok s = Nobody
                /\ exists t, g_incorp st = Some t /\ (g_pc st t = F5 (s_gen s) \/ exists nr, g_pc st t = F6 (s_gen s) nr \/ g_pc st t = F7 (s_gen s) nr)
  | Incorporating => s_gen s = g_ret st /\ s_gen s < g_gen st /\ s_rec s = None /\ s_cmt s = s_tree s /\ s_tok s = Nobody
                /\ exists t nr, g_incorp st = Some t /\ g_pc st t = F8 (s_gen s) nr
  | Incorporated => s_tok s = Nobody /\
      (s_gen s < g_ret st
       \/ (s_gen s = g_ret st /\ s_gen s < g_gen st /\ s_rec s = None /\ s_cmt s = s_tree s
           /\ exists t nr, g_incorp st = Some t /\ g_pc st t = F9 (s_gen s) nr)
       \/ (g_gen st < s_gen s /\ exists t, s_rec s = Some t))
  end.
Definition tok_ok (st : state) (s : slot) : Prop :=
  match s_tok s with
  | Nobody => True
  | InQueue => In (s_gen s) (g_tasks st) /\ s_st s = Finalized
  | Own t => owned (g_pc st t) = Some (s_gen s, s_st s) \/ (g_pc st t = F3 (s_gen s) /\ s_st s = Compacted)
  end.
Definition ref_ok (st : state) (s : slot) : Prop :=
  s_refs s = (if s_base s then 1 else 0) + length (s_holders s) /\
  NoDup (s_holders s) /\
  (forall t, In t (s_holders s) -> In (s_gen s) (helds (g_pc st t))) /\
  (s_base s = false -> s_gen s < g_ret st /\ s_st s = Incorporated) /\
  (s_rec s = None -> 0 < s_refs s).
Definition recs_ok (st : state) (i : nat) (s : slot) : Prop :=
  forall t, s_rec s = Some t -> s_holders s = [] /\ s_st s = Incorporated /\
    exists g a, g mod N = i /\ (g_pc st t = Q1 g a \/ g_pc st t = Q2 g a \/ g_pc st t = Q3 g a).

Record inv (st : state) : Prop := {
  v_rg : g_ret st <= g_gen st;
  v_mod : forall i, i < N -> s_gen (g_slots st i) mod N = i;
  v_lo : forall i, i < N -> g_gen st < s_gen (g_slots st i) + N;
  v_hi : forall i, i < N -> s_gen (g_slots st i) < g_ret st + N;
  v_ilock : forall t, holds_lock (g_ilock st) t (i_reader (g_pc st t)) (i_writer (g_pc st t));
  v_llock : forall t, holds_lock (g_llock st) t (l_reader (g_pc st t)) (l_writer (g_pc st t));
  v_ins : forall t, ins_ok st (g_pc st t);
  v_own : forall t, own_ok st t (g_pc st t);
  v_incp : forall t, inc_pc (g_pc st t) = true <-> g_incorp st = Some t;
  v_inc : forall t, inc_ok st (g_pc st t);
  v_noinc : g_incorp st = None -> g_inc st = g_ret st;
  v_rec : forall t, rec_ok st t (g_pc st t);
  v_hold : forall t, hold_ok st t (g_pc st t);
  v_st : forall i, i < N -> st_ok st (g_slots st i);
  v_tok : forall i, i < N -> tok_ok st (g_slots st i);
  v_ref : forall i, i < N -> ref_ok st (g_slots st i);
  v_recs : forall i, i < N -> recs_ok st i (g_slots st i);
  v_tasks : forall g, In g (g_tasks st) -> s_gen (at_gen st g) = g /\ s_tok (at_gen st g) = InQueue;
  v_nodup : NoDup (g_tasks st);
  v_hist : g_hist st = eff_root st ++ conts st (g_ret st) (S (g_gen st) - g_ret st);
  v_look : forall t, look_ok st (g_pc st t)
}.
End Inv.
