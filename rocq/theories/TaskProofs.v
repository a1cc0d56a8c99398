(** * Invariants of the task groups *)

From Coq Require Import List Arith Bool Lia.
From Verif Require Import Count Task Spec_Queue.
Import ListNotations.

Ltac sif := unfold upd in *; repeat match goal with
  | |- context [?x =? ?y] => destruct (Nat.eqb_spec x y); subst
  | H : context [?x =? ?y] |- _ => destruct (Nat.eqb_spec x y); subst
  end.

(** ** The steps, one constructor per kind *)

Section Machine.
Variable G : nat.
Variable workers : nat -> list nat.

Inductive move (st : state) : pc -> pc -> Prop :=
| m_perf : forall g, g < G -> move st Out (PerfL g)
| m_perf0 : forall g, q_wait (s_grp st g) = 0 -> move st (PerfL g) Out
| m_quiet : move st Out (XLock 0)
| m_stop : forall g, g < G -> move st Out (StopL g)
| m_vwait : move st Out (VWait 0)
| m_locked : forall i, G <= i -> move st (XLock i) (XChk 0)
| m_chk : forall i, i < G -> q_exec (s_grp st i) = 0 -> q_wait (s_grp st i) = 0 -> move st (XChk i) (XChk (S i))
| m_no : forall i, move st (XChk i) (XUnl 0 false)
| m_yes : forall i, G <= i -> move st (XChk i) (XUnl 0 true)
| m_unl : forall i r, G <= i -> move st (XUnl i r) Out
| m_join0 : forall g, move st (Join g []) Out
| m_join : forall g w l, move st (Join g (w :: l)) (Join g l)
| m_vw : forall g, move st (VWait g) (VWait (S g))
| m_vw0 : forall g, move st (VWait g) Out.

(** The group as a thread that comes for a task finds it. *)
Inductive comes (st : state) (g : nat) : pc -> group -> bool -> Prop :=
| c_fg : comes st g (PerfL g) (s_grp st g) false
| c_bg : comes st g (WLoop g false) (s_grp st g) true
| c_fin : forall q, sub_exec (s_grp st g) = Some q -> comes st g (WLoop g true) q true.

Inductive trans (st : state) (t : nat) : state -> Prop :=
| t_same : trans st t st
| t_move : forall p', move st (s_pc st t) p' -> trans st t (set_pc st t p')
| t_alloc : forall g hd a k, s_pc st t = resume k -> g < G -> s_heap st a = None ->
    trans st t (St (upd (s_heap st) a (Some (Nd (s_calls st) None None))) (s_grp st)
               (upd (s_pc st) t (EnqL g hd a k)) (S (s_calls st)) (s_started st) (s_done st))
| t_finish : forall j, s_pc st t = Run j ->
    trans st t (St (s_heap st) (s_grp st)
             (upd (s_pc st) t (if j_bg j then FreeBg (j_grp j) (j_addr j) else RanFg (j_grp j) (j_addr j)))
             (s_calls st) (s_started st) (s_done st ++ [j_id j]))
| t_link : forall g hd a k heap q w pcs q', s_pc st t = EnqL g hd a k -> q_lock (s_grp st g) = None ->
    link (s_heap st) (s_grp st g) hd a = Some (heap, q) ->
    signal (upd (s_pc st) t (resume k)) g q w = Some (pcs, q') ->
    trans st t (St heap (upd (s_grp st) g q') pcs (s_calls st) (s_started st) (s_done st))
| t_take : forall g q a q' bg, comes st g (s_pc st t) q bg -> q_lock (s_grp st g) = None ->
    (bg = true -> q_stop q = false) ->
    get_next (s_heap st) q = Some (Some a, q') ->
    trans st t (set_pc (set_grp st g (add_exec q')) t (Start g a bg))
| t_sleep : forall g q, comes st g (s_pc st t) q true -> q_lock (s_grp st g) = None ->
    q_stop q = false -> q_wait q = 0 ->
    trans st t (set_pc (set_grp st g (set_sleep q (t :: q_sleep q))) t (WSleep g))
| t_dead : forall g q, comes st g (s_pc st t) q true -> q_lock (s_grp st g) = None ->
    q_stop q = true -> trans st t (set_pc (set_grp st g q) t (WDead g))
| t_start : forall g a bg nd, s_pc st t = Start g a bg -> s_heap st a = Some nd ->
    trans st t (St (s_heap st) (s_grp st) (upd (s_pc st) t (Run (Jb g a (n_arg nd) bg)))
                 (s_calls st) (s_started st ++ [n_arg nd]) (s_done st))
| t_ran : forall g a q, s_pc st t = RanFg g a -> sub_exec (s_grp st g) = Some q ->
    trans st t (set_pc (set_grp st g q) t (FreeFg a))
| t_ffg : forall a, s_pc st t = FreeFg a -> trans st t (set_pc (set_heap st a None) t Out)
| t_fbg : forall g a, s_pc st t = FreeBg g a -> trans st t (set_pc (set_heap st a None) t (WLoop g true))
| t_spur : forall g, s_pc st t = WSleep g ->
    trans st t (set_pc (set_grp st g (set_sleep (s_grp st g) (del t (q_sleep (s_grp st g))))) t (WLoop g false))
| t_xlock : forall i, s_pc st t = XLock i -> i < G -> q_lock (s_grp st i) = None ->
    trans st t (set_pc (set_grp st i (set_lock (s_grp st i) (Some t))) t (XLock (S i)))
| t_xunl : forall i r, s_pc st t = XUnl i r -> i < G ->
    trans st t (set_pc (set_grp st i (set_lock (s_grp st i) None)) t (XUnl (S i) r))
| t_stop : forall g, s_pc st t = StopL g -> q_lock (s_grp st g) = None ->
    q_head (s_grp st g) = None -> q_wait (s_grp st g) = 0 ->
    trans st t (St (s_heap st) (upd (s_grp st) g (set_stop (s_grp st g)))
                   (upd (wake_all (s_pc st) g (q_sleep (s_grp st g))) t (Join g (workers g)))
                   (s_calls st) (s_started st) (s_done st)).

Lemma gn_none : forall heap q q', get_next heap q = Some (None, q') -> q' = q /\ q_wait q = 0.
Proof.
  unfold get_next. intros heap q q' H. destruct (Nat.eqb_spec (q_wait q) 0).
  - injection H as <-. auto.
  - destruct (q_head q), (q_tail q); try discriminate.
    destruct (heap n0) as [nd|]; try discriminate. destruct (n_next nd); try discriminate.
    destruct (_ && _); discriminate.
Qed.

Lemma free_lock_none : forall st g, free_lock st g = true -> q_lock (s_grp st g) = None.
Proof. unfold free_lock. intros st g H. destruct (q_lock _); [discriminate | reflexivity]. Qed.

Lemma worker_turn_trans : forall st t g q st', comes st g (s_pc st t) q true ->
  q_lock (s_grp st g) = None -> worker_turn st t g q = Ok st' -> trans st t st'.
Proof.
  unfold worker_turn. intros st t g q st' C F H. destruct (q_stop q) eqn:E.
  - injection H as <-. apply (t_dead st t g q C F E).
  - destruct (get_next _ _) as [[[a|] q']|] eqn:GN; [ | | discriminate]; injection H as <-.
    + apply (t_take st t g q a q' true C F (fun _ => E) GN).
    + apply gn_none in GN. destruct GN as [-> GW]. apply (t_sleep st t g q C F E GW).
Qed.

Theorem step_trans : forall st t c st', step G workers st t c = Ok st' -> trans st t st'.
Proof.
  intros st t c st' H. unfold step in H.
  destruct (s_pc st t) eqn:E; destruct c; try discriminate H;
    unfold call_enqueue in H; cbn beta iota in H.
  - destruct (Nat.ltb_spec g G); [|discriminate]. destruct (s_heap st a) eqn:F; [discriminate|].
    injection H as <-. apply t_alloc; assumption.
  - destruct (Nat.ltb_spec g G); [|discriminate]. injection H as <-. apply t_move. rewrite E. constructor; assumption.
  - injection H as <-. apply t_move. rewrite E. constructor.
  - destruct (Nat.ltb_spec g G); [|discriminate]. injection H as <-. apply t_move. rewrite E. constructor; assumption.
  - injection H as <-. apply t_move. rewrite E. constructor.
  - destruct (free_lock st g) eqn:F; [|discriminate]. apply free_lock_none in F.
    destruct (link _ _ _ _) as [[heap q]|] eqn:LK; [|discriminate].
    destruct (signal _ _ _ _) as [[pcs q']|] eqn:SG; [|discriminate]. injection H as <-.
    apply (t_link st t g hd a k heap q w pcs q' E F LK SG).
  - destruct (free_lock st g) eqn:F; [|discriminate]. apply free_lock_none in F.
    destruct (get_next _ _) as [[[a|] q']|] eqn:GN; [ | | discriminate]; injection H as <-.
    + eapply t_take; [ | exact F | | exact GN]; [rewrite E; constructor | discriminate].
    + apply gn_none in GN. apply t_move. rewrite E. apply m_perf0. apply GN.
  - destruct (s_heap st a) as [nd|] eqn:F; [|discriminate]. injection H as <-.
    apply (t_start st t g a bg nd E F).
  - destruct (Nat.ltb_spec g G); [|discriminate]. destruct (s_heap st a) eqn:F; [discriminate|].
    injection H as <-. apply t_alloc; assumption.
  - injection H as <-. apply (t_finish st t j E).
  - destruct (sub_exec _) as [q|] eqn:F; [|discriminate]. injection H as <-. apply (t_ran st t g a q E F).
  - destruct (s_heap st a) eqn:F; [|discriminate]. injection H as <-. apply (t_ffg st t a E).
  - destruct (s_heap st a) eqn:F; [|discriminate]. injection H as <-. apply (t_fbg st t g a E).
  - destruct (free_lock st g) eqn:F; [|discriminate]. apply free_lock_none in F. destruct fin.
    + destruct (sub_exec _) as [q|] eqn:X; [|discriminate].
      eapply worker_turn_trans; [ | exact F | exact H]. rewrite E. constructor. exact X.
    + eapply worker_turn_trans; [ | exact F | exact H]. rewrite E. constructor.
  - injection H as <-. apply (t_spur st t g E).
  - destruct (Nat.ltb_spec i G).
    + destruct (free_lock st i) eqn:F; [|discriminate]. apply free_lock_none in F. injection H as <-.
      apply (t_xlock st t i E); assumption.
    + injection H as <-. apply t_move. rewrite E. constructor. assumption.
  - destruct (Nat.ltb_spec i G).
    + destruct (Nat.eqb_spec (q_exec (s_grp st i)) 0); destruct (Nat.eqb_spec (q_wait (s_grp st i)) 0);
        cbn in H; injection H as <-; apply t_move; rewrite E; constructor; assumption.
    + injection H as <-. apply t_move. rewrite E. constructor. assumption.
  - destruct (Nat.ltb_spec i G).
    + injection H as <-. apply (t_xunl st t i r E). assumption.
    + injection H as <-. apply t_move. rewrite E. constructor. assumption.
  - destruct (free_lock st g) eqn:F; [|discriminate]. apply free_lock_none in F.
    destruct (q_head _) eqn:H1; [discriminate|]. destruct (q_tail _) eqn:H2; [discriminate|].
    destruct (q_wait _) eqn:H3; [|discriminate]. injection H as <-. apply (t_stop st t g E F H1 H3).
  - destruct l as [|x l]; [|destruct (s_pc st x); discriminate]. discriminate.
  - destruct l as [|x l]; [discriminate|]. destruct (s_pc st x); discriminate.
  - destruct l as [|x l]; [discriminate|]. destruct (s_pc st x); discriminate.
  - destruct l as [|x l]; [discriminate|]. destruct (s_pc st x); discriminate.
  - destruct l as [|x l]; [discriminate|]. destruct (s_pc st x); discriminate.
  - destruct l as [|x l]; [discriminate|]. destruct (s_pc st x); discriminate.
  - destruct l as [|x l].
    + injection H as <-. apply t_move. rewrite E. constructor.
    + destruct (s_pc st x); try discriminate. injection H as <-. apply t_move. rewrite E. constructor.
  - destruct (Nat.ltb_spec g G).
    + destruct (Nat.eqb_spec (q_wait (s_grp st g)) 0); injection H as <-; [|apply t_same].
      apply t_move. rewrite E. constructor.
    + injection H as <-. apply t_move. rewrite E. constructor.
Qed.

(** ** Layer 1: the lists and who owns which task *)

Fixpoint chain (heap : nat -> option node) (l : list nat) : Prop :=
  match l with
  | [] => True
  | a :: r => (exists nd, heap a = Some nd /\ n_next nd = hd_error r) /\ chain heap r
  end.
Fixpoint last_opt (l : list nat) : option nat :=
  match l with
  | [] => None
  | [a] => Some a
  | _ :: r => last_opt r
  end.
Definition arg (heap : nat -> option node) (a : nat) : nat :=
  match heap a with Some nd => n_arg nd | None => 0 end.

(** The tasks a thread holds. *)
Definition holds (p : pc) : list nat :=
  match p with
  | EnqL _ _ a None => [a]
  | EnqL _ _ a (Some j) => [a; j_addr j]
  | Start _ a _ => [a]
  | Run j => [j_addr j]
  | RanFg _ a | FreeFg a | FreeBg _ a => [a]
  | _ => []
  end.

Inductive owner := AFree | AQ (g : nat) | AT (t : nat).

Record Inv1 (A : nat -> owner) (L : nat -> list nat) (st : state) : Prop := {
  a_free : forall a, s_heap st a = None <-> A a = AFree;
  a_q : forall g a, In a (L g) <-> A a = AQ g;
  a_t : forall t a, In a (holds (s_pc st t)) <-> A a = AT t;
  a_nd : forall t, NoDup (holds (s_pc st t));
  a_e : forall t g hd a k, s_pc st t = EnqL g hd a k -> exists nd, s_heap st a = Some nd /\ n_next nd = None;
  l_nd : forall g, NoDup (L g);
  l_ch : forall g, chain (s_heap st) (L g);
  l_hd : forall g, q_head (s_grp st g) = hd_error (L g);
  l_tl : forall g, q_tail (s_grp st g) = last_opt (L g);
  l_w : forall g, q_wait (s_grp st g) = length (L g);
  l_h : forall g, replay (q_hist (s_grp st g)) [] = Some (map (arg (s_heap st)) (L g)) }.

Lemma chain_ext : forall h h' l, (forall a, In a l -> h' a = h a) -> chain h l -> chain h' l.
Proof.
  induction l as [|a r IH]; intros E H; [exact Logic.I|]. cbn in *. destruct H as [(nd & H1 & H2) H3].
  split; [exists nd; split; [rewrite E; auto | assumption]|]. apply IH; auto.
Qed.

Lemma last_opt_app : forall l a, last_opt (l ++ [a]) = Some a.
Proof. induction l as [|b l IH]; intros a; [reflexivity|]. cbn. rewrite IH. destruct l; reflexivity. Qed.

Lemma last_opt_In : forall l a, last_opt l = Some a -> In a l.
Proof.
  induction l as [|b l IH]; intros a H; [discriminate|]. destruct l; [left; now injection H|]. right. apply IH. exact H.
Qed.

Lemma last_opt_split : forall l a, last_opt l = Some a -> exists r, l = r ++ [a].
Proof.
  induction l as [|b l IH]; intros a H; [discriminate|]. destruct l.
  - injection H as ->. exists []. reflexivity.
  - destruct (IH a H) as (r & ->). exists (b :: r). reflexivity.
Qed.

Lemma hd_error_app : forall (l : list nat) x y, hd_error ((l ++ [x]) ++ y) = hd_error (l ++ [x]).
Proof. intros [|b l] x y; reflexivity. Qed.

Lemma replay_app : forall h q h', replay (h ++ h') q = match replay h q with Some q' => replay h' q' | None => None end.
Proof.
  induction h as [|o h IH]; intros q h'; [reflexivity|]. destruct o; cbn; rewrite ?IH; try reflexivity.
  destruct q as [|y q]; [reflexivity|]. destruct (x =? y); [apply IH | reflexivity].
Qed.

Lemma map_arg_ext : forall h h' l, (forall a, In a l -> arg h' a = arg h a) -> map (arg h') l = map (arg h) l.
Proof. intros h h' l H. apply map_ext_in. exact H. Qed.

(** [task_group_get_next_task] takes the first task of the list. *)
Lemma gn_some : forall heap q a q' l, q_head q = hd_error l -> q_tail q = last_opt l ->
  q_wait q = length l -> chain heap l -> get_next heap q = Some (Some a, q') ->
  exists r, l = a :: r /\
    q' = Gr (hd_error r) (last_opt r) (length r) (q_exec q) (q_lock q) (q_sleep q) (q_stop q)
            (q_hist q ++ [Pop (arg heap a)]).
Proof.
  intros heap q a q' l HH HT HW HC. unfold get_next. destruct l as [|b r].
  - rewrite HW. cbn. discriminate.
  - rewrite HW, HH. cbn [hd_error length Nat.eqb]. destruct HC as [(nd & N1 & N2) HC].
    destruct (q_tail q) as [tl|] eqn:TL; [|discriminate]. rewrite N1, N2.
    destruct r as [|c r].
    + cbn [hd_error]. injection HT as ->. rewrite Nat.eqb_refl. cbn. intros [= <- <-].
      exists []. split; [reflexivity|]. unfold arg. rewrite N1. reflexivity.
    + cbn [hd_error]. intros [= <- <-]. exists (c :: r). split; [reflexivity|].
      unfold arg. rewrite N1. rewrite HT. f_equal; cbn; lia.
Qed.

Lemma last_opt_cons : forall b l, last_opt (b :: l) <> None.
Proof. intros b l. revert b. induction l as [|c l IH]; intros b H; [discriminate|]. exact (IH c H). Qed.

Lemma gn_ok : forall heap q l, q_head q = hd_error l -> q_tail q = last_opt l ->
  q_wait q = length l -> chain heap l -> get_next heap q <> None.
Proof.
  intros heap q l HH HT HW HC. unfold get_next. destruct l as [|b r].
  - rewrite HW. discriminate.
  - destruct (q_tail q) as [tl|]; [|exfalso; exact (last_opt_cons b r (eq_sym HT))].
    rewrite HW, HH. cbn [hd_error length Nat.eqb]. destruct HC as [(nd & N1 & N2) HC].
    rewrite N1, N2. destruct r as [|c r]; [|discriminate].
    injection HT as ->. cbn. rewrite Nat.eqb_refl. discriminate.
Qed.

(** [task_enqueue] puts the task at the end, or in front. *)
Lemma link_some : forall heap q hd a heap' q' l, q_head q = hd_error l -> q_tail q = last_opt l ->
  q_wait q = length l -> chain heap l -> NoDup l -> ~ In a l ->
  (exists nd, heap a = Some nd /\ n_next nd = None) ->
  link heap q hd a = Some (heap', q') ->
  let l' := if hd then a :: l else l ++ [a] in
  chain heap' l' /\ (forall b, arg heap' b = arg heap b) /\
  (forall b, ~ In b l' -> heap' b = heap b) /\ (forall b, heap' b = None <-> heap b = None) /\
  q' = Gr (hd_error l') (last_opt l') (length l') (q_exec q) (q_lock q) (q_sleep q) (q_stop q)
          (q_hist q ++ [(if hd then PushFront else PushBack) (arg heap a)]).
Proof.
  intros heap q hd a heap' q' l HH HT HW HC ND NI (nd & N1 & N2). unfold link. rewrite N1.
  assert (AA : n_arg nd = arg heap a) by (unfold arg; rewrite N1; reflexivity).
  destruct (q_tail q) as [tl|] eqn:TL.
  - symmetry in HT. pose proof (last_opt_split l tl HT) as (r & ->).
    destruct hd.
    + destruct (q_head q) as [h|] eqn:HD; [|discriminate].
      destruct (heap h) as [hn|] eqn:HN; [|discriminate]. intros [= <- <-].
      remember (r ++ [tl]) as l eqn:EL. destruct l as [|b l]; [discriminate|]. cbn in HH. injection HH as <-.
      cbn. destruct HC as [(nd' & C1 & C2) HC]. rewrite HN in C1. injection C1 as <-.
      assert (Hah : a <> h) by (intros ->; apply NI; left; reflexivity).
      inversion ND as [|? ? ND1 ND2]; subst. split; [|split; [|split; [|split]]].
      * split; [|split].
        -- eexists. rewrite upd_same. split; reflexivity.
        -- eexists. rewrite upd_other by congruence. rewrite upd_same. split; [reflexivity|]. exact C2.
        -- eapply chain_ext; [|exact HC]. intros b Hb. rewrite !upd_other; [reflexivity| |].
           ++ intros ->. contradiction.
           ++ intros ->. apply NI. right. exact Hb.
      * intros b. unfold arg, upd. destruct (Nat.eqb_spec b a) as [->|]; [rewrite N1; reflexivity|].
        destruct (Nat.eqb_spec b h) as [->|]; [rewrite HN; reflexivity|]. reflexivity.
      * intros b Hb. rewrite !upd_other; [reflexivity| |]; intros ->; apply Hb; auto.
      * intros b. unfold upd. destruct (Nat.eqb_spec b a) as [->|]; [rewrite N1; split; discriminate|].
        destruct (Nat.eqb_spec b h) as [->|]; [rewrite HN; split; discriminate|]. reflexivity.
      * rewrite AA. f_equal. { rewrite <- HT. reflexivity. } { rewrite HW. cbn. lia. }
    + destruct (heap tl) as [tn|] eqn:HN; [|discriminate]. intros [= <- <-]. cbv zeta.
      assert (Hah : a <> tl) by (intros ->; apply NI; apply in_app_iff; right; left; reflexivity).
      split; [|split; [|split; [|split]]].
      * clear HT HH HW TL. revert HC ND NI. induction r as [|b r IH]; cbn; intros HC ND NI.
        -- split; [|split; [|exact Logic.I]].
           ++ eexists. rewrite upd_other by congruence. rewrite upd_same. split; reflexivity.
           ++ eexists. rewrite upd_same. split; [reflexivity|]. exact N2.
        -- inversion ND as [|? ? ND1 ND2]; subst. destruct HC as [(bn & B1 & B2) HC]. split.
           ++ exists bn. rewrite !upd_other.
              ** split; [exact B1|]. rewrite B2. symmetry. apply hd_error_app.
              ** intros ->. apply ND1. apply in_app_iff. right. left. reflexivity.
              ** intros ->. apply NI. left. reflexivity.
           ++ apply IH; [exact HC | exact ND2 |]. intros X. apply NI. right. exact X.
      * intros b. unfold arg, upd. destruct (Nat.eqb_spec b a) as [->|]; [rewrite N1; reflexivity|].
        destruct (Nat.eqb_spec b tl) as [->|]; [rewrite HN; reflexivity|]. reflexivity.
      * intros b Hb. rewrite !upd_other; [reflexivity| |]; intros ->; apply Hb; rewrite !in_app_iff; cbn; auto.
      * intros b. unfold upd. destruct (Nat.eqb_spec b a) as [->|]; [rewrite N1; split; discriminate|].
        destruct (Nat.eqb_spec b tl) as [->|]; [rewrite HN; split; discriminate|]. reflexivity.
      * rewrite AA. f_equal.
        -- rewrite HH. symmetry. apply hd_error_app.
        -- symmetry. apply last_opt_app.
        -- rewrite HW, !app_length. cbn. lia.
  - destruct (q_head q) eqn:HD; [discriminate|]. intros [= <- <-].
    destruct l as [|b l]; [|discriminate]. cbn in HW. rewrite AA, HW. cbn.
    replace (if hd then [a] else [a]) with [a] by (destruct hd; reflexivity).
    split; [|split; [|split; [|split]]]; try reflexivity.
    cbn. split; [|exact Logic.I]. exists nd. auto.
Qed.

Lemma link_ok : forall heap q hd a l, q_head q = hd_error l -> q_tail q = last_opt l ->
  chain heap l -> heap a <> None -> link heap q hd a <> None.
Proof.
  intros heap q hd a l HH HT HC HA. unfold link. destruct (heap a); [|congruence].
  destruct (q_tail q) as [tl|] eqn:TL.
  - symmetry in HT. destruct hd.
    + destruct l as [|b l]; [discriminate|]. rewrite HH. cbn. destruct HC as [(nd & H1 & _) _].
      rewrite H1. discriminate.
    + apply last_opt_In in HT. clear - HC HT. induction l as [|b l IH]; [contradiction|].
      destruct HC as [(nd & H1 & _) HC]. destruct HT as [->|HT]; [rewrite H1; discriminate | auto].
  - destruct l as [|b l]; [rewrite HH; discriminate|]. exfalso. exact (last_opt_cons b l (eq_sym HT)).
Qed.

(** ** Layer 0: sleeping threads *)

Record Inv0 (st : state) : Prop := {
  z_in : forall g t, In t (q_sleep (s_grp st g)) <-> s_pc st t = WSleep g;
  z_nd : forall g, NoDup (q_sleep (s_grp st g));
  z_st : forall g, q_stop (s_grp st g) = true -> q_sleep (s_grp st g) = [] }.

Lemma mem_In : forall w l, mem w l = true <-> In w l.
Proof.
  intros w l. unfold mem. rewrite existsb_exists. split.
  - intros (x & H & E). apply Nat.eqb_eq in E. subst. exact H.
  - intros H. exists w. split; [exact H | apply Nat.eqb_refl].
Qed.
Lemma mem_false : forall w l, mem w l = false <-> ~ In w l.
Proof. intros w l. rewrite <- mem_In. destruct (mem w l); split; congruence. Qed.
Lemma In_del : forall w u l, In u (del w l) <-> In u l /\ u <> w.
Proof.
  intros w u l. unfold del. rewrite filter_In. destruct (Nat.eqb_spec u w); cbn; intuition congruence.
Qed.
Lemma NoDup_del : forall w l, NoDup l -> NoDup (del w l).
Proof. intros w l H. apply NoDup_filter. exact H. Qed.

(** A signal wakes at most one thread, and one if there is any. *)
Lemma signal_spec : forall pcs g q w pcs' q', signal pcs g q w = Some (pcs', q') ->
  (q_sleep q = [] /\ pcs' = pcs /\ q' = q) \/
  (In w (q_sleep q) /\ pcs' = upd pcs w (WLoop g false) /\ q' = set_sleep q (del w (q_sleep q))).
Proof.
  unfold signal. intros pcs g q w pcs' q' H. destruct (q_sleep q) as [|x l] eqn:E.
  - injection H as <- <-. auto.
  - destruct (mem w (x :: l)) eqn:M; [|discriminate]. injection H as <- <-. right.
    split; [apply mem_In; exact M | auto].
Qed.

Lemma link_fields : forall heap q hd a heap' q', link heap q hd a = Some (heap', q') ->
  q_sleep q' = q_sleep q /\ q_stop q' = q_stop q /\ q_exec q' = q_exec q /\ q_lock q' = q_lock q.
Proof.
  unfold link. intros heap q hd a heap' q' H. destruct (heap a); [|discriminate].
  destruct (q_tail q); [destruct hd|].
  - destruct (q_head q); [|discriminate]. destruct (heap _); [|discriminate]. injection H as _ <-. auto.
  - destruct (heap _); [|discriminate]. injection H as _ <-. auto.
  - destruct (q_head q); [discriminate|]. injection H as _ <-. auto.
Qed.

Lemma gn_fields : forall heap q a q', get_next heap q = Some (Some a, q') ->
  q_sleep q' = q_sleep q /\ q_stop q' = q_stop q /\ q_exec q' = q_exec q /\ q_lock q' = q_lock q /\
  q_wait q = S (q_wait q').
Proof.
  unfold get_next. intros heap q a q' H. destruct (Nat.eqb_spec (q_wait q) 0); [discriminate|].
  destruct (q_head q), (q_tail q); try discriminate. destruct (heap _) as [nd|]; [|discriminate].
  destruct (n_next nd); [|destruct (_ && _); [|discriminate]]; injection H as _ <-; cbn; repeat split; lia.
Qed.

Lemma sub_fields : forall q q', sub_exec q = Some q' ->
  q_head q' = q_head q /\ q_tail q' = q_tail q /\ q_wait q' = q_wait q /\ q_hist q' = q_hist q /\
  q_sleep q' = q_sleep q /\ q_stop q' = q_stop q /\ q_lock q' = q_lock q /\ q_exec q = S (q_exec q').
Proof.
  unfold sub_exec. intros q q' H. destruct (Nat.eqb_spec (q_exec q) 0); [discriminate|].
  injection H as <-. cbn. repeat split; lia.
Qed.

Lemma comes_fields : forall st g p q bg, comes st g p q bg ->
  q_head q = q_head (s_grp st g) /\ q_tail q = q_tail (s_grp st g) /\ q_wait q = q_wait (s_grp st g) /\
  q_hist q = q_hist (s_grp st g) /\ q_sleep q = q_sleep (s_grp st g) /\ q_stop q = q_stop (s_grp st g) /\
  q_lock q = q_lock (s_grp st g).
Proof.
  intros st g p q bg H. inversion H; subst; try (repeat split; reflexivity).
  match goal with X : sub_exec _ = Some _ |- _ => apply sub_fields in X; intuition congruence end.
Qed.

Lemma comes_pc : forall st g p q bg, comes st g p q bg ->
  p = PerfL g /\ bg = false \/ (exists fin, p = WLoop g fin) /\ bg = true.
Proof. intros st g p q bg H. inversion H; subst; eauto. Qed.

Lemma move_from : forall st p p', move st p p' ->
  holds p = [] /\ holds p' = [] /\ (forall g, p <> WSleep g) /\ (forall g, p' <> WSleep g) /\
  (forall g f, p <> WLoop g f) /\ (forall g f, p' <> WLoop g f) /\
  (forall g hd a k, p' <> EnqL g hd a k) /\ (forall g a b, p' <> Start g a b).
Proof. intros st p p' H. inversion H; subst; repeat split; discriminate. Qed.

Lemma resume_not_sleep : forall k g, resume k <> WSleep g.
Proof. intros [j|] g; discriminate. Qed.

Lemma inv0_pc : forall st t p st', Inv0 st -> s_pc st' = upd (s_pc st) t p ->
  (forall g, s_pc st t <> WSleep g) -> (forall g, p <> WSleep g) ->
  (forall g, q_sleep (s_grp st' g) = q_sleep (s_grp st g) /\ q_stop (s_grp st' g) = q_stop (s_grp st g)) ->
  Inv0 st'.
Proof.
  intros st t p st' [ZI ZN ZS] EP N1 N2 EG. constructor.
  - intros g u. rewrite EP. destruct (EG g) as [-> _]. rewrite ZI. unfold upd.
    destruct (Nat.eqb_spec u t) as [->|]; [|reflexivity]. specialize (N1 g). specialize (N2 g). split; congruence.
  - intros g. destruct (EG g) as [-> _]. apply ZN.
  - intros g. destruct (EG g) as [-> ->]. apply ZS.
Qed.

Ltac grp_case g' g := unfold upd; destruct (Nat.eqb_spec g' g) as [->|]; [|split; reflexivity].

Lemma inv0_step : forall st t st', Inv0 st -> trans st t st' -> Inv0 st'.
Proof.
  intros st t st' I0 T. inversion T; subst; clear T.
  - assumption.
  - apply move_from in H. destruct H as (_ & _ & M1 & M2 & _).
    apply (inv0_pc st t p'); auto.
  - apply (inv0_pc st t (EnqL g hd a k)); auto; try discriminate.
    intros g'. rewrite H. apply resume_not_sleep.
  - eapply (inv0_pc st t _); [exact I0 | reflexivity | | |auto]; intros g'; [congruence|]. destruct (j_bg j); discriminate.
  - apply link_fields in H1. destruct H1 as (F1 & F2 & F3 & F4).
    assert (I1 : Inv0 (St heap (upd (s_grp st) g q) (upd (s_pc st) t (resume k)) (s_calls st) (s_started st) (s_done st))).
    { eapply (inv0_pc st t (resume k)); [exact I0 | reflexivity | congruence | apply resume_not_sleep |].
      intros g'. cbn. grp_case g' g. auto. }
    destruct I1 as [ZI ZN ZS]. cbn in ZI, ZN, ZS.
    apply signal_spec in H2. destruct H2 as [(S1 & -> & ->)|(S1 & -> & ->)]; [constructor; assumption|].
    assert (SW : upd (s_pc st) t (resume k) w = WSleep g) by (apply ZI; rewrite upd_same; exact S1).
    remember (upd (s_pc st) t (resume k)) as pcs. constructor; cbn.
    + intros g' u. specialize (ZI g' u). unfold upd in *.
      destruct (Nat.eqb_spec g' g) as [->|Ng]; cbn; rewrite ?In_del, ZI;
        destruct (Nat.eqb_spec u w) as [->|]; [split; [tauto | discriminate] | tauto | split; congruence | tauto].
    + intros g'. specialize (ZN g'). unfold upd in *. destruct (Nat.eqb_spec g' g); subst; cbn; [apply NoDup_del|]; exact ZN.
    + intros g'. specialize (ZS g'). unfold upd in *. destruct (Nat.eqb_spec g' g); subst; cbn; [|exact ZS].
      intros X. apply ZS in X. rewrite X. reflexivity.
  - pose proof (comes_fields _ _ _ _ _ H) as CF. apply gn_fields in H2. apply comes_pc in H.
    apply (inv0_pc st t (Start g a bg)); auto; try discriminate.
    + intros g'. destruct H as [(-> & _)|[(fin & ->) _]]; discriminate.
    + intros g'. cbn. grp_case g' g. cbn. intuition congruence.
  - pose proof (comes_fields _ _ _ _ _ H) as CF. destruct CF as (_ & _ & _ & _ & C1 & C2 & _).
    apply comes_pc in H. destruct I0 as [ZI ZN ZS].
    assert (PT : forall g, s_pc st t <> WSleep g) by (intros g'; destruct H as [(-> & _)|[(fin & ->) _]]; discriminate).
    constructor; cbn.
    + intros g' u. specialize (ZI g' u). unfold upd. destruct (Nat.eqb_spec g' g) as [->|Ng]; cbn; rewrite ?C1, ZI.
      * destruct (Nat.eqb_spec u t) as [->|]; intuition congruence.
      * destruct (Nat.eqb_spec u t) as [->|]; [|tauto]. specialize (PT g'). split; congruence.
    + intros g'. unfold upd. destruct (Nat.eqb_spec g' g) as [->|Ng]; cbn; [|apply ZN]. rewrite C1. constructor; [|apply ZN].
      rewrite ZI. apply PT.
    + intros g'. unfold upd. destruct (Nat.eqb_spec g' g) as [->|Ng]; cbn; [|apply ZS]. congruence.
  - pose proof (comes_fields _ _ _ _ _ H) as CF. apply comes_pc in H.
    apply (inv0_pc st t (WDead g)); auto; try discriminate.
    + intros g'. destruct H as [(-> & _)|[(fin & ->) _]]; discriminate.
    + intros g'. cbn. grp_case g' g. intuition congruence.
  - eapply (inv0_pc st t _); [exact I0 | reflexivity | congruence | discriminate | auto].
  - apply sub_fields in H0. apply (inv0_pc st t (FreeFg a)); auto; try discriminate; [congruence|].
    intros g'. cbn. grp_case g' g. intuition congruence.
  - eapply (inv0_pc st t _); [exact I0 | reflexivity | congruence | discriminate | auto].
  - eapply (inv0_pc st t _); [exact I0 | reflexivity | congruence | discriminate | auto].
  - destruct I0 as [ZI ZN ZS]. constructor; cbn.
    + intros g' u. specialize (ZI g' u). unfold upd.
      destruct (Nat.eqb_spec g' g) as [->|Ng]; cbn; rewrite ?In_del, ZI;
        destruct (Nat.eqb_spec u t) as [->|]; [split; [tauto | discriminate] | tauto | split; congruence | tauto].
    + intros g'. unfold upd. destruct (Nat.eqb_spec g' g) as [->|Ng]; cbn; [apply NoDup_del|]; apply ZN.
    + intros g'. unfold upd. destruct (Nat.eqb_spec g' g) as [->|Ng]; cbn; [|apply ZS].
      intros X. apply ZS in X. rewrite X. reflexivity.
  - eapply (inv0_pc st t _); [exact I0 | reflexivity | congruence | discriminate |].
    intros g'. cbn. grp_case g' i. auto.
  - eapply (inv0_pc st t _); [exact I0 | reflexivity | congruence | discriminate |].
    intros g'. cbn. grp_case g' i. auto.
  - destruct I0 as [ZI ZN ZS]. constructor; cbn.
    + intros g' u. pose proof (ZI g' u) as Z1. pose proof (ZI g u) as Z2. unfold upd, wake_all.
      destruct (Nat.eqb_spec g' g) as [->|Ng]; cbn.
      * split; [tauto|]. destruct (Nat.eqb_spec u t) as [->|]; [discriminate|].
        destruct (mem u _) eqn:M; [discriminate|]. apply mem_false in M. tauto.
      * rewrite Z1. destruct (Nat.eqb_spec u t) as [->|]; [split; congruence|].
        destruct (mem u _) eqn:M; [|tauto]. apply mem_In in M. apply Z2 in M. split; congruence.
    + intros g'. unfold upd. destruct (Nat.eqb_spec g' g) as [->|Ng]; cbn; [constructor | apply ZN].
    + intros g'. unfold upd. destruct (Nat.eqb_spec g' g) as [->|Ng]; cbn; [reflexivity | apply ZS].
Qed.

Lemma inv1_frame : forall A L st st', Inv1 A L st -> s_heap st' = s_heap st ->
  (forall g, q_head (s_grp st' g) = q_head (s_grp st g) /\ q_tail (s_grp st' g) = q_tail (s_grp st g) /\
             q_wait (s_grp st' g) = q_wait (s_grp st g) /\ q_hist (s_grp st' g) = q_hist (s_grp st g)) ->
  (forall u, holds (s_pc st' u) = holds (s_pc st u)) ->
  (forall u g hd a k, s_pc st' u = EnqL g hd a k -> s_pc st u = EnqL g hd a k) ->
  Inv1 A L st'.
Proof.
  intros A L st st' [I1 I2 I3 I4 I5 I6 I7 I8 I9 I10 I11] EH EG EHo EE. constructor.
  - intros a. rewrite EH. apply I1.
  - apply I2.
  - intros t a. rewrite EHo. apply I3.
  - intros t. rewrite EHo. apply I4.
  - intros t g hd a k H. rewrite EH. apply EE in H. eapply I5. exact H.
  - apply I6.
  - intros g. rewrite EH. apply I7.
  - intros g. destruct (EG g) as (-> & _). apply I8.
  - intros g. destruct (EG g) as (_ & -> & _). apply I9.
  - intros g. destruct (EG g) as (_ & _ & -> & _). apply I10.
  - intros g. destruct (EG g) as (_ & _ & _ & ->). rewrite EH. apply I11.
Qed.

(** Only the place of one thread changes. *)
Lemma inv1_pc : forall A L st st' t p, Inv1 A L st -> s_heap st' = s_heap st ->
  (forall g, q_head (s_grp st' g) = q_head (s_grp st g) /\ q_tail (s_grp st' g) = q_tail (s_grp st g) /\
             q_wait (s_grp st' g) = q_wait (s_grp st g) /\ q_hist (s_grp st' g) = q_hist (s_grp st g)) ->
  s_pc st' = upd (s_pc st) t p -> holds p = holds (s_pc st t) -> (forall g hd a k, p <> EnqL g hd a k) ->
  Inv1 A L st'.
Proof.
  intros A L st st' t p I1 EH EG EP E1 E2. apply (inv1_frame A L st st' I1 EH EG).
  - intros u. rewrite EP. unfold upd. destruct (Nat.eqb_spec u t) as [->|]; [exact E1 | reflexivity].
  - intros u g hd a k. rewrite EP. unfold upd. destruct (Nat.eqb_spec u t) as [->|]; [|auto]. intros X. destruct (E2 _ _ _ _ X).
Qed.

Ltac grp4 g' g := unfold upd; destruct (Nat.eqb_spec g' g) as [->|]; [|repeat split; reflexivity].

Lemma comes_holds : forall st g p q bg, comes st g p q bg -> holds p = [].
Proof. intros st g p q bg H. inversion H; reflexivity. Qed.

Lemma holds_resume : forall g hd a k, holds (EnqL g hd a k) = a :: holds (resume k).
Proof. intros g hd a [j|]; reflexivity. Qed.

Lemma resume_enq : forall k g hd a k', resume k <> EnqL g hd a k'.
Proof. intros [j|]; discriminate. Qed.

Lemma inv1_free : forall A L st t a p st', Inv1 A L st -> holds (s_pc st t) = [a] ->
  holds p = [] -> (forall g hd a k, p <> EnqL g hd a k) ->
  s_heap st' = upd (s_heap st) a None -> s_grp st' = s_grp st -> s_pc st' = upd (s_pc st) t p ->
  Inv1 (upd A a AFree) L st'.
Proof.
  intros A L st t a p st' [I1 I2 I3 I4 I5 I6 I7 I8 I9 I10 I11] HO HP NE EH EG EP.
  assert (AT_ : A a = AT t) by (apply I3; rewrite HO; left; reflexivity).
  constructor.
  - intros b. rewrite EH. unfold upd. destruct (Nat.eqb_spec b a); [tauto | apply I1].
  - intros g b. rewrite I2. unfold upd. destruct (Nat.eqb_spec b a) as [->|]; [split; congruence | tauto].
  - intros u b. rewrite EP. unfold upd. destruct (Nat.eqb_spec u t) as [->|].
    + rewrite HP. destruct (Nat.eqb_spec b a) as [->|]; [split; [contradiction | discriminate]|].
      rewrite <- I3, HO. cbn. intuition congruence.
    + rewrite I3. destruct (Nat.eqb_spec b a) as [->|]; [split; congruence | tauto].
  - intros u. rewrite EP. unfold upd. destruct (Nat.eqb_spec u t) as [->|]; [rewrite HP; constructor | apply I4].
  - intros u g hd b k H. rewrite EP in H. rewrite EH. unfold upd in *. destruct (Nat.eqb_spec u t) as [->|Nt].
    + destruct (NE _ _ _ _ H).
    + destruct (Nat.eqb_spec b a) as [->|]; [|eapply I5; exact H]. exfalso.
      assert (X : A a = AT u) by (apply I3; rewrite H, holds_resume; left; reflexivity). congruence.
  - apply I6.
  - intros g. rewrite EH. eapply chain_ext; [|apply I7]. intros b Hb. apply upd_other. intros ->.
    apply I2 in Hb. congruence.
  - rewrite EG. apply I8. - rewrite EG. apply I9. - rewrite EG. apply I10.
  - intros g. rewrite EG, I11, EH. f_equal. apply map_ext_in. intros b Hb. unfold arg. rewrite upd_other; [reflexivity|].
    intros ->. apply I2 in Hb. congruence.
Qed.

Lemma inv1_step : forall A L st t st', Inv0 st -> Inv1 A L st -> trans st t st' ->
  exists A' L', Inv1 A' L' st'.
Proof.
  intros A L st t st' I0 IN T. inversion T; subst; clear T.
  - exists A, L. assumption.
  - exists A, L. apply move_from in H. apply (inv1_pc A L st _ t p' IN); [reflexivity | intros; repeat split | reflexivity | |]; [intuition congruence | tauto].
  - exists (upd A a (AT t)), L. destruct IN as [I1 I2 I3 I4 I5 I6 I7 I8 I9 I10 I11].
    assert (AF : A a = AFree) by (apply I1; assumption). constructor; cbn.
    + intros b. unfold upd. destruct (Nat.eqb_spec b a); [split; discriminate | apply I1].
    + intros g' b. rewrite I2. unfold upd. destruct (Nat.eqb_spec b a) as [->|]; [split; congruence | tauto].
    + intros u b. unfold upd. destruct (Nat.eqb_spec u t) as [->|].
      * rewrite holds_resume, <- H. cbn. rewrite I3. destruct (Nat.eqb_spec b a) as [->|]; intuition congruence.
      * rewrite I3. destruct (Nat.eqb_spec b a) as [->|]; [split; congruence | tauto].
    + intros u. unfold upd. destruct (Nat.eqb_spec u t) as [->|]; [|apply I4]. rewrite holds_resume, <- H.
      constructor; [|apply I4]. rewrite I3. congruence.
    + intros u g' hd' b k' X. unfold upd in *. destruct (Nat.eqb_spec u t) as [->|].
      * injection X as <- <- <- <-. rewrite Nat.eqb_refl. eexists. split; reflexivity.
      * destruct (Nat.eqb_spec b a); [eexists; split; reflexivity|]. eapply I5. exact X.
    + apply I6.
    + intros g'. eapply chain_ext; [|apply I7]. intros b Hb. apply upd_other. intros ->. apply I2 in Hb. congruence.
    + apply I8. + apply I9. + apply I10.
    + intros g'. rewrite I11. f_equal. apply map_ext_in. intros b Hb. unfold arg. rewrite upd_other; [reflexivity|].
      intros ->. apply I2 in Hb. congruence.
  - exists A, L. eapply (inv1_pc A L st _ t _ IN); [reflexivity | intros; repeat split | reflexivity | |];
      destruct (j_bg j); try discriminate; cbn; rewrite H; reflexivity.
  - destruct IN as [I1 I2 I3 I4 I5 I6 I7 I8 I9 I10 I11].
    assert (AA : A a = AT t) by (apply I3; rewrite H, holds_resume; left; reflexivity).
    assert (NI : ~ In a (L g)) by (intros X; apply I2 in X; congruence).
    pose proof (link_some _ _ _ _ _ _ _ (I8 g) (I9 g) (I10 g) (I7 g) (I6 g) NI (I5 _ _ _ _ _ H) H1) as LS.
    remember (if hd then a :: L g else L g ++ [a]) as l' eqn:EL. cbv zeta in LS.
    destruct LS as (C1 & C2 & C3 & C4 & C5).
    assert (INl : forall b, In b l' <-> b = a \/ In b (L g))
      by (intros b; subst l'; destruct hd; rewrite ?in_app_iff; cbn; intuition congruence).
    assert (NDl : NoDup l').
    { assert (X : ~ In a (L g)) by (intros X; apply I2 in X; congruence).
      subst l'. destruct hd; [constructor; [exact X | apply I6]|].
      clear - X I6. specialize (I6 g). revert X I6. induction (L g) as [|b l IH]; cbn; intros X ND.
      - constructor; [tauto | constructor].
      - inversion ND; subst. constructor; [rewrite in_app_iff; cbn; intuition congruence | apply IH; tauto]. }
    assert (MAP : replay (q_hist q) [] = Some (map (arg heap) l')).
    { subst q. cbn. rewrite replay_app, I11. subst l'. destruct hd; cbn; rewrite ?map_app; cbn;
        f_equal; rewrite ?C2; [f_equal | f_equal]; apply map_ext; intros; symmetry; apply C2. }
    assert (PC : forall u b, In b (holds (upd (s_pc st) t (resume k) u)) <-> upd A a (AQ g) b = AT u).
    { intros u b. unfold upd. destruct (Nat.eqb_spec u t) as [->|].
      - specialize (I3 t b). specialize (I4 t). rewrite H, holds_resume in I3, I4. cbn in I3.
        inversion I4; subst. destruct (Nat.eqb_spec b a) as [->|]; [split; [contradiction | discriminate]|].
        intuition congruence.
      - rewrite I3. destruct (Nat.eqb_spec b a) as [->|]; [split; congruence | tauto]. }
    assert (HP : forall u, holds (pcs u) = holds (upd (s_pc st) t (resume k) u)).
    { apply signal_spec in H2. destruct H2 as [(S1 & -> & ->)|(S1 & -> & ->)]; [reflexivity|].
      intros u. unfold upd at 1. destruct (Nat.eqb_spec u w) as [->|]; [|reflexivity].
      apply link_fields in H1. destruct H1 as (F1 & _). rewrite F1 in S1. apply (z_in st I0) in S1.
      unfold upd. destruct (Nat.eqb_spec w t) as [->|]; [congruence|]. rewrite S1. reflexivity. }
    assert (QF : q_head q' = q_head q /\ q_tail q' = q_tail q /\ q_wait q' = q_wait q /\ q_hist q' = q_hist q).
    { apply signal_spec in H2. destruct H2 as [(S1 & -> & ->)|(S1 & -> & ->)]; repeat split. }
    destruct QF as (Q1 & Q2 & Q3 & Q4).
    exists (upd A a (AQ g)), (upd L g l'). constructor; cbn.
    + intros b. rewrite C4, I1. unfold upd. destruct (Nat.eqb_spec b a) as [->|]; [split; congruence | tauto].
    + intros g' b. unfold upd. destruct (Nat.eqb_spec g' g) as [->|]; rewrite ?INl, ?I2;
        destruct (Nat.eqb_spec b a) as [->|]; intuition congruence.
    + intros u b. rewrite HP. apply PC.
    + intros u. rewrite HP. unfold upd. destruct (Nat.eqb_spec u t) as [->|]; [|apply I4].
      specialize (I4 t). rewrite H, holds_resume in I4. inversion I4; assumption.
    + intros u g' hd' b k' X.
      assert (XX : s_pc st u = EnqL g' hd' b k' /\ u <> t).
      { apply signal_spec in H2. unfold upd in H2. destruct H2 as [(S1 & -> & ->)|(S1 & -> & ->)].
        - destruct (Nat.eqb_spec u t) as [->|]; [destruct (resume_enq _ _ _ _ _ X) | auto].
        - destruct (Nat.eqb_spec u w) as [->|]; [discriminate|].
          destruct (Nat.eqb_spec u t) as [->|]; [destruct (resume_enq _ _ _ _ _ X) | auto]. }
      destruct XX as [X1 X2]. destruct (I5 _ _ _ _ _ X1) as (nd & N1 & N2). exists nd. split; [|exact N2].
      rewrite C3; [exact N1|]. rewrite INl.
      assert (A b = AT u) by (apply I3; rewrite X1, holds_resume; left; reflexivity).
      intros [->|Y]; [congruence|]. apply I2 in Y. congruence.
    + intros g'. unfold upd. destruct (Nat.eqb_spec g' g) as [->|]; [exact NDl | apply I6].
    + intros g'. unfold upd. destruct (Nat.eqb_spec g' g) as [->|]; [exact C1 |].
      eapply chain_ext; [|apply I7]. intros b Hb. apply C3. rewrite INl. apply I2 in Hb.
      intros [->|Y]; [congruence|]. apply I2 in Y. congruence.
    + intros g'. unfold upd. destruct (Nat.eqb_spec g' g) as [->|]; [|apply I8]. rewrite Q1, C5. reflexivity.
    + intros g'. unfold upd. destruct (Nat.eqb_spec g' g) as [->|]; [|apply I9]. rewrite Q2, C5. reflexivity.
    + intros g'. unfold upd. destruct (Nat.eqb_spec g' g) as [->|]; [|apply I10]. rewrite Q3, C5. reflexivity.
    + intros g'. unfold upd. destruct (Nat.eqb_spec g' g) as [->|]; [rewrite Q4; exact MAP|].
      rewrite I11. f_equal. apply map_ext. intros b. symmetry. apply C2.
  - destruct IN as [I1 I2 I3 I4 I5 I6 I7 I8 I9 I10 I11].
    pose proof (comes_fields _ _ _ _ _ H) as (F1 & F2 & F3 & F4 & _).
    assert (HO : holds (s_pc st t) = []) by (eapply comes_holds; exact H).
    destruct (gn_some (s_heap st) q a q' (L g)) as (r & EL & EQ); [congruence | congruence | congruence | apply I7 | exact H2 |].
    assert (AA : A a = AQ g) by (apply I2; rewrite EL; left; reflexivity).
    pose proof (I6 g) as ND. rewrite EL in ND. inversion ND as [|? ? ND1 ND2]; subst.
    exists (upd A a (AT t)), (upd L g r). constructor; cbn.
    + intros b. rewrite I1. unfold upd. destruct (Nat.eqb_spec b a) as [->|]; [split; congruence | tauto].
    + intros g' b. specialize (I2 g' b). unfold upd. destruct (Nat.eqb_spec g' g) as [->|].
      * rewrite EL in I2. cbn in I2. destruct (Nat.eqb_spec b a) as [->|]; [split; [contradiction | discriminate]|].
        intuition congruence.
      * rewrite I2. destruct (Nat.eqb_spec b a) as [->|]; [split; congruence | tauto].
    + intros u b. unfold upd. destruct (Nat.eqb_spec u t) as [->|]; cbn.
      * specialize (I3 t b). rewrite HO in I3. cbn in I3. destruct (Nat.eqb_spec b a) as [->|]; intuition congruence.
      * rewrite I3. destruct (Nat.eqb_spec b a) as [->|]; [split; congruence | tauto].
    + intros u. unfold upd. destruct (Nat.eqb_spec u t) as [->|]; [|apply I4]. cbn. constructor; [tauto | constructor].
    + intros u g' hd' b k' X. unfold upd in X. destruct (Nat.eqb_spec u t) as [->|]; [discriminate|]. eapply I5. exact X.
    + intros g'. unfold upd. destruct (Nat.eqb_spec g' g) as [->|]; [exact ND2 | apply I6].
    + intros g'. unfold upd. destruct (Nat.eqb_spec g' g) as [->|]; [|apply I7]. specialize (I7 g). rewrite EL in I7. apply I7.
    + intros g'. unfold upd. destruct (Nat.eqb_spec g' g) as [->|]; [reflexivity | apply I8].
    + intros g'. unfold upd. destruct (Nat.eqb_spec g' g) as [->|]; [reflexivity | apply I9].
    + intros g'. unfold upd. destruct (Nat.eqb_spec g' g) as [->|]; [reflexivity | apply I10].
    + intros g'. unfold upd. destruct (Nat.eqb_spec g' g) as [->|]; [|apply I11]. cbn.
      rewrite replay_app, F4, I11, EL. cbn. rewrite Nat.eqb_refl. reflexivity.
  - exists A, L. pose proof (comes_fields _ _ _ _ _ H) as (F1 & F2 & F3 & F4 & _).
    apply (inv1_pc A L st _ t (WSleep g) IN); [reflexivity | | reflexivity | | discriminate].
    + intros g'. cbn. grp4 g' g. cbn. auto.
    + symmetry. eapply comes_holds. exact H.
  - exists A, L. pose proof (comes_fields _ _ _ _ _ H) as (F1 & F2 & F3 & F4 & _).
    apply (inv1_pc A L st _ t (WDead g) IN); [reflexivity | | reflexivity | | discriminate].
    + intros g'. cbn. grp4 g' g. cbn. auto.
    + symmetry. eapply comes_holds. exact H.
  - exists A, L. eapply (inv1_pc A L st _ t _ IN); [reflexivity | intros; repeat split | reflexivity | | discriminate].
    rewrite H. reflexivity.
  - exists A, L. apply sub_fields in H0. apply (inv1_pc A L st _ t (FreeFg a) IN); [reflexivity | | reflexivity | | discriminate].
    + intros g'. cbn. grp4 g' g. intuition congruence.
    + rewrite H. reflexivity.
  - exists (upd A a AFree), L. apply (inv1_free A L st t a Out _ IN); try reflexivity; [rewrite H; reflexivity | discriminate].
  - exists (upd A a AFree), L. apply (inv1_free A L st t a (WLoop g true) _ IN); try reflexivity; [rewrite H; reflexivity | discriminate].
  - exists A, L. apply (inv1_pc A L st _ t (WLoop g false) IN); [reflexivity | | reflexivity | | discriminate].
    + intros g'. cbn. grp4 g' g. cbn. auto.
    + rewrite H. reflexivity.
  - exists A, L. apply (inv1_pc A L st _ t (XLock (S i)) IN); [reflexivity | | reflexivity | | discriminate].
    + intros g'. cbn. grp4 g' i. cbn. auto.
    + rewrite H. reflexivity.
  - exists A, L. apply (inv1_pc A L st _ t (XUnl (S i) r) IN); [reflexivity | | reflexivity | | discriminate].
    + intros g'. cbn. grp4 g' i. cbn. auto.
    + rewrite H. reflexivity.
  - exists A, L. apply (inv1_frame A L st _ IN); [reflexivity | | |].
    + intros g'. cbn. grp4 g' g. cbn. auto.
    + intros u. cbn. unfold upd, wake_all. destruct (Nat.eqb_spec u t) as [->|]; [rewrite H; reflexivity|].
      destruct (mem u _) eqn:M; [|reflexivity]. apply mem_In in M. apply (z_in st I0) in M. rewrite M. reflexivity.
    + intros u g' hd a k. cbn. unfold upd, wake_all. destruct (Nat.eqb_spec u t) as [->|]; [discriminate|].
      destruct (mem u _); [discriminate | auto].
Qed.

(** ** Layer 2: the count of executing tasks *)

Definition cgrp (p : pc) : option nat :=
  match p with
  | EnqL _ _ _ (Some j) | Run j => Some (j_grp j)
  | Start g _ _ | RanFg g _ | FreeBg g _ | WLoop g true => Some g
  | _ => None
  end.

Record Inv2 (R : nat -> list nat) (st : state) : Prop := {
  r_in : forall g t, In t (R g) <-> cgrp (s_pc st t) = Some g;
  r_nd : forall g, NoDup (R g);
  r_e : forall g, q_exec (s_grp st g) = length (R g) }.

Lemma del_length : forall t l, NoDup l -> In t l -> length l = S (length (del t l)).
Proof.
  induction l as [|x l IH]; intros ND H; [contradiction|]. inversion ND; subst. cbn.
  destruct (Nat.eqb_spec x t) as [->|]; cbn.
  - f_equal. symmetry. clear - H2. induction l as [|y l IH]; [reflexivity|]. cbn.
    destruct (Nat.eqb_spec y t) as [->|]; [exfalso; apply H2; left; reflexivity|].
    cbn. f_equal. apply IH. intros X. apply H2. right. exact X.
  - f_equal. apply IH; [assumption|]. destruct H; [congruence | assumption].
Qed.

Lemma inv2_frame : forall R st st', Inv2 R st ->
  (forall g, q_exec (s_grp st' g) = q_exec (s_grp st g)) ->
  (forall u, cgrp (s_pc st' u) = cgrp (s_pc st u)) -> Inv2 R st'.
Proof.
  intros R st st' [R1 R2 R3] E1 E2. constructor; [intros; rewrite E2; apply R1 | apply R2 | intros; rewrite E1; apply R3].
Qed.

Lemma inv2_pc : forall R st st' t p, Inv2 R st -> s_pc st' = upd (s_pc st) t p -> cgrp p = cgrp (s_pc st t) ->
  (forall g, q_exec (s_grp st' g) = q_exec (s_grp st g)) -> Inv2 R st'.
Proof.
  intros R st st' t p I EP EC EG. apply (inv2_frame R st st' I EG). intros u. rewrite EP. unfold upd.
  destruct (Nat.eqb_spec u t) as [->|]; [exact EC | reflexivity].
Qed.

Lemma inv2_add : forall R st st' t p g, Inv2 R st -> s_pc st' = upd (s_pc st) t p ->
  cgrp (s_pc st t) = None -> cgrp p = Some g ->
  (forall g', q_exec (s_grp st' g') = q_exec (s_grp st g') + (if g' =? g then 1 else 0)) ->
  Inv2 (upd R g (t :: R g)) st'.
Proof.
  intros R st st' t p g [R1 R2 R3] EP E1 E2 EG. constructor.
  - intros g' u. rewrite EP. specialize (R1 g' u). unfold upd.
    destruct (Nat.eqb_spec g' g) as [->|]; cbn; rewrite R1; destruct (Nat.eqb_spec u t) as [->|]; intuition congruence.
  - intros g'. unfold upd. destruct (Nat.eqb_spec g' g) as [->|]; [|apply R2]. constructor; [|apply R2].
    rewrite R1. congruence.
  - intros g'. rewrite EG, R3. unfold upd. destruct (Nat.eqb_spec g' g) as [->|]; cbn; lia.
Qed.

Lemma inv2_del : forall R st st' t p g, Inv2 R st -> s_pc st' = upd (s_pc st) t p ->
  cgrp (s_pc st t) = Some g -> cgrp p = None ->
  (forall g', q_exec (s_grp st g') = q_exec (s_grp st' g') + (if g' =? g then 1 else 0)) ->
  Inv2 (upd R g (del t (R g))) st'.
Proof.
  intros R st st' t p g [R1 R2 R3] EP E1 E2 EG. constructor.
  - intros g' u. rewrite EP. specialize (R1 g' u). unfold upd.
    destruct (Nat.eqb_spec g' g) as [->|]; cbn; rewrite ?In_del, R1; destruct (Nat.eqb_spec u t) as [->|]; intuition congruence.
  - intros g'. unfold upd. destruct (Nat.eqb_spec g' g) as [->|]; [|apply R2]. apply NoDup_del, R2.
  - intros g'. specialize (EG g'). rewrite R3 in EG. unfold upd. destruct (Nat.eqb_spec g' g) as [E|]; [|lia].
    rewrite E in *. rewrite (del_length t) in EG; [lia | apply R2 | apply R1; exact E1].
Qed.

Lemma move_cgrp : forall st p p', move st p p' -> cgrp p = None /\ cgrp p' = None.
Proof. intros st p p' H. inversion H; subst; auto. Qed.

Lemma cgrp_resume : forall g hd a k, cgrp (EnqL g hd a k) = cgrp (resume k).
Proof. intros g hd a [j|]; reflexivity. Qed.

Ltac subf := match goal with X : sub_exec _ = Some _ |- _ => apply sub_fields in X end.
Ltac pcf := match goal with X : _ = s_pc ?st ?t |- context [s_pc ?st ?t] => rewrite <- X; reflexivity end.

Lemma inv2_step : forall R st t st', Inv0 st -> Inv2 R st -> trans st t st' -> exists R', Inv2 R' st'.
Proof.
  intros R st t st' I0 IN T. inversion T; subst; clear T.
  - exists R. assumption.
  - exists R. apply move_cgrp in H. apply (inv2_pc R st _ t p' IN); [reflexivity | intuition congruence | reflexivity].
  - exists R. apply (inv2_pc R st _ t (EnqL g hd a k) IN); [reflexivity | rewrite cgrp_resume, H; reflexivity | reflexivity].
  - exists R. eapply (inv2_pc R st _ t _ IN); [reflexivity | | reflexivity]. rewrite H. destruct (j_bg j); reflexivity.
  - exists R. apply link_fields in H1. destruct H1 as (F1 & F2 & F3 & F4).
    apply signal_spec in H2. destruct H2 as [(S1 & -> & ->)|(S1 & -> & ->)]; apply (inv2_frame R st _ IN); cbn.
    + intros g'. unfold upd. destruct (Nat.eqb_spec g' g) as [->|]; [exact F3 | reflexivity].
    + intros u. unfold upd. destruct (Nat.eqb_spec u t) as [->|]; [rewrite H, cgrp_resume|]; reflexivity.
    + intros g'. unfold upd. destruct (Nat.eqb_spec g' g) as [->|]; [exact F3 | reflexivity].
    + intros u. rewrite F1 in S1. apply (z_in st I0) in S1. unfold upd.
      destruct (Nat.eqb_spec u w) as [->|]; [rewrite S1; reflexivity|].
      destruct (Nat.eqb_spec u t) as [->|]; [rewrite H, cgrp_resume|]; reflexivity.
  - apply gn_fields in H2. destruct H2 as (_ & _ & F3 & _). inversion H; subst.
    + exists (upd R g (t :: R g)). apply (inv2_add R st _ t (Start g a false) g IN); try reflexivity.
      * pcf.
      * intros g'. cbn. unfold upd. destruct (Nat.eqb_spec g' g) as [->|]; cbn; lia.
    + exists (upd R g (t :: R g)). apply (inv2_add R st _ t (Start g a true) g IN); try reflexivity.
      * pcf.
      * intros g'. cbn. unfold upd. destruct (Nat.eqb_spec g' g) as [->|]; cbn; lia.
    + exists R. apply (inv2_pc R st _ t (Start g a true) IN); [reflexivity | pcf |].
      subf. intros g'. cbn. unfold upd. destruct (Nat.eqb_spec g' g) as [->|]; cbn; lia.
  - inversion H; subst.
    + exists R. apply (inv2_pc R st _ t (WSleep g) IN); [reflexivity | pcf |].
      intros g'. cbn. unfold upd. destruct (Nat.eqb_spec g' g) as [->|]; reflexivity.
    + exists (upd R g (del t (R g))). apply (inv2_del R st _ t (WSleep g) g IN); try reflexivity.
      * pcf.
      * subf. intros g'. cbn. unfold upd. destruct (Nat.eqb_spec g' g) as [->|]; cbn; lia.
  - inversion H; subst.
    + exists R. apply (inv2_pc R st _ t (WDead g) IN); [reflexivity | pcf |].
      intros g'. cbn. unfold upd. destruct (Nat.eqb_spec g' g) as [->|]; reflexivity.
    + exists (upd R g (del t (R g))). apply (inv2_del R st _ t (WDead g) g IN); try reflexivity.
      * pcf.
      * subf. intros g'. cbn. unfold upd. destruct (Nat.eqb_spec g' g) as [->|]; cbn; lia.
  - exists R. eapply (inv2_pc R st _ t _ IN); [reflexivity | rewrite H; reflexivity | reflexivity].
  - exists (upd R g (del t (R g))). apply (inv2_del R st _ t (FreeFg a) g IN); try reflexivity.
    + rewrite H. reflexivity.
    + apply sub_fields in H0. intros g'. cbn. unfold upd. destruct (Nat.eqb_spec g' g) as [->|]; cbn; lia.
  - exists R. apply (inv2_pc R st _ t Out IN); [reflexivity | rewrite H; reflexivity | reflexivity].
  - exists R. apply (inv2_pc R st _ t (WLoop g true) IN); [reflexivity | rewrite H; reflexivity | reflexivity].
  - exists R. apply (inv2_pc R st _ t (WLoop g false) IN); [reflexivity | rewrite H; reflexivity |].
    intros g'. cbn. unfold upd. destruct (Nat.eqb_spec g' g) as [->|]; reflexivity.
  - exists R. apply (inv2_pc R st _ t (XLock (S i)) IN); [reflexivity | rewrite H; reflexivity |].
    intros g'. cbn. unfold upd. destruct (Nat.eqb_spec g' i) as [->|]; reflexivity.
  - exists R. apply (inv2_pc R st _ t (XUnl (S i) r) IN); [reflexivity | rewrite H; reflexivity |].
    intros g'. cbn. unfold upd. destruct (Nat.eqb_spec g' i) as [->|]; reflexivity.
  - exists R. apply (inv2_frame R st _ IN); cbn.
    + intros g'. unfold upd. destruct (Nat.eqb_spec g' g) as [->|]; reflexivity.
    + intros u. unfold upd, wake_all. destruct (Nat.eqb_spec u t) as [->|]; [rewrite H; reflexivity|].
      destruct (mem u _) eqn:M; [|reflexivity]. apply mem_In in M. apply (z_in st I0) in M. rewrite M. reflexivity.
Qed.

(** ** Layer 3: the mutexes held by the test for quiescence *)

Definition locked (p : pc) (g : nat) : Prop :=
  match p with
  | XLock i => g < i
  | XChk _ => True
  | XUnl i _ => i <= g
  | _ => False
  end.

Definition in_x (p : pc) : bool := match p with XLock _ | XChk _ | XUnl _ _ => true | _ => false end.

Record Inv3 (st : state) : Prop := {
  k_lock : forall g t, q_lock (s_grp st g) = Some t <-> (g < G /\ locked (s_pc st t) g);
  k_chk : forall t i g, s_pc st t = XChk i -> g < i -> q_exec (s_grp st g) = 0 /\ q_wait (s_grp st g) = 0;
  k_le : forall t, match s_pc st t with XLock i | XChk i => i <= G | _ => True end }.

Lemma locked_in : forall p g, locked p g -> in_x p = true.
Proof. intros p g H. destruct p; cbn in *; tauto. Qed.

(** Steps that touch no mutex and do nothing while the group's is held. *)
Lemma inv3_frame : forall st st', Inv3 st ->
  (forall g, q_lock (s_grp st' g) = q_lock (s_grp st g)) ->
  (forall u, s_pc st' u = s_pc st u \/ in_x (s_pc st u) = false /\ in_x (s_pc st' u) = false) ->
  (forall g, q_lock (s_grp st g) <> None -> q_wait (s_grp st' g) = q_wait (s_grp st g) /\
             (q_exec (s_grp st g) = 0 -> q_exec (s_grp st' g) = 0)) -> Inv3 st'.
Proof.
  intros st st' [K1 K2 K3] EL EP EQ. constructor.
  - intros g t. rewrite EL, K1. destruct (EP t) as [->|[X Y]]; [reflexivity|].
    split; intros [_ H]; apply locked_in in H; congruence.
  - intros t i g H L. destruct (EP t) as [E|[X Y]]; [|rewrite H in Y; discriminate].
    rewrite E in H. destruct (K2 t i g H L) as [A B].
    assert (Q : q_lock (s_grp st g) <> None).
    { rewrite (proj2 (K1 g t)); [discriminate|]. rewrite H. split; [|exact Logic.I].
      specialize (K3 t). rewrite H in K3. lia. }
    destruct (EQ g Q) as [W1 W2]. split; [auto | congruence].
  - intros t. specialize (K3 t). destruct (EP t) as [->|[X Y]]; [exact K3|]. destruct (s_pc st' t); try exact Logic.I; discriminate.
Qed.

Lemma resume_in_x : forall k, in_x (resume k) = false.
Proof. intros [j|]; reflexivity. Qed.

Ltac one_pc t := let u := fresh "u" in intros u; cbn; unfold upd; destruct (Nat.eqb_spec u t) as [->|]; [right|left; reflexivity].
Ltac one_grp g := let g' := fresh "g'" in intros g'; cbn; unfold upd; destruct (Nat.eqb_spec g' g) as [->|]; [|auto].

Lemma inv3_step : forall st t st', Inv0 st -> Inv3 st -> trans st t st' -> Inv3 st'.
Proof.
  intros st t st' I0 IN T. inversion T; subst; clear T.
  - assumption.
  - remember (s_pc st t) as p0 eqn:EP0. destruct IN as [K1 K2 K3]. pose proof (K3 t) as K3t. rewrite <- EP0 in K3t.
    assert (IN : Inv3 st) by (constructor; assumption).
    destruct H; try solve [apply (inv3_frame st _ IN); [reflexivity | one_pc t; rewrite <- EP0; auto | auto]].
    + constructor; cbn.
      * intros g u. rewrite K1. unfold upd. destruct (Nat.eqb_spec u t) as [->|]; [|reflexivity].
        rewrite <- EP0. cbn. split; intros [_ Y]; lia.
      * intros u i g. unfold upd. destruct (Nat.eqb_spec u t) as [->|]; [discriminate|]. apply K2.
      * intros u. unfold upd. destruct (Nat.eqb_spec u t) as [->|]; [lia|]. apply K3.
    + constructor; cbn.
      * intros g u. rewrite K1. unfold upd. destruct (Nat.eqb_spec u t) as [->|]; [|reflexivity].
        rewrite <- EP0. cbn. intuition lia.
      * intros u j g. unfold upd. destruct (Nat.eqb_spec u t) as [->|]; [intros [= <-]; lia|]. apply K2.
      * intros u. unfold upd. destruct (Nat.eqb_spec u t) as [->|]; [lia|]. apply K3.
    + constructor; cbn.
      * intros g u. rewrite K1. unfold upd. destruct (Nat.eqb_spec u t) as [->|]; [|reflexivity].
        rewrite <- EP0. cbn. intuition lia.
      * intros u j g. unfold upd. destruct (Nat.eqb_spec u t) as [->|]; [|apply K2]. intros [= <-] L.
        destruct (Nat.eq_dec g i) as [->|]; [auto|]. apply (K2 t i g); [congruence | lia].
      * intros u. unfold upd. destruct (Nat.eqb_spec u t) as [->|]; [lia|]. apply K3.
    + constructor; cbn.
      * intros g u. rewrite K1. unfold upd. destruct (Nat.eqb_spec u t) as [->|]; [|reflexivity].
        rewrite <- EP0. cbn. intuition lia.
      * intros u j g. unfold upd. destruct (Nat.eqb_spec u t) as [->|]; [discriminate|]. apply K2.
      * intros u. unfold upd. destruct (Nat.eqb_spec u t) as [->|]; [exact Logic.I|]. apply K3.
    + constructor; cbn.
      * intros g u. rewrite K1. unfold upd. destruct (Nat.eqb_spec u t) as [->|]; [|reflexivity].
        rewrite <- EP0. cbn. intuition lia.
      * intros u j g. unfold upd. destruct (Nat.eqb_spec u t) as [->|]; [discriminate|]. apply K2.
      * intros u. unfold upd. destruct (Nat.eqb_spec u t) as [->|]; [exact Logic.I|]. apply K3.
    + constructor; cbn.
      * intros g u. rewrite K1. unfold upd. destruct (Nat.eqb_spec u t) as [->|]; [|reflexivity].
        rewrite <- EP0. cbn. intuition lia.
      * intros u j g. unfold upd. destruct (Nat.eqb_spec u t) as [->|]; [discriminate|]. apply K2.
      * intros u. unfold upd. destruct (Nat.eqb_spec u t) as [->|]; [exact Logic.I|]. apply K3.
  - apply (inv3_frame st _ IN); [reflexivity | | auto]. one_pc t. rewrite H, resume_in_x. auto.
  - apply (inv3_frame st _ IN); [reflexivity | | auto]. one_pc t. rewrite H. destruct (j_bg j); auto.
  - apply link_fields in H1. destruct H1 as (F1 & F2 & F3 & F4).
    apply signal_spec in H2. destruct H2 as [(S1 & -> & ->)|(S1 & -> & ->)]; apply (inv3_frame st _ IN).
    + one_grp g. exact F4.
    + one_pc t. rewrite H, resume_in_x. auto.
    + one_grp g. congruence.
    + one_grp g. exact F4.
    + intros u. cbn. rewrite F1 in S1. apply (z_in st I0) in S1. unfold upd.
      destruct (Nat.eqb_spec u w) as [->|]; [rewrite S1; auto|].
      destruct (Nat.eqb_spec u t) as [->|]; [rewrite H, resume_in_x|]; auto.
    + one_grp g. congruence.
  - apply gn_fields in H2. pose proof (comes_fields _ _ _ _ _ H) as CF. apply comes_pc in H. apply (inv3_frame st _ IN).
    + one_grp g. cbn. intuition congruence.
    + one_pc t. destruct H as [(-> & _)|[(fin & ->) _]]; auto.
    + one_grp g. congruence.
  - pose proof (comes_fields _ _ _ _ _ H) as CF. apply comes_pc in H. apply (inv3_frame st _ IN).
    + one_grp g. cbn. intuition congruence.
    + one_pc t. destruct H as [(-> & _)|[(fin & ->) _]]; auto.
    + one_grp g. congruence.
  - pose proof (comes_fields _ _ _ _ _ H) as CF. apply comes_pc in H. apply (inv3_frame st _ IN).
    + one_grp g. cbn. intuition congruence.
    + one_pc t. destruct H as [(-> & _)|[(fin & ->) _]]; auto.
    + one_grp g. congruence.
  - apply (inv3_frame st _ IN); [reflexivity | | auto]. one_pc t. rewrite H. auto.
  - apply sub_fields in H0. apply (inv3_frame st _ IN).
    + one_grp g. intuition congruence.
    + one_pc t. rewrite H. auto.
    + one_grp g. intuition congruence.
  - apply (inv3_frame st _ IN); [reflexivity | | auto]. one_pc t. rewrite H. auto.
  - apply (inv3_frame st _ IN); [reflexivity | | auto]. one_pc t. rewrite H. auto.
  - apply (inv3_frame st _ IN); [| one_pc t; rewrite H; auto |]; one_grp g; auto.
  - destruct IN as [K1 K2 K3]. constructor; cbn.
    + intros g u. specialize (K1 g u). pose proof (K1 : _) as K1'. unfold upd.
      destruct (Nat.eqb_spec g i) as [->|]; cbn; destruct (Nat.eqb_spec u t) as [->|]; cbn.
      * split; auto.
      * split; [congruence|]. intros X. apply K1 in X. congruence.
      * rewrite K1, H. cbn. intuition lia.
      * exact K1.
    + intros u j g X L. unfold upd in *. destruct (Nat.eqb_spec u t) as [->|]; [discriminate|].
      pose proof (K2 u j g X L). destruct (Nat.eqb_spec g i) as [->|]; cbn; assumption.
    + intros u. unfold upd. destruct (Nat.eqb_spec u t) as [->|]; [lia|]. apply K3.
  - destruct IN as [K1 K2 K3]. constructor; cbn.
    + intros g u. pose proof (K1 g u) as KA. pose proof (K1 i t) as KB. rewrite H in KB. unfold upd.
      destruct (Nat.eqb_spec g i) as [->|]; cbn; destruct (Nat.eqb_spec u t) as [->|]; cbn.
      * split; [discriminate | lia].
      * split; [discriminate|]. intros X. apply KA in X. cbn in KB. rewrite (proj2 KB) in X by auto. congruence.
      * rewrite KA, H. cbn. intuition lia.
      * exact KA.
    + intros u j g X L. unfold upd in *. destruct (Nat.eqb_spec u t) as [->|]; [discriminate|].
      pose proof (K2 u j g X L). destruct (Nat.eqb_spec g i) as [->|]; cbn; assumption.
    + intros u. unfold upd. destruct (Nat.eqb_spec u t) as [->|]; [exact Logic.I|]. apply K3.
  - apply (inv3_frame st _ IN).
    + one_grp g. reflexivity.
    + intros u. cbn. unfold upd, wake_all. destruct (Nat.eqb_spec u t) as [->|]; [rewrite H; auto|].
      destruct (mem u _) eqn:M; [|auto]. apply mem_In in M. apply (z_in st I0) in M. rewrite M. auto.
    + one_grp g. cbn. auto.
Qed.

(** ** Layer 4: where each task is *)

Inductive stat := SNone | SNew (t : nat) | SQ (g : nat) | STk (g t : nat) | SRun (g t : nat) | SDone (g : nat).

Definition in_grp (s : stat) : option nat :=
  match s with SQ g | STk g _ | SRun g _ | SDone g => Some g | _ => None end.
Definition out_grp (s : stat) : option nat :=
  match s with STk g _ | SRun g _ | SDone g => Some g | _ => None end.
Definition ran (s : stat) : bool := match s with SRun _ _ | SDone _ => true | _ => false end.
Definition fin (s : stat) : bool := match s with SDone _ => true | _ => false end.

Definition newid (heap : nat -> option node) (p : pc) : option nat :=
  match p with EnqL _ _ a _ => Some (arg heap a) | _ => None end.
Definition takeid (heap : nat -> option node) (p : pc) : option (nat * nat) :=
  match p with Start g a _ => Some (g, arg heap a) | _ => None end.
Definition runid (p : pc) : option (nat * nat) :=
  match p with Run j | EnqL _ _ _ (Some j) => Some (j_grp j, j_id j) | _ => None end.

Record Inv4 (S : nat -> stat) (st : state) : Prop := {
  s_none : forall x, S x = SNone <-> s_calls st <= x;
  s_new : forall x t, S x = SNew t <-> newid (s_heap st) (s_pc st t) = Some x;
  s_q : forall x g q, replay (q_hist (s_grp st g)) [] = Some q -> (S x = SQ g <-> In x q);
  s_qn : forall g q, replay (q_hist (s_grp st g)) [] = Some q -> NoDup q;
  s_tk : forall x g t, S x = STk g t <-> takeid (s_heap st) (s_pc st t) = Some (g, x);
  s_run : forall x g t, S x = SRun g t <-> runid (s_pc st t) = Some (g, x);
  s_st : forall x, In x (s_started st) <-> ran (S x) = true;
  s_stn : NoDup (s_started st);
  s_dn : forall x, In x (s_done st) <-> fin (S x) = true;
  s_dnn : NoDup (s_done st);
  s_pu : forall x g, In x (pushed (q_hist (s_grp st g))) <-> in_grp (S x) = Some g;
  s_pun : forall g, NoDup (pushed (q_hist (s_grp st g)));
  s_po : forall x g, In x (popped (q_hist (s_grp st g))) <-> out_grp (S x) = Some g;
  s_pon : forall g, NoDup (popped (q_hist (s_grp st g))) }.

Lemma inv4_frame : forall S st st', Inv4 S st -> s_calls st' = s_calls st -> s_started st' = s_started st ->
  s_done st' = s_done st -> (forall g, q_hist (s_grp st' g) = q_hist (s_grp st g)) ->
  (forall u, newid (s_heap st') (s_pc st' u) = newid (s_heap st) (s_pc st u) /\
             takeid (s_heap st') (s_pc st' u) = takeid (s_heap st) (s_pc st u) /\
             runid (s_pc st' u) = runid (s_pc st u)) -> Inv4 S st'.
Proof.
  intros S st st' [I1 I2 I3 I4 I5 I6 I7 I8 I9 I10 I11 I12 I13 I14] E1 E2 E3 EG EP. constructor.
  - rewrite E1. exact I1.
  - intros x t. destruct (EP t) as (-> & _). apply I2.
  - intros x g q. rewrite EG. apply I3.
  - intros g q. rewrite EG. apply I4.
  - intros x g t. destruct (EP t) as (_ & -> & _). apply I5.
  - intros x g t. destruct (EP t) as (_ & _ & ->). apply I6.
  - rewrite E2. exact I7.
  - rewrite E2. exact I8.
  - rewrite E3. exact I9.
  - rewrite E3. exact I10.
  - intros x g. rewrite EG. apply I11.
  - intros g. rewrite EG. apply I12.
  - intros x g. rewrite EG. apply I13.
  - intros g. rewrite EG. apply I14.
Qed.

Lemma move_ids : forall st p p' heap, move st p p' ->
  newid heap p = None /\ newid heap p' = None /\ takeid heap p = None /\ takeid heap p' = None /\
  runid p = None /\ runid p' = None.
Proof. intros st p p' heap H. destruct H; repeat split. Qed.

Lemma comes_ids : forall st g p q bg heap, comes st g p q bg ->
  newid heap p = None /\ takeid heap p = None /\ runid p = None.
Proof. intros st g p q bg heap H. destruct H; repeat split. Qed.

(** The identities of held tasks do not change when the heap changes elsewhere. *)
Lemma ids_heap : forall heap heap' p, (forall a, In a (holds p) -> arg heap' a = arg heap a) ->
  newid heap' p = newid heap p /\ takeid heap' p = takeid heap p.
Proof.
  intros heap heap' p H. destruct p; cbn in *; try (split; reflexivity).
  - split; [|reflexivity]. f_equal. apply H. destruct k; left; reflexivity.
  - split; [reflexivity|]. do 2 f_equal. apply H. left. reflexivity.
Qed.

Lemma pushed_app : forall h h', pushed (h ++ h') = pushed h ++ pushed h'.
Proof. induction h as [|[x|x|x] h IH]; intros h'; cbn; rewrite ?IH; reflexivity. Qed.
Lemma popped_app : forall h h', popped (h ++ h') = popped h ++ popped h'.
Proof. induction h as [|[x|x|x] h IH]; intros h'; cbn; rewrite ?IH; reflexivity. Qed.

Lemma NoDup_snoc : forall (x : nat) l, ~ In x l -> NoDup l -> NoDup (l ++ [x]).
Proof.
  induction l as [|b l IH]; cbn; intros X ND.
  - constructor; [tauto | constructor].
  - inversion ND; subst. constructor; [rewrite in_app_iff; cbn; intuition congruence | apply IH; tauto].
Qed.

Lemma In_snoc : forall (x y : nat) l, In x (l ++ [y]) <-> In x l \/ x = y.
Proof. intros. rewrite in_app_iff. cbn. intuition congruence. Qed.

Ltac xcase x y := unfold upd; destruct (Nat.eqb_spec x y) as [->|].

Ltac pcase u t f := destruct (Nat.eq_dec u t) as [->|]; [rewrite (upd_same f) | rewrite (upd_other f) by assumption].

Lemma runid_resume : forall g hd a k, runid (EnqL g hd a k) = runid (resume k).
Proof. intros g hd a [j|]; reflexivity. Qed.
Lemma new_resume : forall heap k, newid heap (resume k) = None.
Proof. intros heap [j|]; reflexivity. Qed.
Lemma take_resume : forall heap k, takeid heap (resume k) = None.
Proof. intros heap [j|]; reflexivity. Qed.

Lemma inv4_step : forall A L S st t st', Inv0 st -> Inv1 A L st -> Inv4 S st -> trans st t st' ->
  exists S', Inv4 S' st'.
Proof.
  intros A L S st t st' I0 IL IN T. inversion T; subst; clear T.
  - exists S. assumption.
  - exists S. apply (inv4_frame S st _ IN); try reflexivity. intros u. cbn. xcase u t; [|auto].
    apply (move_ids st _ _ (s_heap st)) in H. intuition congruence.
  - (* alloc *)
    exists (upd S (s_calls st) (SNew t)).
    assert (AH : forall u, newid (upd (s_heap st) a (Some (Nd (s_calls st) None None))) (s_pc st u) = newid (s_heap st) (s_pc st u) /\
                           takeid (upd (s_heap st) a (Some (Nd (s_calls st) None None))) (s_pc st u) = takeid (s_heap st) (s_pc st u)).
    { intros u. apply ids_heap. intros b Hb. unfold arg. rewrite upd_other; [reflexivity|]. intros ->.
      apply (a_t A L st IL) in Hb. apply (a_free A L st IL) in H1. congruence. }
    destruct IN as [I1 I2 I3 I4 I5 I6 I7 I8 I9 I10 I11 I12 I13 I14].
    assert (SN : S (s_calls st) = SNone) by (apply I1; lia). constructor; cbn.
    + intros x. xcase x (s_calls st); [split; [discriminate | lia]|]. rewrite I1. lia.
    + intros x u. specialize (I2 x u). destruct (AH u) as [A1 A2]. pcase u t (s_pc st).
      * cbn. unfold arg. rewrite upd_same. cbn. rewrite H, new_resume in I2. xcase x (s_calls st); intuition congruence.
      * rewrite A1, <- I2. xcase x (s_calls st); intuition congruence.
    + intros x g' q HQ. rewrite <- (I3 x g' q HQ). xcase x (s_calls st); intuition congruence.
    + exact I4.
    + intros x g' u. specialize (I5 x g' u). destruct (AH u) as [A1 A2]. pcase u t (s_pc st).
      * cbn. rewrite H, take_resume in I5. xcase x (s_calls st); intuition congruence.
      * rewrite A2, <- I5. xcase x (s_calls st); intuition congruence.
    + intros x g' u. specialize (I6 x g' u).
      replace (runid (upd (s_pc st) t (EnqL g hd a k) u)) with (runid (s_pc st u)).
      * rewrite <- I6. xcase x (s_calls st); intuition congruence.
      * xcase u t; [|reflexivity]. rewrite runid_resume, H. reflexivity.
    + intros x. rewrite I7. xcase x (s_calls st); [rewrite SN|]; cbn; intuition congruence.
    + exact I8.
    + intros x. rewrite I9. xcase x (s_calls st); [rewrite SN|]; cbn; intuition congruence.
    + exact I10.
    + intros x g'. rewrite I11. xcase x (s_calls st); [rewrite SN|]; cbn; intuition congruence.
    + exact I12.
    + intros x g'. rewrite I13. xcase x (s_calls st); [rewrite SN|]; cbn; intuition congruence.
    + exact I14.
  - (* finish *)
    exists (upd S (j_id j) (SDone (j_grp j))). destruct IN as [I1 I2 I3 I4 I5 I6 I7 I8 I9 I10 I11 I12 I13 I14].
    remember (j_id j) as y eqn:EY.
    assert (SR : S y = SRun (j_grp j) t) by (apply I6; rewrite H, EY; reflexivity).
    assert (P' : forall p, (p = if j_bg j then FreeBg (j_grp j) (j_addr j) else RanFg (j_grp j) (j_addr j)) ->
        newid (s_heap st) p = None /\ takeid (s_heap st) p = None /\ runid p = None)
      by (intros p ->; destruct (j_bg j); auto).
    remember (if j_bg j then FreeBg (j_grp j) (j_addr j) else RanFg (j_grp j) (j_addr j)) as p'.
    destruct (P' p' eq_refl) as (P1 & P2 & P3). constructor; cbn.
    + intros x. rewrite <- I1. xcase x y; [|reflexivity]. rewrite SR. split; discriminate.
    + intros x u. specialize (I2 x u). pcase u t (s_pc st); xcase x y; try (intuition congruence).
      * rewrite H in I2. cbn in I2. rewrite P1. intuition congruence.
    + intros x g' q HQ. rewrite <- (I3 x g' q HQ). xcase x y; intuition congruence.
    + exact I4.
    + intros x g' u. specialize (I5 x g' u). pcase u t (s_pc st); xcase x y; try (intuition congruence).
      * rewrite H in I5. cbn in I5. rewrite P2. intuition congruence.
    + intros x g' u. specialize (I6 x g' u). pcase u t (s_pc st); xcase x y; try (intuition congruence).
      * rewrite H in I6. cbn in I6. rewrite P3. rewrite <- EY in I6. intuition congruence.
    + intros x. rewrite I7. xcase x y; [rewrite SR|]; cbn; tauto.
    + exact I8.
    + intros x. rewrite In_snoc, I9. xcase x y; cbn; [tauto|]. intuition congruence.
    + apply NoDup_snoc; [|exact I10]. rewrite I9, SR. discriminate.
    + intros x g'. rewrite I11. xcase x y; [rewrite SR|]; cbn; tauto.
    + exact I12.
    + intros x g'. rewrite I13. xcase x y; [rewrite SR|]; cbn; tauto.
    + exact I14.
  - (* link *)
    assert (AA : A a = AT t) by (apply (a_t A L st IL); rewrite H, holds_resume; left; reflexivity).
    assert (NI : ~ In a (L g)) by (intros X; apply (a_q A L st IL) in X; congruence).
    pose proof (link_some _ _ _ _ _ _ _ (l_hd A L st IL g) (l_tl A L st IL g) (l_w A L st IL g) (l_ch A L st IL g)
      (l_nd A L st IL g) NI (a_e A L st IL _ _ _ _ _ H) H1) as LS. cbv zeta in LS.
    destruct LS as (C1 & C2 & C3 & C4 & C5).
    destruct IN as [I1 I2 I3 I4 I5 I6 I7 I8 I9 I10 I11 I12 I13 I14].
    remember (arg (s_heap st) a) as y eqn:EY.
    assert (SR : S y = SNew t) by (apply I2; rewrite H, EY; reflexivity).
    assert (HQ : forall g', q_hist (upd (s_grp st) g q' g') =
       if g' =? g then q_hist (s_grp st g) ++ [(if hd then PushFront else PushBack) y] else q_hist (s_grp st g')).
    { intros g'. unfold upd. destruct (g' =? g); [|reflexivity].
      apply signal_spec in H2. destruct H2 as [(_ & _ & ->)|(_ & _ & ->)]; rewrite C5; reflexivity. }
    assert (PI : forall u, newid heap (pcs u) = (if u =? t then None else newid (s_heap st) (s_pc st u)) /\
                 takeid heap (pcs u) = takeid (s_heap st) (s_pc st u) /\ runid (pcs u) = runid (s_pc st u)).
    { assert (PJ : forall u, newid heap (upd (s_pc st) t (resume k) u) = (if u =? t then None else newid (s_heap st) (s_pc st u)) /\
                 takeid heap (upd (s_pc st) t (resume k) u) = takeid (s_heap st) (s_pc st u) /\
                 runid (upd (s_pc st) t (resume k) u) = runid (s_pc st u)).
      { intros u. xcase u t.
        - rewrite new_resume, take_resume, H, runid_resume. auto.
        - destruct (ids_heap (s_heap st) heap (s_pc st u)) as [-> ->]; auto. }
      apply signal_spec in H2. destruct H2 as [(_ & -> & _)|(S1 & -> & _)]; [exact PJ|].
      intros u. specialize (PJ u). pcase u w (upd (s_pc st) t (resume k)); [|exact PJ].
      apply link_fields in H1. destruct H1 as (F1 & _). rewrite F1 in S1. apply (z_in st I0) in S1.
      rewrite S1. cbn. destruct (w =? t); auto. }
    assert (YQ : forall g' q0, replay (q_hist (s_grp st g')) [] = Some q0 -> ~ In y q0).
    { intros g' q0 X Y. apply (I3 y g' q0 X) in Y. congruence. }
    assert (YP : forall g', ~ In y (pushed (q_hist (s_grp st g')))).
    { intros g' Y. apply I11 in Y. rewrite SR in Y. discriminate. }
    exists (upd S y (SQ g)). constructor; cbn.
    + intros x. rewrite <- I1. xcase x y; [|reflexivity]. rewrite SR. split; discriminate.
    + intros x u. destruct (PI u) as (-> & _). specialize (I2 x u). destruct (Nat.eqb_spec u t) as [->|]; xcase x y; try (intuition congruence).
      * rewrite H in I2. cbn in I2. intuition congruence.
    + intros x g' q0. rewrite HQ. destruct (Nat.eqb_spec g' g) as [->|].
      * rewrite replay_app. destruct (replay (q_hist (s_grp st g)) []) as [q1|] eqn:R1; [|discriminate].
        specialize (I3 x g q1 R1). destruct hd; cbn; intros [= <-]; [cbn | rewrite In_snoc]; xcase x y; intuition congruence.
      * intros X. rewrite <- (I3 x g' q0 X). xcase x y; intuition congruence.
    + intros g' q0. rewrite HQ. destruct (Nat.eqb_spec g' g) as [->|]; [|apply I4].
      rewrite replay_app. destruct (replay (q_hist (s_grp st g)) []) as [q1|] eqn:R1; [|discriminate].
      specialize (YQ g q1 R1). specialize (I4 g q1 R1). destruct hd; cbn; intros [= <-]; [constructor; assumption | apply NoDup_snoc; assumption].
    + intros x g' u. destruct (PI u) as (_ & -> & _). rewrite <- I5. xcase x y; [split; congruence | tauto].
    + intros x g' u. destruct (PI u) as (_ & _ & ->). rewrite <- I6. xcase x y; [split; congruence | tauto].
    + intros x. rewrite I7. xcase x y; [rewrite SR|]; cbn; tauto.
    + exact I8.
    + intros x. rewrite I9. xcase x y; [rewrite SR|]; cbn; tauto.
    + exact I10.
    + intros x g'. rewrite HQ. specialize (I11 x g'). destruct (Nat.eqb_spec g' g) as [->|].
      * rewrite pushed_app. replace (pushed [(if hd then PushFront else PushBack) y]) with [y] by (destruct hd; reflexivity).
        rewrite In_snoc, I11. xcase x y; [rewrite SR|]; cbn; intuition congruence.
      * rewrite I11. xcase x y; [rewrite SR|]; cbn; intuition congruence.
    + intros g'. rewrite HQ. destruct (Nat.eqb_spec g' g) as [->|]; [|apply I12]. rewrite pushed_app.
      replace (pushed [(if hd then PushFront else PushBack) y]) with [y] by (destruct hd; reflexivity).
      apply NoDup_snoc; [apply YP | apply I12].
    + intros x g'. rewrite HQ. specialize (I13 x g').
      replace (popped (if g' =? g then q_hist (s_grp st g) ++ [(if hd then PushFront else PushBack) y] else q_hist (s_grp st g')))
        with (popped (q_hist (s_grp st g'))).
      * rewrite I13. xcase x y; [rewrite SR|]; cbn; intuition congruence.
      * destruct (Nat.eqb_spec g' g) as [->|]; [|reflexivity]. rewrite popped_app. destruct hd; cbn; rewrite app_nil_r; reflexivity.
    + intros g'. rewrite HQ. destruct (Nat.eqb_spec g' g) as [->|]; [|apply I14].
      rewrite popped_app. destruct hd; cbn; rewrite app_nil_r; apply I14.
  - (* take *)
    pose proof (comes_fields _ _ _ _ _ H) as (F1 & F2 & F3 & F4 & _).
    pose proof (comes_ids _ _ _ _ _ (s_heap st) H) as (N1 & N2 & N3).
    destruct (gn_some (s_heap st) q a q' (L g)) as (r & EL & EQ);
      [rewrite F1; apply (l_hd A L st IL) | rewrite F2; apply (l_tl A L st IL) | rewrite F3; apply (l_w A L st IL) | apply (l_ch A L st IL) | exact H2 |].
    pose proof (l_h A L st IL g) as RH. rewrite EL in RH. cbn in RH.
    destruct IN as [I1 I2 I3 I4 I5 I6 I7 I8 I9 I10 I11 I12 I13 I14].
    remember (arg (s_heap st) a) as y eqn:EY. remember (map (arg (s_heap st)) r) as ys eqn:EYS.
    assert (SR : S y = SQ g) by (apply (I3 y g _ RH); left; reflexivity).
    pose proof (I4 g _ RH) as ND. inversion ND as [|? ? ND1 ND2]; subst x l.
    assert (HQ : forall g', q_hist (upd (s_grp st) g (add_exec q') g') =
       if g' =? g then q_hist (s_grp st g) ++ [Pop y] else q_hist (s_grp st g')).
    { intros g'. unfold upd. destruct (g' =? g); [|reflexivity]. rewrite EQ. cbn. rewrite F4. reflexivity. }
    exists (upd S y (STk g t)). constructor; cbn.
    + intros x. rewrite <- I1. xcase x y; [|reflexivity]. rewrite SR. split; discriminate.
    + intros x u. specialize (I2 x u). pcase u t (s_pc st); xcase x y; cbn; try (intuition congruence).
    + intros x g' q0. rewrite HQ. destruct (Nat.eqb_spec g' g) as [->|].
      * rewrite replay_app, RH. cbn. rewrite Nat.eqb_refl. intros [= <-]. specialize (I3 x g _ RH). cbn in I3.
        xcase x y; [split; [discriminate | contradiction]|]. intuition congruence.
      * intros X. rewrite <- (I3 x g' q0 X). xcase x y; intuition congruence.
    + intros g' q0. rewrite HQ. destruct (Nat.eqb_spec g' g) as [->|]; [|apply I4].
      rewrite replay_app, RH. cbn. rewrite Nat.eqb_refl. intros [= <-]. exact ND2.
    + intros x g' u. specialize (I5 x g' u). pcase u t (s_pc st); xcase x y; cbn; rewrite <- ?EY; try (intuition congruence).
    + intros x g' u. specialize (I6 x g' u). pcase u t (s_pc st); xcase x y; cbn; try (intuition congruence).
    + intros x. rewrite I7. xcase x y; [rewrite SR|]; cbn; tauto.
    + exact I8.
    + intros x. rewrite I9. xcase x y; [rewrite SR|]; cbn; tauto.
    + exact I10.
    + intros x g'. rewrite HQ. specialize (I11 x g').
      replace (pushed (if g' =? g then q_hist (s_grp st g) ++ [Pop y] else q_hist (s_grp st g'))) with (pushed (q_hist (s_grp st g'))).
      * rewrite I11. xcase x y; [rewrite SR|]; cbn; intuition congruence.
      * destruct (Nat.eqb_spec g' g) as [->|]; [|reflexivity]. rewrite pushed_app. cbn. rewrite app_nil_r. reflexivity.
    + intros g'. rewrite HQ. destruct (Nat.eqb_spec g' g) as [->|]; [|apply I12].
      rewrite pushed_app. cbn. rewrite app_nil_r. apply I12.
    + intros x g'. rewrite HQ. specialize (I13 x g'). destruct (Nat.eqb_spec g' g) as [->|].
      * rewrite popped_app. cbn. rewrite In_snoc, I13. xcase x y; [rewrite SR|]; cbn; intuition congruence.
      * rewrite I13. xcase x y; [rewrite SR|]; cbn; intuition congruence.
    + intros g'. rewrite HQ. destruct (Nat.eqb_spec g' g) as [->|]; [|apply I14]. rewrite popped_app. cbn.
      apply NoDup_snoc; [|apply I14]. rewrite I13, SR. discriminate.
  - exists S. pose proof (comes_fields _ _ _ _ _ H) as (_ & _ & _ & F4 & _). apply (inv4_frame S st _ IN); try reflexivity.
    + one_grp g. cbn. exact F4.
    + intros u. cbn. xcase u t; [|auto]. apply (comes_ids _ _ _ _ _ (s_heap st)) in H. cbn. intuition congruence.
  - exists S. pose proof (comes_fields _ _ _ _ _ H) as (_ & _ & _ & F4 & _). apply (inv4_frame S st _ IN); try reflexivity.
    + one_grp g. cbn. exact F4.
    + intros u. cbn. xcase u t; [|auto]. apply (comes_ids _ _ _ _ _ (s_heap st)) in H. cbn. intuition congruence.
  - (* start *)
    destruct IN as [I1 I2 I3 I4 I5 I6 I7 I8 I9 I10 I11 I12 I13 I14].
    remember (n_arg nd) as y eqn:EY.
    assert (SR : S y = STk g t) by (apply I5; rewrite H; cbn; unfold arg; rewrite H0, EY; reflexivity).
    exists (upd S y (SRun g t)). constructor; cbn.
    + intros x. rewrite <- I1. xcase x y; [|reflexivity]. rewrite SR. split; discriminate.
    + intros x u. specialize (I2 x u). pcase u t (s_pc st); [rewrite H in I2|]; xcase x y; cbn in *; try (intuition congruence).
    + intros x g' q HQ. rewrite <- (I3 x g' q HQ). xcase x y; intuition congruence.
    + exact I4.
    + intros x g' u. specialize (I5 x g' u). pcase u t (s_pc st); [rewrite H in I5|]; xcase x y; cbn in *; try (intuition congruence).
      unfold arg in I5. rewrite H0, <- EY in I5. intuition congruence.
    + intros x g' u. specialize (I6 x g' u). pcase u t (s_pc st); [rewrite H in I6|]; xcase x y; cbn in *; try (intuition congruence).
    + intros x. rewrite In_snoc, I7. xcase x y; cbn; [tauto|]. intuition congruence.
    + apply NoDup_snoc; [|exact I8]. rewrite I7, SR. discriminate.
    + intros x. rewrite I9. xcase x y; [rewrite SR|]; cbn; tauto.
    + exact I10.
    + intros x g'. rewrite I11. xcase x y; [rewrite SR|]; cbn; tauto.
    + exact I12.
    + intros x g'. rewrite I13. xcase x y; [rewrite SR|]; cbn; tauto.
    + exact I14.
  - exists S. apply sub_fields in H0. apply (inv4_frame S st _ IN); try reflexivity.
    + one_grp g. cbn. intuition congruence.
    + intros u. cbn. xcase u t; [|auto]. rewrite H. auto.
  - exists S. apply (inv4_frame S st _ IN); try reflexivity. intros u. cbn. pcase u t (s_pc st); [rewrite H; auto|].
    destruct (ids_heap (s_heap st) (upd (s_heap st) a None) (s_pc st u)) as [-> ->]; [|auto].
    intros b Hb. unfold arg. rewrite upd_other; [reflexivity|]. intros ->. apply (a_t A L st IL) in Hb.
    assert (A a = AT t) by (apply (a_t A L st IL); rewrite H; left; reflexivity). congruence.
  - exists S. apply (inv4_frame S st _ IN); try reflexivity. intros u. cbn. pcase u t (s_pc st); [rewrite H; auto|].
    destruct (ids_heap (s_heap st) (upd (s_heap st) a None) (s_pc st u)) as [-> ->]; [|auto].
    intros b Hb. unfold arg. rewrite upd_other; [reflexivity|]. intros ->. apply (a_t A L st IL) in Hb.
    assert (A a = AT t) by (apply (a_t A L st IL); rewrite H; left; reflexivity). congruence.
  - exists S. apply (inv4_frame S st _ IN); try reflexivity.
    + one_grp g. reflexivity.
    + intros u. cbn. xcase u t; [|auto]. rewrite H. auto.
  - exists S. apply (inv4_frame S st _ IN); try reflexivity.
    + one_grp i. reflexivity.
    + intros u. cbn. xcase u t; [|auto]. rewrite H. auto.
  - exists S. apply (inv4_frame S st _ IN); try reflexivity.
    + one_grp i. reflexivity.
    + intros u. cbn. xcase u t; [|auto]. rewrite H. auto.
  - exists S. apply (inv4_frame S st _ IN); try reflexivity.
    + one_grp g. reflexivity.
    + intros u. cbn. unfold wake_all. xcase u t; [rewrite H; auto|].
      destruct (mem u _) eqn:M; [|auto]. apply mem_In in M. apply (z_in st I0) in M. rewrite M. auto.
Qed.

(** ** Layer 5: workers, and that none sleeps while work waits *)

Definition wgrp (p : pc) : option nat :=
  match p with
  | WLoop g _ | WSleep g | WDead g | FreeBg g _ | Start g _ true => Some g
  | Run j | EnqL _ _ _ (Some j) => if j_bg j then Some (j_grp j) else None
  | _ => None
  end.

Definition awake (g : nat) (p : pc) : bool := match p with WLoop g' _ => g' =? g | _ => false end.

Definition ready (pcs : nat -> pc) (g : nat) : nat := length (filter (fun t => awake g (pcs t)) (workers g)).

Record Inv5 (st : state) : Prop := {
  w_in : forall g t, wgrp (s_pc st t) = Some g <-> (g < G /\ In t (workers g));
  w_aw : forall g, g < G -> q_sleep (s_grp st g) <> [] -> q_wait (s_grp st g) <= ready (s_pc st) g }.

Lemma filter_mono : forall (f f' : nat -> bool) l, (forall u, In u l -> f u = true -> f' u = true) ->
  length (filter f l) <= length (filter f' l).
Proof.
  induction l as [|x l IH]; intros H; [reflexivity|]. cbn. specialize (IH (fun u X => H u (or_intror X))).
  pose proof (H x (or_introl eq_refl)). destruct (f x); [rewrite H0 by reflexivity; cbn; lia|].
  destruct (f' x); cbn; lia.
Qed.

Lemma filter_lose : forall (f f' : nat -> bool) t l, NoDup l -> (forall u, u <> t -> f u = true -> f' u = true) ->
  length (filter f l) <= S (length (filter f' l)).
Proof.
  induction l as [|x l IH]; intros ND H; [cbn; lia|]. inversion ND; subst. cbn. specialize (IH H3 H).
  destruct (Nat.eq_dec x t) as [->|].
  - pose proof (filter_mono f f' l) as M. assert (length (filter f l) <= length (filter f' l)).
    { apply M. intros u Hu. apply H. intros ->. contradiction. }
    destruct (f t), (f' t); cbn; lia.
  - pose proof (H x n). destruct (f x); [rewrite H0 by reflexivity; cbn; lia|]. destruct (f' x); cbn; lia.
Qed.

Lemma filter_gain : forall (f f' : nat -> bool) t l, In t l -> f t = false -> f' t = true ->
  (forall u, f u = true -> f' u = true) -> S (length (filter f l)) <= length (filter f' l).
Proof.
  induction l as [|x l IH]; intros HI F F' H; [contradiction|]. cbn. destruct (Nat.eq_dec x t) as [->|].
  - rewrite F, F'. cbn. pose proof (filter_mono f f' l (fun u _ => H u)). lia.
  - destruct HI as [|HI]; [congruence|]. specialize (IH HI F F' H). specialize (H x).
    destruct (f x); [rewrite H by reflexivity; cbn; lia|]. destruct (f' x); cbn; lia.
Qed.

Lemma move_w : forall st p p', move st p p' -> wgrp p = None /\ wgrp p' = None /\ (forall g, awake g p = false).
Proof. intros st p p' H. destruct H; repeat split. Qed.

Lemma wgrp_resume : forall g hd a k, wgrp (EnqL g hd a k) = wgrp (resume k).
Proof. intros g hd a [j|]; reflexivity. Qed.

Lemma wgrp_comes : forall st g p q bg, comes st g p q bg -> wgrp p = if bg then Some g else None.
Proof. intros st g p q bg H. destruct H; reflexivity. Qed.

(** A thread never changes its role. *)
Lemma role_kept : forall st t st', Inv0 st -> trans st t st' -> forall u, wgrp (s_pc st' u) = wgrp (s_pc st u).
Proof.
  intros st t st' I0 T u.
  assert (ONE : forall p, wgrp p = wgrp (s_pc st t) -> wgrp (upd (s_pc st) t p u) = wgrp (s_pc st u))
    by (intros p E; unfold upd; destruct (Nat.eqb_spec u t) as [->|]; [exact E | reflexivity]).
  inversion T; subst; clear T; cbn; try reflexivity; try apply ONE.
  - apply move_w in H. intuition congruence.
  - rewrite wgrp_resume, H. reflexivity.
  - rewrite H. cbn. destruct (j_bg j); reflexivity.
  - assert (PJ : wgrp (upd (s_pc st) t (resume k) u) = wgrp (s_pc st u)) by (apply ONE; rewrite H, wgrp_resume; reflexivity).
    apply signal_spec in H2. destruct H2 as [(_ & -> & _)|(S1 & -> & _)]; [exact PJ|].
    pcase u w (upd (s_pc st) t (resume k)); [|exact PJ].
    apply link_fields in H1. destruct H1 as (F1 & _). rewrite F1 in S1. apply (z_in st I0) in S1. rewrite S1. reflexivity.
  - apply wgrp_comes in H. rewrite H. reflexivity.
  - apply wgrp_comes in H. rewrite H. reflexivity.
  - apply wgrp_comes in H. rewrite H. reflexivity.
  - rewrite H. reflexivity.
  - rewrite H. reflexivity.
  - rewrite H. reflexivity.
  - rewrite H. reflexivity.
  - rewrite H. reflexivity.
  - rewrite H. reflexivity.
  - rewrite H. reflexivity.
  - unfold wake_all. xcase u t; [rewrite H; reflexivity|]. destruct (mem u _) eqn:M; [|reflexivity].
    apply mem_In in M. apply (z_in st I0) in M. rewrite M. reflexivity.
Qed.

Lemma resume_awake : forall k g, awake g (resume k) = false.
Proof. intros [j|]; reflexivity. Qed.

Hypothesis WND : forall g, NoDup (workers g).

Lemma inv5_step : forall st t st', Inv0 st -> Inv5 st -> trans st t st' -> Inv5 st'.
Proof.
  intros st t st' I0 [W1 W2] T. constructor.
  - intros g u. rewrite (role_kept st t st' I0 T). apply W1.
  - (* no one becomes less awake, and nothing else changes *)
    assert (MONO : forall pcs g, g < G -> (forall u, awake g (s_pc st u) = true -> awake g (pcs u) = true) ->
              q_sleep (s_grp st g) <> [] -> q_wait (s_grp st g) <= ready pcs g).
    { intros pcs g L M NS. specialize (W2 g L NS). unfold ready in *. etransitivity; [exact W2|].
      apply filter_mono. intros u _. apply M. }
    assert (ONE : forall p g, awake g (s_pc st t) = false ->
              forall u, awake g (s_pc st u) = true -> awake g (upd (s_pc st) t p u) = true)
      by (intros p g E u; xcase u t; [congruence | auto]).
    inversion T; subst; clear T; intros g0 GL; cbn.
    + apply W2. assumption.
    + apply move_w in H. apply (MONO _ _ GL). apply ONE. apply H.
    + apply (MONO _ _ GL). apply ONE. rewrite H. apply resume_awake.
    + apply (MONO _ _ GL). apply ONE. rewrite H. reflexivity.
    + pose proof (link_fields _ _ _ _ _ _ H1) as (F1 & F2 & F3 & F4).
      assert (WQ : q_wait q = q_wait (s_grp st g) + 1).
      { clear - H1. unfold link in H1. destruct (s_heap st a); [|discriminate]. destruct (q_tail _); [destruct hd|].
        - destruct (q_head _); [|discriminate]. destruct (s_heap st _); [|discriminate]. injection H1 as _ <-. reflexivity.
        - destruct (s_heap st _); [|discriminate]. injection H1 as _ <-. reflexivity.
        - destruct (q_head _); [discriminate|]. injection H1 as _ <-. reflexivity. }
      apply signal_spec in H2. destruct H2 as [(S1 & -> & ->)|(S1 & -> & ->)].
      * unfold upd at 1 2. destruct (Nat.eqb_spec g0 g) as [->|]; [congruence|].
        apply (MONO _ _ GL). apply ONE. rewrite H. reflexivity.
      * rewrite F1 in S1. pose proof (proj1 (z_in st I0 g w) S1) as SW.
        assert (WT : w <> t) by congruence.
        assert (AW : forall g u, awake g (s_pc st u) = true ->
          awake g (upd (upd (s_pc st) t (resume k)) w (WLoop g false) u) = true).
        { intros g1 u. unfold upd. destruct (Nat.eqb_spec u w) as [->|]; [rewrite SW; discriminate|].
          destruct (Nat.eqb_spec u t) as [->|]; [rewrite H; discriminate | auto]. }
        assert (AW' : forall u, awake g0 (s_pc st u) = true ->
          awake g0 (upd (upd (s_pc st) t (resume k)) w (WLoop g false) u) = true).
        { intros u. unfold upd. destruct (Nat.eqb_spec u w) as [->|]; [rewrite SW; discriminate|].
          destruct (Nat.eqb_spec u t) as [->|]; [rewrite H; discriminate | auto]. }
        unfold upd at 1 2. destruct (Nat.eqb_spec g0 g) as [->|]; cbn.
        -- intros _. assert (NS : q_sleep (s_grp st g) <> []) by (intros X; rewrite X in S1; contradiction).
           specialize (W2 g GL NS). rewrite WQ. unfold ready in *.
           assert (X : S (length (filter (fun t0 => awake g (s_pc st t0)) (workers g))) <=
                   length (filter (fun t0 => awake g (upd (upd (s_pc st) t (resume k)) w (WLoop g false) t0)) (workers g))).
           { apply (filter_gain _ _ w).
             - apply (W1 g w). rewrite SW. reflexivity.
             - rewrite SW. reflexivity.
             - rewrite upd_same. cbn. apply Nat.eqb_refl.
             - exact AW'. }
           lia.
        -- apply (MONO _ _ GL). exact AW'.
    + apply gn_fields in H2. destruct H2 as (G1 & _ & _ & _ & G5).
      pose proof (comes_fields _ _ _ _ _ H) as (_ & _ & F3 & _ & F5 & _).
      unfold upd at 1 2. destruct (Nat.eqb_spec g0 g) as [->|]; cbn.
      * rewrite G1, F5. intros NS. specialize (W2 g GL NS). unfold ready in *.
        assert (X : length (filter (fun t0 => awake g (s_pc st t0)) (workers g)) <=
                S (length (filter (fun t0 => awake g (upd (s_pc st) t (Start g a bg) t0)) (workers g)))).
        { apply (filter_lose _ _ t); [apply WND|]. intros u NU. rewrite upd_other by exact NU. auto. }
        destruct (comes_pc _ _ _ _ _ H) as [(PT & _)|_]; [|lia].
        assert (Y : length (filter (fun t0 => awake g (s_pc st t0)) (workers g)) <=
                length (filter (fun t0 => awake g (upd (s_pc st) t (Start g a bg) t0)) (workers g))).
        { apply filter_mono. intros u _. apply ONE. rewrite PT. reflexivity. }
        lia.
      * apply (MONO _ _ GL). apply ONE.
        destruct (comes_pc _ _ _ _ _ H) as [(PT & _)|((f & PT) & _)]; rewrite PT; [reflexivity|]. cbn.
        destruct (Nat.eqb_spec g g0); congruence.
    + pose proof (comes_fields _ _ _ _ _ H) as (_ & _ & F3 & _ & F5 & _).
      unfold upd at 1 2. destruct (Nat.eqb_spec g0 g) as [->|]; cbn; [lia|].
      apply (MONO _ _ GL). apply ONE.
      destruct (comes_pc _ _ _ _ _ H) as [(PT & _)|((f & PT) & _)]; rewrite PT; [reflexivity|]. cbn.
      destruct (Nat.eqb_spec g g0); congruence.
    + pose proof (comes_fields _ _ _ _ _ H) as (_ & _ & F3 & _ & F5 & F6 & _).
      unfold upd at 1 2. destruct (Nat.eqb_spec g0 g) as [->|]; cbn.
      * rewrite F5. intros NS. exfalso. apply NS. apply (z_st st I0). congruence.
      * apply (MONO _ _ GL). apply ONE.
        destruct (comes_pc _ _ _ _ _ H) as [(PT & _)|((f & PT) & _)]; rewrite PT; [reflexivity|]. cbn.
        destruct (Nat.eqb_spec g g0); congruence.
    + apply (MONO _ _ GL). apply ONE. rewrite H. reflexivity.
    + apply sub_fields in H0. unfold upd at 1 2. destruct (Nat.eqb_spec g0 g) as [->|]; cbn.
      * replace (q_sleep q) with (q_sleep (s_grp st g)) by (symmetry; apply H0).
        replace (q_wait q) with (q_wait (s_grp st g)) by (symmetry; apply H0).
        apply (MONO _ _ GL). apply ONE. rewrite H. reflexivity.
      * apply (MONO _ _ GL). apply ONE. rewrite H. reflexivity.
    + apply (MONO _ _ GL). apply ONE. rewrite H. reflexivity.
    + apply (MONO _ _ GL). apply ONE. rewrite H. reflexivity.
    + unfold upd at 1 2. destruct (Nat.eqb_spec g0 g) as [->|]; cbn.
      * intros NS. apply (MONO _ _ GL); [apply ONE; rewrite H; reflexivity|]. intros X. rewrite X in NS. apply NS. reflexivity.
      * apply (MONO _ _ GL). apply ONE. rewrite H. reflexivity.
    + unfold upd at 1 2. destruct (Nat.eqb_spec g0 i) as [->|]; cbn; apply (MONO _ _ GL); apply ONE; rewrite H; reflexivity.
    + unfold upd at 1 2. destruct (Nat.eqb_spec g0 i) as [->|]; cbn; apply (MONO _ _ GL); apply ONE; rewrite H; reflexivity.
    + unfold upd at 1 2. destruct (Nat.eqb_spec g0 g) as [->|]; cbn; [congruence|].
      apply (MONO _ _ GL). intros u AU. unfold wake_all. xcase u t; [rewrite H in AU; discriminate|].
      destruct (mem u _) eqn:M; [|exact AU]. apply mem_In in M. apply (z_in st I0) in M. rewrite M in AU. discriminate.
Qed.

(** ** Everything together *)

Record Inv (st : state) : Prop := {
  i_0 : Inv0 st;
  i_1 : exists A L, Inv1 A L st;
  i_2 : exists R, Inv2 R st;
  i_3 : Inv3 st;
  i_4 : exists S, Inv4 S st;
  i_5 : Inv5 st }.

Lemma inv_init : forall st, init G workers st -> Inv st.
Proof.
  intros st (H1 & H2 & H3 & H4 & H5 & H6 & H7).
  assert (PCS : forall t, s_pc st t = Out \/ exists g, g < G /\ In t (workers g) /\ s_pc st t = WLoop g false).
  { intros t. destruct (existsb (fun g => mem t (workers g)) (seq 0 G)) eqn:E.
    - apply existsb_exists in E. destruct E as (g & X & Y). apply in_seq in X. apply mem_In in Y.
      right. exists g. repeat split; [lia | exact Y |]. apply H3; [lia | exact Y].
    - left. apply H4. intros g L X. apply Bool.not_true_iff_false in E. apply E.
      apply existsb_exists. exists g. split; [apply in_seq; lia | apply mem_In; exact X]. }
  constructor.
  - constructor; intros; rewrite H2; cbn; [|constructor | reflexivity]. split; [contradiction|].
    destruct (PCS t) as [->|(g' & _ & _ & ->)]; discriminate.
  - exists (fun _ => AFree), (fun _ => []). constructor; intros; rewrite ?H2; cbn; try reflexivity; try tauto.
    + split; auto.
    + split; [contradiction | discriminate].
    + split; [|discriminate]. destruct (PCS t) as [->|(g' & _ & _ & ->)]; contradiction.
    + destruct (PCS t) as [->|(g' & _ & _ & ->)]; constructor.
    + destruct (PCS t) as [X|(g' & _ & _ & X)]; congruence.
    + constructor.
  - exists (fun _ => []). constructor; intros; rewrite ?H2; cbn; [|constructor | reflexivity].
    split; [contradiction|]. destruct (PCS t) as [->|(g' & _ & _ & ->)]; discriminate.
  - constructor.
    + intros. rewrite H2. cbn. split; [discriminate|]. intros [_ X].
      destruct (PCS t) as [E|(g' & _ & _ & E)]; rewrite E in X; contradiction.
    + intros. destruct (PCS t) as [E|(g' & _ & _ & E)]; congruence.
    + intros. destruct (PCS t) as [->|(g' & _ & _ & ->)]; exact Logic.I.
  - exists (fun _ => SNone). constructor; intros; rewrite ?H2, ?H5, ?H6, ?H7 in *; cbn in *; try (split; [discriminate || contradiction | try discriminate; try contradiction]); try constructor; try congruence; try lia.
    + destruct (PCS t) as [->|(g' & _ & _ & ->)]; discriminate.
    + intros X. injection H as <-. contradiction.
    + injection H as <-. constructor.
    + destruct (PCS t) as [->|(g' & _ & _ & ->)]; discriminate.
    + destruct (PCS t) as [->|(g' & _ & _ & ->)]; discriminate.
  - constructor.
    + intros g t. destruct (PCS t) as [E|(g' & X & Y & E)]; rewrite E; cbn.
      * split; [discriminate|]. intros [X Y]. rewrite (H3 g t X Y) in E. discriminate.
      * split; [intros [= <-]; auto|]. intros [X' Y']. rewrite (H3 g t X' Y') in E. congruence.
    + intros g _. rewrite H2. cbn. congruence.
Qed.

Theorem inv_reach : forall st, reach G workers st -> Inv st.
Proof.
  induction 1 as [st H|st t c st' R IH H]; [apply inv_init; exact H|]. apply step_trans in H.
  destruct IH as [I0 (A & L & I1) (RR & I2) I3 (SS & I4) I5]. constructor.
  - eapply inv0_step; eassumption.
  - eapply inv1_step; eassumption.
  - eapply inv2_step; eassumption.
  - eapply inv3_step; eassumption.
  - eapply inv4_step; eassumption.
  - eapply inv5_step; eassumption.
Qed.

(** ** Consequences *)

Lemma replay_fifo : forall h q q', only_back h -> replay h q = Some q' -> q ++ pushed h = popped h ++ q'.
Proof.
  induction h as [|o h IH]; intros q q' OB R; cbn in R.
  - injection R as <-. cbn. apply app_nil_r.
  - assert (OB' : only_back h) by (intros x X; apply (OB x); right; exact X). destruct o; cbn.
    + apply IH in R; [|exact OB']. rewrite <- R, <- app_assoc. reflexivity.
    + exfalso. apply (OB x). left. reflexivity.
    + destruct q as [|y q]; [discriminate|]. destruct (Nat.eqb_spec x y) as [->|]; [|discriminate].
      apply IH in R; [|exact OB']. cbn. f_equal. exact R.
Qed.

Lemma no_abort : forall st t c, Inv st ->
  (forall g, s_pc st t = StopL g -> q_wait (s_grp st g) = 0) -> step G workers st t c <> Abort.
Proof.
  intros st t c [I0 (A & L & I1) (R & I2) I3 (SS & I4) I5] HS H. unfold step in H.
  assert (EX : forall g, cgrp (s_pc st t) = Some g -> sub_exec (s_grp st g) <> None).
  { intros g E. apply (r_in R st I2) in E. pose proof (r_e R st I2 g) as X. unfold sub_exec.
    destruct (Nat.eqb_spec (q_exec (s_grp st g)) 0); [|discriminate]. destruct (R g); [contradiction|]. cbn in X. lia. }
  assert (HP : forall a, In a (holds (s_pc st t)) -> s_heap st a <> None).
  { intros a E X. apply (a_t A L st I1) in E. apply (a_free A L st I1) in X. congruence. }
  assert (GN : forall g q, q_head q = q_head (s_grp st g) -> q_tail q = q_tail (s_grp st g) -> q_wait q = q_wait (s_grp st g) ->
            get_next (s_heap st) q <> None).
  { intros g q E1 E2 E3. apply (gn_ok _ _ (L g)); [rewrite E1; apply (l_hd A L st I1) | rewrite E2; apply (l_tl A L st I1)
      | rewrite E3; apply (l_w A L st I1) | apply (l_ch A L st I1)]. }
  assert (WT : forall g q, q_head q = q_head (s_grp st g) -> q_tail q = q_tail (s_grp st g) -> q_wait q = q_wait (s_grp st g) ->
            worker_turn st t g q <> Abort).
  { intros g q E1 E2 E3. unfold worker_turn. destruct (q_stop q); [discriminate|]. specialize (GN g q E1 E2 E3).
    destruct (get_next _ _) as [[[a|] q']|]; congruence. }
  destruct (s_pc st t) eqn:E; destruct c; try discriminate H; unfold call_enqueue in H; cbn beta iota in H;
    try (destruct (g <? G); [|discriminate]); try discriminate H;
    try (destruct (s_heap st a); discriminate); try (destruct (i <? G); [|discriminate]); try discriminate H.
  - destruct (free_lock st g); [|discriminate].
    assert (LK : link (s_heap st) (s_grp st g) hd a <> None).
    { apply (link_ok _ _ _ _ (L g)); [apply (l_hd A L st I1) | apply (l_tl A L st I1) | apply (l_ch A L st I1) |].
      apply HP. rewrite holds_resume. left. reflexivity. }
    destruct (link _ _ _ _) as [[heap q]|]; [|congruence]. destruct (signal _ _ _ _) as [[pcs q']|]; discriminate.
  - destruct (free_lock st g); [|discriminate]. specialize (GN g (s_grp st g) eq_refl eq_refl eq_refl).
    destruct (get_next _ _) as [[[a|] q']|]; congruence.
  - specialize (HP a (or_introl eq_refl)). destruct (s_heap st a); congruence.
  - specialize (EX g eq_refl). destruct (sub_exec _); congruence.
  - specialize (HP a (or_introl eq_refl)). destruct (s_heap st a); congruence.
  - specialize (HP a (or_introl eq_refl)). destruct (s_heap st a); congruence.
  - destruct (free_lock st g); [|discriminate]. destruct fin0.
    + specialize (EX g eq_refl). destruct (sub_exec _) as [q|] eqn:X; [|congruence]. apply sub_fields in X.
      revert H. apply WT; apply X.
    + revert H. apply WT; reflexivity.
  - destruct (free_lock st i); discriminate.
  - destruct (_ && _); discriminate.
  - destruct (free_lock st g); [|discriminate]. specialize (HS g eq_refl).
    pose proof (l_w A L st I1 g) as W. rewrite HS in W. pose proof (l_hd A L st I1 g) as HH. pose proof (l_tl A L st I1 g) as HT.
    destruct (L g); [|discriminate]. cbn in HH, HT. rewrite HH, HT, HS in H. discriminate.
  - destruct l; discriminate || (destruct (s_pc st n); discriminate).
  - destruct l; discriminate || (destruct (s_pc st n); discriminate).
  - destruct l; discriminate || (destruct (s_pc st n); discriminate).
  - destruct l; discriminate || (destruct (s_pc st n); discriminate).
  - destruct l; discriminate || (destruct (s_pc st n); discriminate).
  - destruct l; discriminate || (destruct (s_pc st n); discriminate).
  - destruct l; [discriminate|]. destruct (s_pc st n); discriminate.
  - destruct (_ =? 0); discriminate.
Qed.

(** A thread inside one of the operations; [task_wait_for_completion] and the
    joining of threads wait for others by design. *)
Definition inside (p : pc) : bool :=
  match p with Out | WSleep _ | WDead _ | Join _ _ | VWait _ => false | _ => true end.

Definition moves (st : state) (t : nat) : Prop := exists c st', step G workers st t c = Ok st'.

Lemma held_moves : forall st, Inv3 st -> forall n g u, G - g <= n -> q_lock (s_grp st g) = Some u ->
  exists u', in_x (s_pc st u') = true /\ moves st u'.
Proof.
  intros st I3. induction n as [|n IH]; intros g u GN QL; apply (k_lock st I3) in QL as [GL LK].
  - lia.
  - destruct (s_pc st u) eqn:E; try contradiction; cbn in LK.
    + destruct (Nat.ltb_spec i G) as [IG|IG].
      * destruct (q_lock (s_grp st i)) as [v|] eqn:QI.
        -- apply (IH i v); [lia | exact QI].
        -- exists u. split; [rewrite E; reflexivity|]. exists (CGo 0). unfold step, free_lock. rewrite E, QI.
           destruct (Nat.ltb_spec i G); [|lia]. eexists. reflexivity.
      * exists u. split; [rewrite E; reflexivity|]. exists (CGo 0). unfold step. rewrite E.
        destruct (Nat.ltb_spec i G); [lia|]. eexists. reflexivity.
    + exists u. split; [rewrite E; reflexivity|]. exists (CGo 0). unfold step. rewrite E.
      destruct (i <? G); [destruct (_ && _)|]; eexists; reflexivity.
    + exists u. split; [rewrite E; reflexivity|]. exists (CGo 0). unfold step. rewrite E.
      destruct (i <? G); eexists; reflexivity.
Qed.

Lemma in_x_inside : forall p, in_x p = true -> inside p = true.
Proof. intros p H. destruct p; cbn in *; congruence. Qed.

Lemma outcome_ok : forall st t c, step G workers st t c <> Abort -> step G workers st t c <> Blocked ->
  exists st', step G workers st t c = Ok st'.
Proof. intros st t c H1 H2. destruct (step G workers st t c) as [st'| |]; [eauto | congruence | congruence]. Qed.

Lemma progress : forall st t, Inv st -> inside (s_pc st t) = true ->
  (forall g, s_pc st t = StopL g -> q_wait (s_grp st g) = 0) ->
  exists u, inside (s_pc st u) = true /\ moves st u.
Proof.
  intros st t IV IT HS. pose proof (i_3 st IV) as I3.
  assert (HELD : forall g, q_lock (s_grp st g) <> None -> exists u, inside (s_pc st u) = true /\ moves st u).
  { intros g Q. destruct (q_lock (s_grp st g)) as [v|] eqn:QG; [|congruence].
    destruct (held_moves st I3 (G - g) g v (le_n _) QG) as (u & X & Y). exists u. split; [apply in_x_inside|]; assumption. }
  assert (ME : forall c, step G workers st t c <> Blocked -> exists u, inside (s_pc st u) = true /\ moves st u).
  { intros c B. exists t. split; [exact IT|]. exists c. apply outcome_ok; [apply no_abort; assumption | exact B]. }
  destruct (s_pc st t) eqn:E; try discriminate IT.
  - destruct (q_lock (s_grp st g)) eqn:Q; [apply (HELD g); congruence|].
    apply (ME (CGo (List.hd 0 (q_sleep (s_grp st g))))). unfold step, free_lock. rewrite E, Q.
    destruct (link _ _ _ _) as [[heap q]|] eqn:LK; [|discriminate]. apply link_fields in LK. destruct LK as (F & _).
    unfold signal. rewrite F. destruct (q_sleep (s_grp st g)) as [|x l]; [discriminate|].
    cbn [List.hd]. unfold mem. cbn [existsb]. rewrite Nat.eqb_refl. discriminate.
  - destruct (q_lock (s_grp st g)) eqn:Q; [apply (HELD g); congruence|].
    apply (ME (CGo 0)). unfold step, free_lock. rewrite E, Q. destruct (get_next _ _) as [[[a|] q]|]; discriminate.
  - apply (ME (CGo 0)). unfold step. rewrite E. destruct (s_heap st a); discriminate.
  - apply (ME CFinish). unfold step. rewrite E. discriminate.
  - apply (ME (CGo 0)). unfold step. rewrite E. destruct (sub_exec _); discriminate.
  - apply (ME (CGo 0)). unfold step. rewrite E. destruct (s_heap st a); discriminate.
  - apply (ME (CGo 0)). unfold step. rewrite E. destruct (s_heap st a); discriminate.
  - destruct (q_lock (s_grp st g)) eqn:Q; [apply (HELD g); congruence|].
    assert (WT : forall q, worker_turn st t g q <> Blocked).
    { intros q. unfold worker_turn. destruct (q_stop q); [discriminate|].
      destruct (get_next _ _) as [[[a|] q']|]; discriminate. }
    apply (ME (CGo 0)). unfold step, free_lock. rewrite E, Q. destruct fin0; [|apply WT].
    destruct (sub_exec _); [apply WT | discriminate].
  - destruct (Nat.ltb_spec i G) as [IG|IG].
    + destruct (q_lock (s_grp st i)) eqn:Q; [apply (HELD i); congruence|].
      apply (ME (CGo 0)). unfold step, free_lock. rewrite E, Q. destruct (i <? G); discriminate.
    + apply (ME (CGo 0)). unfold step. rewrite E. destruct (Nat.ltb_spec i G); [lia | discriminate].
  - apply (ME (CGo 0)). unfold step. rewrite E. destruct (i <? G); [destruct (_ && _)|]; discriminate.
  - apply (ME (CGo 0)). unfold step. rewrite E. destruct (i <? G); discriminate.
  - destruct (q_lock (s_grp st g)) eqn:Q; [apply (HELD g); congruence|].
    apply (ME (CGo 0)). unfold step, free_lock. rewrite E, Q. cbv zeta.
    destruct (q_head (s_grp st g)), (q_tail (s_grp st g)), (q_wait (s_grp st g)); discriminate.
Qed.

(** One thread alone can run everything that waits in a group. *)
Fixpoint serve (n t g : nat) : list (nat * choice) :=
  match n with
  | 0 => []
  | S n' => [(t, CPerf g); (t, CGo 0); (t, CGo 0); (t, CFinish); (t, CGo 0); (t, CGo 0)] ++ serve n' t g
  end.

Lemma run_app : forall s1 s2 st, run G workers (s1 ++ s2) st =
  match run G workers s1 st with Ok st' => run G workers s2 st' | Blocked => Blocked | Abort => Abort end.
Proof.
  induction s1 as [|[t c] s1 IH]; intros s2 st; [reflexivity|]. cbn. destruct (step G workers st t c); auto.
Qed.

Lemma run_reach : forall s st st', reach G workers st -> run G workers s st = Ok st' -> reach G workers st'.
Proof.
  induction s as [|[t c] s IH]; intros st st' R H; cbn in H; [injection H as <-; exact R|].
  destruct (step G workers st t c) eqn:E; [|eauto|discriminate]. eapply IH; [|exact H]. eapply reach_step; eassumption.
Qed.

Lemma serve_all : forall n t g st, reach G workers st -> g < G -> s_pc st t = Out ->
  q_lock (s_grp st g) = None -> q_wait (s_grp st g) = n ->
  exists st', run G workers (serve n t g) st = Ok st' /\ s_pc st' t = Out /\ q_wait (s_grp st' g) = 0 /\
    (forall x, In x (s_done st) -> In x (s_done st')) /\
    (forall q x, replay (q_hist (s_grp st g)) [] = Some q -> In x q -> In x (s_done st')).
Proof.
  induction n as [|n IH]; intros t g st RE GL EP EL EW.
  - exists st. repeat split; try assumption; auto. intros q x HQ HX. exfalso.
    destruct (inv_reach st RE) as [_ (A & L & I1) _ _ _ _]. pose proof (l_h A L st I1 g) as X. rewrite HQ in X.
    injection X as ->. pose proof (l_w A L st I1 g) as Y. rewrite EW in Y. destruct (L g); [contradiction | discriminate].
  - destruct (inv_reach st RE) as [I0 (A & L & I1) _ _ _ _].
    pose proof (l_w A L st I1 g) as LW. rewrite EW in LW. destruct (L g) as [|a r] eqn:EQL; [discriminate|].
    pose proof (l_ch A L st I1 g) as LC. rewrite EQL in LC. destruct LC as [(nd & N1 & N2) LC].
    destruct (get_next (s_heap st) (s_grp st g)) as [[[b|] q']|] eqn:GN.
    2: { apply gn_none in GN. destruct GN as [_ X]. lia. }
    2: { exfalso. revert GN. apply (gn_ok _ _ (L g)); [apply (l_hd A L st I1) | apply (l_tl A L st I1) | apply (l_w A L st I1) | apply (l_ch A L st I1)]. }
    pose proof (gn_some _ _ _ _ (L g) (l_hd A L st I1 g) (l_tl A L st I1 g) (l_w A L st I1 g) (l_ch A L st I1 g) GN) as (r' & ER & EQ).
    rewrite EQL in ER. injection ER as <- <-.
    assert (S6 : exists st1, run G workers [(t, CPerf g); (t, CGo 0); (t, CGo 0); (t, CFinish); (t, CGo 0); (t, CGo 0)] st = Ok st1 /\
       s_pc st1 t = Out /\ q_lock (s_grp st1 g) = None /\ q_wait (s_grp st1 g) = n /\
       q_hist (s_grp st1 g) = q_hist (s_grp st g) ++ [Pop (n_arg nd)] /\ s_done st1 = s_done st ++ [n_arg nd]).
    { remember (set_pc st t (PerfL g)) as s1 eqn:D1.
      assert (E1 : step G workers st t (CPerf g) = Ok s1).
      { unfold step. rewrite EP, (proj2 (Nat.ltb_lt g G) GL), D1. reflexivity. }
      remember (set_pc (set_grp s1 g (add_exec q')) t (Start g a false)) as s2 eqn:D2.
      assert (E2 : step G workers s1 t (CGo 0) = Ok s2).
      { rewrite D2, D1. unfold step. cbn [s_pc set_pc]. rewrite upd_same. unfold free_lock. cbn [s_grp s_heap set_pc].
        rewrite EL, GN. reflexivity. }
      remember (St (s_heap s2) (s_grp s2) (upd (s_pc s2) t (Run (Jb g a (n_arg nd) false))) (s_calls s2)
                   (s_started s2 ++ [n_arg nd]) (s_done s2)) as s3 eqn:D3.
      assert (E3 : step G workers s2 t (CGo 0) = Ok s3).
      { rewrite D3. unfold step. replace (s_pc s2 t) with (Start g a false) by (rewrite D2; cbn; rewrite upd_same; reflexivity).
        replace (s_heap s2 a) with (Some nd) by (rewrite D2, D1; cbn; symmetry; exact N1). reflexivity. }
      remember (St (s_heap s3) (s_grp s3) (upd (s_pc s3) t (RanFg g a)) (s_calls s3)
                   (s_started s3) (s_done s3 ++ [n_arg nd])) as s4 eqn:D4.
      assert (E4 : step G workers s3 t CFinish = Ok s4).
      { rewrite D4. unfold step. replace (s_pc s3 t) with (Run (Jb g a (n_arg nd) false)) by (rewrite D3; cbn; rewrite upd_same; reflexivity).
        reflexivity. }
      assert (GG : s_grp s4 g = add_exec q') by (rewrite D4, D3, D2; cbn; rewrite upd_same; reflexivity).
      destruct (sub_exec (add_exec q')) as [q5|] eqn:SE.
      2: { unfold sub_exec in SE. cbn [add_exec q_exec] in SE. rewrite Nat.add_1_r in SE. discriminate. }
      remember (set_pc (set_grp s4 g q5) t (FreeFg a)) as s5 eqn:D5.
      assert (E5 : step G workers s4 t (CGo 0) = Ok s5).
      { rewrite D5. unfold step. replace (s_pc s4 t) with (RanFg g a) by (rewrite D4; cbn; rewrite upd_same; reflexivity).
        rewrite GG, SE. reflexivity. }
      remember (set_pc (set_heap s5 a None) t Out) as s6 eqn:D6.
      assert (E6 : step G workers s5 t (CGo 0) = Ok s6).
      { rewrite D6. unfold step. replace (s_pc s5 t) with (FreeFg a) by (rewrite D5; cbn; rewrite upd_same; reflexivity).
        replace (s_heap s5 a) with (Some nd) by (rewrite D5, D4, D3, D2, D1; cbn; symmetry; exact N1). reflexivity. }
      exists s6. split; [cbn [run]; rewrite E1, E2, E3, E4, E5, E6; reflexivity|].
      apply sub_fields in SE. destruct SE as (Q1 & Q2 & Q3 & Q4 & Q5 & Q6 & Q7 & Q8).
      assert (G6 : s_grp s6 g = q5) by (rewrite D6, D5; cbn; rewrite upd_same; reflexivity).
      rewrite G6, Q7, Q3, Q4, EQ. cbn. repeat split.
      - rewrite D6. cbn. apply upd_same.
      - exact EL.
      - cbn in LW. lia.
      - unfold arg. rewrite N1. reflexivity.
      - rewrite D6, D5, D4, D3, D2, D1. reflexivity. }
    destruct S6 as (st1 & R1 & P1 & L1 & W1 & H1 & D1).
    destruct (IH t g st1 (run_reach _ _ _ RE R1) GL P1 L1 W1) as (st2 & R2 & P2 & W2 & D2 & Q2).
    exists st2. split; [|split; [exact P2 | split; [exact W2 | split]]].
    + change (serve (S n) t g) with ([(t, CPerf g); (t, CGo 0); (t, CGo 0); (t, CFinish); (t, CGo 0); (t, CGo 0)] ++ serve n t g).
      rewrite run_app, R1. exact R2.
    + intros x Hx. apply D2. rewrite D1. apply in_app_iff. left. exact Hx.
    + intros q x HQ HX. pose proof (l_h A L st I1 g) as LH. rewrite EQL in LH. cbn in LH.
      replace (arg (s_heap st) a) with (n_arg nd) in LH by (unfold arg; rewrite N1; reflexivity).
      rewrite HQ in LH. injection LH as ->. destruct HX as [<-|HX].
      * apply D2. rewrite D1. apply in_app_iff. right. left. reflexivity.
      * eapply Q2; [|exact HX]. rewrite H1, replay_app, HQ. cbn. rewrite Nat.eqb_refl. reflexivity.
Qed.

End Machine.
