(** Scans beside insertions read the table in pieces. *)
From Coq Require Import List Arith Bool Lia Sorting.Sorted.
Import ListNotations.
From Verif Require Import CBtree CBtreeSpec CBtreeInv CBtreeSplit CBtreeProofs CBtreeLin CBtreeRest CScan CScanSpec.
Local Open Scope nat_scope.

(** ** Lists. *)
Lemma sorted_tail : forall (k : nat) (v : list nat) es x, StronglySorted lt (map fst ((k, v) :: es)) -> In x es -> k < fst x.
Proof.
  intros k v es x H Hx. cbn in H. inversion H as [|? ? _ F]; subst. rewrite Forall_forall in F. apply F. apply in_map; auto.
Qed.

Lemma filter_none : forall A (f : A -> bool) l, (forall x, In x l -> f x = false) -> filter f l = [].
Proof. induction l as [|a l IH]; cbn; auto. intros H. rewrite (H a) by auto. apply IH. auto. Qed.
Lemma filter_all : forall A (f : A -> bool) l, (forall x, In x l -> f x = true) -> filter f l = l.
Proof. induction l as [|a l IH]; cbn; auto. intros H. rewrite (H a) by auto. f_equal. apply IH. auto. Qed.

Lemma below_mono : forall hi k x, below hi k = false -> k < x -> below hi x = false.
Proof. intros [h|] k x; cbn [below]; [|discriminate]. rewrite !Nat.ltb_ge. lia. Qed.

Lemma cut_upto : forall hi es, StronglySorted lt (map fst es) ->
  firstn (upto hi es) es = filter (fun e => below hi (fst e)) es /\
  skipn (upto hi es) es = filter (fun e => negb (below hi (fst e))) es.
Proof.
  intros hi. unfold upto. induction es as [|[k v] es IH]; intros S; [split; reflexivity|].
  pose proof (sorted_tail k v es) as ST. cbn [filter fst].
  destruct (below hi k) eqn:E; cbn [negb length firstn skipn].
  - cbn in S. inversion S; subst. destruct IH as [I1 I2]; auto. rewrite I1, I2. split; reflexivity.
  - assert (Z : forall x, In x es -> below hi (fst x) = false) by (intros x Hx; eapply below_mono; eauto).
    rewrite filter_none by auto. cbn. split; auto. f_equal. symmetry. apply filter_all. intros x Hx. rewrite Z; auto.
Qed.

Lemma below_under : forall hi k, below hi k = true <-> under hi k.
Proof. intros [h|] k; cbn [below under]; [apply Nat.ltb_lt|tauto]. Qed.

(** ** What is known of the tree for a scan. *)
Definition hi_in (u hi : option nat) : Prop :=
  match hi, u with Some h, Some z => h < z | None, Some _ => False | _, None => True end.
Definition geo (lo hi : option nat) : Prop := match lo, hi with Some l, Some h => l <= h | _, _ => True end.

Section OK.
Variables (ef : nat -> node) (G : ghost) (hi : option nat).

Definition inqo (t : option nat) (a : nat) : Prop := exists h l u, G a = Some (h, l, u) /\ geo l t /\ hi_in u t.
Definition inlo (t : option nat) (a : nat) : Prop := exists l u, G a = Some (0, l, u) /\ geo l t /\ hi_in u t.
Definition inl (x a : nat) : Prop := exists l u, G a = Some (0, l, u) /\ inr l u x.
Definition lb (a x : nat) : Prop := exists u, G a = Some (0, Some x, u).

Definition snapok (e : snap) : Prop :=
  e_idx e = upto hi (e_es e) /\
  match e_nx e with Some n => exists z, lb n z /\ hi_in (Some z) hi | None => True end.
Definition after (y : nat) (e : snap) : Prop :=
  snapok e /\ exists z, lb (e_addr e) z /\ y <= z /\ upper z hi.
Definition exact (c : nat) (e : snap) : Prop :=
  e_idx e = upto hi (e_es e) /\ exists pv l u, ef c = Leaf (e_es e) pv (e_nx e) /\ G c = Some (0, l, u) /\ hi_in u hi.
(** The end is the leaf [c], or right of it. *)
Definition endok (c : nat) (e : snap) : Prop :=
  if c =? e_addr e then exact c e else exists l u, G c = Some (0, l, Some u) /\ after u e.

(** A scan back, which has read what is not below [top], is at the end leaf, or left of it;
    [a] is a leaf left of [y]. *)
Definition bend (c : nat) (u : option nat) (e : snap) (top : option nat) : Prop :=
  (c = e_addr e /\ top = hi /\ exact c e) \/ (exists y z, top = Some y /\ u = Some y /\ lb (e_addr e) z /\ y <= z).
Definition leftof (a y : nat) : Prop :=
  a <> 0 /\ exists la ua, G a = Some (0, la, ua) /\ match la with Some l => l < y | None => True end.
Definition fits (u top : option nat) : Prop := forall k, under top k -> lt_hi u k.

Variables (d : dir) (lo : nat).
Notation t := (tgt d lo hi).

Definition wok (w : where_) (x : option nat) : Prop :=
  match w with
  | Init c => x = t /\ inlo t c
  | Again b => d = Fwd /\ exists y, x = Some y /\ lb b y /\ upper y hi
  end.

Definition pok (p : spc) (x : option nat) : Prop :=
  match p with
  | S0 => x = t
  | S1 a | S2b _ a => x = t /\ inqo t a
  | S2 a ix => x = t /\ inqo t a /\ exists h ps, ef a = Index h ps /\ ix = findo t ps
  | S3 c => x = t /\ inlo t c
  | E0 w => wok w x
  | E1 w a | E3 w _ a => wok w x /\ inqo hi a
  | E2 w a ix => wok w x /\ inqo hi a /\ exists h ps, ef a = Index h ps /\ ix = findo hi ps
  | S4 c e => x = t /\ inlo t c /\ endok c e /\ (d = Bwd -> c = e_addr e)
  | SV c ix e => d = Fwd /\ exists y, x = Some y /\ inl y c /\ upper y hi /\ endok c e /\ ix = upto (Some y) (entries (ef c))
  | SN b e | SC b e => d = Fwd /\ exists y, x = Some y /\ lb b y /\ after y e
  | BV c ix e => d = Bwd /\ exists top l u, x = clamp lo top /\ G c = Some (0, l, u) /\ ix = upto top (entries (ef c)) /\
      geo l top /\ fits u top /\ bend c u e top
  | BN a b e | BW a b e => d = Bwd /\ exists y z, x = Some (Nat.max lo y) /\ lb b y /\ leftof a y /\ lb (e_addr e) z /\ y <= z
  | SD c => x = match d with Fwd => hi | Bwd => Some lo end
  end.
End OK.

Definition sok (ef : nat -> node) (G : ghost) (sc : scn) (sp : sst) : Prop :=
  match sc with
  | Off => sp = SOff
  | On d lo hi acc p => upper lo hi /\ exists x, sp = SRun d lo hi x acc /\ pok ef G hi d lo p x
  end.

(** Kept by the steps of threads. *)
Lemma sok_ext : forall ef G ef' G' sc sp,
  (forall a, In a (sreads sc) -> ef' a = ef a /\ G' a = G a) ->
  (forall h l u, G 0 = Some (h, l, u) -> l = None) ->
  (forall a l hi, a <> 0 -> G a = Some (0, l, hi) -> exists hi', G' a = Some (0, l, hi')) ->
  sok ef G sc sp -> sok ef' G' sc sp.
Proof.
  intros ef G ef' G' [|d lo hi acc p] sp R N0 F; cbn [sok]; auto. intros [L (x & E & P)]. split; auto. exists x. split; auto. clear E.
  assert (F1 : forall a y, lb G a y -> lb G' a y).
  { intros a y (u & H). destruct (F a (Some y) u) as (u' & H'); auto; [|exists u'; auto]. intros ->. apply N0 in H. discriminate. }
  assert (F2 : forall e, snapok G hi e -> snapok G' hi e).
  { intros e [H1 H2]. split; auto. destruct (e_nx e) as [n|]; auto. destruct H2 as (z & H2 & H3). exists z. auto. }
  assert (F3 : forall y e, after G hi y e -> after G' hi y e).
  { intros y e [H1 (z & H2 & H3)]. split; auto. exists z. auto. }
  assert (F4 : forall a y, leftof G a y -> leftof G' a y).
  { intros a y (A0 & la & ua & Ga & H). split; auto. destruct (F a la ua A0 Ga) as (u' & H'). exists la, u'. auto. }
  assert (R1 : forall a, In a (sreads (On d lo hi acc p)) -> G' a = G a) by (intros a Ha; apply R; auto).
  assert (R2 : forall a, In a (sreads (On d lo hi acc p)) -> ef' a = ef a) by (intros a Ha; apply R; auto).
  assert (Q2 : forall t a, In a (sreads (On d lo hi acc p)) -> inqo G t a -> inqo G' t a).
  { intros t a Ha H. unfold inqo. rewrite R1; auto. }
  assert (Q2' : forall t a, In a (sreads (On d lo hi acc p)) -> inlo G t a -> inlo G' t a).
  { intros t a Ha H. unfold inlo. rewrite R1; auto. }
  assert (Q3 : forall y a, In a (sreads (On d lo hi acc p)) -> inl G y a -> inl G' y a).
  { intros y a Ha H. unfold inl. rewrite R1; auto. }
  assert (Q4' : forall c e, In c (sreads (On d lo hi acc p)) -> exact ef G hi c e -> exact ef' G' hi c e).
  { intros c e Hc. unfold exact. rewrite R1, R2; auto. }
  assert (Q4 : forall c e, In c (sreads (On d lo hi acc p)) -> endok ef G hi c e -> endok ef' G' hi c e).
  { intros c e Hc. unfold endok. destruct (c =? e_addr e); auto.
    rewrite R1 by auto. intros (l & u & H1 & H2). exists l, u. auto. }
  assert (Q5 : forall w, (forall c, In c (held w) -> In c (sreads (On d lo hi acc p))) -> wok G hi d lo w x -> wok G' hi d lo w x).
  { intros [c|b] H; cbn [wok].
    - intros [H1 H2]. split; auto. apply Q2'; auto. apply H. cbn. auto.
    - intros (H0 & y & H1 & H2 & H3). split; auto. exists y. auto. }
  destruct p; cbn [pok sreads In] in *.
  - auto.
  - destruct P. split; auto.
  - destruct P as (P1 & P2 & h & ps & P3 & P4). split; auto. split; auto. exists h, ps. rewrite R2; auto.
  - destruct P. split; auto.
  - destruct P. split; auto.
  - auto.
  - destruct P. split; auto.
  - destruct P as (P1 & P2 & h & ps & P3 & P4). split; auto. split; auto. exists h, ps. rewrite R2; auto.
  - destruct P. split; auto.
  - destruct P as (P1 & P2 & P3 & P4). split; auto.
  - destruct P as (P0 & y & P1 & P2 & P3 & P4 & P5). split; auto. exists y. rewrite R2 by auto. split; auto. split; auto.
  - destruct P as (P0 & y & P1 & P2 & P3). split; auto. exists y. auto.
  - destruct P as (P0 & y & P1 & P2 & P3). split; auto. exists y. auto.
  - destruct P as (P0 & top & l & u & P1 & P2 & P3 & P4 & P5 & P6). split; auto. exists top, l, u. rewrite R1, R2 by auto.
    split; auto. split; auto. split; auto. split; auto. split; auto.
    destruct P6 as [(Q6 & Q7 & Q8)|(y & z & Q6 & Q7 & Q8 & Q9)]; [left; auto|right]. exists y, z. auto.
  - destruct P as (P0 & y & z & P1 & P2 & P3 & P4 & P5). split; auto. exists y, z. auto 6.
  - destruct P as (P0 & y & z & P1 & P2 & P3 & P4 & P5). split; auto. exists y, z. auto 6.
  - auto.
Qed.

(** ** The steps of scans. *)
Lemma upto_le : forall y x es, y < x -> upto (Some y) es <= upto (Some x) es.
Proof.
  intros y x es L. unfold upto. cbn [below]. induction es as [|[k v] es IH]; auto. cbn [filter fst].
  destruct (k <? y) eqn:E1; destruct (k <? x) eqn:E2; cbn [length]; try lia.
  apply Nat.ltb_lt in E1. apply Nat.ltb_ge in E2. lia.
Qed.

Section SCAN.
Variables (s : state) (ef : nat -> node) (G : ghost) (B : nat -> nat) (m : table).
Hypothesis CO : core s ef G B m.
Hypothesis FU : forall a, full (pg s a).
Let T : tree ef G B m (nxt s) := c_tree _ _ _ _ _ CO.

(** A page nobody has locked. *)
Definition open (a : nat) : Prop := a < nxt s /\ forall i t, nth_error (ths s) i = Some t -> ~ In a (grants t).

Lemma open_ef : forall a, open a -> ef a = pg s a.
Proof.
  intros a [L H]. apply (c_e2 _ _ _ _ _ CO); auto. intros i t Hi. destruct (pend (pg s) t a) eqn:E; auto.
  apply pend_grants in E. exfalso. eapply H; eauto.
Qed.

Lemma free_open : forall a, a < nxt s -> free locks a s = true -> open a.
Proof.
  intros a L F. split; auto. intros i t Hi Hg. apply grants_locks in Hg. unfold free in F. rewrite forallb_forall in F.
  specialize (F t (nth_error_In _ _ Hi)). apply negb_true_iff in F. apply mem_in in Hg. congruence.
Qed.

(** Two leaves: the one with the greater key is right of the other. *)
Lemma leaf_right : forall a b la ua lb ub x y, G a = Some (0, la, ua) -> G b = Some (0, lb, ub) -> a <> b ->
  inr la ua x -> x <= y -> geo lb (Some y) -> lt_hi ub y ->
  exists u z, ua = Some u /\ lb = Some z /\ u <= z.
Proof.
  intros a b la ua lb ub x y Ga Gb N [R1 R2] L Hl Hu.
  assert (NB : ~ inr lb ub x).
  { intros R. apply N. eapply (t_uniq _ _ _ _ _ T); eauto. split; auto. }
  assert (NA : ~ inr la ua y).
  { intros R. apply N. eapply (t_uniq _ _ _ _ _ T); eauto. split; destruct lb; cbn in *; auto. }
  destruct lb as [z|].
  - destruct ua as [u|].
    + exists u, z. split; auto. split; auto. cbn in Hl. destruct (le_lt_dec u z) as [|Lt]; auto. exfalso.
      (* z would be in both *)
      apply N. eapply (t_uniq _ _ _ _ _ T _ _ 0 _ _ _ _ (Nat.max x z) Ga Gb).
      * split; [destruct la; cbn in *; lia|]. cbn in *. lia.
      * split; cbn; [lia|]. destruct ub; cbn in *; lia.
    + exfalso. apply NA. split; cbn; auto. destruct la; cbn in *; lia.
  - exfalso. apply NB. split; cbn; auto. destruct ub; cbn in *; lia.
Qed.

(** The same with the end of the keys for [y]. *)
Lemma leaf_last : forall a b la ua lb x, G a = Some (0, la, ua) -> G b = Some (0, lb, None) -> a <> b ->
  inr la ua x -> exists u z, ua = Some u /\ lb = Some z /\ u <= z.
Proof.
  intros a b la ua lb x Ga Gb N R.
  eapply (leaf_right a b la ua lb None x (Nat.max x match lb with Some z => z | None => 0 end)); eauto.
  - lia.
  - destruct lb; cbn; auto. lia.
  - cbn. auto.
Qed.

Lemma end_right : forall hi c a lc uc la ua x, G c = Some (0, lc, uc) -> inr lc uc x -> upper x hi ->
  G a = Some (0, la, ua) -> geo la hi -> hi_in ua hi -> c <> a ->
  exists u z, uc = Some u /\ la = Some z /\ u <= z /\ upper z hi.
Proof.
  intros hi c a lc uc la ua x Gc R U Ga H1 H2 N. destruct hi as [h|].
  - destruct (leaf_right c a lc uc la ua x h Gc Ga N R U H1) as (u & z & E1 & E2 & L).
    + destruct ua; cbn in *; auto.
    + subst. exists u, z. cbn in *. auto.
  - destruct ua as [ua|]; [destruct H2|]. destruct (leaf_last c a lc uc la x Gc Ga N R) as (u & z & E1 & E2 & L).
    subst. exists u, z. cbn. auto.
Qed.

Lemma lb_in : forall a x, lb G a x -> inl G x a.
Proof.
  intros a x (u & Ga). exists (Some x), u. split; auto. destruct (t_ne _ _ _ _ _ T _ _ _ _ Ga) as (k & K1 & K2).
  split; cbn in *; [lia|]. destruct u; cbn in *; lia.
Qed.

(** The child for the upper bound. *)
Lemma findo_kid : forall hi h ps lo u a, G a = Some (S h, lo, u) -> kids G B h lo u ps -> ps <> [] ->
  StronglySorted lt (map fst ps) -> geo lo hi -> hi_in u hi ->
  exists pk c, nth_error ps (findo hi ps) = Some (pk, c) /\ exists l' u', G c = Some (h, l', u') /\ geo l' hi /\ hi_in u' hi.
Proof.
  intros [k|] h ps lo u a Ga K NE S H1 H2; cbn [findo].
  - destruct (slot_nth k ps NE) as (pk & c & E). fold (slot k ps). exists pk, c. split; auto.
    destruct (slot_kid G B h ps lo u k pk c K) as (l' & u' & G1 & [R1 R2] & _); auto.
    + split; [destruct lo; cbn in *; auto|destruct u; cbn in *; auto].
    + exists l', u'. split; auto.
  - destruct u as [u|]; [destruct H2|]. clear Ga S H1. revert lo K. induction ps as [|[p c] r IH]; [tauto|]. intros lo K.
    cbn [kids] in K. destruct K as [[K1 _] K2]. destruct r as [|[p2 c2] r].
    + exists p, c. split; auto. exists lo, None. cbn in *. destruct lo; auto.
    + destruct (IH ltac:(discriminate) _ K2) as (pk & c' & E & X). exists pk, c'. split; auto.
      cbn [length] in *. replace (Datatypes.S (Datatypes.S (length r)) - 1) with (Datatypes.S (Datatypes.S (length r) - 1)) by lia. cbn [nth_error].
      exact E.
Qed.

(** What a leaf has from a key on. *)
Lemma leaf_piece : forall c l u x es pv n hi, G c = Some (0, l, u) -> ef c = Leaf es pv n -> ge_lo l x -> full (ef c) ->
  (forall k, under hi k -> x <= k -> lt_hi u k) -> upper x hi ->
  piece m x hi (skipn (upto (Some x) es) (firstn (upto hi es) es)).
Proof.
  intros c l u x es pv n hi Gc Ec Rx Fc HU UX.
  destruct (node_ok_leaf _ _ _ _ _ T _ _ _ _ _ _ _ Gc Ec) as (_ & S & I & V & _).
  destruct (cut_upto hi es S) as [E1 _]. rewrite E1.
  set (es' := filter (fun e => below hi (fst e)) es).
  assert (S' : StronglySorted lt (map fst es')) by (apply sorted_filter; auto).
  assert (EU : upto (Some x) es = upto (Some x) es').
  { unfold upto, es'. f_equal. clear -UX. induction es as [|[k v] es IH]; auto. cbn [filter fst below].
    destruct (k <? x) eqn:E.
    - assert (below hi k = true) as ->.
      { apply below_under. apply Nat.ltb_lt in E. destruct hi; cbn in *; auto. lia. }
      cbn [filter fst below]. rewrite E. cbn [length]. f_equal. auto.
    - destruct (below hi k); cbn [filter fst below]; [rewrite E|]; auto. }
  rewrite EU. destruct (cut_upto (Some x) es' S') as [_ E2]. rewrite E2. split; [apply sorted_filter; auto|].
  intros k v. rewrite filter_In. unfold es'. rewrite filter_In. cbn [fst below]. rewrite below_under, negb_true_iff, Nat.ltb_ge.
  split.
  - intros ((H1 & H2) & H3). split; auto. split; auto.
    assert (In k (map fst es)) by (apply in_map_iff; exists (k, v); auto).
    destruct (I k) as [R _]; auto. split.
    + rewrite <- (V k R). symmetry. apply getk_in; auto.
    + apply (Fc k v). rewrite Ec. cbn. auto.
  - intros (H1 & H2 & H3 & H4). split; auto. split; auto.
    assert (R : inr l u k).
    { split; [destruct l; cbn in *; auto; lia|]. apply HU; auto. }
    subst v. rewrite <- (V k R) in *. apply in_getk. auto.
Qed.

Lemma upto_none : forall es, upto None es = length es.
Proof. intros es. unfold upto. f_equal. cbn. apply filter_all. auto. Qed.
Lemma upto_all : forall hi es, (forall k, In k (map fst es) -> under hi k) -> upto hi es = length es.
Proof.
  intros hi es H. unfold upto. f_equal. apply filter_all. intros [k v] Hx. apply below_under. apply H. apply in_map_iff. exists (k, v). auto.
Qed.
Lemma upto_zero : forall x es, (forall k, In k (map fst es) -> x <= k) -> upto (Some x) es = 0.
Proof.
  intros x es H. unfold upto. rewrite filter_none; auto. intros [k v] Hx. cbn. apply Nat.ltb_ge. apply H. apply in_map_iff. exists (k, v). auto.
Qed.

(** The same for a scan back. *)
Lemma back_piece : forall c l u x es pv n top, G c = Some (0, l, u) -> ef c = Leaf es pv n -> ge_lo l x -> full (ef c) ->
  fits u top -> piece m x (clamp x top) (skipn (upto (Some x) es) (firstn (upto top es) es)).
Proof.
  intros c l u x es pv n top Gc Ec Gx Fc Ft.
  assert (D : upper x top \/ exists y, top = Some y /\ y < x).
  { destruct top as [y|]; cbn; auto. destruct (le_lt_dec x y); eauto. }
  destruct D as [D|(y & -> & Ly)].
  - replace (clamp x top) with top by (destruct top; cbn in *; auto; f_equal; lia). eapply leaf_piece; eauto.
  - cbn [clamp]. rewrite Nat.max_l by lia. rewrite skipn_all2.
    + split; [constructor|]. intros k v. split; [intros []|]. cbn. lia.
    + rewrite firstn_length. pose proof (upto_le y x es). lia.
Qed.

Lemma inlo_inl : forall x a, inlo G (Some x) a <-> inl G x a.
Proof.
  intros x a. split; intros (l & u & Ga & H1 & H2); exists l, u; (split; [auto|]); split; destruct l, u; cbn in *; auto.
Qed.

Definition stepped_scan (sc sc' : scn) (sp : sst) (l : slabel) : Prop :=
  exists sp', sok ef G sc' sp' /\ (forall a, In a (sreads sc') -> In a (sreads sc) \/ open a) /\
    ((l = STau /\ sp' = sp) \/ scan_step m sp l sp').

Lemma es_eqb_eq : forall l l', es_eqb l l' = true -> l = l'.
Proof.
  assert (L : forall l l', list_eqb l l' = true -> l = l').
  { induction l as [|x l IH]; intros [|y l']; cbn; try discriminate; auto. rewrite andb_true_iff, Nat.eqb_eq.
    intros [-> H]. f_equal. auto. }
  induction l as [|[k v] l IH]; intros [|[k' v'] l']; cbn; try discriminate; auto.
  rewrite !andb_true_iff, Nat.eqb_eq. intros [[-> H] H2]. apply L in H. subst. f_equal. auto.
Qed.
Lemma o_eqb_eq : forall a b, o_eqb a b = true -> a = b.
Proof. intros [x|] [y|]; cbn; try discriminate; auto. rewrite Nat.eqb_eq. congruence. Qed.

Lemma inqo_root : forall t, inqo G t 0.
Proof.
  intros hi. destruct (t_root _ _ _ _ _ T) as (_ & h & G0 & _). exists h, None, None. split; auto. destruct hi; cbn; auto.
Qed.
Lemma root_nx : 0 < nxt s.
Proof. destruct (t_root _ _ _ _ _ T) as (_ & h & G0 & _). eapply (t_lt _ _ _ _ _ T); eauto. Qed.

Lemma sstep_ok : forall oth d lo hi acc p z sc' l sp, sstep s oth d lo hi acc p z = Some (sc', l) ->
  (forall a, In a (sreads (On d lo hi acc p)) -> open a) -> sok ef G (On d lo hi acc p) sp ->
  stepped_scan (On d lo hi acc p) sc' sp l.
Proof.
  intros oth d lo hi acc p z sc' l sp E O [U (x & -> & P)].
  assert (W : forall a, In a (sreads (On d lo hi acc p)) -> ef a = pg s a) by (intros a Ha; apply open_ef; auto).
  pose proof root_nx as R0.
  (* a step that is nothing in the specification *)
  assert (Tau0 : forall q, sc' = On d lo hi acc q -> l = STau -> pok ef G hi d lo q x ->
            (forall a, In a (sreads (On d lo hi acc q)) -> In a (sreads (On d lo hi acc p)) \/ open a) ->
            stepped_scan (On d lo hi acc p) sc' (SRun d lo hi x acc) l).
  { intros q -> -> PQ HR. exists (SRun d lo hi x acc). split; [split; auto; exists x; auto|]. split; auto. }
  destruct p as [|a|a ix|a c|c|w|w a|w a ix|w a c|c e|c ix e|b e|b e|c ix e|a b e|a b e|c]; cbn [sstep pok] in *.
  - (* S0 *) destruct (free locks 0 s) eqn:F; [|discriminate]. injection E as <- <-.
    eapply Tau0; eauto.
    + cbn. split; auto. apply inqo_root.
    + cbn. intros a [<-|[]]. right. apply free_open; auto.
  - (* S1 *) destruct P as [P1 (h & l0 & u & Ga & H1 & H2)]. rewrite <- W in E by (cbn; auto).
    destruct (ef a) as [es pv n|h' ps] eqn:Ea; injection E as <- <-.
    + eapply Tau0; eauto. cbn [pok]. split; auto. exists l0, u. split; auto.
      destruct (node_ok_leaf _ _ _ _ _ T _ _ _ _ _ _ _ Ga Ea) as (-> & _). auto.
    + eapply Tau0; eauto. cbn [pok]. split; auto. split; [exists h, l0, u; auto|]. exists h', ps. auto.
  - (* S2 *) destruct P as (P1 & (h & l0 & u & Ga & H1 & H2) & h' & ps & Ea & ->). rewrite <- W in E by (cbn; auto).
    rewrite Ea in E. cbn [pivots] in E.
    destruct (node_ok_index _ _ _ _ _ T _ _ _ _ _ _ Ga Ea) as (h0 & -> & _ & NE & S & I & K).
    destruct (findo_kid (tgt d lo hi) h0 ps l0 u a Ga K NE S H1 H2) as (pk & c & N & l' & u' & Gc & X1 & X2). rewrite N in E.
    destruct (free locks c s) eqn:F; [|discriminate]. injection E as <- <-.
    eapply Tau0; eauto.
    + cbn [pok]. split; auto. exists h0, l', u'. auto.
    + cbn. intros b [<-|[<-|[]]]; auto. right. apply free_open; auto. eapply (t_lt _ _ _ _ _ T); eauto.
  - (* S2b *) injection E as <- <-. eapply Tau0; eauto. cbn. intros b [<-|[]]. auto.
  - (* S3 *) destruct (free claims c s && negb (has sclaims c oth)); injection E as <- <-.
    + eapply Tau0; eauto.
    + eapply Tau0; eauto; cbn; [tauto|intros a []].
  - (* E0 *) destruct (free locks 0 s) eqn:F; [|discriminate]. injection E as <- <-.
    eapply Tau0; eauto.
    + cbn. split; auto. apply inqo_root.
    + cbn. intros a [<-|H]; auto. right. apply free_open; auto.
  - (* E1 *) destruct P as [Pw (h & la & ua & Ga & H1 & H2)]. rewrite <- W in E by (cbn; auto).
    destruct (ef a) as [es pv n|h' ps] eqn:Ea; injection E as <- <-.
    + destruct (node_ok_leaf _ _ _ _ _ T _ _ _ _ _ _ _ Ga Ea) as (-> & _ & _ & _ & Nx & _).
      assert (SN : snapok G hi (Snap a es n (upto hi es))).
      { split; auto. cbn. destruct n as [n|]; auto. destruct ua as [z0|]; [|destruct Nx]. destruct Nx as (hb & Gn).
        exists z0. split; auto. exists hb. auto. }
      destruct w as [c|b]; cbn [wok] in Pw.
      * destruct Pw as [-> (lc & uc & Gc & Rl & Ru)].
        assert (HR : forall a0, In a0 (sreads (On d lo hi acc (S4 c (Snap a es n (upto hi es))))) ->
                  In a0 (sreads (On d lo hi acc (E1 (Init c) a))) \/ open a0) by (cbn; intros a0 [<-|[]]; auto).
        destruct d; cbn [tgt] in *.
        -- assert (Rc : inr lc uc lo) by (split; destruct lc, uc; cbn in *; auto).
           eapply Tau0; eauto.
           cbn [pok tgt]. split; auto. split; [exists lc, uc; auto|]. split; [|discriminate]. unfold endok. cbn [e_addr].
           destruct (c =? a) eqn:Eca.
           ++ apply Nat.eqb_eq in Eca. subst a. split; auto. exists pv, la, ua. auto.
           ++ apply Nat.eqb_neq in Eca. destruct (end_right hi c a lc uc la ua lo) as (u & z0 & -> & -> & L & Uz); auto.
              exists lc, u. split; auto. split; auto. exists z0. split; auto. exists ua. auto.
        -- assert (c = a) as ->.
           { destruct (Nat.eq_dec c a) as [->|N]; auto. exfalso. destruct hi as [y|]; cbn in *.
             - apply N. apply (t_uniq _ _ _ _ _ T c a 0 _ _ _ _ y Gc Ga); split; auto.
             - destruct uc; [tauto|]. destruct ua; [tauto|].
               destruct (t_ne _ _ _ _ _ T _ _ _ _ Gc) as (k & K). destruct (leaf_last c a lc None la k Gc Ga N K) as (u & z0 & X & _). discriminate. }
           rewrite Gc in Ga. injection Ga as <- <-.
           eapply Tau0; eauto. cbn [pok tgt]. split; auto. split; [exists lc, uc; auto|]. split; [|auto]. unfold endok. cbn [e_addr].
           rewrite Nat.eqb_refl. split; auto. exists pv, lc, uc. auto.
      * destruct Pw as (Ed & y & -> & Lb & Uy). eapply Tau0; eauto.
        -- cbn [pok]. split; auto. exists y. split; auto. split; auto. split; auto. cbn [e_addr].
           destruct (lb_in _ _ Lb) as (lbb & ub & Gb & Rb).
           destruct (Nat.eq_dec b a) as [->|N].
           ++ exists y. auto.
           ++ destruct (end_right hi b a lbb ub la ua y) as (u & z0 & -> & -> & L & Uz); auto.
              exists z0. split; [exists ua; auto|]. split; auto. destruct Rb as [_ Rb]. cbn in Rb. lia.
        -- cbn. intros a0 [].
    + eapply Tau0; eauto. cbn [pok]. split; auto. split; [exists h, la, ua; auto|]. exists h', ps. auto.
  - (* E2 *) destruct P as (Pw & (h & la & ua & Ga & H1 & H2) & h' & ps & Ea & ->). rewrite <- W in E by (cbn; auto).
    rewrite Ea in E. cbn [pivots] in E.
    destruct (node_ok_index _ _ _ _ _ T _ _ _ _ _ _ Ga Ea) as (h0 & -> & _ & NE & S & I & K).
    destruct (findo_kid hi h0 ps la ua a Ga K NE S H1 H2) as (pk & c & N & l' & u' & Gc & X1 & X2). rewrite N in E.
    destruct (free locks c s) eqn:F; [|discriminate]. injection E as <- <-.
    eapply Tau0; eauto.
    + cbn [pok]. split; auto. exists h0, l', u'. auto.
    + cbn. intros b [<-|[<-|Hb]]; auto. right. apply free_open; auto. eapply (t_lt _ _ _ _ _ T); eauto.
  - (* E3 *) injection E as <- <-. eapply Tau0; eauto. cbn. intros b [<-|Hb]; auto.
  - (* S4 *) destruct P as (-> & P2 & P3 & P4). destruct d; cbn [tgt] in *; injection E as <- <-; eapply Tau0; eauto.
    + apply inlo_inl in P2. cbn [pok]. split; auto. exists lo. split; auto. split; auto. split; auto. split; auto. rewrite W by (cbn; auto). auto.
    + destruct P2 as (lc & uc & Gc & Rl & Ru). cbn [pok]. split; auto. exists hi, lc, uc.
      split; [destruct hi; cbn in *; auto; f_equal; lia|]. split; auto. split; [rewrite W by (cbn; auto); auto|]. split; auto. split.
      * intros k Hk. destruct hi, uc; cbn in *; auto; try lia; try tauto.
      * left. split; auto. split; auto. unfold endok in P3. rewrite <- P4, Nat.eqb_refl in P3 by auto. auto.
  - (* SV *) destruct P as (-> & y & -> & (lc & uc & Gc & Rc) & Uy & PE & ->). unfold endok in PE.
    assert (Wc : ef c = pg s c) by (apply W; cbn; auto). rewrite <- Wc in E.
    assert (Fc : full (ef c)) by (rewrite Wc; apply FU).
    destruct (c =? e_addr e) eqn:Ece.
    + injection E as <- <-. destruct PE as [Ei (pv & l' & u' & Ec & Gc' & Hu)]. rewrite Gc in Gc'. injection Gc' as <- <-.
      exists (SRun Fwd lo hi hi (acc ++ skipn (upto (Some y) (entries (ef c))) (firstn (e_idx e) (entries (ef c))))).
      split; [split; auto; exists hi; split; reflexivity|]. split; [intros a Ha; left; exact Ha|]. right.
      apply s_piece; auto; [destruct hi; cbn; auto|]. rewrite Ec, Ei. cbn [entries].
        eapply leaf_piece; eauto; [apply Rc|].
        intros k K1 _. destruct hi as [h|]; destruct uc as [u|]; cbn in *; auto; try lia; try tauto.
    + destruct PE as (l' & u & Gc' & SN & z0 & Lz & Luz & Uz). rewrite Gc in Gc'. injection Gc' as -> ->.
      pose proof (t_ok _ _ _ _ _ T _ _ _ _ Gc) as NO. destruct (ef c) as [es pv n|h ps] eqn:Ec.
      2:{ destruct NO as (h0 & X & _). discriminate. }
      destruct NO as (_ & S & I & V & Nx & _). cbn [nextp entries] in E. destruct n as [b|]; [|discriminate].
      injection E as <- <-. destruct Nx as (hb & Gb).
      exists (SRun Fwd lo hi (Some u) (acc ++ skipn (upto (Some y) es) es)). split; [|split].
      * split; auto. exists (Some u). split; auto. cbn [pok]. split; auto. exists u. split; auto. split; [exists hb; auto|].
        split; auto. exists z0. auto.
      * cbn. intros a [].
      * right. apply s_piece.
        -- destruct Rc as [_ Rc]. cbn in Rc. cbn. lia.
        -- cbn. destruct hi; cbn in *; auto. lia.
        -- replace (skipn (upto (Some y) es) es) with (skipn (upto (Some y) es) (firstn (upto (Some u) es) es)).
           ++ apply (leaf_piece c l' (Some u) y es pv (Some b)); auto; [apply Rc|rewrite Ec; auto|]. destruct Rc as [_ Rc]. cbn in *. lia.
           ++ rewrite (upto_all (Some u)), firstn_all; auto. intros k Hk. destruct (I k Hk) as [[_ X] _]. exact X.
  - (* SN *) destruct P as (-> & y & -> & (u & Gb) & P3). destruct (free locks b s) eqn:F; [|discriminate]. injection E as <- <-.
    eapply Tau0; eauto.
    + cbn [pok]. split; auto. exists y. split; auto. split; auto. exists u. auto.
    + cbn. intros a [<-|[]]. right. apply free_open; auto. eapply (t_lt _ _ _ _ _ T); eauto.
  - (* SC *) destruct P as (-> & y & -> & Lb & SN & z0 & Lz & Ly & Uz). assert (Wb : ef b = pg s b) by (apply W; cbn; auto).
    rewrite <- Wb in E.
    destruct ((b =? e_addr e) && (z || negb (same (ef b) e))) eqn:EB; injection E as <- <-.
    + eapply Tau0; eauto; cbn [pok wok]; [|intros a []]. split; auto. exists y. split; auto. split; auto.
      destruct hi; cbn in *; auto. lia.
    + eapply Tau0; eauto. cbn [pok]. split; auto. exists y. split; auto. split; [apply lb_in; auto|].
      split; [destruct hi; cbn in *; auto; lia|]. destruct Lb as (u & Gb). pose proof (t_ok _ _ _ _ _ T _ _ _ _ Gb) as NO.
      destruct (ef b) as [es pv n|h ps] eqn:Eb; [|destruct NO as (h0 & X & _); discriminate].
      destruct NO as (_ & S & I & V & Nx & _). split.
      * unfold endok. destruct (b =? e_addr e) eqn:Ebe.
        -- cbn [andb] in EB. apply orb_false_iff in EB. destruct EB as [_ EB]. apply negb_false_iff in EB. cbn [same] in EB.
           apply andb_true_iff in EB. destruct EB as [X1 X2]. apply es_eqb_eq in X1. apply o_eqb_eq in X2. subst es n.
           destruct SN as [Si Sn]. split; auto. exists pv, (Some y), u. split; auto. split; auto.
           destruct (e_nx e) as [n|].
           ++ destruct Sn as (z1 & (u1 & Gn) & Hz). destruct u as [u|]; [|destruct Nx]. destruct Nx as (hb & Gn'). rewrite Gn in Gn'.
              injection Gn' as -> _. auto.
           ++ destruct u; [destruct Nx|]. destruct hi; cbn; auto.
        -- apply Nat.eqb_neq in Ebe. destruct (lb_in _ _ Lz) as (l1 & u1 & G1 & R1).
           destruct (lb_in b y) as (l2 & u2 & G2 & R2); [exists u; auto|].
           destruct (leaf_right b (e_addr e) l2 u2 l1 u1 y z0 G2 G1 Ebe R2 Ly) as (u' & z' & -> & -> & L).
           ++ destruct l1; cbn in *; auto. apply R1.
           ++ apply R1.
           ++ rewrite Gb in G2. injection G2 as <- ->. exists (Some y), u'. split; auto. split; auto.
              destruct Lz as (u3 & G3). rewrite G1 in G3. injection G3 as -> ->. exists z0. split; auto. exists u3. auto.
      * cbn [entries]. symmetry. apply upto_zero. intros k Hk. destruct (I k Hk) as [[X _] _]. exact X.
  - (* BV *) destruct P as (-> & top & lc & uc & -> & Gc & -> & Gl & Ft & Be).
    assert (Wc : ef c = pg s c) by (apply W; cbn; auto). rewrite <- Wc in E.
    assert (Fc : full (ef c)) by (rewrite Wc; apply FU). unfold last_leaf in E.
    pose proof (t_ok _ _ _ _ _ T _ _ _ _ Gc) as NO. destruct (ef c) as [es pv n|h ps] eqn:Ec; [|destruct NO as (h0 & X & _); discriminate].
    destruct NO as (_ & S & I & V & _ & Pv & HD). cbn [entries prevp] in E. destruct (t_ne _ _ _ _ _ T _ _ _ _ Gc) as (kc & KC1 & KC2).
    destruct (isnone pv || existsb (fun e0 => fst e0 <=? lo) es) eqn:LL.
    + injection E as <- <-.
      assert (GL : ge_lo lc lo).
      { apply orb_true_iff in LL. destruct LL as [LL|LL].
        - destruct pv; [discriminate|]. destruct lc; [destruct Pv|]. cbn. auto.
        - apply existsb_exists in LL. destruct LL as ([k v] & Hk & Lk). apply Nat.leb_le in Lk. cbn in Lk.
          destruct (I k) as [[X _] _]; [apply in_map_iff; exists (k, v); auto|]. destruct lc; cbn in *; auto. lia. }
      set (L := if _ && _ then _ else _).
      assert (EL : L = rev (skipn (upto (Some lo) es) (firstn (upto top es) es))).
      { unfold L. destruct ((c =? e_addr e) && (upto (Some lo) es =? e_idx e)) eqn:EE; auto.
        apply andb_true_iff in EE. destruct EE as [EE1 EE2]. apply Nat.eqb_eq in EE1, EE2.
        destruct Be as [(_ & -> & Ei & pv' & l' & u' & Ec' & _)|(y & z0 & -> & -> & (u0 & Lz) & Ly)].
        - rewrite Ec in Ec'. injection Ec' as Q _ _. rewrite <- Q in Ei. rewrite <- Ei, <- EE2. rewrite skipn_all2; auto. rewrite firstn_length. lia.
        - exfalso. rewrite <- EE1, Gc in Lz. injection Lz as -> <-. cbn in *. lia. }
      rewrite EL. clear L EL.
      exists (SRun Bwd lo hi (Some lo) (acc ++ rev (skipn (upto (Some lo) es) (firstn (upto top es) es)))).
      split; [split; auto; exists (Some lo); split; reflexivity|]. split; [intros a Ha; left; exact Ha|]. right.
      apply b_piece; auto.
      * destruct top; cbn; auto. lia.
      * eapply back_piece; eauto. rewrite Ec. auto.
    + apply orb_false_iff in LL. destruct LL as [LP LE]. destruct pv as [a|]; [|discriminate]. injection E as <- <-.
      destruct lc as [y'|]; [|destruct Pv]. destruct Pv as (la & Ga).
      assert (GE : forall k, In k (map fst es) -> Nat.max lo y' <= k).
      { intros k Hk. destruct (I k Hk) as [[X _] _]. cbn in X. apply in_map_iff in Hk. destruct Hk as ([k0 v0] & <- & Hk).
        destruct (le_lt_dec (fst (k0, v0)) lo) as [Lk|Lk]; [|cbn in *; lia]. exfalso.
        assert (Z : existsb (fun e0 => fst e0 <=? lo) es = true); [|congruence]. apply existsb_exists. exists (k0, v0). split; auto.
        apply Nat.leb_le. auto. }
      exists (SRun Bwd lo hi (Some (Nat.max lo y')) (acc ++ rev (firstn (upto top es) es))). split; [|split].
      * split; auto. exists (Some (Nat.max lo y')). split; auto. cbn [pok]. split; auto.
        assert (LF : leftof G a y').
        { split.
          - intros ->. destruct (t_root _ _ _ _ _ T) as (_ & h & G0 & _). rewrite Ga in G0. discriminate.
          - exists la, (Some y'). split; auto. destruct la as [l0|]; auto.
            destruct (t_ne _ _ _ _ _ T _ _ _ _ Ga) as (k & K1 & K2). cbn in *. lia. }
        assert (LB : lb G c y') by (exists uc; auto).
        destruct Be as [(-> & _ & _)|(y & z0 & -> & -> & Lz & Ly)].
        -- exists y', y'. auto 6.
        -- exists y', z0. split; auto. split; auto. split; auto. split; auto. cbn in *. lia.
      * cbn. intros a0 [].
      * right. apply b_piece.
        -- lia.
        -- destruct top as [y|]; cbn in *; auto. lia.
        -- replace (firstn (upto top es) es) with (skipn (upto (Some (Nat.max lo y')) es) (firstn (upto top es) es))
             by (rewrite (upto_zero (Nat.max lo y')) by auto; reflexivity).
           replace (clamp lo top) with (clamp (Nat.max lo y') top) by (destruct top; cbn in *; auto; f_equal; lia).
           apply (back_piece c (Some y') uc _ es (Some a) n); auto; [cbn; lia|rewrite Ec; auto].
  - (* BN *) destruct P as (-> & y & z0 & -> & P2 & (A0 & la & ua & Ga & P3) & P4). destruct (free locks a s) eqn:F; [|discriminate].
    injection E as <- <-. eapply Tau0; eauto.
    + cbn [pok]. split; auto. exists y, z0. split; auto. split; auto. split; auto. split; auto. exists la, ua. auto.
    + cbn. intros a0 [<-|[]]. right. apply free_open; auto. eapply (t_lt _ _ _ _ _ T); eauto.
  - (* BW *) destruct P as (-> & y & z0 & -> & (ub & Gb) & (A0 & la & ua & Ga & P3) & P4 & P5).
    assert (Wa : ef a = pg s a) by (apply W; cbn; auto). rewrite <- Wa in E.
    pose proof (t_ok _ _ _ _ _ T _ _ _ _ Ga) as NO. destruct (ef a) as [es pv n|h ps] eqn:Ea; [|destruct NO as (h0 & X & _); discriminate].
    destruct NO as (_ & S & I & V & Nx & _ & HD). cbn [nextp entries] in E. destruct n as [n|]; [|discriminate].
    destruct ua as [y2|]; [|destruct Nx]. destruct Nx as (un & Gn). destruct (n =? b) eqn:Enb.
    + apply Nat.eqb_eq in Enb. subst n. rewrite Gb in Gn. injection Gn as <- <-.
      assert (E' : Some (On Bwd lo hi acc (BV a (length es) e), STau) = Some (sc', l)) by (destruct es; [discriminate|exact E]).
      injection E' as <- <-. clear E. eapply Tau0; eauto. cbn [pok]. split; auto. exists (Some y), la, (Some y).
      split; auto. split; auto. split; [|split; [|split]].
      * rewrite Ea. cbn [entries]. symmetry. apply upto_all. intros k Hk. destruct (I k Hk) as [[_ X] _]. exact X.
      * destruct la; cbn; auto. lia.
      * intros k Hk. exact Hk.
      * right. exists y, z0. auto.
    + apply Nat.eqb_neq in Enb. injection E as <- <-. eapply Tau0; eauto; [|cbn; intros a0 []]. cbn [pok]. split; auto. exists y, z0.
      split; auto. split; [exists ub; auto|]. split; [|auto]. split.
      * intros ->. destruct (t_root _ _ _ _ _ T) as (_ & h & G0 & _). rewrite Gn in G0. discriminate.
      * exists (Some y2), un. split; auto. destruct (lt_eq_lt_dec y2 y) as [[Lt|Eq]|Gt]; auto; exfalso.
        -- subst y2. apply Enb. destruct (t_ne _ _ _ _ _ T _ _ _ _ Gn) as (k1 & K1 & K2). destruct (t_ne _ _ _ _ _ T _ _ _ _ Gb) as (k2 & K3 & K4).
           apply (t_uniq _ _ _ _ _ T n b 0 _ _ _ _ y Gn Gb); split; cbn in *; auto; [destruct un|destruct ub]; cbn in *; auto; lia.
        -- destruct (t_ne _ _ _ _ _ T _ _ _ _ Gb) as (k2 & K3 & K4).
           assert (a = b) as ->.
           { apply (t_uniq _ _ _ _ _ T a b 0 _ _ _ _ y Ga Gb); split; cbn in *; auto; [destruct la|destruct ub]; cbn in *; auto; lia. }
           rewrite Gb in Ga. injection Ga as <- _. lia.
  - (* SD *) injection E as <- <-. exists SOff. split; [reflexivity|]. split; [intros a []|]. right. subst x. destruct d; [apply s_ret|apply b_ret].
Qed.
End SCAN.

(** ** The steps of threads. *)
Lemma grants_step : forall s i c s' l t t', step s i c = Some (s', l) -> nth_error (ths s) i = Some t ->
  nth_error (ths s') i = Some t' ->
  nxt s <= nxt s' /\ forall a, In a (grants t') -> In a (grants t) \/ In a (awaits t) \/ nxt s <= a.
Proof.
  intros s i c s' l t t' E Hi Hi'. unfold step in E. rewrite Hi in E.
  destruct (match t, c with
            | Idle, Do (CIns k m) => Some (Next (pg s) false (Ins k m I0) (Called (CIns k m)))
            | Idle, Do (CFnd k) => Some (Next (pg s) false (Fnd k F0) (Called (CFnd k)))
            | Ins k m p, Go x => istep s i k m p x
            | Fnd k p, Go _ => fstep s i k p
            | _, _ => None
            end) as [[f fresh u l']|] eqn:E1; [|discriminate].
  injection E as <- <-. cbn [ths nxt] in *. rewrite nth_put, Nat.eqb_refl, Hi in Hi'. injection Hi' as <-.
  split; [destruct fresh; lia|]. intros a Ha.
  destruct t as [|k v p|k p]; destruct c as [[k' v'|k']|x]; try discriminate.
  - injection E1 as <- <- <- <-. destruct Ha.
  - injection E1 as <- <- <- <-. destruct Ha.
  - assert (Z : forall k m p, u = Ins k m p -> In a (igrants p)) by (intros ? ? ? ->; exact Ha).
    destruct p; cbn [istep] in E1; cbv zeta in E1;
      repeat match type of E1 with
             | context [match ?e with _ => _ end] => destruct e eqn:?; try discriminate
             end;
      injection E1 as <- <- <- <-; cbn [grants igrants ireads awaits In] in *;
      repeat match goal with
             | H : context [if ?e then _ else _] |- _ => destruct e eqn:?; cbn [In] in *
             | H : context [match ?e with Some _ => _ | None => _ end] |- _ => destruct e eqn:?; cbn [In] in *
             end;
      try tauto; try lia.
    all: repeat match goal with H : ?e = _ |- context [if ?e then _ else _] => rewrite H end; try destruct n; cbn [In]; tauto.
  - unfold fstep in E1. destruct p; cbv zeta in E1;
      repeat match type of E1 with
             | context [match ?e with _ => _ end] => destruct e eqn:?; try discriminate
             end; injection E1 as <- <- <- <-; destruct Ha.
Qed.

(** A refused claim. *)
Lemma refuse_ok : forall s ef G B m i t x t1, core s ef G B m -> nth_error (ths s) i = Some t -> refuse t x = Some t1 ->
  moved s t ef G (St (pg s) (nxt s) (put (ths s) i t1)) ef G B m /\ sim t1 = sim t /\
  (forall a, In a (grants t1) -> In a (grants t)).
Proof.
  intros s ef G B m i t x t1 C Hi R.
  pose proof (c_tok _ _ _ _ _ C _ _ Hi) as K.
  assert (X : (forall a, In a (reads t1) -> In a (reads t)) /\ (forall a, In a (claims t1) -> In a (claims t)) /\
              (forall a, In a (grants t1) -> In a (grants t)) /\ (forall a, pend (pg s) t1 a = pend (pg s) t a) /\
              tok ef G B t1 /\ sim t1 = sim t).
  { destruct t as [|k v p|k p]; try discriminate.
    destruct p; try discriminate; cbn [refuse] in R; try (destruct (yes x)); injection R as <-; cbn [tok itok] in *;
      (split; [cbn [reads ireads In]; tauto|]; split; [cbn [claims iclaims In]; tauto|]; split; [cbn [grants igrants In]; tauto|];
       split; [reflexivity|]; split; [cbn [tok itok]; tauto|reflexivity]). }
  destruct X as (X1 & X2 & X3 & X4 & X5 & X6). split; [|auto]. apply core_go; auto.
Qed.

(** ** Runs. *)
Definition inv (b : both) (m : table) (f : nat -> sthr) (q : nat -> sst) : Prop :=
  exists ef G B, core (base b) ef G B m /\ follows (base b) f /\ (forall a, full (pg (base b) a)) /\
    forall j, match nth_error (scs b) j with
              | Some sc => (forall a, In a (sreads sc) -> open (base b) a) /\ sok ef G sc (q j)
              | None => q j = SOff
              end.

Lemma scans_keep : forall b s' i t t' ef G ef' G' B' m' q,
  (forall h l u, G 0 = Some (h, l, u) -> l = None) ->
  moved (base b) t ef G s' ef' G' B' m' -> nth_error (ths (base b)) i = Some t -> ths s' = put (ths (base b)) i t' ->
  nxt (base b) <= nxt s' ->
  (forall a, In a (grants t') -> In a (grants t) \/ In a (awaits t) \/ nxt (base b) <= a) ->
  existsb (fun a => has sreads a (scs b)) (awaits t) = false ->
  (forall j, match nth_error (scs b) j with
              | Some sc => (forall a, In a (sreads sc) -> open (base b) a) /\ sok ef G sc (q j)
              | None => q j = SOff
              end) ->
  forall j, match nth_error (scs b) j with
              | Some sc => (forall a, In a (sreads sc) -> open s' a) /\ sok ef' G' sc (q j)
              | None => q j = SOff
              end.
Proof.
  intros b s' i t t' ef G ef' G' B' m' q N0 [C' [F1 F2]] Hi Et Ln HG HA H j. specialize (H j).
  destruct (nth_error (scs b) j) as [sc|] eqn:Hj; auto. destruct H as [O K]. split.
  - intros a Ha. destruct (O a Ha) as [L1 L2]. split; [lia|]. intros i' u Hu Hg. rewrite Et, nth_put, Hi in Hu.
    destruct (i' =? i) eqn:Ei; [|eapply L2; eauto]. injection Hu as <-.
    destruct (HG a Hg) as [X|[X|X]]; [eapply L2; eauto| |lia].
    assert (Y : existsb (fun a => has sreads a (scs b)) (awaits t) = true); [|congruence].
    apply existsb_exists. exists a. split; auto. apply existsb_exists. exists sc. split; [eapply nth_error_In; eauto|].
    apply mem_in; auto.
  - apply (sok_ext ef G); auto. intros a Ha. destruct (O a Ha) as [L1 L2]. apply F1; auto. eapply L2; eauto.
Qed.

Lemma inv_init : forall n k, inv (binit n k) empty all_idle (fun _ => SOff).
Proof.
  intros n k. exists (fun _ => Leaf [] None None), G0, (fun _ => 0). split; [apply core_init|]. split; [|split].
  - intros i. unfold all_idle. cbn. destruct (nth_error (repeat Idle n) i) as [t|] eqn:H; auto.
    apply nth_error_In, repeat_spec in H. subst. auto.
  - intros a x y [].
  - intros j. cbn. destruct (nth_error (repeat Off k) j) as [sc|] eqn:H; auto. apply nth_error_In, repeat_spec in H. subst.
    split; [intros a []|reflexivity].
Qed.

Lemma inv_thr : forall b b' i c l m f q, inv b m f q -> tstep b i c = Some (b', l) ->
  (l = Tau /\ inv b' m f q) \/ exists m' f', astep (m, f) i l (m', f') /\ inv b' m' f' q.
Proof.
  intros b b' i c l m f q (ef & G & B & CO & F & FU & SC) E. unfold tstep in E.
  assert (N0 : forall h l u, G 0 = Some (h, l, u) -> l = None).
  { intros h l0 u H. destruct (t_root _ _ _ _ _ (c_tree _ _ _ _ _ CO)) as (_ & h0 & H0 & _). congruence. }
  destruct (nth_error (ths (base b)) i) as [t|] eqn:Hi; [|discriminate].
  destruct (existsb (fun a => has sreads a (scs b)) (awaits t)) eqn:HA; [discriminate|].
  destruct (step (base b) i c) as [[s' l']|] eqn:E1; [|discriminate].
  destruct (nth_error (ths s') i) as [t'|] eqn:Hi'; [|discriminate].
  destruct (clash t t' (scs b)).
  - destruct c as [c|x]; [discriminate|]. destruct (refuse t x) as [t1|] eqn:R; [|discriminate]. injection E as <- <-.
    destruct (refuse_ok _ _ _ _ _ _ _ _ _ CO Hi R) as (M & Sm & Gr). left. split; auto.
    exists ef, G, B. split; [apply M|]. split; [|split]; auto.
    + intros j. cbn. rewrite nth_put, Hi. destruct (j =? i) eqn:Ej; [|apply F]. apply Nat.eqb_eq in Ej. subst j.
      rewrite (F i), Hi. auto.
    + cbn [scs base]. eapply (scans_keep b (St (pg (base b)) (nxt (base b)) (put (ths (base b)) i t1)) i t t1 ef G); eauto.
  - injection E as <- <-.
    destruct (step_moved _ _ _ _ _ _ _ _ _ CO E1) as (t0 & t1 & ef' & G' & B' & m' & H0 & Et & M & S).
    rewrite Hi in H0. injection H0 as <-. rewrite Et, nth_put, Nat.eqb_refl, Hi in Hi'. injection Hi' as <-.
    assert (Hi' : nth_error (ths s') i = Some t1) by (rewrite Et, nth_put, Nat.eqb_refl, Hi; auto).
    destruct (grants_step _ _ _ _ _ _ _ E1 Hi Hi') as [Ln HG].
    pose proof (scans_keep b s' i t t1 ef G ef' G' B' m' q N0 M Hi Et Ln HG HA SC) as SC'.
    pose proof (full_step _ _ _ _ _ FU E1) as FU'. destruct M as [C' _].
    pose proof (F i) as Fi. rewrite Hi in Fi.
    inversion S; subst.
    + left. split; auto. exists ef', G', B'. split; auto. split; [|split]; auto.
      intros j. cbn. rewrite Et, nth_put, Hi. destruct (j =? i) eqn:Ej; [|apply F]. apply Nat.eqb_eq in Ej. subst. congruence.
    + right. exists m', (now f i (SCalled c0)). split; [constructor; congruence|]. exists ef', G', B'. split; auto.
      split; [|split]; auto. rewrite <- H0. eapply follows_put; eauto.
    + right. exists (fst (apply c0 m)), (now f i (SDone (snd (apply c0 m)))). split; [constructor; congruence|].
      exists ef', G', B'. split; auto. split; [|split]; auto. rewrite <- H0. eapply follows_put; eauto.
    + right. exists m', (now f i SIdle). split; [constructor; congruence|]. exists ef', G', B'. split; auto.
      split; [|split]; auto. rewrite <- H0. eapply follows_put; eauto.
Qed.

Lemma scs_put : forall b j sc sc' x ef G q, nth_error (scs b) j = Some sc ->
  (forall j, match nth_error (scs b) j with
              | Some sc => (forall a, In a (sreads sc) -> open (base b) a) /\ sok ef G sc (q j)
              | None => q j = SOff
              end) ->
  (forall a, In a (sreads sc') -> open (base b) a) -> sok ef G sc' x ->
  forall i, match nth_error (put (scs b) j sc') i with
              | Some sc => (forall a, In a (sreads sc) -> open (base b) a) /\ sok ef G sc (put_at q j x i)
              | None => put_at q j x i = SOff
              end.
Proof.
  intros b j sc sc' x ef G q Hj H O K i. rewrite nth_put. unfold put_at. specialize (H i). destruct (i =? j) eqn:E; auto.
  rewrite Hj. auto.
Qed.

Lemma put_at_same : forall q j i, put_at q j (q j) i = q i.
Proof. intros q j i. unfold put_at. destruct (i =? j) eqn:E; auto. apply Nat.eqb_eq in E. congruence. Qed.

Lemma inv_step : forall b c b' e m f q, inv b m f q -> bstep b c = Some (b', e) ->
  exists m' f' q', inv b' m' f' q' /\ ((shown e = [] /\ (m', f', q') = (m, f, q)) \/ spec_step (m, f, q) e (m', f', q')).
Proof.
  intros b [i c|j d lo hi|j z] b' e m f q I E; cbn [bstep] in E.
  - destruct (tstep b i c) as [[b1 l]|] eqn:E1; [|discriminate]. injection E as <- <-.
    destruct (inv_thr _ _ _ _ _ _ _ _ I E1) as [[-> I']|(m' & f' & A & I')].
    + exists m, f, q. split; auto.
    + exists m', f', q. split; auto. right. constructor. auto.
  - destruct (nth_error (scs b) j) as [[|? ? ? ? ?]|] eqn:Hj; try discriminate. injection E as <- <-.
    destruct I as (ef & G & B & CO & F & FU & SC). exists m, f, (put_at q j (SRun d lo (clamp lo hi) (tgt d lo (clamp lo hi)) [])).
    pose proof (SC j) as Sj. rewrite Hj in Sj. destruct Sj as [_ Sj]. cbn in Sj. split.
    + exists ef, G, B. cbn [base scs]. split; auto. split; auto. split; auto. eapply scs_put; eauto.
      * intros a [].
      * split; [destruct hi; cbn; auto; lia|]. exists (tgt d lo (clamp lo hi)). split; reflexivity.
    + right. constructor. rewrite Sj. destruct d; constructor.
  - destruct (nth_error (scs b) j) as [[|d lo hi acc p]|] eqn:Hj; try discriminate.
    destruct (sstep (base b) (others (scs b) j) d lo hi acc p z) as [[sc l]|] eqn:E1; [|discriminate]. injection E as <- <-.
    destruct I as (ef & G & B & CO & F & FU & SC). pose proof (SC j) as Sj. rewrite Hj in Sj. destruct Sj as [O K].
    destruct (sstep_ok _ _ _ _ _ CO FU _ _ _ _ _ _ _ _ _ _ E1 O K) as (x & K' & O' & Y).
    exists m, f. destruct Y as [[-> ->]|Y].
    + exists q. split; auto. exists ef, G, B. cbn [base scs]. split; auto. split; auto. split; auto.
      intros i. pose proof (scs_put b j _ sc (q j) ef G q Hj SC) as X. specialize (X ltac:(intros a Ha; destruct (O' a Ha); auto) K' i).
      rewrite put_at_same in X. exact X.
    + exists (put_at q j x). split; [|right; constructor; auto]. exists ef, G, B. cbn [base scs]. split; auto. split; auto. split; auto.
      eapply scs_put; eauto. intros a Ha. destruct (O' a Ha); auto.
Qed.

Theorem explained_runs : forall n k tr b, bruns (binit n k) tr b ->
  exists m f q, inv b m f q /\ spec_runs start tr (m, f, q).
Proof.
  intros n k tr b R. remember (binit n k) as b0 eqn:E0. induction R as [b|b tr b' c b'' e R IH E].
  - subst. exists empty, all_idle, (fun _ => SOff). split; [apply inv_init|constructor].
  - destruct (IH E0) as (m & f & q & I & A).
    destruct (inv_step _ _ _ _ _ _ _ I E) as (m' & f' & q' & I' & [[Es Ex]|S]).
    + exists m', f', q'. split; auto. rewrite Es, app_nil_r, Ex. auto.
    + exists m', f', q'. split; auto. econstructor; eauto.
Qed.
