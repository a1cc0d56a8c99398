(** * Counting references and key ranges *)
From Coq Require Import List NArith ZArith Arith Bool Lia.
From Verif Require Import Base Spec Search SearchProofs TrunkKeys Refs.
Import ListNotations.
Local Open Scope Z_scope.
Set Default Proof Using "All".

(** ** Counting *)
Section Counting.
Variable d : data_config.
Variable TO : total_order (key_compare d).

Definition xt := (key * key)%type.
Definition kleb (a b : key) : bool := Z.leb (data_key_compare d a b) 0.
Lemma kleb_kle : forall a b, kleb a b = true <-> kle d a b.
Proof. intros. unfold kleb, kle. apply Z.leb_le. Qed.
Lemma kleb_false : forall a b, kleb a b = false <-> klt d b a.
Proof.
  intros a b. unfold kleb, klt. rewrite Z.leb_gt. pose proof (data_key_compare_total d TO) as T.
  pose proof (to_antisym _ T a b). pose proof (to_antisym _ T b a). lia.
Qed.
Lemma kltb_klt : forall a b, kltb d a b = true <-> klt d a b.
Proof. intros. unfold kltb, klt. apply Z.ltb_lt. Qed.
Lemma kltb_false : forall a b, kltb d a b = false <-> kle d b a.
Proof.
  intros a b. unfold kltb, kle. rewrite Z.ltb_ge. pose proof (data_key_compare_total d TO) as T.
  pose proof (to_antisym _ T a b). pose proof (to_antisym _ T b a). lia.
Qed.
Lemma keqb_eq : forall a b, keqb d a b = true <-> a = b.
Proof. intros. unfold keqb. rewrite Z.eqb_eq. apply (to_eq _ (data_key_compare_total d TO)). Qed.

Definition ov (r : krange) (e : xt) : bool := kleb (fst e) (snd r) && kleb (fst r) (snd e).
Definition up (k : key) (e : xt) : Z := if kleb k (snd e) then 1 else 0.
Definition dn (k : key) (e : xt) : Z := if kleb (fst e) k then 1 else 0.
Definition zov (r : krange) (e : xt) : Z := if ov r e then 1 else 0.

Lemma zov_eq : forall a c e, kle d a c -> kle d (fst e) (snd e) -> zov (a, c) e = up a e + dn c e - 1.
Proof.
  intros a c [x y] A E. cbn in *. unfold zov, ov, up, dn. cbn.
  destruct (kleb x c) eqn:P, (kleb a y) eqn:Q; cbn; try lia.
  apply kleb_false in P, Q. exfalso. ord TO.
Qed.
Lemma up_mono : forall a c e, kle d a c -> up c e <= up a e.
Proof.
  intros a c [x y] A. unfold up. cbn. destruct (kleb c y) eqn:P; destruct (kleb a y) eqn:Q; try lia.
  apply kleb_kle in P. apply kleb_false in Q. exfalso. ord TO.
Qed.
Lemma up_01 : forall k e, 0 <= up k e <= 1.
Proof. intros. unfold up. destruct (kleb _ _); lia. Qed.
Lemma zov_01 : forall r e, 0 <= zov r e <= 1.
Proof. intros. unfold zov. destruct (ov _ _); lia. Qed.
Lemma zov_point : forall k e, zov (k, k) e = 1 -> up k e = 1.
Proof. intros k e. unfold zov, ov, up. cbn. destruct (kleb k (snd e)); auto. rewrite andb_false_r. auto. Qed.

Fixpoint cnt (b : bid) (e : xt) (l : list (bid * krange)) : Z :=
  match l with [] => 0 | p :: l' => (if (fst p =? b)%nat then zov (snd p) e else 0) + cnt b e l' end.
Lemma cnt_app : forall b e l l', cnt b e (l ++ l') = cnt b e l + cnt b e l'.
Proof. induction l; intros; cbn [cnt app]; [lia|]. rewrite IHl. lia. Qed.
Lemma cnt_nn : forall b e l, 0 <= cnt b e l.
Proof. induction l as [|p l]; cbn [cnt]; [lia|]. pose proof (zov_01 (snd p) e). destruct (_ =? _)%nat; lia. Qed.
Lemma cnt_in : forall b e r l, In (b, r) l -> ov r e = true -> 1 <= cnt b e l.
Proof.
  induction l as [|p l]; cbn [cnt]; intros I O; [contradiction|]. pose proof (cnt_nn b e l).
  destruct I as [->|I].
  - cbn. rewrite Nat.eqb_refl. unfold zov. rewrite O. lia.
  - specialize (IHl I O). pose proof (zov_01 (snd p) e). destruct (_ =? _)%nat; lia.
Qed.
Lemma cnt_pos : forall b e l, 1 <= cnt b e l -> exists r, In (b, r) l /\ ov r e = true.
Proof.
  induction l as [|[b' r] l]; cbn [cnt fst snd]; intros H; [lia|].
  destruct (Nat.eqb_spec b' b).
  - subst. unfold zov in H. destruct (ov r e) eqn:O; [exists r; split; [left|]; auto|].
    destruct IHl as (r' & ? & ?); [lia|]. exists r'. split; [right|]; auto.
  - destruct IHl as (r' & ? & ?); [lia|]. exists r'. split; [right|]; auto.
Qed.

Fixpoint occ (b : bid) (l : list bid) : Z := match l with [] => 0 | x :: l' => (if (x =? b)%nat then 1 else 0) + occ b l' end.
Lemma occ_app : forall b l l', occ b (l ++ l') = occ b l + occ b l'.
Proof. induction l; intros; cbn [occ app]; [lia|]. rewrite IHl. lia. Qed.
Lemma occ_nn : forall b l, 0 <= occ b l.
Proof. induction l; cbn [occ]; [lia|]. destruct (_ =? _)%nat; lia. Qed.
Lemma occ_in : forall b l, In b l -> 1 <= occ b l.
Proof. induction l; cbn [occ]; intros; [contradiction|]. pose proof (occ_nn b l). destruct H; [subst; rewrite Nat.eqb_refl; lia|]. specialize (IHl H). destruct (_ =? _)%nat; lia. Qed.
Lemma cnt_map : forall b e r l, cnt b e (map (fun x => (x, r)) l) = occ b l * zov r e.
Proof. induction l; cbn [cnt map occ fst snd]; [lia|]. rewrite IHl. destruct (_ =? _)%nat; lia. Qed.

(** ** Events *)
Definition dl (b : bid) (e : xt) (v : ev) : Z :=
  match v with
  | EvNew b' _ _ => if (b' =? b)%nat then 1 else 0
  | EvInc b' r => if (b' =? b)%nat then zov r e else 0
  | EvDec b' r => if (b' =? b)%nat then - zov r e else 0
  end.
Fixpoint delta (b : bid) (e : xt) (l : list ev) : Z := match l with [] => 0 | v :: l' => dl b e v + delta b e l' end.
Lemma delta_app : forall b e l l', delta b e (l ++ l') = delta b e l + delta b e l'.
Proof. induction l; intros; cbn [delta app]; [lia|]. rewrite IHl. lia. Qed.
Lemma delta_inc_all : forall b e l, delta b e (inc_all l) = cnt b e l.
Proof. induction l as [|p l]; cbn [delta inc_all map cnt dl]; [lia|]. unfold inc_all in IHl. rewrite IHl. lia. Qed.
Lemma delta_dec_all : forall b e l, delta b e (dec_all l) = - cnt b e l.
Proof. induction l as [|p l]; cbn [delta dec_all map cnt dl]; [lia|]. unfold dec_all in IHl. rewrite IHl. destruct (_ =? _)%nat; lia. Qed.
Fixpoint pts (ks : list key) (e : xt) : Z := match ks with [] => 0 | k :: l => zov (k, k) e + pts l e end.
Lemma pts_app : forall e l l', pts (l ++ l') e = pts l e + pts l' e.
Proof. induction l; intros; cbn [pts app]; [lia|]. rewrite IHl. lia. Qed.
Lemma delta_inc_at : forall b e ks bs, delta b e (inc_at ks bs) = occ b bs * pts ks e.
Proof.
  intros b e ks. induction bs as [|x bs IH]; [reflexivity|]. cbn [inc_at flat_map occ]. rewrite delta_app. unfold inc_at in IH. rewrite IH.
  assert (H : delta b e (map (fun k => EvInc x (k, k)) ks) = (if (x =? b)%nat then 1 else 0) * pts ks e); [|lia].
  clear IH. induction ks as [|k ks IH]; cbn [map delta dl pts]; [lia|]. rewrite IH. destruct (_ =? _)%nat; lia.
Qed.
Lemma delta_dec_ranges : forall b e rs bs, delta b e (flat_map (fun x => map (fun r => EvDec x r) rs) bs) = - (occ b bs * cnt b e (map (fun r => (b, r)) rs)).
Proof.
  intros b e rs. induction bs as [|x bs IH]; [reflexivity|]. cbn [flat_map occ]. rewrite delta_app, IH.
  assert (H : delta b e (map (fun r => EvDec x r) rs) = - ((if (x =? b)%nat then 1 else 0) * cnt b e (map (fun r => (b, r)) rs))); [|lia].
  clear IH. induction rs as [|r rs IH]; cbn [map delta dl cnt fst snd]; [lia|]. rewrite IH, Nat.eqb_refl. destruct (_ =? _)%nat; lia.
Qed.
Lemma delta_dec_pts : forall b e k bs, delta b e (map (fun x => EvDec x (k, k)) bs) = - (occ b bs * zov (k, k) e).
Proof. intros b e k. induction bs as [|x bs IH]; cbn [map delta dl occ]; [lia|]. rewrite IH. destruct (_ =? _)%nat; lia. Qed.

(** ** Nodes *)
Fixpoint asc (l : list piv) (hi : key) : Prop :=
  match l with [] => True | p :: l' => klt d (p_key p) (next_key l' hi) /\ asc l' hi end.
Fixpoint sumov (l : list piv) (hi : key) (e : xt) : Z :=
  match l with [] => 0 | p :: l' => zov (p_key p, next_key l' hi) e + sumov l' hi e end.
Fixpoint sumsel (f : piv -> bool) (l : list piv) (hi : key) (e : xt) : Z :=
  match l with [] => 0 | p :: l' => (if f p then zov (p_key p, next_key l' hi) e else 0) + sumsel f l' hi e end.
Lemma sumsel_neg : forall f l hi e, sumsel f l hi e + sumsel (fun p => negb (f p)) l hi e = sumov l hi e.
Proof. induction l; intros; cbn [sumsel sumov]; [lia|]. specialize (IHl hi e). destruct (f a); cbn [negb]; lia. Qed.
Lemma sumsel_ranges : forall b f l hi e, cnt b e (map (fun r => (b, r)) (ranges f l hi)) = sumsel f l hi e.
Proof. induction l; intros; cbn [ranges sumsel]; [reflexivity|]. destruct (f a); cbn [map cnt fst snd]; rewrite ?Nat.eqb_refl, IHl; lia. Qed.

Lemma sumov_eq : forall e l hi, kle d (fst e) (snd e) -> asc l hi -> l <> [] ->
  sumov l hi e = zov (next_key l hi, hi) e + pts (map p_key (tl l)) e.
Proof.
  intros e l hi E. induction l as [|p l IH]; intros A N; [congruence|]. cbn [asc] in A. destruct A as [A1 A2]. cbn [sumov tl next_key].
  destruct l as [|q l].
  - cbn. lia.
  - rewrite IH by (auto; discriminate). cbn [tl map pts next_key] in *.
    assert (L : kle d (p_key q) hi).
    { clear - A2 TO. revert q A2. induction l as [|p l IH]; intros q A2; cbn [asc next_key] in A2; destruct A2 as [X Y]; [ord TO|]. specialize (IH _ Y). ord TO. }
    rewrite !zov_eq by (auto; ord TO). lia.
Qed.
Lemma asc_lt : forall l hi, asc l hi -> l <> [] -> klt d (next_key l hi) hi.
Proof.
  induction l as [|p l IH]; intros hi A N; [congruence|]. cbn [asc next_key] in *. destruct A as [A1 A2]. destruct l; [exact A1|].
  specialize (IH hi A2 ltac:(discriminate)). cbn [next_key] in *. ord TO.
Qed.
Lemma asc_in : forall l hi p, asc l hi -> In p l -> kle d (next_key l hi) (p_key p) /\ klt d (p_key p) hi.
Proof.
  induction l as [|p0 l IH]; intros hi p A I; [contradiction|]. pose proof (asc_lt _ _ A ltac:(discriminate)) as L. cbn [asc next_key] in *. destruct A as [A1 A2].
  destruct I as [->|I]; [split; [ord TO | exact L]|]. destruct (IH hi p A2 I). split; ord TO.
Qed.
Lemma next_key_app : forall l l' hi, next_key (l ++ l') hi = next_key l (next_key l' hi).
Proof. destruct l; reflexivity. Qed.
Lemma asc_app : forall l l' hi, asc (l ++ l') hi <-> asc l (next_key l' hi) /\ asc l' hi.
Proof.
  induction l; intros; cbn [app asc]; [tauto|]. rewrite next_key_app, IHl. tauto.
Qed.
Lemma pieces_app : forall slots l l' hi, pieces slots (l ++ l') hi = pieces slots l (next_key l' hi) ++ pieces slots l' hi.
Proof. induction l; intros; cbn [app pieces]; [reflexivity|]. rewrite next_key_app, IHl, app_assoc. reflexivity. Qed.

Fixpoint wsum (b : bid) (slots : list slot) (l : list piv) (hi : key) (e : xt) : Z :=
  match l with [] => 0 | p :: l' => occ b (live_brs slots p) * zov (p_key p, next_key l' hi) e + wsum b slots l' hi e end.
Lemma cnt_pieces : forall b e slots l hi, cnt b e (pieces slots l hi) = wsum b slots l hi e.
Proof. induction l; intros; cbn [pieces wsum]; [reflexivity|]. rewrite cnt_app, cnt_map, IHl. reflexivity. Qed.

Definition dead_ok (slots : list slot) (l : list piv) : Prop := forall p, In p l -> (p_dead p <= length slots)%nat.

Lemma wsum_snoc : forall b e slots s l hi, dead_ok slots l ->
  wsum b (slots ++ [s]) l hi e = wsum b slots l hi e + occ b (s_brs s) * sumov l hi e.
Proof.
  intros b e slots s l hi. induction l as [|p l IH]; intros D; cbn [wsum sumov]; [lia|].
  rewrite IH by (intros x I; apply D; right; exact I).
  assert (H : occ b (live_brs (slots ++ [s]) p) = occ b (live_brs slots p) + occ b (s_brs s)).
  { unfold live_brs. assert (p_dead p <= length slots)%nat by (apply D; left; reflexivity).
    rewrite skipn_app. replace (p_dead p - length slots)%nat with 0%nat by lia. cbn [skipn].
    rewrite flat_map_app, occ_app. cbn [flat_map]. rewrite app_nil_r. reflexivity. }
  rewrite H. lia.
Qed.

Lemma skipn_sub : forall A n q (x : A) l, skipn n (sub q [x] l) = if (n <=? q)%nat then sub (q - n) [x] (skipn n l) else skipn n l.
Proof.
  intros A n. induction n as [|n IH]; intros q x l; [cbn; now rewrite Nat.sub_0_r|].
  destruct l as [|y l]; [cbn [sub skipn]; destruct (_ <=? _)%nat; reflexivity|].
  destruct q as [|q]; cbn [sub app skipn]; [reflexivity|]. rewrite IH. reflexivity.
Qed.
Lemma occ_sub : forall b q x y l, nth_error l q = Some y ->
  occ b (flat_map s_brs (sub q [x] l)) = occ b (flat_map s_brs l) - occ b (s_brs y) + occ b (s_brs x).
Proof.
  intros b q x y l. revert q. induction l as [|z l IH]; intros [|q] H; cbn in H; try discriminate.
  - inversion H; subst. cbn [sub app flat_map]. rewrite !occ_app. lia.
  - cbn [sub flat_map]. rewrite !occ_app, (IH _ H). lia.
Qed.
Lemma nth_error_skipn : forall A n q (l : list A), (n <= q)%nat -> nth_error (skipn n l) (q - n) = nth_error l q.
Proof.
  induction n; intros q l H; [cbn; now rewrite Nat.sub_0_r|]. destruct l; [cbn; now destruct (q - S n)%nat, q|].
  destruct q; [lia|]. cbn. apply IHn. lia.
Qed.
Lemma wsum_sub : forall b e slots q x y l hi, nth_error slots q = Some y ->
  wsum b (sub q [x] slots) l hi e = wsum b slots l hi e + (occ b (s_brs x) - occ b (s_brs y)) * sumsel (live_for q) l hi e.
Proof.
  intros b e slots q x y l hi H. induction l as [|p l IH]; cbn [wsum sumsel]; [lia|]. rewrite IH.
  unfold live_brs at 1. rewrite skipn_sub. unfold live_for at 2. destruct (Nat.leb_spec (p_dead p) q) as [L|L].
  - rewrite (occ_sub b _ x y) by (rewrite nth_error_skipn; auto). fold (live_brs slots p). lia.
  - fold (live_brs slots p). lia.
Qed.

(** ** Levels *)
Lemma concat_sub : forall A (h : nat) (l : list A) lv l0, nth_error lv h = Some l0 ->
  exists a c, concat lv = a ++ l0 ++ c /\ concat (sub h [l] lv) = a ++ l ++ c.
Proof.
  intros A h l lv. revert h. induction lv as [|x lv IH]; intros [|h] l0 H; cbn in H; try discriminate.
  - inversion H; subst. exists [], (concat lv). split; reflexivity.
  - destruct (IH _ _ H) as (a & c & E1 & E2). exists (x ++ a), c. cbn [concat sub]. rewrite E1, E2, <- !app_assoc. split; reflexivity.
Qed.
Lemma sub_split : forall A i (ns : list A) l n, nth_error l i = Some n -> exists a c, l = a ++ n :: c /\ sub i ns l = a ++ ns ++ c /\ length a = i.
Proof.
  induction i; intros ns [|x l] n H; cbn in H; try discriminate.
  - inversion H; subst. exists [], l. repeat split; reflexivity.
  - destruct (IHi ns l n H) as (a & c & E1 & E2 & E3). exists (x :: a), c. cbn [sub]. rewrite E2. subst l. repeat split; auto. cbn. lia.
Qed.
Lemma put_split : forall lv h i ns n, node_at lv h i = Some n ->
  exists a c, concat lv = a ++ n :: c /\ concat (put lv h i ns) = a ++ ns ++ c.
Proof.
  intros lv h i ns n H. unfold node_at in H. unfold put. destruct (nth_error lv h) as [l|] eqn:E; [|discriminate].
  destruct (sub_split _ i ns l n H) as (a & c & E1 & E2 & _). destruct (concat_sub _ h (sub i ns l) lv l E) as (a' & c' & F1 & F2).
  exists (a' ++ a), (c ++ c'). rewrite F1, F2, E2, E1. rewrite <- !app_assoc. cbn. split; reflexivity.
Qed.
Definition pcs (b : bid) (e : xt) (lv : list (list rnode)) : Z := cnt b e (all_pieces lv).
Lemma pcs_put : forall b e lv h i ns n, node_at lv h i = Some n ->
  pcs b e (put lv h i ns) = pcs b e lv - cnt b e (node_pieces n) + cnt b e (flat_map node_pieces ns).
Proof.
  intros. unfold pcs, all_pieces. destruct (put_split _ _ _ ns _ H) as (a & c & -> & ->).
  rewrite !flat_map_app. cbn [flat_map]. rewrite !cnt_app. lia.
Qed.
Lemma node_at_in : forall lv h i n, node_at lv h i = Some n -> In n (concat lv).
Proof. intros. destruct (put_split _ _ _ [] _ H) as (a & c & -> & _). apply in_or_app. right. left. reflexivity. Qed.
Lemma nth_error_sub_ne : forall A h h' (ns : list A) x lv, h <> h' -> ns = [x] -> nth_error (sub h ns lv) h' = nth_error lv h'.
Proof.
  intros A h h' ns x lv. revert h h'. induction lv as [|y lv IH]; intros [|h] [|h'] N ->; cbn; auto; try congruence.
Qed.
Lemma node_at_put_ne : forall lv h h' i i' ns, h <> h' -> node_at (put lv h i ns) h' i' = node_at lv h' i'.
Proof.
  intros. unfold node_at, put. destruct (nth_error lv h) eqn:E; [|reflexivity]. rewrite (nth_error_sub_ne _ h h' _ (sub i ns l)); auto.
Qed.
End Counting.
