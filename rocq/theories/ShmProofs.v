(** The invariant of the shared-memory heap. *)
From Coq Require Import List NArith Bool Lia Permutation Arith.
From Verif Require Import Shm ShmSpec.
Import ListNotations.
Local Open Scope N_scope.

(** A reserved region: address, size, and whether it is new (not yet shown to the
    tracker). *)
Record reg := Reg { g_a : N; g_n : N; g_new : bool }.
Definition inr (r : reg) (x : N) : Prop := g_a r <= x < g_a r + g_n r.
Definition inrb (r : reg) (x : N) : bool := (g_a r <=? x) && (x <? g_a r + g_n r).
Lemma inrb_iff r x : inrb r x = true <-> inr r x.
Proof.
  unfold inrb, inr. rewrite andb_true_iff, N.leb_le, N.ltb_lt. tauto.
Qed.
Fixpoint cov (l : list reg) (x : N) : nat :=
  match l with [] => O | r :: t => ((if inrb r x then 1 else 0) + cov t x)%nat end.
Lemma cov_app a b x : cov (a ++ b) x = (cov a x + cov b x)%nat.
Proof. induction a; cbn [cov app]; lia. Qed.
Lemma cov_perm a b x : Permutation a b -> cov a x = cov b x.
Proof. induction 1; cbn [cov]; lia. Qed.
Lemma cov_in l r x : In r l -> inr r x -> (1 <= cov l x)%nat.
Proof.
  induction l as [|y t IH]; intros I X; [destruct I|]. cbn [cov].
  destruct I as [->|I].
  - apply inrb_iff in X. rewrite X. lia.
  - specialize (IH I X). lia.
Qed.
Lemma cov_none l x : (forall r, In r l -> ~ inr r x) -> cov l x = O.
Proof.
  induction l as [|y t IH]; intros H; cbn [cov]; auto.
  rewrite IH by (intros; apply H; right; auto).
  destruct (inrb y x) eqn:E; auto. apply inrb_iff in E.
  exfalso. apply (H y); [left; auto|auto].
Qed.

Definition disj (r q : reg) : Prop := forall x, inr r x -> inr q x -> False.
Definition sreg (s : slot) : reg := Reg (f_addr s) (f_size s) false.
Definition freg (f : frag) : reg := Reg (a_addr f) (a_real f) false.
Definition pcreg (p : pc) : list reg :=
  match p with
  | Track a n => [Reg a n true]
  | Free1 f | Free2 f => [freg f]
  | _ => []
  end.

Definition good (h : heap) (r : reg) : Prop :=
  h_base h <= g_a r /\ 0 < g_n r /\ g_a r + g_n r <= h_next h /\ g_a r mod LINE = 0
  /\ match h_last h with
     | Some l => g_a r + g_n r <= l \/ (g_a r = l /\ g_a r + g_n r = h_next h)
     | None => True
     end.

Definition tied (r : reg) (s : slot) : Prop :=
  disj r (sreg s) \/ (r = sreg s /\ f_free s = false).

Record AInv (h : heap) (o : list reg) : Prop := {
  i_base : 0 < h_base h /\ h_base h <= h_next h /\ h_next h <= h_end h /\ h_end h < 2 ^ 64;
  i_al : h_next h mod LINE = 0;
  i_own : forall x, (cov o x <= 1)%nat;
  i_slots : forall x, (cov (map sreg (h_slots h)) x <= 1)%nat;
  i_tied : forall r s, In r o -> In s (h_slots h) -> tied r s;
  i_good : forall r, In r o -> good h r;
  i_sgood : forall s, In s (h_slots h) -> good h (sreg s) /\ LARGE <= f_size s /\ f_addr s <= h_hip h;
  i_used : h_used h = h_next h - h_base h /\ h_avail h = h_end h - h_next h
}.

Lemma AInv_perm h o o' : Permutation o o' -> AInv h o -> AInv h o'.
Proof.
  intros P [B A O S T G SG U]. split; auto.
  - intros x. rewrite <- (cov_perm _ _ x P). auto.
  - intros r s I. apply T. eapply Permutation_in; [apply Permutation_sym; eauto|auto].
  - intros r I. apply G. eapply Permutation_in; [apply Permutation_sym; eauto|auto].
Qed.

Definition pcok (top : N) (p : pc) : Prop :=
  match p with
  | Find n => ok_size top n
  | Bump n => ok_size top n
  | Track a n => LARGE <= n
  | Boom => False
  | _ => True
  end.

Lemma find_split n l x l' : find_large n l = Some (x, l') ->
  exists a b, l = a ++ x :: b /\ l' = a ++ Slot (f_addr x) (f_size x) false :: b
              /\ n <= f_size x /\ f_free x = true.
Proof.
  revert x l'. induction l as [|s r IH]; intros x l' E; cbn [find_large] in E; [discriminate|].
  destruct ((n <=? f_size s) && f_free s) eqn:C.
  - injection E as <- <-. apply andb_prop in C. destruct C as [C1 C2].
    apply N.leb_le in C1. exists [], r. repeat split; auto.
  - destruct (find_large n r) as [[y r']|] eqn:F; [|discriminate].
    injection E as <- <-. destruct (IH _ _ eq_refl) as (a & b & -> & -> & L & Fr).
    exists (s :: a), b. repeat split; auto.
Qed.

Lemma mark_split a l : (exists u s v, l = u ++ s :: v /\ f_addr s = a
    /\ mark_free a l = u ++ Slot (f_addr s) (f_size s) true :: v)
  \/ (mark_free a l = l /\ forall s, In s l -> f_addr s <> a).
Proof.
  induction l as [|s r IH]; cbn [mark_free].
  - right. split; [auto|intros s []].
  - destruct (f_addr s =? a) eqn:E.
    + apply N.eqb_eq in E. left. exists [], s, r. repeat split; auto.
    + apply N.eqb_neq in E. destruct IH as [(u & t & v & -> & A & M)|[M A]].
      * left. exists (s :: u), t, v. rewrite M. repeat split; auto.
      * right. rewrite M. split; [auto|]. intros t [<-|I]; auto.
Qed.

Lemma sreg_in_cov u s v x : inr (sreg s) x ->
  (cov (map sreg (u ++ s :: v)) x <= 1)%nat ->
  forall t, In t (u ++ v) -> ~ inr (sreg t) x.
Proof.
  intros X C t I Y.
  rewrite map_app, cov_app in C. cbn [map cov] in C.
  apply inrb_iff in X. rewrite X in C.
  assert (1 <= cov (map sreg (u ++ v)) x)%nat.
  { eapply cov_in; [apply in_map; exact I|auto]. }
  rewrite map_app, cov_app in H. lia.
Qed.

Lemma w64_small x : x < 2 ^ 64 -> w64 x = x.
Proof. intros. unfold w64. apply N.mod_small. auto. Qed.
Lemma w64_sub a b : b <= a -> a < 2 ^ 64 -> w64 (a + (2 ^ 64 - b)) = a - b.
Proof.
  intros L H. unfold w64.
  replace (a + (2 ^ 64 - b)) with ((a - b) + 1 * 2 ^ 64) by lia.
  rewrite N.mod_add by lia. apply N.mod_small. lia.
Qed.
Lemma mod_add0 a b : a mod LINE = 0 -> b mod LINE = 0 -> (a + b) mod LINE = 0.
Proof.
  intros A B. assert (LINE <> 0) by (unfold LINE; lia).
  rewrite N.add_mod, A, B by auto. apply N.mod_0_l. auto.
Qed.

Lemma good_slots h l r : good (w_slots h l) r <-> good h r.
Proof. reflexivity. Qed.

Ltac tl := repeat match goal with |- _ /\ _ => split end;
  first [ assumption | reflexivity | exact Logic.I | (intros ? []; fail)
        | (let H := fresh in intros ? ? H; discriminate H)
        | (intros ? [<-|[]]; cbn [a_size a_real]; lia) | idtac ].

(** One section keeps the invariant; what it writes is nobody else's. *)
Lemma section_inv h p rest h' fs p' w :
  AInv h (pcreg p ++ rest) -> pcok (h_end h) p -> section h p = (h', fs, p', w) ->
  AInv h' (map freg fs ++ pcreg p' ++ rest) /\ pcok (h_end h) p'
  /\ h_end h' = h_end h /\ h_base h' = h_base h
  /\ (forall f, In f fs -> a_size f <= a_real f)
  /\ (forall r x, w = Some r -> in_range r x ->
        forall q, In q rest -> ~ inr q x).
Proof.
  intros V K E. pose proof V as [[B0 [B1 [B2 B3]]] A O S T G SG [U1 U2]].
  destruct p as [|n|n|a n|f|f|]; cbn [section] in E.
  - injection E as <- <- <- <-. cbn [map pcreg app] in *. tl.
  - (* Find *)
    cbn [pcreg app] in *. cbn [pcok] in K.
    destruct (find_large n (h_slots h)) as [[s l]|] eqn:F.
    2:{ injection E as <- <- <- <-. cbn [pcreg app map].
        split; [exact V|]. tl. }
    injection E as <- <- <- <-.
    destruct (find_split _ _ _ _ F) as (u & v & EL & -> & L & Fr).
    assert (IS : In s (h_slots h)) by (rewrite EL; apply in_elt).
    assert (INL : forall t, In t (u ++ Slot (f_addr s) (f_size s) false :: v) ->
                   t = Slot (f_addr s) (f_size s) false \/ In t (u ++ v)).
    { intros t I. apply in_app_or in I. destruct I as [I|[I|I]]; auto;
        right; apply in_or_app; auto. }
    assert (INO : forall t, In t (u ++ v) -> In t (h_slots h)).
    { intros t I. rewrite EL. apply in_app_or in I. apply in_or_app. cbn [In]. tauto. }
    assert (DR : forall q, In q rest -> disj q (sreg s)).
    { intros q I. destruct (T q s I IS) as [D|[_ C]]; [auto|congruence]. }
    destruct (SG s IS) as [GS [LS HS]].
    cbn [map pcreg app].
    split; [split; cbn [w_slots h_base h_end h_next h_slots h_hip h_used h_avail]|].
    + lia.
    + exact A.
    + intros x. cbn [cov].
      destruct (inrb (freg (Frag (f_addr s) n (f_size s))) x) eqn:X; [|apply O].
      apply inrb_iff in X. rewrite cov_none; [lia|].
      intros q I Y. exact (DR q I x Y X).
    + intros x. specialize (S x). rewrite EL in S. rewrite map_app in *. exact S.
    + intros r t I J. destruct (INL t J) as [->|J'].
      * destruct I as [<-|I]; [right; split; reflexivity|].
        left. intros x X Y. exact (DR r I x X Y).
      * destruct I as [<-|I]; [|exact (T r t I (INO t J'))].
        left. intros x X Y. specialize (S x). rewrite EL in S.
        exact (sreg_in_cov u s v x X S t J' Y).
    + intros r [<-|I]; [exact GS|exact (G r I)].
    + intros t J. destruct (INL t J) as [->|J']; [|exact (SG t (INO t J'))].
      split; [exact GS|split; [exact LS|exact HS]].
    + auto.
    + tl. intros r x W X q I Y. injection W as <-. exact (DR q I x Y X).
  - (* Bump *)
    cbn [pcreg app] in *. cbn [pcok] in K. destruct K as (K1 & K2 & K3).
    destruct (h_end h <? w64 (h_next h + n)) eqn:C.
    { injection E as <- <- <- <-. cbn [pcreg app map].
      split; [exact V|]. tl. }
    apply N.ltb_ge in C. rewrite w64_small in C by lia.
    rewrite !w64_small, w64_sub in E by lia.
    set (h1 := Heap _ _ _ _ _ _ _ _) in E.
    assert (OLD : forall q, good h q -> good h1 q).
    { intros q (Q1 & Q2 & Q3 & Q4 & _). unfold good, h1.
      cbn [h_base h_next h_last]. repeat split; try assumption; try lia. }
    assert (NEWD : forall q nw, good h q -> disj (Reg (h_next h) n nw) q).
    { intros q nw (Q1 & Q2 & Q3 & _) x X Y. unfold inr in X, Y. cbn [g_a g_n] in X. lia. }
    assert (NEWI : forall nw, AInv h1 (Reg (h_next h) n nw :: rest)).
    { intros nw. split; unfold h1; cbn [h_base h_end h_next h_slots h_hip h_used h_avail].
      - lia.
      - apply mod_add0; auto.
      - intros x. cbn [cov]. destruct (inrb (Reg (h_next h) n nw) x) eqn:X; [|apply O].
        apply inrb_iff in X. rewrite cov_none; [lia|].
        intros q I Y. exact (NEWD q nw (G q I) x X Y).
      - exact S.
      - intros r s [<-|I] J; [|exact (T r s I J)].
        left. apply NEWD. apply SG. auto.
      - intros r [<-|I]; [|apply OLD; apply G; exact I].
        unfold good. cbn [g_a g_n h_base h_next h_last].
        repeat split; try assumption; try lia.
      - intros s J. destruct (SG s J) as [Q1 [Q2 Q3]]. split; [apply OLD; exact Q1|auto].
      - lia. }
    destruct (LARGE <=? n) eqn:CL.
    + apply N.leb_le in CL. injection E as <- <- <- <-. cbn [map pcreg app].
      split; [apply NEWI|]. tl.
    + injection E as <- <- <- <-. cbn [map pcreg app].
      split; [apply (NEWI false)|]. tl.
  - (* Track *)
    cbn [pcreg app] in *. cbn [pcok] in K.
    assert (GA : good h (Reg a n true)) by (apply G; left; reflexivity).
    assert (DS : forall s, In s (h_slots h) -> disj (Reg a n true) (sreg s)).
    { intros s J. destruct (T _ s (or_introl eq_refl) J) as [D|[C _]]; [exact D|discriminate C]. }
    assert (NB : existsb (fun s => f_addr s =? a) (h_slots h) = false).
    { apply not_true_is_false. intros C. apply existsb_exists in C.
      destruct C as (s & J & Q). apply N.eqb_eq in Q.
      apply (DS s J a); unfold inr; cbn [g_a g_n sreg].
      - destruct GA as (_ & P & _). cbn [g_n] in P. lia.
      - destruct (SG s J) as [(_ & P & _) _]. cbn [sreg g_n] in P. lia. }
    rewrite NB in E.
    assert (COVF : forall x, cov (Reg a n false :: rest) x = cov (Reg a n true :: rest) x)
      by (intros; reflexivity).
    assert (DREST : forall q, In q rest -> disj q (Reg a n false)).
    { intros q I x X Y. specialize (O x). cbn [cov] in O.
      assert (Y' : inrb (Reg a n true) x = true) by (apply inrb_iff; exact Y).
      rewrite Y' in O. pose proof (cov_in _ _ _ I X). lia. }
    destruct (Nat.ltb (length (h_slots h)) NSLOTS) eqn:CN.
    + injection E as <- <- <- <-. cbn [map pcreg app].
      set (h1 := Heap _ _ _ _ _ _ _ _).
      assert (OLD : forall q, good h q -> good h1 q) by (intros q Q; exact Q).
      split; [split; unfold h1; cbn [h_base h_end h_next h_slots h_hip h_used h_avail]|].
      * lia.
      * exact A.
      * intros x. apply (O x).
      * intros x. rewrite map_app, cov_app. cbn [map cov].
        destruct (inrb (sreg (Slot a n false)) x) eqn:X; [|specialize (S x); lia].
        apply inrb_iff in X. rewrite cov_none; [lia|].
        intros q I Y. apply in_map_iff in I. destruct I as (s & <- & J).
        exact (DS s J x X Y).
      * intros r s I J. apply in_app_or in J. destruct J as [J|[<-|[]]].
        -- destruct I as [<-|I]; [left; exact (DS s J)|].
           exact (T r s (or_intror I) J).
        -- destruct I as [<-|I]; [right; split; reflexivity|].
           left. exact (DREST r I).
      * intros r [<-|I]; [exact GA|exact (G r (or_intror I))].
      * intros s J. apply in_app_or in J. destruct J as [J|[<-|[]]].
        -- destruct (SG s J) as [Q1 [Q2 Q3]]. split; [exact Q1|split; [exact Q2|]].
           destruct (h_hip h <? a) eqn:CH; [apply N.ltb_lt in CH; lia|exact Q3].
        -- split; [exact GA|split; [exact K|]]. cbn [f_addr].
           destruct (h_hip h <? a) eqn:CH; [lia|apply N.ltb_ge in CH; exact CH].
      * auto.
      * tl.
    + injection E as <- <- <- <-. cbn [map pcreg app].
      split; [split; auto|].
      * intros r s [<-|I] J; [left; exact (DS s J)|exact (T r s (or_intror I) J)].
      * intros r [<-|I]; [exact GA|exact (G r (or_intror I))].
      * tl.
  - (* Free1 *)
    cbn [pcreg app] in *.
    assert (GF : good h (freg f)) by (apply G; left; reflexivity).
    destruct (negb ((h_base h <=? a_addr f) && (a_addr f <? h_end h))) eqn:CV.
    { exfalso. destruct GF as (Q1 & Q2 & Q3 & _). cbn [freg g_a g_n] in *.
      apply negb_true_iff, andb_false_iff in CV. destruct CV as [CV|CV];
        [apply N.leb_gt in CV|apply N.ltb_ge in CV]; lia. }
    assert (KEEP : (h', fs, p', w) = (h, [], Free2 f, None) ->
       AInv h' (map freg fs ++ pcreg p' ++ rest) /\ pcok (h_end h) p'
       /\ h_end h' = h_end h /\ h_base h' = h_base h
       /\ (forall f, In f fs -> a_size f <= a_real f)
       /\ (forall r x, w = Some r -> in_range r x -> forall q, In q rest -> ~ inr q x)).
    { intros Q. injection Q as -> -> -> ->. cbn [map pcreg app].
      split; [exact V|]. tl. }
    destruct (h_last h) as [l|] eqn:HL; [|apply KEEP; congruence].
    destruct ((l =? a_addr f) && (w64 (h_next h + (2 ^ 64 - a_addr f)) <? LARGE)) eqn:C;
      [|apply KEEP; congruence].
    clear KEEP. apply andb_prop in C. destruct C as [C1 C2]. apply N.eqb_eq in C1. subst l.
    destruct GF as (Q1 & Q2 & Q3 & Q4 & Q5). rewrite HL in Q5. cbn [freg g_a g_n] in *.
    assert (EN : a_addr f + a_real f = h_next h) by lia. clear Q5.
    assert (SZ : w64 (h_next h + (2 ^ 64 - a_addr f)) = h_next h - a_addr f)
      by (apply w64_sub; lia).
    rewrite SZ in C2, E. apply N.ltb_lt in C2.
    rewrite w64_sub, w64_small in E by lia.
    injection E as <- <- <- <-. cbn [map pcreg app].
    set (h1 := Heap _ _ _ _ _ _ _ _).
    assert (NF : forall q, good h q -> q <> q \/ ~ inr q (a_addr f) -> good h1 q).
    { intros q (R1 & R2 & R3 & R4 & R5) [X|X]; [congruence|]. rewrite HL in R5.
      unfold good, h1. cbn [h_base h_next h_last]. repeat split; auto.
      unfold inr in X. lia. }
    assert (DREST : forall q, In q rest -> ~ inr q (a_addr f)).
    { intros q I X. specialize (O (a_addr f)). cbn [cov] in O.
      assert (Y' : inrb (freg f) (a_addr f) = true)
        by (apply inrb_iff; unfold inr; cbn [freg g_a g_n]; lia).
      rewrite Y' in O. pose proof (cov_in _ _ _ I X). lia. }
    split; [split; unfold h1; cbn [h_base h_end h_next h_slots h_hip h_used h_avail]|].
    + lia.
    + exact Q4.
    + intros x. specialize (O x). cbn [cov] in O. lia.
    + exact S.
    + intros r s I J. exact (T r s (or_intror I) J).
    + intros r I. apply NF; [exact (G r (or_intror I))|right; exact (DREST r I)].
    + intros s J. destruct (SG s J) as [R1 [R2 R3]]. split; [|auto].
      apply NF; [exact R1|right]. intros X.
      destruct R1 as (_ & _ & R6 & _ & R7). rewrite HL in R7.
      unfold inr in X. cbn [sreg g_a g_n] in *. lia.
    + lia.
    + tl.
  - (* Free2 *)
    cbn [pcreg app] in *.
    assert (GF : good h (freg f)) by (apply G; left; reflexivity).
    assert (DROP : AInv h rest).
    { split; auto.
      - intros x. specialize (O x). cbn [cov] in O. lia.
      - intros r s I J. exact (T r s (or_intror I) J).
      - intros r I. exact (G r (or_intror I)). }
    destruct (h_hip h <? a_addr f) eqn:CH.
    { injection E as <- <- <- <-. cbn [map pcreg app].
      split; [exact DROP|]. tl. }
    injection E as <- <- <- <-. cbn [map pcreg app].
    split; [|tl].
    destruct (mark_split (a_addr f) (h_slots h)) as [(u & s & v & EL & EA & M)|[M _]].
    2:{ rewrite M. destruct h; exact DROP. }
    rewrite M.
    assert (IS : In s (h_slots h)) by (rewrite EL; apply in_elt).
    assert (INL : forall t, In t (u ++ Slot (f_addr s) (f_size s) true :: v) ->
                   t = Slot (f_addr s) (f_size s) true \/ In t (u ++ v)).
    { intros t I. apply in_app_or in I. destruct I as [I|[I|I]]; auto;
        right; apply in_or_app; auto. }
    assert (INO : forall t, In t (u ++ v) -> In t (h_slots h)).
    { intros t I. rewrite EL. apply in_app_or in I. apply in_or_app. cbn [In]. tauto. }
    destruct (SG s IS) as [GS [LS HS]].
    assert (EQ : freg f = sreg s).
    { destruct (T (freg f) s (or_introl eq_refl) IS) as [D|[Q _]]; [|exact Q].
      exfalso. apply (D (a_addr f)); unfold inr; cbn [freg sreg g_a g_n].
      - destruct GF as (_ & P & _). cbn [freg g_n] in P. lia.
      - destruct GS as (_ & P & _). cbn [sreg g_n] in P. lia. }
    split; cbn [w_slots h_base h_end h_next h_slots h_hip h_used h_avail].
    + lia.
    + exact A.
    + apply DROP.
    + intros x. specialize (S x). rewrite EL in S. rewrite map_app in *. exact S.
    + intros r t I J. destruct (INL t J) as [->|J']; [|exact (T r t (or_intror I) (INO t J'))].
      left. intros x X Y. specialize (O x). cbn [cov] in O.
      assert (Y' : inrb (freg f) x = true) by (rewrite EQ; apply inrb_iff; exact Y).
      rewrite Y' in O. pose proof (cov_in _ _ _ I X). lia.
    + intros r I. exact (G r (or_intror I)).
    + intros t J. destruct (INL t J) as [->|J']; [|exact (SG t (INO t J'))].
      split; [exact GS|split; [exact LS|exact HS]].
    + auto.
  - destruct K.
Qed.

(** Lists with one place changed. *)
Lemma put_split {A} (l : list A) i p : nth_error l i = Some p ->
  exists u v, l = u ++ p :: v /\ length u = i /\ forall x, put l i x = u ++ x :: v.
Proof.
  revert i. induction l as [|y r IH]; intros [|i] E; cbn [nth_error] in E; try discriminate.
  - injection E as ->. exists [], r. repeat split; auto.
  - destruct (IH i E) as (u & v & -> & L & P). exists (y :: u), v.
    repeat split; cbn [length put app]; auto. intros x. rewrite P. reflexivity.
Qed.
Lemma del_split {A} (l : list A) i p : nth_error l i = Some p ->
  exists u v, l = u ++ p :: v /\ length u = i /\ del l i = u ++ v.
Proof.
  revert i. induction l as [|y r IH]; intros [|i] E; cbn [nth_error] in E; try discriminate.
  - injection E as ->. exists [], r. repeat split; auto.
  - destruct (IH i E) as (u & v & -> & L & P). exists (y :: u), v.
    repeat split; cbn [length del app]; auto. rewrite P. reflexivity.
Qed.

Definition own (s : state) : list reg := map freg (live s) ++ flat_map pcreg (agents s).

Record Inv (base top : N) (s : state) : Prop := {
  v_h : AInv (hp s) (own s);
  v_pc : forall p, In p (agents s) -> pcok top p;
  v_base : h_base (hp s) = base;
  v_top : h_end (hp s) = top;
  v_size : forall f, In f (live s) -> a_size f <= a_real f
}.

Lemma own_split h l u p v :
  Permutation (own (St h l (u ++ p :: v)))
              (pcreg p ++ map freg l ++ flat_map pcreg (u ++ v)).
Proof.
  unfold own. cbn [live agents]. rewrite !flat_map_app. cbn [flat_map].
  rewrite (app_assoc (flat_map pcreg u)), (app_assoc (map freg l)).
  rewrite (Permutation_app_comm (flat_map pcreg u) (pcreg p)).
  rewrite <- !app_assoc. rewrite (app_assoc (map freg l)), (app_assoc (pcreg p)).
  rewrite (Permutation_app_comm (map freg l) (pcreg p)).
  rewrite <- !app_assoc. reflexivity.
Qed.

Lemma enter_ok h o n : AInv h o -> ok_size (h_end h) n ->
  pcok (h_end h) (enter h n) /\ pcreg (enter h n) = [].
Proof.
  intros V K. unfold enter. rewrite (i_al _ _ V). cbn [N.eqb negb].
  destruct (LARGE <=? n); split; auto.
Qed.

Lemma step_inv base top s i c s' w :
  Inv base top s -> ok_call top c -> step s i c = Some (s', w) ->
  Inv base top s'
  /\ forall r x, w = Some r -> in_range r x ->
       forall f, In f (live s) -> ~ inr (freg f) x.
Proof.
  intros [V P B T Z] K E. destruct s as [h l ag]. cbn [hp live agents] in *.
  unfold step in E. cbn [hp live agents] in E.
  destruct (nth_error ag i) as [p|] eqn:N; [|discriminate].
  destruct (put_split _ _ _ N) as (u & v & -> & LU & PU).
  assert (PO : forall q, In q (u ++ v) -> pcok top q).
  { intros q I. apply P. apply in_app_or in I. apply in_or_app. cbn [In]. tauto. }
  assert (PN : forall q, pcok top q -> forall q', In q' (u ++ q :: v) -> pcok top q').
  { intros q Q q' I. apply in_app_or in I. destruct I as [I|[<-|I]]; auto;
      apply PO; apply in_or_app; auto. }
  pose proof (AInv_perm _ _ _ (own_split h l u p v) V) as V1.
  assert (GEN : p <> Idle ->
     (let '(h', fs, p', w') := section h p in
      Some (St h' (fs ++ l) (put (u ++ p :: v) i p'), w')) = Some (s', w) ->
     Inv base top s' /\ forall r x, w = Some r -> in_range r x ->
       forall f, In f l -> ~ inr (freg f) x).
  { intros NI Q. destruct (section h p) as [[[h' fs] p'] w'] eqn:SE.
    injection Q as <- <-.
    assert (KP : pcok (h_end h) p) by (rewrite T; apply P; apply in_elt).
    destruct (section_inv _ _ _ _ _ _ _ V1 KP SE) as (V2 & K2 & T2 & B2 & Z2 & W2).
    split.
    - rewrite PU. split; cbn [hp live agents]; try congruence.
      + eapply AInv_perm; [|exact V2]. symmetry.
        rewrite own_split. rewrite map_app.
        rewrite <- !app_assoc. rewrite (app_assoc (pcreg p')), (app_assoc (map freg fs)).
        rewrite (Permutation_app_comm (pcreg p') (map freg fs)).
        rewrite <- !app_assoc. reflexivity.
      + apply PN. rewrite <- T. exact K2.
      + intros f I. apply in_app_or in I. destruct I; auto.
    - intros r x Q X f I. apply (W2 r x Q X).
      apply in_or_app. left. apply in_map. exact I. }
  destruct p; try (apply GEN; [discriminate|exact E]).
  clear GEN. cbn [pcreg app] in V1. destruct c as [n|k].
  - injection E as <- <-. split; [|discriminate].
    destruct (enter_ok h _ n V) as [Q1 Q2]; [rewrite T; exact K|].
    rewrite PU. split; cbn [hp live agents]; auto.
    + eapply AInv_perm; [|exact V1]. symmetry. rewrite own_split, Q2. reflexivity.
    + apply PN. rewrite <- T. exact Q1.
  - destruct (nth_error l k) as [f|] eqn:NL; [|discriminate].
    injection E as <- <-. split; [|discriminate].
    destruct (del_split _ _ _ NL) as (u' & v' & -> & _ & DL).
    rewrite PU, DL. split; cbn [hp live agents]; auto.
    + eapply AInv_perm; [|exact V1]. symmetry. rewrite own_split. cbn [pcreg app].
      rewrite !map_app. cbn [map].
      rewrite <- !app_assoc. apply Permutation_cons_app. reflexivity.
    + apply PN. exact Logic.I.
    + intros g I. apply Z. apply in_app_or in I. apply in_or_app. cbn [In]. tauto.
Qed.

Lemma flat_idle k : flat_map pcreg (repeat Idle k) = [].
Proof. induction k; cbn [repeat flat_map pcreg app]; auto. Qed.

Lemma init_inv start size ctrl k : segment start size ctrl ->
  Inv (start + ctrl) (start + size) (init start size ctrl k).
Proof.
  intros (S1 & S2 & S3 & S4 & S5). unfold init, create.
  split; cbn [hp live agents h_base h_end]; auto.
  - unfold own. cbn [live agents map app]. rewrite flat_idle.
    split; cbn [h_base h_end h_next h_slots h_hip h_used h_avail map cov]; auto.
    + lia.
    + apply mod_add0; auto.
    + intros r s [].
    + intros r [].
    + intros s [].
    + lia.
  - intros p I. apply repeat_spec in I. subst. exact Logic.I.
  - intros f [].
Qed.

Lemma reach_inv start size ctrl k s : segment start size ctrl ->
  reach start size ctrl k s -> Inv (start + ctrl) (start + size) s.
Proof.
  intros S R. induction R as [|s i c s' w R IH K E].
  - apply init_inv; auto.
  - eapply step_inv; eauto.
Qed.
