(** * C09: page edits stay inside the page

    For every sequence of edits of a page of bytes: no read or write leaves the
    page, and the entries read back are those a plain list would hold. *)

From Coq Require Import List NArith Arith Bool Lia.
From Verif Require Import Base Codec Page PageProofs PageBytes PageBytesProofs.
Import ListNotations.
Local Open Scope N_scope.

(** ** Specification: a page is a list of entries *)
Inductive edit (E : Type) :=
| SetLeaf (k : nat) (e : E) | InsertLeaf (k : nat) (e : E)
| SetIndex (k : nat) (e : E) | InsertIndex (k : nat) (e : E)
| Truncate (n : nat) | DefragmentLeaf | DefragmentIndex.
Arguments SetLeaf {E}. Arguments InsertLeaf {E}. Arguments SetIndex {E}. Arguments InsertIndex {E}.
Arguments Truncate {E}. Arguments DefragmentLeaf {E}. Arguments DefragmentIndex {E}.

Fixpoint replace {A} (k : nat) (x : A) (l : list A) : list A :=
  match k, l with
  | O, _ :: r => x :: r
  | O, [] => [x]
  | S k', y :: r => y :: replace k' x r
  | S _, [] => []
  end.
Fixpoint insert_at {A} (k : nat) (x : A) (l : list A) : list A :=
  match k, l with
  | O, _ => x :: l
  | S k', y :: r => y :: insert_at k' x r
  | S _, [] => []
  end.
Fixpoint keep {A} (n : nat) (l : list A) : list A :=
  match n, l with S n', y :: r => y :: keep n' r | _, _ => [] end.

Definition list_edit {E} (op : edit E) (l : list E) : list E :=
  match op with
  | SetLeaf k e | SetIndex k e => replace k e l
  | InsertLeaf k e | InsertIndex k e => insert_at k e l
  | Truncate n => keep n l
  | DefragmentLeaf | DefragmentIndex => l
  end.
(** What callers guarantee: positions inside the list, entries that the
    encoding can hold. *)
Definition edit_ok {E} (ok : E -> Prop) (op : edit E) (l : list E) : Prop :=
  match op with
  | SetLeaf k e | SetIndex k e | InsertLeaf k e | InsertIndex k e => (k <= length l)%nat /\ ok e
  | Truncate n => (n <= length l)%nat
  | DefragmentLeaf | DefragmentIndex => True
  end.

(** ** The code *)
(** [None]: an access outside the page or a failed assertion.  Otherwise
    whether the call returned TRUE, and the bytes after it. *)
Definition of_pres (bs : bytes) (r : option (pres bytes)) : option (bool * bytes) :=
  match r with
  | Some (PTrue b) => Some (true, b)
  | Some PFalse => Some (false, bs)
  | _ => None
  end.
Definition byte_edit {E} (c : codec E) (P : N) (op : edit E) (bs : bytes) : option (bool * bytes) :=
  match op with
  | SetLeaf k e => of_pres bs (b_set_leaf c bs k e)
  | InsertLeaf k e => of_pres bs (b_insert_leaf c bs k e)
  | SetIndex k e => of_pres bs (b_set_index c bs k e)
  | InsertIndex k e => of_pres bs (b_insert_index c bs k e)
  | Truncate n => option_map (pair true) (b_truncate P bs n)
  | DefragmentLeaf => option_map (pair true) (b_defragment_leaf c P bs)
  | DefragmentIndex => option_map (pair true) (b_defragment_index c P bs)
  end.

(** Pages reached by edits, with the list the edits describe. *)
Inductive edited {E} (c : codec E) (ok : E -> Prop) (P : N) : bytes -> list E -> Prop :=
| ed_init : forall junk bs, blen junk = P -> b_init P junk = Some bs -> edited c ok P bs []
| ed_done : forall bs l op bs', edited c ok P bs l -> edit_ok ok op l ->
    byte_edit c P op bs = Some (true, bs') -> edited c ok P bs' (list_edit op l)
| ed_full : forall bs l op bs', edited c ok P bs l -> edit_ok ok op l ->
    byte_edit c P op bs = Some (false, bs') -> edited c ok P bs' l.

(** ** Proof *)
Lemma replace_set_nth : forall A k (x : A) l, (k <= length l)%nat -> replace k x l = set_nth k x l.
Proof.
  unfold set_nth. induction k; intros x l H; destruct l; cbn in *; try reflexivity; try lia.
  f_equal. rewrite IHk by lia. reflexivity.
Qed.
Lemma insert_at_nth : forall A k (x : A) l, (k <= length l)%nat -> insert_at k x l = insert_nth k x l.
Proof.
  unfold insert_nth. induction k; intros x l H; destruct l; cbn in *; try reflexivity; try lia.
  f_equal. rewrite IHk by lia. reflexivity.
Qed.
Lemma keep_firstn : forall A n (l : list A), keep n l = firstn n l.
Proof. induction n; intros [|x l]; cbn; auto. now rewrite IHn. Qed.

Section C09.
  Context {E : Type}.
  Variable c : codec E.
  Variable ok : E -> Prop.
  Hypothesis good : good_codec c ok.
  Variable P : N.
  Hypothesis HP : 37 <= P < 2 ^ 16.
  Notation rep := (rep c ok P).
  Notation sz := (c_sz c).

  Lemma edit_sim : forall bs p op, rep bs p -> edit_ok ok op (pg_cont p) ->
    exists f bs' p', byte_edit c P op bs = Some (f, bs') /\ rep bs' p' /\
      pg_cont p' = (if f then list_edit op (pg_cont p) else pg_cont p) /\
      (f = false -> bs' = bs).
  Proof.
    intros bs p op H Hop. destruct HP as [HP1 HP2].
    assert (szp : forall e, 0 < sz e) by (intros e; pose proof (gc_min _ _ good e); lia).
    pose proof (r_ok _ _ _ _ _ H) as Pok.
    destruct op as [k e|k e|k e|k e|n| |]; cbn [edit_ok byte_edit list_edit] in *.
    - destruct Hop as [Hk He]. rewrite cont_length in Hk.
      pose proof (set_leaf_sim c ok good P HP2 bs p k e H He) as S.
      pose proof (set_leaf_entry_spec sz P p k e Pok Hk) as Sp.
      destruct (set_leaf_entry sz p k e) as [| |p1]; cbn in S; [destruct Sp| |].
      + rewrite S. exists false, bs, p. auto.
      + destruct S as (b1 & -> & R). exists true, b1, p1. split; [reflexivity|]. split; [exact R|].
        split; [|discriminate]. rewrite replace_set_nth by (rewrite cont_length; exact Hk). apply Sp.
    - destruct Hop as [Hk He]. rewrite cont_length in Hk.
      pose proof (insert_leaf_sim c ok good P HP2 bs p k e H He Hk) as S.
      destruct (insert_leaf_entry_spec sz P p k e Pok Hk) as [[Ei _]|(p2 & Ei & _ & C & _)]; rewrite Ei in S; cbn in S.
      + rewrite S. exists false, bs, p. auto.
      + destruct S as (b1 & -> & R). exists true, b1, p2. split; [reflexivity|]. split; [exact R|].
        split; [|discriminate]. rewrite insert_at_nth by (rewrite cont_length; exact Hk). exact C.
    - destruct Hop as [Hk He]. rewrite cont_length in Hk.
      pose proof (set_index_sim c ok good P HP2 bs p k e H He) as S.
      pose proof (set_index_entry_spec sz P szp p k e Pok Hk) as Sp.
      destruct (set_index_entry sz p k e) as [| |p1]; cbn in S; [destruct Sp| |].
      + rewrite S. exists false, bs, p. auto.
      + destruct S as (b1 & -> & R). exists true, b1, p1. split; [reflexivity|]. split; [exact R|].
        split; [|discriminate]. rewrite replace_set_nth by (rewrite cont_length; exact Hk). apply Sp.
    - destruct Hop as [Hk He]. rewrite cont_length in Hk.
      pose proof (insert_index_sim c ok good P HP2 bs p k e H He Hk) as S.
      destruct (insert_index_entry_spec sz P p k e Pok Hk) as [[Ei _]|(p2 & Ei & _ & C & _)]; rewrite Ei in S; cbn in S.
      + rewrite S. exists false, bs, p. auto.
      + destruct S as (b1 & -> & R). exists true, b1, p2. split; [reflexivity|]. split; [exact R|].
        split; [|discriminate]. rewrite insert_at_nth by (rewrite cont_length; exact Hk). exact C.
    - rewrite cont_length in Hop. destruct (pg_truncate_spec sz P p n Pok Hop) as (p1 & E1 & _ & C & _).
      destruct (truncate_sim c ok good P HP2 bs p n p1 H E1) as (b1 & -> & R).
      exists true, b1, p1. split; [reflexivity|]. split; [exact R|]. split; [now rewrite keep_firstn|discriminate].
    - destruct (defragment_leaf_sim c ok good P HP2 bs p H) as (b1 & p1 & -> & R & C & _).
      exists true, b1, p1. split; [reflexivity|]. split; [exact R|]. split; [exact C|discriminate].
    - destruct (defragment_index_sim c ok good P HP2 bs p H) as (b1 & p1 & -> & _ & R & C & _).
      exists true, b1, p1. split; [reflexivity|]. split; [exact R|]. split; [exact C|discriminate].
  Qed.

  Lemma edited_rep : forall bs l, edited c ok P bs l -> exists p, rep bs p /\ pg_cont p = l.
  Proof.
    induction 1 as [junk bs HL Hi|bs l op bs' He IH Hop Hb|bs l op bs' He IH Hop Hb].
    - destruct (init_rep c ok P (proj2 HP) junk HL (proj1 HP)) as (b & E1 & R). rewrite Hi in E1. injection E1 as <-.
      exists (pg_empty P). auto.
    - destruct IH as (p & R & C). subst l. destruct (edit_sim bs p op R Hop) as (f & b1 & p1 & E1 & R1 & C1 & _).
      rewrite Hb in E1. injection E1 as <- <-. exists p1. auto.
    - destruct IH as (p & R & C). subst l. destruct (edit_sim bs p op R Hop) as (f & b1 & p1 & E1 & R1 & C1 & _).
      rewrite Hb in E1. injection E1 as <- <-. exists p1. auto.
  Qed.

  (** Reading an edited page gives the list; and every further legal edit is
      carried out inside the page, leaving the bytes alone when it says FALSE. *)
  Definition page_faithful : Prop := forall bs l, edited c ok P bs l ->
    blen bs = P /\ b_entries c bs = Some l /\
    forall op, edit_ok ok op l -> exists f bs', byte_edit c P op bs = Some (f, bs') /\
      blen bs' = P /\ b_entries c bs' = Some (if f then list_edit op l else l) /\ (f = false -> bs' = bs).

  Lemma faithful : page_faithful.
  Proof.
    intros bs l He. destruct (edited_rep bs l He) as (p & R & C). subst l.
    split; [apply (r_len _ _ _ _ _ R)|]. split; [apply (b_entries_rep c ok good P (proj2 HP) bs p R)|].
    intros op Hop. destruct (edit_sim bs p op R Hop) as (f & b1 & p1 & E1 & R1 & C1 & F1).
    exists f, b1. split; [exact E1|]. split; [apply (r_len _ _ _ _ _ R1)|]. split; [|exact F1].
    rewrite (b_entries_rep c ok good P (proj2 HP) b1 p1 R1). now rewrite C1.
  Qed.

  (** After defragmenting, adding an entry succeeds exactly when header, offset
      table and entries fit in the page: no space is lost. *)
  Definition bytes_needed (l : list E) : N :=
    37 + 2 * N.of_nat (length l) + fold_right (fun e n => sz e + n) 0 l.

  Definition no_space_lost : Prop := forall bs l op bs', edited c ok P bs l ->
    op = DefragmentLeaf \/ op = DefragmentIndex -> byte_edit c P op bs = Some (true, bs') ->
    forall k e, (k <= length l)%nat -> ok e ->
      exists f, (exists bs3, byte_edit c P (InsertLeaf k e) bs' = Some (f, bs3)) /\
        (exists bs3, byte_edit c P (InsertIndex k e) bs' = Some (f, bs3)) /\
        (f = true <-> bytes_needed (e :: l) <= P).

  Lemma no_loss : no_space_lost.
  Proof.
    intros bs l op bs' He Hop Hb k e Hk Hok. destruct (edited_rep bs l He) as (p & R & C). subst l.
    destruct HP as [HP1 HP2].
    assert (X : exists p', rep bs' p' /\ pg_cont p' = pg_cont p /\ pg_next p' = P - sum_sz sz (pg_cont p)).
    { destruct Hop as [-> | ->]; cbn [byte_edit] in Hb.
      - destruct (defragment_leaf_sim c ok good P HP2 bs p R) as (b1 & p1 & E1 & R1 & C1 & N1).
        rewrite E1 in Hb. injection Hb as <-. eauto.
      - destruct (defragment_index_sim c ok good P HP2 bs p R) as (b1 & p1 & E1 & _ & R1 & C1 & N1).
        rewrite E1 in Hb. injection Hb as <-. eauto. }
    destruct X as (p' & R' & C' & N').
    assert (Hk' : (k <= pg_num p')%nat) by (rewrite <- cont_length, C'; exact Hk).
    assert (Hneed : bytes_needed (e :: pg_cont p) = off_end (S (pg_num p')) + sz e + sum_sz sz (pg_cont p)).
    { unfold bytes_needed, off_end, sizeof_btree_hdr. rewrite <- (cont_length p'), C'.
      cbn [length fold_right]. fold (sum_sz sz (pg_cont p)). lia. }
    assert (szp : forall e, 0 < sz e) by (intros x; pose proof (gc_min _ _ good x); lia).
    pose proof (page_live sz P szp p (r_ok _ _ _ _ _ R)) as Hl. unfold pg_live in Hl.
    pose proof (insert_leaf_sim c ok good P HP2 bs' p' k e R' Hok Hk') as S1.
    pose proof (insert_index_sim c ok good P HP2 bs' p' k e R' Hok Hk') as S2.
    destruct (insert_leaf_entry_spec sz P p' k e (r_ok _ _ _ _ _ R') Hk') as [[Ei Q]|(p2 & Ei & _ & _ & _ & Q)]; rewrite Ei in S1; cbn in S1;
    destruct (insert_index_entry_spec sz P p' k e (r_ok _ _ _ _ _ R') Hk') as [[Ej Q2]|(p3 & Ej & _ & _ & _ & Q2)]; rewrite Ej in S2; cbn in S2; try lia.
    - exists false. cbn [byte_edit]. rewrite S1, S2. cbn [of_pres]. split; [eauto|]. split; [eauto|].
      split; [discriminate|]. intros. exfalso. lia.
    - destruct S1 as (b1 & S1 & _). destruct S2 as (b2 & S2 & _).
      exists true. cbn [byte_edit]. rewrite S1, S2. cbn [of_pres]. split; [eauto|]. split; [eauto|].
      split; [|auto]. intros _. lia.
  Qed.
End C09.

(** C09 for leaf pages and for index pages, for every page size the 16-bit
    offsets can address. *)
Theorem C09_leaf_page_edits : forall P, 37 <= P < 2 ^ 16 -> page_faithful leaf_codec leaf_ok P.
Proof. intros P HP. exact (faithful _ _ leaf_codec_good P HP). Qed.

Theorem C09_index_page_edits : forall P, 37 <= P < 2 ^ 16 -> page_faithful index_codec index_ok P.
Proof. intros P HP. exact (faithful _ _ index_codec_good P HP). Qed.

Theorem C09_leaf_defragment_room : forall P, 37 <= P < 2 ^ 16 -> no_space_lost leaf_codec leaf_ok P.
Proof. intros P HP. exact (no_loss _ _ leaf_codec_good P HP). Qed.

Theorem C09_index_defragment_room : forall P, 37 <= P < 2 ^ 16 -> no_space_lost index_codec index_ok P.
Proof. intros P HP. exact (no_loss _ _ index_codec_good P HP). Qed.

Print Assumptions C09_leaf_page_edits.
Print Assumptions C09_index_page_edits.
Print Assumptions C09_leaf_defragment_room.
Print Assumptions C09_index_defragment_room.

(** ** Non-vacuity: a 64-byte leaf page, filled, found full, replaced in place,
    defragmented and filled again. *)
Definition ex_e (k v : N) : lent := ([k], Msg MInsert [v]).
Fixpoint byte_edits {E} (c : codec E) (P : N) (ops : list (edit E)) (bs : bytes) : option (list bool * bytes) :=
  match ops with
  | [] => Some ([], bs)
  | op :: r => match byte_edit c P op bs with
               | None => None
               | Some (f, b1) => match byte_edits c P r b1 with
                                 | None => None | Some (fs, b2) => Some (f :: fs, b2) end
               end
  end.
Example C09_ex :
  match b_init 64 (repeat 7 64) with
  | Some b0 =>
      match byte_edits leaf_codec 64
              [InsertLeaf 0 (ex_e 5 1); InsertLeaf 0 (ex_e 3 2); InsertLeaf 1 (ex_e 4 9);
               SetLeaf 1 (ex_e 5 7); Truncate 1; DefragmentLeaf; InsertLeaf 1 (ex_e 9 9)] b0 with
      | Some (fs, b) => fs = [true; true; false; true; true; true; true] /\
                        b_entries leaf_codec b = Some [ex_e 3 2; ex_e 9 9]
      | None => False
      end
  | None => False
  end.
Proof. vm_compute. split; reflexivity. Qed.

Example C09_ex_reach : exists bs l, edited leaf_codec leaf_ok 64 bs l /\ l = [ex_e 3 2; ex_e 5 1].
Proof.
  destruct (b_init 64 (repeat 7 64)) as [b0|] eqn:E0; [|vm_compute in E0; discriminate].
  assert (A0 : edited leaf_codec leaf_ok 64 b0 []) by (eapply ed_init; [|exact E0]; reflexivity).
  vm_compute in E0. injection E0 as <-.
  assert (K : forall k v, leaf_ok (ex_e k v)) by (intros; split; reflexivity).
  eexists _, _. split; [|reflexivity].
  refine (ed_done _ _ _ _ [ex_e 5 1] (InsertLeaf 0 (ex_e 3 2)) _ _ (conj (le_S _ _ (le_n _)) (K _ _)) _).
  - refine (ed_done _ _ _ _ [] (InsertLeaf 0 (ex_e 5 1)) _ A0 (conj (le_n _) (K _ _)) _). vm_compute. reflexivity.
  - vm_compute. reflexivity.
Qed.
