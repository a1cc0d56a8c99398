(** * Proofs about the number parsers *)

From Coq Require Import List ZArith NArith Bool Lia.
From Verif Require Import Parse Spec_Parse.
Import ListNotations.
Local Open Scope N_scope.

Lemma isspace_white : forall c, isspace c = true <-> white c.
Proof.
  intros c. unfold isspace, white. simpl.
  rewrite orb_true_iff, andb_true_iff, N.eqb_eq, !N.leb_le.
  split.
  - intros [->|[A B]]; auto. assert (c = 9 \/ c = 10 \/ c = 11 \/ c = 12 \/ c = 13) by lia.
    intuition.
  - intros H. decompose [or] H; subst; try (right; lia); try lia; contradiction.
Qed.

Ltac nbool :=
  repeat match goal with
  | |- context [?a <? ?b] => destruct (N.ltb_spec a b)
  | |- context [?a <=? ?b] => destruct (N.leb_spec a b)
  | |- context [?a =? ?b] => destruct (N.eqb_spec a b)
  end; simpl.

Ltac ntt :=
  match goal with
  | |- context [?a <? ?b] =>
      first [replace (a <? b) with true by (symmetry; apply N.ltb_lt; lia)
            |replace (a <? b) with false by (symmetry; apply N.ltb_ge; lia)]
  | |- context [?a <=? ?b] =>
      first [replace (a <=? b) with true by (symmetry; apply N.leb_le; lia)
            |replace (a <=? b) with false by (symmetry; apply N.leb_gt; lia)]
  end.

Lemma digit_of_spec : forall base c d, base <= 36 ->
  (digit_of base c = Some d <-> is_digit c d /\ d < base).
Proof.
  intros base c d Hb. split.
  - unfold digit_of, isascii, isdigit, isalpha, isupper, islower.
    destruct (c <? 128) eqn:A; simpl; [|discriminate]. apply N.ltb_lt in A.
    destruct (N.leb_spec 48 c); destruct (N.leb_spec c 57); simpl.
    + destruct (N.leb_spec base (c - 48)); [discriminate|]. intros E; inversion E; subst. split; auto.
      replace c with (48 + (c - 48)) at 1 by lia. constructor. lia.
    + destruct (N.leb_spec 65 c); destruct (N.leb_spec c 90); simpl.
      * destruct (N.leb_spec base (c - 55)); [discriminate|]. intros E; inversion E; subst. split; auto.
        replace c with (65 + ((c - 55) - 10)) at 1 by lia. constructor. lia.
      * destruct (N.leb_spec 97 c); destruct (N.leb_spec c 122); simpl; try discriminate.
        destruct (N.leb_spec base (c - 87)); [discriminate|]. intros E; inversion E; subst. split; auto.
        replace c with (97 + ((c - 87) - 10)) at 1 by lia. constructor. lia.
      * destruct (N.leb_spec 97 c); destruct (N.leb_spec c 122); simpl; try discriminate; lia.
      * lia.
    + destruct (N.leb_spec 65 c); destruct (N.leb_spec c 90); simpl; try lia;
      destruct (N.leb_spec 97 c); destruct (N.leb_spec c 122); simpl; try discriminate; lia.
    + lia.
  - intros [D L]. unfold digit_of, isascii, isdigit, isalpha, isupper, islower.
    destruct D as [d H|d H|d H]; repeat ntt; cbn [negb andb orb]; repeat ntt; f_equal; lia.
Qed.

Lemma is_digit_not_space : forall c d, is_digit c d -> isspace c = false.
Proof.
  intros c d D. unfold isspace. destruct D; nbool; try lia; reflexivity.
Qed.

(** head of a list after which a parse of digits or spaces stops *)
Definition starts_white (l : list N) : Prop :=
  match l with [] => True | c :: _ => isspace c = true end.
Definition starts_black (l : list N) : Prop :=
  match l with [] => True | c :: _ => isspace c = false end.

Lemma skip_spaces_spec : forall l, exists sp, l = sp ++ skip_spaces l /\ Forall white sp /\
  starts_black (skip_spaces l).
Proof.
  induction l as [|c l IH]; simpl.
  - exists []. simpl. auto.
  - destruct (isspace c) eqn:E.
    + destruct IH as [sp [E1 [F B]]]. exists (c :: sp). simpl. rewrite <- E1. split; auto.
      split; auto. constructor; auto. now apply isspace_white.
    + exists []. simpl. auto.
Qed.

Lemma skip_spaces_app : forall sp r, Forall white sp -> starts_black r -> skip_spaces (sp ++ r) = r.
Proof.
  induction sp as [|c sp IH]; intros r F B; simpl.
  - destruct r; auto. simpl in *. now rewrite B.
  - inversion F; subst. apply isspace_white in H1. rewrite H1. auto.
Qed.

Lemma horner_ge : forall base ds acc, 0 < base -> acc <= horner base acc ds.
Proof.
  induction ds; intros acc Hb; simpl; [lia|].
  specialize (IHds (acc * base + a) Hb). nia.
Qed.

Lemma overflow_check : forall limit base value d, 0 < base -> d < base ->
  ((limit / base <? value) || ((value =? limit / base) && (limit mod base <? d)) = true
   <-> limit < value * base + d).
Proof.
  intros limit base value d Hb Hd.
  pose proof (N.div_mod' limit base) as E. pose proof (N.mod_lt limit base ltac:(lia)) as M.
  rewrite orb_true_iff, andb_true_iff, N.eqb_eq, !N.ltb_lt.
  set (q := limit / base) in *. set (r := limit mod base) in *. split.
  - intros [H|[H1 H2]]; nia.
  - intros H. destruct (N.lt_trichotomy value q) as [L|[L|L]]; [nia| |auto].
    right. split; auto. nia.
Qed.

Definition nonempty {A} (l : list A) : bool := match l with [] => false | _ => true end.

Section Loop.
  Variables (base limit : N).
  Hypothesis Hb : 0 < base <= 36.
  Hypothesis Hl : limit < 2 ^ 64.

  Lemma loop_sound : forall l value conv v conv' rest,
    value <= limit ->
    digits_loop base (limit / base) (limit mod base) l value conv = Some (v, conv', rest) ->
    exists cs ds, l = cs ++ rest /\ numeral base cs ds /\ v = horner base value ds /\
      v <= limit /\ starts_white rest /\ conv' = conv || nonempty ds.
  Proof.
    induction l as [|c l IH]; intros value conv v conv' rest Hv H; cbn [digits_loop] in H.
    - inversion H; subst. exists [], []. simpl. rewrite orb_false_r. repeat split; auto. constructor.
    - destruct (isspace c) eqn:ES.
      + inversion H; subst. exists [], []. simpl. rewrite orb_false_r. repeat split; auto. constructor.
      + destruct (digit_of base c) as [d|] eqn:ED; [|discriminate].
        apply digit_of_spec in ED; [|lia]. destruct ED as [D L].
        destruct ((limit / base <? value) || _) eqn:EO in H; [discriminate|].
        assert (NO: value * base + d <= limit).
        { destruct (N.le_gt_cases (value * base + d) limit); auto.
          exfalso. assert (X: limit < value * base + d) by lia.
          apply overflow_check in X; try lia. congruence. }
        assert (U: u64 (u64 (value * base) + d) = value * base + d).
        { unfold u64. rewrite (N.mod_small (value * base)) by lia. apply N.mod_small. lia. }
        rewrite U in H. apply IH in H; auto.
        destruct H as [cs [ds [E1 [E2 [E3 [E4 [E5 E6]]]]]]].
        exists (c :: cs), (d :: ds). simpl. subst l. repeat split; auto.
        * constructor; auto.
        * rewrite E6. rewrite orb_true_r. reflexivity.
  Qed.

  Lemma loop_complete : forall cs ds rest value conv,
    numeral base cs ds -> starts_white rest -> horner base value ds <= limit ->
    digits_loop base (limit / base) (limit mod base) (cs ++ rest) value conv
      = Some (horner base value ds, conv || nonempty ds, rest).
  Proof.
    intros cs ds rest value conv H. revert rest value conv.
    induction H as [|c d cs ds D L H IH]; intros rest value conv SW HL; simpl in *.
    - rewrite orb_false_r. destruct rest as [|c r]; cbn [digits_loop]; auto. simpl in SW. now rewrite SW.
    - rewrite (is_digit_not_space c d D).
      assert (DO: digit_of base c = Some d) by (apply digit_of_spec; auto; lia). rewrite DO.
      assert (NO: value * base + d <= limit) by (pose proof (horner_ge base ds (value * base + d)); lia).
      destruct ((limit / base <? value) || _) eqn:EO.
      { apply overflow_check in EO; lia. }
      assert (U: u64 (u64 (value * base) + d) = value * base + d).
      { unfold u64. rewrite (N.mod_small (value * base)) by lia. apply N.mod_small. lia. }
      rewrite U, IH by auto. rewrite orb_true_r. reflexivity.
  Qed.
End Loop.

Lemma numeral_first_char : forall base cs d ds, numeral base cs (d :: ds) ->
  exists c cs', cs = c :: cs' /\ is_digit c d /\ d < base /\ numeral base cs' ds.
Proof. intros. inversion H; subst. eauto 10. Qed.

Lemma is_digit_range : forall c d, is_digit c d -> 48 <= c /\ (c = 48 -> d = 0) /\ (d = 0 -> c = 48) /\
   (d < 8 -> c <= 55) /\ (d < 10 -> c <= 57).
Proof. intros c d H. destruct H; repeat split; lia. Qed.

(** After the sign: base selection. *)
Definition pick_base (l1 : list N) : N * list N :=
  match l1 with
  | c :: x :: r => if (c =? 48) && ((x =? 120) || (x =? 88)) then (16, r)
                   else if c =? 48 then (8, l1) else (10, l1)
  | c :: [] => if c =? 48 then (8, l1) else (10, l1)
  | [] => (10, l1)
  end.

Lemma isspace_bounds : forall c, isspace c = true -> c <= 32.
Proof.
  intros c H. unfold isspace in H. rewrite orb_true_iff, andb_true_iff, N.eqb_eq, !N.leb_le in H. lia.
Qed.

Lemma pick_base_complete : forall cs base ds sp, body cs base ds -> starts_white sp ->
  exists cs', pick_base (cs ++ sp) = (base, cs' ++ sp) /\ numeral base cs' ds /\ ds <> [] /\
    0 < base <= 36 /\ starts_black (cs ++ sp) /\
    match cs ++ sp with c :: _ => c <> 43 /\ c <> 45 | [] => True end.
Proof.
  intros cs base ds sp B SW. destruct B as [x cs ds Hx N0 NE|cs ds N0|cs d ds N0 NZ].
  - exists cs. simpl. assert ((x =? 120) || (x =? 88) = true) as ->.
    { destruct Hx; subst; reflexivity. }
    repeat split; auto; lia.
  - exists (48 :: cs). simpl. split; [|repeat split; try discriminate; try lia].
    + destruct (cs ++ sp) as [|x r] eqn:E; auto.
      assert (X: (x =? 120) || (x =? 88) = false).
      { destruct cs as [|c cs].
        - simpl in E. subst sp. simpl in SW. apply isspace_bounds in SW.
          apply orb_false_iff. rewrite !N.eqb_neq. lia.
        - simpl in E. inversion E; subst. inversion N0; subst.
          apply is_digit_range in H1. apply orb_false_iff. rewrite !N.eqb_neq. lia. }
      now rewrite X.
    + constructor; auto; try lia. replace 48 with (48 + 0) by lia. constructor. lia.
  - destruct (numeral_first_char _ _ _ _ N0) as [c [cs' [-> [D [L N1]]]]].
    pose proof (is_digit_range c d D) as R. pose proof (is_digit_not_space c d D) as SP.
    exists (c :: cs'). simpl. rewrite SP.
    assert (E48: (c =? 48) = false) by (apply N.eqb_neq; intros ->; apply NZ; apply R; auto).
    rewrite E48. simpl. split; [destruct (cs' ++ sp); reflexivity|].
    split; [constructor; auto|]. split; [discriminate|]. split; [lia|]. split; [reflexivity|lia].
Qed.

Lemma pick_base_sound : forall l1 base l2 cs' ds sp,
  pick_base l1 = (base, l2) -> l2 = cs' ++ sp -> numeral base cs' ds -> ds <> [] ->
  starts_white sp ->
  exists cs, l1 = cs ++ sp /\ body cs base ds.
Proof.
  intros l1 base l2 cs' ds sp P E N0 NE SW.
  assert (K: (base = 8 /\ l2 = l1 /\ exists r, l1 = 48 :: r) \/
             (base = 10 /\ l2 = l1 /\ forall r, l1 <> 48 :: r) \/
             (base = 16 /\ exists x, (x = 120 \/ x = 88) /\ l1 = 48 :: x :: l2)).
  { destruct l1 as [|c [|x r]]; simpl in P.
    - inversion P; subst. right; left. repeat split; auto. intros r; discriminate.
    - destruct (N.eqb_spec c 48); inversion P; subst; [left; eauto|].
      right; left. repeat split; auto. intros r C; inversion C; auto.
    - destruct (N.eqb_spec c 48); simpl in P.
      + destruct ((x =? 120) || (x =? 88)) eqn:X; inversion P; subst; [|left; eauto].
        right; right. split; auto. exists x. split; auto.
        apply orb_true_iff in X. rewrite !N.eqb_eq in X. auto.
      + inversion P; subst. right; left. repeat split; auto. intros r' C; inversion C; auto. }
  destruct K as [[-> [-> [r Hr]]]|[[-> [-> Hr]]|[-> [x [Hx Hr]]]]].
  - destruct ds as [|d ds]; [congruence|].
    destruct (numeral_first_char _ _ _ _ N0) as [c [cs1 [-> [D [L N1]]]]].
    exists (c :: cs1). split; auto. rewrite Hr in E. simpl in E. inversion E; subst c.
    assert (d = 0) by (apply is_digit_range in D; tauto). subst d. constructor; auto.
  - destruct ds as [|d ds]; [congruence|].
    exists cs'. split; auto. constructor; auto. intros ->.
    destruct (numeral_first_char _ _ _ _ N0) as [c [cs1 [-> [D [L N1]]]]].
    assert (c = 48) by (apply is_digit_range in D; tauto). subst c. simpl in E. eapply Hr; eauto.
  - exists (48 :: x :: cs'). split; [subst l2; rewrite Hr; reflexivity|]. constructor; auto.
Qed.

Lemma limit_parser_spec : forall s nl pl n, nl < 2 ^ 64 -> pl < 2 ^ 64 ->
  (try_string_to_uint64_limit s nl pl = Some n <->
   (exists v, denotes s false v /\ v <= pl /\ n = v) \/
   (exists v, denotes s true v /\ nl <> 0 /\ v <= nl /\ n = (2 ^ 64 - v) mod 2 ^ 64)).
Proof.
  intros s nl pl n Hn Hp. split.
  - unfold try_string_to_uint64_limit. destruct (skip_spaces_spec s) as [sp1 [E1 [F1 B1]]].
    set (l := skip_spaces s) in *.
    remember (match l with
              | c :: r => if c =? 45 then if nl =? 0 then None else Some (true, r)
                          else if c =? 43 then Some (false, r) else Some (false, l)
              | [] => Some (false, l) end) as sg eqn:ESG.
    destruct sg as [[neg l1]|]; [|discriminate].
    assert (SG: exists sgn, l = sgn ++ l1 /\ sign_of sgn neg /\ (neg = true -> nl <> 0)).
    { destruct l as [|c r].
      - inversion ESG; subst. exists []. repeat split; auto; try constructor. discriminate.
      - destruct (N.eqb_spec c 45).
        + destruct (N.eqb_spec nl 0); inversion ESG; subst. exists [45].
          repeat split; auto. constructor.
        + destruct (N.eqb_spec c 43); inversion ESG; subst.
          * exists [43]. repeat split; auto; [constructor|discriminate].
          * exists []. repeat split; auto; [constructor|discriminate]. }
    clear ESG. destruct SG as [sgn [ES [SO SN]]].
    fold (pick_base l1). destruct (pick_base l1) as [base l2] eqn:PB.
    set (limit := if neg then nl else pl).
    assert (HL: limit < 2 ^ 64) by (unfold limit; destruct neg; auto).
    assert (Hb: 0 < base <= 36).
    { unfold pick_base in PB. destruct l1 as [|c [|x r]].
      - inversion PB; lia.
      - destruct (c =? 48); inversion PB; lia.
      - destruct ((c =? 48) && _); [inversion PB; lia|]. destruct (c =? 48); inversion PB; lia. }
    destruct (digits_loop base (limit / base) (limit mod base) l2 0 false) as [[[v conv] rest]|] eqn:DL;
      [|discriminate].
    apply loop_sound in DL; auto; [|lia].
    destruct DL as [cs' [ds [EL [NU [EV [LV [SW EC]]]]]]].
    destruct (skip_spaces_spec rest) as [sp2 [E2 [F2 B2]]].
    destruct (skip_spaces rest); [|discriminate]. rewrite app_nil_r in E2. subst rest.
    destruct conv; [|discriminate]. intros R. inversion R; subst n. clear R.
    destruct ds as [|d0 ds0]; [simpl in EC; discriminate|].
    destruct (pick_base_sound l1 base l2 cs' (d0 :: ds0) sp2 PB EL NU ltac:(discriminate) SW)
      as [cs [EL1 BD]].
    assert (DN: denotes s neg v).
    { exists sp1, sgn, cs, base, (d0 :: ds0), sp2. subst v. repeat split; auto.
      rewrite <- EL1, <- ES. auto. }
    unfold limit in LV. destruct neg.
    + right. exists v. repeat split; auto.
    + left. exists v. auto.
  - intros H.
    assert (K: exists neg v, denotes s neg v /\ (neg = true -> nl <> 0) /\
               v <= (if neg then nl else pl) /\
               n = (if neg then u64 (2 ^ 64 - v) else v)).
    { destruct H as [[v [D [L E]]]|[v [D [NZ [L E]]]]]; [exists false, v|exists true, v];
        repeat split; auto. discriminate. }
    clear H. destruct K as [neg [v [[sp1 [sgn [cs [base [ds [sp2 [ES [F1 [F2 [SO [BD EV]]]]]]]]]]] [NZ [L EN]]]]].
    assert (SW: starts_white sp2).
    { destruct sp2; simpl; auto. inversion F2; subst. now apply isspace_white. }
    destruct (pick_base_complete cs base ds sp2 BD SW) as [cs' [PB [NU [NE [Hb [SB HD]]]]]].
    unfold try_string_to_uint64_limit. rewrite ES.
    rewrite skip_spaces_app; auto.
    2:{ destruct SO; simpl; auto. }
    assert (E1: (match sgn ++ cs ++ sp2 with
              | c :: r => if c =? 45 then if nl =? 0 then None else Some (true, r)
                          else if c =? 43 then Some (false, r) else Some (false, sgn ++ cs ++ sp2)
              | [] => Some (false, sgn ++ cs ++ sp2) end) = Some (neg, cs ++ sp2)).
    { destruct SO.
      - simpl. destruct (cs ++ sp2) as [|c r]; auto. destruct HD.
        destruct (N.eqb_spec c 45); [congruence|]. destruct (N.eqb_spec c 43); [congruence|]. auto.
      - reflexivity.
      - simpl. specialize (NZ eq_refl). destruct (N.eqb_spec nl 0); [congruence|]. auto. }
    rewrite E1. fold (pick_base (cs ++ sp2)). rewrite PB.
    set (limit := if neg then nl else pl) in *.
    assert (HL: limit < 2 ^ 64) by (unfold limit; destruct neg; auto).
    rewrite (loop_complete base limit Hb HL cs' ds sp2 0 false); auto; [|lia].
    rewrite <- (app_nil_r sp2), skip_spaces_app; auto; [|simpl; auto].
    destruct ds; [congruence|]. simpl orb. rewrite <- EV. now rewrite EN.
Qed.
