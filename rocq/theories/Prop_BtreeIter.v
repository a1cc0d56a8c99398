(** * C04, C05, C33: iterating over a memtable's tree *)

From Coq Require Import List ZArith NArith Arith Bool Lia Sorting.Sorted.
From Verif Require Import Base Spec Spec_Range Spec_Merge Codec Search SearchProofs DataProofs CountProofs Page PageProofs PageBytes Btree
  BtreeLeafProofs BtreeProofs BtreeMapProofs BtreeRunProofs BtreeFlatProofs BtreeIter BtreeIterProofs BtreeScanProofs Witness Prop_Btree.
Import ListNotations.

(** In all the statements below, [t] is a tree made by any sequence of writes
    from the empty one, [bt_entries t] its tuples, which by
    [C08_insertions_make_a_map] are sorted and are the merged writes. *)
Definition built (cfg : data_config) (P : N) (ops : list (bytes * message)) (t : bt) : Prop :=
  insert_all cfg P (btree_create P) ops = Some (reports P [] ops, t).

Lemma built_wf : forall cfg ord D P K ops t,
  setting cfg ord D P K -> writes_ok cfg P K ops -> built cfg P ops t -> wf_tree cfg ord D t.
Proof.
  intros cfg ord D P K ops t (TO & AG & DK & HK) (Ha & Hk & Hf) B.
  destruct (insert_all_spec cfg ord TO D AG P K DK HK ops [] (btree_create P)) as (t' & E & Hok & Hmap); auto.
  { now apply seq_ok_create. }
  unfold built in B. rewrite E in B. injection B as ->.
  apply (bt_ok_wf cfg ord TO D AG P K (max_msg P) DK). exact Hok.
Qed.

Lemma built_exists : forall cfg ord D P K ops,
  setting cfg ord D P K -> writes_ok cfg P K ops -> exists t, built cfg P ops t.
Proof.
  intros cfg ord D P K ops Hs Hw. destruct (C08_insertions_make_a_map cfg ord D P K ops Hs Hw) as (t & E & _).
  exists t. exact E.
Qed.

(** ** C04: forward scans

    Whatever the bounds and the start key (in any order; each may be an
    infinity), an iterator started at the first key at or above [start] and
    stepped forward until it is no longer valid yields exactly the tuples of
    the range at or above [start], in order, once each.  No step fails. *)
Theorem C04_tree_forward_scan :
  forall cfg ord D P K ops t mn mx start,
    setting cfg ord D P K -> writes_ok cfg P K ops -> built cfg P ops t ->
    inD D mn -> inD D mx -> inD D start ->
    exists it it', it_init cfg t mn mx start GreaterThanOrEqual = Some it /\
      it_scan (length (bt_entries t)) (it_next t) t it =
      Some (filter (fun e => negb (key_lt ord (fst e) start)) (range ord mn mx (bt_entries t)), it').
Proof.
  intros cfg ord D P K ops t mn mx start Hs Hw B D1 D2 D3.
  pose proof (built_wf _ _ _ _ _ _ _ Hs Hw B) as WF. destruct Hs as (TO & AG & _).
  destruct (forward_scan cfg ord TO D AG t WF mn mx start GreaterThanOrEqual D1 D2 D3 I (or_introl eq_refl)) as (it & it' & E1 & E2).
  exists it, it'. split; [exact E1|]. rewrite E2. cbn [start_pos]. rewrite Nat2Z.id. f_equal. f_equal. symmetry.
  destruct (clamp cfg ord TO D AG t mn mx start LessThan D1 D2 D3) as (mx' & _ & _ & _ & _ & B1 & _ & _ & C1 & _).
  rewrite (range_clamped cfg ord TO t mn mx mx' C1).
  apply (filter_ge_range cfg ord TO D t WF mn mx' (fun e : lent => key_lt ord (fst e) start) B1).
  now apply (ltE_closed cfg ord TO D t WF).
Qed.

(** The same from the first key above [start], which must be in the range. *)
Theorem C04_tree_forward_scan_above :
  forall cfg ord D P K ops t mn mx start,
    setting cfg ord D P K -> writes_ok cfg P K ops -> built cfg P ops t ->
    inD D mn -> inD D mx -> inD D start -> bound_le ord mn start -> bound_lt ord start mx ->
    exists it it', it_init cfg t mn mx start GreaterThan = Some it /\
      it_scan (length (bt_entries t)) (it_next t) t it =
      Some (filter (fun e => negb (key_le ord (fst e) start)) (range ord mn mx (bt_entries t)), it').
Proof.
  intros cfg ord D P K ops t mn mx start Hs Hw B D1 D2 D3 H1 H2.
  pose proof (built_wf _ _ _ _ _ _ _ Hs Hw B) as WF. destruct Hs as (TO & AG & _).
  destruct (forward_scan cfg ord TO D AG t WF mn mx start GreaterThan D1 D2 D3 (conj H1 H2) (or_intror eq_refl)) as (it & it' & E1 & E2).
  exists it, it'. split; [exact E1|]. rewrite E2. cbn [start_pos]. rewrite Nat2Z.id. f_equal. f_equal. symmetry.
  assert (B1 : bound_le ord mn mx) by (eapply (bound_trans cfg ord TO); [exact H1|]; now apply (bound_total cfg ord TO)).
  apply (filter_ge_range cfg ord TO D t WF mn mx (fun e : lent => key_le ord (fst e) start) B1).
  now apply (leE_closed cfg ord TO D t WF).
Qed.

(** ** C05: backward scans *)

(** Whatever the bounds and the start key, stepping back from the last key
    below [start] yields the tuples of the range below [start], last first. *)
Theorem C05_tree_backward_scan :
  forall cfg ord D P K ops t mn mx start,
    setting cfg ord D P K -> writes_ok cfg P K ops -> built cfg P ops t ->
    inD D mn -> inD D mx -> inD D start ->
    exists it it', it_init cfg t mn mx start LessThan = Some it /\
      it_scan (length (bt_entries t)) (it_prev cfg t) t it =
      Some (rev (filter (fun e => key_lt ord (fst e) start) (range ord mn mx (bt_entries t))), it').
Proof.
  intros cfg ord D P K ops t mn mx start Hs Hw B D1 D2 D3.
  pose proof (built_wf _ _ _ _ _ _ _ Hs Hw B) as WF. destruct Hs as (TO & AG & _).
  destruct (backward_scan cfg ord TO D AG t WF mn mx start LessThan D1 D2 D3 I (or_intror eq_refl)) as (it & it' & E1 & E2).
  exists it, it'. split; [exact E1|]. rewrite E2. cbn [start_pos]. rewrite Z.sub_add, Nat2Z.id. f_equal. f_equal. f_equal. symmetry.
  destruct (clamp cfg ord TO D AG t mn mx start LessThan D1 D2 D3) as (mx' & _ & _ & _ & _ & B1 & _ & _ & C1 & _).
  rewrite (range_clamped cfg ord TO t mn mx mx' C1).
  apply (filter_lt_range cfg ord TO D t WF mn mx' (fun e : lent => key_lt ord (fst e) start) B1).
  now apply (ltE_closed cfg ord TO D t WF).
Qed.

(** The same from the last key at or below [start], which must be in the
    range. *)
Theorem C05_tree_backward_scan_from :
  forall cfg ord D P K ops t mn mx start,
    setting cfg ord D P K -> writes_ok cfg P K ops -> built cfg P ops t ->
    inD D mn -> inD D mx -> inD D start -> bound_le ord mn start -> bound_lt ord start mx ->
    exists it it', it_init cfg t mn mx start LessThanOrEqual = Some it /\
      it_scan (length (bt_entries t)) (it_prev cfg t) t it =
      Some (rev (filter (fun e => key_le ord (fst e) start) (range ord mn mx (bt_entries t))), it').
Proof.
  intros cfg ord D P K ops t mn mx start Hs Hw B D1 D2 D3 H1 H2.
  pose proof (built_wf _ _ _ _ _ _ _ Hs Hw B) as WF. destruct Hs as (TO & AG & _).
  destruct (backward_scan cfg ord TO D AG t WF mn mx start LessThanOrEqual D1 D2 D3 (conj H1 H2) (or_introl eq_refl)) as (it & it' & E1 & E2).
  exists it, it'. split; [exact E1|]. rewrite E2. cbn [start_pos]. rewrite Z.sub_add, Nat2Z.id. f_equal. f_equal. f_equal. symmetry.
  assert (B1 : bound_le ord mn mx) by (eapply (bound_trans cfg ord TO); [exact H1|]; now apply (bound_total cfg ord TO)).
  apply (filter_lt_range cfg ord TO D t WF mn mx (fun e : lent => key_le ord (fst e) start) B1).
  now apply (leE_closed cfg ord TO D t WF).
Qed.

(** Steps in any order.  The iterator behaves as a cursor over the tuples [R]
    of the range: [start_pos] is where it starts, [cursor] how steps move it,
    and [shows] what [can_prev], [can_next] and [get_curr] report there.
    This needs a start where the code gets its lower limit right
    ([start_exact]): a start from below, the start of the range, or a key that
    is in the tree. *)
Theorem C05_tree_cursor_partial :
  forall cfg ord D P K ops t mn mx start rule ms i,
    setting cfg ord D P K -> writes_ok cfg P K ops -> built cfg P ops t ->
    inD D mn -> inD D mx -> inD D start ->
    start_ok ord rule mn mx start -> start_exact ord t rule mn mx start ->
    let R := range ord mn mx (bt_entries t) in
    cursor (Z.of_nat (length R)) ms (start_pos ord rule start R) = Some i ->
    exists it it', it_init cfg t mn mx start rule = Some it /\ it_moves cfg t ms it = Some it' /\ shows t it' R i.
Proof.
  intros cfg ord D P K ops t mn mx start rule ms i Hs Hw B D1 D2 D3 Hok He R Hc.
  pose proof (built_wf _ _ _ _ _ _ _ Hs Hw B) as WF. destruct Hs as (TO & AG & _).
  exact (cursor_spec cfg ord TO D AG t WF mn mx start rule ms i D1 D2 D3 Hok He Hc).
Qed.

Definition ex_tree : bt :=
  match insert_all append_cfg 1024 (btree_create 1024) ex_ops with Some (_, t) => t | None => btree_create 1024 end.
Lemma ex_built : built append_cfg 1024 ex_ops ex_tree.
Proof. vm_compute. reflexivity. Qed.
Lemma ex_setting : setting append_cfg lex_compare (fun _ => True) 1024 40.
Proof. exact (proj1 C08_example). Qed.

Definition keys_of (r : option (list lent * bit)) : list N := match r with Some (l, _) => map (fun e => hd 0%N (fst e)) l | None => [] end.
Definition scan_ex (step : bt -> bit -> option bit) (mn mx start : key) (rule : comparison_mode) : list N :=
  match it_init append_cfg ex_tree mn mx start rule with
  | Some it => keys_of (it_scan 40 (step ex_tree) ex_tree it)
  | None => []
  end.

(** Scans crossing several of the example tree's six leaves. *)
Example C04_tree_example :
  scan_ex it_next (KUser [5]%N) (KUser [30;1]%N) (KUser [12;10]%N) GreaterThanOrEqual = map N.of_nat (seq 13 17) /\
  scan_ex it_next (KUser [5]%N) (KUser [30;1]%N) (KUser [12;9]%N) GreaterThan = map N.of_nat (seq 13 17) /\
  scan_ex (it_prev append_cfg) (KUser [5]%N) (KUser [30;1]%N) (KUser [22;9]%N) LessThan = rev (map N.of_nat (seq 5 17)) /\
  scan_ex (it_prev append_cfg) (KUser [5]%N) (KUser [30;1]%N) (KUser [22;9]%N) LessThanOrEqual = rev (map N.of_nat (seq 5 18)) /\
  scan_ex (it_prev append_cfg) KNegInf KPosInf KPosInf LessThan = rev (map N.of_nat (seq 0 40)).
Proof. vm_compute. repeat split. Qed.

Example C05_tree_cursor_example :
  start_exact lex_compare ex_tree GreaterThanOrEqual KNegInf KPosInf (KUser [15;9]%N) /\
  cursor 40 [Next; Next; Prev; Prev; Prev; Prev; Next] 15 = Some 14%Z.
Proof. split; [right; split; [exact I|]; exists [15;9]%N; split; [reflexivity|]; vm_compute; tauto|reflexivity]. Qed.

(** ** The starts left out are wrong in the code *)

(** An iterator started at the first key at or above [start] goes to the next
    leaf when [start] is above all keys of its leaf, and then takes that leaf
    to be the lowest one.  Asked for the key before, it reports that there is
    none, although there are fifteen smaller keys in the range. *)
Theorem C05_tree_reverse_from_gap_refuted :
  ~ (forall cfg ord D P K ops t mn mx start rule ms i,
      setting cfg ord D P K -> writes_ok cfg P K ops -> built cfg P ops t ->
      inD D mn -> inD D mx -> inD D start ->
      start_ok ord rule mn mx start ->
      let R := range ord mn mx (bt_entries t) in
      cursor (Z.of_nat (length R)) ms (start_pos ord rule start R) = Some i ->
      exists it it', it_init cfg t mn mx start rule = Some it /\ it_moves cfg t ms it = Some it' /\ shows t it' R i).
Proof.
  intros H.
  destruct (H append_cfg lex_compare (fun _ => True) 1024%N 40%N ex_ops ex_tree KNegInf KPosInf (KUser [15;10]%N) GreaterThanOrEqual
              [Prev] 15%Z ex_setting C08_example_writes ex_built I I I I) as (it & it' & E1 & E2 & (S1 & _)); [vm_compute; reflexivity|].
  vm_compute in E1. injection E1 as <-. vm_compute in E2. injection E2 as <-.
  destruct S1 as [S1 _]; [vm_compute; discriminate|]. vm_compute in S1. discriminate.
Qed.

(** In the concrete: the loop "while valid: step back" from there shows one
    tuple instead of seventeen... *)
Theorem C05_tree_keys_lost_refuted :
  scan_ex (it_prev append_cfg) KNegInf KPosInf (KUser [15;10]%N) GreaterThanOrEqual = [16%N] /\
  scan_ex (it_prev append_cfg) KNegInf KPosInf (KUser [14;10]%N) GreaterThanOrEqual = rev (map N.of_nat (seq 0 16)) /\
  map (fun e => hd 0%N (fst e)) (filter (fun e => key_lt lex_compare (fst e) (KUser [15;10]%N)) (bt_entries ex_tree)) = map N.of_nat (seq 0 16).
Proof. vm_compute. repeat split. Qed.

(** Starting above a key that is below the range loses the first key of the
    range; starting at or below a key above the range shows nothing. *)
Theorem C04_tree_clamped_starts_refuted :
  scan_ex it_next (KUser [5;9]%N) (KUser [9;9]%N) (KUser [1]%N) GreaterThan = [6%N; 7%N; 8%N] /\
  scan_ex (it_prev append_cfg) (KUser [5;9]%N) (KUser [9;9]%N) (KUser [12]%N) LessThanOrEqual = [].
Proof. vm_compute. split; reflexivity. Qed.

Print Assumptions C04_tree_forward_scan.
Print Assumptions C04_tree_forward_scan_above.
Print Assumptions C05_tree_backward_scan.
Print Assumptions C05_tree_backward_scan_from.
Print Assumptions C05_tree_cursor_partial.
Print Assumptions C05_tree_reverse_from_gap_refuted.
Print Assumptions C05_tree_keys_lost_refuted.
Print Assumptions C04_tree_clamped_starts_refuted.
