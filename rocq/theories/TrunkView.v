(** * Lookup in one trunk node

    What the pivot of a key holds is a _view_: whole branches, bundles and a
    filter.  A lookup that goes through a pivot finds the messages of its view. *)

From Coq Require Import List Arith NArith ZArith Lia Bool Sorted.
From Verif Require Import Base Spec Spec_Merge DataProofs TrunkNode TrunkRing TrunkRep TrunkReset TrunkFlush.
Import ListNotations.

Section View.
Variables (M : nat) (cfg : data_config) (h : bytes -> N).
Hypothesis TO : total_order (key_compare cfg).
Hypothesis LM : lawful_merge cfg.

Definition branch_ok (b : branch) : Prop :=
  ascending (key_compare cfg) b /\ Forall (fun e => msg_allowed cfg (snd e)) b.

(** ** One branch *)

Lemma source_messages_none : forall k b, ~ In k (map fst b) -> source_messages k b = [].
Proof.
  intros k b. induction b as [|[k' m] r IH]; intros H; simpl in *; auto.
  destruct (bytes_eq_dec k k') as [-> | N]; [exfalso; auto | auto].
Qed.
Lemma ascending_head : forall k (m : message) r, ascending (key_compare cfg) ((k, m) :: r) -> ~ In k (map fst r).
Proof.
  intros k m r H I. apply in_map_iff in I. destruct I as ([k' m'] & E & I). simpl in E. subst k'.
  apply StronglySorted_inv in H. destruct H as [_ H]. rewrite Forall_forall in H. specialize (H _ I). simpl in H.
  assert (key_compare cfg k k = 0%Z) by (apply (to_eq _ TO); reflexivity). lia.
Qed.
Lemma find_tuple_messages : forall k b, branch_ok b ->
  source_messages k b = match find_tuple cfg b k with Some m => [m] | None => [] end.
Proof.
  intros k b [A _]. induction b as [|[k' m] r IH]; [reflexivity|].
  pose proof (ascending_head _ _ _ A) as N. apply StronglySorted_inv in A. destruct A as [A _]. specialize (IH A).
  simpl. unfold find_tuple. simpl. destruct (bytes_eq_dec k k') as [<- | D].
  - replace (key_compare cfg k k =? 0)%Z with true by (symmetry; apply Z.eqb_eq; apply (to_eq _ TO); reflexivity). simpl.
    rewrite source_messages_none by auto. reflexivity.
  - destruct (Z.eqb_spec (key_compare cfg k' k) 0) as [Z | Z]; [apply (to_eq _ TO) in Z; congruence|]. exact IH.
Qed.
Lemma find_tuple_allowed : forall k b m, branch_ok b -> find_tuple cfg b k = Some m -> msg_allowed cfg m.
Proof.
  intros k b m [_ F] E. unfold find_tuple in E. destruct (find _ b) as [e|] eqn:Q; [|discriminate]. injection E as <-.
  apply find_some in Q. rewrite Forall_forall in F. apply F. apply Q.
Qed.

(** ** Accumulators *)

Definition upto (k : bytes) (a : acc) (v : option bytes) : option bytes :=
  match a with None => v | Some m => apply_msg cfg k m v end.
Definition acc_allowed (a : acc) : Prop := match a with None => True | Some m => msg_allowed cfg m end.

(** The result of a lookup that goes through the messages [ms], oldest first;
    [false] means that older messages do not matter *)
Definition step_ok (k : bytes) (ms : list message) (a : acc) (r : option (acc * bool)) : Prop :=
  exists a' go, r = Some (a', go) /\ acc_allowed a' /\
    (forall v, upto k a' v = upto k a (replay cfg k ms v)) /\ (go = false -> acc_definitive a' = true).

Lemma replay_app : forall k x y v, replay cfg k (x ++ y) v = replay cfg k y (replay cfg k x v).
Proof. intros. unfold replay. apply fold_left_app. Qed.
Lemma upto_definitive : forall k a v w, acc_definitive a = true -> upto k a v = upto k a w.
Proof.
  intros k [m|] v w H; [|discriminate]. simpl in *. rewrite !apply_definitive by exact H. reflexivity.
Qed.

Lemma step_ok_nil : forall k a, acc_allowed a -> step_ok k [] a (Some (a, true)).
Proof. intros k a H. exists a, true. repeat split; auto. discriminate. Qed.
Lemma step_ok_stop : forall k a ms ms' r a', step_ok k ms a r -> r = Some (a', false) -> step_ok k (ms' ++ ms) a r.
Proof.
  intros k a ms ms' r a' (x & go & E & H1 & H2 & H3) E'. rewrite E in E'. injection E' as -> ->.
  exists a', false. repeat split; auto. intro v. rewrite replay_app, <- H2. apply upto_definitive. auto.
Qed.
Lemma step_ok_seq : forall k a ms ms' a1 r, step_ok k ms a (Some (a1, true)) -> step_ok k ms' a1 r -> step_ok k (ms' ++ ms) a r.
Proof.
  intros k a ms ms' a1 r (x & go & E & H1 & H2 & H3) (y & g2 & -> & H4 & H5 & H6). injection E as <- <-.
  exists y, g2. repeat split; auto. intro v. rewrite replay_app, <- H2. apply H5.
Qed.

Lemma lookup_and_merge_ok : forall k b a, branch_ok b -> acc_allowed a ->
  exists a' found, lookup_and_merge cfg b k a = Some (a', found) /\ acc_allowed a' /\
    forall v, upto k a' v = upto k a (replay cfg k (source_messages k b) v).
Proof.
  intros k b a B H. unfold lookup_and_merge. rewrite (find_tuple_messages k b B).
  destruct (find_tuple cfg b k) as [m|] eqn:E.
  - pose proof (find_tuple_allowed _ _ _ B E) as Hm. destruct a as [new|].
    + destruct (data_merge_defined cfg k m new H) as (x & Ex). rewrite Ex. exists (Some x), true. split; [reflexivity|].
      split; [exact (data_merge_allowed cfg k m new x H Ex)|]. intro v. exact (data_merge_meaning cfg k m new x v LM Ex).
    + exists (Some m), true. repeat split; auto.
  - exists a, false. repeat split; auto.
Qed.

Lemma key_messages_cons : forall k b r, key_messages k (b :: r) = source_messages k b ++ key_messages k r.
Proof. reflexivity. Qed.
Lemma key_messages_app : forall k x y, key_messages k (x ++ y) = key_messages k x ++ key_messages k y.
Proof. intros. unfold key_messages. rewrite map_app, concat_app. reflexivity. Qed.
Lemma key_messages_one : forall k b, key_messages k [b] = source_messages k b.
Proof. intros. unfold key_messages. simpl. apply app_nil_r. Qed.

Lemma lookup_each_ok : forall {A} (f : A -> acc -> option (acc * bool)) (ms : A -> list message) k l a,
  (forall x a, In x l -> acc_allowed a -> step_ok k (ms x) a (f x a)) -> acc_allowed a ->
  step_ok k (concat (map ms (rev l))) a (lookup_each f l a).
Proof.
  intros A f ms k l. induction l as [|x r IH]; intros a F H; [apply step_ok_nil; exact H|].
  cbn [lookup_each rev]. rewrite map_app, concat_app. cbn [map concat]. rewrite app_nil_r.
  pose proof (F x a (or_introl eq_refl) H) as G. pose proof G as (a1 & go & E & H1 & _). rewrite E in *.
  destruct go.
  - eapply step_ok_seq; [exact G|]. apply IH; auto. intros y b I. apply F. right. exact I.
  - eapply step_ok_stop; [exact G | reflexivity].
Qed.

(** ** Filters *)

(** For the key [k], the filter [f] covers the branches [bs] *)
Definition fcovers (k : bytes) (f : filt) (bs : list branch) : Prop :=
  (forall x v, In (x, v) f -> v < length bs) /\
  (forall v br, nth_error bs v = Some br -> source_messages k br <> [] -> In (h k, v) f).

Lemma max_value_ge : forall f x v, In (x, v) f -> v <= max_value f.
Proof. induction f as [|[y w] r IH]; intros x v H; [contradiction|]. destruct H as [[= -> ->] | H]; simpl; [lia|]. apply IH in H. lia. Qed.

Lemma concat_filter : forall {A B} (g : A -> list B) P l,
  concat (map g (filter P l)) = concat (map (fun v => if P v then g v else []) l).
Proof. intros A B g P l. induction l as [|x r IH]; simpl; auto. destruct (P x); simpl; rewrite IH; reflexivity. Qed.
Lemma concat_ext_nil : forall {B} (g : nat -> list B) n m, n <= m -> (forall v, n <= v -> v < m -> g v = []) ->
  concat (map g (seq 0 m)) = concat (map g (seq 0 n)).
Proof.
  intros B g n m H Z. replace m with (n + (m - n)) by lia. rewrite seq_app, map_app, concat_app.
  rewrite <- (app_nil_r (concat (map g (seq 0 n)))) at 2. f_equal. simpl.
  assert (Z' : forall v, In v (seq n (m - n)) -> g v = []) by (intros v I; apply in_seq in I; apply Z; lia).
  induction (seq n (m - n)) as [|x r IH]; simpl; auto. rewrite Z' by (left; reflexivity). apply IH. intros v I. apply Z'. right. exact I.
Qed.
Lemma filter_rev : forall {A} P (l : list A), filter P (rev l) = rev (filter P l).
Proof.
  intros A P l. induction l as [|x r IH]; simpl; auto. rewrite filter_app, IH. simpl. destruct (P x); simpl; auto.
  apply app_nil_r.
Qed.
Lemma map_nth_seq : forall {A} (l : list A) d, map (fun i => nth i l d) (seq 0 (length l)) = l.
Proof.
  intros A l d. induction l as [|x r IH]; simpl; auto. f_equal. rewrite <- seq_shift, map_map. exact IH.
Qed.

Lemma filter_values_messages : forall k f bs, fcovers k f bs ->
  concat (map (fun v => source_messages k (nth v bs [])) (rev (filter_values f (h k)))) = key_messages k bs.
Proof.
  intros k f bs [C1 C2]. unfold filter_values. rewrite filter_rev, rev_involutive.
  set (P := fun v => existsb _ f). set (g := fun v => source_messages k (nth v bs [])).
  assert (P1 : forall v, P v = true -> v < length bs /\ v <= max_value f).
  { intros v H. apply existsb_exists in H. destruct H as ([x w] & I & H). simpl in H. apply andb_true_iff in H. destruct H as [_ H].
    apply Nat.eqb_eq in H. subst w. split; [eapply C1; eauto | eapply max_value_ge; eauto]. }
  assert (P2 : forall v, v < length bs -> g v <> [] -> P v = true).
  { intros v L H. destruct (nth_error bs v) as [b|] eqn:E; [|apply nth_error_None in E; lia].
    apply existsb_exists. exists (h k, v). split.
    - apply (C2 v b E). unfold g in H. erewrite nth_error_nth in H by exact E. exact H.
    - simpl. rewrite N.eqb_refl, Nat.eqb_refl. reflexivity. }
  rewrite concat_filter. set (g' := fun v => if P v then g v else []).
  assert (E1 : concat (map g' (seq 0 (S (max_value f)))) = concat (map g' (seq 0 (length bs)))).
  { transitivity (concat (map g' (seq 0 (Nat.max (S (max_value f)) (length bs))))).
    - symmetry. apply concat_ext_nil; [lia|]. intros v Z _. unfold g'. destruct (P v) eqn:Q; auto. apply P1 in Q. lia.
    - apply concat_ext_nil; [lia|]. intros v Z _. unfold g'. destruct (P v) eqn:Q; auto. apply P1 in Q. lia. }
  rewrite E1. unfold key_messages. rewrite <- (map_nth_seq bs []) at 2. rewrite map_map. f_equal.
  apply map_ext_in. intros v I. apply in_seq in I. unfold g'. destruct (P v) eqn:Q; auto.
  destruct (g v) as [|m r] eqn:Z; [unfold g in Z; rewrite Z; reflexivity|].
  rewrite P2 in Q; [discriminate | lia | rewrite Z; discriminate].
Qed.

Lemma lookup_values_ok : forall k n start bs vs a,
  (forall v, In v vs -> n_br n (cadd M start v) = nth v bs [] /\ branch_ok (nth v bs [])) -> acc_allowed a ->
  step_ok k (concat (map (fun v => source_messages k (nth v bs [])) (rev vs))) a (lookup_values M cfg n start vs k a).
Proof.
  intros k n start bs vs. induction vs as [|v r IH]; intros a F H; [apply step_ok_nil; exact H|].
  cbn [lookup_values rev]. rewrite map_app, concat_app. cbn [map concat]. rewrite app_nil_r.
  destruct (F v (or_introl eq_refl)) as [E B]. rewrite E.
  destruct (lookup_and_merge_ok k (nth v bs []) a B H) as (a' & found & -> & H1 & H2).
  destruct (found && acc_definitive a') eqn:Q.
  - apply andb_true_iff in Q. destruct Q as [_ Q].
    eapply step_ok_stop; [|reflexivity]. exists a', false. repeat split; auto.
  - eapply step_ok_seq with (a1 := a').
    + exists a', true. repeat split; auto. discriminate.
    + apply IH; auto. intros w I. apply F. right. exact I.
Qed.

Lemma filter_lookup_ok : forall k n start f bs a, fcovers k f bs -> Forall branch_ok bs ->
  (forall v b, nth_error bs v = Some b -> n_br n (cadd M start v) = b) -> acc_allowed a ->
  step_ok k (key_messages k bs) a (filter_lookup M cfg h n f start k a).
Proof.
  intros k n start f bs a C B E H. unfold filter_lookup. rewrite <- (filter_values_messages k f bs C).
  apply lookup_values_ok; auto. intros v I.
  unfold filter_values in I. apply filter_In in I. destruct I as [_ I]. apply existsb_exists in I. destruct I as ([x w] & I & Q).
  simpl in Q. apply andb_true_iff in Q. destruct Q as [_ Q]. apply Nat.eqb_eq in Q. subst w.
  destruct C as [C1 _]. pose proof (C1 x v I) as L.
  destruct (nth_error bs v) as [b|] eqn:Z; [|apply nth_error_None in Z; lia].
  rewrite (nth_error_nth _ _ _ Z). split; [apply E; exact Z|]. rewrite Forall_forall in B. apply B. eapply nth_error_In; eauto.
Qed.

(** ** Subbundles *)

Definition hits (k : bytes) (f : filt) : Prop := exists v, In (h k, v) f.
Definition sub_ok (k : bytes) (s : asub) : Prop :=
  if as_comp s then
    exists br, as_brs s = [br] /\ (source_messages k br <> [] -> exists f, In f (as_fls s) /\ hits k f)
  else exists f, as_fls s = [f] /\ fcovers k f (as_brs s).

Lemma filter_values_nil : forall k f, filter_values f (h k) = [] -> ~ hits k f.
Proof.
  intros k f E (v & I). assert (In v (filter_values f (h k))); [|rewrite E in *; contradiction].
  unfold filter_values. apply filter_In. split.
  - apply -> in_rev. apply in_seq. pose proof (max_value_ge _ _ _ I). lia.
  - apply existsb_exists. exists (h k, v). split; auto. simpl. rewrite N.eqb_refl, Nat.eqb_refl. reflexivity.
Qed.

Lemma compacted_lookup_ok : forall k n s br offs a, branch_ok br -> n_br n (sb_sbr s) = br -> acc_allowed a ->
  (source_messages k br <> [] -> exists i, In i offs /\ hits k (sb_filter n s i)) ->
  step_ok k (source_messages k br) a (compacted_lookup cfg h n s offs k a).
Proof.
  intros k n s br offs. induction offs as [|i r IH]; intros a B E H F; cbn [compacted_lookup].
  - destruct (source_messages k br) as [|m l] eqn:Z; [apply step_ok_nil; exact H|].
    destruct F as (i & [] & _). discriminate.
  - destruct (filter_values (sb_filter n s i) (h k)) as [|v vs] eqn:Q.
    + apply IH; auto. intro Z. destruct (F Z) as (j & [<- | I] & Hj); [|exists j; auto].
      exfalso. exact (filter_values_nil _ _ Q Hj).
    + rewrite E. destruct (lookup_and_merge_ok k br a B H) as (a' & found & -> & H1 & H2).
      exists a', (negb (found && acc_definitive a')). repeat split; auto.
      intro G. apply negb_false_iff in G. apply andb_true_iff in G. apply G.
Qed.

Lemma subbundle_lookup_ok : forall n A x s y k a, rep M n A -> aok M A -> subs A = x ++ s :: y ->
  sub_ok k s -> Forall branch_ok (as_brs s) -> acc_allowed a ->
  step_ok k (key_messages k (as_brs s)) a
    (subbundle_lookup M cfg h n (n_sb n (cadd MAX_SUBBUNDLES (n_ssb n) (length x))) k a).
Proof.
  intros n A x s y k a R K E So B H. pose proof (r_sbr _ _ _ R) as M0. assert (Mp : 0 < M) by lia.
  destruct (sub_sizes _ _ _ _ _ K E) as [Z1 Z2].
  set (ps := n_sb n (cadd MAX_SUBBUNDLES (n_ssb n) (length x))).
  destruct (sub_filters M n A x s y ps R K E eq_refl) as [F1 F2].
  assert (Eb : forall v b, nth_error (as_brs s) v = Some b -> n_br n (cadd M (sb_sbr ps) v) = b).
  { intros v b Q. unfold ps. rewrite (sub_entry _ _ _ _ _ _ R E). cbn [sb_sbr]. rewrite cadd_cadd by lia.
    apply (r_br _ _ _ R). unfold brs. rewrite E, brs_of_app. rewrite app_assoc.
    rewrite nth_error_app2 by (rewrite app_length; unfold nbr; lia). rewrite app_length. fold (nbr x).
    replace (length (an_whole A) + nbr x + v - (length (an_whole A) + nbr x)) with v by lia.
    unfold brs_of. simpl. rewrite nth_error_app1; [exact Q|]. apply nth_error_Some. congruence. }
  assert (Ec : sb_compacted ps = as_comp s) by (unfold ps; rewrite (sub_entry _ _ _ _ _ _ R E); reflexivity).
  unfold subbundle_lookup. rewrite Ec. unfold sub_ok in So. destruct (as_comp s).
  - destruct So as (br & Q & Hf). rewrite Q in *. rewrite key_messages_one, F1.
    apply compacted_lookup_ok; auto.
    + inversion B; auto.
    + specialize (Eb 0 br eq_refl). rewrite cadd_0 in Eb; [exact Eb|].
      unfold ps. rewrite (sub_entry _ _ _ _ _ _ R E). cbn [sb_sbr]. apply cadd_lt. lia.
    + intro Z. destruct (Hf Z) as (f & I & Hh). rewrite <- F2 in I. apply in_map_iff in I. destruct I as (i & <- & I). exists i. auto.
  - destruct So as (f & Q & C). rewrite Q in F2. simpl in F2. injection F2 as ->.
    apply filter_lookup_ok; auto.
Qed.

(** ** Bundles *)

Lemma rev_seq : forall n, rev (seq 0 n) = map (fun i => n - 1 - i) (seq 0 n).
Proof.
  induction n as [|n IH]; [reflexivity|]. rewrite seq_S at 1. rewrite rev_app_distr. simpl. f_equal; [lia|].
  rewrite <- seq_shift, map_map, IH. apply map_ext_in. intros i I. apply in_seq in I. lia.
Qed.
Lemma concat_down : forall {A B} (g : A -> list B) l d,
  concat (map (fun off => g (nth (length l - 1 - off) l d)) (rev (seq 0 (length l)))) = concat (map g l).
Proof.
  intros A B g l d. rewrite rev_seq, map_map.
  transitivity (concat (map g (map (fun i => nth i l d) (seq 0 (length l))))); [|rewrite map_nth_seq; reflexivity].
  rewrite map_map. f_equal.
  apply map_ext_in. intros i I. apply in_seq in I. do 2 f_equal. lia.
Qed.

Lemma nth_split_list : forall {A} (l : list A) i d, i < length l ->
  exists x y, l = x ++ nth i l d :: y /\ length x = i.
Proof.
  intros A l i d L. destruct (nth_error l i) as [z|] eqn:E; [|apply nth_error_None in E; lia].
  destruct (nth_error_split _ _ E) as (x & y & Q & Lx). exists x, y. split; auto. rewrite (nth_error_nth _ _ _ E). exact Q.
Qed.
Lemma key_messages_concat : forall k l, key_messages k (brs_of l) = concat (map (fun s => key_messages k (as_brs s)) l).
Proof.
  intros k l. induction l as [|s r IH]; [reflexivity|]. unfold brs_of in *. simpl. rewrite key_messages_app, IH. reflexivity.
Qed.

Lemma bundle_lookup_ok : forall n A X b Y k a, rep M n A -> aok M A -> an_bns A = X ++ b :: Y ->
  Forall (sub_ok k) b -> Forall branch_ok (brs_of b) -> acc_allowed a ->
  step_ok k (key_messages k (brs_of b)) a
    (bundle_lookup M cfg h n (n_bn n (cadd MAX_BUNDLES (n_sbn n) (length X))) k a).
Proof.
  intros n A X b Y k a R K E So B H. unfold bundle_lookup.
  rewrite (subbundle_count_at M n A X Y b R K E). rewrite (bundle_entry M n A X Y b R E). cbn [bn_esb].
  rewrite key_messages_concat. rewrite <- (concat_down (fun s => key_messages k (as_brs s)) b (AS false [] [])).
  apply lookup_each_ok; auto. intros off a1 I H1. apply in_seq in I. simpl in I.
  set (i := length b - 1 - off).
  destruct (nth_split_list b i (AS false [] []) ltac:(unfold i; lia)) as (x & y & Eb & Lx).
  pose proof (subs_split A X Y b E) as Es. rewrite Eb in Es at 1. rewrite <- app_assoc in Es. simpl in Es. rewrite app_assoc in Es.
  pose proof (ok_subs _ _ K) as Ks. rewrite Es, !app_length in Ks. simpl in Ks. rewrite app_length in Ks.
  assert (Ez : csub MAX_SUBBUNDLES (cadd MAX_SUBBUNDLES (n_ssb n) (length (concat X) + length b)) (off + 1)
               = cadd MAX_SUBBUNDLES (n_ssb n) (length (concat X ++ x))).
  { assert (length b = length x + S (length y)) by (rewrite Eb at 1; rewrite app_length; reflexivity).
    rewrite csub_cadd_amount by (auto; lia). f_equal. rewrite app_length. unfold i in *. lia. }
  rewrite Ez. eapply subbundle_lookup_ok; eauto.
  - rewrite Forall_forall in So. apply So. rewrite Eb at 2. apply in_or_app. right. left. reflexivity.
  - rewrite Eb in B at 1. rewrite brs_of_app in B. apply Forall_app in B. destruct B as [_ B]. unfold brs_of in B. simpl in B.
    apply Forall_app in B. apply B.
Qed.

(** ** A pivot *)

Record view := VW {
  v_id : nat; v_nlo : key; v_nhi : key; v_pgen : nat;   (* of the node *)
  v_lo : key; v_hi : key; v_gen : nat;
  v_bno : nat;                      (* number of the first bundle *)
  v_whole : list branch; v_bns : list (list asub); v_filt : filt
}.
Definition an_lo (A : anode) : key := match an_piv A with a :: _ => ap_key a | [] => an_hi A end.
Definition view_of (n : node) (A : anode) (a : apiv) (hi : key) : view :=
  VW (n_id n) (an_lo A) (an_hi A) (n_pgen n) (ap_key a) hi (ap_gen a) (cadd MAX_BUNDLES (n_sbn n) (ap_boff a))
     (skipn (ap_off a) (an_whole A)) (skipn (ap_boff a) (an_bns A)) (ap_filt a).
Definition v_branches (v : view) : list branch := v_whole v ++ brs_of (concat (v_bns v)).
Definition view_ok (k : bytes) (v : view) : Prop :=
  fcovers k (v_filt v) (v_whole v) /\ Forall (sub_ok k) (concat (v_bns v)) /\ Forall branch_ok (v_branches v).

Lemma concat_map_concat : forall k l, key_messages k (brs_of (concat l)) = concat (map (fun b => key_messages k (brs_of b)) l).
Proof.
  intros k l. induction l as [|b r IH]; [reflexivity|]. simpl. rewrite brs_of_app, key_messages_app, IH. reflexivity.
Qed.

Lemma Forall_concat_in : forall {A} (P : A -> Prop) l b, Forall P (concat l) -> In b l -> Forall P b.
Proof.
  intros A P l b F I. rewrite Forall_forall in *. intros x Ix. apply F. apply in_concat. exists b. auto.
Qed.
Lemma Forall_brs_in : forall (P : branch -> Prop) l b, Forall P (brs_of (concat l)) -> In b l -> Forall P (brs_of b).
Proof.
  intros P l b F I. rewrite Forall_forall in *. intros x Ix. apply F. unfold brs_of in *. apply in_flat_map in Ix.
  destruct Ix as (s & Is & Ix). apply in_flat_map. exists s. split; auto. apply in_concat. exists b. auto.
Qed.

Theorem pivot_lookup_ok : forall n A p a0 hi k a, rep M n A -> aok M A -> piv_rep M n p a0 -> In a0 (an_piv A) ->
  view_ok k (view_of n A a0 hi) -> acc_allowed a ->
  step_ok k (key_messages k (v_branches (view_of n A a0 hi))) a (pivot_lookup M cfg h n p k a).
Proof.
  intros n A p a0 hi k a R K Hp Ia (C & So & B) H. pose proof (r_sbr _ _ _ R) as M0. assert (Mp : 0 < M) by lia.
  assert (Ho : off_ok A (ap_off a0) (ap_boff a0)).
  { pose proof (ok_piv _ _ K) as Z. rewrite Forall_forall in Z. auto. }
  pose proof (off_ok_le _ _ _ Ho) as [Lo Lb]. pose proof (ok_bns _ _ K) as Kb. pose proof (ok_brs _ _ K) as Kr.
  destruct Hp as (Q1 & Q2 & Q3 & Q4 & Q5). unfold pivot_lookup, v_branches in *. cbn [view_of v_whole v_bns v_filt] in *.
  apply Forall_app in B. destruct B as [Bw Bb].
  set (l := skipn (ap_boff a0) (an_bns A)) in *.
  assert (Ec : pivot_bundle_count n p = length l).
  { unfold pivot_bundle_count. rewrite Q5, (r_ebn _ _ _ R), csub_cadd by (auto; lia). unfold l. rewrite skipn_length. reflexivity. }
  rewrite Ec, key_messages_app, concat_map_concat.
  rewrite <- (concat_down (fun b => key_messages k (brs_of b)) l []).
  assert (G : step_ok k (concat (map (fun off => key_messages k (brs_of (nth (length l - 1 - off) l []))) (rev (seq 0 (length l))))) a
     (lookup_each (fun off => bundle_lookup M cfg h n (n_bn n (csub MAX_BUNDLES (n_ebn n) (off + 1))) k) (seq 0 (length l)) a)).
  { apply (lookup_each_ok _ (fun off => key_messages k (brs_of (nth (length l - 1 - off) l [])))); auto.
    intros off a1 I H1. apply in_seq in I. simpl in I.
    set (i := length l - 1 - off).
    destruct (nth_split_list l i [] ltac:(unfold i; lia)) as (x & y & El & Lx).
    assert (EA : an_bns A = (firstn (ap_boff a0) (an_bns A) ++ x) ++ nth i l [] :: y).
    { rewrite <- app_assoc, <- El. unfold l. symmetry. apply firstn_skipn. }
    assert (Ez : csub MAX_BUNDLES (n_ebn n) (off + 1) = cadd MAX_BUNDLES (n_sbn n) (length (firstn (ap_boff a0) (an_bns A) ++ x))).
    { assert (length l = length x + S (length y)) by (rewrite El at 1; rewrite app_length; reflexivity).
      assert (length l = length (an_bns A) - ap_boff a0) by (unfold l; apply skipn_length).
      rewrite (r_ebn _ _ _ R), csub_cadd_amount by (auto; lia). f_equal. rewrite app_length, firstn_length_le by lia. unfold i in *. lia. }
    assert (In (nth i l []) l) by (apply nth_In; unfold i; lia).
    rewrite Ez. eapply bundle_lookup_ok; eauto; [eapply Forall_concat_in | eapply Forall_brs_in]; eauto. }
  pose proof G as (a1 & go & E & H1 & H2 & H3). rewrite E in *. destruct go.
  - eapply step_ok_seq; [exact G|]. rewrite Q3. apply filter_lookup_ok; auto.
    intros v b Q. rewrite Q4, cadd_cadd by lia. apply (r_br _ _ _ R). unfold brs.
    rewrite nth_error_app1.
    + rewrite nth_error_skipn in Q. exact Q.
    + assert (v < length (skipn (ap_off a0) (an_whole A))) by (apply nth_error_Some; congruence). rewrite skipn_length in *. lia.
  - eapply step_ok_stop; [exact G | reflexivity].
Qed.

End View.
