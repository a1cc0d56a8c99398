(** * Adding to and looking in a routing filter *)

From Coq Require Import List NArith Arith Bool Lia Permutation Sorted ZifyN ZifyNat ZifyBool.
From Verif Require Import PackedArr PackedArrProofs Filter FilterSortProofs FilterEncProofs.
Import ListNotations.
Local Open Scope N_scope.

(** ** Arithmetic *)

Lemma pow_pos : forall n, 0 < 2 ^ n.
Proof. intros n. pose proof (N.pow_nonzero 2 n ltac:(lia)). lia. Qed.

Lemma land_mask : forall x n, N.land x (mask32 n) = x mod 2 ^ n.
Proof.
  intros x n. apply N.bits_inj. intros k. rewrite N.land_spec, mask_bits, mod_bits. apply andb_comm.
Qed.

Lemma shl32_small : forall x s, x * 2 ^ s < two32 -> shl32 x s = x * 2 ^ s.
Proof.
  intros x s H. unfold shl32. rewrite N.shiftl_mul_pow2. apply N.mod_small. assumption.
Qed.

Lemma lor_add : forall a b n, b < 2 ^ n -> N.lor (a * 2 ^ n) b = a * 2 ^ n + b.
Proof.
  intros a b n H. symmetry. rewrite N.add_nocarry_lxor, N.lxor_lor; try reflexivity;
    (apply N.bits_inj; intros k; rewrite N.land_spec, N.bits_0;
     destruct (N.lt_ge_cases k n) as [C|C];
     [rewrite N.mul_pow2_bits_low by assumption; reflexivity
     |rewrite (lt_bits b n) by assumption; apply andb_false_r]).
Qed.

Lemma div_code : forall fp v n, v < 2 ^ n -> (fp * 2 ^ n + v) / 2 ^ n = fp.
Proof. intros fp v n H. rewrite N.div_add_l, N.div_small by lia. lia. Qed.

Lemma mod_code : forall fp v n, v < 2 ^ n -> (fp * 2 ^ n + v) mod 2 ^ n = v.
Proof.
  intros fp v n H. rewrite N.add_comm, N.mod_add by (pose proof (pow_pos n); lia). apply N.mod_small. assumption.
Qed.

Lemma div_code2 : forall fp v n m, v < 2 ^ n -> (fp * 2 ^ n + v) / 2 ^ (m + n) = fp / 2 ^ m.
Proof.
  intros fp v n m H. rewrite N.add_comm with (n := m), N.pow_add_r, <- N.div_div, div_code; [reflexivity|assumption|apply N.pow_nonzero; lia|apply N.pow_nonzero; lia].
Qed.

Lemma code_lt : forall fp v n m, v < 2 ^ n -> fp < 2 ^ m -> fp * 2 ^ n + v < 2 ^ (m + n).
Proof. intros fp v n m H1 H2. rewrite N.pow_add_r. nia. Qed.

Lemma div_pow_add : forall x a b, x / 2 ^ (a + b) = x / 2 ^ a / 2 ^ b.
Proof. intros x a b. rewrite N.pow_add_r, N.div_div; [reflexivity|apply N.pow_nonzero; lia|apply N.pow_nonzero; lia]. Qed.

Lemma div_lt_pow : forall x a b, x < 2 ^ (a + b) -> x / 2 ^ a < 2 ^ b.
Proof. intros x a b H. apply N.div_lt_upper_bound; [apply N.pow_nonzero; lia|]. rewrite <- N.pow_add_r. assumption. Qed.

Lemma mod_mod_pow : forall x a b, (x mod 2 ^ (a + b)) mod 2 ^ a = x mod 2 ^ a.
Proof.
  intros x a b. apply N.bits_inj. intros k. rewrite !mod_bits.
  destruct (k <? a) eqn:E; [|reflexivity]. replace (k <? a + b) with true by lia. reflexivity.
Qed.

Lemma mod_div_pow : forall x a b, (x mod 2 ^ (a + b)) / 2 ^ a = (x / 2 ^ a) mod 2 ^ b.
Proof.
  intros x a b. apply N.bits_inj. intros k. rewrite mod_bits, !N.div_pow2_bits, mod_bits. f_equal. lia.
Qed.

Lemma get_index_div : forall x sh, x < two32 -> get_index x sh = x / 2 ^ sh.
Proof.
  intros x sh H. unfold get_index. destruct (sh =? 32) eqn:E.
  - assert (sh = 32) as -> by lia. rewrite N.div_small; [reflexivity|]. exact H.
  - apply N.shiftr_div_pow2.
Qed.

(** ** Sorted lists *)

Lemma sorted_split : forall (g : N -> N) (F : list N) i, (forall x y, x <= y -> g x <= g y) -> StronglySorted N.le F ->
  List.filter (fun x => i <=? g x) F = List.filter (fun x => g x =? i) F ++ List.filter (fun x => i + 1 <=? g x) F.
Proof.
  intros g F i Hg HS. induction HS as [|x F HS IH HF]; [reflexivity|]. cbn [List.filter].
  destruct (g x =? i) eqn:E1.
  - replace (i <=? g x) with true by lia. replace (i + 1 <=? g x) with false by lia. cbn [app]. f_equal. assumption.
  - destruct (i <=? g x) eqn:E2.
    + replace (i + 1 <=? g x) with true by lia.
      assert (N1 : List.filter (fun x => g x =? i) F = []).
      { clear - HF E1 E2 Hg. induction HF as [|y F Hy HF IH]; [reflexivity|]. cbn [List.filter].
        apply Hg in Hy. replace (g y =? i) with false by lia. assumption. }
      rewrite N1 in *. cbn [app] in *. f_equal. assumption.
    + replace (i + 1 <=? g x) with false by lia. assumption.
Qed.

Lemma sorted_split_lt : forall (g : N -> N) (F : list N) i, (forall x y, x <= y -> g x <= g y) -> StronglySorted N.le F ->
  F = List.filter (fun x => g x <? i) F ++ List.filter (fun x => i <=? g x) F.
Proof.
  intros g F i Hg HS. induction HS as [|x F HS IH HF]; [reflexivity|]. cbn [List.filter].
  destruct (g x <? i) eqn:E1.
  - replace (i <=? g x) with false by lia. cbn [app]. f_equal. assumption.
  - replace (i <=? g x) with true by lia.
    assert (N1 : List.filter (fun x => g x <? i) F = []).
    { clear - HF E1 Hg. induction HF as [|y F Hy HF IH]; [reflexivity|]. cbn [List.filter].
      apply Hg in Hy. replace (g y <? i) with false by lia. assumption. }
    rewrite N1 in *. cbn [app] in *. f_equal. assumption.
Qed.

Lemma SSorted_map : forall (g : N -> N) l, (forall x y, In x l -> In y l -> x <= y -> g x <= g y) -> StronglySorted N.le l -> StronglySorted N.le (map g l).
Proof.
  intros g l Hg HS. induction HS as [|x l HS IH HF]; [constructor|]. cbn [map]. constructor.
  - apply IH. intros a b Ha Hb. apply Hg; right; assumption.
  - apply Forall_forall. intros y Hy. apply in_map_iff in Hy. destruct Hy as (z & <- & Hz).
    apply Hg; [left; reflexivity|right; assumption|]. apply (proj1 (Forall_forall _ _) HF). assumption.
Qed.

Lemma SSorted_app_inv : forall (R : N -> N -> Prop) a b, StronglySorted R (a ++ b) -> StronglySorted R a /\ StronglySorted R b /\
  (forall x y, In x a -> In y b -> R x y).
Proof.
  intros R a b. induction a as [|x a IH]; intros H.
  - split; [constructor|]. split; [assumption|]. intros x y [].
  - cbn [app] in H. apply StronglySorted_inv in H. destruct H as [H1 H2]. destruct (IH H1) as (A & B & C).
    apply Forall_app in H2. destruct H2 as [H2 H3]. split; [constructor; assumption|]. split; [assumption|].
    intros u y [<-|Hu] Hy; [apply (proj1 (Forall_forall _ _) H3); assumption|apply C; assumption].
Qed.

(** ** The merge of one index *)

Section MERGE.
Variable vs rv i I : N.
Hypothesis HI : 1 <= I.
Let bkt (x : N) : N := x / 2 ^ rv.

Definition minv (s : mst) (done : list N) : Prop :=
  m_dst s = rev (map (fun x => x mod 2 ^ rv) done) /\
  i * I <= m_last s /\
  Forall (fun x => i * I <= bkt x <= m_last s) done /\
  m_hbit s + i * I = N.of_nat (length done) + m_last s /\
  (forall n, m_enc s n = false <-> exists k x, nth_error done k = Some x /\ n + i * I = N.of_nat k + bkt x).

Lemma bkt_mono : forall x y, x <= y -> bkt x <= bkt y.
Proof. intros x y H. apply N.div_le_mono; [apply N.pow_nonzero; lia|assumption]. Qed.

Lemma minv_step : forall s done fp lastfp uniq, minv s done -> m_last s <= bkt fp -> bkt fp < two32 ->
  let hbit := m_hbit s + (bkt fp + two32 - m_last s) mod two32 in
  hbit + i * I = N.of_nat (length done) + bkt fp /\
  minv (MSt (hbit + 1) (bkt fp) (fun n => if n =? hbit then false else m_enc s n) (N.land fp (mask32 rv) :: m_dst s) lastfp uniq)
       (done ++ [fp]).
Proof.
  intros s done fp lastfp uniq (I1 & I2 & I3 & I4 & I5) Hl Hb. cbv zeta.
  assert (E : (bkt fp + two32 - m_last s) mod two32 = bkt fp - m_last s).
  { replace (bkt fp + two32 - m_last s) with ((bkt fp - m_last s) + 1 * two32) by lia.
    rewrite N.mod_add by (vm_compute; discriminate). apply N.mod_small. lia. }
  rewrite E. set (hbit := m_hbit s + (bkt fp - m_last s)).
  assert (Hh : hbit + i * I = N.of_nat (length done) + bkt fp) by (unfold hbit; lia).
  clearbody hbit. split; [assumption|].
  split; [|split; [|split; [|split]]]; cbn [m_dst m_last m_hbit m_enc].
  - rewrite map_app, rev_app_distr. cbn [map rev app]. rewrite land_mask, I1. reflexivity.
  - lia.
  - apply Forall_app. split; [|constructor; [lia|constructor]].
    revert I3. apply Forall_impl. intros x Hx. lia.
  - rewrite app_length. cbn [length]. lia.
  - intros n. destruct (n =? hbit) eqn:E2.
    + split; [|reflexivity]. intros _. exists (length done), fp. rewrite nth_error_app2, Nat.sub_diag by lia.
      split; [reflexivity|lia].
    + rewrite I5. split.
      * intros (k & x & Hk & Hn). exists k, x. split; [|assumption].
        rewrite nth_error_app1; [assumption|]. apply nth_error_Some. congruence.
      * intros (k & x & Hk & Hn). exists k, x. split; [|assumption].
        destruct (Nat.lt_ge_cases k (length done)) as [C|C]; [rewrite nth_error_app1 in Hk by assumption; assumption|].
        rewrite nth_error_app2 in Hk by assumption. destruct (k - length done)%nat eqn:Ek; [|destruct n0; discriminate].
        cbn in Hk. injection Hk as <-. lia.
Qed.

Let endb := (i + 1) * I.
Definition in_ix (x : N) : bool := bkt x <? endb.
Definition out_ix (x : N) : bool := endb <=? bkt x.

Lemma filter_none : forall (p : N -> bool) l, Forall (fun x => p x = false) l -> List.filter p l = [].
Proof. intros p l H. induction H as [|x l H _ IH]; [reflexivity|]. cbn [List.filter]. rewrite H. assumption. Qed.

Lemma filter_all : forall (p : N -> bool) l, Forall (fun x => p x = true) l -> List.filter p l = l.
Proof. intros p l H. induction H as [|x l H _ IH]; [reflexivity|]. cbn [List.filter]. rewrite H. f_equal. assumption. Qed.

Definition todo_ok (s : mst) (l : list N) : Prop :=
  StronglySorted N.le l /\ Forall (fun x => m_last s <= bkt x) l /\ Forall (fun x => x < two32) l.

Lemma merge_index_spec : forall fuel s done olds news, minv s done ->
  StronglySorted N.le done ->
  Forall (fun x => Forall (fun y => x <= y) olds /\ Forall (fun y => x <= y) news) done ->
  todo_ok s olds -> todo_ok s news -> Forall (fun x => bkt x < endb) news ->
  (length olds + length news < fuel)%nat ->
  match merge_index vs rv endb fuel s olds news with
  | Some (s', rest) => exists M, minv s' (done ++ M) /\ Permutation M (List.filter in_ix olds ++ news) /\
      StronglySorted N.le (done ++ M) /\ rest = List.filter out_ix olds /\ m_last s' < N.max endb (m_last s + 1)
  | None => 4096 <= N.of_nat (length done + length (List.filter in_ix olds) + length news) + I
  end.
Proof.
  induction fuel as [|fuel IH]; intros s done olds news Hinv Hsd Hdn Ho Hn Hnb Hf; [lia|].
  assert (TAKE : forall (is_old : bool) fp olds' news',
     (if is_old then olds = fp :: olds' /\ news' = news else news = fp :: news' /\ olds' = olds) ->
     Forall (fun y => fp <= y) olds -> Forall (fun y => fp <= y) news ->
     match
       (let uniq := if N.shiftr (m_lastfp s) vs =? N.shiftr fp vs then m_uniq s else m_uniq s + 1 in
        let bucket := N.shiftr fp rv in
        if endb <=? bucket
        then guard is_old (Some (MSt (m_hbit s) (m_last s) (m_enc s) (m_dst s) (m_lastfp s) uniq, olds))
        else
          let hbit := m_hbit s + (bucket + two32 - m_last s) mod two32 in
          guard ((hbit <? 4096) && (N.of_nat (length (m_dst s)) <? 4096))
            (merge_index vs rv endb fuel
               (MSt (hbit + 1) bucket (fun n => if n =? hbit then false else m_enc s n)
                    (N.land fp (mask32 rv) :: m_dst s) fp uniq) olds' news'))
     with
     | Some (s', rest) => exists M, minv s' (done ++ M) /\ Permutation M (List.filter in_ix olds ++ news) /\
         StronglySorted N.le (done ++ M) /\ rest = List.filter out_ix olds /\ m_last s' < N.max endb (m_last s + 1)
     | None => 4096 <= N.of_nat (length done + length (List.filter in_ix olds) + length news) + I
     end).
  { intros is_old fp olds' news' Hc Hle1 Hle2. cbv zeta. rewrite N.shiftr_div_pow2. fold (bkt fp).
    destruct Ho as (Ho1 & Ho2 & Ho3). destruct Hn as (Hn1 & Hn2 & Hn3).
    destruct (endb <=? bkt fp) eqn:E.
    - destruct is_old.
      + cbn [guard]. destruct Hc as [-> ->].
        destruct news as [|n0 nr].
        * exists []. rewrite app_nil_r.
          assert (NO : List.filter in_ix (fp :: olds') = []).
          { apply filter_none. eapply Forall_impl; [|exact Hle1]. intros y Hy. unfold in_ix. apply bkt_mono in Hy. lia. }
          assert (AL : List.filter out_ix (fp :: olds') = fp :: olds').
          { apply filter_all. eapply Forall_impl; [|exact Hle1]. intros y Hy. unfold out_ix. apply bkt_mono in Hy. lia. }
          rewrite NO, AL. split; [exact Hinv|]. split; [constructor|]. split; [assumption|]. split; [reflexivity|]. cbn [m_last]. lia.
        * exfalso. inversion Hle2 as [|? ? Hx]; subst. inversion Hnb as [|? ? Hy]; subst. apply bkt_mono in Hx. lia.
      + exfalso. destruct Hc as [-> ->]. inversion Hnb; subst. lia.
    - assert (Hlast : m_last s <= bkt fp).
      { destruct is_old; destruct Hc as [-> ->]; [inversion Ho2|inversion Hn2]; subst; assumption. }
      assert (Hfp : fp < two32).
      { destruct is_old; destruct Hc as [-> ->]; [inversion Ho3|inversion Hn3]; subst; assumption. }
      assert (Hb32 : bkt fp < two32).
      { apply N.le_lt_trans with fp; [|assumption]. unfold bkt. apply N.div_le_upper_bound; [apply N.pow_nonzero; lia|].
        pose proof (pow_pos rv). nia. }
      set (uniq := if _ =? _ then _ else _). clearbody uniq.
      destruct (minv_step s done fp fp uniq Hinv Hlast Hb32) as [Hh Hinv'].
      set (hbit := m_hbit s + (bkt fp + two32 - m_last s) mod two32) in *. clearbody hbit.
      assert (Hdlen : length (m_dst s) = length done).
      { destruct Hinv as (D & _). rewrite D, rev_length, map_length. reflexivity. }
      assert (Hcnt : (1 <= length (List.filter in_ix olds) + length news)%nat).
      { destruct is_old; destruct Hc as [-> ->].
        - cbn [List.filter]. unfold in_ix at 1. replace (bkt fp <? endb) with true by lia. cbn [length]. lia.
        - cbn [length]. lia. }
      assert (Hend : endb = i * I + I) by (unfold endb; lia).
      destruct ((hbit <? 4096) && (N.of_nat (length (m_dst s)) <? 4096)) eqn:G; cbn [guard].
      + set (s1 := MSt _ _ _ _ _ _) in *.
        assert (Hm : forall l, Forall (fun y => fp <= y) l -> Forall (fun x => m_last s1 <= bkt x) l).
        { intros l. apply Forall_impl. intros y Hy. apply bkt_mono. assumption. }
        assert (Ho' : todo_ok s1 olds').
        { destruct is_old; destruct Hc as [-> ->]; (split; [|split]).
          - apply StronglySorted_inv in Ho1. apply Ho1.
          - apply Hm. inversion Hle1; assumption.
          - inversion Ho3; assumption.
          - assumption.
          - apply Hm. assumption.
          - assumption. }
        assert (Hn' : todo_ok s1 news').
        { destruct is_old; destruct Hc as [-> ->]; (split; [|split]).
          - assumption.
          - apply Hm. assumption.
          - assumption.
          - apply StronglySorted_inv in Hn1. apply Hn1.
          - apply Hm. inversion Hle2; assumption.
          - inversion Hn3; assumption. }
        specialize (IH s1 (done ++ [fp]) olds' news' Hinv').
        assert (HP : forall A B, Permutation A (List.filter in_ix olds' ++ news') -> B = fp :: A -> Permutation B (List.filter in_ix olds ++ news)).
        { intros A B HA ->. destruct is_old; destruct Hc as [-> ->].
          - cbn [List.filter]. unfold in_ix at 1. replace (bkt fp <? endb) with true by lia. cbn [app]. constructor. assumption.
          - eapply perm_trans; [apply perm_skip; exact HA|]. apply Permutation_middle. }
        assert (Hout : List.filter out_ix olds = List.filter out_ix olds').
        { destruct is_old; destruct Hc as [-> ->]; [|reflexivity]. cbn [List.filter]. unfold out_ix at 1. rewrite E. reflexivity. }
        assert (Hlen : (length (done ++ [fp]) + length (List.filter in_ix olds') + length news' = length done + length (List.filter in_ix olds) + length news)%nat).
        { pose proof (Permutation_length (HP _ _ (Permutation_refl _) eq_refl)) as PL.
          rewrite !app_length in *. cbn [length] in *. rewrite app_length in PL. lia. }
        match type of IH with ?A -> _ => assert (G1 : A) end.
        { apply SSorted_app; [assumption|repeat constructor|]. intros x y Hx [<-|[]].
          apply (proj1 (Forall_forall _ _) Hdn) in Hx. destruct Hx as [X1 X2].
          destruct is_old; destruct Hc as [-> ->]; [inversion X1|inversion X2]; subst; assumption. }
        specialize (IH G1). clear G1.
        match type of IH with ?A -> _ => assert (G1 : A) end.
        { apply Forall_app. split.
          - eapply Forall_impl; [|exact Hdn]. intros x [X1 X2].
            destruct is_old; destruct Hc as [-> ->]; split; try assumption; [inversion X1|inversion X2]; subst; assumption.
          - constructor; [|constructor]. destruct is_old; destruct Hc as [-> ->]; split; try assumption; [inversion Hle1|inversion Hle2]; subst; assumption. }
        specialize (IH G1 Ho' Hn'). clear G1.
        match type of IH with ?A -> _ => assert (G1 : A) end.
        { destruct is_old; destruct Hc as [-> ->]; [assumption|inversion Hnb; assumption]. }
        specialize (IH G1). clear G1.
        match type of IH with ?A -> _ => assert (G1 : A) end.
        { destruct is_old; destruct Hc as [-> ->]; cbn [length] in Hf; lia. }
        specialize (IH G1). clear G1.
        destruct (merge_index vs rv endb fuel s1 olds' news') as [[s' rest]|].
        * destruct IH as (M & M1 & M2 & M3 & M4 & M5). exists (fp :: M).
          rewrite <- app_assoc in M1, M3. cbn [app] in M1, M3.
          split; [assumption|]. split; [apply (HP M); [assumption|reflexivity]|]. split; [assumption|].
          split; [congruence|]. cbn [m_last] in M5. unfold s1 in M5. cbn [m_last] in M5. lia.
        * rewrite Hlen in IH. assumption.
      + lia. }
  cbn [merge_index].
  destruct olds as [|o olds']; destruct news as [|n news'].
  - exists []. rewrite app_nil_r. split; [assumption|]. split; [constructor|]. split; [assumption|]. split; [reflexivity|]. lia.
  - apply (TAKE false n [] news'); [split; reflexivity|constructor|].
    destruct Hn as (Hn1 & _). apply StronglySorted_inv in Hn1. constructor; [lia|apply Hn1].
  - apply (TAKE true o olds' []); [split; reflexivity| |constructor].
    destruct Ho as (Ho1 & _). apply StronglySorted_inv in Ho1. constructor; [lia|apply Ho1].
  - destruct Ho as (Ho1 & Ho2). destruct Hn as (Hn1 & Hn2). pose proof (StronglySorted_inv Ho1) as [_ Ho4]. pose proof (StronglySorted_inv Hn1) as [_ Hn4].
    destruct (o <=? n) eqn:E.
    + apply (TAKE true o olds' (n :: news')); [split; reflexivity| |].
      * constructor; [lia|assumption].
      * constructor; [lia|]. eapply Forall_impl; [|exact Hn4]. intros y Hy. cbv beta in Hy. lia.
    + apply (TAKE false n (o :: olds') news'); [split; reflexivity| |].
      * constructor; [lia|]. eapply Forall_impl; [|exact Ho4]. intros y Hy. cbv beta in Hy. lia.
      * constructor; [lia|assumption].
Qed.
End MERGE.

(** ** One block *)

Definition fits (cfg : fcfg) (rv n : N) : Prop :=
  header_length cfg n + remainder_block_size n rv <= fc_page cfg /\ encoding_size cfg n <= 512.

Lemma write_block_spec : forall cfg rv mem enc fps p, rv <= 32 -> wf_words mem -> Forall (fun x => x < 2 ^ rv) fps ->
  let n := N.of_nat (length fps) in
  match write_block cfg rv mem enc fps p with
  | Some (b, p', enc') =>
      fits cfg rv n /\ fb_num b = n /\ (forall k, k < 8 * encoding_size cfg n -> fb_enc b k = enc k) /\
      wf_words (fb_rem b) /\ (forall k x, nth_error fps k = Some x -> is_item rv (fb_rem b) (N.of_nat k) x) /\
      (forall k, enc' k = if k <? 8 * encoding_size cfg n then true else enc k)
  | None => ~ fits cfg rv n
  end.
Proof.
  intros cfg rv mem enc fps p Hrv Hmem Hfps n. unfold write_block. fold n. cbv zeta.
  destruct ((encoding_size cfg n + 2 + remainder_block_size n rv <=? fc_page cfg) && (encoding_size cfg n <=? 512)) eqn:G; cbn [guard].
  - destruct fps as [|f0 fr] eqn:EF.
    + cbn [opt_bind fb_num fb_enc fb_rem]. split; [unfold fits, header_length; lia|]. split; [reflexivity|].
      split; [intros k Hk; replace (k <? 8 * encoding_size cfg n) with true by lia; reflexivity|].
      split; [assumption|]. split; [intros [|k] x Hx; discriminate|reflexivity].
    + rewrite <- EF in *.
      replace (match fps with [] => Some mem | _ :: _ => pa_pack rv mem 0 fps end) with (pa_pack rv mem 0 fps) by (rewrite EF; reflexivity).
      assert (Hne : fps <> []) by (rewrite EF; discriminate).
      destruct (N.eq_dec rv 0) as [->|Hr0].
      { assert (PN : pa_pack 0 mem 0 fps = Some mem) by reflexivity. rewrite PN. cbn [opt_bind fb_num fb_enc fb_rem].
        split; [unfold fits, header_length; lia|]. split; [reflexivity|].
        split; [intros k Hk; replace (k <? 8 * encoding_size cfg n) with true by lia; reflexivity|].
        split; [assumption|]. split; [|reflexivity].
        intros k x Hx. split; [apply (proj1 (Forall_forall _ _) Hfps); apply (nth_error_In _ _ Hx)|intros j Hj; lia]. }
      destruct (pa_pack_spec rv mem 0 fps ltac:(lia) Hmem Hne Hfps) as (a' & P1 & P2 & P3).
      rewrite P1. cbn [opt_bind fb_num fb_enc fb_rem]. split; [unfold fits, header_length; lia|]. split; [reflexivity|].
      split; [intros k Hk; replace (k <? 8 * encoding_size cfg n) with true by lia; reflexivity|].
      split; [assumption|]. split; [|reflexivity].
      intros k x Hx. assert (Hk : (k < length fps)%nat) by (apply nth_error_Some; congruence).
      split; [apply (proj1 (Forall_forall _ _) Hfps); apply (nth_error_In _ _ Hx)|].
      intros j Hj. rewrite P3. pose proof (packed_bit_in rv mem 0 fps (N.of_nat k) j ltac:(lia) ltac:(lia) Hj) as Q.
      rewrite N.add_0_l in Q. rewrite Q, Nat2N.id. f_equal. apply nth_error_nth. assumption.
  - unfold fits, header_length. lia.
Qed.

Section BLOCK.
Variable cfg : fcfg.
Let I := fc_index cfg.
Let L := fc_log_index cfg.
Hypothesis HI : I = 2 ^ L.

Definition offs (rv i : N) (M : list N) : list N := map (fun x => x / 2 ^ rv - i * fc_index cfg) M.

Definition blk_ok (rv i : N) (b : fblock) (M : list N) : Prop :=
  fb_num b = N.of_nat (length M) /\ enc_ok (fc_index cfg) (offs rv i M) (fb_enc b) /\ wf_words (fb_rem b) /\
  (forall k x, nth_error M k = Some x -> is_item rv (fb_rem b) (N.of_nat k) (x mod 2 ^ rv)) /\
  fits cfg rv (N.of_nat (length M)) /\ StronglySorted N.le M /\
  Forall (fun x => x < two32 /\ x / 2 ^ (rv + fc_log_index cfg) = i) M.

Lemma I_pos : 1 <= I.
Proof. rewrite HI. pose proof (pow_pos L). lia. Qed.

(** membership of an index, through the bucket *)
Lemma index_bucket : forall rv i x, x / 2 ^ (rv + L) = i <-> i * I <= x / 2 ^ rv < (i + 1) * I.
Proof.
  intros rv i x. rewrite div_pow_add, <- HI. pose proof I_pos as P.
  pose proof (N.div_mod (x / 2 ^ rv) I ltac:(lia)) as D1. pose proof (N.mod_lt (x / 2 ^ rv) I ltac:(lia)) as D2.
  set (b := x / 2 ^ rv) in *. clearbody b. set (q := b / I) in *. set (r := b mod I) in *. clearbody q r. 
  split; [intros <-; lia|]. intros H. nia.
Qed.

Lemma offs_sorted : forall rv i M, StronglySorted N.le M -> StronglySorted N.le (offs rv i M).
Proof.
  intros rv i M H. unfold offs. apply SSorted_map; [|assumption]. intros x y _ _ Hxy.
  pose proof (N.div_le_mono x y (2 ^ rv) ltac:(apply N.pow_nonzero; lia) Hxy). lia.
Qed.

Lemma offs_lt : forall rv i M, Forall (fun x => x < two32 /\ x / 2 ^ (rv + L) = i) M -> Forall (fun b => b < I) (offs rv i M).
Proof.
  intros rv i M H. unfold offs. apply Forall_map. eapply Forall_impl; [|exact H]. intros x [_ Hx].
  apply index_bucket in Hx. fold I. lia.
Qed.

(** The block written after a merge *)
Lemma merged_block : forall rv i s M mem p, rv <= 32 -> wf_words mem ->
  minv rv i I s M -> StronglySorted N.le M -> Forall (fun x => x < two32 /\ x / 2 ^ (rv + L) = i) M ->
  match write_block cfg rv mem (m_enc s) (rev (m_dst s)) p with
  | Some (b, p', enc') => blk_ok rv i b M /\ (forall k, enc' k = true)
  | None => ~ fits cfg rv (N.of_nat (length M))
  end.
Proof.
  intros rv i s M mem p Hrv Hmem (I1 & I2 & I3 & I4 & I5) HS HF.
  rewrite I1, rev_involutive.
  pose proof (write_block_spec cfg rv mem (m_enc s) (map (fun x => x mod 2 ^ rv) M) p Hrv Hmem) as W.
  cbv zeta in W. rewrite map_length in W.
  assert (HB : Forall (fun x => x < 2 ^ rv) (map (fun x => x mod 2 ^ rv) M)).
  { apply Forall_map. apply Forall_forall. intros x _. apply N.mod_lt. apply N.pow_nonzero. lia. }
  specialize (W HB). destruct (write_block _ _ _ _ _ _) as [[[b p'] enc']|]; [|assumption].
  destruct W as (W1 & W2 & W3 & W4 & W5 & W6).
  set (n := N.of_nat (length M)) in *.
  assert (Hesz : n + I <= 8 * encoding_size cfg n).
  { unfold encoding_size. fold I. pose proof I_pos. pose proof (N.div_mod (n + I - 1) 8 ltac:(lia)). pose proof (N.mod_lt (n + I - 1) 8 ltac:(lia)). lia. }
  assert (Hsort := offs_sorted rv i M HS). assert (Hlt := offs_lt rv i M HF).
  assert (Hol : length (offs rv i M) = length M) by (unfold offs; apply map_length).
  split.
  - split; [assumption|]. split; [|split; [assumption|split; [|split; [assumption|split; assumption]]]].
    + split.
      * intros bo Hb. fold I in Hb. 
        assert (T : term (offs rv i M) bo < n + I).
        { unfold term. pose proof (before_le (offs rv i M) (bo + 1)). rewrite Hol in H. unfold n. lia. }
        rewrite W3 by lia. destruct (m_enc s (term (offs rv i M) bo)) eqn:E; [reflexivity|]. exfalso.
        apply I5 in E. destruct E as (k & x & Hk & He).
        assert (Hk' : nth_error (offs rv i M) k = Some (x / 2 ^ rv - i * I)).
        { unfold offs. rewrite nth_error_map, Hk. reflexivity. }
        pose proof (sorted_before _ Hsort _ _ (bo + 1) Hk') as SB.
        assert (i * I <= x / 2 ^ rv).
        { apply (proj1 (Forall_forall _ _) I3 x). apply (nth_error_In _ _ Hk). }
        unfold term in He. set (bx := x / 2 ^ rv) in *. clearbody bx. set (bb := before _ _) in *. clearbody bb. lia.
      * intros k bo Hk. unfold offs in Hk. rewrite nth_error_map in Hk. destruct (nth_error M k) as [x|] eqn:Ek; [|discriminate].
        cbn in Hk. injection Hk as <-. fold I.
        assert (Hx : i * I <= x / 2 ^ rv < (i + 1) * I).
        { apply index_bucket. apply (proj1 (Forall_forall _ _) HF x). apply (nth_error_In _ _ Ek). }
        assert (Hkl : (k < length M)%nat) by (apply nth_error_Some; congruence).
        rewrite W3.
        -- apply I5. exists k, x. split; [assumption|]. lia.
        -- unfold n in *. lia.
    + intros k x Hk. apply W5. rewrite nth_error_map, Hk. reflexivity.
  - intros k. rewrite W6. destruct (k <? 8 * encoding_size cfg n) eqn:E; [reflexivity|].
    destruct (m_enc s k) eqn:E2; [reflexivity|]. exfalso. apply I5 in E2. destruct E2 as (j & x & Hj & He).
    assert (Hx : i * I <= x / 2 ^ rv < (i + 1) * I).
    { apply index_bucket. apply (proj1 (Forall_forall _ _) HF x). apply (nth_error_In _ _ Hj). }
    assert (Hkl : (j < length M)%nat) by (apply nth_error_Some; congruence).
    unfold n in *. lia.
Qed.

(** ** The indices under one old index *)

Section INDICES.
Variable vs rv : N.
Hypothesis Hrv : rv <= 32.
Variable F : list N.  (* all the new fingerprints *)
Hypothesis HFs : StronglySorted N.le F.
Hypothesis HF32 : Forall (fun x => x < two32) F.
Variable mem : N -> words.
Hypothesis Hmem : forall i, wf_words (mem i).

Definition ix (x : N) : N := x / 2 ^ (rv + L).
Definition sel (i : N) (l : list N) : list N := List.filter (fun x => ix x =? i) l.
Definition from_ix (i : N) (l : list N) : list N := List.filter (fun x => i <=? ix x) l.

Lemma ix_mono : forall x y, x <= y -> ix x <= ix y.
Proof. intros x y H. apply N.div_le_mono; [apply N.pow_nonzero; lia|assumption]. Qed.

Fixpoint cnts (i : N) (n : nat) : list nat :=
  match n with O => [] | S n' => length (sel i F) :: cnts (i + 1) n' end.

Lemma from_split : forall i l, StronglySorted N.le l -> from_ix i l = sel i l ++ from_ix (i + 1) l.
Proof. intros i l H. apply sorted_split; [apply ix_mono|assumption]. Qed.

Lemma count_index_app : forall i a b, Forall (fun x => x < two32) (a ++ b) -> Forall (fun x => ix x = i) a -> Forall (fun x => ix x <> i) b ->
  count_index (rv + L) i (a ++ b) = length a.
Proof.
  intros i a b H32 Ha Hb. induction a as [|x a IH].
  - cbn [app length]. destruct b as [|y b]; [reflexivity|]. cbn [count_index].
    inversion H32; subst. inversion Hb; subst. rewrite get_index_div by assumption. fold (ix y).
    replace (ix y =? i) with false by lia. reflexivity.
  - cbn [app length count_index]. inversion H32; subst. inversion Ha; subst. rewrite get_index_div by assumption. fold (ix x).
    rewrite N.eqb_refl. f_equal. apply IH; assumption.
Qed.

Lemma index_counts_spec : forall n i, index_counts (rv + L) i n (from_ix i F) = (cnts i n, from_ix (i + N.of_nat n) F).
Proof.
  induction n as [|n IH]; intros i.
  - cbn [index_counts cnts]. rewrite N.add_0_r. reflexivity.
  - cbn [index_counts cnts].
    assert (E : count_index (rv + L) i (from_ix i F) = length (sel i F)).
    { rewrite from_split by assumption. apply count_index_app.
      - rewrite <- from_split by assumption. apply Forall_forall. intros x Hx. apply filter_In in Hx. 
        apply (proj1 (Forall_forall _ _) HF32). apply Hx.
      - apply Forall_forall. intros x Hx. apply filter_In in Hx. lia.
      - apply Forall_forall. intros x Hx. apply filter_In in Hx. lia. }
    rewrite E. rewrite (from_split i F HFs) at 1. rewrite skipn_app, skipn_all, Nat.sub_diag. cbn [skipn app].
    rewrite IH. do 2 f_equal. lia.
Qed.

Lemma cnts_firstn : forall a b i, firstn a (cnts i (a + b)) = cnts i a /\ skipn a (cnts i (a + b)) = cnts (i + N.of_nat a) b.
Proof.
  induction a as [|a IH]; intros b i.
  - cbn. rewrite N.add_0_r. auto.
  - cbn [Nat.add cnts firstn skipn]. destruct (IH b (i + 1)) as [E1 E2]. rewrite E1, E2. split; [reflexivity|]. f_equal. lia.
Qed.

(** The state between indices: the blocks so far (those below [i]) *)
Definition ainv (C : N -> list N) (i : N) (s : ast) : Prop :=
  length (a_blocks s) = N.to_nat i /\
  (forall j b, nth_error (rev (a_blocks s)) (N.to_nat j) = Some b -> exists M, Permutation M (C j) /\ blk_ok rv j b M) /\
  (forall k, a_enc s k = true) /\ a_news s = from_ix i F.

Definition page_ok (i : N) : Prop := i / (fc_page cfg / 8) < 32.

Lemma add_indices_spec : forall C n i olds s,
  ainv C i s -> StronglySorted N.le olds -> Forall (fun x => x < two32 /\ i <= ix x) olds ->
  (forall j, i <= j < i + N.of_nat n -> Permutation (C j) (sel j olds ++ sel j F)) ->
  match add_indices cfg vs rv mem i (cnts i n) olds s with
  | Some s' => ainv C (i + N.of_nat n) s'
  | None => exists j, i <= j < i + N.of_nat n /\ ~ (fits cfg rv (N.of_nat (length (C j))) /\ page_ok j)
  end.
Proof.
  intros C. induction n as [|n IH]; intros i olds s (A1 & A2 & A3 & A4) Hos Hof HC.
  { cbn [cnts add_indices]. rewrite N.add_0_r. repeat split; assumption. }
  cbn [cnts add_indices]. cbv zeta. rewrite A4.
  assert (Efirst : firstn (length (sel i F)) (from_ix i F) = sel i F).
  { rewrite from_split by assumption. rewrite firstn_app, firstn_all, Nat.sub_diag. cbn [firstn]. apply app_nil_r. }
  assert (Eskip : skipn (length (sel i F)) (from_ix i F) = from_ix (i + 1) F).
  { rewrite from_split at 1 by assumption. rewrite skipn_app, skipn_all, Nat.sub_diag. reflexivity. }
  rewrite Efirst, Eskip. fold I.
  pose proof I_pos as HI1.
  set (s0 := MSt 0 (i * I) (a_enc s) [] (two32 - 1) (a_uniq s)).
  assert (Hsel : Forall (fun x => x < two32 /\ ix x = i) (sel i F)).
  { apply Forall_forall. intros x Hx. apply filter_In in Hx. split; [|lia]. apply (proj1 (Forall_forall _ _) HF32). apply Hx. }
  assert (M0 : minv rv i I s0 []).
  { split; [reflexivity|]. split; [cbn; lia|]. split; [constructor|]. split; [cbn; lia|].
    intros k. cbn [m_enc s0]. rewrite A3. split; [discriminate|]. intros (k' & x & Hk & _). destruct k'; discriminate. }
  assert (Hix : forall x, i <= ix x -> i * I <= x / 2 ^ rv).
  { intros x Hx. unfold ix in Hx. rewrite div_pow_add, <- HI in Hx.
    pose proof (N.mul_div_le (x / 2 ^ rv) I ltac:(lia)). nia. }
  pose proof (merge_index_spec vs rv i I HI1 (S (length olds + length (sel i F))) s0 [] olds (sel i F) M0
    (SSorted_nil _) (Forall_nil _)) as MS.
  match type of MS with ?A -> _ => assert (G : A) end.
  { split; [assumption|]. split.
    - eapply Forall_impl; [|exact Hof]. intros x [_ Hx]. cbn [m_last s0]. apply Hix. assumption.
    - eapply Forall_impl; [|exact Hof]. intros x [Hx _]. assumption. }
  specialize (MS G). clear G.
  match type of MS with ?A -> _ => assert (G : A) end.
  { split; [apply SSorted_filter; assumption|]. split.
    - eapply Forall_impl; [|exact Hsel]. intros x [_ Hx]. cbn [m_last s0]. apply Hix. lia.
    - eapply Forall_impl; [|exact Hsel]. intros x [Hx _]. assumption. }
  specialize (MS G). clear G.
  match type of MS with ?A -> _ => assert (G : A) end.
  { eapply Forall_impl; [|exact Hsel]. intros x [_ Hx]. apply index_bucket in Hx. apply Hx. }
  specialize (MS G ltac:(lia)). clear G.
  assert (Ein : List.filter (in_ix rv i I) olds = sel i olds).
  { unfold sel. apply filter_ext_in. intros x Hx. apply (proj1 (Forall_forall _ _) Hof) in Hx. destruct Hx as [_ Hx].
    unfold in_ix. pose proof (index_bucket rv i x) as IB. fold (ix x) in IB. apply Hix in Hx as Hx'. lia. }
  assert (Eout : List.filter (out_ix rv i I) olds = from_ix (i + 1) olds).
  { unfold from_ix. apply filter_ext_in. intros x Hx. apply (proj1 (Forall_forall _ _) Hof) in Hx. destruct Hx as [_ Hx].
    unfold out_ix. pose proof (index_bucket rv i x) as IB. fold (ix x) in IB. apply Hix in Hx as Hx'. lia. }
  rewrite Ein, Eout in MS.
  assert (HCi := HC i ltac:(lia)).
  destruct (merge_index vs rv ((i + 1) * I) _ s0 olds (sel i F)) as [[m olds']|]; cbn [opt_bind].
  - destruct MS as (M & MS1 & MS2 & MS3 & -> & _). cbn [app] in MS1, MS3.
    assert (HMF : Forall (fun x => x < two32 /\ x / 2 ^ (rv + L) = i) M).
    { apply Forall_forall. intros x Hx. apply (Permutation_in _ MS2) in Hx. apply in_app_or in Hx. destruct Hx as [Hx|Hx].
      - apply filter_In in Hx. destruct Hx as [Hx1 Hx2]. apply (proj1 (Forall_forall _ _) Hof) in Hx1. unfold ix in Hx2. split; [apply Hx1|lia].
      - apply (proj1 (Forall_forall _ _) Hsel) in Hx. assumption. }
    assert (Hlen : length M = length (C i)) by (apply Permutation_length; rewrite MS2, HCi; reflexivity).
    pose proof (merged_block rv i m M (mem i) (a_place s) Hrv (Hmem i) MS1 MS3 HMF) as MB.
    destruct (write_block cfg rv (mem i) (m_enc m) (rev (m_dst m)) (a_place s)) as [[[b p'] enc']|]; cbn [opt_bind].
    + destruct MB as [MB1 MB2].
      destruct (i / (fc_page cfg / 8) <? 32) eqn:G; cbn [guard].
      * specialize (IH (i + 1) (from_ix (i + 1) olds) (ASt (b :: a_blocks s) enc' p' (from_ix (i + 1) F) (m_uniq m))).
        assert (A' : ainv C (i + 1) (ASt (b :: a_blocks s) enc' p' (from_ix (i + 1) F) (m_uniq m))).
        { split; [cbn [a_blocks length]; lia|]. split; [|split; [assumption|reflexivity]].
          cbn [a_blocks rev]. intros j b' Hj.
          destruct (Nat.lt_ge_cases (N.to_nat j) (length (rev (a_blocks s)))) as [C1|C1].
          - rewrite nth_error_app1 in Hj by assumption. apply A2. assumption.
          - rewrite nth_error_app2 in Hj by assumption. rewrite rev_length in Hj, C1.
            destruct (N.to_nat j - length (a_blocks s))%nat eqn:Ej; [|destruct n0; discriminate].
            cbn in Hj. injection Hj as <-. assert (j = i) as -> by lia. exists M. split; [|assumption].
            rewrite MS2, HCi. reflexivity. }
        specialize (IH A').
        match type of IH with ?A -> _ => assert (G1 : A) by (apply SSorted_filter; assumption) end. specialize (IH G1). clear G1.
        match type of IH with ?A -> _ => assert (G1 : A) end.
        { apply Forall_forall. intros x Hx. apply filter_In in Hx. destruct Hx as [Hx1 Hx2]. apply (proj1 (Forall_forall _ _) Hof) in Hx1. split; [apply Hx1|lia]. }
        specialize (IH G1). clear G1.
        match type of IH with ?A -> _ => assert (G1 : A) end.
        { intros j Hj. rewrite (HC j ltac:(lia)). apply Permutation_app_tail. unfold sel, from_ix.
          replace (List.filter (fun x => ix x =? j) (List.filter (fun x => i + 1 <=? ix x) olds)) with (List.filter (fun x => ix x =? j) olds); [reflexivity|].
          clear - Hj. induction olds as [|x olds IHo]; [reflexivity|]. cbn [List.filter].
          destruct (ix x =? j) eqn:E1.
          - replace (i + 1 <=? ix x) with true by lia. cbn [List.filter]. rewrite E1. f_equal. assumption.
          - destruct (i + 1 <=? ix x); [cbn [List.filter]; rewrite E1|]; assumption. }
        specialize (IH G1). clear G1.
        destruct (add_indices _ _ _ _ _ _ _ _) as [s'|].
        -- replace (i + N.of_nat (S n)) with (i + 1 + N.of_nat n) by lia. assumption.
        -- destruct IH as (j & Hj & Hn). exists j. split; [lia|assumption].
      * exists i. split; [lia|]. unfold page_ok. lia.
    + exists i. split; [lia|]. rewrite <- Hlen. tauto.
  - exists i. split; [lia|]. intros [(_ & Hf) _]. unfold encoding_size in Hf. fold I in Hf.
    rewrite (Permutation_length HCi), app_length in Hf. cbn [length] in MS.
    set (t := (length (sel i olds) + length (sel i F))%nat) in *.
    pose proof (N.div_mod (N.of_nat t + I - 1) 8 ltac:(lia)). pose proof (N.mod_lt (N.of_nat t + I - 1) 8 ltac:(lia)). lia.
Qed.
End INDICES.
End BLOCK.

(** ** What a filter holds *)

(** A fingerprint with its value, as stored with [vs] bits for the value *)
Definition code (vs : N) (p : N * N) : N := fst p * 2 ^ vs + snd p.

Definition pair_ok (cfg : fcfg) (vs : N) (p : N * N) : Prop := fst p < 2 ^ fc_fs cfg /\ snd p < 2 ^ vs /\ snd p < 64.

(** The pairs under index [i], when [rem] bits of a fingerprint are kept *)
Definition under (cfg : fcfg) (rem i : N) (C : list (N * N)) : list (N * N) :=
  List.filter (fun p => fst p / 2 ^ (rem + fc_log_index cfg) =? i) C.

Definition repr (cfg : fcfg) (f : filter) (C : list (N * N)) : Prop :=
  exists lnb lni rem, sizes_of cfg (rf_num f) = Some (lnb, lni, rem) /\ fc_fs cfg + rf_vs f <= 32 /\
    Forall (pair_ok cfg (rf_vs f)) C /\ N.of_nat (length (rf_blocks f)) = 2 ^ lni /\
    forall i b, nth_error (rf_blocks f) (N.to_nat i) = Some b ->
      exists M, Permutation M (map (code (rf_vs f)) (under cfg rem i C)) /\ blk_ok cfg (rem + rf_vs f) i b M.

Lemma sizes_inv : forall cfg num lnb lni rem, sizes_of cfg num = Some (lnb, lni, rem) ->
  0 < num /\ num < two32 /\ lnb = N.max (fc_log_index cfg) (N.log2 num) /\ lnb <= fc_fs cfg /\
  lnb = lni + fc_log_index cfg /\ fc_fs cfg = rem + lni + fc_log_index cfg.
Proof.
  intros cfg num lnb lni rem H. unfold sizes_of, log_buckets, log2_32 in H.
  destruct ((0 <? num) && (num <? two32)) eqn:E; cbn [opt_bind] in H; [|discriminate].
  destruct (N.log2 num <? fc_log_index cfg) eqn:E2; unfold guard in H;
    match type of H with (if ?b then _ else _) = _ => destruct b eqn:E3 end; try discriminate; injection H as <- <- <-; lia.
Qed.

Lemma two32_pow : two32 = 2 ^ 32.
Proof. reflexivity. Qed.

Lemma pow_le_two32 : forall n x, n <= 32 -> x < 2 ^ n -> x < two32.
Proof.
  intros n x Hn Hx. rewrite two32_pow. apply N.lt_le_trans with (2 ^ n); [assumption|]. apply N.pow_le_mono_r; [lia|assumption].
Qed.

Lemma code_props : forall cfg vs rem p, pair_ok cfg vs p -> fc_fs cfg + vs <= 32 ->
  code vs p < two32 /\ code vs p / 2 ^ vs = fst p /\ code vs p mod 2 ^ vs = snd p /\
  code vs p / 2 ^ (rem + vs) = fst p / 2 ^ rem /\
  code vs p / 2 ^ (rem + vs + fc_log_index cfg) = fst p / 2 ^ (rem + fc_log_index cfg).
Proof.
  intros cfg vs rem [fp v] (H1 & H2 & H3) Hle. cbn [fst snd] in *. unfold code. cbn [fst snd].
  split; [apply (pow_le_two32 (fc_fs cfg + vs)); [assumption|apply code_lt; assumption]|].
  split; [apply div_code; assumption|]. split; [apply mod_code; assumption|].
  split; [apply div_code2; assumption|].
  replace (rem + vs + fc_log_index cfg) with (rem + fc_log_index cfg + vs) by lia. apply div_code2. assumption.
Qed.

(** ** Reading the old fingerprints back *)

Lemma add_bucket_spec : forall rv bucket A B, Forall (fun x => x < two32 /\ x / 2 ^ rv = bucket) A ->
  add_bucket rv bucket (length A) (map (fun x => x mod 2 ^ rv) (A ++ B)) = (A, map (fun x => x mod 2 ^ rv) B).
Proof.
  intros rv bucket A B H. induction H as [|x A [Hx1 Hx2] H IH].
  - cbn [length app]. destruct (map _ B); reflexivity.
  - cbn [length app map add_bucket]. rewrite IH. do 2 f_equal.
    pose proof (N.div_mod x (2 ^ rv) ltac:(apply N.pow_nonzero; lia)) as D.
    pose proof (N.mod_lt x (2 ^ rv) ltac:(apply N.pow_nonzero; lia)) as D2.
    rewrite Hx2 in D. rewrite shl32_small by lia. rewrite N.lor_comm, lor_add by assumption. lia.
Qed.

Lemma skipn_add : forall (l : list N) a b, skipn b (skipn a l) = skipn (a + b) l.
Proof.
  intros l a. revert l. induction a as [|a IH]; intros l b; [reflexivity|].
  destruct l as [|x l]; [cbn [skipn Nat.add]; apply skipn_nil|]. cbn [skipn Nat.add]. apply IH.
Qed.

Lemma nth_skipn : forall (l : list N) a k, nth_error (skipn a l) k = nth_error l (a + k).
Proof.
  intros l a. revert l. induction a as [|a IH]; intros l k; [reflexivity|].
  destruct l as [|x l]; [cbn [skipn Nat.add]; destruct k; reflexivity|]. cbn [skipn Nat.add nth_error]. apply IH.
Qed.

Lemma nth_firstn : forall (l : list N) n k, (k < n)%nat -> nth_error (firstn n l) k = nth_error l k.
Proof.
  intros l n. revert l. induction n as [|n IH]; intros l k H; [lia|].
  destruct l as [|x l]; [reflexivity|]. destruct k as [|k]; [reflexivity|]. cbn [firstn nth_error]. apply IH. lia.
Qed.

Section READ.
Variable cfg : fcfg.
Hypothesis HI : fc_index cfg = 2 ^ fc_log_index cfg.
Variable rv i : N.
Variable M : list N.
Hypothesis HMs : StronglySorted N.le M.
Hypothesis HMf : Forall (fun x => x < two32 /\ x / 2 ^ (rv + fc_log_index cfg) = i) M.
Let bs := offs cfg rv i M.

Lemma bs_nth : forall k x, nth_error M k = Some x -> nth_error bs k = Some (x / 2 ^ rv - i * fc_index cfg).
Proof. intros k x H. unfold bs, offs. rewrite nth_error_map, H. reflexivity. Qed.

Lemma bucket_of : forall k x, nth_error M k = Some x -> i * fc_index cfg <= x / 2 ^ rv < (i + 1) * fc_index cfg.
Proof. intros k x H. apply (index_bucket cfg HI). apply (proj1 (Forall_forall _ _) HMf x). apply (nth_error_In _ _ H). Qed.

Lemma add_buckets_spec : forall n b, b + N.of_nat n = fc_index cfg ->
  add_buckets rv (i * fc_index cfg + b) (sizes_from bs b n) (map (fun x => x mod 2 ^ rv) (skipn (N.to_nat (before bs b)) M)) =
  skipn (N.to_nat (before bs b)) M.
Proof.
  assert (Hbs : length bs = length M) by (unfold bs, offs; apply map_length).
  induction n as [|n IH]; intros b Hb.
  - cbn [sizes_from add_buckets]. rewrite skipn_all2; [reflexivity|].
    assert (b = fc_index cfg) as -> by lia. rewrite before_all by (apply (offs_lt cfg HI); assumption). lia.
  - cbn [sizes_from add_buckets].
    pose proof (before_mono bs b (b + 1) ltac:(lia)) as Hm. pose proof (before_le bs (b + 1)) as Hl.
    set (c := before bs (b + 1) - before bs b) in *.
    set (A := firstn (N.to_nat c) (skipn (N.to_nat (before bs b)) M)).
    assert (HA : length A = N.to_nat c).
    { unfold A. rewrite firstn_length, skipn_length. unfold c. lia. }
    assert (Hrest : skipn (N.to_nat c) (skipn (N.to_nat (before bs b)) M) = skipn (N.to_nat (before bs (b + 1))) M).
    { rewrite skipn_add. f_equal. unfold c. lia. }
    assert (Hsp : skipn (N.to_nat (before bs b)) M = A ++ skipn (N.to_nat (before bs (b + 1))) M).
    { rewrite <- Hrest. symmetry. apply firstn_skipn. }
    assert (HAF : Forall (fun x => x < two32 /\ x / 2 ^ rv = i * fc_index cfg + b) A).
    { apply Forall_forall. intros x Hx. apply In_nth_error in Hx. destruct Hx as [k Hk].
      assert (Hkl : (k < N.to_nat c)%nat) by (rewrite <- HA; apply nth_error_Some; congruence).
      assert (Hk' : nth_error M (N.to_nat (before bs b) + k) = Some x).
      { rewrite <- Hk. unfold A. rewrite nth_firstn, nth_skipn by assumption. reflexivity. }
      split; [apply (proj1 (Forall_forall _ _) HMf x); apply (nth_error_In _ _ Hk')|].
      pose proof (bucket_of _ _ Hk') as B1. pose proof (bs_nth _ _ Hk') as B2.
      pose proof (in_bucket bs (offs_sorted cfg HI rv i M HMs) (N.to_nat (before bs b) + k) b ltac:(unfold c in *; lia)) as B3.
      rewrite B2 in B3. injection B3 as B3. lia. }
    rewrite Hsp at 1. rewrite <- HA, (add_bucket_spec rv (i * fc_index cfg + b) A _ HAF).
    rewrite <- N.add_assoc, (IH (b + 1) ltac:(lia)). symmetry. exact Hsp.
Qed.
End READ.

Lemma items_map : forall rv rem M, rv <= 32 -> wf_words rem ->
  forall off, (forall k x, nth_error M k = Some x -> is_item rv rem (off + N.of_nat k) (x mod 2 ^ rv)) ->
  items_from rv rem off (length M) = map (fun x => x mod 2 ^ rv) M.
Proof.
  intros rv rem M Hrv Hw. induction M as [|x M IH]; intros off H; [reflexivity|].
  cbn [length items_from map]. f_equal.
  - apply (is_item_unique rv rem off); [apply pa_get_spec; assumption|].
    specialize (H 0%nat x eq_refl). rewrite N.add_0_r in H. exact H.
  - apply IH. intros k y Hk. specialize (H (S k) y Hk). replace (off + N.of_nat (S k)) with (off + 1 + N.of_nat k) in H by lia. exact H.
Qed.

Lemma reshape_code : forall cfg ovs vs p, pair_ok cfg ovs p -> ovs <= vs -> fc_fs cfg + vs <= 32 -> reshape ovs vs (code ovs p) = code vs p.
Proof.
  intros cfg ovs vs [fp v] (H1 & H2 & H3) Hle H32. cbn [fst snd] in *. unfold reshape, code. cbn [fst snd].
  rewrite land_mask, mod_code by assumption. replace (fp * 2 ^ ovs + v - v) with (fp * 2 ^ ovs) by lia.
  assert (E : fp * 2 ^ ovs * 2 ^ (vs - ovs) = fp * 2 ^ vs).
  { rewrite <- N.mul_assoc, <- N.pow_add_r. do 2 f_equal. lia. }
  rewrite shl32_small.
  - rewrite E. apply lor_add. apply N.lt_le_trans with (2 ^ ovs); [assumption|]. apply N.pow_le_mono_r; lia.
  - rewrite E. apply (pow_le_two32 (fc_fs cfg + vs)); [assumption|]. rewrite N.pow_add_r.
    apply N.mul_lt_mono_pos_r; [apply pow_pos|assumption].
Qed.

Lemma code_le : forall ovs vs p q, snd p < 2 ^ ovs -> snd q < 2 ^ ovs -> ovs <= vs -> code ovs p <= code ovs q -> code vs p <= code vs q.
Proof.
  intros ovs vs [a v] [b w] Hv Hw Hle H. unfold code in *. cbn [fst snd] in *.
  assert (HP : 2 ^ ovs <= 2 ^ vs) by (apply N.pow_le_mono_r; lia).
  remember (2 ^ ovs) as A. remember (2 ^ vs) as B. clear HeqA HeqB Hle.
  destruct (N.lt_trichotomy a b) as [C|[->|C]]; nia.
Qed.

Lemma old_fps_spec : forall cfg f C lnb lni orem i vs, fc_index cfg = 2 ^ fc_log_index cfg ->
  repr cfg f C -> sizes_of cfg (rf_num f) = Some (lnb, lni, orem) -> i < 2 ^ lni ->
  fc_fs cfg + vs <= 32 -> rf_vs f <= vs ->
  match old_fps cfg (Some f) orem i vs with
  | Some l => StronglySorted N.le l /\ Permutation l (map (code vs) (under cfg orem i C))
  | None => rf_vs f + orem = 0
  end.
Proof.
  intros cfg f C lnb lni orem i vs HI (lnb' & lni' & orem' & R1 & R2 & R3 & R4 & R5) Hsz Hi H32 Hvs.
  rewrite Hsz in R1. injection R1 as <- <- <-.
  apply sizes_inv in Hsz. destruct Hsz as (_ & _ & _ & _ & _ & Hfs).
  unfold old_fps. destruct (nth_error (rf_blocks f) (N.to_nat i)) as [b|] eqn:Eb.
  2:{ apply nth_error_None in Eb. lia. }
  cbn [opt_bind]. destruct (R5 _ _ Eb) as (M & HP & B1 & B2 & B3 & B4 & B5 & B6 & B7).
  assert (HIp : 1 <= fc_index cfg) by (rewrite HI; pose proof (pow_pos (fc_log_index cfg)); lia).
  unfold bucket_counts.
  assert (Hol : length (offs cfg (orem + rf_vs f) i M) = length M) by (unfold offs; apply map_length).
  rewrite (counts_from_spec (fc_index cfg) (offs cfg (orem + rf_vs f) i M) (offs_sorted cfg HI _ i M B6) (fb_enc b) B2) with (b := 0).
  2:{ unfold enc_fuel. rewrite Hol, B1. lia. }
  2:{ lia. }
  2:{ rewrite before_0. exact (view_word (fb_enc b) 64 ltac:(lia) 0). }
  2:{ rewrite before_0. lia. }
  2:{ lia. }
  cbn [opt_bind]. rewrite B1.
  assert (HPl := Permutation_length HP). rewrite map_length in HPl.
  destruct (N.of_nat (length M) =? 0) eqn:E0.
  { destruct M; [|cbn in E0; lia]. split; [constructor|]. cbn in HPl. destruct (under cfg orem i C); [constructor|discriminate]. }
  assert (Hn : N.of_nat (length M) <= 4096).
  { destruct B5 as [_ B5]. unfold encoding_size in B5. set (n := N.of_nat (length M)) in *.
    pose proof (N.div_mod (n + fc_index cfg - 1) 8 ltac:(lia)). pose proof (N.mod_lt (n + fc_index cfg - 1) 8 ltac:(lia)). lia. }
  replace (N.of_nat (length M) <=? 4096) with true by lia. cbn [guard]. cbv zeta.
  replace (rf_vs f + orem) with (orem + rf_vs f) by lia. set (rv := orem + rf_vs f) in *.
  destruct (N.eq_dec rv 0) as [Hr0|Hr0].
  { rewrite Hr0. assert (PN : forall a n, pa_unpack 0 a 0 n = None) by reflexivity.
    rewrite PN. cbn [opt_bind]. reflexivity. }
  assert (Hrv : rv <= 32) by (unfold rv; lia).
  rewrite pa_unpack_spec by (assumption || lia). cbn [opt_bind]. rewrite Nat2N.id.
  rewrite (items_map rv (fb_rem b) M Hrv B3 0) by (intros k x Hk; rewrite N.add_0_l; apply B4; assumption).
  pose proof (add_buckets_spec cfg HI rv i M B6 B7 (N.to_nat (fc_index cfg)) 0 ltac:(lia)) as AB.
  rewrite before_0, N.add_0_r in AB. cbn [N.to_nat skipn] in AB. rewrite AB.
  assert (Hpk : forall x, In x M -> exists p, x = code (rf_vs f) p /\ pair_ok cfg (rf_vs f) p /\ In p C).
  { intros x Hx. apply (Permutation_in _ HP) in Hx. apply in_map_iff in Hx. destruct Hx as (p & <- & Hp). apply filter_In in Hp.
    exists p. split; [reflexivity|]. split; [|apply Hp]. apply (proj1 (Forall_forall _ _) R3). apply Hp. }
  destruct (rf_vs f =? vs) eqn:Ev.
  - assert (rf_vs f = vs) as <- by lia. split; assumption.
  - replace (rf_vs f <? vs) with true by lia. cbn [guard]. split.
    + apply SSorted_map; [|assumption]. intros x y Hx Hy Hxy.
      destruct (Hpk x Hx) as (p & -> & Hp & _). destruct (Hpk y Hy) as (q & -> & Hq & _).
      rewrite (reshape_code cfg _ vs p Hp), (reshape_code cfg _ vs q Hq) by lia.
      apply (code_le (rf_vs f)); [apply Hp|apply Hq|assumption|assumption].
    + rewrite HP, map_map. replace (map (fun x => reshape (rf_vs f) vs (code (rf_vs f) x)) (under cfg orem i C)) with (map (code vs) (under cfg orem i C)); [reflexivity|].
      apply map_ext_in. intros p Hp. apply filter_In in Hp. symmetry. apply (reshape_code cfg); [|assumption|assumption].
      apply (proj1 (Forall_forall _ _) R3). apply Hp.
Qed.

(** ** The old indices *)

Section ADD.
Variable cfg : fcfg.
Hypothesis HI : fc_index cfg = 2 ^ fc_log_index cfg.
Variable old : option filter.
Variable orem vs rv : N.
Hypothesis Hrv : rv <= 32.
Variable F : list N.
Hypothesis HFs : StronglySorted N.le F.
Hypothesis HF32 : Forall (fun x => x < two32) F.
Variable mem : N -> words.
Hypothesis Hmem : forall i, wf_words (mem i).
Variable per : nat.
Hypothesis Hper : (0 < per)%nat.
Variable total : N.
Variable bad : Prop.
Variable D C : N -> list N.
Hypothesis HD : forall oi, oi < total ->
  match old_fps cfg old orem oi vs with
  | Some l => StronglySorted N.le l /\ Permutation l (D oi)
  | None => bad
  end.
Hypothesis HDr : forall oi x, oi < total -> In x (D oi) -> x < two32 /\ oi * N.of_nat per <= ix cfg rv x.
Hypothesis HC : forall oi j, oi < total -> oi * N.of_nat per <= j < (oi + 1) * N.of_nat per ->
  Permutation (C j) (sel cfg rv j (D oi) ++ sel cfg rv j F).

Lemma perm_sel : forall j l l', Permutation l l' -> Permutation (sel cfg rv j l) (sel cfg rv j l').
Proof.
  intros j l l' H. unfold sel. induction H; cbn [List.filter]; try (destruct (_ =? _)); try (destruct (_ =? _)); auto using perm_skip, perm_swap.
  eapply perm_trans; eassumption.
Qed.

Lemma add_old_spec : forall n oi s, oi + N.of_nat n = total -> ainv cfg rv F C (oi * N.of_nat per) s ->
  match add_old_indices cfg old orem vs rv mem per oi n (cnts cfg rv F (oi * N.of_nat per) (n * per)) s with
  | Some s' => ainv cfg rv F C (total * N.of_nat per) s'
  | None => bad \/ exists j, j < total * N.of_nat per /\ ~ (fits cfg rv (N.of_nat (length (C j))) /\ page_ok cfg j)
  end.
Proof.
  induction n as [|n IH]; intros oi s Ht Hinv.
  - cbn [add_old_indices]. assert (oi = total) as <- by lia. assumption.
  - cbn [add_old_indices]. specialize (HD oi ltac:(lia)) as HDo.
    destruct (old_fps cfg old orem oi vs) as [olds|]; cbn [opt_bind]; [|left; assumption].
    destruct HDo as [Ho1 Ho2].
    cbn [Nat.mul]. destruct (cnts_firstn cfg HI rv Hrv F mem Hmem per (n * per) (oi * N.of_nat per)) as [E1 E2]. rewrite E1, E2.
    pose proof (add_indices_spec cfg HI vs rv Hrv F HFs HF32 mem Hmem C per (oi * N.of_nat per) olds s Hinv Ho1) as AI.
    match type of AI with ?A -> _ => assert (G : A) end.
    { apply Forall_forall. intros x Hx. apply (HDr oi x ltac:(lia)). apply (Permutation_in _ Ho2 Hx). }
    specialize (AI G). clear G.
    match type of AI with ?A -> _ => assert (G : A) end.
    { intros j Hj. rewrite (HC oi j) by lia. apply Permutation_app_tail. apply perm_sel. symmetry. assumption. }
    specialize (AI G). clear G.
    destruct (add_indices _ _ _ _ _ _ _ _) as [s'|]; cbn [opt_bind].
    + replace (oi * N.of_nat per + N.of_nat per) with ((oi + 1) * N.of_nat per) in * by lia.
      apply IH; [lia|assumption].
    + right. destruct AI as (j & Hj & Hn). exists j. split; [|assumption]. nia.
Qed.
End ADD.

(** ** Adding a batch *)

Lemma dedup_spec : forall l last, StronglySorted N.le l -> (match last with Some y => Forall (fun x => y <= x) l | None => True end) ->
  StronglySorted N.le (dedup last l) /\ NoDup (dedup last l) /\ (forall x, In x (dedup last l) <-> In x l /\ last <> Some x).
Proof.
  intros l. induction l as [|x l IH]; intros last HS HL.
  - cbn. split; [constructor|]. split; [constructor|]. intros x. tauto.
  - cbn [dedup]. apply StronglySorted_inv in HS. destruct HS as [HS HF].
    destruct (match last with Some y => x =? y | None => false end) eqn:E.
    + destruct last as [y|]; [|discriminate]. assert (x = y) as <- by lia.
      destruct (IH (Some x) HS HF) as (I1 & I2 & I3). split; [assumption|]. split; [assumption|].
      intros z. rewrite I3. split; [intros [H1 H2]; split; [right; assumption|assumption]|].
      intros [[->|H1] H2]; [congruence|]. split; assumption.
    + destruct (IH (Some x) HS HF) as (I1 & I2 & I3).
      split; [|split].
      * constructor; [assumption|]. apply Forall_forall. intros z Hz. apply I3 in Hz. apply (proj1 (Forall_forall _ _) HF). apply Hz.
      * constructor; [|assumption]. intros H. apply I3 in H. destruct H as [_ H]. congruence.
      * intros z. cbn [In]. rewrite I3. destruct (N.eq_dec x z) as [->|Hz].
        -- split; [|intros; left; reflexivity]. intros _. split; [left; reflexivity|]. intros ->. lia.
        -- split.
           ++ intros [H|[H1 H2]]; [congruence|]. split; [right; assumption|]. intros ->. apply Forall_inv in HL.
              apply (proj1 (Forall_forall _ _) HF) in H1. lia.
           ++ intros [[H|H] H2]; [congruence|]. right. split; [assumption|congruence].
Qed.

Definition fingerprint (cfg : fcfg) (h : N) : N := h / 2 ^ (32 - fc_fs cfg).

(** The distinct fingerprints of a batch, with the value *)
Definition batch_pairs (cfg : fcfg) (hashes : list N) (value : N) : list (N * N) :=
  map (fun t => (t, value)) (nodup N.eq_dec (map (fingerprint cfg) hashes)).

Lemma value_size_lt : forall v, v < 2 ^ value_size v.
Proof.
  intros v. unfold value_size. destruct (v =? 0) eqn:E; [cbn; lia|].
  pose proof (N.log2_spec v ltac:(lia)) as [_ H]. rewrite N.add_1_r. assumption.
Qed.

Lemma shape_code : forall cfg h value, h < two32 -> 1 <= fc_fs cfg -> fc_fs cfg + value_size value <= 32 -> value < 64 ->
  shape cfg (value_size value) value h = code (value_size value) (fingerprint cfg h, value) /\
  pair_ok cfg (value_size value) (fingerprint cfg h, value).
Proof.
  intros cfg h value Hh Hfs H32 Hv.
  assert (Hp : fingerprint cfg h < 2 ^ fc_fs cfg).
  { unfold fingerprint. apply div_lt_pow. replace (32 - fc_fs cfg + fc_fs cfg) with 32 by lia. exact Hh. }
  split.
  - unfold shape, code. cbn [fst snd]. rewrite N.shiftr_div_pow2. fold (fingerprint cfg h). rewrite shl32_small.
    + apply lor_add. apply value_size_lt.
    + apply (pow_le_two32 (fc_fs cfg + value_size value)); [assumption|]. rewrite N.pow_add_r.
      apply N.mul_lt_mono_pos_r; [apply pow_pos|assumption].
  - split; [assumption|]. split; [apply value_size_lt|assumption].
Qed.

Definition orepr (cfg : fcfg) (old : option filter) (C : list (N * N)) : Prop :=
  match old with None => C = [] | Some f => repr cfg f C end.

Definition old_num (old : option filter) : N := match old with None => 0 | Some f => rf_num f end.

(** The load of the indices after an add *)
Definition room (cfg : fcfg) (num vs : N) (C : list (N * N)) : Prop :=
  forall lnb lni rem, sizes_of cfg num = Some (lnb, lni, rem) ->
  forall j, j < 2 ^ lni -> fits cfg (rem + vs) (N.of_nat (length (under cfg rem j C))) /\ page_ok cfg j.

Lemma sel_map_code : forall cfg vs rem j C, Forall (pair_ok cfg vs) C -> fc_fs cfg + vs <= 32 ->
  sel cfg (rem + vs) j (map (code vs) C) = map (code vs) (under cfg rem j C).
Proof.
  intros cfg vs rem j C HP H32. unfold sel, under, ix. induction HP as [|p C Hp HP IH]; [reflexivity|].
  cbn [map List.filter]. destruct (code_props cfg vs rem p Hp H32) as (_ & _ & _ & _ & E). rewrite E.
  destruct (_ =? _); cbn [map]; rewrite IH; reflexivity.
Qed.

Lemma under_under : forall cfg rem d i j C, j / 2 ^ d = i -> under cfg rem j (under cfg (rem + d) i C) = under cfg rem j C.
Proof.
  intros cfg rem d i j C H. unfold under. induction C as [|p C IH]; [reflexivity|]. cbn [List.filter].
  destruct (fst p / 2 ^ (rem + fc_log_index cfg) =? j) eqn:E.
  - assert (Ei : fst p / 2 ^ (rem + d + fc_log_index cfg) = i).
    { replace (rem + d + fc_log_index cfg) with (rem + fc_log_index cfg + d) by lia. rewrite div_pow_add.
      replace (fst p / 2 ^ (rem + fc_log_index cfg)) with j by lia. assumption. }
    rewrite Ei, N.eqb_refl. cbn [List.filter]. rewrite E. f_equal. assumption.
  - destruct (_ =? i); [cbn [List.filter]; rewrite E|]; assumption.
Qed.

Lemma under_app : forall cfg rem j A B, under cfg rem j (A ++ B) = under cfg rem j A ++ under cfg rem j B.
Proof. intros. apply filter_app. Qed.

Theorem filter_add_spec : forall cfg mem old C hashes value,
  fc_index cfg = 2 ^ fc_log_index cfg -> 1 <= fc_fs cfg -> (forall i, wf_words (mem i)) ->
  orepr cfg old C -> Forall (fun h => h < two32) hashes -> value < 64 ->
  (forall f, old = Some f -> rf_vs f <= value_size value) ->
  let num := N.of_nat (length hashes) + old_num old in
  let C' := C ++ batch_pairs cfg hashes value in
  match filter_add cfg mem old hashes value with
  | Some f' => repr cfg f' C' /\ rf_num f' = num /\ rf_vs f' = value_size value
  | None => ~ (0 < num < 2 ^ fc_fs cfg /\ fc_log_index cfg < fc_fs cfg /\ fc_fs cfg + value_size value <= 32 /\ room cfg num (value_size value) C')
  end.
Proof.
  intros cfg mem old C hashes value HI Hfs Hmem Hold Hh Hv Hvs num C'.
  set (vs := value_size value) in *. unfold filter_add.
  replace (N.of_nat (length hashes) + match old with None => 0 | Some f => rf_num f end) with num by (destruct old; reflexivity).
  assert (Hlog : forall n, 0 < n < 2 ^ fc_fs cfg -> n < two32 -> N.log2 n < fc_fs cfg).
  { intros n Hn _. apply N.log2_lt_pow2; lia. }
  assert (Hsz : sizes_of cfg num = None -> ~ (0 < num < 2 ^ fc_fs cfg /\ fc_log_index cfg < fc_fs cfg /\ fc_fs cfg + vs <= 32)).
  { intros Hs (N1 & N2 & N3). assert (num < two32) by (apply (pow_le_two32 (fc_fs cfg)); lia).
    unfold sizes_of, log_buckets, log2_32 in Hs. replace ((0 <? num) && (num <? two32)) with true in Hs by lia.
    cbn [opt_bind] in Hs. specialize (Hlog num N1 H).
    destruct (N.log2 num <? fc_log_index cfg) eqn:E; unfold guard in Hs;
      match type of Hs with (if ?b then _ else _) = _ => replace b with true in Hs by lia end; discriminate. }
  assert (Hosz : exists olnb olni orem, (match old with None => Some (0, 0, 0) | Some f => guard (fc_fs cfg + rf_vs f <=? 32) (sizes_of cfg (rf_num f)) end) = Some (olnb, olni, orem) /\
     (match old with None => olni = 0 /\ orem = 0 | Some f => sizes_of cfg (rf_num f) = Some (olnb, olni, orem) end)).
  { destruct old as [f|]; [|exists 0, 0, 0; auto]. destruct Hold as (a & b & c & R1 & R2 & _). exists a, b, c.
    replace (fc_fs cfg + rf_vs f <=? 32) with true by lia. cbn [guard]. auto. }
  destruct Hosz as (olnb & olni & orem & -> & Hosz). cbn [opt_bind].
  destruct (sizes_of cfg num) as [[[lnb lni] rem]|] eqn:Es; cbn [opt_bind]; [|tauto]. clear Hsz.
  pose proof (sizes_inv _ _ _ _ _ Es) as (S1 & S2 & S3 & S4 & S5 & S6).
  cbv zeta. fold vs.
  destruct (fc_fs cfg + vs <=? 32) eqn:E32; cbn [guard]; [|intros (_ & _ & X & _); lia].
  assert (H32 : fc_fs cfg + vs <= 32) by lia.
  replace (vs + rem) with (rem + vs) by lia. set (rv := rem + vs) in *.
  assert (Hrv : rv <= 32) by (unfold rv; lia).
  (* the sorted batch *)
  assert (Hsh : Forall (fun u => u < 2 ^ (fc_fs cfg + vs) /\ u mod 2 ^ vs = value) (map (shape cfg vs value) hashes)).
  { apply Forall_map. eapply Forall_impl; [|exact Hh]. intros h Hh'. destruct (shape_code cfg h value Hh' Hfs H32 Hv) as [E1 E2].
    fold vs in E1, E2. rewrite E1. destruct E2 as (P1 & P2 & P3). cbn [fst snd] in *. unfold code. cbn [fst snd].
    split; [apply code_lt; assumption|apply mod_code; assumption]. }
  destruct (radix_sort_spec _ (fc_fs cfg) vs value Hfs H32 Hsh) as (out & -> & HP & HS). cbn [opt_bind].
  destruct (dedup_spec out None HS I) as (D1 & D2 & D3).
  set (F := dedup None out) in *.
  set (news := batch_pairs cfg hashes value) in *.
  assert (Hnews : Forall (pair_ok cfg vs) news).
  { unfold news, batch_pairs. apply Forall_map. apply Forall_forall. intros t Ht. apply nodup_In in Ht. apply in_map_iff in Ht.
    destruct Ht as (h & <- & Hin). apply (proj1 (Forall_forall _ _) Hh) in Hin. apply (shape_code cfg h value Hin Hfs H32 Hv). }
  assert (HFn : Permutation F (map (code vs) news)).
  { apply NoDup_Permutation; [assumption| |].
    - unfold news, batch_pairs. rewrite map_map. apply FinFun.Injective_map_NoDup.
      + intros a b Hab. unfold code in Hab. cbn [fst snd] in Hab. pose proof (pow_pos vs). nia.
      + apply NoDup_nodup.
    - intros x. rewrite D3. unfold news, batch_pairs. rewrite map_map. split.
      + intros [Hx _]. apply (Permutation_in _ HP) in Hx. apply in_map_iff in Hx. destruct Hx as (h & <- & Hin).
        apply in_map_iff. exists (fingerprint cfg h). split.
        * symmetry. apply (shape_code cfg h value); try assumption. apply (proj1 (Forall_forall _ _) Hh). assumption.
        * apply nodup_In. apply in_map. assumption.
      + intros Hx. split; [|discriminate]. apply in_map_iff in Hx. destruct Hx as (t & <- & Ht). apply nodup_In in Ht. apply in_map_iff in Ht.
        destruct Ht as (h & <- & Hin). apply (Permutation_in _ (Permutation_sym HP)). apply in_map_iff. exists h. split; [|assumption].
        apply (shape_code cfg h value); try assumption. apply (proj1 (Forall_forall _ _) Hh). assumption. }
  assert (HF32 : Forall (fun x => x < two32) F).
  { apply Forall_forall. intros x Hx. apply (Permutation_in _ HFn) in Hx. apply in_map_iff in Hx. destruct Hx as (p & <- & Hp).
    apply (code_props cfg vs rem p); [|assumption]. apply (proj1 (Forall_forall _ _) Hnews). assumption. }
  assert (HCok : Forall (pair_ok cfg vs) C).
  { destruct old as [f|]; [|rewrite Hold; constructor]. destruct Hold as (_ & _ & _ & _ & _ & R3 & _).
    eapply Forall_impl; [|exact R3]. intros p (P1 & P2 & P3). split; [assumption|]. split; [|assumption].
    apply N.lt_le_trans with (2 ^ rf_vs f); [assumption|]. apply N.pow_le_mono_r; [lia|]. apply Hvs. reflexivity. }
  pose proof (index_counts_spec cfg HI rv Hrv F D1 HF32 mem Hmem (N.to_nat (2 ^ lni)) 0) as IC.
  assert (Hall : from_ix cfg rv 0 F = F).
  { unfold from_ix. apply filter_all. apply Forall_forall. intros x _. lia. }
  rewrite Hall in IC. rewrite IC.
  (* the split of the indices *)
  assert (Hlni : olni <= lni /\ (old <> None -> orem = rem + (lni - olni)) /\ (old = None -> olni = 0)).
  { destruct old as [f|]; [|split; [lia|split; [congruence|lia]]]. pose proof (sizes_inv _ _ _ _ _ Hosz) as (O1 & O2 & O3 & O4 & O5 & O6).
    assert (N.log2 (rf_num f) <= N.log2 num) by (apply N.log2_le_mono; unfold num, old_num; lia).
    split; [lia|]. split; [|congruence]. intros _. lia. }
  destruct Hlni as (Hl1 & Hl2 & Hl3).
  set (d := lni - olni) in *.
  assert (Hper : 2 ^ lni / 2 ^ olni = 2 ^ d).
  { replace lni with (d + olni) by lia. rewrite N.pow_add_r. apply N.div_mul. apply N.pow_nonzero. lia. }
  rewrite Hper. set (per := N.to_nat (2 ^ d)).
  assert (Hper' : N.of_nat per = 2 ^ d) by (unfold per; lia).
  assert (Htot : 2 ^ olni * 2 ^ d = 2 ^ lni) by (rewrite <- N.pow_add_r; f_equal; lia).
  set (Dl := fun oi : N => match old with None => [] | Some _ => map (code vs) (under cfg orem oi C) end).
  set (Cl := fun j : N => map (code vs) (under cfg rem j C')).
  pose proof (add_old_spec cfg HI old orem vs rv Hrv F D1 HF32 mem Hmem per ltac:(unfold per; pose proof (pow_pos d); lia) (2 ^ olni)
     (match old with None => False | Some f => rf_vs f + orem = 0 end) Dl Cl) as AO.
  match type of AO with ?A -> _ => assert (G : A) end.
  { intros oi Hoi. unfold Dl. destruct old as [f|].
    - apply (old_fps_spec cfg f C olnb olni orem oi vs HI Hold Hosz Hoi H32). apply Hvs. reflexivity.
    - cbn [old_fps]. split; constructor. }
  specialize (AO G). clear G.
  match type of AO with ?A -> _ => assert (G : A) end.
  { intros oi x Hoi Hx. unfold Dl in Hx. destruct old as [f|]; [|destruct Hx].
    apply in_map_iff in Hx. destruct Hx as (p & <- & Hp). apply filter_In in Hp. destruct Hp as [Hp1 Hp2].
    apply (proj1 (Forall_forall _ _) HCok) in Hp1. destruct (code_props cfg vs rem p Hp1 H32) as (K1 & _ & _ & _ & K5).
    split; [assumption|]. unfold ix. unfold rv. rewrite K5, Hper'.
    rewrite Hl2 in Hp2 by discriminate. replace (rem + d + fc_log_index cfg) with (rem + fc_log_index cfg + d) in Hp2 by lia.
    rewrite div_pow_add in Hp2. apply N.eqb_eq in Hp2. rewrite <- Hp2.
    rewrite N.mul_comm. apply N.mul_div_le. apply N.pow_nonzero. lia. }
  specialize (AO G). clear G.
  match type of AO with ?A -> _ => assert (G : A) end.
  { intros oi j Hoi Hj. rewrite Hper' in Hj. unfold Cl, C'. rewrite under_app, map_app. apply Permutation_app.
    - unfold Dl. destruct old as [f|].
      + unfold rv. rewrite sel_map_code; [|apply Forall_forall; intros p Hp; apply filter_In in Hp; apply (proj1 (Forall_forall _ _) HCok); apply Hp|assumption].
        rewrite Hl2 by discriminate. rewrite under_under; [reflexivity|].
        symmetry. apply (N.div_unique j (2 ^ d) oi (j - oi * 2 ^ d)); lia.
      + rewrite Hold. constructor.
    - unfold rv. rewrite <- sel_map_code by assumption. apply (perm_sel cfg (rem + vs) j). symmetry. assumption. }
  specialize (AO G (N.to_nat (2 ^ olni)) 0 (ASt [] (fun _ => true) (Place 0 0) F 0) ltac:(lia)). clear G.
  match type of AO with ?A -> _ => assert (G : A) end.
  { split; [reflexivity|]. split; [intros j b Hj; destruct (N.to_nat j); discriminate|]. split; [reflexivity|]. symmetry. exact Hall. }
  specialize (AO G). clear G.
  replace (N.to_nat (2 ^ olni) * per)%nat with (N.to_nat (2 ^ lni)) in AO by (rewrite <- Htot; unfold per; lia).
  rewrite N.mul_0_l in AO. rewrite Hper', Htot in AO.
  destruct (add_old_indices _ _ _ _ _ _ _ _ _ _ _) as [s|]; cbn [opt_bind rf_num rf_vs].
  - split; [|auto]. destruct AO as (A1 & A2 & A3 & A4).
    exists lnb, lni, rem. cbn [rf_num rf_vs rf_blocks]. split; [assumption|]. split; [assumption|].
    split; [apply Forall_app; split; assumption|]. split; [rewrite rev_length; lia|].
    intros i b Hb. destruct (A2 i b Hb) as (M & M1 & M2). exists M. split; assumption.
  - intros (N1 & N2 & N3 & N4). destruct AO as [B|(j & Hj & Hn)].
    + destruct old as [f|]; [|assumption]. pose proof (sizes_inv _ _ _ _ _ Hosz) as (O1 & O2 & O3 & O4 & O5 & O6).
      assert (Hf : 0 < rf_num f < 2 ^ fc_fs cfg) by (unfold num, old_num in N1; lia).
      specialize (Hlog _ Hf O2). lia.
    + apply Hn. unfold Cl. rewrite map_length. apply (N4 lnb lni rem Es j Hj).
Qed.

(** ** Looking a key up *)

Lemma lor_pow_bits : forall x v k, N.testbit (N.lor x (2 ^ v)) k = N.testbit x k || (k =? v).
Proof.
  intros x v k. rewrite N.lor_spec. f_equal. rewrite N.pow2_bits_eqb. apply N.eqb_sym.
Qed.

Lemma scan_spec : forall vs rv remainder rem M, rv <= 32 -> vs <= rv -> wf_words rem ->
  (forall k x, nth_error M k = Some x -> is_item rv rem (N.of_nat k) (x mod 2 ^ rv) /\ x mod 2 ^ vs < 64) ->
  forall n pos found, (n <= pos <= length M)%nat ->
  exists bits, scan_bucket vs rv remainder rem n (N.of_nat pos) found = Some bits /\
    forall v, N.testbit bits v = true <-> N.testbit found v = true \/
      exists k x, (pos - n <= k < pos)%nat /\ nth_error M k = Some x /\ (x / 2 ^ vs) mod 2 ^ (rv - vs) = remainder /\ x mod 2 ^ vs = v.
Proof.
  intros vs rv remainder rem M Hrv Hvs Hw HM.
  assert (Erv : rv = vs + (rv - vs)) by lia.
  induction n as [|n IH]; intros pos found Hn.
  - exists found. split; [reflexivity|]. intros v. split; [auto|]. intros [H|(k & x & Hk & _)]; [assumption|lia].
  - cbn [scan_bucket]. replace (N.of_nat pos - 1) with (N.of_nat (pos - 1)) by lia.
    destruct (nth_error M (pos - 1)) as [x|] eqn:Ex; [|apply nth_error_None in Ex; lia].
    destruct (HM _ _ Ex) as [Hit Hv].
    assert (Eg : pa_get rv rem (N.of_nat (pos - 1)) = x mod 2 ^ rv).
    { apply (is_item_unique rv rem (N.of_nat (pos - 1))); [apply pa_get_spec; assumption|assumption]. }
    rewrite Eg, N.shiftr_div_pow2, land_mask.
    assert (E1 : (x mod 2 ^ rv) / 2 ^ vs = (x / 2 ^ vs) mod 2 ^ (rv - vs)) by (rewrite Erv at 1; apply mod_div_pow).
    assert (E2 : (x mod 2 ^ rv) mod 2 ^ vs = x mod 2 ^ vs) by (rewrite Erv at 1; apply mod_mod_pow).
    rewrite E1, E2.
    assert (Hpn : (n <= pos - 1 <= length M)%nat) by (clear - Hn; lia).
    destruct ((x / 2 ^ vs) mod 2 ^ (rv - vs) =? remainder) eqn:E.
    + apply N.eqb_eq in E. replace (x mod 2 ^ vs <? 64) with true by (symmetry; apply N.ltb_lt; assumption). cbn [guard].
      destruct (IH (pos - 1)%nat (N.lor found (2 ^ (x mod 2 ^ vs))) Hpn) as (bits & B1 & B2).
      exists bits. split; [assumption|]. intros v. rewrite B2, lor_pow_bits. split.
      * intros [H|(k & y & Hk & R)].
        -- apply orb_true_iff in H. destruct H as [H|H]; [left; assumption|]. right. exists (pos - 1)%nat, x.
           split; [clear - Hn; lia|]. split; [assumption|]. split; [assumption|]. apply N.eqb_eq in H. congruence.
        -- right. exists k, y. split; [clear - Hk; lia|assumption].
      * intros [H|(k & y & Hk & R1 & R2 & R3)]; [left; rewrite H; reflexivity|].
        destruct (Nat.eq_dec k (pos - 1)) as [->|Hne].
        -- left. rewrite Ex in R1. injection R1 as <-. rewrite <- R3, N.eqb_refl. apply orb_true_r.
        -- right. exists k, y. split; [clear - Hk Hne; lia|]. auto.
    + apply N.eqb_neq in E. destruct (IH (pos - 1)%nat found Hpn) as (bits & B1 & B2).
      exists bits. split; [assumption|]. intros v. rewrite B2. split.
      * intros [H|(k & y & Hk & R)]; [left; assumption|]. right. exists k, y. split; [clear - Hk; lia|assumption].
      * intros [H|(k & y & Hk & R1 & R2 & R3)]; [left; assumption|]. right. exists k, y. split; [|auto].
        destruct (Nat.eq_dec k (pos - 1)) as [->|Hne]; [|clear - Hk Hne; lia]. rewrite Ex in R1. injection R1 as <-. contradiction.
Qed.

Theorem filter_lookup_spec : forall cfg f C h, fc_index cfg = 2 ^ fc_log_index cfg ->
  repr cfg f C -> h < two32 ->
  exists bits, filter_lookup cfg (Some f) h = Some bits /\
    forall v, N.testbit bits v = true <-> In (fingerprint cfg h, v) C.
Proof.
  intros cfg f C h HI (lnb & lni & rem & R1 & R2 & R3 & R4 & R5) Hh. unfold filter_lookup. rewrite R1. cbn [opt_bind]. cbv zeta.
  apply sizes_inv in R1. destruct R1 as (S1 & S2 & S3 & S4 & S5 & S6).
  rewrite N.shiftr_div_pow2. fold (fingerprint cfg h). set (fp := fingerprint cfg h) in *.
  assert (Hfp : fp < 2 ^ fc_fs cfg).
  { unfold fp, fingerprint. apply div_lt_pow. replace (32 - fc_fs cfg + fc_fs cfg) with 32 by lia. exact Hh. }
  set (vs := rf_vs f) in *. set (rv := rem + vs) in *.
  assert (Hsm : fp * 2 ^ vs < two32).
  { apply (pow_le_two32 (fc_fs cfg + vs)); [assumption|]. rewrite N.pow_add_r. apply N.mul_lt_mono_pos_r; [apply pow_pos|assumption]. }
  rewrite shl32_small by assumption. rewrite N.shiftr_div_pow2, get_index_div by assumption.
  assert (E0 : forall m, (fp * 2 ^ vs) / 2 ^ (m + vs) = fp / 2 ^ m).
  { intros m. rewrite <- (N.add_0_r (fp * 2 ^ vs)). apply div_code2. apply pow_pos. }
  assert (E0r : fp * 2 ^ vs / 2 ^ rv = fp / 2 ^ rem) by apply E0. rewrite E0r.
  replace (rv + fc_log_index cfg) with (rem + fc_log_index cfg + vs) by (unfold rv; lia). rewrite E0.
  rewrite land_mask. set (i := fp / 2 ^ (rem + fc_log_index cfg)) in *.
  assert (Hi : i < 2 ^ lni).
  { apply div_lt_pow. replace (rem + fc_log_index cfg + lni) with (fc_fs cfg) by lia. assumption. }
  destruct (nth_error (rf_blocks f) (N.to_nat i)) as [b|] eqn:Eb.
  2:{ apply nth_error_None in Eb. lia. }
  cbn [opt_bind]. destruct (R5 _ _ Eb) as (M & HP & B1 & B2 & B3 & B4 & B5 & B6 & B7). fold rv in B2, B4, B5, B7.
  set (bo := (fp / 2 ^ rem) mod fc_index cfg).
  assert (HIp : 1 <= fc_index cfg) by (rewrite HI; pose proof (pow_pos (fc_log_index cfg)); lia).
  assert (Hbo : bo < fc_index cfg) by (apply N.mod_lt; lia).
  assert (Hbf : fp / 2 ^ rem = i * fc_index cfg + bo).
  { unfold bo, i. rewrite div_pow_add, <- HI. rewrite N.mul_comm. apply N.div_mod. lia. }
  assert (Hol : length (offs cfg rv i M) = length M) by (unfold offs; apply map_length).
  assert (Hsort := offs_sorted cfg HI rv i M B6).
  rewrite (bucket_bounds_spec (fc_index cfg) (offs cfg rv i M) Hsort (fb_enc b) B2 bo).
  2: assumption.
  2:{ unfold header_length, encoding_size. rewrite Hol, B1. lia. }
  2:{ unfold enc_fuel. rewrite Hol, B1. lia. }
  cbn [opt_bind]. set (bs := offs cfg rv i M) in *.
  pose proof (before_mono bs bo (bo + 1) ltac:(lia)) as Hm. pose proof (before_le bs (bo + 1)) as Hl.
  (* what the pairs of the bucket are *)
  assert (HX : forall v k x, nth_error M k = Some x -> x mod 2 ^ vs = v ->
     (x = code vs (fp, v) <-> before bs bo <= N.of_nat k < before bs (bo + 1) /\ (x / 2 ^ vs) mod 2 ^ rem = fp mod 2 ^ rem)).
  { intros v k x Hk Hv. pose proof (bs_nth cfg rv i M k x Hk) as Hk'. fold bs in Hk'.
    pose proof (bucket_of cfg HI rv i M B7 k x Hk) as Hb.
    pose proof (sorted_before bs Hsort k _ bo Hk') as SB1. pose proof (sorted_before bs Hsort k _ (bo + 1) Hk') as SB2.
    assert (Hpos : before bs bo <= N.of_nat k < before bs (bo + 1) <-> x / 2 ^ rv = fp / 2 ^ rem).
    { rewrite Hbf. clear - SB1 SB2 Hb. revert SB1 SB2 Hb.
      generalize (x / 2 ^ rv) (before bs bo) (before bs (bo + 1)). clearbody bo i bs. intros xb b1 b2 SB1 SB2 Hb. lia. }
    rewrite Hpos.
    assert (Hx : x = x / 2 ^ vs * 2 ^ vs + v).
    { rewrite <- Hv. rewrite N.mul_comm. apply N.div_mod. apply N.pow_nonzero. lia. }
    assert (Hxr : x / 2 ^ rv = x / 2 ^ vs / 2 ^ rem) by (unfold rv; rewrite N.add_comm; apply div_pow_add).
    rewrite Hxr. unfold code. cbn [fst snd]. set (q := x / 2 ^ vs) in *. clearbody q. split.
    - intros Hc. assert (q = fp) as ->; [|auto]. rewrite Hc in Hx at 1. apply N.add_cancel_r in Hx.
      apply N.mul_cancel_r in Hx; [symmetry; assumption|apply N.pow_nonzero; lia].
    - intros [Q1 Q2]. rewrite Hx. f_equal. f_equal.
      rewrite (N.div_mod q (2 ^ rem)) by (apply N.pow_nonzero; lia). rewrite (N.div_mod fp (2 ^ rem)) by (apply N.pow_nonzero; lia).
      rewrite Q1, Q2. reflexivity. }
  assert (HM64 : forall k x, nth_error M k = Some x -> exists p, x = code vs p /\ pair_ok cfg vs p /\ In p C /\ x mod 2 ^ vs = snd p).
  { intros k x Hk. apply nth_error_In in Hk. apply (Permutation_in _ HP) in Hk. apply in_map_iff in Hk. destruct Hk as (p & <- & Hp).
    apply filter_In in Hp. destruct Hp as [Hp _]. pose proof (proj1 (Forall_forall _ _) R3 p Hp) as Hpk.
    exists p. split; [reflexivity|]. split; [assumption|]. split; [assumption|]. apply (code_props cfg vs rem p Hpk R2). }
  assert (HC : forall v, In (fp, v) C <-> exists k x, nth_error M k = Some x /\ x mod 2 ^ vs = v /\ x = code vs (fp, v)).
  { intros v. split.
    - intros Hin. assert (Hm' : In (code vs (fp, v)) M).
      { apply (Permutation_in _ (Permutation_sym HP)). apply in_map. apply filter_In. split; [assumption|]. cbn [fst]. apply N.eqb_refl. }
      apply In_nth_error in Hm'. destruct Hm' as [k Hk]. exists k, (code vs (fp, v)). split; [assumption|]. split; [|reflexivity].
      apply (code_props cfg vs rem (fp, v)); [|assumption]. apply (proj1 (Forall_forall _ _) R3). assumption.
    - intros (k & x & Hk & Hv & Hx). destruct (HM64 k x Hk) as (p & P1 & P2 & P3 & P4).
      replace (fp, v) with p; [assumption|]. destruct (code_props cfg vs rem p P2 R2) as (_ & Q1 & Q2 & _).
      destruct p as [a c]. cbn [fst snd] in *. rewrite <- P1 in Q1. f_equal; [|congruence].
      rewrite Hx in Q1. unfold code in Q1. cbn [fst snd] in Q1. rewrite div_code in Q1; [symmetry; assumption|].
      rewrite <- Hv. apply N.mod_lt. apply N.pow_nonzero. lia. }
  destruct (before bs bo =? before bs (bo + 1)) eqn:Ee.
  - exists 0. split; [reflexivity|]. intros v. rewrite N.bits_0. split; [discriminate|]. intros H. exfalso.
    apply HC in H. destruct H as (k & x & Hk & Hv & Hx). apply (HX v k x Hk Hv) in Hx. destruct Hx as [Hx _]. apply N.eqb_eq in Ee. clear - Hx Ee. lia.
  - destruct (scan_spec vs rv (fp mod 2 ^ rem) (fb_rem b) M ltac:(unfold rv; clear - S6 R2; lia) ltac:(unfold rv; clear; lia) B3) with
      (n := N.to_nat (before bs (bo + 1) - before bs bo)) (pos := N.to_nat (before bs (bo + 1))) (found := 0) as (bits & K1 & K2).
    + intros k x Hk. split; [apply B4; assumption|]. destruct (HM64 k x Hk) as (p & _ & (_ & _ & P) & _ & ->). assumption.
    + clear - Hl Hm Hol. revert Hl Hm Hol. generalize (before bs bo) (before bs (bo + 1)). clearbody bs. intros b1 b2 Hl Hm Hol. clear - Hl Hm Hol. lia.
    + rewrite N2Nat.id in K1. exists bits. split; [assumption|]. intros v. rewrite K2, N.bits_0, HC.
      replace (rv - vs) with rem by (unfold rv; clear; lia). split.
      * intros [H|(k & x & Hk & Hx & Hr & Hv)]; [discriminate|]. exists k, x. split; [assumption|]. split; [assumption|].
        apply (HX v k x Hx Hv). split; [clear - Hk Hm; revert Hk Hm; generalize (before bs bo) (before bs (bo + 1)); clearbody bs; intros b1 b2 Hk Hm; clear - Hk Hm; lia|assumption].
      * intros (k & x & Hk & Hv & Hx). right. exists k, x. apply (HX v k x Hk Hv) in Hx. destruct Hx as [Hx1 Hx2].
        split; [clear - Hx1; revert Hx1; generalize (before bs bo) (before bs (bo + 1)); clearbody bs; intros b1 b2 Hx1; clear - Hx1; lia|]. split; [assumption|]. split; assumption.
Qed.

(** ** Where the blocks are put *)

Definition block_size (cfg : fcfg) (rv : N) (b : fblock) : N := header_length cfg (fb_num b) + remainder_block_size (fb_num b) rv.

(** block [a] was put before block [b] and they do not overlap *)
Definition put_before (cfg : fcfg) (rv : N) (b a : fblock) : Prop :=
  fb_pageno a < fb_pageno b \/ (fb_pageno a = fb_pageno b /\ fb_off a + block_size cfg rv a <= fb_off b).

Definition laid (cfg : fcfg) (rv : N) (bl : list fblock) (p : place) : Prop :=
  pl_off p <= fc_page cfg /\
  Forall (fun b => fb_off b + block_size cfg rv b <= fc_page cfg /\
            (fb_pageno b < pl_page p \/ (fb_pageno b = pl_page p /\ fb_off b + block_size cfg rv b <= pl_off p))) bl /\
  StronglySorted (put_before cfg rv) bl.

Lemma write_block_laid : forall cfg rv mem enc fps p b p' enc' bl, laid cfg rv bl p ->
  write_block cfg rv mem enc fps p = Some (b, p', enc') -> laid cfg rv (b :: bl) p'.
Proof.
  intros cfg rv mem enc fps p b p' enc' bl (L1 & L2 & L3) H. unfold write_block in H. cbv zeta in H.
  set (n := N.of_nat (length fps)) in *.
  destruct (_ && _) eqn:G in H; cbn [guard] in H; [|discriminate].
  destruct (match fps with [] => Some mem | _ :: _ => pa_pack rv mem 0 fps end) as [rem|]; cbn [opt_bind] in H; [|discriminate].
  set (q := if _ <? _ then _ else _) in H.
  assert (Q : pl_off q + (encoding_size cfg n + 2 + remainder_block_size n rv) <= fc_page cfg /\
     (q = p \/ (pl_page p < pl_page q /\ pl_off q = 0))).
  { unfold q. destruct (_ <? _) eqn:E; cbn [pl_off pl_page]; [split; [lia|right; lia]|split; [lia|left; reflexivity]]. }
  clearbody q. injection H as <- <- <-. destruct Q as [Q1 Q2].
  unfold laid. cbn [pl_off pl_page]. split; [lia|]. split.
  - constructor.
    + unfold block_size, header_length. cbn [fb_off fb_num fb_pageno]. lia.
    + eapply Forall_impl; [|exact L2]. intros a [A1 A2]. split; [assumption|]. destruct Q2 as [->|Q2]; lia.
  - constructor; [assumption|]. eapply Forall_impl; [|exact L2]. intros a [A1 A2]. unfold put_before. cbn [fb_pageno fb_off].
    destruct Q2 as [->|Q2]; lia.
Qed.

Lemma add_indices_laid : forall cfg vs rv mem counts i olds s s', laid cfg rv (a_blocks s) (a_place s) ->
  add_indices cfg vs rv mem i counts olds s = Some s' -> laid cfg rv (a_blocks s') (a_place s').
Proof.
  intros cfg vs rv mem counts. induction counts as [|k r IH]; intros i olds s s' HL H.
  - cbn [add_indices] in H. injection H as <-. assumption.
  - cbn [add_indices] in H. cbv zeta in H. destruct (merge_index _ _ _ _ _ _ _) as [[m olds']|]; cbn [opt_bind] in H; [|discriminate].
    destruct (write_block _ _ _ _ _ _) as [[[b p'] enc']|] eqn:W; cbn [opt_bind] in H; [|discriminate].
    destruct (_ <? 32) in H; cbn [guard] in H; [|discriminate].
    eapply IH; [|exact H]. exact (write_block_laid _ _ _ _ _ _ _ _ _ (a_blocks s) HL W).
Qed.

Lemma add_old_laid : forall cfg old orem vs rv mem per n oi counts s s', laid cfg rv (a_blocks s) (a_place s) ->
  add_old_indices cfg old orem vs rv mem per oi n counts s = Some s' -> laid cfg rv (a_blocks s') (a_place s').
Proof.
  intros cfg old orem vs rv mem per n. induction n as [|n IH]; intros oi counts s s' HL H.
  - cbn [add_old_indices] in H. injection H as <-. assumption.
  - cbn [add_old_indices] in H. destruct (old_fps _ _ _ _ _) as [olds|]; cbn [opt_bind] in H; [|discriminate].
    destruct (add_indices _ _ _ _ _ _ _ _) as [s1|] eqn:A; cbn [opt_bind] in H; [|discriminate].
    apply (IH _ _ _ _ (add_indices_laid _ _ _ _ _ _ _ _ _ HL A) H).
Qed.

Theorem filter_add_laid : forall cfg mem old hashes value f, filter_add cfg mem old hashes value = Some f ->
  exists lnb lni rem, sizes_of cfg (rf_num f) = Some (lnb, lni, rem) /\
  Forall (fun b => fb_off b + block_size cfg (rem + rf_vs f) b <= fc_page cfg) (rf_blocks f) /\
  (forall i j a b, (i < j)%nat -> nth_error (rf_blocks f) i = Some a -> nth_error (rf_blocks f) j = Some b ->
     put_before cfg (rem + rf_vs f) b a).
Proof.
  intros cfg mem old hashes value f H. unfold filter_add in H.
  destruct (match old with None => _ | Some f0 => _ end) as [[[x olni] orem]|] in H; cbn [opt_bind] in H; [|discriminate].
  destruct (sizes_of cfg _) as [[[lnb lni] rem]|] eqn:E; cbn [opt_bind] in H; [|discriminate]. cbv zeta in H.
  destruct (_ <=? 32) in H; cbn [guard] in H; [|discriminate].
  destruct (radix_sort _ _ _) as [fps|]; cbn [opt_bind] in H; [|discriminate].
  destruct (index_counts _ _ _ _) as [counts r].
  destruct (add_old_indices _ _ _ _ _ _ _ _ _ _ _) as [s|] eqn:A; cbn [opt_bind] in H; [|discriminate].
  injection H as <-. cbn [rf_num rf_vs rf_blocks]. exists lnb, lni, rem. split; [assumption|].
  replace (rem + value_size value) with (value_size value + rem) by lia.
  apply add_old_laid in A.
  2:{ split; [cbn; lia|]. split; constructor. }
  destruct A as (L1 & L2 & L3). split.
  - apply Forall_rev. eapply Forall_impl; [|exact L2]. intros b [Hb _]. assumption.
  - clear - L3. intros i j a b Hij Ha Hb.
    assert (Hjl : (j < length (a_blocks s))%nat) by (rewrite <- rev_length; apply nth_error_Some; congruence).
    assert (G : forall (l : list fblock), StronglySorted (put_before cfg (value_size value + rem)) l ->
       forall i j a b, (i < j)%nat -> nth_error l i = Some b -> nth_error l j = Some a -> put_before cfg (value_size value + rem) b a).
    { clear. intros l H. induction H as [|x l H IH HF]; intros i j a b Hij Hb Ha; [destruct i; discriminate|].
      destruct j as [|j]; [lia|]. destruct i as [|i].
      - cbn in Hb. injection Hb as <-. cbn in Ha. apply (proj1 (Forall_forall _ _) HF). apply (nth_error_In _ _ Ha).
      - apply (IH i j); [lia|assumption|assumption]. }
    assert (R : forall (l : list fblock) k, (k < length l)%nat -> nth_error (rev l) k = nth_error l (length l - 1 - k)).
    { clear. intros l k Hk. destruct (nth_error l (length l - 1 - k)) as [x|] eqn:E.
      - apply nth_error_split in E. destruct E as (l1 & l2 & -> & El). rewrite rev_app_distr. cbn [rev]. rewrite <- app_assoc. cbn [app].
        rewrite app_length in *. cbn [length] in *. rewrite nth_error_app2 by (rewrite rev_length; lia). rewrite rev_length.
        replace (k - length l2)%nat with 0%nat by lia. reflexivity.
      - apply nth_error_None in E. lia. }
    rewrite R in Ha, Hb by lia.
    apply (G _ L3 (length (a_blocks s) - 1 - j)%nat (length (a_blocks s) - 1 - i)%nat); [lia|assumption|assumption].
Qed.

(** The words the packed array touches lie in the block. *)
Lemma remainders_inside : forall n rv, 0 < n -> 1 <= rv -> n * rv < two32 -> 4 * ((n * rv - 1) / 32 + 1) <= remainder_block_size n rv.
Proof.
  intros n rv Hn Hr H. unfold remainder_block_size. rewrite two32_pow in *.
  assert (1 <= n * rv) by nia. set (t := n * rv) in *. clearbody t.
  replace (t + (2 ^ 64 - 1)) with (t - 1 + 1 * 2 ^ 64) by lia. rewrite N.mod_add by (apply N.pow_nonzero; lia).
  change (2 ^ 32) with 4294967296 in *. change (2 ^ 64) with 18446744073709551616.
  rewrite (N.mod_small (t - 1)) by lia.
  pose proof (N.div_mod (t - 1) 8 ltac:(lia)). pose proof (N.mod_lt (t - 1) 8 ltac:(lia)).
  pose proof (N.div_mod (t - 1) 32 ltac:(lia)). pose proof (N.mod_lt (t - 1) 32 ltac:(lia)).
  rewrite N.mod_small by lia. lia.
Qed.

(** ** The values found *)

Lemma found_values_spec : forall n found last, found < 2 ^ 31 -> (match last with Some l => l < 31 /\ (N.to_nat l <= n)%nat | None => (31 <= n)%nat end) ->
  exists l, found_values found last n = Some l /\
    (forall v, In v l <-> N.testbit found v = true /\ (match last with Some x => v < x | None => True end)) /\
    StronglySorted (fun a b => b < a) l.
Proof.
  assert (G : forall found, found <> 0 -> N.testbit found (N.log2 found) = true) by (intros f Hf; apply N.bit_log2; assumption).
  induction n as [|n IH]; intros found last Hf Hl.
  - exists []. split; [reflexivity|]. split; [|constructor]. destruct last as [l|]; [|lia]. intros v. split; [intros []|]. intros [_ H]. lia.
  - cbn [found_values]. unfold next_value.
    set (g := match last with Some l => found mod 2 ^ l | None => found end).
    assert (Eg : (match last with None => Some found | Some l => guard (l <? 31) (Some (N.land found (2 ^ l - 1))) end) = Some g).
    { destruct last as [l|]; [|reflexivity]. replace (l <? 31) with true by lia. cbn [guard]. unfold g. f_equal.
      rewrite <- N.land_ones, N.ones_equiv, N.pred_sub. reflexivity. }
    rewrite Eg. cbn [opt_bind].
    assert (Gb : forall v, N.testbit g v = true <-> N.testbit found v = true /\ (match last with Some x => v < x | None => True end)).
    { intros v. unfold g. destruct last as [l|]; [|tauto]. rewrite mod_bits. rewrite andb_true_iff, N.ltb_lt. tauto. }
    destruct (g =? 0) eqn:E0.
    + exists []. split; [reflexivity|]. split; [|constructor]. intros v. rewrite <- Gb. assert (g = 0) as -> by lia. rewrite N.bits_0. split; [intros []|discriminate].
    + assert (Hv : N.testbit found (N.log2 g) = true) by (apply Gb; apply G; lia).
      assert (Hlt : N.log2 g < 31).
      { destruct (N.lt_ge_cases (N.log2 g) 31) as [C|C]; [assumption|]. rewrite (lt_bits found 31) in Hv by assumption. discriminate. }
      assert (Hn : (N.to_nat (N.log2 g) <= n)%nat).
      { destruct last as [l|]; [|lia]. assert (N.log2 g < l); [|lia]. apply (proj1 (Gb (N.log2 g))). apply G. lia. }
      destruct (IH found (Some (N.log2 g)) Hf (conj Hlt Hn)) as (l & I1 & I2 & I3).
      rewrite I1. cbn [opt_bind]. exists (N.log2 g :: l). split; [reflexivity|]. split.
      * intros v. rewrite <- Gb. cbn [In]. rewrite I2. split.
        -- intros [<-|[H1 H2]]; [apply G; lia|]. apply Gb. split; [assumption|].
           pose proof (proj1 (Gb (N.log2 g)) (G g ltac:(lia))) as [_ GL]. destruct last; [lia|auto].
        -- intros H. destruct (N.eq_dec v (N.log2 g)) as [->|Hne]; [left; reflexivity|]. right.
           split; [apply Gb in H; apply H|].
           destruct (N.lt_ge_cases v (N.log2 g)) as [C|C]; [assumption|]. rewrite N.bits_above_log2 in H by lia. discriminate.
      * constructor; [assumption|]. apply Forall_forall. intros v Hv'. apply I2 in Hv'. apply Hv'.
Qed.
