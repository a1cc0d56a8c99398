(** * Proofs about the hex encoder *)

From Coq Require Import List NArith Arith Bool Lia.
From Verif Require Import Hex.
Import ListNotations.
Local Open Scope N_scope.

(** The digits the encoder should produce. *)
Definition hex_digit (d : N) : N := nth (N.to_nat d) [48;49;50;51;52;53;54;55;56;57;97;98;99;100;101;102] 0.
Definition hex_text (data : list N) : list N :=
  48 :: 120 :: flat_map (fun x => [hex_digit (x / 16); hex_digit (x mod 16)]) data.

Lemma hex_text_length : forall data, length (hex_text data) = (2 + 2 * length data)%nat.
Proof. intros. unfold hex_text. simpl. do 2 f_equal. induction data; simpl; lia. Qed.

Lemma table_digit : forall d, d < 16 -> table d = hex_digit d.
Proof.
  intros d H. assert (X: exists n, d = N.of_nat n /\ (n < 16)%nat).
  { exists (N.to_nat d). lia. }
  destruct X as [n [-> L]]. do 16 (destruct n; [reflexivity|]). lia.
Qed.

Lemma nibbles : forall x, x < 256 ->
  table (N.shiftr (N.land x 0xF0) 4) = hex_digit (x / 16) /\
  table (N.land x 0x0F) = hex_digit (x mod 16).
Proof.
  intros x H.
  assert (E2: N.land x 0x0F = x mod 16).
  { change 0x0F with (N.ones 4). rewrite N.land_ones. reflexivity. }
  assert (E1: N.shiftr (N.land x 0xF0) 4 = x / 16).
  { rewrite N.shiftr_land. change (N.shiftr 0xF0 4) with (N.ones 4).
    rewrite N.land_ones, N.shiftr_div_pow2. change (2 ^ 4) with 16.
    apply N.mod_small. apply N.div_lt_upper_bound; lia. }
  rewrite E1, E2. split; apply table_digit.
  - apply N.div_lt_upper_bound; lia.
  - apply N.mod_lt. lia.
Qed.

Lemma store_app : forall l1 x l2 v, store (l1 ++ x :: l2) (length l1) v = Some (l1 ++ v :: l2).
Proof. induction l1; intros; simpl; auto. now rewrite IHl1. Qed.

Lemma store_at : forall l i v, (i < length l)%nat ->
  store l i v = Some (firstn i l ++ v :: skipn (S i) l).
Proof.
  induction l; intros i v H; simpl in *; [lia|]. destruct i; simpl; auto.
  rewrite IHl by lia. reflexivity.
Qed.

(** The loop on a buffer whose first [dp] bytes are already written. *)
Lemma hex_loop_spec : forall data done rest max_len,
  Forall (fun x => x < 256) data ->
  (max_len <= length done + length rest)%nat ->
  exists d, hex_loop (done ++ rest) max_len (length done) data = Some d /\
    length d = (length done + length rest)%nat /\
    let text := done ++ flat_map (fun x => [hex_digit (x / 16); hex_digit (x mod 16)]) data in
    firstn (min (max_len - 1) (length text)) d = firstn (min (max_len - 1) (length text)) text /\
    (forall i, (max_len <= i)%nat -> (length done <= i)%nat -> nth_error d i = nth_error (done ++ rest) i).
Proof.
  induction data as [|x data IH]; intros done rest max_len F HL; cbn [hex_loop flat_map].
  - exists (done ++ rest). split; auto. split; [now rewrite app_length|]. cbv zeta.
    rewrite app_nil_r. split; [|auto].
    rewrite firstn_app.
    replace (min (max_len - 1) (length done) - length done)%nat with 0%nat by lia.
    simpl. now rewrite app_nil_r.
  - inversion F as [|? ? Hx F']; subst.
    destruct (Nat.leb_spec (max_len - 1) (length done)).
    + exists (done ++ rest). split; auto. split; [now rewrite app_length|]. cbv zeta. split.
      * rewrite app_length.
        replace (min (max_len - 1) _) with (max_len - 1)%nat by (simpl; lia).
        rewrite !firstn_app. f_equal. replace (max_len - 1 - length done)%nat with 0%nat by lia.
        reflexivity.
      * auto.
    + destruct rest as [|r0 [|r1 rest]]; simpl in HL; try lia.
      destruct (nibbles x Hx) as [N1 N2]. rewrite N1, N2.
      rewrite store_app. cbn [bind].
      set (h := hex_digit (x / 16)). set (l := hex_digit (x mod 16)).
      replace (done ++ h :: r1 :: rest) with ((done ++ [h]) ++ r1 :: rest) by now rewrite <- app_assoc.
      replace (length done + 1)%nat with (length (done ++ [h])) by (rewrite app_length; simpl; lia).
      rewrite store_app. cbn [bind].
      replace ((done ++ [h]) ++ l :: rest) with ((done ++ [h; l]) ++ rest)
        by now rewrite <- !app_assoc.
      replace (length done + 2)%nat with (length (done ++ [h; l])) by (rewrite app_length; simpl; lia).
      destruct (IH (done ++ [h; l]) rest max_len F') as [d [E [LD [P1 P2]]]].
      { rewrite app_length. simpl. lia. }
      exists d. split; auto. rewrite app_length in LD. simpl in LD. split; [simpl; lia|].
      cbv zeta in *. rewrite <- app_assoc in P1. cbn [app] in P1 |- *.
      split; [exact P1|].
        intros i Hi Hd. rewrite P2; [|lia|rewrite app_length; simpl; lia].
        rewrite <- app_assoc. simpl. rewrite !nth_error_app2 by lia.
        destruct (i - length done)%nat as [|[|j]] eqn:EJ; try lia. reflexivity.
Qed.

(** Full description of the result. *)
Lemma hex_encode_spec : forall dst data,
  Forall (fun x => x < 256) data -> dst <> [] ->
  let n := min (length dst - 1) (length (hex_text data)) in
  debug_hex_encode dst data =
    Some (firstn n (hex_text data) ++ 0 :: skipn (S n) dst).
Proof.
  intros dst data F NE n. unfold debug_hex_encode.
  destruct (Nat.eqb_spec (length dst) 0) as [E|E]; [destruct dst; [congruence|discriminate]|].
  pose proof (hex_text_length data) as HT.
  set (max_len := if Nat.ltb (length dst) (2 + 2 * length data + 1) then length dst
                  else (2 + 2 * length data + 1)%nat).
  assert (EM: (max_len - 1 = n)%nat).
  { unfold max_len, n. destruct (Nat.ltb_spec (length dst) (2 + 2 * length data + 1)); lia. }
  assert (ML: (max_len <= length dst)%nat).
  { unfold max_len. destruct (Nat.ltb_spec (length dst) (2 + 2 * length data + 1)); lia. }
  assert (MP: (0 < max_len)%nat).
  { unfold max_len. destruct (Nat.ltb_spec (length dst) (2 + 2 * length data + 1)); lia. }
  destruct (Nat.eqb_spec max_len 1) as [E1|E1].
  - cbn [bind]. rewrite store_at by lia. replace (max_len - 1)%nat with 0%nat by lia.
    replace n with 0%nat by lia. reflexivity.
  - destruct dst as [|a [|b rest]]; simpl in ML; try lia.
    cbn [store bind option_map].
    destruct (hex_loop_spec data [48; 120] rest max_len F) as [d [EL [LD [P1 P2]]]].
    { simpl. lia. }
    cbv zeta in P1. change ([48; 120] ++ rest) with (48 :: 120 :: rest) in *.
    change (length [48; 120]) with 2%nat in *. rewrite EL. cbn [bind].
    change ([48; 120] ++ flat_map _ data) with (hex_text data) in P1.
    simpl in LD. rewrite store_at by lia. rewrite EM. f_equal. f_equal.
    + rewrite <- EM. 
      assert (MN: min (max_len - 1) (length (hex_text data)) = (max_len - 1)%nat) by (unfold n in EM; lia).
      rewrite MN in P1. exact P1.
    + f_equal. 
      assert (NT: forall (l1 l2 : list N) k, (forall i, (k <= i)%nat -> nth_error l1 i = nth_error l2 i) ->
                  skipn k l1 = skipn k l2).
      { clear. induction l1; intros l2 k H.
        - destruct l2; [now destruct k|]. destruct k; simpl.
          + specialize (H 0%nat ltac:(lia)). discriminate.
          + destruct (skipn k l2) eqn:E; auto. 
            specialize (H (S k) ltac:(lia)). simpl in H.
            assert (nth_error (skipn k l2) 0 = Some n0) by now rewrite E.
            rewrite <- (firstn_skipn k l2) in H. 
            assert (K: (length (firstn k l2) <= k)%nat) by apply firstn_le_length.
            destruct (Nat.lt_ge_cases k (length l2)).
            * rewrite nth_error_app2 in H by (rewrite firstn_length; lia).
              rewrite firstn_length in H. replace (k - min k (length l2))%nat with 0%nat in H by lia.
              rewrite E in H. discriminate.
            * rewrite skipn_all2 in E by lia. discriminate.
        - destruct l2.
          + destruct k; simpl.
            * specialize (H 0%nat ltac:(lia)). discriminate.
            * rewrite (IHl1 [] k); [now destruct k|].
              intros i Hi. specialize (H (S i) ltac:(lia)). simpl in H. rewrite H. now destruct i.
          + destruct k; simpl.
            * f_equal.
              -- specialize (H 0%nat ltac:(lia)). simpl in H. congruence.
              -- apply (IHl1 l2 0%nat). intros i Hi. apply (H (S i)). lia.
            * apply IHl1. intros i Hi. apply (H (S i)). lia. }
      apply NT. intros i Hi. rewrite P2 by lia.
      destruct i as [|[|i]]; try lia; reflexivity.
Qed.
