(** * C39, C40: number parsing and hex encoding *)

From Coq Require Import List ZArith NArith Bool Lia.
From Verif Require Import Parse Spec_Parse ParseProofs Hex HexProofs.
Import ListNotations.
Local Open Scope N_scope.

(** The signed number a string denotes. *)
Definition signed (neg : bool) (v : N) : Z := if neg then (- Z.of_N v)%Z else Z.of_N v.

(** ** C39 *)

(** uint64: exactly the strings of the grammar without a minus sign whose
    value fits. *)
Theorem C39_uint64 : forall s n,
  try_string_to_uint64 s = Some n <-> denotes s false n /\ n < 2 ^ 64.
Proof.
  intros s n. unfold try_string_to_uint64. rewrite limit_parser_spec by lia. split.
  - intros [[v [D [L ->]]]|[v [D [NZ _]]]]; [split; auto; lia|congruence].
  - intros [D L]. left. exists n. repeat split; auto. lia.
Qed.

Theorem C39_int64 : forall s z,
  try_string_to_int64 s = Some z <->
  exists neg v, denotes s neg v /\ z = signed neg v /\ (- 2 ^ 63 <= z < 2 ^ 63)%Z.
Proof.
  intros s z. unfold try_string_to_int64. split.
  - intros H. destruct (try_string_to_uint64_limit s _ _) as [u|] eqn:E; [|discriminate].
    simpl in H. inversion H; subst z. clear H.
    apply limit_parser_spec in E; try lia.
    destruct E as [[v [D [L ->]]]|[v [D [NZ [L ->]]]]].
    + exists false, v. split; auto. unfold to_int64, signed.
      destruct (N.ltb_spec v (2 ^ 63)); lia.
    + exists true, v. split; auto. unfold to_int64, signed.
      destruct (N.eq_dec v 0) as [->|NV].
      * change ((2 ^ 64 - 0) mod 2 ^ 64) with 0. split; [reflexivity|simpl; lia].
      * rewrite N.mod_small by lia. destruct (N.ltb_spec (2 ^ 64 - v) (2 ^ 63)); lia.
  - intros [neg [v [D [-> R]]]].
    assert (E: try_string_to_uint64_limit s (2 ^ 63 - 1 + 1) (2 ^ 63 - 1)
               = Some (if neg then (2 ^ 64 - v) mod 2 ^ 64 else v)).
    { apply limit_parser_spec; try lia. unfold signed in R. destruct neg.
      - right. exists v. repeat split; auto; lia.
      - left. exists v. repeat split; auto; lia. }
    rewrite E. cbn [option_map]. f_equal. unfold to_int64, signed in *. destruct neg.
    + destruct (N.eq_dec v 0) as [->|NV]; [reflexivity|].
      rewrite N.mod_small by lia. destruct (N.ltb_spec (2 ^ 64 - v) (2 ^ 63)); lia.
    + destruct (N.ltb_spec v (2 ^ 63)); lia.
Qed.

(** The narrow unsigned and signed variants. *)
Theorem C39_narrow_unsigned : forall s n,
  (try_string_to_uint32 s = Some n <-> denotes s false n /\ n < 2 ^ 32) /\
  (try_string_to_uint16 s = Some n <-> denotes s false n /\ n < 2 ^ 16) /\
  (try_string_to_uint8 s = Some n <-> denotes s false n /\ n < 2 ^ 8).
Proof.
  assert (G: forall mx s n, mx < 2 ^ 64 ->
     (try_string_to_uint_narrow mx s = Some n <-> denotes s false n /\ n <= mx)).
  { intros mx s n Hm. unfold try_string_to_uint_narrow.
    pose proof (C39_uint64 s) as U. destruct (try_string_to_uint64 s) as [t|].
    - destruct (proj1 (U t) eq_refl) as [D L]. split.
      + destruct (N.ltb_spec mx t); [discriminate|]. intros X; inversion X; subst. auto.
      + intros [Dn Ln]. assert (X: Some t = Some n) by (apply U; split; auto; lia).
        inversion X; subst. destruct (N.ltb_spec mx n); [lia|auto].
    - split; [discriminate|]. intros [Dn Ln].
      assert (X: None = Some n) by (apply U; split; auto; lia). discriminate. }
  intros s n. unfold try_string_to_uint32, try_string_to_uint16, try_string_to_uint8.
  rewrite !G by lia. 
  split; [|split]; (split; intros [D L]; split; [exact D|lia|exact D|lia]).
Qed.

Theorem C39_narrow_signed : forall s z,
  (try_string_to_int32 s = Some z <->
     exists neg v, denotes s neg v /\ z = signed neg v /\ (- 2 ^ 31 <= z < 2 ^ 31)%Z) /\
  (try_string_to_int16 s = Some z <->
     exists neg v, denotes s neg v /\ z = signed neg v /\ (- 2 ^ 15 <= z < 2 ^ 15)%Z) /\
  (try_string_to_int8 s = Some z <->
     exists neg v, denotes s neg v /\ z = signed neg v /\ (- 2 ^ 7 <= z < 2 ^ 7)%Z).
Proof.
  assert (G: forall mn mx s z, (- 2 ^ 63 <= mn)%Z -> (mx < 2 ^ 63)%Z ->
     (try_string_to_int_narrow mn mx s = Some z <->
      exists neg v, denotes s neg v /\ z = signed neg v /\ (mn <= z <= mx)%Z)).
  { intros mn mx s z H1 H2. unfold try_string_to_int_narrow.
    pose proof (C39_int64 s) as U. destruct (try_string_to_int64 s) as [t|].
    - destruct (proj1 (U t) eq_refl) as [neg [v [D [Ev L]]]]. split.
      + destruct (Z.ltb_spec mx t); [discriminate|]. destruct (Z.ltb_spec t mn); [discriminate|].
        intros X; inversion X; subst. exists neg, v. repeat split; auto.
      + intros [neg' [v' [D' [E' L']]]].
        assert (X: Some t = Some z) by (apply U; exists neg', v'; repeat split; auto; lia).
        inversion X; subst. destruct (Z.ltb_spec mx (signed neg' v')); [lia|].
        destruct (Z.ltb_spec (signed neg' v') mn); [lia|]. auto.
    - split; [discriminate|]. intros [neg' [v' [D' [E' L']]]].
      assert (X: None = Some z) by (apply U; exists neg', v'; repeat split; auto; lia). discriminate. }
  intros s z. unfold try_string_to_int32, try_string_to_int16, try_string_to_int8.
  rewrite !G by lia.
  repeat split; intros [neg [v [D [E L]]]]; exists neg, v; repeat split; auto; lia.
Qed.

(** A string denotes at most one number. *)
Theorem C39_denotation_unique : forall s n m, n < 2 ^ 64 -> m < 2 ^ 64 ->
  denotes s false n -> denotes s false m -> n = m.
Proof.
  intros s n m Hn Hm D1 D2.
  assert (A: try_string_to_uint64 s = Some n) by (apply C39_uint64; auto).
  assert (B: try_string_to_uint64 s = Some m) by (apply C39_uint64; auto).
  congruence.
Qed.

(** Non-vacuity: " 0x1F\n" is 31; "-128" is an int8 and "128" is not; "08",
    "-0" as unsigned, and "1 2" are rejected; UINT64_MAX is accepted and its
    successor is not. *)
Example C39_example :
  try_string_to_uint64 [32; 48; 120; 49; 70; 10] = Some 31 /\
  denotes [32; 48; 120; 49; 70; 10] false 31 /\
  try_string_to_int8 [45; 49; 50; 56] = Some (-128)%Z /\
  try_string_to_int8 [49; 50; 56] = None /\
  try_string_to_uint64 [48; 56] = None /\
  try_string_to_uint64 [45; 48] = None /\
  try_string_to_uint64 [49; 32; 50] = None /\
  try_string_to_uint64 [49;56;52;52;54;55;52;52;48;55;51;55;48;57;53;53;49;54;49;53] = Some (2 ^ 64 - 1) /\
  try_string_to_uint64 [49;56;52;52;54;55;52;52;48;55;51;55;48;57;53;53;49;54;49;54] = None.
Proof.
  split; [reflexivity|]. split; [apply C39_uint64; reflexivity|].
  repeat split; vm_compute; reflexivity.
Qed.

(** ** C40 *)

(** For a non-empty buffer the result is the longest prefix of the text that
    leaves room for the terminator, then NUL, then the untouched rest.  [Some]
    says that every store was inside the buffer; the loop itself reads no byte
    of the buffer. *)
Theorem C40_hex_encode : forall dst data,
  Forall (fun x => x < 256) data -> dst <> [] ->
  let n := Nat.min (length dst - 1) (length (hex_text data)) in
  debug_hex_encode dst data = Some (firstn n (hex_text data) ++ 0 :: skipn (S n) dst).
Proof. exact hex_encode_spec. Qed.

(** An empty buffer is not touched. *)
Theorem C40_hex_encode_empty : forall data, debug_hex_encode [] data = Some [].
Proof. reflexivity. Qed.

Example C40_example :
  debug_hex_encode [9;9;9;9;9;9;9] [0xAB; 0x0C] = Some [48;120;97;98;48;99;0] /\
  debug_hex_encode [9;9;9;9;9;9] [0xAB; 0x0C] = Some [48;120;97;98;48;0] /\
  debug_hex_encode [9;9;9;9;9;9;9;7] [0xAB] = Some [48;120;97;98;0;9;9;7] /\
  debug_hex_encode [9] [0xAB] = Some [0].
Proof. repeat split. Qed.

Print Assumptions C39_uint64.
Print Assumptions C39_int64.
Print Assumptions C39_narrow_unsigned.
Print Assumptions C39_narrow_signed.
Print Assumptions C39_denotation_unique.
Print Assumptions C40_hex_encode.
Print Assumptions C40_hex_encode_empty.
