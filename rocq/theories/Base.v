(** * Basic data types of the model

    Byte strings, keys, messages and the user's data configuration.
    Definitions only; no proofs. *)

From Coq Require Import List ZArith NArith Bool.
Import ListNotations.
Local Open Scope N_scope.

(** A byte is an [N]; [wf_bytes] says that it is below 256.
    /repo/include/splinterdb/public_util.h:27-60 (slice).  Simplification: a
    slice is its contents, not a pointer; aliasing is not modelled. *)
Definition bytes := list N.

Definition wf_bytes (b : bytes) : Prop := Forall (fun x => x < 256) b.

(** slice_length, as a uint64 *)
Definition blen (b : bytes) : N := N.of_nat (length b).

(** /repo/src/data_internal.h:29-43, key_type and key.  The C enumeration
    values NEGATIVE_INFINITY = 1, USER_KEY = 2, POSITIVE_INFINITY = 3 are
    [key_kind]. *)
Inductive key :=
| KNegInf
| KUser (b : bytes)
| KPosInf.

Definition key_kind (k : key) : Z :=
  match k with KNegInf => 1%Z | KUser _ => 2%Z | KPosInf => 3%Z end.

(** /repo/src/data_internal.h:102-106, key_length *)
Definition key_length (k : key) : N :=
  match k with KUser b => blen b | _ => 0 end.

(** /repo/include/splinterdb/data.h:29-36, message_type.
    MESSAGE_TYPE_INVALID is represented by the absence of a message (option);
    MESSAGE_TYPE_PIVOT_DATA is internal to index pages and not a message. *)
Inductive mclass := MInsert | MUpdate | MDelete.

(** The on-disk number of a class, data.h:29-36. *)
Definition mclass_code (c : mclass) : N :=
  match c with MInsert => 1 | MUpdate => 2 | MDelete => 3 end.

(** /repo/include/splinterdb/data.h:46-49, message *)
Record message := Msg { m_class : mclass; m_data : bytes }.

(** /repo/src/data_internal.h:339-343, message_is_definitive, and 497-501,
    merge_accumulator_is_definitive *)
Definition is_definitive (m : message) : bool :=
  match m_class m with MUpdate => false | _ => true end.

(** /repo/include/splinterdb/data.h:163-176, data_config.
    [merge_fns] is [None] when the two merge function pointers are NULL.
    [merge_fns = Some (f, g)]: [f key old new] is the accumulator after
    merge_tuples, [g key m] after merge_tuples_final.
    Simplification: callbacks always return 0 (a non-zero return is documented
    as an "internal error", data.h:110-116) and are deterministic.
    max_key_size and the printing callbacks are omitted: the library does not
    use them for its semantics. *)
Record data_config := DataConfig {
  key_compare : bytes -> bytes -> Z;
  key_hash : bytes -> N;
  merge_fns : option ((bytes -> message -> message -> message)
                      * (bytes -> message -> message))
}.

(** /repo/src/data_internal.h:550-558, data_key_compare *)
Definition data_key_compare (cfg : data_config) (k1 k2 : key) : Z :=
  match k1, k2 with
  | KUser a, KUser b => key_compare cfg a b
  | _, _ => (key_kind k1 - key_kind k2)%Z
  end.

(** /repo/src/data_internal.h:560-586, data_merge_tuples.
    [None] is the crash on calling a NULL function pointer.  Since callbacks
    return 0, the branch at 580-584 is dead. *)
Definition data_merge_tuples (cfg : data_config) (k : bytes)
           (old new : message) : option message :=
  if is_definitive new then Some new
  else match merge_fns cfg with
       | None => None
       | Some (f, g) =>
           match m_class old with
           | MDelete => Some (g k new)
           | _ => Some (f k old new)
           end
       end.

(** /repo/src/data_internal.h:588-607, data_merge_tuples_final *)
Definition data_merge_tuples_final (cfg : data_config) (k : bytes)
           (m : message) : option message :=
  if is_definitive m then Some m
  else match merge_fns cfg with
       | None => None
       | Some (_, g) => Some (g k m)
       end.

(** ** Lexicographic comparison *)

(** memcmp on the first [n] bytes.  C only fixes the sign of the result; the
    model returns the difference of the first pair of differing bytes, as the
    usual implementations do. *)
Fixpoint memcmp (a b : bytes) (n : nat) {struct n} : Z :=
  match n, a, b with
  | S n', x :: a', y :: b' =>
      if N.eqb x y then memcmp a' b' n' else (Z.of_N x - Z.of_N y)%Z
  | _, _, _ => 0%Z
  end.

(** Conversion of a uint64 to (32-bit) int, as in a C return statement. *)
Definition u64_to_int (x : N) : Z :=
  let y := Z.of_N (x mod 2 ^ 32) in
  if (y <? 2 ^ 31)%Z then y else (y - 2 ^ 32)%Z.

(** /repo/src/util.h:89-103, slice_lex_cmp.  [len1 - len2] is a uint64
    difference (reached only when len1 >= len2) returned as an int. *)
Definition slice_lex_cmp (a b : bytes) : Z :=
  let len1 := blen a in
  let len2 := blen b in
  let minlen := if len1 <? len2 then len1 else len2 in
  let cmp := memcmp a b (N.to_nat minlen) in
  if negb (cmp =? 0)%Z then cmp
  else if len1 <? len2 then (-1)%Z
  else u64_to_int (len1 - len2).

(** /repo/src/default_data_config.c:24-31 and 53-68: the default
    configuration compares lexicographically and has no merge functions.
    [hash] stands for platform_hash32 (XXH32), which is not modelled. *)
Definition default_data_config (hash : bytes -> N) : data_config :=
  DataConfig slice_lex_cmp hash None.
