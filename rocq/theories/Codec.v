(** * On-disk encodings of keys and tuples

    /repo/src/data_internal.h:225-456.  Definitions only. *)

From Coq Require Import List ZArith NArith Bool.
From Verif Require Import Base.
Import ListNotations.
Local Open Scope N_scope.

(** Little-endian uint16 store (the platform is x86-64/ARM little-endian).
    Storing a larger value keeps its low 16 bits. *)
Definition enc_u16 (x : N) : bytes := [x mod 256; (x / 256) mod 256].

Definition dec_u16 (b : bytes) : option (N * bytes) :=
  match b with
  | lo :: hi :: rest => Some (lo + 256 * hi, rest)
  | _ => None
  end.

Definition dec_u8 (b : bytes) : option (N * bytes) :=
  match b with x :: rest => Some (x, rest) | [] => None end.

(** Read exactly [n] bytes; [None] is reading past the end. *)
Definition take_bytes (n : N) (b : bytes) : option bytes :=
  if n <=? blen b then Some (firstn (N.to_nat n) b) else None.

(** data_internal.h:236-241 *)
Definition ONDISK_KEY_NEGATIVE_INFINITY : N := 2 ^ 16 - 1.
Definition ONDISK_KEY_POSITIVE_INFINITY : N := 2 ^ 16 - 2.
Definition ONDISK_KEY_DEFAULT_FLAGS : N := 0.

(** data_internal.h:229-233: sizeof(ondisk_key) with ONDISK (packed). *)
Definition sizeof_ondisk_key_hdr : N := 3.

(** data_internal.h:278-290, copy_key_to_ondisk_key: header then bytes. *)
Definition copy_key_to_ondisk_key (k : key) : bytes :=
  match k with
  | KUser b => enc_u16 (blen b) ++ [ONDISK_KEY_DEFAULT_FLAGS] ++ b
  | KNegInf => enc_u16 ONDISK_KEY_NEGATIVE_INFINITY ++ [ONDISK_KEY_DEFAULT_FLAGS]
  | KPosInf => enc_u16 ONDISK_KEY_POSITIVE_INFINITY ++ [ONDISK_KEY_DEFAULT_FLAGS]
  end.

(** data_internal.h:266-276, ondisk_key_to_key, reading at the front of [b]. *)
Definition ondisk_key_to_key (b : bytes) : option key :=
  match dec_u16 b with
  | None => None
  | Some (len, b1) =>
      match dec_u8 b1 with
      | None => None
      | Some (_flags, b2) =>
          if len =? ONDISK_KEY_NEGATIVE_INFINITY then Some KNegInf
          else if len =? ONDISK_KEY_POSITIVE_INFINITY then Some KPosInf
          else option_map KUser (take_bytes len b2)
      end
  end.

(** data_internal.h:244-254, sizeof_ondisk_key_data, plus the header *)
Definition sizeof_ondisk_key (k : key) : N := sizeof_ondisk_key_hdr + key_length k.

(** data_internal.h:386-392: packed header of 6 bytes. *)
Definition sizeof_ondisk_tuple_hdr : N := 6.

(** data_internal.h:394-398 *)
Definition ONDISK_MESSAGE_TYPE_MASK : N := 2 ^ 2 - 1.

(** data_internal.h:448-456, copy_tuple_to_ondisk_tuple.  The key_flags byte is
    not written: it keeps the value [kf] the memory had before. *)
Definition copy_tuple_to_ondisk_tuple (kf : N) (k : bytes) (m : message) : bytes :=
  enc_u16 (blen k) ++ [kf] ++ enc_u16 (blen (m_data m))
    ++ [mclass_code (m_class m)] ++ k ++ m_data m.

(** data_internal.h:424-428, ondisk_tuple_message_class; class 0 (INVALID) is
    [None]. *)
Definition decode_class (flags : N) : option mclass :=
  match N.land flags ONDISK_MESSAGE_TYPE_MASK with
  | 1 => Some MInsert
  | 2 => Some MUpdate
  | 3 => Some MDelete
  | _ => None
  end.

(** data_internal.h:418-436, ondisk_tuple_key and ondisk_tuple_message. *)
Definition ondisk_tuple_decode (b : bytes) : option (bytes * message) :=
  match dec_u16 b with
  | None => None
  | Some (klen, b1) =>
  match dec_u8 b1 with
  | None => None
  | Some (_kf, b2) =>
  match dec_u16 b2 with
  | None => None
  | Some (mlen, b3) =>
  match dec_u8 b3 with
  | None => None
  | Some (flags, b4) =>
  match take_bytes klen b4, decode_class flags,
        take_bytes mlen (skipn (N.to_nat klen) b4) with
  | Some k, Some c, Some d => Some (k, Msg c d)
  | _, _, _ => None
  end end end end end.

(** data_internal.h:411-416 plus the header: bytes taken by a tuple. *)
Definition sizeof_ondisk_tuple (k : bytes) (m : message) : N :=
  sizeof_ondisk_tuple_hdr + blen k + blen (m_data m).
