(** * Round-trip proofs for the on-disk encodings *)

From Coq Require Import List ZArith NArith Bool Lia.
From Verif Require Import Base Codec.
Import ListNotations.
Local Open Scope N_scope.

Lemma dec_enc_u16 : forall x r, x < 2 ^ 16 -> dec_u16 (enc_u16 x ++ r) = Some (x, r).
Proof.
  intros. unfold enc_u16, dec_u16. simpl app.
  rewrite (N.mod_small (x / 256) 256).
  - rewrite N.add_comm, <- N.div_mod' . reflexivity.
  - apply N.div_lt_upper_bound; [lia|]. replace (256 * 256) with (2 ^ 16) by reflexivity. lia.
Qed.

Lemma take_bytes_app : forall a r, take_bytes (blen a) (a ++ r) = Some a.
Proof.
  intros. unfold take_bytes, blen. rewrite app_length.
  destruct (N.leb_spec (N.of_nat (length a)) (N.of_nat (length a + length r))); [|lia].
  rewrite Nat2N.id, firstn_app, firstn_all, Nat.sub_diag. simpl. now rewrite app_nil_r.
Qed.

Lemma decode_class_code : forall c, decode_class (mclass_code c) = Some c.
Proof. destruct c; reflexivity. Qed.

Lemma key_roundtrip : forall k rest,
  key_length k < ONDISK_KEY_POSITIVE_INFINITY ->
  ondisk_key_to_key (copy_key_to_ondisk_key k ++ rest) = Some k.
Proof.
  intros k rest H. destruct k; cbn [copy_key_to_ondisk_key]; unfold ondisk_key_to_key.
  - rewrite <- app_assoc, dec_enc_u16 by reflexivity. reflexivity.
  - unfold key_length, ONDISK_KEY_POSITIVE_INFINITY in H.
    rewrite <- !app_assoc, dec_enc_u16 by lia. cbn [app dec_u8].
    unfold ONDISK_KEY_NEGATIVE_INFINITY, ONDISK_KEY_POSITIVE_INFINITY.
    destruct (N.eqb_spec (blen b) (2 ^ 16 - 1)); [lia|].
    destruct (N.eqb_spec (blen b) (2 ^ 16 - 2)); [lia|].
    now rewrite take_bytes_app.
  - rewrite <- app_assoc, dec_enc_u16 by reflexivity. reflexivity.
Qed.

Lemma tuple_roundtrip : forall kf k m rest,
  blen k < 2 ^ 16 -> blen (m_data m) < 2 ^ 16 ->
  ondisk_tuple_decode (copy_tuple_to_ondisk_tuple kf k m ++ rest) = Some (k, m).
Proof.
  intros kf k m rest Hk Hm. unfold copy_tuple_to_ondisk_tuple, ondisk_tuple_decode.
  rewrite <- !app_assoc, dec_enc_u16 by lia. cbn [app dec_u8].
  rewrite dec_enc_u16 by lia. cbn [app dec_u8].
  rewrite take_bytes_app, decode_class_code.
  replace (N.to_nat (blen k)) with (length k) by (unfold blen; lia).
  rewrite skipn_app, skipn_all, Nat.sub_diag.
  simpl skipn. rewrite app_nil_l, take_bytes_app. destruct m; reflexivity.
Qed.

Lemma tuple_size : forall kf k m,
  blen (copy_tuple_to_ondisk_tuple kf k m) = sizeof_ondisk_tuple k m.
Proof.
  intros. unfold copy_tuple_to_ondisk_tuple, sizeof_ondisk_tuple, blen,
    sizeof_ondisk_tuple_hdr. rewrite !app_length. simpl length. lia.
Qed.

Lemma key_size : forall k, blen (copy_key_to_ondisk_key k) = sizeof_ondisk_key k.
Proof.
  intros. unfold sizeof_ondisk_key, sizeof_ondisk_key_hdr, blen.
  destruct k; cbn [copy_key_to_ondisk_key key_length]; rewrite ?app_length; simpl length;
    unfold blen; lia.
Qed.
