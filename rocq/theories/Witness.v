(** * Concrete configurations used to show that hypotheses are satisfiable *)

From Coq Require Import List ZArith NArith Bool Lia.
From Verif Require Import Base Spec DataProofs.
Import ListNotations.

Definition lex_compare (a b : bytes) : Z :=
  match lexc a b with Eq => 0 | Lt => -1 | Gt => 1 end%Z.

(** Updates append bytes; updating an absent key creates it. *)
Definition append_cfg : data_config :=
  DataConfig lex_compare (fun k => fold_left (fun h x => (h * 31 + x) mod 2 ^ 32)%N k 7%N)
    (Some (fun _ old new => Msg (m_class old) (m_data old ++ m_data new),
           fun _ m => Msg MInsert (m_data m))).

Lemma lex_compare_total : total_order lex_compare.
Proof.
  constructor; unfold lex_compare; intros.
  - rewrite <- lexc_eq. destruct (lexc a b); split; intros; congruence.
  - rewrite (lexc_antisym b a). destruct (lexc a b); simpl; lia.
  - destruct (lexc a b) eqn:E; try lia. destruct (lexc b c) eqn:F; try lia.
    now rewrite (lexc_trans a b c).
Qed.

Lemma append_cfg_lawful : lawful_merge append_cfg.
Proof.
  constructor; intros; simpl in H; injection H as <- <-; try reflexivity.
  unfold apply_msg. simpl. destruct v; unfold up_some, up_none; simpl.
  - unfold value_of; simpl. now rewrite app_assoc.
  - reflexivity.
Qed.

Lemma append_cfg_allowed : forall m, msg_allowed append_cfg m.
Proof. unfold msg_allowed; simpl; congruence. Qed.
