(** Consequences of [UnicodeOk], and the Latin-1 instance. *)
From Coq Require Import List NArith Bool Arith String Lia ZifyBool ZifyN.
From Verif Require Import ListUtil Runes.
Import ListNotations.

Lemma latin1_ok : UnicodeOk latin1.
Proof.
  split; cbn; intros r H; unfold between in *; try lia;
    repeat match goal with |- context [if ?b then _ else _] => destruct b eqn:? end; try lia.
Qed.

Section Facts.
Context {U : Unicode} {UOK : UnicodeOk U}.

Lemma u_letter_nul : u_letter 0%N = false.
Proof. rewrite letter_ascii by lia. reflexivity. Qed.
Lemma u_space_nul : u_space 0%N = false.
Proof. rewrite space_ascii by lia. reflexivity. Qed.

Lemma digit_not_letter r : is_digit r = true -> u_letter r = false.
Proof.
  unfold is_digit. intros D. rewrite letter_ascii by lia. unfold between. lia.
Qed.
Lemma digit_not_space r : is_digit r = true -> u_space r = false.
Proof.
  unfold is_digit. intros D. rewrite space_ascii by lia. unfold between. lia.
Qed.
Lemma word_head_not_space r : is_word_head r = true -> u_space r = false.
Proof.
  unfold is_word_head. intros [E|L]%orb_true_iff.
  - apply N.eqb_eq in E. subst. rewrite space_ascii by lia. reflexivity.
  - now apply letter_not_space.
Qed.
Lemma word_not_space r : is_word r = true -> u_space r = false.
Proof.
  unfold is_word. intros [L|D]%orb_true_iff.
  - now apply word_head_not_space.
  - now apply digit_not_space.
Qed.
Lemma is_word_nul : is_word 0%N = false.
Proof. unfold is_word, is_word_head. rewrite u_letter_nul. reflexivity. Qed.
End Facts.
