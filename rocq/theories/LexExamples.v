(** Helpers for exhibiting tokens of concrete texts. *)
From Coq Require Import List NArith Bool Arith String Lia.
From Verif Require Import Runes Token Tokenizer LexSpec.
Import ListNotations.

(** The [n]-th token of a text, reading everything, is a token of the text. *)
Lemma nth_token_of {U : Unicode} n text ts k :
  read_n n (new_tokenizer text true true) = Some (ts, k) ->
  Forall (token_of text) ts.
Proof.
  assert (G : forall n k0 ts k, held text k0 -> read_n n k0 = Some (ts, k) -> Forall (token_of text) ts).
  { clear. induction n as [|n IH]; intros k0 ts k H; cbn [read_n].
    - intros [= <- <-]. constructor.
    - destruct (get_next k0) as [t k1|?|] eqn:E; try discriminate.
      destruct (read_n n k1) as [[ts2 k2]|] eqn:R; [|discriminate]. intros [= <- <-].
      constructor; [now exists k0, k1|]. eapply IH; [|exact R]. econstructor; eauto. }
  apply G. constructor.
Qed.
Definition tokens {U : Unicode} (n : nat) (s : string) : list token :=
  match read_n n (new_tokenizer (rs s) true true) with Some (ts, _) => ts | None => [] end.
Lemma tokens_of {U : Unicode} n s : Forall (token_of (rs s)) (tokens n s).
Proof.
  unfold tokens. destruct (read_n _ _) as [[ts k]|] eqn:E; [|constructor].
  eapply nth_token_of, E.
Qed.
