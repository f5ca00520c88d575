(** Parsers on concrete texts, for the examples. *)
From Coq Require Import String List NArith Bool Arith.
From Verif Require Import Runes UnicodeFacts Token Tokenizer LexSpec Ast Heap Prog ParseSpec RunFacts.
Import ListNotations.

Section WithUnicode.
Context {U : Unicode}.

(** A new parser on [src] with a program context of file p.dpr, before any token is read. *)
Definition opened (src : string) : pst :=
  let '(h, c) := new_program_context heap0 (rs "p.dpr") in
  mkPst (new_tokenizer (rs src) false false) None c [] h.
(** The same after [n] calls of NextToken. *)
Fixpoint advance (n : nat) (s : pst) : pst :=
  match n with
  | O => s
  | S m => match next_token (advance m s) with OOk _ s' => s' | _ => s end
  end.
Definition at_token (n : nat) (src : string) : pst := advance n (opened src).

Lemma opened_parsing src : parsing (rs src) (opened src).
Proof. split; [split; [constructor|auto]|discriminate]. Qed.

Lemma next_parsing text s c s' : parsing text s -> next_token s = OOk c s' ->
  held text (s_tok s').
Proof.
  intros [[H _] _]. unfold next_token. destruct (get_next (s_tok s)) as [t k|k|] eqn:G; try discriminate;
    intros [= _ <-]; cbn; [eapply held_tok|eapply held_nil]; eauto.
Qed.

Lemma at_token_parsing {UOK : UnicodeOk U} n src : parsing (rs src) (at_token n src).
Proof.
  induction n as [|n IH]; [apply opened_parsing|]. unfold at_token in *. cbn [advance].
  destruct (next_token (advance n (opened src))) as [c s| | | |] eqn:E; try apply opened_parsing.
  now destruct (parser_moves_forward _ Next (rs src) _ s IH (or_introl (ex_intro _ c E))).
Qed.

(** What is left of an outcome when heap and tokenizer are dropped. *)
Definition token_text (t : token) : list rune := raw t.
Definition shown {A} (o : outcome A) : option (A * option (list rune)) :=
  match o with OOk a s => Some (a, option_map token_text (s_cur s)) | _ => None end.
Definition failed {A} (o : outcome A) : option perr :=
  match o with OErr e _ => Some e | _ => None end.

(** [stands] by computation. *)
Lemma stands_by_reading n text s t ts k ls :
  parsing text s -> s_cur s = Some t -> read_n n (s_tok s) = Some (ts, k) ->
  map word_of (t :: ts) = ls -> stands text s ls.
Proof.
  intros [[H _] _] C R <-. exists t, (map word_of ts). split; [reflexivity|]. split; [exact C|].
  split; [exact H|]. exists ts, k. split; [|reflexivity].
  clear C. revert R. generalize (s_tok s) as k0. clear H. revert ts k. induction n as [|n IH]; intros ts k k0; cbn [read_n].
  - intros [= <- <-]. constructor.
  - destruct (get_next k0) as [t1 k1|?|] eqn:G; try discriminate.
    destruct (read_n n k1) as [[ts2 k2]|] eqn:R; [|discriminate]. intros [= <- <-].
    econstructor; [exact G|]. now apply IH.
Qed.

(** Small trees. *)
Definition a_name (x : string) : desig := Desig (mkQualId None (mkIdentRef (mkIdent (rs x) None) None)) [].
Definition a_var (x : string) : factor := FDesignator (a_name x) None.
Definition a_term (f : factor) : term := Term f [].
Definition a_simple (f : factor) : sexpr := SExpr None (a_term f) [].
Definition an_expr (f : factor) : expr := Expr (a_simple f) [].
End WithUnicode.
