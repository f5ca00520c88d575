(** What a walk over a syntax tree says: the words of the source that the visited nodes
    stand for. *)
From Coq Require Import String List NArith Bool Arith.
From Verif Require Import Runes Token Ast Walk Nodes ParseSpec ExprSpec StmtSpec.
Import ListNotations.
Local Open Scope list_scope.
Local Open Scope string_scope.

Section WithUnicode.
Context {U : Unicode}.
Notation words := (list (ttype * gostring)).

(** Names, literals and operators are spoken; the other words only show the shape. *)
Definition operators : list gostring := rel_ops ++ add_ops ++ mul_ops ++ map rs ["NOT"; "NIL"; "@"; "^"].
Definition spoken (w : ttype * gostring) : bool :=
  match fst w with
  | Identifier | NumeralInt | NumeralReal | CharacterString => true
  | _ => str_in (snd w) operators
  end.
(** What a node says itself, before its children. *)
Definition says (g : gnode) : words :=
  match g with
  | GIdent i | GAbsolute i => [wident (i_name i)]
  | GNumber v => [wnumber v]
  | GString v => [(CharacterString, v)]
  | GValue v => [wident v]
  | GSimple (Some v) => [wop v]
  | GSimple None => []
  | GOp _ v => [wop v]
  | GOther kind =>
      if kind =? "Not" then [wkey "NOT"] else if kind =? "Nil" then [wkey "NIL"]
      else if kind =? "Address" then [wsym "@"]
      else if kind =? "DesignatorItemDereference" then [wsym "^"] else []
  end.
(** A walk that collects what it hears. *)
Definition listen (heard : words) (n : Walk.tree gnode) : words * option unit :=
  (heard ++ says (label n), None)%list.
Definition heard (n : Walk.tree gnode) : words := fst (walk_down listen n []).

(** The words ON and AT of a source form are identifiers for the tokenizer, but no names. *)
Definition marker (sp : spelling) (w : ttype * gostring) : bool :=
  match fst w with
  | Identifier => runes_equal (snd w) (on_word sp) || runes_equal (snd w) (at_word sp)
  | _ => false
  end.
Definition unmarked (sp : spelling) (ws : words) : words := filter (fun w => negb (marker sp w)) ws.

End WithUnicode.
