(** Token types, tokens, reserved words, directives and predicates.
    Model of /repo/token/{type,token,reserved_words,directives,predicate}.go. *)
From Coq Require Import List NArith Bool Arith String.
From Verif Require Import Runes.
Import ListNotations.

(** token/type.go:9-23 *)
Inductive ttype :=
| EOF | Space | Comment | SpecialSymbol | Identifier | QualifiedIdentifier
| ReservedWord | NumeralInt | NumeralReal | Label | CharacterString.

Definition ttype_eqb (a b : ttype) : bool :=
  match a, b with
  | EOF, EOF | Space, Space | Comment, Comment | SpecialSymbol, SpecialSymbol
  | Identifier, Identifier | QualifiedIdentifier, QualifiedIdentifier
  | ReservedWord, ReservedWord | NumeralInt, NumeralInt | NumeralReal, NumeralReal
  | Label, Label | CharacterString, CharacterString => true
  | _, _ => false
  end.

(** token/token.go:10-15 *)
Record token := mkToken {
  t_type : ttype; t_text : list rune; t_start : position; t_end : position }.

(** [text[a:b]] for [a <= b <= len text], the only way it is used: a token of a text
    stands in it ([token_stands] in LexFacts).  *)
Definition slice {A} (l : list A) (a b : nat) : list A := firstn (b - a) (skipn a l).

(** token/token.go:30-36 (Raw and RawString) *)
Definition raw (t : token) : gostring :=
  slice (t_text t) (p_index (t_start t)) (p_index (t_end t)).

(** token/token.go:38-46 *)
Definition value `{Unicode} (t : token) : gostring :=
  match t_type t with
  | ReservedWord => to_upper (raw t)
  | _ => raw t
  end.

(** token/token.go:48-50 *)
Definition token_len (t : token) : nat := p_index (t_end t) - p_index (t_start t).

(** token/token.go:52-60 *)
Definition value_abbr `{Unicode} (t : token) (n : nat) : gostring :=
  if token_len t <? n then value t
  else let st := p_index (t_start t) in
       slice (t_text t) st (st + n) ++ rs "...".

(** token/token.go:21-28 (positions are values in the model) *)
Definition token_clone (t : token) : token :=
  mkToken (t_type t) (t_text t) (t_start t) (t_end t).

(** Go's [map[string]bool] sets built once from literals, as lists. *)
Definition str_in (s : gostring) (l : list gostring) : bool :=
  existsb (runes_equal s) l.

(** token/reserved_words.go:13-79 *)
Definition reserved_words : list gostring := map rs [
  "AND"; "ARRAY"; "AS"; "ASM"; "BEGIN"; "CASE"; "CLASS"; "CONST"; "CONSTRUCTOR";
  "DESTRUCTOR"; "DISPINTERFACE"; "DIV"; "DO"; "DOWNTO"; "ELSE"; "END"; "EXCEPT";
  "EXPORTS"; "FILE"; "FINALIZATION"; "FINALLY"; "FOR"; "FUNCTION"; "GOTO"; "IF";
  "IMPLEMENTATION"; "IN"; "INHERITED"; "INITIALIZATION"; "INLINE"; "INTERFACE";
  "IS"; "LABEL"; "LIBRARY"; "MOD"; "NIL"; "NOT"; "OBJECT"; "OF"; "OR"; "OUT";
  "PACKED"; "PROCEDURE"; "PROGRAM"; "PROPERTY"; "RAISE"; "RECORD"; "REPEAT";
  "RESOURCESTRING"; "SET"; "SHL"; "SHR"; "STRING"; "THEN"; "THREADVAR"; "TO";
  "TRY"; "TYPE"; "UNIT"; "UNTIL"; "USES"; "VAR"; "WHILE"; "WITH"; "XOR" ]%string.

(** token/reserved_words.go:9-11 *)
Definition is_reserved_word `{Unicode} (s : gostring) : bool :=
  str_in (to_upper s) reserved_words.

(** token/directives.go:48-93 *)
Definition directives : list gostring := map rs [
  "ABSTRACT"; "CDECL"; "DYNAMIC"; "EXPORT"; "EXTERNAL"; "FAR"; "FORWARD"; "INDEX";
  "LOCAL"; "MESSAGE"; "NAME"; "NEAR"; "OVERLOAD"; "OVERRIDE"; "PASCAL"; "REGISTER";
  "REINTRODUCE"; "SAFECALL"; "STDCALL"; "VARARGS" ]%string.

(** token/directives.go:95-99 *)
Definition portability_directives : list gostring := map rs [
  "PLATFORM"; "DEPRECATED"; "LIBRARY" ]%string.

(** token/predicate.go:10-13.  A predicator is its [Predicate] method; the
    [Name], only used in error messages, is not modelled. *)
Definition predicator := token -> bool.

(** token/predicate.go:25-32 and 56-62 *)
Fixpoint p_some (ps : list predicator) : predicator := fun t =>
  match ps with
  | [] => false
  | p :: ps' => if p t then true else p_some ps' t
  end.
(** token/predicate.go:34-41 and 64-70 *)
Fixpoint p_every (ps : list predicator) : predicator := fun t =>
  match ps with
  | [] => true
  | p :: ps' => if negb (p t) then false else p_every ps' t
  end.
(** token/predicate.go:114-119 *)
Definition p_not (p : predicator) : predicator := fun t => negb (p t).
(** token/predicate.go:72-77 and token/type.go:49-51 *)
Definition p_type (ty : ttype) : predicator := fun t => ttype_eqb (t_type t) ty.
(** token/predicate.go:79-89 *)
Definition p_symbol (s : gostring) : predicator := fun t =>
  if negb (ttype_eqb (t_type t) SpecialSymbol) then false
  else runes_equal (raw t) s.
(** token/predicate.go:91-96 *)
Definition p_value `{Unicode} (v : gostring) : predicator := fun t =>
  runes_equal (value t) v.
(** token/predicate.go:98-103 *)
Definition p_upper `{Unicode} (v : gostring) : predicator := fun t =>
  runes_equal (to_upper (value t)) v.
(** token/predicate.go:105-112 *)
Definition p_by `{Unicode} (fn : gostring -> bool) : predicator := fun t =>
  fn (to_upper (value t)).
(** token/type.go:53-58 *)
Definition p_has_text `{Unicode} (ty : ttype) (s : gostring) : predicator := fun t =>
  ttype_eqb (t_type t) ty && runes_equal (value t) s.
(** token/type.go:61-69.  The panic for a keyword that is not reserved is
    raised when the predicator is built, from literals only; all uses in
    /repo pass reserved words, checked in KeywordFacts. *)
Definition p_keyword `{Unicode} (ty : ttype) (kw : gostring) : predicator := fun t =>
  ttype_eqb (t_type t) ty && runes_equal (value t) kw.
(** token/directives.go:22-24 *)
Definition p_directive_set `{Unicode} (names : list gostring) : predicator := fun t =>
  str_in (to_upper (raw t)) names.
(** token/directives.go:35 and 46 *)
Definition p_directive `{Unicode} : predicator := p_directive_set directives.
Definition p_portability `{Unicode} : predicator := p_directive_set portability_directives.
