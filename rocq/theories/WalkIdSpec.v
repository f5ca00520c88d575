(** The identifiers that a walk over a syntax tree comes to. *)
From Coq Require Import String List NArith Bool Arith.
From Verif Require Import Runes Token Ast Walk Nodes.
Import ListNotations.
Local Open Scope list_scope.
Local Open Scope string_scope.

(** The identifier that a node is: [*Ident], or the [*VarDeclAbsoluteIdent] made of one. *)
Definition identifier (g : gnode) : list ident :=
  match g with GIdent i | GAbsolute i => [i] | _ => [] end.
(** A walk that collects them. *)
Definition collect (met : list ident) (n : Walk.tree gnode) : list ident * option unit :=
  (met ++ identifier (label n), None)%list.
Definition idents_met (n : Walk.tree gnode) : list ident := fst (walk_down collect n []).

(** No variant part of a record in the tree has a tag: [case T of] and not [case I: T of]. *)
Definition tagged (g : gnode) (cs : list (option (Walk.tree gnode))) : bool :=
  match g with
  | GOther kind =>
      (kind =? "VariantSection") &&
      existsb (fun o => match o with Some n => match label n with GIdent _ => true | _ => false end | None => false end) cs
  | _ => false
  end.
Fixpoint tagless (n : Walk.tree gnode) : bool :=
  match n with
  | Node g cs => negb (tagged g cs) && forallb (fun o => match o with Some c => tagless c | None => true end) cs
  end.
