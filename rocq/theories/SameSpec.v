(** When the uses clauses fix the order of the units of a program. *)
From Coq Require Import String List NArith Bool Arith Relation_Operators.
From Verif Require Import Runes Ast Heap MapSpec UnitSpec.
Import ListNotations.
Local Open Scope list_scope.

Section WithUnicode.
Context {U : Unicode}.

(** The name of the unit with the number [u], and the names in the uses clause of its interface
    section *)
Definition name_of_unit (h : heap) (u : nat) : gostring :=
  match nth_error (h_units h) u with Some o => i_name (un_ident o) | None => [] end.
Definition item_names (h : heap) (l : list nat) : list gostring :=
  map (fun a => match nth_error (h_uses h) a with Some i => i_name (u_ident i) | None => [] end) l.
Definition interface_uses (h : heap) (u : nat) : list gostring :=
  match nth_error (h_units h) u with
  | Some o =>
      match un_intf o with
      | Some s => match is_uses s with Some l => item_names h l | None => [] end
      | None => []
      end
  | None => []
  end.

(** Of any two units one uses the other, by way of others perhaps. *)
Definition units_in_line (h : heap) : Prop :=
  let all := seq 0 (length (h_units h)) in
  let needs := clos_trans nat (uses_among (name_of_unit h) (interface_uses h) all) in
  forall u v, In u all -> In v all -> u <> v -> needs u v \/ needs v u.

End WithUnicode.
