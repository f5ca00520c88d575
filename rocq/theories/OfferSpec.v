(** What a unit offers to those that use it: the declarations of its interface section, and
    nothing else. *)
From Coq Require Import String List NArith Bool Arith.
From Verif Require Import Runes Ast Ext Heap MapSpec UnitTextSpec.
Import ListNotations.
Local Open Scope list_scope.

Section WithUnicode.
Context {U : Unicode}.

(** The declarations of the interface section of a unit, in the order of the source
    ([entries] is in UnitTextSpec.v). *)
Definition interface_decls (o : unitobj) : list intfdecl :=
  match un_intf o with
  | None => []
  | Some i => match is_decls i with None => [] | Some l => l end
  end.
Definition interface (o : unitobj) : list decl := entries (interface_decls o).

(** The first declaration of a name, in any letter case. *)
Fixpoint first_named (l : list decl) (n : gostring) : option decl :=
  match l with
  | [] => None
  | d :: l' => if same_nameb n (i_name (d_ident d)) then Some d else first_named l' n
  end.

(** The declarations of the interface section by groups: the variables written before one
    colon are a group, all else stands alone. *)
Definition groups_of (d : intfdecl) : list (list decl) :=
  match d with
  | IVar l => map (fun v => map (fun i => mkDecl i NVar) (vd_idents v)) l
  | IThreadVar l => map (fun v => map (fun i => mkDecl i NThreadVar) (tv_idents v)) l
  | _ => map (fun d => [d]) (intf_entries d)
  end.
Definition groups (o : unitobj) : list (list decl) := flat_map groups_of (interface_decls o).
(** The names of a group of several are new: none of them was declared before it, nor twice in
    it. *)
Definition new_names (before group : list decl) : Prop :=
  NoDup (map to_lower (map (fun d => i_name (d_ident d)) group)) /\
  forall d e, In d before -> In e group -> ~ same_name (i_name (d_ident d)) (i_name (d_ident e)).
Definition clear_groups (l : list (list decl)) : Prop :=
  forall l1 g l2, l = l1 ++ g :: l2 -> length g <> 1 -> new_names (List.concat l1) g.

(** All that is found in the unit is of its interface section, and no question fails. *)
Definition offers_only (h : heap) (o : unitobj) : Prop :=
  (forall n p, dget h (un_map o) n = LFound p ->
     exists d, deref h p = Some d /\ In d (interface o) /\ same_name n (i_name (d_ident d))) /\
  (forall n, dget h (un_map o) n <> LPanic).
(** What is found under a name is its first declaration in the interface section. *)
Definition offers_first (h : heap) (o : unitobj) : Prop :=
  forall n, match first_named (interface o) n with
            | Some d => exists p, dget h (un_map o) n = LFound p /\ deref h p = Some d
            | None => dget h (un_map o) n = LNil
            end.

End WithUnicode.
