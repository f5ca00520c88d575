(** Questions asked of types: classification, class members, computed properties.
    Model of /repo/ast/type_id.go, type_embedded.go:57-82, type_simple.go, type_struc.go,
    type_string.go, type_pointer.go and type_class.go:73-141, 495-535. *)
From Coq Require Import List NArith Bool Arith.
From Verif Require Import Runes Token Ast Ext Heap.
Import ListNotations.

(** The questions: IsSimpleType, IsOrdinalType, IsRealType, IsOrdIdent, IsStringType,
    IsPointerType, IsVariantType. *)
Inductive question := QSimple | QOrdinal | QReal | QOrdIdent | QString | QPointer | QVariant.

(** ast/type_embedded.go:57-82 *)
Definition embedded_is (q : question) (k : ekind) : bool :=
  match q with
  | QSimple => ekind_eqb k EtkReal || ekind_eqb k EtkOrdIdent
  | QOrdinal | QOrdIdent => ekind_eqb k EtkOrdIdent
  | QReal => ekind_eqb k EtkReal
  | QString => ekind_eqb k EtkStringType
  | QPointer => ekind_eqb k EtkPointerType
  | QVariant => ekind_eqb k EtkVariantType
  end.

Section WithUnicode.
Context {U : Unicode}.

(** The declaration behind [TypeId.Ref]; an address without object does not occur. *)
Definition ref_of (h : heap) (t : typeid) : option dref :=
  match nth_error (h_refs h) (ti_ref t) with Some (Some d) => Some d | _ => None end.
(** ast/type_id.go:57-69, up to the type of the [TypeDecl] found *)
Definition ref_type (h : heap) (t : typeid) : option typ :=
  match ref_of h t with
  | None => None
  | Some d => match deref h d with
              | Some o => match d_node o with NType ty => Some ty | _ => None end
              | None => None
              end
  end.

(** ast/type_id.go:72-155 and the methods of the other types: a type that lacks the
    method fails the type assertion and counts as no.  [TSet] has the methods of the
    [OrdinalType] it embeds (ast/type_struc.go:46-49), [TFile] those of its [TypeId]
    (64-67).  [None] is out of fuel. *)
Fixpoint type_is (fuel : nat) (h : heap) (q : question) (t : typ) : option bool :=
  match fuel with
  | O => None
  | S f =>
      match t with
      | TId ti | TFile _ ti =>
          match ref_type h ti with
          | None => Some false
          | Some t' => type_is f h q t'
          end
      | TEmbedded k _ => Some (embedded_is q k)
      | TEnum _ | TSubrange _ _ => Some (match q with QSimple | QOrdinal => true | _ => false end)
      | TPointer _ => Some (match q with QPointer => true | _ => false end)
      | TFixedString _ _ => Some (match q with QString => true | _ => false end)
      | TSet _ t' => match q with QSimple | QOrdinal => type_is f h q t' | _ => Some false end
      | _ => Some false
      end
  end.

(** ** Classes *)

(** ast/type_class.go:73-85, up to the fields of the class found *)
Definition parent_class (h : heap) (heritage : option (list typeid))
    : option (option (list typeid) * option (list csection)) :=
  match heritage with
  | Some (p :: _) =>
      match ref_type h p with
      | Some (TClass her mem) => Some (her, mem)
      | _ => None
      end
  | _ => None
  end.

(** The identifier of a method heading: GetIdent in ast/function_heading.go and
    ast/type_class.go:397, 417 *)
Definition method_ident (m : cmethod) : ident :=
  match m with
  | ClassMethod (HFunc (Heading _ i _ _)) _ => i
  | ClassMethod (HCtor i _) _ => i
  | ClassMethod (HDtor i) _ => i
  end.
Definition prop_ident (p : cprop) : ident := match p with ClassProp i _ _ _ _ _ _ _ _ => i end.

(** ast/type_class.go:95-101.  [kw] is lowered already and lowered again by Find. *)
Fixpoint find_field (fs : list (list ident * typ)) (kw : gostring) : option (option decl) :=
  match fs with
  | [] => None
  | (ids, _) :: fs' =>
      match ident_list_find ids kw with
      | Some _ => Some (decls_find (map (fun i => mkDecl i NField) ids) kw)
      | None => find_field fs' kw
      end
  end.
(** ast/type_class.go:102-108 *)
Fixpoint find_method (ms : list cmethod) (kw : gostring) : option (option decl) :=
  match ms with
  | [] => None
  | m :: ms' =>
      if runes_equal (to_lower (i_name (method_ident m))) kw
      then Some (decls_find [mkDecl (method_ident m) NMethod] kw)
      else find_method ms' kw
  end.
(** ast/type_class.go:109-115 *)
Fixpoint find_prop (ps : list cprop) (kw : gostring) : option (option decl) :=
  match ps with
  | [] => None
  | p :: ps' =>
      if runes_equal (to_lower (i_name (prop_ident p))) kw
      then Some (decls_find [mkDecl (prop_ident p) NProp] kw)
      else find_prop ps' kw
  end.
Definition is_private (v : visibility) : bool := match v with CvPrivate => true | _ => false end.
(** ast/type_class.go:91-116, the loop; the outer [None] is going on behind it *)
Fixpoint find_in_sections (private : bool) (ss : list csection) (kw : gostring) : option (option decl) :=
  match ss with
  | [] => None
  | ClassSection v fs ms ps :: ss' =>
      if negb private && is_private v then find_in_sections private ss' kw else
      match find_field fs kw with
      | Some r => Some r
      | None =>
          match find_method ms kw with
          | Some r => Some r
          | None =>
              match find_prop ps kw with
              | Some r => Some r
              | None => find_in_sections private ss' kw
              end
          end
      end
  end.
Definition sections (mem : option (list csection)) : list csection :=
  match mem with Some l => l | None => [] end.
(** ast/type_class.go:87-122; the outer [None] is out of fuel *)
Fixpoint find_member (fuel : nat) (h : heap) (her : option (list typeid)) (mem : option (list csection))
    (name : gostring) (private : bool) : option (option decl) :=
  match fuel with
  | O => None
  | S f =>
      match find_in_sections private (sections mem) (to_lower name) with
      | Some r => Some r
      | None =>
          match parent_class h her with
          | Some (her', mem') => find_member f h her' mem' name false
          | None => Some None
          end
      end
  end.

(** ast/type_class.go:126-134 *)
Fixpoint prop_in_list (ps : list cprop) (kw : gostring) : option cprop :=
  match ps with
  | [] => None
  | p :: ps' => if runes_equal (to_lower (i_name (prop_ident p))) kw then Some p else prop_in_list ps' kw
  end.
Fixpoint prop_in_sections (ss : list csection) (kw : gostring) : option cprop :=
  match ss with
  | [] => None
  | ClassSection _ _ _ ps :: ss' =>
      match prop_in_list ps kw with
      | Some p => Some p
      | None => prop_in_sections ss' kw
      end
  end.
(** ast/type_class.go:124-141 *)
Fixpoint find_property (fuel : nat) (h : heap) (her : option (list typeid)) (mem : option (list csection))
    (name : gostring) (ascendant : bool) : option (option cprop) :=
  match fuel with
  | O => None
  | S f =>
      match prop_in_sections (sections mem) (to_lower name) with
      | Some p => Some (Some p)
      | None =>
          if ascendant then
            match parent_class h her with
            | Some (her', mem') => find_property f h her' mem' name true
            | None => Some None
            end
          else Some None
      end
  end.

(** ast/type_class.go:495-523: [over a b] is [a] unless nil *)
Definition over {A} (a b : option A) : option A := match a with Some _ => a | None => b end.
Fixpoint computed_property (p : cprop) : cprop :=
  match p with
  | ClassProp i itf idx rd wr st df im None => ClassProp i itf idx rd wr st df im None
  | ClassProp i itf idx rd wr st df im (Some q) =>
      match computed_property q with
      | ClassProp i' itf' idx' rd' wr' st' df' im' par' =>
          ClassProp i' (over itf itf') (over idx idx') (over rd rd') (over wr wr') (over st st')
            (over df df') (over im im') par'
      end
  end.
Definition missing {A B} (a : option A) (b : option B) : bool :=
  match a, b with Some _, None => true | _, _ => false end.
(** ast/type_class.go:525-535 *)
Definition inherits_from (p : cprop) (parent : option cprop) : bool :=
  match parent with
  | None => false
  | Some q =>
      match computed_property q, p with
      | ClassProp _ itf' idx' rd' wr' _ _ _ _, ClassProp _ itf idx rd wr _ _ _ _ =>
          missing itf' itf || missing idx' idx || missing rd' rd || missing wr' wr
      end
  end.

End WithUnicode.
