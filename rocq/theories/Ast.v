(** Syntax trees.  Model of the struct types of /repo/ast/*.go.

    Pointers: a [*Decl] is an address (table of built-in types or heap), and so
    are the few objects that the parser changes after other objects refer to
    them: the [Ref] of a [TypeId], the [Actual] of a forward-declared class, the
    items of uses clauses, units and programs.  Everything else is a value. *)
From Coq Require Import List NArith Bool Arith.
From Verif Require Import Runes Token.
Import ListNotations.

(** ast/astcore/ident.go:14-35.  [i_loc] is [None] for a nil location; the path of a
    location is empty (ident.go:22-24) but for the built-in types. *)
Record ident := mkIdent { i_name : gostring; i_loc : option (position * position) }.
(** ast/astcore/ident.go:37-42 *)
Definition new_ident (t : token) : ident := mkIdent (raw t) (Some (t_start t, t_end t)).

(** A non-nil [*Decl]: a built-in type (ast/type_embedded.go:108-142, by its index
    in the list) or an object of the heap. *)
Inductive dref := Emb (i : nat) | Ptr (a : nat).

(** ast/astcore/ident_ref.go:6-10; [Node] is never set *)
Record identref := mkIdentRef { ir_ident : ident; ir_ref : option dref }.
(** ast/unit.go:225-228 *)
Record qualid := mkQualId { q_ns : option identref; q_ident : identref }.
(** ast/type_id.go:12-17; [ti_ref] is the address of the field [Ref] *)
Record typeid := mkTypeId { ti_unit : option ident; ti_ident : ident; ti_ref : nat }.

(** ast/expression.go:12-15 *)
Inductive expr := Expr (s : sexpr) (rels : list (gostring * sexpr))
(** ast/expression.go:106-110 *)
with sexpr := SExpr (unary : option gostring) (t : term) (adds : list (gostring * term))
(** ast/expression.go:171-174 *)
with term := Term (f : factor) (muls : list (gostring * factor))
with factor :=
| FDesignator (d : desig) (args : option (list expr))   (* ast/expression.go:279-282 *)
| FAddress (d : desig)                                  (* ast/expression.go:306-308 *)
| FNumber (v : gostring)                                (* ast/expression.go:421-423 *)
| FString (v : gostring)                                (* ast/expression.go:434-436 *)
| FValue (v : gostring)                                 (* ast/expression.go:446-448 *)
| FNil                                                  (* ast/expression.go:458-459 *)
| FParen (e : expr)                                     (* ast/expression.go:468-470 *)
| FNot (f : factor)                                     (* ast/expression.go:481-483 *)
| FSet (es : list (expr * option expr))                 (* ast/expression.go:494-496, 513-516 *)
| FCast (t : typeid) (e : expr)                         (* ast/expression.go:535-538 *)
(** ast/expression.go:319-322 *)
with desig := Desig (q : qualid) (items : list ditem)
with ditem :=
| DIdent (i : ident)                                    (* ast/expression.go:374-376 *)
| DIndex (es : list expr)                               (* ast/expression.go:398 *)
| DDeref.                                               (* ast/expression.go:409-410 *)

(** ast/type_embedded.go:10-18 *)
Inductive ekind := EtkReal | EtkOrdIdent | EtkStringType | EtkPointerType | EtkVariantType.
Definition ekind_eqb (a b : ekind) : bool :=
  match a, b with
  | EtkReal, EtkReal | EtkOrdIdent, EtkOrdIdent | EtkStringType, EtkStringType
  | EtkPointerType, EtkPointerType | EtkVariantType, EtkVariantType => true
  | _, _ => false
  end.

(** ast/type_class.go:231-237 *)
Inductive visibility := CvDefault | CvPrivate | CvProtected | CvPublic | CvPublished.

(** Types.  An optional list is a Go slice that may be nil.  The nil [Type] is
    [TNil] (the parser really produces it). *)
Inductive typ :=
| TNil
| TId (t : typeid)                                              (* ast/type_id.go:12-17 *)
| TEmbedded (k : ekind) (i : ident)                             (* ast/type_embedded.go:28-31 *)
| TEnum (es : list (ident * option expr))                       (* ast/type_simple.go:119, 134-138 *)
| TSubrange (low high : expr)                                   (* ast/type_simple.go:157-161 *)
| TPointer (t : typeid)                                         (* ast/type_pointer.go:28-30 *)
| TFixedString (base : typeid) (len : expr)                     (* ast/type_string.go:29-32 *)
| TArray (packed : bool) (index : option (list typ)) (base : typ)  (* ast/type_struc.go:22-26 *)
| TSet (packed : bool) (t : typ)                                (* ast/type_struc.go:46-49 *)
| TRec (packed : bool) (fl : fieldlist)                         (* ast/type_struc.go:82-85 *)
| TFile (packed : bool) (t : typeid)                            (* ast/type_struc.go:64-67 *)
| TProc (function : bool) (params : option (list formalparm))
        (ret : option typeid) (ofobject : bool)                 (* ast/type_procedure.go:14-19 *)
| TFwdClass (actual : nat)                                      (* ast/type_class.go:25-28 *)
| TClassRef (t : typeid)                                        (* ast/type_class_ref.go:8-10 *)
| TClass (heritage : option (list typeid)) (members : option (list csection))
                                                                (* ast/type_class.go:53-56 *)
(** ast/type_struc.go:100-103 *)
with fieldlist := FieldList (ds : list fielddecl) (v : option variantsection)
(** ast/type_struc.go:131-135 *)
with fielddecl := FieldDecl (ids : list ident) (t : typ)
(** ast/type_struc.go:151-155 *)
with variantsection := VariantSection (id : option ident) (t : typ) (vs : list recvariant)
(** ast/type_struc.go:186-189 *)
with recvariant := RecVariant (es : list expr) (fl : fieldlist)
(** ast/function_heading.go:106-109, 168-171, 200-204.  The type is [Some (t, isarray)];
    [TNil] there is "array of const". *)
with formalparm :=
  FormalParm (opt : option gostring) (ids : list ident) (ty : option (typ * bool)) (e : option expr)
(** ast/function_heading.go:54-59 *)
with heading :=
  Heading (function : bool) (i : ident) (params : option (list formalparm)) (ret : option typeid)
(** ast/type_class.go:208-213 *)
with csection :=
  ClassSection (v : visibility) (fields : list (list ident * typ))
    (methods : list cmethod) (props : list cprop)
(** ast/type_class.go:303-307, 389-392, 410-412; the field [ClassMethod] is never set *)
with cmethod := ClassMethod (h : cheading) (directives : list gostring)
with cheading :=
| HFunc (h : heading)
| HCtor (i : ident) (params : option (list formalparm))
| HDtor (i : ident)
(** ast/type_class.go:450-462; [PortabilityDirective] is never set *)
with cprop := ClassProp (i : ident) (interface : option (option (list formalparm) * typeid))
    (index : option expr) (rd wr : option identref) (stored : option cstored)
    (dflt : option cdefault) (impl : option typeid) (parent : option cprop)
(** ast/type_class.go:559-562 *)
with cstored := StoredIdent (r : identref) | StoredConst (b : bool)
(** ast/type_class.go:574-577 *)
with cdefault := DefaultValue (e : expr) | NoDefault.

(** What a [Decl]'s [Node] is, as far as anybody looks at it through the
    declaration: its dynamic type, the type declared by a [TypeDecl], and the
    objects behind uses-clause items, units and programs. *)
Inductive dnode :=
| NType (t : typ)              (* *ast.TypeDecl *)
| NUses (a : nat)              (* *ast.UsesClauseItem *)
| NUnit (a : nat)              (* *ast.Unit *)
| NProgram (a : nat)           (* *ast.Program *)
| NLabel | NVar | NThreadVar | NConst | NFunc | NExported | NEnum | NParm
| NHandler | NField | NMethod | NProp.
(** ast/astcore/decl.go:5-8 *)
Record decl := mkDecl { d_ident : ident; d_node : dnode }.

(** ast/statement.go *)
Inductive stmt := Stmt (label : option ident) (b : sbody)       (* 41-44 *)
with sbody :=
| SAssign (d : desig) (e : expr)                                (* 147-150 *)
| SCall (d : desig) (args : option (list expr))                 (* 124-127 *)
| SInherited                                                    (* 166-168; [Ref] is never set *)
| SGoto (i : ident) (ref : option dref)                         (* 180-183 *)
| SCompound (l : list stmt)                                     (* 9-11 *)
| SIf (e : expr) (s1 : stmt) (s2 : option stmt)                 (* 208-212 *)
| SCase (e : expr) (sels : list (list (expr * option expr) * stmt)) (els : option (list stmt))
                                                                (* 233-237, 269-272, 297-300 *)
| SRepeat (l : list stmt) (e : expr)                            (* 342-345 *)
| SWhile (e : expr) (s : stmt)                                  (* 361-364 *)
| SFor (q : qualid) (e1 e2 : expr) (down : bool) (s : stmt)     (* 380-386 *)
| SWith (qs : list qualid) (s : stmt)                           (* 403-406 *)
| STryExcept (l : list stmt) (hs : list (option ident * typ * stmt)) (els : option (list stmt))
                                                                (* 429-432, 449-452, 472-486 *)
| STryFinally (l1 l2 : list stmt)                               (* 511-514 *)
| SRaise (obj addr : option expr)                               (* 530-533 *)
| SAsm.                                                         (* 556-557 *)

(** ast/block.go:84-88 *)
Record exportsitem := mkExports { ex_ident : ident; ex_name : option expr; ex_index : option expr }.
(** ast/directive.go:34-38 *)
Record extopts := mkExtOpts { xo_lib : gostring; xo_name : option gostring; xo_index : option gostring }.
(** ast/type.go:40-44 *)
Record typedecl := mkTypeDecl { td_ident : ident; td_type : typ; td_port : option gostring }.
(** ast/const.go:38-43; [PortabilityDirective] is never set *)
Record constdecl := mkConstDecl { cd_ident : ident; cd_type : typ; cd_expr : expr }.
(** ast/var.go:40-46; [PortabilityDirective] is never set *)
Record vardecl := mkVarDecl {
  vd_idents : list ident; vd_type : typ; vd_absolute : option ident; vd_expr : option expr }.
(** ast/var.go:128-131 *)
Record threadvardecl := mkThreadVarDecl { tv_idents : list ident; tv_type : typ }.

(** ast/block.go:19-24, 65-67, 124; ast/function.go:27-33.  [ExportsStmts2] is never
    set. *)
Inductive declsection :=
| DSLabel (i : ident)
| DSConst (l : list constdecl)
| DSType (l : list typedecl)
| DSVar (l : list vardecl)
| DSThreadVar (l : list threadvardecl)
| DSFunc (h : heading) (dirs : option (list gostring)) (opts : option extopts) (b : block)
with block :=
  Block (ds : option (list declsection)) (exports1 : option (list (list exportsitem)))
        (body : option sbody).

(** ast/unit.go:118-129; ast/function_heading.go:17-22 *)
Inductive intfdecl :=
| IType (l : list typedecl)
| IVar (l : list vardecl)
| IThreadVar (l : list threadvardecl)
| IConst (l : list constdecl)
| IHeading (h : heading) (dirs : option (list gostring)) (opts : option extopts).

(** ast/uses_clause.go:58-63; [u_unit] is the address of a unit *)
Record usesitem := mkUses { u_ident : ident; u_path : option gostring; u_unit : option nat }.
(** ast/unit.go:96-99; uses clauses are lists of addresses of items *)
Record intfsection := mkIntf { is_uses : option (list nat); is_decls : option (list intfdecl) }.
(** ast/unit.go:150-155 *)
Record implsection := mkImpl {
  im_uses : option (list nat); im_decls : option (list declsection);
  im_exports : option (list (list exportsitem)) }.
(** ast/unit.go:183-186 *)
Record initsection := mkInit { in_init : option (list stmt); in_final : option (list stmt) }.
(** ast/program.go:54-57 *)
Record programblock := mkProgramBlock { pb_uses : option (list nat); pb_block : block }.
