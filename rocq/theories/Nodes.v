(** The syntax trees as WalkDown sees them: the [Children] methods of /repo/ast/*.go.

    The label of a node is its dynamic type, with the texts that it holds itself.  A slice is
    a node too; its children are its elements.  Where a method appends a field only if it is
    not nil, the field is an option or a list here; slices that the parser builds by
    appending to nil are nil if and only if they are empty.  No method follows [Ref],
    [Actual] or [Parent]. *)
From Coq Require Import String List NArith Bool Arith.
From Verif Require Import Runes Token Ast Heap Walk.
Import ListNotations.
Local Open Scope list_scope.

Inductive gnode :=
| GIdent (i : ident)                     (* *astcore.Ident *)
| GNumber (v : gostring)                 (* *NumberFactor *)
| GString (v : gostring)                 (* *StringFactor *)
| GValue (v : gostring)                  (* *ValueFactor *)
| GSimple (unary : option gostring)      (* *SimpleExpression *)
| GOp (kind : string) (op : gostring)    (* *RelOpSimpleExpression, *AddOpTerm, *MulOpFactor *)
| GAbsolute (i : ident)                  (* *VarDeclAbsoluteIdent *)
| GOther (kind : string).                (* any other type *)

Notation tree := (tree gnode).
Definition node (kind : string) (cs : list tree) : tree := Node (GOther kind) (map Some cs).
(** A field that is appended if it is not nil *)
Definition opt {A} (f : A -> tree) (o : option A) : list tree :=
  match o with None => [] | Some a => [f a] end.
(** A slice that is appended if it is not nil, and is nil if and only if it is empty *)
Definition some_list (kind : string) (l : list tree) : list tree :=
  match l with [] => [] | _ => [node kind l] end.

(** ast/astcore/ident.go:59-61 *)
Definition ident_tree (i : ident) : tree := Node (GIdent i) [].
(** ast/astcore/ident.go:124-130 *)
Definition ident_list_tree (l : list ident) : tree := node "IdentList" (map ident_tree l).
(** ast/astcore/ident_ref.go:16-21 *)
Definition ident_ref_tree (r : identref) : tree := node "IdentRef" [ident_tree (ir_ident r)].
(** ast/unit.go:236-243 *)
Definition qual_id_tree (q : qualid) : tree :=
  node "QualId" (opt ident_ref_tree (q_ns q) ++ [ident_ref_tree (q_ident q)]).
(** ast/unit.go:250-256 *)
Definition qual_ids_tree (l : list qualid) : tree := node "QualIds" (map qual_id_tree l).
(** ast/type_id.go:49-56 *)
Definition type_id_tree (t : typeid) : tree :=
  node "TypeId" (opt ident_tree (ti_unit t) ++ [ident_tree (ti_ident t)]).

(** ast/expression.go:30-36, 86-100 *)
Fixpoint expr_tree (e : expr) : tree :=
  match e with
  | Expr s rels =>
      node "Expression" (sexpr_tree s :: some_list "RelOpSimpleExpressions"
        (map (fun r => Node (GOp "RelOpSimpleExpression" (fst r)) [Some (sexpr_tree (snd r))]) rels))
  end
(** ast/expression.go:125-131, 153-165 *)
with sexpr_tree (s : sexpr) : tree :=
  match s with
  | SExpr u t adds =>
      Node (GSimple u) (map Some (term_tree t :: some_list "AddOpTerms"
        (map (fun r => Node (GOp "AddOpTerm" (fst r)) [Some (term_tree (snd r))]) adds)))
  end
(** ast/expression.go:189-195, 230-242 *)
with term_tree (t : term) : tree :=
  match t with
  | Term f muls =>
      node "Term" (factor_tree f :: some_list "MulOpFactors"
        (map (fun r => Node (GOp "MulOpFactor" (fst r)) [Some (factor_tree (snd r))]) muls))
  end
with factor_tree (f : factor) : tree :=
  match f with
  | FDesignator d args =>                                                  (* 296-302, 46-52 *)
      node "DesignatorFactor" (desig_tree d ::
        match args with None => [] | Some es => [node "ExprList" (map expr_tree es)] end)
  | FAddress d => node "Address" [desig_tree d]                            (* 312 *)
  | FNumber v => Node (GNumber v) []                                       (* 428 *)
  | FString v => Node (GString v) []                                       (* 441 *)
  | FValue v => Node (GValue v) []                                         (* 453 *)
  | FNil => node "Nil" []                                                  (* 464 *)
  | FParen e => node "Parentheses" [expr_tree e]                           (* 474 *)
  | FNot f => node "Not" [factor_tree f]                                   (* 487 *)
  | FSet es =>                                                             (* 501-507, 524-530 *)
      node "SetConstructor" (map (fun r =>
        node "SetElement" (expr_tree (fst r) :: match snd r with None => [] | Some e => [expr_tree e] end)) es)
  | FCast t e => node "TypeCast" [type_id_tree t; expr_tree e]             (* 543 *)
  end
(** ast/expression.go:349-355, 361-367 *)
with desig_tree (d : desig) : tree :=
  match d with
  | Desig q items => node "Designator" (qual_id_tree q :: some_list "DesignatorItems" (map item_tree items))
  end
(** ast/expression.go:394-396, 401-407, 414 *)
with item_tree (i : ditem) : tree :=
  match i with
  | DIdent n => node "DesignatorItemIdent" [ident_tree n]
  | DIndex es => node "DesignatorItemExprList" (map expr_tree es)
  | DDeref => node "DesignatorItemDereference" []
  end.

(** ast/expression.go:46-52 *)
Definition expr_list_tree (l : list expr) : tree := node "ExprList" (map expr_tree l).

(** Types.  The nil type is [None]. *)
Fixpoint type_tree (t : typ) : option tree :=
  match t with
  | TNil => None
  | TId t => Some (type_id_tree t)
  | TEmbedded _ i => Some (node "TypeEmbedded" [ident_tree i])              (* ast/type_embedded.go:52-54 *)
  | TEnum es =>                                                             (* ast/type_simple.go:126-132, 142-148 *)
      Some (node "EnumeratedType" (map (fun e =>
        node "EnumeratedTypeElement" (ident_tree (fst e) :: opt expr_tree (snd e))) es))
  | TSubrange low high => Some (node "SubrangeType" [expr_tree low; expr_tree high])  (* 168 *)
  | TPointer t => Some (node "CustomPointerType" [type_id_tree t])          (* ast/type_pointer.go:40-42 *)
  | TFixedString base len =>                                                (* ast/type_string.go:42-44 *)
      Some (node "FixedStringType" [type_id_tree base; expr_tree len])
  | TArray _ index base =>                                                  (* ast/type_struc.go:33-40 *)
      Some (Node (GOther "ArrayType")
        (match index with None => [] | Some l => map type_tree l end ++ [type_tree base]))
  | TSet _ t => Some (Node (GOther "SetType") [type_tree t])                (* ast/type_struc.go:56-58 *)
  | TRec _ fl => Some (node "RecType" [field_list_tree fl])                 (* ast/type_struc.go:92-94 *)
  | TFile _ t => Some (node "FileType" [type_id_tree t])                    (* ast/type_struc.go:74-76 *)
  | TProc _ params ret _ =>                                                 (* ast/type_procedure.go:24-33 *)
      Some (node "ProcedureType"
        (match params with None => [] | Some l => [node "FormalParameters" (map formal_parm_tree l)] end ++
         opt type_id_tree ret))
  | TFwdClass _ => Some (node "ForwardDeclaredClassType" [])                (* ast/type_class.go:43-45 *)
  | TClassRef t => Some (node "CustomClassRefType" [type_id_tree t])        (* ast/type_class_ref.go:20-22 *)
  | TClass her mem =>                                                       (* ast/type_class.go:62-71, 177-199 *)
      Some (node "CustomClassType"
        (match her with None => [] | Some l => [node "ClassHeritage" (map type_id_tree l)] end ++
         match mem with None => [] | Some l => [node "ClassMemberSections" (map section_tree l)] end))
  end
(** ast/type_struc.go:107-125 *)
with field_list_tree (fl : fieldlist) : tree :=
  match fl with
  | FieldList ds v =>
      node "FieldList" (node "FieldDecls" (map field_decl_tree ds) ::
                        match v with None => [] | Some v => [variant_section_tree v] end)
  end
(** ast/type_struc.go:139-141 *)
with field_decl_tree (d : fielddecl) : tree :=
  match d with FieldDecl ids t => Node (GOther "FieldDecl") [Some (ident_list_tree ids); type_tree t] end
(** ast/type_struc.go:159-180: the type before the identifier *)
with variant_section_tree (v : variantsection) : tree :=
  match v with
  | VariantSection id t vs =>
      Node (GOther "VariantSection")
        (type_tree t :: map Some (opt ident_tree id ++ [node "RecVariants" (map rec_variant_tree vs)]))
  end
(** ast/type_struc.go:193-195 *)
with rec_variant_tree (r : recvariant) : tree :=
  match r with RecVariant es fl => node "RecVariant" [expr_list_tree es; field_list_tree fl] end
(** ast/function_heading.go:113-115, 175-177, 208-217 *)
with formal_parm_tree (p : formalparm) : tree :=
  match p with
  | FormalParm _ ids ty e =>
      node "FormalParm" [node "Parameter"
        (ident_list_tree ids ::
         match ty with None => [] | Some (t, _) => [Node (GOther "ParameterType") [type_tree t]] end ++
         opt expr_tree e)]
  end
(** ast/function_heading.go:69-92 *)
with heading_tree (h : heading) : tree :=
  match h with
  | Heading _ i params ret =>
      node "FunctionHeading"
        (ident_tree i ::
         match params with None => [] | Some l => [node "FormalParameters" (map formal_parm_tree l)] end ++
         opt type_id_tree ret)
  end
(** ast/type_class.go:217-229, 253-259, 272-274, 291-297, 430-436.  Simplified: the three lists
    are nil or empty in Go when they are empty here; an empty one may be a node there. *)
with section_tree (s : csection) : tree :=
  match s with
  | ClassSection _ fields methods props =>
      node "ClassMemberSection"
        (some_list "ClassFieldList"
           (map (fun f => Node (GOther "ClassField") [Some (ident_list_tree (fst f)); type_tree (snd f)]) fields) ++
         some_list "ClassMethodList" (map method_tree methods) ++
         some_list "ClassPropertyList" (map prop_tree props))
  end
(** ast/type_class.go:315-317 *)
with method_tree (m : cmethod) : tree :=
  match m with ClassMethod h _ => node "ClassMethod" [cheading_tree h] end
(** ast/type_class.go:398-404, 418-420 *)
with cheading_tree (h : cheading) : tree :=
  match h with
  | HFunc h => heading_tree h
  | HCtor i params =>
      node "ConstructorHeading"
        (ident_tree i ::
         match params with None => [] | Some l => [node "FormalParameters" (map formal_parm_tree l)] end)
  | HDtor i => node "DestructorHeading" [ident_tree i]
  end
(** ast/type_class.go:469-493, 548-557, 566-572, 581-587 *)
with prop_tree (p : cprop) : tree :=
  match p with
  | ClassProp i intf index rd wr stored dflt impl _ =>
      node "ClassProperty"
        (ident_tree i ::
         match intf with
         | None => []
         | Some (params, t) =>
             [node "PropertyInterface"
                (match params with None => [] | Some l => [node "FormalParameters" (map formal_parm_tree l)] end ++
                 [type_id_tree t])]
         end ++
         opt expr_tree index ++ opt ident_ref_tree rd ++ opt ident_ref_tree wr ++
         match stored with
         | None => []
         | Some (StoredIdent r) => [node "PropertyStoredSpecifier" [ident_ref_tree r]]
         | Some (StoredConst _) => [node "PropertyStoredSpecifier" []]
         end ++
         match dflt with
         | None => []
         | Some (DefaultValue e) => [node "PropertyDefaultSpecifier" [expr_tree e]]
         | Some NoDefault => [node "PropertyDefaultSpecifier" []]
         end ++
         opt type_id_tree impl)
  end.

(** ast/statement.go:315-321 *)
Definition case_label_tree (r : expr * option expr) : tree :=
  node "CaseLabel" (expr_tree (fst r) :: opt expr_tree (snd r)).
(** ast/statement.go:490-497 *)
Definition handler_decl_tree (i : option ident) (t : typ) : tree :=
  Node (GOther "ExceptionBlockHandlerDecl") (map Some (opt ident_tree i) ++ [type_tree t]).
(** ast/statement.go:48-55 *)
Fixpoint stmt_tree (s : stmt) : tree :=
  match s with Stmt label b => node "Statement" (opt ident_tree label ++ [body_tree b]) end
with body_tree (b : sbody) : tree :=
  match b with
  | SAssign d e => node "AssignStatement" [desig_tree d; expr_tree e]       (* 158-160 *)
  | SCall d args => node "CallStatement" (desig_tree d :: opt expr_list_tree args)  (* 135-141 *)
  | SInherited => node "InheritedStatement" []                              (* 174 *)
  | SGoto i _ => node "GotoStatement" [ident_tree i]                        (* 189 *)
  | SCompound l => node "CompoundStmt" [node "StmtList" (map stmt_tree l)]  (* 19, 29-35 *)
  | SIf e s1 s2 =>                                                          (* 220-226 *)
      node "IfStmt" ([expr_tree e; stmt_tree s1] ++ match s2 with None => [] | Some s => [stmt_tree s] end)
  | SCase e sels els =>                                                     (* 245-251, 257-263, 276-278, 284-290 *)
      node "CaseStmt"
        ([expr_tree e;
          node "CaseSelectors" (map (fun r =>
            node "CaseSelector" [node "CaseLabels" (map case_label_tree (fst r)); stmt_tree (snd r)]) sels)] ++
         match els with None => [] | Some l => [node "StmtList" (map stmt_tree l)] end)
  | SRepeat l e => node "RepeatStmt" [node "StmtList" (map stmt_tree l); expr_tree e]  (* 353-355 *)
  | SWhile e s => node "WhileStmt" [expr_tree e; stmt_tree s]               (* 372-374 *)
  | SFor q e1 e2 _ s =>                                                     (* 394-396 *)
      node "ForStmt" [qual_id_tree q; expr_tree e1; expr_tree e2; stmt_tree s]
  | SWith qs s => node "WithStmt" [qual_ids_tree qs; stmt_tree s]           (* 412-414 *)
  | STryExcept l hs els =>                                                  (* 440-442, 456-458, 464-470, 479-481 *)
      node "TryExceptStmt"
        [node "StmtList" (map stmt_tree l);
         node "ExceptionBlock"
           [node "ExceptionBlockHandlers" (map (fun h =>
              node "ExceptionBlockHandler" [handler_decl_tree (fst (fst h)) (snd (fst h)); stmt_tree (snd h)]) hs);
            node "StmtList" match els with None => [] | Some l => map stmt_tree l end]]
  | STryFinally l1 l2 =>                                                    (* 522-524 *)
      node "TryFinallyStmt" [node "StmtList" (map stmt_tree l1); node "StmtList" (map stmt_tree l2)]
  | SRaise obj addr => node "RaiseStmt" (opt expr_tree obj ++ opt expr_tree addr)  (* 539-548 *)
  | SAsm => node "AssemblerStatement" []                                    (* 565 *)
  end.

(** ast/type.go:18-24, 48-50 *)
Definition type_section_tree (l : list typedecl) : tree :=
  node "TypeSection" (map (fun d =>
    Node (GOther "TypeDecl") [Some (ident_tree (td_ident d)); type_tree (td_type d)]) l).
(** ast/const.go:16-22, 47-54 *)
Definition const_section_tree (l : list constdecl) : tree :=
  node "ConstSection" (map (fun d =>
    Node (GOther "ConstantDecl")
      [Some (ident_tree (cd_ident d)); type_tree (cd_type d); Some (expr_tree (cd_expr d))]) l).
(** ast/var.go:16-22, 50-62, 91-93 *)
Definition var_section_tree (l : list vardecl) : tree :=
  node "VarSection" (map (fun d =>
    Node (GOther "VarDecl")
      ([Some (ident_list_tree (vd_idents d)); type_tree (vd_type d)] ++
       map Some (opt (fun i => Node (GAbsolute i) []) (vd_absolute d) ++ opt expr_tree (vd_expr d)))) l).
(** ast/var.go:113-119, 135-141 *)
Definition threadvar_section_tree (l : list threadvardecl) : tree :=
  node "ThreadVarSection" (map (fun d =>
    Node (GOther "ThreadVarDecl") [Some (ident_list_tree (tv_idents d)); type_tree (tv_type d)]) l).
(** ast/block.go:47-53, 71-77, 92-101 *)
Definition exports_tree (l : list (list exportsitem)) : tree :=
  node "ExportsStmts" (map (fun s => node "ExportsStmt" (map (fun i =>
    node "ExportsItem" (ident_tree (ex_ident i) :: opt expr_tree (ex_name i) ++ opt expr_tree (ex_index i))) s)) l).
(** ast/block.go:148; ast/function.go:41-43 *)
Fixpoint decl_section_tree (d : declsection) : tree :=
  match d with
  | DSLabel i => node "LabelDeclSection" [ident_tree i]
  | DSConst l => const_section_tree l
  | DSType l => type_section_tree l
  | DSVar l => var_section_tree l
  | DSThreadVar l => threadvar_section_tree l
  | DSFunc h _ _ b => node "FunctionDecl" [heading_tree h; block_tree b]
  end
(** ast/block.go:28-41, 128-134 *)
with block_tree (b : block) : tree :=
  match b with
  | Block ds exports body =>
      node "Block"
        (match ds with None => [] | Some l => [node "DeclSections" (map decl_section_tree l)] end ++
         opt exports_tree exports ++ opt body_tree body)
  end.

(** ast/function_heading.go:27 and the sections *)
Definition intf_decl_tree (d : intfdecl) : tree :=
  match d with
  | IType l => type_section_tree l
  | IVar l => var_section_tree l
  | IThreadVar l => threadvar_section_tree l
  | IConst l => const_section_tree l
  | IHeading h _ _ => node "ExportedHeading" [heading_tree h]
  end.

Section Objects.
Context (h : heap).
(** ast/uses_clause.go:32-38, 90-92; the items are objects of the heap *)
Definition uses_tree (l : list nat) : tree :=
  Node (GOther "UsesClause") (map (fun a =>
    option_map (fun i => node "UsesClauseItem" [ident_tree (u_ident i)]) (nth_error (h_uses h) a)) l).
(** ast/unit.go:101-110, 135-141 *)
Definition intf_tree (s : intfsection) : tree :=
  node "InterfaceSection"
    (opt uses_tree (is_uses s) ++ opt (fun l => node "InterfaceDecls" (map intf_decl_tree l)) (is_decls s)).
(** ast/unit.go:159-171 *)
Definition impl_tree (s : implsection) : tree :=
  node "ImplementationSection"
    (opt uses_tree (im_uses s) ++ opt (fun l => node "DeclSections" (map decl_section_tree l)) (im_decls s) ++
     opt exports_tree (im_exports s)).
(** ast/unit.go:190-196; a nil list of statements is an empty node *)
Definition init_tree (s : initsection) : tree :=
  node "InitSection"
    (node "StmtList" (match in_init s with None => [] | Some l => map stmt_tree l end) ::
     opt (fun l => node "StmtList" (map stmt_tree l)) (in_final s)).
(** ast/unit.go:34-46 *)
Definition unit_tree (u : unitobj) : tree :=
  node "Unit"
    (ident_tree (un_ident u) :: opt intf_tree (un_intf u) ++ opt impl_tree (un_impl u) ++ opt init_tree (un_init u)).
(** ast/program.go:61-68 *)
Definition program_block_tree (b : programblock) : tree :=
  node "ProgramBlock" (opt uses_tree (pb_uses b) ++ [block_tree (pb_block b)]).
(** ast/program.go:29-36; of a program that has been parsed *)
Definition program_tree (p : progobj) : tree :=
  node "Program" (ident_tree (pr_ident p) :: opt program_block_tree (pr_block p)).
End Objects.
