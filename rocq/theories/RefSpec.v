(** What it means that the references in a syntax tree are right: a reference that is set
    leads to a declaration of the name that is written there, up to the case of letters.
    The names that are written in a tree, with the references they carry, are listed here
    for every kind of node of Ast.v. *)
From Coq Require Import List NArith Bool Arith Relations.
From Verif Require Import Runes Token Ast Heap.
Import ListNotations.

Section WithUnicode.
Context {U : Unicode}.

(** Two names that differ only in the case of letters: one gets from one to the other by
    changes to lower or upper case. *)
Definition recased (a b : gostring) : Prop := b = to_lower a \/ b = to_upper a.
Definition alike : gostring -> gostring -> Prop := clos_refl_sym_trans gostring recased.

(** A name that a tree mentions: a type name, whose reference is a cell of the heap; another
    name with its reference; a property that stands for the inherited one of a parent class. *)
Inductive mention :=
| MType (t : typeid)
| MName (i : ident) (d : option dref)
| MParent (i parent : ident).

Definition opt {A B} (f : A -> list B) (o : option A) : list B :=
  match o with Some a => f a | None => [] end.

Definition identref_m (r : identref) : list mention := [MName (ir_ident r) (ir_ref r)].
Definition qualid_m (q : qualid) : list mention := opt identref_m (q_ns q) ++ identref_m (q_ident q).

Fixpoint expr_m (e : expr) : list mention :=
  match e with
  | Expr s rels => sexpr_m s ++ flat_map (fun x => match x with (_, s) => sexpr_m s end) rels
  end
with sexpr_m (s : sexpr) : list mention :=
  match s with
  | SExpr _ t adds => term_m t ++ flat_map (fun x => match x with (_, t) => term_m t end) adds
  end
with term_m (t : term) : list mention :=
  match t with
  | Term f muls => factor_m f ++ flat_map (fun x => match x with (_, f) => factor_m f end) muls
  end
with factor_m (f : factor) : list mention :=
  match f with
  | FDesignator d args => desig_m d ++ opt (flat_map expr_m) args
  | FAddress d => desig_m d
  | FParen e => expr_m e
  | FNot f => factor_m f
  | FSet es => flat_map (fun x => match x with (e, o) => expr_m e ++ opt expr_m o end) es
  | FCast t e => MType t :: expr_m e
  | FNumber _ | FString _ | FValue _ | FNil => []
  end
with desig_m (d : desig) : list mention :=
  match d with Desig q items => qualid_m q ++ flat_map ditem_m items end
with ditem_m (d : ditem) : list mention :=
  match d with
  | DIndex es => flat_map expr_m es
  | DIdent _ | DDeref => []
  end.

Definition cstored_m (s : cstored) : list mention :=
  match s with StoredIdent r => identref_m r | StoredConst _ => [] end.
Definition cdefault_m (d : cdefault) : list mention :=
  match d with DefaultValue e => expr_m e | NoDefault => [] end.
Definition name_of_prop (p : cprop) : ident := match p with ClassProp i _ _ _ _ _ _ _ _ => i end.

Fixpoint typ_m (t : typ) : list mention :=
  match t with
  | TNil | TEmbedded _ _ | TFwdClass _ => []
  | TId t | TPointer t | TFile _ t | TClassRef t => [MType t]
  | TEnum es => flat_map (fun x => match x with (_, o) => opt expr_m o end) es
  | TSubrange low high => expr_m low ++ expr_m high
  | TFixedString t e => MType t :: expr_m e
  | TArray _ index base => opt (flat_map typ_m) index ++ typ_m base
  | TSet _ t => typ_m t
  | TRec _ fl => fieldlist_m fl
  | TProc _ params ret _ => opt (flat_map formalparm_m) params ++ opt (fun t => [MType t]) ret
  | TClass her mem => opt (flat_map (fun t => [MType t])) her ++ opt (flat_map csection_m) mem
  end
with fieldlist_m (fl : fieldlist) : list mention :=
  match fl with FieldList ds v => flat_map fielddecl_m ds ++ opt variantsection_m v end
with fielddecl_m (d : fielddecl) : list mention :=
  match d with FieldDecl _ t => typ_m t end
with variantsection_m (v : variantsection) : list mention :=
  match v with VariantSection _ t vs => typ_m t ++ flat_map recvariant_m vs end
with recvariant_m (v : recvariant) : list mention :=
  match v with RecVariant es fl => flat_map expr_m es ++ fieldlist_m fl end
with formalparm_m (p : formalparm) : list mention :=
  match p with
  | FormalParm _ _ ty e => opt (fun x => match x with (t, _) => typ_m t end) ty ++ opt expr_m e
  end
with heading_m (h : heading) : list mention :=
  match h with
  | Heading _ _ params ret => opt (flat_map formalparm_m) params ++ opt (fun t => [MType t]) ret
  end
with csection_m (s : csection) : list mention :=
  match s with
  | ClassSection _ fs ms ps =>
      flat_map (fun x => match x with (_, t) => typ_m t end) fs ++ flat_map cmethod_m ms ++ flat_map cprop_m ps
  end
with cmethod_m (m : cmethod) : list mention :=
  match m with ClassMethod h _ => cheading_m h end
with cheading_m (h : cheading) : list mention :=
  match h with
  | HFunc h => heading_m h
  | HCtor _ params => opt (flat_map formalparm_m) params
  | HDtor _ => []
  end
with cprop_m (p : cprop) : list mention :=
  match p with
  | ClassProp i itf idx rd wr st df im par =>
      opt (fun x => match x with (ps, t) => opt (flat_map formalparm_m) ps ++ [MType t] end) itf
      ++ opt expr_m idx ++ opt identref_m rd ++ opt identref_m wr ++ opt cstored_m st
      ++ opt cdefault_m df ++ opt (fun t => [MType t]) im
      ++ opt (fun q => [MParent i (name_of_prop q)]) par
  end.

Fixpoint stmt_m (s : stmt) : list mention :=
  match s with Stmt _ b => sbody_m b end
with sbody_m (b : sbody) : list mention :=
  match b with
  | SAssign d e => desig_m d ++ expr_m e
  | SCall d args => desig_m d ++ opt (flat_map expr_m) args
  | SInherited | SAsm => []
  | SGoto i d => [MName i d]
  | SCompound l => flat_map stmt_m l
  | SIf e s1 s2 => expr_m e ++ stmt_m s1 ++ opt stmt_m s2
  | SCase e sels els =>
      expr_m e ++
      flat_map (fun x => match x with
                         | (ls, s) => flat_map (fun y => match y with (a, b) => expr_m a ++ opt expr_m b end) ls
                                      ++ stmt_m s
                         end) sels ++
      opt (flat_map stmt_m) els
  | SRepeat l e => flat_map stmt_m l ++ expr_m e
  | SWhile e s => expr_m e ++ stmt_m s
  | SFor q e1 e2 _ s => qualid_m q ++ expr_m e1 ++ expr_m e2 ++ stmt_m s
  | SWith qs s => flat_map qualid_m qs ++ stmt_m s
  | STryExcept l hs els =>
      flat_map stmt_m l ++
      flat_map (fun x => match x with (_, t, s) => typ_m t ++ stmt_m s end) hs ++
      opt (flat_map stmt_m) els
  | STryFinally l1 l2 => flat_map stmt_m l1 ++ flat_map stmt_m l2
  | SRaise e1 e2 => opt expr_m e1 ++ opt expr_m e2
  end.

Definition exports_m (x : exportsitem) : list mention := opt expr_m (ex_name x) ++ opt expr_m (ex_index x).
Definition typedecl_m (d : typedecl) : list mention := typ_m (td_type d).
Definition constdecl_m (d : constdecl) : list mention := typ_m (cd_type d) ++ expr_m (cd_expr d).
Definition vardecl_m (d : vardecl) : list mention := typ_m (vd_type d) ++ opt expr_m (vd_expr d).
Definition threadvardecl_m (d : threadvardecl) : list mention := typ_m (tv_type d).

Fixpoint declsection_m (d : declsection) : list mention :=
  match d with
  | DSLabel _ => []
  | DSConst l => flat_map constdecl_m l
  | DSType l => flat_map typedecl_m l
  | DSVar l => flat_map vardecl_m l
  | DSThreadVar l => flat_map threadvardecl_m l
  | DSFunc h _ _ b => heading_m h ++ block_m b
  end
with block_m (b : block) : list mention :=
  match b with
  | Block ds ex body =>
      opt (flat_map declsection_m) ds ++ opt (flat_map (flat_map exports_m)) ex ++ opt sbody_m body
  end.

Definition intfdecl_m (d : intfdecl) : list mention :=
  match d with
  | IType l => flat_map typedecl_m l
  | IVar l => flat_map vardecl_m l
  | IThreadVar l => flat_map threadvardecl_m l
  | IConst l => flat_map constdecl_m l
  | IHeading h _ _ => heading_m h
  end.
Definition intf_m (s : intfsection) : list mention := opt (flat_map intfdecl_m) (is_decls s).
Definition impl_m (s : implsection) : list mention :=
  opt (flat_map declsection_m) (im_decls s) ++ opt (flat_map (flat_map exports_m)) (im_exports s).
Definition init_m (s : initsection) : list mention :=
  opt (flat_map stmt_m) (in_init s) ++ opt (flat_map stmt_m) (in_final s).
Definition unit_m (o : unitobj) : list mention :=
  opt intf_m (un_intf o) ++ opt impl_m (un_impl o) ++ opt init_m (un_init o).
Definition program_m (o : progobj) : list mention :=
  opt (fun b => block_m (pb_block b)) (pr_block o).

(** [d] is a declaration of the name [n]. *)
Definition declares (h : heap) (d : dref) (n : gostring) : Prop :=
  exists o, deref h d = Some o /\ alike (i_name (d_ident o)) n.
(** The reference of a mention is not set or leads to a declaration of the name. *)
Definition refers_well (h : heap) (m : mention) : Prop :=
  match m with
  | MType t => forall d, nth_error (h_refs h) (ti_ref t) = Some (Some d) -> declares h d (i_name (ti_ident t))
  | MName i od => forall d, od = Some d -> declares h d (i_name i)
  | MParent i j => alike (i_name j) (i_name i)
  end.
(** The item of a uses clause has no unit or one of its name. *)
Definition uses_well (h : heap) (o : usesitem) : Prop :=
  forall u, u_unit o = Some u ->
  exists uo, nth_error (h_units h) u = Some uo /\ alike (i_name (un_ident uo)) (i_name (u_ident o)).
(** All programs, units and uses clauses of the heap. *)
Record well_tied (h : heap) : Prop := {
  wt_units : forall o m, In o (h_units h) -> In m (unit_m o) -> refers_well h m;
  wt_programs : forall o m, In o (h_progs h) -> In m (program_m o) -> refers_well h m;
  wt_uses : forall o, In o (h_uses h) -> uses_well h o }.

End WithUnicode.
