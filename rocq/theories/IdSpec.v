(** What it means that the identifiers of a syntax tree are pieces of the text: the places
    they carry bound exactly their names in the text, and in the order of the tree they stand
    one behind the other, none inside or before another.  The identifiers of every kind of
    node of Ast.v are listed here in the order of the source. *)
From Coq Require Import List NArith Bool Arith.
From Verif Require Import Runes Token Ast Heap.
Import ListNotations.

(** An element of a tree, as far as its place in the text goes.
    - [Fresh i]: an identifier, which stands behind all that comes before it.
    - [Again i]: the first identifier behind [implements] in a property.  It may be the
      identifier before it, because a type name with a unit is not consumed: in
      [property P: U.Implements] the parser reads [Implements] twice.
    - [Either l1 l2]: two pieces in one order or the other.  The exports of a block stand in
      front of its body or behind it, and the tree does not say where. *)
Inductive mark := Fresh (i : ident) | Again (i : ident) | Either (l1 l2 : list mark).

(** [i] carries the place from [a] to [b], and there the text has its name. *)
Definition stands_at (text : list rune) (i : ident) (a b : nat) : Prop :=
  exists p q, i_loc i = Some (p, q) /\ p_index p = a /\ p_index q = b /\
    a <= b <= length text /\ i_name i = firstn (b - a) (skipn a text).

(** [in_order text lo l hi]: the elements [l] stand in [text] one behind the other, in the
    piece from [lo] to [hi]. *)
Fixpoint mark_order (text : list rune) (m : mark) (lo hi : nat) {struct m} : Prop :=
  let fix chain (l : list mark) (lo hi : nat) {struct l} : Prop :=
    match l with
    | [] => lo <= hi
    | m :: l' => exists mid, mark_order text m lo mid /\ chain l' mid hi
    end in
  match m with
  | Fresh i => exists a, lo <= a /\ stands_at text i a hi
  | Again i => exists a, lo <= hi /\ stands_at text i a hi
  | Either l1 l2 =>
      exists mid, chain l1 lo mid /\ chain l2 mid hi \/ chain l2 lo mid /\ chain l1 mid hi
  end.
Fixpoint in_order (text : list rune) (lo : nat) (l : list mark) (hi : nat) {struct l} : Prop :=
  match l with
  | [] => lo <= hi
  | m :: l' => exists mid, mark_order text m lo mid /\ in_order text mid l' hi
  end.

(** The identifiers among the elements *)
Fixpoint idents_in (m : mark) : list ident :=
  match m with
  | Fresh i | Again i => [i]
  | Either l1 l2 => flat_map idents_in l1 ++ flat_map idents_in l2
  end.
Definition idents_of (l : list mark) : list ident := flat_map idents_in l.

(** What is asked of the topological sort: it lists no name twice. *)
Definition lists_once (topo : list gostring -> list (gostring * gostring) -> option (list gostring)) : Prop :=
  forall nodes edges l, topo nodes edges = Some l -> NoDup nodes -> NoDup l.

Definition opt {A B} (f : A -> list B) (o : option A) : list B :=
  match o with Some a => f a | None => [] end.
Definition one (i : ident) : list mark := [Fresh i].

Definition typeid_i (t : typeid) : list mark := opt one (ti_unit t) ++ [Fresh (ti_ident t)].
(** Behind [implements] *)
Definition again_i (t : typeid) : list mark :=
  match ti_unit t with
  | Some u => [Again u; Fresh (ti_ident t)]
  | None => [Again (ti_ident t)]
  end.
Definition identref_i (r : identref) : list mark := one (ir_ident r).
Definition qualid_i (q : qualid) : list mark := opt identref_i (q_ns q) ++ identref_i (q_ident q).

Fixpoint expr_i (e : expr) : list mark :=
  match e with
  | Expr s rels => sexpr_i s ++ flat_map (fun x => match x with (_, s) => sexpr_i s end) rels
  end
with sexpr_i (s : sexpr) : list mark :=
  match s with
  | SExpr _ t adds => term_i t ++ flat_map (fun x => match x with (_, t) => term_i t end) adds
  end
with term_i (t : term) : list mark :=
  match t with
  | Term f muls => factor_i f ++ flat_map (fun x => match x with (_, f) => factor_i f end) muls
  end
with factor_i (f : factor) : list mark :=
  match f with
  | FDesignator d args => desig_i d ++ opt (flat_map expr_i) args
  | FAddress d => desig_i d
  | FParen e => expr_i e
  | FNot f => factor_i f
  | FSet es => flat_map (fun x => match x with (e, o) => expr_i e ++ opt expr_i o end) es
  | FCast t e => typeid_i t ++ expr_i e
  | FNumber _ | FString _ | FValue _ | FNil => []
  end
with desig_i (d : desig) : list mark :=
  match d with Desig q items => qualid_i q ++ flat_map ditem_i items end
with ditem_i (d : ditem) : list mark :=
  match d with
  | DIndex es => flat_map expr_i es
  | DIdent i => [Fresh i]
  | DDeref => []
  end.

Definition cstored_i (s : cstored) : list mark :=
  match s with StoredIdent r => identref_i r | StoredConst _ => [] end.
Definition cdefault_i (d : cdefault) : list mark :=
  match d with DefaultValue e => expr_i e | NoDefault => [] end.
Fixpoint typ_i (t : typ) : list mark :=
  match t with
  | TNil | TFwdClass _ => []
  | TEmbedded _ i => [Fresh i]
  | TId t | TPointer t | TFile _ t | TClassRef t => typeid_i t
  | TEnum es => flat_map (fun x => match x with (i, o) => Fresh i :: opt expr_i o end) es
  | TSubrange low high => expr_i low ++ expr_i high
  | TFixedString t e => typeid_i t ++ expr_i e
  | TArray _ index base => opt (flat_map typ_i) index ++ typ_i base
  | TSet _ t => typ_i t
  | TRec _ fl => fieldlist_i fl
  | TProc _ params ret _ => opt (flat_map formalparm_i) params ++ opt typeid_i ret
  | TClass her mem => opt (flat_map typeid_i) her ++ opt (flat_map csection_i) mem
  end
with fieldlist_i (fl : fieldlist) : list mark :=
  match fl with FieldList ds v => flat_map fielddecl_i ds ++ opt variantsection_i v end
with fielddecl_i (d : fielddecl) : list mark :=
  match d with FieldDecl ids t => map Fresh ids ++ typ_i t end
with variantsection_i (v : variantsection) : list mark :=
  match v with VariantSection i t vs => opt one i ++ typ_i t ++ flat_map recvariant_i vs end
with recvariant_i (v : recvariant) : list mark :=
  match v with RecVariant es fl => flat_map expr_i es ++ fieldlist_i fl end
with formalparm_i (p : formalparm) : list mark :=
  match p with
  | FormalParm _ ids ty e => map Fresh ids ++ opt (fun x => match x with (t, _) => typ_i t end) ty ++ opt expr_i e
  end
with heading_i (h : heading) : list mark :=
  match h with
  | Heading _ i params ret => Fresh i :: opt (flat_map formalparm_i) params ++ opt typeid_i ret
  end
with csection_i (s : csection) : list mark :=
  match s with
  | ClassSection _ fs ms ps =>
      flat_map (fun x => match x with (ids, t) => map Fresh ids ++ typ_i t end) fs ++ flat_map cmethod_i ms ++ flat_map cprop_i ps
  end
with cmethod_i (m : cmethod) : list mark :=
  match m with ClassMethod h _ => cheading_i h end
with cheading_i (h : cheading) : list mark :=
  match h with
  | HFunc h => heading_i h
  | HCtor i params => Fresh i :: opt (flat_map formalparm_i) params
  | HDtor i => [Fresh i]
  end
with cprop_i (p : cprop) : list mark :=
  match p with
  | ClassProp i itf idx rd wr st df im _ =>
      Fresh i ::
      opt (fun x => match x with (ps, t) => opt (flat_map formalparm_i) ps ++ typeid_i t end) itf
      ++ opt expr_i idx ++ opt identref_i rd ++ opt identref_i wr ++ opt cstored_i st
      ++ opt cdefault_i df ++ opt again_i im
  end.

Fixpoint stmt_i (s : stmt) : list mark :=
  match s with Stmt label b => opt one label ++ sbody_i b end
with sbody_i (b : sbody) : list mark :=
  match b with
  | SAssign d e => desig_i d ++ expr_i e
  | SCall d args => desig_i d ++ opt (flat_map expr_i) args
  | SInherited | SAsm => []
  | SGoto i _ => [Fresh i]
  | SCompound l => flat_map stmt_i l
  | SIf e s1 s2 => expr_i e ++ stmt_i s1 ++ opt stmt_i s2
  | SCase e sels els =>
      expr_i e ++
      flat_map (fun x => match x with
                         | (ls, s) => flat_map (fun y => match y with (a, b) => expr_i a ++ opt expr_i b end) ls
                                      ++ stmt_i s
                         end) sels ++
      opt (flat_map stmt_i) els
  | SRepeat l e => flat_map stmt_i l ++ expr_i e
  | SWhile e s => expr_i e ++ stmt_i s
  | SFor q e1 e2 _ s => qualid_i q ++ expr_i e1 ++ expr_i e2 ++ stmt_i s
  | SWith qs s => flat_map qualid_i qs ++ stmt_i s
  | STryExcept l hs els =>
      flat_map stmt_i l ++
      flat_map (fun x => match x with (i, t, s) => opt one i ++ typ_i t ++ stmt_i s end) hs ++
      opt (flat_map stmt_i) els
  | STryFinally l1 l2 => flat_map stmt_i l1 ++ flat_map stmt_i l2
  | SRaise e1 e2 => opt expr_i e1 ++ opt expr_i e2
  end.

Definition exports_i (x : exportsitem) : list mark :=
  Fresh (ex_ident x) :: opt expr_i (ex_name x) ++ opt expr_i (ex_index x).
Definition typedecl_i (d : typedecl) : list mark := Fresh (td_ident d) :: typ_i (td_type d).
Definition constdecl_i (d : constdecl) : list mark := Fresh (cd_ident d) :: typ_i (cd_type d) ++ expr_i (cd_expr d).
Definition vardecl_i (d : vardecl) : list mark :=
  map Fresh (vd_idents d) ++ typ_i (vd_type d) ++ opt one (vd_absolute d) ++ opt expr_i (vd_expr d).
Definition threadvardecl_i (d : threadvardecl) : list mark := map Fresh (tv_idents d) ++ typ_i (tv_type d).

Fixpoint declsection_i (d : declsection) : list mark :=
  match d with
  | DSLabel i => [Fresh i]
  | DSConst l => flat_map constdecl_i l
  | DSType l => flat_map typedecl_i l
  | DSVar l => flat_map vardecl_i l
  | DSThreadVar l => flat_map threadvardecl_i l
  | DSFunc h _ _ b => heading_i h ++ block_i b
  end
with block_i (b : block) : list mark :=
  match b with
  | Block ds ex body =>
      opt (flat_map declsection_i) ds ++ [Either (opt (flat_map (flat_map exports_i)) ex) (opt sbody_i body)]
  end.

Definition intfdecl_i (d : intfdecl) : list mark :=
  match d with
  | IType l => flat_map typedecl_i l
  | IVar l => flat_map vardecl_i l
  | IThreadVar l => flat_map threadvardecl_i l
  | IConst l => flat_map constdecl_i l
  | IHeading h _ _ => heading_i h
  end.
(** The uses clause: its items are objects of the heap. *)
Definition use_i (h : heap) (a : nat) : list mark := opt (fun o => [Fresh (u_ident o)]) (nth_error (h_uses h) a).
Definition uses_i (h : heap) (l : option (list nat)) : list mark := opt (flat_map (use_i h)) l.
Definition intf_i (h : heap) (s : intfsection) : list mark :=
  uses_i h (is_uses s) ++ opt (flat_map intfdecl_i) (is_decls s).
Definition impl_i (h : heap) (s : implsection) : list mark :=
  uses_i h (im_uses s) ++ opt (flat_map declsection_i) (im_decls s)
  ++ opt (flat_map (flat_map exports_i)) (im_exports s).
Definition init_i (s : initsection) : list mark :=
  opt (flat_map stmt_i) (in_init s) ++ opt (flat_map stmt_i) (in_final s).
Definition unit_i (h : heap) (o : unitobj) : list mark :=
  Fresh (un_ident o) :: opt (intf_i h) (un_intf o) ++ opt (impl_i h) (un_impl o) ++ opt init_i (un_init o).
Definition program_i (h : heap) (o : progobj) : list mark :=
  Fresh (pr_ident o) :: opt (fun b => uses_i h (pb_uses b) ++ block_i (pb_block b)) (pr_block o).
