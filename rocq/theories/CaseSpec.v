(** Letter case and layout: when two texts have the same tokens but for the case of their
    words, and when two results are the same but for spelling and position. *)
From Coq Require Import String List NArith Bool Arith.
From Verif Require Import Runes Token Tokenizer Ast Ext Heap Classes Prog Units.
Import ListNotations.
Local Open Scope list_scope.

Section WithUnicode.
Context {U : Unicode}.

(** Strings that differ in the case of letters at most *)
Definition same_letters (a b : gostring) : Prop :=
  to_lower a = to_lower b /\ to_upper a = to_upper b.

(** Tokens of the same type and text, words up to letter case; the places do not matter *)
Definition same_but_case (t1 t2 : token) : Prop :=
  t_type t1 = t_type t2 /\
  match t_type t1 with
  | Identifier | ReservedWord => same_letters (raw t1) (raw t2)
  | _ => raw t1 = raw t2
  end.

(** Two tokenizers whose next [n] calls of [GetNext] return such tokens *)
Fixpoint agree_for (n : nat) (k1 k2 : tokenizer) : Prop :=
  match n with
  | O => True
  | S m =>
      match get_next k1, get_next k2 with
      | GTok t1 k1', GTok t2 k2' => same_but_case t1 t2 /\ agree_for m k1' k2'
      | GNil k1', GNil k2' => agree_for m k1' k2'
      | GHang, GHang => True
      | _, _ => False
      end
  end.
(** Texts whose token streams agree *)
Definition texts_agree (text1 text2 : list rune) : Prop :=
  forall n, agree_for n (new_tokenizer text1 false false) (new_tokenizer text2 false false).

(** Lexemes, given by type and text, that differ in the case of a word at most *)
Definition same_lexeme (x y : ttype * list rune) : Prop :=
  fst x = fst y /\
  match fst x with
  | Identifier | ReservedWord => same_letters (snd x) (snd y)
  | _ => snd x = snd y
  end.
(** File systems with the same files, whose texts agree *)
Definition files_agree (files1 files2 : gostring -> option (list rune)) : Prop :=
  forall path,
    match files1 path, files2 path with
    | Some text1, Some text2 => texts_agree text1 text2
    | None, None => True
    | _, _ => False
    end.

(** NewParser with context [c], SetText with [text], NextToken, and the method [p] *)
Definition parse_text {A} (p : prog A) (text : list rune) (c : nat) (h : heap) : outcome A :=
  run (Bind Next (fun _ => p)) (mkPst (new_tokenizer text false false) None c [] h).

(** ** Trees without spelling and position

    [norm] writes names in lower case and forgets positions (whether there is one stays).
    Everything else stays: the shape, the operators, numbers, strings, and which
    declaration each name refers to. *)
Class Norm (A : Type) := norm : A -> A.
#[export] Instance norm_unit : Norm unit := fun x => x.
#[export] Instance norm_bool : Norm bool := fun x => x.
#[export] Instance norm_nat : Norm nat := fun x => x.
#[export] Instance norm_string : Norm gostring | 0 := fun x => x.
#[export] Instance norm_dref : Norm dref := fun x => x.
#[export] Instance norm_dmap : Norm dmap := fun x => x.
#[export] Instance norm_visibility : Norm visibility := fun x => x.
#[export] Instance norm_lookup : Norm lookup := fun x => x.
#[export] Instance norm_list {A} {NA : Norm A} : Norm (list A) | 10 := map norm.
#[export] Instance norm_option {A} {NA : Norm A} : Norm (option A) := option_map norm.
Definition n_pair {A B} (f : A -> A) (g : B -> B) (p : A * B) : A * B :=
  match p with (a, b) => (f a, g b) end.
#[export] Instance norm_pair {A B} {NA : Norm A} {NB : Norm B} : Norm (A * B) := n_pair norm norm.
Definition n_sum {A B} (f : A -> A) (g : B -> B) (p : A + B) : A + B :=
  match p with inl a => inl (f a) | inr b => inr (g b) end.
#[export] Instance norm_sum {A B} {NA : Norm A} {NB : Norm B} : Norm (A + B) := n_sum norm norm.

Definition somewhere : position := mkPos 0 0 0.
#[export] Instance norm_ident : Norm ident := fun i =>
  mkIdent (to_lower (i_name i)) (option_map (fun _ => (somewhere, somewhere)) (i_loc i)).
#[export] Instance norm_identref : Norm identref := fun r => mkIdentRef (norm (ir_ident r)) (ir_ref r).
#[export] Instance norm_qualid : Norm qualid := fun q => mkQualId (norm (q_ns q)) (norm (q_ident q)).
#[export] Instance norm_typeid : Norm typeid := fun t =>
  mkTypeId (norm (ti_unit t)) (norm (ti_ident t)) (ti_ref t).

Fixpoint n_expr (e : expr) : expr :=
  match e with Expr s l => Expr (n_sexpr s) (map (n_pair norm_string n_sexpr) l) end
with n_sexpr (e : sexpr) : sexpr :=
  match e with SExpr u t l => SExpr u (n_term t) (map (n_pair norm_string n_term) l) end
with n_term (e : term) : term :=
  match e with Term f l => Term (n_factor f) (map (n_pair norm_string n_factor) l) end
with n_factor (f : factor) : factor :=
  match f with
  | FDesignator d args => FDesignator (n_desig d) (option_map (map n_expr) args)
  | FAddress d => FAddress (n_desig d)
  | FNumber v => FNumber v
  | FString v => FString v
  | FValue v => FValue (to_lower v)
  | FNil => FNil
  | FParen e => FParen (n_expr e)
  | FNot f => FNot (n_factor f)
  | FSet es => FSet (map (n_pair n_expr (option_map n_expr)) es)
  | FCast t e => FCast (norm t) (n_expr e)
  end
with n_desig (d : desig) : desig :=
  match d with Desig q items => Desig (norm q) (map n_ditem items) end
with n_ditem (i : ditem) : ditem :=
  match i with
  | DIdent i => DIdent (norm i)
  | DIndex es => DIndex (map n_expr es)
  | DDeref => DDeref
  end.
#[export] Instance norm_expr : Norm expr := n_expr.
#[export] Instance norm_sexpr : Norm sexpr := n_sexpr.
#[export] Instance norm_term : Norm term := n_term.
#[export] Instance norm_factor : Norm factor := n_factor.
#[export] Instance norm_desig : Norm desig := n_desig.
#[export] Instance norm_ditem : Norm ditem := n_ditem.

Definition n_cstored (s : cstored) : cstored :=
  match s with StoredIdent r => StoredIdent (norm r) | StoredConst b => StoredConst b end.
Definition n_cdefault (d : cdefault) : cdefault :=
  match d with DefaultValue e => DefaultValue (norm e) | NoDefault => NoDefault end.
Fixpoint n_typ (t : typ) : typ :=
  match t with
  | TNil => TNil
  | TId t => TId (norm t)
  | TEmbedded k i => TEmbedded k (norm i)
  | TEnum es => TEnum (norm es)
  | TSubrange a b => TSubrange (norm a) (norm b)
  | TPointer t => TPointer (norm t)
  | TFixedString t e => TFixedString (norm t) (norm e)
  | TArray p i t => TArray p (option_map (map n_typ) i) (n_typ t)
  | TSet p t => TSet p (n_typ t)
  | TRec p fl => TRec p (n_fieldlist fl)
  | TFile p t => TFile p (norm t)
  | TProc f ps r o => TProc f (option_map (map n_formalparm) ps) (norm r) o
  | TFwdClass a => TFwdClass a
  | TClassRef t => TClassRef (norm t)
  | TClass her mem => TClass (norm her) (option_map (map n_csection) mem)
  end
with n_fieldlist (l : fieldlist) : fieldlist :=
  match l with FieldList ds v => FieldList (map n_fielddecl ds) (option_map n_variantsection v) end
with n_fielddecl (d : fielddecl) : fielddecl :=
  match d with FieldDecl l t => FieldDecl (norm l) (n_typ t) end
with n_variantsection (v : variantsection) : variantsection :=
  match v with VariantSection i t l => VariantSection (norm i) (n_typ t) (map n_recvariant l) end
with n_recvariant (v : recvariant) : recvariant :=
  match v with RecVariant es l => RecVariant (norm es) (n_fieldlist l) end
with n_formalparm (p : formalparm) : formalparm :=
  match p with
  | FormalParm o l t e => FormalParm o (norm l) (option_map (n_pair n_typ norm_bool) t) (norm e)
  end
with n_heading (h : heading) : heading :=
  match h with
  | Heading f i ps r => Heading f (norm i) (option_map (map n_formalparm) ps) (norm r)
  end
with n_csection (s : csection) : csection :=
  match s with
  | ClassSection v fs ms ps =>
      ClassSection v (map (n_pair norm n_typ) fs) (map n_cmethod ms) (map n_cprop ps)
  end
with n_cmethod (m : cmethod) : cmethod :=
  match m with ClassMethod h ds => ClassMethod (n_cheading h) ds end
with n_cheading (h : cheading) : cheading :=
  match h with
  | HFunc h => HFunc (n_heading h)
  | HCtor i ps => HCtor (norm i) (option_map (map n_formalparm) ps)
  | HDtor i => HDtor (norm i)
  end
with n_cprop (p : cprop) : cprop :=
  match p with
  | ClassProp i itf idx rd wr st df im par =>
      ClassProp (norm i) (option_map (n_pair (option_map (map n_formalparm)) norm) itf) (norm idx)
        (norm rd) (norm wr) (option_map n_cstored st) (option_map n_cdefault df) (norm im)
        (option_map n_cprop par)
  end.
#[export] Instance norm_typ : Norm typ := n_typ.
#[export] Instance norm_fieldlist : Norm fieldlist := n_fieldlist.
#[export] Instance norm_fielddecl : Norm fielddecl := n_fielddecl.
#[export] Instance norm_variantsection : Norm variantsection := n_variantsection.
#[export] Instance norm_recvariant : Norm recvariant := n_recvariant.
#[export] Instance norm_formalparm : Norm formalparm := n_formalparm.
#[export] Instance norm_heading : Norm heading := n_heading.
#[export] Instance norm_csection : Norm csection := n_csection.
#[export] Instance norm_cmethod : Norm cmethod := n_cmethod.
#[export] Instance norm_cheading : Norm cheading := n_cheading.
#[export] Instance norm_cprop : Norm cprop := n_cprop.
#[export] Instance norm_cstored : Norm cstored := n_cstored.
#[export] Instance norm_cdefault : Norm cdefault := n_cdefault.

#[export] Instance norm_dnode : Norm dnode := fun n =>
  match n with NType t => NType (norm t) | n => n end.
#[export] Instance norm_decl : Norm decl := fun d => mkDecl (norm (d_ident d)) (norm (d_node d)).

Fixpoint n_stmt (s : stmt) : stmt :=
  match s with Stmt l b => Stmt (norm l) (n_sbody b) end
with n_sbody (b : sbody) : sbody :=
  match b with
  | SAssign d e => SAssign (norm d) (norm e)
  | SCall d args => SCall (norm d) (norm args)
  | SInherited => SInherited
  | SGoto i r => SGoto (norm i) r
  | SCompound l => SCompound (map n_stmt l)
  | SIf e s1 s2 => SIf (norm e) (n_stmt s1) (option_map n_stmt s2)
  | SCase e sels els =>
      SCase (norm e) (map (n_pair norm n_stmt) sels) (option_map (map n_stmt) els)
  | SRepeat l e => SRepeat (map n_stmt l) (norm e)
  | SWhile e s => SWhile (norm e) (n_stmt s)
  | SFor q e1 e2 down s => SFor (norm q) (norm e1) (norm e2) down (n_stmt s)
  | SWith qs s => SWith (norm qs) (n_stmt s)
  | STryExcept l hs els =>
      STryExcept (map n_stmt l) (map (n_pair (n_pair norm norm) n_stmt) hs)
        (option_map (map n_stmt) els)
  | STryFinally l1 l2 => STryFinally (map n_stmt l1) (map n_stmt l2)
  | SRaise a b => SRaise (norm a) (norm b)
  | SAsm => SAsm
  end.
#[export] Instance norm_stmt : Norm stmt := n_stmt.
#[export] Instance norm_sbody : Norm sbody := n_sbody.

#[export] Instance norm_exportsitem : Norm exportsitem := fun x =>
  mkExports (norm (ex_ident x)) (norm (ex_name x)) (norm (ex_index x)).
#[export] Instance norm_extopts : Norm extopts := fun x => x.
#[export] Instance norm_typedecl : Norm typedecl := fun d =>
  mkTypeDecl (norm (td_ident d)) (norm (td_type d)) (option_map to_lower (td_port d)).
#[export] Instance norm_constdecl : Norm constdecl := fun d =>
  mkConstDecl (norm (cd_ident d)) (norm (cd_type d)) (norm (cd_expr d)).
#[export] Instance norm_vardecl : Norm vardecl := fun d =>
  mkVarDecl (norm (vd_idents d)) (norm (vd_type d)) (norm (vd_absolute d)) (norm (vd_expr d)).
#[export] Instance norm_threadvardecl : Norm threadvardecl := fun d =>
  mkThreadVarDecl (norm (tv_idents d)) (norm (tv_type d)).

Fixpoint n_declsection (d : declsection) : declsection :=
  match d with
  | DSLabel i => DSLabel (norm i)
  | DSConst l => DSConst (norm l)
  | DSType l => DSType (norm l)
  | DSVar l => DSVar (norm l)
  | DSThreadVar l => DSThreadVar (norm l)
  | DSFunc h dirs opts b => DSFunc (norm h) dirs opts (n_block b)
  end
with n_block (b : block) : block :=
  match b with
  | Block ds ex body => Block (option_map (map n_declsection) ds) (norm ex) (norm body)
  end.
#[export] Instance norm_declsection : Norm declsection := n_declsection.
#[export] Instance norm_block : Norm block := n_block.

#[export] Instance norm_intfdecl : Norm intfdecl := fun d =>
  match d with
  | IType l => IType (norm l)
  | IVar l => IVar (norm l)
  | IThreadVar l => IThreadVar (norm l)
  | IConst l => IConst (norm l)
  | IHeading h dirs opts => IHeading (norm h) dirs opts
  end.
#[export] Instance norm_usesitem : Norm usesitem := fun o =>
  mkUses (norm (u_ident o)) (u_path o) (u_unit o).
#[export] Instance norm_intfsection : Norm intfsection := fun s =>
  mkIntf (is_uses s) (norm (is_decls s)).
#[export] Instance norm_implsection : Norm implsection := fun s =>
  mkImpl (im_uses s) (norm (im_decls s)) (norm (im_exports s)).
#[export] Instance norm_initsection : Norm initsection := fun s =>
  mkInit (norm (in_init s)) (norm (in_final s)).
#[export] Instance norm_programblock : Norm programblock := fun b =>
  mkProgramBlock (pb_uses b) (norm (pb_block b)).
#[export] Instance norm_unitobj : Norm unitobj := fun o =>
  mkUnit (un_path o) (norm (un_ident o)) (option_map to_lower (un_port o)) (norm (un_intf o))
    (norm (un_impl o)) (norm (un_init o)) (un_map o).
#[export] Instance norm_progobj : Norm progobj := fun o =>
  mkProg (pr_path o) (norm (pr_ident o)) (norm (pr_block o)) (pr_map o).
(** All objects: the maps, with their keys, and the references stay. *)
#[export] Instance norm_heap : Norm heap := fun h =>
  mkHeap (h_maps h) (norm (h_decls h)) (h_refs h) (norm (h_fwds h)) (norm (h_uses h))
    (norm (h_units h)) (norm (h_progs h)) (h_ctxs h).
(** Errors: of those with a place the path stays. *)
#[export] Instance norm_perr : Norm perr := fun e =>
  match e with
  | EAt path _ _ => EAt path 0 0
  | EDup i => EDup (norm i)
  | ENil => ENil
  | EOther => EOther
  end.

(** Two ends of a method that are the same but for spelling and position *)
Definition same_end {A} {NA : Norm A} (o1 o2 : outcome A) : Prop :=
  match o1, o2 with
  | OOk a1 s1, OOk a2 s2 => norm a1 = norm a2 /\ norm (s_heap s1) = norm (s_heap s2)
  | OErr e1 s1, OErr e2 s2 => norm e1 = norm e2 /\ norm (s_heap s1) = norm (s_heap s2)
  | OPanic, OPanic | OHang, OHang | OStuck, OStuck => True
  | _, _ => False
  end.
Definition same_result {A} {NA : Norm A} (r1 r2 : result A) : Prop :=
  match r1, r2 with
  | ROk a1 h1, ROk a2 h2 => norm a1 = norm a2 /\ norm h1 = norm h2
  | RErr e1 h1, RErr e2 h2 => norm e1 = norm e2 /\ norm h1 = norm h2
  | RPanic, RPanic | RHang, RHang | RStuck, RStuck => True
  | _, _ => False
  end.

End WithUnicode.
