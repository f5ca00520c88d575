(** What the parser goes over, and the form of each node of Ast.v: the words that are
    accepted for it.  Forms are relations: where the parser takes more than one spelling for
    a node, the form has them all.  Where it leaves words of the source to the caller, the
    form is without them. *)
From Coq Require Import String List NArith Bool Arith.
From Verif Require Import Runes Token Tokenizer Ast Heap Prog ParseSpec.
Import ListNotations.
Local Open Scope list_scope.

Declare Scope form_scope.

Section WithUnicode.
Context {U : Unicode}.

(** ** What is gone over *)

(** [went_over k c ws k' c']: from the tokenizer [k] with the current token [c] to [k'] with
    [c'] token by token, the values of the tokens that are left behind being [ws]. *)
Definition left_behind (c : option token) : list gostring :=
  match c with Some t => [value t] | None => [] end.
Inductive went_over : tokenizer -> option token -> list gostring -> tokenizer -> option token -> Prop :=
| went_nowhere k c : went_over k c [] k c
| went_token k c t k1 ws k2 c2 : get_next k = GTok t k1 -> went_over k1 (Some t) ws k2 c2 ->
    went_over k c (left_behind c ++ ws) k2 c2
| went_nil k c k1 ws k2 c2 : get_next k = GNil k1 -> went_over k1 None ws k2 c2 ->
    went_over k c (left_behind c ++ ws) k2 c2.
(** The parser in the state [s] has the words [ws] of [text] behind it. *)
Definition stops_behind (text : list rune) (ws : list gostring) (s : pst) : Prop :=
  exists k c, went_over (new_tokenizer text false false) None ws k c /\ same_spot k (s_tok s) /\ alike_opt c (s_cur s).
(** [text] begins with the words [ws]; with [ws] and a full stop. *)
Definition begins_with (text : list rune) (ws : list gostring) : Prop :=
  exists k c, went_over (new_tokenizer text false false) None ws k c.
Definition up_to_stop (text : list rune) (ws : list gostring) : Prop :=
  exists k t, went_over (new_tokenizer text false false) None ws k (Some t) /\ value t = rs ".".
(** The value of a lexeme, given as in LexSpec: reserved words are in upper case *)
Definition lex_value (x : ttype * list rune) : gostring :=
  match fst x with ReservedWord => to_upper (snd x) | _ => snd x end.

(** ** Pieces of forms *)
Definition form := list gostring -> Prop.
Definition nothing : form := eq [].
Definition anything : form := fun _ => True.
Definition unheard : form := fun _ => False.
Definition say (v : gostring) : form := eq [v].
Definition word (s : string) : form := say (rs s).
Definition cat (A B : form) : form := fun ws => exists a b, ws = a ++ b /\ A a /\ B b.
Definition either (A B : form) : form := fun ws => A ws \/ B ws.
Definition maybe (A : form) : form := either nothing A.
(** A word in any letter case, given in upper case *)
Definition cased (v : gostring) : form := fun ws => exists w, ws = [w] /\ to_upper w = v.
Definition some_word : form := fun ws => exists w, ws = [w].
(** An identifier; a word of any kind that was made one, where reserved words have their
    value in upper case *)
Definition name (i : ident) : form := say (i_name i).
Definition mention (i : ident) : form := either (name i) (say (to_upper (i_name i))).
(** One behind the other; each with [w] behind it; with [w] between them, at least one *)
Fixpoint row (l : list form) : form :=
  match l with [] => nothing | a :: l' => cat a (row l') end.
Definition ended (w : string) (l : list form) : form := row (map (fun a => cat a (word w)) l).
Fixpoint between (w : string) (l : list form) : form :=
  match l with
  | [] => unheard
  | [a] => a
  | a :: l' => cat a (cat (word w) (between w l'))
  end.
(** With [w] between them and perhaps behind the last; perhaps none *)
Definition loose (w : string) (l : list form) : form := either (between w l) (ended w l).
Definition loose1 (w : string) (l : list form) : form := fun ws => l <> [] /\ loose w l ws.
Definition opt {A} (f : A -> form) (o : option A) : form :=
  match o with Some a => f a | None => nothing end.

Local Infix "**" := cat (at level 60, right associativity) : form_scope.
Local Open Scope form_scope.

(** ** Names and expressions *)
Definition qualid_f (q : qualid) : form :=
  opt (fun ns => name (ir_ident ns) ** word ".") (q_ns q) ** name (ir_ident (q_ident q)).
Fixpoint expr_f (e : expr) : form :=
  match e with
  | Expr s rels => sexpr_f s ** row (map (fun x => match x with (o, s) => say o ** sexpr_f s end) rels)
  end
with sexpr_f (s : sexpr) : form :=
  match s with
  | SExpr u t adds =>
      opt say u ** term_f t ** row (map (fun x => match x with (o, t) => say o ** term_f t end) adds)
  end
with term_f (t : term) : form :=
  match t with
  | Term f muls => factor_f f ** row (map (fun x => match x with (o, f) => say o ** factor_f f end) muls)
  end
with factor_f (f : factor) : form :=
  match f with
  | FDesignator d args =>
      desig_f d ** opt (fun es => word "(" ** between "," (map expr_f es) ** word ")") args
  | FAddress d => word "@" ** desig_f d
  | FNumber v | FString v | FValue v => say v
  | FNil => word "NIL"
  | FParen e => word "(" ** expr_f e ** word ")"
  | FNot f => word "NOT" ** factor_f f
  | FSet es =>
      word "[" **
      between "," (map (fun x => match x with (e, o) => expr_f e ** opt (fun e2 => word ".." ** expr_f e2) o end) es) **
      word "]"
  | FCast t e => name (ti_ident t) ** word "(" ** expr_f e ** word ")"
  end
with desig_f (d : desig) : form :=
  match d with Desig q items => qualid_f q ** row (map ditem_f items) end
with ditem_f (d : ditem) : form :=
  match d with
  | DIdent i => word "." ** name i
  | DIndex es => word "[" ** between "," (map expr_f es) ** word "]"
  | DDeref => word "^"
  end.

(** ** Types *)

(** The name behind a unit and a full stop is left to the caller (parser/type.go:160-173). *)
Definition typeid_f (t : typeid) : form :=
  match ti_unit t with
  | Some u => mention u ** word "."
  | None => mention (ti_ident t)
  end.
Definition packing (b : bool) : form := if b then word "PACKED" else nothing.
Definition packed_f (packed : bool) (f : form) : form := fun ws =>
  exists b1 b2, packed = b1 || b2 /\ (packing b1 ** packing b2 ** f) ws.
Definition visibility_f (v : visibility) : form :=
  match v with
  | CvDefault => nothing
  | CvPrivate => cased (rs "PRIVATE")
  | CvProtected => cased (rs "PROTECTED")
  | CvPublic => cased (rs "PUBLIC")
  | CvPublished => cased (rs "PUBLISHED")
  end.
Definition names_f (l : list ident) : form := between "," (map name l).
Definition function_f (function : bool) : form := word (if function then "FUNCTION" else "PROCEDURE").
Definition lowered (s : string) : form := fun ws => exists w, ws = [w] /\ to_lower w = rs s.
Definition stored_f (s : cstored) : form :=
  cased (rs "STORED") **
  match s with
  | StoredIdent r => mention (ir_ident r)
  | StoredConst b => lowered (if b then "true" else "false")
  end.
(** NODEFAULT is left to the caller (parser/type_class.go:470-476). *)
Definition default_f (d : cdefault) : form :=
  match d with DefaultValue e => cased (rs "DEFAULT") ** expr_f e | NoDefault => nothing end.

(** The END of records and classes and the name behind CLASS OF are left to the caller
    (parser/type_struc.go:126-147, type_class.go:11-61).  A variant part in parentheses is
    closed by END instead of a parenthesis (type_struc.go:202-281).  A reserved word that
    begins no type makes none, without being gone over (type_string.go:22-43).  A property
    that implements an interface takes the word IMPLEMENTS for the name of it
    (type_class.go:477-487). *)
Fixpoint typ_f (t : typ) : form :=
  match t with
  | TNil => nothing
  | TEmbedded _ _ => unheard
  | TId t => typeid_f t
  | TEnum es =>
      word "(" **
      between "," (map (fun x => match x with (i, o) => name i ** opt (fun e => word "=" ** expr_f e) o end) es) **
      word ")"
  | TSubrange low high => expr_f low ** word ".." ** expr_f high
  | TPointer t => word "^" ** typeid_f t
  | TFixedString t e => mention (ti_ident t) ** word "[" ** expr_f e ** word "]"
  | TArray packed index base => fun ws => exists p1 p2, packed = p1 || p2 /\
      packed_f p1 (word "ARRAY" **
        opt (fun l => word "[" ** between "," (map typ_f l) ** word "]") index **
        word "OF" ** typ_f base ** packing p2) ws
  | TSet packed t => packed_f packed (word "SET" ** word "OF" ** typ_f t)
  | TRec packed fl => packed_f packed (word "RECORD" ** fieldlist_f fl)
  | TFile packed t => packed_f packed (word "FILE" ** word "OF" ** typeid_f t)
  | TProc function params ret ofobject =>
      function_f function **
      opt (fun l => word "(" ** between ";" (map formalparm_f l) ** word ")") params **
      opt (fun t => word ":" ** typeid_f t) ret **
      (if ofobject then word "OF" ** word "OBJECT" else nothing)
  | TFwdClass _ => word "CLASS"
  | TClassRef _ => word "CLASS" ** word "OF"
  | TClass her mem =>
      word "CLASS" **
      opt (fun l => word "(" ** between "," (map typeid_f l) ** word ")") her **
      opt (fun l => row (map csection_f l)) mem
  end
with fieldlist_f (fl : fieldlist) : form :=
  match fl with FieldList ds v => loose ";" (map fielddecl_f ds) ** opt variantsection_f v end
with fielddecl_f (d : fielddecl) : form :=
  match d with FieldDecl ids t => names_f ids ** word ":" ** typ_f t end
with variantsection_f (v : variantsection) : form :=
  match v with
  | VariantSection i t vs =>
      word "CASE" ** opt (fun i => name i ** word ":") i ** typ_f t ** word "OF" **
      loose ";" (map recvariant_f vs)
  end
with recvariant_f (v : recvariant) : form :=
  match v with
  | RecVariant es fl =>
      between "," (map expr_f es) ** word ":" ** word "(" ** fieldlist_f fl **
      match fl with FieldList _ None => word ")" | FieldList _ (Some _) => word "END" end
  end
with formalparm_f (p : formalparm) : form :=
  match p with
  | FormalParm o ids ty e =>
      opt say o ** names_f ids **
      opt (fun x : typ * bool => match x with
                    | (t, a) => word ":" ** (if a then word "ARRAY" ** word "OF" else nothing) **
                                either (typ_f t) (match t, a with TNil, true => word "CONST" | _, _ => unheard end)
                    end) ty **
      opt (fun e => word "=" ** expr_f e) e
  end
with heading_f (h : heading) : form :=
  match h with
  | Heading function i params ret =>
      function_f function ** name i **
      opt (fun l => word "(" ** between ";" (map formalparm_f l) ** word ")") params **
      opt (fun t => word ":" ** typeid_f t) ret
  end
with csection_f (s : csection) : form :=
  match s with
  | ClassSection v fs ms ps =>
      visibility_f v **
      loose ";" (map (fun x => match x with (ids, t) => names_f ids ** word ":" ** typ_f t end) fs) **
      row (map (fun m => cmethod_f m ** maybe (word ";")) ms) **
      row (map (fun p => cprop_f p ** maybe (word ";")) ps)
  end
with cmethod_f (m : cmethod) : form :=
  match m with ClassMethod h ds => cheading_f h ** maybe (word ";") ** loose ";" (map cased ds) end
with cheading_f (h : cheading) : form :=
  match h with
  | HFunc h => heading_f h
  | HCtor i params =>
      word "CONSTRUCTOR" ** mention i **
      opt (fun l => word "(" ** between ";" (map formalparm_f l) ** word ")") params
  | HDtor i => word "DESTRUCTOR" ** mention i
  end
with cprop_f (p : cprop) : form :=
  match p with
  | ClassProp i itf idx rd wr st df im _ =>
      word "PROPERTY" ** mention i **
      opt (fun x => match x with
                    | (ps, t) => opt (fun l => word "[" ** between ";" (map formalparm_f l) ** word "]") ps **
                                 word ":" ** typeid_f t
                    end) itf **
      opt (fun e => cased (rs "INDEX") ** expr_f e) idx **
      opt (fun r => cased (rs "READ") ** mention (ir_ident r)) rd **
      opt (fun r => cased (rs "WRITE") ** mention (ir_ident r)) wr **
      opt stored_f st ** opt default_f df ** opt typeid_f im
  end.

(** ** Statements *)
Definition label_f (x : expr * option expr) : form :=
  match x with (a, b) => expr_f a ** opt (fun e => word ".." ** expr_f e) b end.
Fixpoint stmt_f (s : stmt) : form :=
  match s with Stmt label b => opt (fun i => mention i ** word ":") label ** sbody_f b end
with sbody_f (b : sbody) : form :=
  match b with
  | SAssign d e => desig_f d ** word ":=" ** expr_f e
  | SCall d args => desig_f d ** opt (fun es => word "(" ** between "," (map expr_f es) ** word ")") args
  | SInherited => word "INHERITED"
  | SGoto i _ => word "GOTO" ** name i
  | SCompound l => word "BEGIN" ** loose1 ";" (map stmt_f l) ** word "END"
  | SIf e s1 s2 =>
      word "IF" ** expr_f e ** word "THEN" ** stmt_f s1 ** opt (fun s => word "ELSE" ** stmt_f s) s2
  | SCase e sels els =>
      word "CASE" ** expr_f e ** word "OF" **
      row (map (fun x => match x with
                         | (ls, s) => between "," (map label_f ls) ** word ":" ** stmt_f s ** word ";"
                         end) sels) **
      opt (fun l => word "ELSE" ** loose1 ";" (map stmt_f l)) els ** word "END"
  | SRepeat l e => word "REPEAT" ** loose1 ";" (map stmt_f l) ** word "UNTIL" ** expr_f e
  | SWhile e s => word "WHILE" ** expr_f e ** word "DO" ** stmt_f s
  | SFor q e1 e2 down s =>
      word "FOR" ** qualid_f q ** word ":=" ** expr_f e1 ** word (if down then "DOWNTO" else "TO") **
      expr_f e2 ** word "DO" ** stmt_f s
  | SWith qs s => word "WITH" ** between "," (map qualid_f qs) ** word "DO" ** stmt_f s
  | STryExcept l hs els =>
      word "TRY" ** loose1 ";" (map stmt_f l) ** word "EXCEPT" **
      match hs with
      | [] => opt (fun l => loose1 ";" (map stmt_f l)) els
      | _ =>
          row (map (fun x => match x with
                             | (i, t, s) => cased (rs "ON") ** opt (fun i => mention i ** word ":") i **
                                            typ_f t ** cased (rs "DO") ** stmt_f s ** maybe (word ";")
                             end) hs) **
          opt (fun l => word "ELSE" ** loose1 ";" (map stmt_f l)) els ** maybe (word ";")
      end ** word "END"
  | STryFinally l1 l2 =>
      word "TRY" ** loose1 ";" (map stmt_f l1) ** word "FINALLY" ** loose1 ";" (map stmt_f l2) ** word "END"
  | SRaise obj addr => word "RAISE" ** opt expr_f obj ** opt (fun e => cased (rs "AT") ** expr_f e) addr
  | SAsm => word "ASM" ** anything ** word "END"
  end.

(** ** Declarations and blocks *)

(** Behind a type, one word that is no semicolon is gone over whatever it is; only behind
    it is a portability directive looked for (parser/type.go:92-106). *)
Definition typedecl_f (d : typedecl) : form :=
  name (td_ident d) ** word "=" ** maybe (word "TYPE") ** typ_f (td_type d) **
  match td_port d with None => maybe some_word | Some v => some_word ** say v end.
Definition constdecl_f (d : constdecl) : form :=
  mention (cd_ident d) **
  either (word ":" ** typ_f (cd_type d)) (match cd_type d with TNil => nothing | _ => unheard end) **
  word "=" ** expr_f (cd_expr d).
Definition vardecl_f (d : vardecl) : form :=
  names_f (vd_idents d) ** word ":" ** typ_f (vd_type d) **
  opt (fun i => cased (rs "ABSOLUTE") ** name i) (vd_absolute d) **
  opt (fun e => word "=" ** expr_f e) (vd_expr d).
Definition threadvardecl_f (d : threadvardecl) : form :=
  names_f (tv_idents d) ** word ":" ** typ_f (tv_type d).
Definition filled (l : list form) (f : form) : form := fun ws => l <> [] /\ f ws.
Definition external_f (o : option extopts) : form :=
  match o with
  | None => nothing
  | Some o => say (xo_lib o) ** opt (fun n => cased (rs "NAME") ** say n) (xo_name o)
  end.
(** The options of the last EXTERNAL are kept. *)
Definition is_external (d : gostring) : bool := runes_equal d (rs "EXTERNAL").
Definition directives_f (l : list gostring) (o : option extopts) : form := fun ws =>
  exists ds : list (gostring * option extopts),
    map fst ds = l /\ fold_left (fun o d => if is_external (fst d) then snd d else o) ds None = o /\
    ended ";" (map (fun d => cased (fst d) ** (if is_external (fst d) then external_f (snd d) else nothing)) ds) ws.
Definition dirs_f (l : option (list gostring)) (o : option extopts) : form :=
  match l with
  | Some l => directives_f l o
  | None => match o with None => nothing | Some _ => unheard end
  end.
Definition exportsitem_f (x : exportsitem) : form :=
  name (ex_ident x) ** opt (fun e => cased (rs "NAME") ** expr_f e) (ex_name x) **
  opt (fun e => cased (rs "INDEX") ** expr_f e) (ex_index x).
Definition exports_f (l : list (list exportsitem)) : form :=
  row (map (fun x => word "EXPORTS" ** between "," (map exportsitem_f x) ** word ";") l).
Fixpoint declsection_f (d : declsection) : form :=
  match d with
  | DSLabel i => word "LABEL" ** name i ** word ";"
  | DSConst l => word "CONST" ** filled (map constdecl_f l) (ended ";" (map constdecl_f l))
  | DSType l => word "TYPE" ** loose1 ";" (map typedecl_f l)
  | DSVar l => word "VAR" ** loose1 ";" (map vardecl_f l)
  | DSThreadVar l => word "THREADVAR" ** filled (map threadvardecl_f l) (ended ";" (map threadvardecl_f l))
  | DSFunc h l o b => heading_f h ** word ";" ** dirs_f l o ** block_f b
  end
with block_f (b : block) : form :=
  match b with
  | Block ds ex body => fun ws => exists ex1 ex2,
      ex = (match ex2 with Some l => Some l | None => ex1 end) /\
      (opt (fun l => row (map (fun d => declsection_f d ** maybe (word ";")) l)) ds **
       opt exports_f ex1 ** opt sbody_f body ** opt exports_f ex2) ws
  end.

(** ** Units and programs *)

(** Behind the name, the portability directive and the semicolon may both be missing
    (parser/unit_parser.go:85-114).  The full stop is the last token and not left behind. *)
Definition intfdecl_f (d : intfdecl) : form :=
  match d with
  | IType l => word "TYPE" ** loose1 ";" (map typedecl_f l)
  | IVar l => word "VAR" ** loose1 ";" (map vardecl_f l)
  | IThreadVar l => word "THREADVAR" ** filled (map threadvardecl_f l) (ended ";" (map threadvardecl_f l))
  | IConst l => word "CONST" ** filled (map constdecl_f l) (ended ";" (map constdecl_f l))
  | IHeading h l o => heading_f h ** word ";" ** dirs_f l o
  end.
Definition use_f (h : heap) (a : nat) : form :=
  match nth_error (h_uses h) a with
  | Some o => name (u_ident o) ** opt (fun p => word "IN" ** say p) (u_path o)
  | None => unheard
  end.
Definition uses_f (h : heap) (l : option (list nat)) : form :=
  opt (fun l => word "USES" ** between "," (map (use_f h) l) ** word ";") l.
Definition intf_f (h : heap) (s : intfsection) : form :=
  word "INTERFACE" ** uses_f h (is_uses s) ** opt (fun l => row (map intfdecl_f l)) (is_decls s).
Definition impl_f (h : heap) (s : implsection) : form :=
  word "IMPLEMENTATION" ** uses_f h (im_uses s) **
  opt (fun l => row (map (fun d => declsection_f d ** maybe (word ";")) l)) (im_decls s) **
  opt exports_f (im_exports s) ** maybe (word ";").
Definition init_f (i : initsection) : form :=
  word "INITIALIZATION" ** match in_init i with Some l => loose1 ";" (map stmt_f l) | None => unheard end **
  opt (fun l => word "FINALIZATION" ** loose1 ";" (map stmt_f l)) (in_final i).
(** Up to the END; the sections that are not read yet are [None] *)
Definition unit_front (h : heap) (o : unitobj) : form :=
  word "UNIT" ** name (un_ident o) ** opt say (un_port o) ** maybe (word ";") **
  opt (intf_f h) (un_intf o) ** opt (impl_f h) (un_impl o) ** opt init_f (un_init o).
Definition unit_f (h : heap) (o : unitobj) : form :=
  fun ws => un_intf o <> None /\ un_impl o <> None /\ (unit_front h o ** word "END") ws.
Definition program_f (h : heap) (o : progobj) : form :=
  word "PROGRAM" ** name (pr_ident o) ** word ";" **
  match pr_block o with
  | Some b => uses_f h (pb_uses b) ** block_f (pb_block b)
  | None => unheard
  end.

End WithUnicode.
