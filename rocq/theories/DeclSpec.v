(** What types, declarations and blocks look like in source form, which trees have one, and
    what names mean where. *)
From Coq Require Import String List NArith Bool Arith.
From Verif Require Import Runes Token Tokenizer LexSpec Ast Heap MapSpec Prog ParseSpec ExprSpec StmtSpec.
Import ListNotations.
Local Open Scope list_scope.

Section WithUnicode.
Context {U : Unicode}.

Notation words := (list (ttype * gostring)).

(** What a source form leaves open: a semicolon behind the last statement of every list and
    the last field of every list, or none; the letter case of ON, AT and ABSOLUTE, of NAME,
    INDEX and the directives of functions, and of the words of classes that are not reserved. *)
Definition visibility_words : list gostring := map rs ["PRIVATE"; "PROTECTED"; "PUBLIC"; "PUBLISHED"]%string.
Definition method_words : list gostring := map rs ["ABSTRACT"; "VIRTUAL"; "OVERRIDE"; "OVERLOAD"; "REINTRODUCE"]%string.
Definition property_words : list gostring := map rs ["INDEX"; "READ"; "WRITE"; "STORED"; "DEFAULT"]%string.
Record style := mkStyle {
  statements : spelling;
  absolute_word : gostring; name_word : gostring; index_word : gostring;
  directive_word : gostring -> gostring;
  class_word : gostring -> gostring; bool_word : bool -> gostring;
  absolute_upper : to_upper absolute_word = rs "ABSOLUTE";
  name_upper : to_upper name_word = rs "NAME";
  index_upper : to_upper index_word = rs "INDEX";
  directive_upper : forall d, In d directives -> to_upper (directive_word d) = d;
  class_upper : forall w, In w (visibility_words ++ method_words ++ property_words) -> to_upper (class_word w) = w;
  bool_lower : forall b, to_lower (bool_word b) = rs (if b then "true" else "false") }.

(** ** Source form *)
Definition is_string (n : gostring) : bool := runes_equal (to_upper n) (rs "STRING").
(** The name of a type: STRING is a reserved word. *)
Definition write_typeid (i : typeid) : words :=
  let n := i_name (ti_ident i) in
  [if is_string n then wkey "STRING" else wident n].
Definition write_idents (l : list ident) : words := commas (map (fun i => [wident (i_name i)]) l).
Definition write_ret (r : option typeid) : words :=
  match r with None => [] | Some i => wsym ":" :: write_typeid i end.
Definition write_value (e : option expr) : words :=
  match e with None => [] | Some e => wsym "=" :: write_expr e end.
Definition write_heritage (her : option (list typeid)) : words :=
  match her with None => [] | Some l => wsym "(" :: commas (map write_typeid l) ++ [wsym ")"] end.

Section Style.
Context (st : style).

(** A semicolon behind the last of the elements, if there are any. *)
Definition list_end {A} (l : list A) : words := match l with [] => [] | _ => last_semi (statements st) end.
(** The words of classes: the visibility of a section, the directives of a method, and the
    clauses of a property. *)
Definition write_visibility (v : visibility) : words :=
  match v with
  | CvDefault => []
  | CvPrivate => [wident (class_word st (rs "PRIVATE"))]
  | CvProtected => [wident (class_word st (rs "PROTECTED"))]
  | CvPublic => [wident (class_word st (rs "PUBLIC"))]
  | CvPublished => [wident (class_word st (rs "PUBLISHED"))]
  end.
Definition write_method_directives (l : list gostring) : words :=
  flat_map (fun d => [wident (class_word st d); wsym ";"]) l.
Definition write_clause (w : string) (c : option words) : words :=
  match c with None => [] | Some ws => wident (class_word st (rs w)) :: ws end.
Definition write_stored (x : cstored) : words :=
  [wident (match x with StoredIdent r => i_name (ir_ident r) | StoredConst b => bool_word st b end)].
Definition write_clauses (index : option expr) (rd wr : option identref) (stored : option cstored)
    (dflt : option cdefault) : words :=
  write_clause "INDEX" (option_map write_expr index) ++
  write_clause "READ" (option_map (fun r => [wident (i_name (ir_ident r))]) rd) ++
  write_clause "WRITE" (option_map (fun r => [wident (i_name (ir_ident r))]) wr) ++
  write_clause "STORED" (option_map write_stored stored) ++
  write_clause "DEFAULT" (match dflt with Some (DefaultValue e) => Some (write_expr e) | _ => None end).
Fixpoint write_ty (t : typ) : words :=
  match t with
  | TId i => write_typeid i
  | TEnum es => wsym "(" :: commas (map (fun x => wident (i_name (fst x)) :: write_value (snd x)) es) ++ [wsym ")"]
  | TSubrange low high => write_expr low ++ wsym ".." :: write_expr high
  | TPointer i => wsym "^" :: write_typeid i
  | TFixedString _ e => wkey "STRING" :: wsym "[" :: write_expr e ++ [wsym "]"]
  | TArray packed index base =>
      (if packed then [wkey "PACKED"] else []) ++ wkey "ARRAY" ::
      match index with None => [] | Some l => wsym "[" :: commas (map write_ty l) ++ [wsym "]"] end ++
      wkey "OF" :: write_ty base
  | TSet packed t => (if packed then [wkey "PACKED"] else []) ++ wkey "SET" :: wkey "OF" :: write_ty t
  | TFile packed i => (if packed then [wkey "PACKED"] else []) ++ wkey "FILE" :: wkey "OF" :: write_typeid i
  | TRec packed fl => (if packed then [wkey "PACKED"] else []) ++ wkey "RECORD" :: write_fields fl ++ [wkey "END"]
  | TProc function params ret ofobject =>
      wkey (if function then "FUNCTION" else "PROCEDURE") ::
      match params with None => [] | Some l => wsym "(" :: semicolons (map write_parm l) ++ [wsym ")"] end ++
      write_ret ret ++ (if ofobject then [wkey "OF"; wkey "OBJECT"] else [])
  | TClassRef i => wkey "CLASS" :: wkey "OF" :: write_typeid i
  | TFwdClass _ => [wkey "CLASS"]
  | TClass her mem =>
      wkey "CLASS" :: write_heritage her ++
      match mem with None => [] | Some l => flat_map write_csection l end ++ [wkey "END"]
  | TNil | TEmbedded _ _ => []
  end
with write_fields (fl : fieldlist) : words :=
  match fl with
  | FieldList ds None => semicolons (map write_field ds) ++ list_end ds
  | FieldList ds (Some v) => flat_map (fun d => write_field d ++ [wsym ";"]) ds ++ write_variants v
  end
with write_field (d : fielddecl) : words :=
  match d with FieldDecl ids t => write_idents ids ++ wsym ":" :: write_ty t end
with write_variants (v : variantsection) : words :=
  match v with
  | VariantSection i t vs =>
      wkey "CASE" :: match i with None => [] | Some i => [wident (i_name i); wsym ":"] end ++
      write_ty t ++ wkey "OF" :: semicolons (map write_variant vs) ++ list_end vs
  end
with write_variant (v : recvariant) : words :=
  match v with
  | RecVariant es fl => commas (map write_expr es) ++ wsym ":" :: wsym "(" :: write_fields fl ++ [wsym ")"]
  end
with write_parm (p : formalparm) : words :=
  match p with
  | FormalParm opt ids ty e =>
      match opt with None => [] | Some w => [(ReservedWord, w)] end ++ write_idents ids ++
      match ty with
      | None => []
      | Some (t, isarray) =>
          wsym ":" :: (if isarray then [wkey "ARRAY"; wkey "OF"] else []) ++
          match t with TNil => [wkey "CONST"] | _ => write_ty t end
      end ++ write_value e
  end
with write_csection (x : csection) : words :=
  match x with
  | ClassSection v fs ms ps =>
      write_visibility v ++
      flat_map (fun f => match f with (ids, t) => write_idents ids ++ wsym ":" :: write_ty t ++ [wsym ";"] end) fs ++
      flat_map write_cmethod ms ++ flat_map write_cprop ps
  end
with write_cmethod (x : cmethod) : words :=
  match x with ClassMethod h ds => write_cheading h ++ wsym ";" :: write_method_directives ds end
with write_cheading (h : cheading) : words :=
  match h with
  | HFunc (Heading function i params ret) =>
      wkey (if function then "FUNCTION" else "PROCEDURE") :: wident (i_name i) ::
      match params with None => [] | Some l => wsym "(" :: semicolons (map write_parm l) ++ [wsym ")"] end ++
      write_ret ret
  | HCtor i params =>
      wkey "CONSTRUCTOR" :: wident (i_name i) ::
      match params with None => [] | Some l => wsym "(" :: semicolons (map write_parm l) ++ [wsym ")"] end
  | HDtor i => [wkey "DESTRUCTOR"; wident (i_name i)]
  end
with write_cprop (p : cprop) : words :=
  match p with
  | ClassProp i interface index rd wr stored dflt _ _ =>
      wkey "PROPERTY" :: wident (i_name i) ::
      match interface with
      | None => []
      | Some (params, t) =>
          match params with None => [] | Some l => wsym "[" :: semicolons (map write_parm l) ++ [wsym "]"] end ++
          wsym ":" :: write_typeid t
      end ++ write_clauses index rd wr stored dflt ++ [wsym ";"]
  end.
Definition write_parms (l : option (list formalparm)) : words :=
  match l with None => [] | Some l => wsym "(" :: semicolons (map write_parm l) ++ [wsym ")"] end.
Definition write_heading (h : heading) : words :=
  match h with
  | Heading function i params ret =>
      wkey (if function then "FUNCTION" else "PROCEDURE") :: wident (i_name i) ::
      write_parms params ++ write_ret ret
  end.

Definition write_const (d : constdecl) : words :=
  wident (i_name (cd_ident d)) ::
  match cd_type d with TNil => [] | t => wsym ":" :: write_ty t end ++
  wsym "=" :: write_expr (cd_expr d) ++ [wsym ";"].
Definition write_port (p : option gostring) : words :=
  match p with
  | None => []
  | Some w => [if runes_equal w (rs "LIBRARY") then wkey "LIBRARY" else wident w]
  end.
Definition write_typedecl (d : typedecl) : words :=
  wident (i_name (td_ident d)) :: wsym "=" :: write_ty (td_type d) ++ write_port (td_port d) ++ [wsym ";"].
Definition write_var (d : vardecl) : words :=
  write_idents (vd_idents d) ++ wsym ":" :: write_ty (vd_type d) ++
  match vd_absolute d with None => [] | Some i => [wident (absolute_word st); wident (i_name i)] end ++
  write_value (vd_expr d) ++ [wsym ";"].
Definition write_threadvar (d : threadvardecl) : words :=
  write_idents (tv_idents d) ++ wsym ":" :: write_ty (tv_type d) ++ [wsym ";"].

(** The directives behind a heading; EXTERNAL may have the name of a library, and a name
    there. *)
Definition write_external (o : option extopts) : words :=
  match o with
  | None => []
  | Some x => (CharacterString, xo_lib x) ::
      match xo_name x with None => [] | Some n => [wident (name_word st); (CharacterString, n)] end
  end.
Definition write_directive (o : option extopts) (d : gostring) : words :=
  wident (directive_word st d) :: (if runes_equal d (rs "EXTERNAL") then write_external o else []) ++ [wsym ";"].
Definition write_directives (dirs : option (list gostring)) (o : option extopts) : words :=
  match dirs with None => [] | Some l => flat_map (write_directive o) l end.
Definition write_export (x : exportsitem) : words :=
  wident (i_name (ex_ident x)) ::
  match ex_name x with
  | Some e => wident (name_word st) :: write_expr e
  | None => match ex_index x with Some e => wident (index_word st) :: write_expr e | None => [] end
  end.
Definition write_exports (l : list exportsitem) : words :=
  wkey "EXPORTS" :: commas (map write_export l) ++ [wsym ";"].

Fixpoint write_section (d : declsection) : words :=
  match d with
  | DSLabel i => [wkey "LABEL"; wident (i_name i); wsym ";"]
  | DSConst l => wkey "CONST" :: flat_map write_const l
  | DSType l => wkey "TYPE" :: flat_map write_typedecl l
  | DSVar l => wkey "VAR" :: flat_map write_var l
  | DSThreadVar l => wkey "THREADVAR" :: flat_map write_threadvar l
  | DSFunc h dirs opts b =>
      write_heading h ++ wsym ";" :: write_directives dirs opts ++ write_block b ++ [wsym ";"]
  end
with write_block (b : block) : words :=
  match b with
  | Block ds ex body =>
      match ds with None => [] | Some l => flat_map write_section l end ++
      match ex with None => [] | Some l => flat_map write_exports l end ++
      match body with None => [] | Some x => write_body (statements st) x end
  end.

(** ** Names *)

(** What is known of names at a place: what they stand for, which can be declared in the
    innermost scope, which stand for nothing at all, and which are ordinal types. *)
Record scope := mkScope {
  known : senv;
  free : gostring -> Prop;
  undeclared : gostring -> Prop;
  ordinal : gostring -> Prop }.

(** The state of a parser: its context is [c]. *)
Definition built_in (n : gostring) : Prop :=
  embedded_type_decl EtkReal n <> None \/ embedded_type_decl EtkOrdIdent n <> None \/
  embedded_type_decl EtkStringType n <> None.
Definition scope_at (h : heap) (c : nat) : scope :=
  mkScope (senv_at h c) (vacant h c) (fun n => ctx_get h c n = LNil)
    (fun n => embedded_type_decl EtkOrdIdent n <> None \/
       (~ built_in n /\ exists d t, resolves h c n d (NType t) /\
          match t with TEnum _ | TSubrange _ _ => True | _ => False end)).

(** At the start of a program without a uses clause: the built-in types, and nothing else. *)
Definition program_scope : scope :=
  mkScope
    (mkSenv (mkEnv embedded_get (fun n => embedded_get n = None) (fun n => embedded_get n <> None)
                   (fun _ _ _ _ => False))
            (fun _ => False) (fun _ => True))
    (fun _ => True) (fun n => embedded_get n = None) (fun n => embedded_type_decl EtkOrdIdent n <> None).

(** Behind the declaration of variables, constants, functions or parameters. *)
Definition declare (ns : list gostring) (sc : scope) : scope :=
  mkScope (known sc)
    (fun n => free sc n /\ ~ In (to_lower n) (map to_lower ns))
    (fun n => undeclared sc n /\ ~ In (to_lower n) (map to_lower ns))
    (ordinal sc).
(** Behind the declaration of a type. *)
Definition declare_as_type (n : gostring) (is_ordinal : bool) (sc : scope) : scope :=
  let en := names (known sc) in
  mkScope
    (mkSenv (mkEnv (visible en)
                   (fun m => plain_name en m /\ ~ same_name m n)
                   (fun m => type_name en m \/ same_name m n)
                   (fun m x d d' => member en m x d d' /\ ~ same_name m n))
            (fun m => a_label (known sc) m /\ ~ same_name m n) (no_label (known sc)))
    (fun m => free sc m /\ ~ same_name m n)
    (fun m => undeclared sc m /\ ~ same_name m n)
    (fun m => ordinal sc m /\ ~ same_name m n \/ is_ordinal = true /\ same_name m n /\ ~ built_in m).
(** Behind the declaration of a label. *)
Definition declare_as_label (n : gostring) (sc : scope) : scope :=
  mkScope
    (mkSenv (names (known sc))
            (fun m => a_label (known sc) m \/ same_name m n)
            (fun m => no_label (known sc) m /\ ~ same_name m n))
    (fun m => free sc m /\ ~ same_name m n)
    (fun m => undeclared sc m /\ ~ same_name m n)
    (ordinal sc).
(** In a new scope, where every name can be declared. *)
Definition enter (sc : scope) : scope := mkScope (known sc) (fun _ => True) (undeclared sc) (ordinal sc).
(** Behind an inner scope: what holds both outside and there. *)
Definition leave (outer inner : scope) : scope :=
  let a := known outer in let b := known inner in
  mkScope
    (mkSenv (mkEnv (visible (names a))
                   (fun n => plain_name (names a) n /\ plain_name (names b) n)
                   (fun n => type_name (names a) n /\ type_name (names b) n)
                   (fun n m d d' => member (names a) n m d d' /\ member (names b) n m d d'))
            (fun n => a_label a n /\ a_label b n)
            (fun n => no_label a n /\ no_label b n))
    (fun n => free outer n /\ free inner n)
    (fun n => undeclared outer n /\ undeclared inner n)
    (fun n => ordinal outer n /\ ordinal inner n).

(** [b] knows all that [a] knows. *)
Definition scope_le (a b : scope) : Prop :=
  (forall n, plain_name (names (known a)) n -> plain_name (names (known b)) n) /\
  (forall n, type_name (names (known a)) n -> type_name (names (known b)) n) /\
  (forall n m, (exists d d', member (names (known a)) n m d d') -> exists d d', member (names (known b)) n m d d') /\
  (forall n, a_label (known a) n -> a_label (known b) n) /\
  (forall n, no_label (known a) n -> no_label (known b) n) /\
  (forall n, free a n -> free b n) /\ (forall n, undeclared a n -> undeclared b n) /\
  (forall n, ordinal a n -> ordinal b n).

(** A parser where at least what [sc] says is known of names. *)
Definition knows (s : pst) (sc : scope) : Prop :=
  parser_context s /\ (forall n, ctx_get (s_heap s) (s_ctx s) n <> LPanic) /\
  scope_le sc (scope_at (s_heap s) (s_ctx s)).

(** Names that can be declared together: different ones, not declared in the innermost scope,
    and elsewhere neither types nor namespaces nor labels. *)
Definition may_declare (sc : scope) (ns : list gostring) : Prop :=
  NoDup (map to_lower ns) /\
  forall n, In n ns -> free sc n /\ forall m, same_name m n -> plain_name (names (known sc)) m /\ no_label (known sc) m.

(** [P] of the elements of a list, each in the scope behind those before it, and followed by
    [mid] or, the last one, by [last]. *)
Section Lists.
Context {A : Type} (P : A -> scope -> ttype * gostring -> Prop) (behind_it : A -> scope -> scope)
  (mid last : ttype * gostring).
Fixpoint in_turn (l : list A) (sc : scope) : Prop :=
  match l with
  | [] => True
  | a :: l' => P a sc (match l' with [] => last | _ => mid end) /\ in_turn l' (behind_it a sc)
  end.
Definition behind_all (l : list A) (sc : scope) : scope := fold_left (fun sc a => behind_it a sc) l sc.
End Lists.

(** The names that a type declares: elements of enumerations, and parameters. *)
Fixpoint type_names (t : typ) : list gostring :=
  match t with
  | TEnum es => map (fun x => i_name (fst x)) es
  | TArray _ index base =>
      match index with None => [] | Some l => flat_map type_names l end ++ type_names base
  | TSet _ t => type_names t
  | TRec _ fl => fields_names fl
  | TProc _ params _ _ => match params with None => [] | Some l => flat_map parm_names l end
  | TClass _ mem => match mem with None => [] | Some l => flat_map csection_names l end
  | _ => []
  end
with fields_names (fl : fieldlist) : list gostring :=
  match fl with
  | FieldList ds v => flat_map field_names ds ++ match v with None => [] | Some v => variants_names v end
  end
with field_names (d : fielddecl) : list gostring := match d with FieldDecl _ t => type_names t end
with variants_names (v : variantsection) : list gostring :=
  match v with VariantSection _ t vs => type_names t ++ flat_map variant_names vs end
with variant_names (v : recvariant) : list gostring := match v with RecVariant _ fl => fields_names fl end
with parm_names (p : formalparm) : list gostring :=
  match p with
  | FormalParm _ ids ty _ =>
      match ty with None => [] | Some (t, _) => type_names t end ++ map i_name ids
  end
with csection_names (x : csection) : list gostring :=
  match x with
  | ClassSection _ fs ms ps =>
      flat_map (fun f => match f with (_, t) => type_names t end) fs ++
      flat_map cmethod_names ms ++ flat_map cprop_names ps
  end
with cmethod_names (x : cmethod) : list gostring :=
  match x with
  | ClassMethod (HFunc (Heading _ _ params _)) _ | ClassMethod (HCtor _ params) _ =>
      match params with None => [] | Some l => flat_map parm_names l end
  | ClassMethod (HDtor _) _ => []
  end
with cprop_names (p : cprop) : list gostring :=
  match p with
  | ClassProp _ interface _ _ _ _ _ _ _ =>
      match interface with Some (Some l, _) => flat_map parm_names l | _ => [] end
  end.

(** ** The trees that have a source form *)
Definition idents (l : list ident) : list gostring := map i_name l.
Definition good_value (sc : scope) (e : option expr) : Prop :=
  match e with None => True | Some e => good_expr (names (known sc)) e end.
Definition good_typeid (sc : scope) (i : typeid) : Prop :=
  ti_unit i = None /\
  a_name (known sc) (if is_string (i_name (ti_ident i)) then rs "STRING" else i_name (ti_ident i)).
(** A type that may be an index, the base of a set, or the tag of a variant part. *)
Definition is_ordinal (sc : scope) (t : typ) : Prop :=
  match t with
  | TEnum _ | TSubrange _ _ => True
  | TId i => is_string (i_name (ti_ident i)) = false /\ ordinal sc (i_name (ti_ident i))
  | _ => False
  end.
(** The low bound of a subrange begins with a literal, or is the name of a constant. *)
Definition good_low (sc : scope) (e : expr) : Prop :=
  good_expr (names (known sc)) e /\
  match write_expr e with
  | (NumeralInt, _) :: _ | (NumeralReal, _) :: _ | (CharacterString, _) :: _ => True
  | _ =>
      match e with
      | Expr (SExpr None (Term (FDesignator (Desig (mkQualId None n) []) None) []) []) [] =>
          ~ built_in (i_name (ir_ident n))
      | _ => False
      end
  end.
(** Types that end before their last word as far as the parser is concerned: they can only
    be the type of a type declaration, or the base of an array there. *)
Fixpoint finished (t : typ) : bool :=
  match t with
  | TRec _ _ | TClassRef _ | TClass _ _ => false
  | TArray _ _ base => finished base
  | _ => true
  end.

(** The words at the end of a type that the parser leaves. *)
Fixpoint left_over (t : typ) : words :=
  match t with
  | TRec _ _ | TClass _ _ => [wkey "END"]
  | TClassRef i => write_typeid i
  | TArray _ _ base => left_over base
  | _ => []
  end.

(** The names of the members of a class, of which READ, WRITE and STORED name some. *)
Definition cheading_name (h : cheading) : gostring :=
  match h with HFunc (Heading _ i _ _) | HCtor i _ | HDtor i => i_name i end.
Definition cmethod_name (x : cmethod) : gostring := match x with ClassMethod h _ => cheading_name h end.
Definition cprop_name (p : cprop) : gostring := match p with ClassProp i _ _ _ _ _ _ _ _ => i_name i end.
Definition members_of (x : csection) : list gostring :=
  match x with
  | ClassSection _ fs ms ps => flat_map (fun f => idents (fst f)) fs ++ map cmethod_name ms ++ map cprop_name ps
  end.
Definition accessors (p : cprop) : list gostring :=
  match p with
  | ClassProp _ _ _ rd wr stored _ _ _ =>
      match rd with None => [] | Some r => [i_name (ir_ident r)] end ++
      match wr with None => [] | Some r => [i_name (ir_ident r)] end ++
      match stored with Some (StoredIdent r) => [i_name (ir_ident r)] | _ => [] end
  end.
Definition a_member (l : list csection) (n : gostring) : Prop :=
  to_lower (to_lower n) = to_lower n /\ In (to_lower n) (map to_lower (flat_map members_of l)).
(** A property may name the members of the sections before it, and the fields and methods of
    its own. *)
Fixpoint accessible (before l : list csection) : Prop :=
  match l with
  | [] => True
  | ClassSection v fs ms ps :: l' =>
      Forall (fun p => Forall (a_member (before ++ [ClassSection v fs ms []])) (accessors p)) ps /\
      accessible (before ++ [ClassSection v fs ms ps]) l'
  end.
(** The first section may do without a visibility if it has fields. *)
Definition sections_begin (l : list csection) : Prop :=
  match l with
  | [] => False
  | ClassSection v fs _ _ :: l' =>
      (v = CvDefault -> fs <> []) /\ Forall (fun x => match x with ClassSection v _ _ _ => v <> CvDefault end) l'
  end.
Definition has_properties (l : list csection) : bool :=
  existsb (fun x => match x with ClassSection _ _ _ [] => false | _ => true end) l.
Definition good_heritage (sc : scope) (her : option (list typeid)) : Prop :=
  match her with None => True | Some l => l <> [] /\ Forall (good_typeid sc) l end.
(** The first ancestor, if there is one, stands for nothing, and so has no properties. *)
Definition no_parent (sc : scope) (her : option (list typeid)) : Prop :=
  match her with
  | Some (p :: _) => is_string (i_name (ti_ident p)) = false /\ undeclared sc (i_name (ti_ident p))
  | _ => True
  end.
Definition good_clauses (sc : scope) (index : option expr) (stored : option cstored) (dflt : option cdefault) : Prop :=
  good_value sc index /\
  match stored with
  | Some (StoredIdent r) => ~ In (to_lower (i_name (ir_ident r))) (map rs ["true"; "false"]%string)
  | _ => True
  end /\
  match dflt with
  | None => True
  | Some (DefaultValue e) => good_expr (names (known sc)) e
  | Some NoDefault => False
  end.

(** [good_ty t sc after]: in the scope [sc] and before the word [after], with which the type
    must not go on. *)
Fixpoint good_ty (t : typ) (sc : scope) (after : ttype * gostring) : Prop :=
  match t with
  | TId i =>
      ti_unit i = None /\
      if is_string (i_name (ti_ident i)) then after <> wsym "["
      else a_name (known sc) (i_name (ti_ident i)) /\ snd after <> rs ".."
  | TEnum es =>
      es <> [] /\
      in_turn (fun x sc _ => good_value sc (snd x) /\ may_declare sc [i_name (fst x)])
        (fun x => declare [i_name (fst x)]) weof weof es sc
  | TSubrange low high => good_low sc low /\ good_expr (names (known sc)) high /\ ~ In after goes_on
  | TPointer i | TFile _ i => good_typeid sc i
  | TFixedString i e =>
      ti_unit i = None /\ is_string (i_name (ti_ident i)) = true /\ good_expr (names (known sc)) e
  | TArray _ index base =>
      match index with
      | None => True
      | Some l =>
          l <> [] /\
          in_turn (fun t sc after => finished t = true /\ good_ty t sc after /\ is_ordinal sc t)
            (fun t => declare (type_names t)) (wsym ",") (wsym "]") l sc
      end /\
      good_ty base (declare (match index with None => [] | Some l => flat_map type_names l end) sc) after /\
      after <> wkey "PACKED"
  | TSet _ t => finished t = true /\ good_ty t sc after /\ is_ordinal sc t
  | TRec _ fl => good_fields fl sc
  | TProc function params ret ofobject =>
      match params with
      | None => function = true \/ after <> wsym "(" \/ ofobject = true
      | Some l =>
          l <> [] /\
          in_turn good_parm (fun p => declare (parm_names p)) (wsym ";") (wsym ")") l (enter sc)
      end /\
      match ret with None => function = false | Some i => function = true /\ good_typeid sc i end /\
      (ofobject = false -> after <> wkey "OF")
  | TClassRef i => ti_unit i = None /\ is_string (i_name (ti_ident i)) = false /\ a_name (known sc) (i_name (ti_ident i))
  | TFwdClass _ => after = wsym ";"
  | TClass her mem =>
      good_heritage sc her /\
      match mem with
      | None => True
      | Some l =>
          sections_begin l /\ accessible [] l /\ (has_properties l = true -> no_parent sc her) /\
          in_turn good_csection (fun x => declare (csection_names x)) weof weof l sc
      end
  | TNil | TEmbedded _ _ => False
  end
with good_fields (fl : fieldlist) (sc : scope) : Prop :=
  match fl with
  | FieldList ds v =>
      in_turn good_field (fun d => declare (field_names d)) (wsym ";")
        (match v with None => behind (statements st) true (wkey "END") | Some _ => wsym ";" end) ds sc /\
      match v with None => True | Some v => good_variants v (declare (flat_map field_names ds) sc) end
  end
with good_field (d : fielddecl) (sc : scope) (after : ttype * gostring) : Prop :=
  match d with FieldDecl ids t => ids <> [] /\ finished t = true /\ good_ty t sc after end
with good_variants (v : variantsection) (sc : scope) : Prop :=
  match v with
  | VariantSection i t vs =>
      finished t = true /\ good_ty t sc (wkey "OF") /\ is_ordinal sc t /\
      match i with None => match write_ty t with (Identifier, _) :: _ => True | _ => False end | Some _ => True end /\
      in_turn good_variant (fun v => declare (variant_names v)) (wsym ";")
        (behind (statements st) true (wkey "END")) vs (declare (type_names t) sc)
  end
with good_variant (v : recvariant) (sc : scope) (after : ttype * gostring) : Prop :=
  match v with
  | RecVariant es fl =>
      es <> [] /\ all (good_expr (names (known sc))) es /\
      match fl with
      | FieldList ds (Some _) => False
      | FieldList ds None =>
          in_turn good_field (fun d => declare (field_names d)) (wsym ";")
            (behind (statements st) true (wsym ")")) ds sc
      end
  end
with good_parm (p : formalparm) (sc : scope) (after : ttype * gostring) : Prop :=
  match p with
  | FormalParm opt ids ty e =>
      match opt with None => True | Some w => In w (map rs ["VAR"; "CONST"; "OUT"]%string) end /\
      ids <> [] /\
      match ty with
      | None => e = None
      | Some (TNil, isarray) => isarray = true
      | Some (t, isarray) =>
          finished t = true /\ good_ty t sc (match e with None => after | Some _ => wsym "=" end) /\
          (isarray = false -> match t with TArray false _ _ => False | _ => True end)
      end /\
      let sc' := declare (match ty with None => [] | Some (t, _) => type_names t end) sc in
      good_value sc' e /\ may_declare sc' (idents ids)
  end
(** The type of a field is followed by a semicolon, and its first name is no visibility. *)
with good_csection (x : csection) (sc : scope) (after : ttype * gostring) : Prop :=
  match x with
  | ClassSection v fs ms ps =>
      in_turn (fun f sc after =>
          match f with
          | (ids, t) =>
              match ids with [] => False | i :: _ => ~ In (to_upper (i_name i)) visibility_words end /\
              finished t = true /\ good_ty t sc after
          end) (fun f => declare (match f with (_, t) => type_names t end)) (wsym ";") (wsym ";") fs sc /\
      let sc1 := declare (flat_map (fun f => match f with (_, t) => type_names t end) fs) sc in
      in_turn good_cmethod (fun x => declare (cmethod_names x)) weof weof ms sc1 /\
      in_turn good_cprop (fun p => declare (cprop_names p)) weof weof ps (declare (flat_map cmethod_names ms) sc1)
  end
with good_cmethod (x : cmethod) (sc : scope) (after : ttype * gostring) : Prop :=
  match x with
  | ClassMethod h ds => good_cheading h (enter sc) /\ Forall (fun d => In d method_words) ds
  end
with good_cheading (h : cheading) (sc : scope) : Prop :=
  match h with
  | HFunc (Heading function _ params ret) =>
      match params with
      | None => True
      | Some l => l <> [] /\ in_turn good_parm (fun p => declare (parm_names p)) (wsym ";") (wsym ")") l sc
      end /\
      match ret with None => function = false | Some r => function = true /\ good_typeid sc r end
  | HCtor _ params =>
      match params with
      | None => True
      | Some l => l <> [] /\ in_turn good_parm (fun p => declare (parm_names p)) (wsym ";") (wsym ")") l sc
      end
  | HDtor _ => True
  end
(** NODEFAULT and IMPLEMENTS cannot be read. *)
with good_cprop (p : cprop) (sc : scope) (after : ttype * gostring) : Prop :=
  match p with
  | ClassProp _ interface index rd wr stored dflt impl _ =>
      match interface with
      | None => True
      | Some (params, t) =>
          match params with
          | None => True
          | Some l => l <> [] /\ in_turn good_parm (fun p => declare (parm_names p)) (wsym ";") (wsym "]") l (enter sc)
          end /\ good_typeid sc t
      end /\
      good_clauses sc index stored dflt /\ impl = None
  end.

(** Parameters are declared in the scope of the function. *)
Definition good_heading (h : heading) (sc : scope) : Prop :=
  match h with
  | Heading function i params ret =>
      match params with
      | None => True
      | Some l => l <> [] /\ in_turn good_parm (fun p => declare (parm_names p)) (wsym ";") (wsym ")") l sc
      end /\
      match ret with None => function = false | Some r => function = true /\ good_typeid sc r end
  end.
Definition heading_names (h : heading) : list gostring :=
  match h with Heading _ _ params _ => match params with None => [] | Some l => flat_map parm_names l end end.
Definition heading_name (h : heading) : gostring := match h with Heading _ i _ _ => i_name i end.

(** A constant is declared before its type and value, a variable behind them. *)
Definition good_const (d : constdecl) (sc : scope) : Prop :=
  may_declare sc [i_name (cd_ident d)] /\
  let sc1 := declare [i_name (cd_ident d)] sc in
  match cd_type d with
  | TNil => True
  | t => finished t = true /\ good_ty t sc1 (wsym "=")
  end /\
  good_expr (names (known (declare (type_names (cd_type d)) sc1))) (cd_expr d).
Definition after_const (d : constdecl) (sc : scope) : scope :=
  declare (type_names (cd_type d)) (declare [i_name (cd_ident d)] sc).
Definition good_var (d : vardecl) (sc : scope) : Prop :=
  vd_idents d <> [] /\ finished (vd_type d) = true /\
  good_ty (vd_type d) sc
    (match vd_absolute d with
     | Some _ => wident (absolute_word st)
     | None => match vd_expr d with Some _ => wsym "=" | None => wsym ";" end
     end) /\
  let sc1 := declare (type_names (vd_type d)) sc in
  good_value sc1 (vd_expr d) /\ may_declare sc1 (idents (vd_idents d)).
Definition after_var (d : vardecl) (sc : scope) : scope :=
  declare (idents (vd_idents d)) (declare (type_names (vd_type d)) sc).
Definition good_threadvar (d : threadvardecl) (sc : scope) : Prop :=
  tv_idents d <> [] /\ finished (tv_type d) = true /\ good_ty (tv_type d) sc (wsym ";") /\
  may_declare (declare (type_names (tv_type d)) sc) (idents (tv_idents d)).
Definition after_threadvar (d : threadvardecl) (sc : scope) : scope :=
  declare (idents (tv_idents d)) (declare (type_names (tv_type d)) sc).
(** The name of a type must stand for nothing. *)
Definition good_typedecl (d : typedecl) (sc : scope) : Prop :=
  match td_port d with
  | None => good_ty (td_type d) sc (wsym ";")
  | Some w => finished (td_type d) = false /\ In (to_upper w) portability_directives /\
      (to_upper w = rs "LIBRARY" -> w = rs "LIBRARY") /\ good_ty (td_type d) sc (hd weof (write_port (td_port d)))
  end /\
  let sc1 := declare (type_names (td_type d)) sc in
  undeclared sc1 (i_name (td_ident d)) /\ free sc1 (i_name (td_ident d)).
Definition enumerates (t : typ) : bool := match t with TEnum _ | TSubrange _ _ => true | _ => false end.
Definition after_typedecl (d : typedecl) (sc : scope) : scope :=
  declare_as_type (i_name (td_ident d)) (enumerates (td_type d)) (declare (type_names (td_type d)) sc).

Definition good_directives (dirs : option (list gostring)) (o : option extopts) : Prop :=
  match dirs with
  | None => o = None
  | Some l =>
      l <> [] /\ Forall (fun d => In d directives) l /\
      match o with
      | None => True
      | Some x => In (rs "EXTERNAL") l /\ xo_index x = None
      end
  end.
Definition good_export (sc : scope) (x : exportsitem) : Prop :=
  match ex_name x, ex_index x with
  | None, None => True
  | Some e, None | None, Some e => good_expr (names (known sc)) e
  | Some _, Some _ => False
  end.

Fixpoint after_section (d : declsection) (sc : scope) : scope :=
  match d with
  | DSLabel i => declare_as_label (i_name i) sc
  | DSConst l => behind_all after_const l sc
  | DSType l => behind_all after_typedecl l sc
  | DSVar l => behind_all after_var l sc
  | DSThreadVar l => behind_all after_threadvar l sc
  | DSFunc h _ _ b =>
      leave sc (after_block b (declare [heading_name h] (declare (heading_names h) (enter sc))))
  end
with after_block (b : block) (sc : scope) : scope :=
  match b with
  | Block ds _ body =>
      declare match body with None => [] | Some x => body_vars x end
        match ds with None => sc | Some l => behind_all after_section l sc end
  end.
(** Sections are not empty; a block has a compound statement. *)
Fixpoint good_section (d : declsection) (sc : scope) : Prop :=
  match d with
  | DSLabel i => free sc (i_name i) /\ forall m, same_name m (i_name i) -> plain_name (names (known sc)) m
  | DSConst l => l <> [] /\ in_turn (fun d sc _ => good_const d sc) after_const weof weof l sc
  | DSType l => l <> [] /\ in_turn (fun d sc _ => good_typedecl d sc) after_typedecl weof weof l sc
  | DSVar l => l <> [] /\ in_turn (fun d sc _ => good_var d sc) after_var weof weof l sc
  | DSThreadVar l => l <> [] /\ in_turn (fun d sc _ => good_threadvar d sc) after_threadvar weof weof l sc
  | DSFunc h dirs opts b =>
      good_heading h (enter sc) /\
      let sc1 := declare (heading_names h) (enter sc) in
      may_declare sc1 [heading_name h] /\ good_directives dirs opts /\
      good_block b (declare [heading_name h] sc1)
  end
with good_block (b : block) (sc : scope) : Prop :=
  match b with
  | Block ds ex body =>
      match ds with
      | None => True
      | Some l => l <> [] /\ in_turn (fun d sc _ => good_section d sc) after_section weof weof l sc
      end /\
      let sc1 := match ds with None => sc | Some l => behind_all after_section l sc end in
      match ex with
      | None => True
      | Some l => l <> [] /\ Forall (fun x => x <> [] /\ Forall (good_export sc1) x) l
      end /\
      match body with
      | Some (SCompound l) =>
          good_body (statements st) (known sc1) (SCompound l) (wsym ";") /\
          may_declare sc1 (body_vars (SCompound l))
      | _ => False
      end
  end.
End Style.

(** ** Trees without places and references *)
(** STRING is a reserved word, which the tokenizer changes to upper case. *)
Definition bare_tid (i : typeid) : typeid :=
  mkTypeId (option_map bare_ident (ti_unit i))
    (mkIdent (if is_string (i_name (ti_ident i)) then rs "STRING" else i_name (ti_ident i)) None) 0.
Fixpoint bare_ty (t : typ) : typ :=
  match t with
  | TNil => TNil
  | TId i => TId (bare_tid i)
  | TEmbedded k i => TEmbedded k (bare_ident i)
  | TEnum es => TEnum (map (fun x => (bare_ident (fst x), option_map bare_expr (snd x))) es)
  | TSubrange low high => TSubrange (bare_expr low) (bare_expr high)
  | TPointer i => TPointer (bare_tid i)
  | TFixedString i e => TFixedString (bare_tid i) (bare_expr e)
  | TArray packed index base => TArray packed (option_map (map bare_ty) index) (bare_ty base)
  | TSet packed t => TSet packed (bare_ty t)
  | TRec packed fl => TRec packed (bare_fields fl)
  | TFile packed i => TFile packed (bare_tid i)
  | TProc function params ret ofobject =>
      TProc function (option_map (map bare_parm) params) (option_map bare_tid ret) ofobject
  | TFwdClass _ => TFwdClass 0
  | TClassRef i => TClassRef (bare_tid i)
  | TClass her mem => TClass (option_map (map bare_tid) her) (option_map (map bare_csection) mem)
  end
with bare_fields (fl : fieldlist) : fieldlist :=
  match fl with FieldList ds v => FieldList (map bare_field ds) (option_map bare_variants v) end
with bare_field (d : fielddecl) : fielddecl :=
  match d with FieldDecl ids t => FieldDecl (map bare_ident ids) (bare_ty t) end
with bare_variants (v : variantsection) : variantsection :=
  match v with VariantSection i t vs => VariantSection (option_map bare_ident i) (bare_ty t) (map bare_variant vs) end
with bare_variant (v : recvariant) : recvariant :=
  match v with RecVariant es fl => RecVariant (map bare_expr es) (bare_fields fl) end
with bare_parm (p : formalparm) : formalparm :=
  match p with
  | FormalParm opt ids ty e =>
      FormalParm opt (map bare_ident ids)
        (match ty with None => None | Some (t, a) => Some (bare_ty t, a) end) (option_map bare_expr e)
  end
with bare_csection (x : csection) : csection :=
  match x with
  | ClassSection v fs ms ps =>
      ClassSection v (map (fun f => match f with (ids, t) => (map bare_ident ids, bare_ty t) end) fs)
        (map bare_cmethod ms) (map bare_cprop ps)
  end
with bare_cmethod (x : cmethod) : cmethod :=
  match x with ClassMethod h ds => ClassMethod (bare_cheading h) ds end
with bare_cheading (h : cheading) : cheading :=
  match h with
  | HFunc (Heading function i params ret) =>
      HFunc (Heading function (bare_ident i) (option_map (map bare_parm) params) (option_map bare_tid ret))
  | HCtor i params => HCtor (bare_ident i) (option_map (map bare_parm) params)
  | HDtor i => HDtor (bare_ident i)
  end
(** The property of the ancestor with the same name is a reference. *)
with bare_cprop (p : cprop) : cprop :=
  match p with
  | ClassProp i interface index rd wr stored dflt impl _ =>
      ClassProp (bare_ident i)
        (match interface with None => None | Some (params, t) => Some (option_map (map bare_parm) params, bare_tid t) end)
        (option_map bare_expr index) (option_map bare_ref rd) (option_map bare_ref wr)
        (match stored with Some (StoredIdent r) => Some (StoredIdent (bare_ref r)) | x => x end)
        (match dflt with Some (DefaultValue e) => Some (DefaultValue (bare_expr e)) | x => x end)
        (option_map bare_tid impl) None
  end.
Definition bare_heading (h : heading) : heading :=
  match h with
  | Heading function i params ret =>
      Heading function (bare_ident i) (option_map (map bare_parm) params) (option_map bare_tid ret)
  end.
Definition bare_const (d : constdecl) : constdecl :=
  mkConstDecl (bare_ident (cd_ident d)) (bare_ty (cd_type d)) (bare_expr (cd_expr d)).
Definition bare_typedecl (d : typedecl) : typedecl :=
  mkTypeDecl (bare_ident (td_ident d)) (bare_ty (td_type d)) (td_port d).
Definition bare_var (d : vardecl) : vardecl :=
  mkVarDecl (map bare_ident (vd_idents d)) (bare_ty (vd_type d)) (option_map bare_ident (vd_absolute d))
    (option_map bare_expr (vd_expr d)).
Definition bare_threadvar (d : threadvardecl) : threadvardecl :=
  mkThreadVarDecl (map bare_ident (tv_idents d)) (bare_ty (tv_type d)).
Definition bare_export (x : exportsitem) : exportsitem :=
  mkExports (bare_ident (ex_ident x)) (option_map bare_expr (ex_name x)) (option_map bare_expr (ex_index x)).
Fixpoint bare_section (d : declsection) : declsection :=
  match d with
  | DSLabel i => DSLabel (bare_ident i)
  | DSConst l => DSConst (map bare_const l)
  | DSType l => DSType (map bare_typedecl l)
  | DSVar l => DSVar (map bare_var l)
  | DSThreadVar l => DSThreadVar (map bare_threadvar l)
  | DSFunc h dirs opts b => DSFunc (bare_heading h) dirs opts (bare_block b)
  end
with bare_block (b : block) : block :=
  match b with
  | Block ds ex body =>
      Block (option_map (map bare_section) ds) (option_map (map (map bare_export)) ex) (option_map bare_body body)
  end.

End WithUnicode.
