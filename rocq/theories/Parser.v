(** The methods of the parser on expressions, types, classes, statements and blocks.
    Model of /repo/parser/{expression,unit,ident,ident_list,type*,function*,const,var,
    statement*,block}.go. *)
From Coq Require Import String List NArith Bool Arith.
From Verif Require Import Runes Token Tokenizer Ast Ext Heap Classes Prog.
Import ListNotations.
Local Open Scope list_scope.
Local Open Scope prog_scope.

(** Recursive calls behind a consumed token, and the bound of loops.  The methods are
    mutually recursive; each takes the ones it calls recursively from a [recs], and
    [recs_at] below ties the knot. *)
Record recs := mkRecs {
  r_fuel : nat;
  r_expr : prog expr;
  r_factor : prog factor;
  r_type : prog typ;
  r_fields : predicator -> prog fieldlist;
  r_stmt : prog stmt;
  r_block : prog block }.

Definition sym (s : string) : predicator := p_symbol (rs s).
(** Comparison of a string with a literal *)
Definition eqs (v : gostring) (s : string) : bool := runes_equal v (rs s).
Definition eqs_any (v : gostring) (l : list string) : bool := existsb (eqs v) l.

Section WithUnicode.
Context {U : Unicode}.

(** [token.ReservedWord.HasKeyword(s)] *)
Definition kw (s : string) : predicator := p_keyword ReservedWord (rs s).
(** [token.UpperCase(s)] *)
Definition upper_is (s : string) : predicator := p_upper (rs s).
(** [strings.ToUpper(t.Value()) == s] *)
Definition upper_eq (t : token) (s : string) : bool := eqs (to_upper (value t)) s.

(** ast/manifest_constants.go:9-16 *)
Definition is_manifest_constant (w : gostring) : bool :=
  str_in (to_upper w) (map rs ["FALSE"; "TRUE"]%string).

(** parser/expression.go:54-63 *)
Definition rel_op : predicator := p_some
  [sym ">"; sym "<"; p_has_text SpecialSymbol (rs "<="); p_has_text SpecialSymbol (rs ">=");
   sym "="; p_has_text SpecialSymbol (rs "<>"); kw "IN"; kw "IS"].
(** parser/expression.go:98-101 *)
Definition unary_op : predicator := p_some [sym "+"; sym "-"].
(** parser/expression.go:103-108 *)
Definition add_op : predicator := p_some [sym "+"; sym "-"; kw "OR"; kw "XOR"].
(** parser/expression.go:135-143 *)
Definition mul_op : predicator := p_some
  [sym "*"; sym "/"; kw "DIV"; kw "MOD"; kw "AND"; kw "SHL"; kw "SHR"].

(** parser/unit.go:8-17: IsUnitIdentifier *)
Definition is_unit_identifier (t : token) : prog bool :=
  d <- get_node (value t) ;;
  Ret (match d with Some (_, NUses _) => true | _ => false end).
(** parser/unit.go:19-28: IsNamespaceIdentifier; units and programs are the namespaces
    (ast/unit.go:25, ast/program.go) *)
Definition is_namespace_identifier (t : token) : prog bool :=
  d <- get_node (value t) ;;
  Ret (match d with Some (_, NUnit _) | Some (_, NProgram _) => true | _ => false end).

(** parser/ident.go:12-14: NewIdentRef *)
Definition new_ident_ref (t : token) : prog identref :=
  d <- get (raw t) ;; Ret (mkIdentRef (new_ident t) d).

(** [usesClauseItem.Unit] *)
Definition uses_item_unit (a : nat) : prog (option nat) :=
  OnHeap (fun _ h => match nth_error (h_uses h) a with Some o => HOk (u_unit o) h | None => HPanic end).
(** [namespace.GetDeclMap().Get(name)] of a unit and of a program *)
Definition unit_get (a : nat) (name : gostring) : prog (option dref) :=
  OnHeap (fun _ h => match nth_error (h_units h) a with
                     | None => HPanic
                     | Some o => match dget h (un_map o) name with
                                 | LNil => HOk None h
                                 | LFound d => HOk (Some d) h
                                 | LPanic => HPanic
                                 end
                     end).
Definition program_get (a : nat) (name : gostring) : prog (option dref) :=
  OnHeap (fun _ h => match nth_error (h_progs h) a with
                     | None => HPanic
                     | Some o => match dget h (pr_map o) name with
                                 | LNil => HOk None h
                                 | LFound d => HOk (Some d) h
                                 | LPanic => HPanic
                                 end
                     end).

(** parser/unit.go:50-94: ParseQualId *)
Definition parse_qual_id : prog qualid :=
  name1 <- expect (p_type Identifier) ;;
  b1 <- is_namespace_identifier name1 ;;
  b2 <- (if b1 then Ret true else is_unit_identifier name1) ;;
  if b2 : bool then
    expect_next (sym ".") ;;;
    name2 <- expect_next (p_type Identifier) ;;
    ns <- get_node (value name1) ;;
    match ns with
    | None => FailAt name1
    | Some (nsd, n) =>
        d <- match n with
             | NUses a =>
                 u <- uses_item_unit a ;;
                 match u with
                 | None => FailAt name1
                 | Some u => unit_get u (value name2)
                 end
             | NUnit u => unit_get u (value name2)
             | NProgram a => program_get a (value name2)
             | _ => FailAt name1
             end ;;
        match d with
        | None => FailAt name2
        | Some d =>
            Next ;;;
            Ret (mkQualId (Some (mkIdentRef (new_ident name1) (Some nsd)))
                          (mkIdentRef (new_ident name2) (Some d)))
        end
    end
  else
    Next ;;;
    r <- new_ident_ref name1 ;;
    Ret (mkQualId None r).

(** parser/ident_list.go:8-33: ParseIdentListBy, ParseIdentList *)
Definition parse_ident : prog ident :=
  t <- expect (p_type Identifier) ;;
  Next ;;;
  Ret (new_ident t).
Definition parse_ident_list_by (fuel : nat) (terminator : predicator) : prog (list ident) :=
  l <- until_list fuel terminator (Some (sym ",")) parse_ident ;;
  expect terminator ;;;
  Ret l.

(** parser/expression.go:242-267 *)
Definition parse_manifest_constant (t : token) : prog factor := Next ;;; Ret (FValue (value t)).
Definition parse_string_factor (t : token) (skip : bool) : prog gostring :=
  if skip || p_type CharacterString t then Next ;;; Ret (value t) else FailAt t.
Definition parse_number_factor (t : token) (skip : bool) : prog gostring :=
  if skip || p_type CharacterString t then Next ;;; Ret (value t) else FailAt t.

Section Methods.
Context (R : recs).

(** parser/unit.go:30-48: ParseQualIds *)
Definition parse_qual_ids : prog (list qualid) :=
  until_list (r_fuel R) (p_not (sym ",")) (Some (sym ",")) parse_qual_id.

(** parser/expression.go:8-25: ParseExprList.  Called behind a consumed bracket. *)
Definition expr_list_step (terminator : predicator) (l : list expr) : prog (list expr + list expr) :=
  e <- r_expr R ;;
  b <- is terminator ;;
  if b : bool then Ret (inr (l ++ [e])) else
  expect (sym ",") ;;; Next ;;; Ret (inl (l ++ [e])).
Definition parse_expr_list (terminator : predicator) : prog (list expr) :=
  loop (r_fuel R) (expr_list_step terminator) [].

(** parser/expression.go:269-310: ParseDesignator, the loop and the whole *)
Definition designator_step (items : list ditem) : prog (list ditem + list ditem) :=
  t <- Cur ;;
  match t with
  | None => Ret (inr items)                 (* [p.Current] fails: break *)
  | Some t =>
      if negb (p_type SpecialSymbol t) then Ret (inr items) else
      let v := value t in
      item <- (if eqs v "." then
                 t1 <- expect_next (p_type Identifier) ;; Ret (Some (DIdent (new_ident t1)))
               else if eqs v "[" then
                 Next ;;; l <- parse_expr_list (sym "]") ;; Ret (Some (DIndex l))
               else if eqs v "^" then Ret (Some DDeref)
               else Ret None) ;;
      match item with
      | None => Ret (inr items)
      | Some item => Next ;;; Ret (inl (items ++ [item]))
      end
  end.
Definition parse_designator : prog desig :=
  expect (p_type Identifier) ;;;
  q <- parse_qual_id ;;
  items <- loop (r_fuel R) designator_step [] ;;
  Ret (Desig q items).

(** parser/expression.go:331-347: ParseSetElement.  Called behind a consumed token. *)
Definition parse_set_element : prog (expr * option expr) :=
  e1 <- r_expr R ;;
  b <- is (p_has_text SpecialSymbol (rs "..")) ;;
  if b : bool then
    Next ;;; e2 <- r_expr R ;; Ret (e1, Some e2)
  else Ret (e1, None).
(** parser/expression.go:312-329: ParseSetConstructor *)
Definition parse_set_constructor : prog factor :=
  expect (sym "[") ;;;
  Next ;;;
  es <- until_list (r_fuel R) (sym "]") (Some (sym ",")) parse_set_element ;;
  Ret (FSet es).

(** parser/expression.go:198-215: a type name in a factor is a cast when a parenthesis
    follows *)
Definition parse_cast (t0 : token) (d : dref) : prog (option factor) :=
  Attempt (
    ti <- new_type_id None (new_ident t0) (Some d) ;;
    Next ;;;
    b <- is (sym "(") ;;
    if b : bool then
      Next ;;;
      e <- r_expr R ;;
      expect (sym ")") ;;;
      Next ;;;
      Ret (Some (FCast ti e))
    else Ret None).

(** parser/expression.go:220-236 *)
Definition parse_designator_factor : prog factor :=
  d <- parse_designator ;;
  b <- is (sym "(") ;;
  if b : bool then
    Next ;;;
    l <- parse_expr_list (sym ")") ;;
    Next ;;;
    Ret (FDesignator d (Some l))
  else Ret (FDesignator d None).

(** parser/expression.go:145-240: ParseFactor *)
Definition parse_factor : prog factor :=
  t0 <- cur ;;
  let v := value t0 in
  if p_type SpecialSymbol t0 then
    if eqs v "@" then Next ;;; d <- parse_designator ;; Ret (FAddress d)
    else if eqs v "[" then s <- parse_set_constructor ;; Next ;;; Ret s
    else if eqs v "(" then
      Next ;;;
      e <- r_expr R ;;
      expect (sym ")") ;;;
      Next ;;;
      Ret (FParen e)
    else FailAt t0
  else if p_type ReservedWord t0 then
    if eqs v "NIL" then Next ;;; Ret FNil
    else if eqs v "NOT" then Next ;;; f <- r_factor R ;; Ret (FNot f)
    else FailAt t0
  else if is_manifest_constant v then parse_manifest_constant t0
  else if p_type CharacterString t0 then s <- parse_string_factor t0 true ;; Ret (FString s)
  else if p_some [p_type NumeralInt; p_type NumeralReal] t0 then
    s <- parse_number_factor t0 true ;; Ret (FNumber s)
  else if p_type Identifier t0 then
    d <- get_node v ;;
    c <- match d with
         | Some (d, NType _) => parse_cast t0 d
         | _ => Ret None
         end ;;
    match c with
    | Some f => Ret f
    | None => parse_designator_factor
    end
  else FailAt t0.

(** parser/expression.go:110-133: ParseTerm *)
Definition term_step (l : list (gostring * factor)) : prog (list (gostring * factor) + list (gostring * factor)) :=
  t <- cur ;;
  if mul_op t then
    Next ;;; f <- parse_factor ;; Ret (inl (l ++ [(value t, f)]))
  else Ret (inr l).
Definition parse_term : prog term :=
  f <- parse_factor ;;
  l <- loop (r_fuel R) term_step [] ;;
  Ret (Term f l).

(** parser/expression.go:65-96: ParseSimpleExpression *)
Definition simple_step (l : list (gostring * term)) : prog (list (gostring * term) + list (gostring * term)) :=
  t <- cur ;;
  if add_op t then
    Next ;;; f <- parse_term ;; Ret (inl (l ++ [(value t, f)]))
  else Ret (inr l).
Definition parse_simple_expression : prog sexpr :=
  t <- cur ;;
  u <- (if unary_op t then Next ;;; Ret (Some (value t)) else Ret None) ;;
  tm <- parse_term ;;
  l <- loop (r_fuel R) simple_step [] ;;
  Ret (SExpr u tm l).

(** parser/expression.go:27-52: ParseExpression *)
Definition expression_step (l : list (gostring * sexpr)) : prog (list (gostring * sexpr) + list (gostring * sexpr)) :=
  t <- cur ;;
  if rel_op t then
    Next ;;; s <- parse_simple_expression ;; Ret (inl (l ++ [(value t, s)]))
  else Ret (inr l).
Definition parse_expression : prog expr :=
  s <- parse_simple_expression ;;
  l <- loop (r_fuel R) expression_step [] ;;
  Ret (Expr s l).
(** parser/const.go:72-75 *)
Definition parse_const_expr : prog expr := parse_expression.

(** ** Types *)

(** parser/type.go:160-173: parseTypeIdWithUnit; the reference is not set and the
    identifier not consumed *)
Definition parse_type_id_with_unit : prog (option typeid) :=
  t <- cur ;;
  b <- is_unit_identifier t ;;
  if b : bool then
    expect_next (sym ".") ;;;
    t1 <- expect_next (p_type Identifier) ;;
    r <- new_type_id (Some (new_ident t)) (new_ident t1) None ;;
    Ret (Some r)
  else Ret None.
(** parser/type.go:175-194: parseTypeIdWithoutUnit *)
Definition parse_type_id_without_unit : prog typeid :=
  t <- cur ;;
  Next ;;;
  d <- get (raw t) ;;
  r <- new_type_id None (new_ident t) d ;;
  match d with
  | None => AddPost (ti_ref r) (raw t) ;;; Ret r
  | Some _ => Ret r
  end.
(** parser/type.go:152-158: ParseTypeId *)
Definition parse_type_id : prog typeid :=
  r <- parse_type_id_with_unit ;;
  match r with Some r => Ret r | None => parse_type_id_without_unit end.

(** parser/type_simple.go:9-33, type_string.go:8-19, type_variant.go:7-18, all with
    [required] false (the only way ParseType calls them) or true *)
Definition parse_embedded (k : ekind) (required : bool) : prog (option typeid) :=
  t <- cur ;;
  match embedded_type_decl k (value t) with
  | Some d => Next ;;; r <- new_type_id None (new_ident t) (Some d) ;; Ret (Some r)
  | None => if required then FailAt t else Ret None
  end.

(** ast/const.go:66-68, ast/expression.go:19-28, 114-123, 178-187, 286-293, 326-331 *)
Definition const_expr_of_qual_id (q : qualid) : expr :=
  Expr (SExpr None (Term (FDesignator (Desig q []) None) []) []) [].
(** parser/type_simple.go:35-59: parseSubrangeTypeForIdentifier(false).  The error of the
    high bound is returned without rolling back. *)
Definition parse_subrange_for_identifier : prog (option typ) :=
  Attempt (
    t1 <- cur ;;
    t2 <- next ;;
    if p_value (rs "..") t2 then
      Next ;;;
      e <- r_expr R ;;
      r <- new_ident_ref t1 ;;
      Ret (Some (TSubrange (const_expr_of_qual_id (mkQualId None r)) e))
    else Ret None).

(** parser/type.go:136-150: ParseTypeForIdentifier *)
Definition parse_type_for_identifier : prog typ :=
  r <- parse_type_id_with_unit ;;
  match r with Some r => Ret (TId r) | None =>
  r <- parse_embedded EtkReal false ;;
  match r with Some r => Ret (TId r) | None =>
  r <- parse_embedded EtkOrdIdent false ;;
  match r with Some r => Ret (TId r) | None =>
  r <- parse_embedded EtkStringType false ;;
  match r with Some r => Ret (TId r) | None =>
  r <- parse_subrange_for_identifier ;;
  match r with Some r => Ret r | None =>
  r <- parse_type_id_without_unit ;; Ret (TId r)
  end end end end end.

(** parser/type.go:196-206: ParseCustomPointerType *)
Definition parse_pointer_type : prog typ :=
  expect (sym "^") ;;;
  Next ;;;
  r <- parse_type_id ;;
  Ret (TPointer r).

(** parser/type_simple.go:61-78: ParseConstSubrageType *)
Definition parse_const_subrange : prog typ :=
  low <- parse_const_expr ;;
  expect (p_value (rs "..")) ;;;
  Next ;;;
  high <- r_expr R ;;
  Ret (TSubrange low high).

(** parser/type_simple.go:101-121: ParseEnumeratedTypeElement *)
Definition parse_enum_element : prog (ident * option expr) :=
  t <- expect_next (p_type Identifier) ;;
  Next ;;;
  b <- is (sym "=") ;;
  e <- (if b : bool then Next ;;; e <- r_expr R ;; Ret (Some e) else Ret None) ;;
  set [mkDecl (new_ident t) NEnum] ;;;
  Ret (new_ident t, e).
(** parser/type_simple.go:80-99: ParseEnumeratedType *)
Definition enum_step (l : list (ident * option expr))
    : prog (list (ident * option expr) + list (ident * option expr)) :=
  e <- parse_enum_element ;;
  t <- cur ;;
  if sym ")" t then Ret (inr (l ++ [e]))
  else if sym "," t then Ret (inl (l ++ [e]))
  else FailAt t.
Definition parse_enumerated_type : prog typ :=
  l <- loop (r_fuel R) enum_step [] ;;
  Next ;;;
  Ret (TEnum l).

(** parser/type_string.go:22-43: ParseStringOfStringType; nil for any other word *)
Definition parse_string_of_string_type : prog typ :=
  t1 <- cur ;;
  match embedded_type_decl EtkStringType (value t1) with
  | None => Ret TNil
  | Some d =>
      t2 <- next ;;
      if sym "[" t2 then
        Next ;;;
        e <- r_expr R ;;
        expect (sym "]") ;;;
        Next ;;;
        (* ast/type_string.go:21-27 *)
        r <- new_type_id None (new_ident t1) (embedded_type_decl EtkStringType (raw t1)) ;;
        Ret (TFixedString r e)
      else
        r <- new_type_id None (new_ident t1) (Some d) ;; Ret (TId r)
  end.

(** parser/type_simple.go:123-136: ParseTypeAsOrdinalType, behind a consumed token *)
Definition parse_type_as_ordinal : prog typ :=
  t0 <- Cur ;;
  ty <- r_type R ;;
  b <- OnHeap (fun _ h => match type_is (r_fuel R) h QOrdinal ty with
                          | Some b => HOk b h
                          | None => HStuck
                          end) ;;
  if b : bool then Ret ty else
  match t0 with Some t0 => FailAt t0 | None => Crash end.

(** parser/type_struc.go:57-101, 103-124: ParseArrayType, ParseSetType *)
Definition parse_array_type : prog (bool -> typ) :=
  b <- is (kw "PACKED") ;;
  (if b : bool then Next ;;; Ret tt else Ret tt) ;;;
  expect_or_fail (kw "ARRAY") ;;;
  Next ;;;
  br <- is (sym "[") ;;
  idx <- (if br : bool then
            Next ;;;
            l <- until_list (r_fuel R) (sym "]") (Some (sym ",")) parse_type_as_ordinal ;;
            Next ;;;
            Ret (Some l)
          else Ret None) ;;
  expect_or_fail (kw "OF") ;;;
  Next ;;;
  base <- r_type R ;;
  b2 <- is (kw "PACKED") ;;
  (if b2 : bool then Next ;;; Ret tt else Ret tt) ;;;
  Ret (fun packed => TArray (b || b2 || packed) idx base).
Definition parse_set_type : prog (bool -> typ) :=
  b <- is (kw "PACKED") ;;
  (if b : bool then Next ;;; Ret tt else Ret tt) ;;;
  expect_or_fail (kw "SET") ;;;
  Next ;;;
  expect_or_fail (kw "OF") ;;;
  Next ;;;
  t <- parse_type_as_ordinal ;;
  Ret (fun packed => TSet (b || packed) t).
(** parser/type_struc.go:283-304: ParseFileType *)
Definition parse_file_type : prog (bool -> typ) :=
  b <- is (kw "PACKED") ;;
  (if b : bool then Next ;;; Ret tt else Ret tt) ;;;
  expect_or_fail (kw "FILE") ;;;
  Next ;;;
  expect_or_fail (kw "OF") ;;;
  Next ;;;
  t <- parse_type_id ;;
  Ret (fun packed => TFile (b || packed) t).

(** parser/type_struc.go:181-200: ParseFieldDecl *)
Definition parse_field_decl (terminator : predicator) : prog fielddecl :=
  l <- parse_ident_list_by (r_fuel R) (sym ":") ;;
  Next ;;;
  t <- r_type R ;;
  b <- is terminator ;;
  if b : bool then Ret (FieldDecl l t) else
  expect (sym ";") ;;; Ret (FieldDecl l t).
(** parser/type_struc.go:255-281: ParseRecVariant *)
Definition parse_rec_variant : prog recvariant :=
  es <- until_list (r_fuel R) (sym ":") (Some (sym ",")) parse_const_expr ;;
  expect_next (sym "(") ;;;
  Next ;;;
  fl <- r_fields R (sym ")") ;;
  Next ;;;
  Ret (RecVariant es fl).
Definition rec_variants_step (l : list recvariant) : prog (option (list recvariant)) :=
  b <- is (kw "END") ;;
  if b : bool then Ret None else v <- parse_rec_variant ;; Ret (Some (l ++ [v])).
(** parser/type_struc.go:202-253: ParseVariantSection *)
Definition parse_variant_section : prog variantsection :=
  expect_or_fail (kw "CASE") ;;;
  Next ;;;
  i <- Attempt (
    t <- expect (p_type Identifier) ;;
    t1 <- next ;;
    if sym ":" t1 then Next ;;; Ret (Some (new_ident t)) else Ret None) ;;
  ty <- parse_type_as_ordinal ;;
  expect_or_fail (kw "OF") ;;;
  Next ;;;
  vs <- until (r_fuel R) (kw "END") (Some (sym ";")) rec_variants_step [] ;;
  Ret (VariantSection i ty vs).
(** parser/type_struc.go:149-179: ParseFieldList *)
Definition field_decls_step (terminator : predicator) (l : list fielddecl)
    : prog (option (list fielddecl)) :=
  b1 <- is (kw "CASE") ;;
  b2 <- is terminator ;;
  if b1 || b2 then Ret None else
  f <- parse_field_decl terminator ;; Ret (Some (l ++ [f])).
Definition parse_field_list (terminator : predicator) : prog fieldlist :=
  ds <- until (r_fuel R) terminator (Some (sym ";")) (field_decls_step terminator) [] ;;
  b <- is (kw "CASE") ;;
  if b : bool then
    v <- parse_variant_section ;; Ret (FieldList ds (Some v))
  else
    b2 <- is terminator ;;
    (if b2 : bool then Ret tt else Next ;;; Ret tt) ;;;
    Ret (FieldList ds None).
(** parser/type_struc.go:126-147: ParseRecType *)
Definition parse_rec_type : prog (bool -> typ) :=
  b <- is (kw "PACKED") ;;
  (if b : bool then Next ;;; Ret tt else Ret tt) ;;;
  expect_or_fail (kw "RECORD") ;;;
  Next ;;;
  fl <- parse_field_list (kw "END") ;;
  expect (kw "END") ;;;
  Ret (fun packed => TRec (b || packed) fl).

(** parser/type_struc.go:9-55: ParseStrucType.  The results of the four methods wait for
    the [packed] read here. *)
Definition parse_struc_type : prog typ :=
  packed <- is (kw "PACKED") ;;
  (if packed : bool then Next ;;; Ret tt else Ret tt) ;;;
  t <- cur ;;
  let v := value t in
  mk <- (if eqs v "ARRAY" then parse_array_type
         else if eqs v "SET" then parse_set_type
         else if eqs v "RECORD" then parse_rec_type
         else if eqs v "FILE" then parse_file_type
         else FailAt t) ;;
  Ret (mk packed).

(** parser/function_heading.go:212-266: ParseParameter.  The parameter list stops at
    [end_] ( ")" or "]" ). *)
Definition parse_parameter (end_ : string)
    : prog (list ident * option (typ * bool) * option expr) :=
  l <- parse_ident_list_by (r_fuel R) (p_some [sym ":"; sym ";"; sym end_]) ;;
  b <- is (sym ":") ;;
  ty <- (if b : bool then
           Next ;;;
           ba <- is (kw "ARRAY") ;;
           (if ba : bool then expect_next (kw "OF") ;;; Next ;;; Ret tt else Ret tt) ;;;
           bc <- (if ba : bool then is (kw "CONST") else Ret false) ;;
           if bc : bool then Next ;;; Ret (Some (TNil, ba))
           else t <- r_type R ;; Ret (Some (t, ba))
         else Ret None) ;;
  be <- is (sym "=") ;;
  e <- (if be : bool then Next ;;; e <- r_expr R ;; Ret (Some e) else Ret None) ;;
  expect (p_some [sym ";"; sym end_]) ;;;
  Ret (l, ty, e).
(** parser/function_heading.go:185-210: ParseFormalParm *)
Definition parse_formal_parm (end_ : string) : prog formalparm :=
  t <- cur ;;
  opt <- (if p_type ReservedWord t then
            if eqs_any (value t) ["VAR"; "CONST"; "OUT"]%string
            then Next ;;; Ret (Some (value t)) else FailAt t
          else Ret None) ;;
  '(ids, ty, e) <- parse_parameter end_ ;;
  set (map (fun i => mkDecl i NParm) ids) ;;;
  Ret (FormalParm opt ids ty e).
(** parser/function_heading.go:162-183: ParseFormalParameters *)
Definition parse_formal_parameters (start_ end_ : string) : prog (list formalparm) :=
  expect (sym start_) ;;;
  Next ;;;
  l <- until_list (r_fuel R) (sym end_) (Some (sym ";")) (parse_formal_parm end_) ;;
  expect (sym end_) ;;;
  Next ;;;
  Ret l.

(** parser/type_procedure.go:8-53: ParseProcedureType *)
Definition parse_procedure_type : prog typ :=
  t0 <- cur ;;
  function <- (if eqs (value t0) "FUNCTION" then Ret true
               else if eqs (value t0) "PROCEDURE" then Ret false
               else FailAt t0) ;;
  Scoped (
    t <- next ;;
    params <- (if sym "(" t then l <- parse_formal_parameters "(" ")" ;; Ret (Some l)
               else Ret None) ;;
    ret <- (if function : bool then
              expect (sym ":") ;;;
              Next ;;;
              r <- parse_type_id ;; Ret (Some r)
            else Ret None) ;;
    b <- is (kw "OF") ;;
    ofobject <- (if b : bool then
                   Next ;;;
                   expect (kw "OBJECT") ;;;
                   Next ;;;
                   Ret true
                 else Ret false) ;;
    Ret (TProc function params ret ofobject)).

(** parser/function_heading.go:119-160: ParseFunctionHeading *)
Definition parse_function_heading : prog heading :=
  t0 <- cur ;;
  function <- (if eqs (value t0) "FUNCTION" then Ret true
               else if eqs (value t0) "PROCEDURE" then Ret false
               else FailAt t0) ;;
  i <- expect_next (p_type Identifier) ;;
  Traced (
    t <- next ;;
    params <- (if sym "(" t then l <- parse_formal_parameters "(" ")" ;; Ret (Some l)
               else Ret None) ;;
    ret <- (if function : bool then
              expect (sym ":") ;;;
              Next ;;;
              r <- parse_type_id ;; Ret (Some r)
            else Ret None) ;;
    Ret (Heading function (new_ident i) params ret)).

(** ** Classes: parser/type_class.go *)

(** 158-181 *)
Definition visibility_break : predicator := p_some
  [upper_is "PRIVATE"; upper_is "PROTECTED"; upper_is "PUBLIC"; upper_is "PUBLISHED"].
Definition property_break : predicator := p_some [visibility_break; kw "END"].
Definition method_break : predicator := p_some [kw "PROPERTY"; property_break].
Definition field_list_break : predicator := p_some
  [kw "FUNCTION"; kw "PROCEDURE"; kw "CONSTRUCTOR"; kw "DESTRUCTOR"; method_break].

(** 63-84: ParseClassHeritage *)
Definition parse_class_heritage : prog (option (list typeid)) :=
  Traced (
    b <- is (sym "(") ;;
    if b : bool then
      Next ;;;
      l <- until_list (r_fuel R) (sym ")") (Some (sym ",")) parse_type_id ;;
      Next ;;;
      Ret (Some l)
    else Ret None).

(** 204-219: ParseClassField *)
Definition parse_class_field : prog (list ident * typ) :=
  Traced (
    l <- parse_ident_list_by (r_fuel R) (sym ":") ;;
    Next ;;;
    t <- r_type R ;;
    Ret (l, t)).
(** 183-202: ParseClassFieldList *)
Definition class_fields_step (l : list (list ident * typ)) : prog (option (list (list ident * typ))) :=
  b <- is field_list_break ;;
  if b : bool then Ret None else f <- parse_class_field ;; Ret (Some (l ++ [f])).
Definition parse_class_field_list : prog (list (list ident * typ)) :=
  Traced (until (r_fuel R) field_list_break (Some (sym ";")) class_fields_step []).

(** ast/type_class.go:355-382 *)
Definition class_method_directives : list gostring :=
  map rs ["ABSTRACT"; "VIRTUAL"; "OVERRIDE"; "OVERLOAD"; "REINTRODUCE"]%string.
(** 289-310: ClassMethodDirectiveList *)
Definition method_directives_step (l : list gostring) : prog (option (list gostring)) :=
  t <- cur ;;
  let w := to_upper (value t) in
  if str_in (to_upper w) class_method_directives
  then Next ;;; Ret (Some (l ++ [w]))
  else Ret None.
Definition parse_class_method_directive_list : prog (list gostring) :=
  b <- is (sym ";") ;;
  (if b : bool then Next ;;; Ret tt else Ret tt) ;;;
  Traced (until (r_fuel R) method_break (Some (sym ";")) method_directives_step []).

(** 312-332: ParseConstructorHeading *)
Definition parse_constructor_heading : prog cheading :=
  Traced (
    expect (kw "CONSTRUCTOR") ;;;
    t0 <- next ;;
    Next ;;;
    b <- is (sym "(") ;;
    params <- (if b : bool then l <- parse_formal_parameters "(" ")" ;; Ret (Some l) else Ret None) ;;
    Ret (HCtor (new_ident t0) params)).
(** 334-346: ParseDestructorHeading *)
Definition parse_destructor_heading : prog cheading :=
  Traced (
    expect (kw "DESTRUCTOR") ;;;
    t0 <- next ;;
    Next ;;;
    Ret (HDtor (new_ident t0))).

(** 244-287: ParseClassMethod *)
Definition parse_class_method : prog cmethod :=
  Traced (
    t0 <- expect (p_type ReservedWord) ;;
    Scoped (
      let v := to_upper (value t0) in
      h <- (if eqs_any v ["FUNCTION"; "PROCEDURE"]%string then
              h <- parse_function_heading ;; Ret (HFunc h)
            else if eqs v "CONSTRUCTOR" then parse_constructor_heading
            else if eqs v "DESTRUCTOR" then parse_destructor_heading
            else Fail EOther) ;;
      ds <- parse_class_method_directive_list ;;
      Ret (ClassMethod h ds))).
(** 221-242: ParseClassMethodList *)
Definition class_methods_step (l : list cmethod) : prog (option (list cmethod)) :=
  b <- is method_break ;;
  if b : bool then Ret None else
  m <- parse_class_method ;;
  b2 <- is (sym ";") ;;
  (if b2 : bool then Next ;;; Ret tt else Ret tt) ;;;
  Ret (Some (l ++ [m])).
Definition parse_class_method_list : prog (list cmethod) :=
  Traced (until (r_fuel R) method_break None class_methods_step []).

(** 506-528: ParsePropertyInterface.  The scope opened for the parameters lasts until the
    method returns. *)
Definition parse_property_interface : prog (option (list formalparm) * typeid) :=
  let rest := fun params =>
    expect (sym ":") ;;;
    Next ;;;
    r <- parse_type_id ;;
    Ret (params, r) in
  b <- is (sym "[") ;;
  if b : bool then
    Scoped (l <- parse_formal_parameters "[" "]" ;; rest (Some l))
  else rest None.

(** [classType.FindMemberDecl(name, true)], on the class with heritage [her] and the
    sections [mem] read so far: ast/type_class.go:87-122.  The declaration is a new object. *)
Definition find_member_decl (her : option (list typeid)) (mem : list csection) (name : gostring)
    : prog (option dref) :=
  OnHeap (fun _ h => match find_member (r_fuel R) h her (Some mem) name true with
                     | None => HStuck
                     | Some None => HOk None h
                     | Some (Some d) =>
                         HOk (Some (Ptr (length (h_decls h)))) (with_decls (h_decls h ++ [d]) h)
                     end).
(** 413-424, 427-438: READ and WRITE *)
Definition parse_accessor (word : string) (her : option (list typeid)) (mem : list csection)
    : prog (option identref) :=
  t <- cur ;;
  if upper_eq t word then
    t1 <- next ;;
    d <- find_member_decl her mem (value t1) ;;
    match d with
    | None => FailAt t1
    | Some d => Next ;;; Ret (Some (mkIdentRef (new_ident t1) (Some d)))
    end
  else Ret None.
(** 441-459: STORED *)
Definition parse_stored (her : option (list typeid)) (mem : list csection) : prog (option cstored) :=
  t <- cur ;;
  if upper_eq t "STORED" then
    t1 <- next ;;
    let v := to_lower (value t1) in
    r <- (if eqs v "true" then Ret (StoredConst true)
          else if eqs v "false" then Ret (StoredConst false)
          else
            d <- find_member_decl her mem v ;;
            match d with
            | None => FailAt t1
            | Some d => Ret (StoredIdent (mkIdentRef (new_ident t1) (Some d)))
            end) ;;
    Next ;;;
    Ret (Some r)
  else Ret None.
(** 371-504: ParseClassProperty *)
Definition parse_class_property (her : option (list typeid)) (mem : list csection) : prog cprop :=
  expect (kw "PROPERTY") ;;;
  t0 <- next ;;
  Traced (
    Next ;;;
    b <- is (p_some [sym ":"; sym "["]) ;;
    itf <- (if b : bool then r <- parse_property_interface ;; Ret (Some r) else Ret None) ;;
    ti <- cur ;;
    idx <- (if upper_eq ti "INDEX" then Next ;;; e <- r_expr R ;; Ret (Some e) else Ret None) ;;
    par <- OnHeap (fun _ h => match find_property (r_fuel R) h her (Some mem) (raw t0) true with
                              | None => HStuck
                              | Some r => HOk r h
                              end) ;;
    rd <- parse_accessor "READ" her mem ;;
    wr <- parse_accessor "WRITE" her mem ;;
    st <- parse_stored her mem ;;
    td <- cur ;;
    df <- (if upper_eq td "DEFAULT" then Next ;;; e <- r_expr R ;; Ret (Some (DefaultValue e))
           else if upper_eq td "NODEFAULT" then Ret (Some NoDefault)
           else Ret None) ;;
    tm <- cur ;;
    im <- (if upper_eq tm "IMPLEMENTS" then r <- parse_type_id ;; Ret (Some r) else Ret None) ;;
    let p := ClassProp (new_ident t0) itf idx rd wr st df im None in
    Ret (if inherits_from p par
         then ClassProp (new_ident t0) itf idx rd wr st df im par
         else p)).
(** 348-369: ParseClassPropertyList *)
Definition class_props_step (her : option (list typeid)) (mem : list csection) (l : list cprop)
    : prog (option (list cprop)) :=
  b <- is property_break ;;
  if b : bool then Ret None else
  p <- parse_class_property her mem ;;
  b2 <- is (sym ";") ;;
  (if b2 : bool then Next ;;; Ret tt else Ret tt) ;;;
  Ret (Some (l ++ [p])).
Definition parse_class_property_list (her : option (list typeid)) (mem : list csection)
    : prog (list cprop) :=
  Traced (until (r_fuel R) property_break None (class_props_step her mem) []).

(** 101-156: ParseClassMemberSection.  [secs] are the sections before it; while the
    properties are read, the class already has this section with its fields and
    methods. *)
Definition parse_class_member_section (her : option (list typeid)) (secs : list csection)
    : prog csection :=
  Traced (
    t0 <- expect (p_type Identifier) ;;
    vis <- (if upper_eq t0 "PRIVATE" then Next ;;; Ret CvPrivate
            else if upper_eq t0 "PROTECTED" then Next ;;; Ret CvProtected
            else if upper_eq t0 "PUBLIC" then Next ;;; Ret CvPublic
            else if upper_eq t0 "PUBLISHED" then Next ;;; Ret CvPublished
            else Ret CvDefault) ;;
    b <- is (kw "END") ;;
    if b : bool then Ret (ClassSection vis [] [] []) else
    fs <- parse_class_field_list ;;
    ms <- parse_class_method_list ;;
    ps <- parse_class_property_list her (secs ++ [ClassSection vis fs ms []]) ;;
    Ret (ClassSection vis fs ms ps)).
(** 86-99: ParseClassMemberSections *)
Definition class_sections_step (her : option (list typeid)) (secs : list csection)
    : prog (option (list csection)) :=
  s <- parse_class_member_section her secs ;; Ret (Some (secs ++ [s])).
Definition parse_class_member_sections (her : option (list typeid)) : prog (list csection) :=
  Traced (until (r_fuel R) (kw "END") None (class_sections_step her) []).
(** 43-61: ParseClassType *)
Definition parse_class_type : prog typ :=
  Traced (
    her <- parse_class_heritage ;;
    b <- is (kw "END") ;;
    if b : bool then Ret (TClass her None) else
    b2 <- is (sym ";") ;;
    if b2 : bool then Ret (TClass her None) else
    secs <- parse_class_member_sections her ;;
    Ret (TClass her (Some secs))).
(** 11-41: ParseClassTypeOrClassRefType *)
Definition parse_class_type_or_class_ref : prog typ :=
  Traced (
    expect (kw "CLASS") ;;;
    Next ;;;
    b <- is (sym ";") ;;
    if b : bool then
      OnHeap (fun _ h => HOk (TFwdClass (length (h_fwds h))) (with_fwds (h_fwds h ++ [None]) h))
    else
    b2 <- is (kw "OF") ;;
    if b2 : bool then
      t <- expect_next (p_type Identifier) ;;
      d <- get_node (value t) ;;
      r <- new_type_id None (new_ident t)
             (match d with Some (d, NType _) => Some d | _ => None end) ;;
      Ret (TClassRef r)
    else parse_class_type).

(** parser/type.go:108-134: ParseType *)
Definition parse_type : prog typ :=
  t1 <- cur ;;
  match t_type t1 with
  | SpecialSymbol =>
      if sym "(" t1 then parse_enumerated_type
      else if sym "^" t1 then parse_pointer_type
      else FailAt t1
  | Identifier => parse_type_for_identifier
  | NumeralInt | NumeralReal | CharacterString => parse_const_subrange
  | ReservedWord =>
      let v := value t1 in
      if eqs_any v ["PACKED"; "ARRAY"; "SET"; "RECORD"; "FILE"]%string then parse_struc_type
      else if eqs_any v ["FUNCTION"; "PROCEDURE"]%string then parse_procedure_type
      else if eqs v "CLASS" then parse_class_type_or_class_ref
      else parse_string_of_string_type
  | _ => FailAt t1
  end.

(** parser/type.go:72-91: the new type replaces a forward declaration or is declared *)
Definition declare_type (i : ident) (ty : typ) : prog unit :=
  old <- get_node (i_name i) ;;
  match old with
  | None => set [mkDecl i (NType ty)]
  | Some (_, NType (TFwdClass a)) =>
      match ty with
      | TClass _ _ =>
          OnHeap (fun c h =>
            let h1 := with_fwds (set_nth a (Some ty) (h_fwds h)) h in
            let h2 := with_decls (h_decls h1 ++ [mkDecl i (NType ty)]) h1 in
            match ctx_overwrite h2 c (i_name i) (Some (Ptr (length (h_decls h1)))) with
            | Some h3 => HOk tt h3
            | None => HPanic
            end)
      | _ => Fail EOther            (* ast/type_class.go:30-37 *)
      end
  | Some _ => Fail EOther
  end.

(** parser/type.go:50-106: ParseTypeDecl *)
Definition parse_type_decl : prog typedecl :=
  Traced (
    t0 <- expect (p_type Identifier) ;;
    let i := new_ident t0 in
    expect_next (sym "=") ;;;
    t <- next ;;
    (if kw "TYPE" t then Next ;;; Ret tt else Ret tt) ;;;
    ty <- parse_type ;;
    declare_type i ty ;;;
    t1 <- cur ;;
    if sym ";" t1 then Ret (mkTypeDecl i ty None) else
    t2 <- next ;;
    if p_portability t2 then Next ;;; Ret (mkTypeDecl i ty (Some (value t2)))
    else Ret (mkTypeDecl i ty None)).

(** The head of a section: parser/type.go:10-19, const.go:9-18, var.go:9-18, 86-95,
    block.go:115-124.  [false] is the section not being there. *)
Definition section_head (required : bool) (k : predicator) : prog bool :=
  if required then expect k ;;; Ret true else is k.
(** [t.Is(token.ReservedWord) || t.Is(token.EOF)] *)
Definition section_end (t : token) : bool := p_type ReservedWord t || p_type EOF t.

(** parser/type.go:9-48: ParseTypeSection.  A section has an element, so it is not the
    empty slice. *)
Definition type_section_step (l : list typedecl) : prog (list typedecl + list typedecl) :=
  d <- parse_type_decl ;;
  t <- cur ;;
  if section_end t then Ret (inr (l ++ [d])) else
  expect (sym ";") ;;;
  t1 <- next ;;
  if section_end t1 then Ret (inr (l ++ [d])) else Ret (inl (l ++ [d])).
Definition parse_type_section (required : bool) : prog (option (list typedecl)) :=
  b <- section_head required (kw "TYPE") ;;
  if b : bool then
    PostScope (
      Next ;;;
      l <- loop (r_fuel R) type_section_step [] ;;
      RunPost ;;;
      Ret (Some l))
  else Ret None.

(** parser/const.go:38-70: ParseConstantDecl *)
Definition parse_constant_decl : prog constdecl :=
  t <- expect (p_some [p_type Identifier; p_directive]) ;;
  let i := new_ident t in
  set [mkDecl i NConst] ;;;
  Next ;;;
  b <- is (sym ":") ;;
  ty <- (if b : bool then Next ;;; parse_type else Ret TNil) ;;
  expect (sym "=") ;;;
  Next ;;;
  e <- parse_const_expr ;;
  Ret (mkConstDecl i ty e).
(** parser/const.go:8-36: ParseConstSection *)
Definition const_section_step (l : list constdecl) : prog (list constdecl + list constdecl) :=
  d <- parse_constant_decl ;;
  expect (sym ";") ;;;
  t <- next ;;
  if section_end t then Ret (inr (l ++ [d])) else Ret (inl (l ++ [d])).
Definition parse_const_section (required : bool) : prog (option (list constdecl)) :=
  b <- section_head required (kw "CONST") ;;
  if b : bool then
    Next ;;; l <- loop (r_fuel R) const_section_step [] ;; Ret (Some l)
  else Ret None.

(** parser/var.go:45-83: ParseVarDecl *)
Definition parse_var_decl : prog vardecl :=
  l <- parse_ident_list_by (r_fuel R) (sym ":") ;;
  Next ;;;
  ty <- parse_type ;;
  b <- is (upper_is "ABSOLUTE") ;;
  ab <- (if b : bool then
           t <- expect_next (p_type Identifier) ;; Next ;;; Ret (Some (new_ident t))
         else Ret None) ;;
  b2 <- is (sym "=") ;;
  e <- (if b2 : bool then Next ;;; e <- parse_const_expr ;; Ret (Some e) else Ret None) ;;
  set (map (fun i => mkDecl i NVar) l) ;;;
  Ret (mkVarDecl l ty ab e).
(** parser/var.go:8-43: ParseVarSection *)
Definition var_section_step (l : list vardecl) : prog (list vardecl + list vardecl) :=
  d <- parse_var_decl ;;
  t <- cur ;;
  if section_end t then Ret (inr (l ++ [d])) else
  expect (sym ";") ;;;
  t1 <- next ;;
  if section_end t1 then Ret (inr (l ++ [d])) else Ret (inl (l ++ [d])).
Definition parse_var_section (required : bool) : prog (option (list vardecl)) :=
  b <- section_head required (kw "VAR") ;;
  if b : bool then
    Next ;;; l <- loop (r_fuel R) var_section_step [] ;; Ret (Some l)
  else Ret None.
(** parser/var.go:115-136: ParseThreadVarDecl *)
Definition parse_threadvar_decl : prog threadvardecl :=
  l <- parse_ident_list_by (r_fuel R) (sym ":") ;;
  Next ;;;
  ty <- parse_type ;;
  set (map (fun i => mkDecl i NThreadVar) l) ;;;
  Ret (mkThreadVarDecl l ty).
(** parser/var.go:85-113: ParseThreadVarSection *)
Definition threadvar_section_step (l : list threadvardecl)
    : prog (list threadvardecl + list threadvardecl) :=
  d <- parse_threadvar_decl ;;
  expect (sym ";") ;;;
  t <- next ;;
  if section_end t then Ret (inr (l ++ [d])) else Ret (inl (l ++ [d])).
Definition parse_threadvar_section (required : bool) : prog (option (list threadvardecl)) :=
  b <- section_head required (kw "THREADVAR") ;;
  if b : bool then
    Next ;;; l <- loop (r_fuel R) threadvar_section_step [] ;; Ret (Some l)
  else Ret None.

(** ** Statements *)

(** parser/statement.go:33-54: ParseStmtList, behind a consumed token *)
Definition stmt_list_step (terminator : predicator) (l : list stmt) : prog (list stmt + list stmt) :=
  s <- r_stmt R ;;
  b <- is terminator ;;
  if b : bool then Ret (inr (l ++ [s])) else
  expect (sym ";") ;;;
  Next ;;;
  b2 <- is terminator ;;
  if b2 : bool then Ret (inr (l ++ [s])) else Ret (inl (l ++ [s])).
Definition parse_stmt_list (terminator : predicator) : prog (list stmt) :=
  loop (r_fuel R) (stmt_list_step terminator) [].
(** parser/statement.go:8-31: ParseCompoundStmt(true), the only way it is called *)
Definition parse_compound_stmt : prog sbody :=
  expect (kw "BEGIN") ;;;
  Next ;;;
  l <- parse_stmt_list (kw "END") ;;
  expect (kw "END") ;;;
  Next ;;;
  Ret (SCompound l).
(** parser/statement.go:168-198: ParseDesignatorStatement *)
Definition parse_designator_statement : prog sbody :=
  d <- parse_designator ;;
  t <- cur ;;
  if eqs (value t) ":=" then
    Next ;;; e <- parse_expression ;; Ret (SAssign d e)
  else if sym "(" t then
    Next ;;;
    l <- parse_expr_list (sym ")") ;;
    expect (sym ")") ;;;
    Next ;;;
    Ret (SCall d (Some l))
  else Ret (SCall d None).
(** parser/statement.go:200-208 *)
Definition parse_inherited : prog sbody := expect (kw "INHERITED") ;;; Next ;;; Ret SInherited.
(** parser/statement.go:210-224 *)
Definition parse_goto : prog sbody :=
  expect (kw "GOTO") ;;;
  t <- expect_next (p_type Identifier) ;;
  d <- get (value t) ;;
  Next ;;;
  Ret (SGoto (new_ident t) d).
(** parser/statement_asm.go:9-27 *)
Definition asm_step (_ : unit) : prog (unit + unit) :=
  t <- next ;;
  if kw "END" t then Next ;;; Ret (inr tt) else Ret (inl tt).
Definition parse_asm : prog sbody :=
  expect (kw "ASM") ;;;
  Next ;;;
  loop (r_fuel R) asm_step tt ;;;
  Ret SAsm.
(** parser/statement_conditional.go:8-39 *)
Definition parse_if : prog sbody :=
  expect (kw "IF") ;;;
  Next ;;;
  e <- parse_expression ;;
  expect (kw "THEN") ;;;
  Next ;;;
  s1 <- r_stmt R ;;
  b <- is (kw "ELSE") ;;
  if b : bool then
    Next ;;; s2 <- r_stmt R ;; Ret (SIf e s1 (Some s2))
  else Ret (SIf e s1 None).
(** parser/statement_conditional.go:137-155: ParseCaseLabel *)
Definition parse_case_label : prog (expr * option expr) :=
  e1 <- parse_const_expr ;;
  b <- is (sym "..") ;;
  if b : bool then Next ;;; e2 <- parse_const_expr ;; Ret (e1, Some e2)
  else Ret (e1, None).
(** parser/statement_conditional.go:120-135: ParseCaseLabels *)
Definition case_labels_step (l : list (expr * option expr))
    : prog (list (expr * option expr) + list (expr * option expr)) :=
  e <- parse_case_label ;;
  b <- is (sym ",") ;;
  if b : bool then Next ;;; Ret (inl (l ++ [e])) else Ret (inr (l ++ [e])).
(** parser/statement_conditional.go:101-118: ParseCaseSelector *)
Definition parse_case_selector : prog (list (expr * option expr) * stmt) :=
  l <- loop (r_fuel R) case_labels_step [] ;;
  expect (sym ":") ;;;
  Next ;;;
  s <- r_stmt R ;;
  Ret (l, s).
(** parser/statement_conditional.go:79-99: ParseCaseSelectors *)
Definition case_selectors_step (l : list (list (expr * option expr) * stmt))
    : prog (list (list (expr * option expr) * stmt) + list (list (expr * option expr) * stmt)) :=
  s <- parse_case_selector ;;
  expect (sym ";") ;;;
  Next ;;;
  b <- is (p_some [kw "ELSE"; kw "END"]) ;;
  if b : bool then Ret (inr (l ++ [s])) else Ret (inl (l ++ [s])).
(** parser/statement_conditional.go:41-77: ParseCaseStmt *)
Definition parse_case : prog sbody :=
  expect (kw "CASE") ;;;
  Next ;;;
  e <- parse_expression ;;
  expect (kw "OF") ;;;
  Next ;;;
  sels <- loop (r_fuel R) case_selectors_step [] ;;
  b <- is (kw "ELSE") ;;
  els <- (if b : bool then Next ;;; l <- parse_stmt_list (kw "END") ;; Ret (Some l) else Ret None) ;;
  expect (kw "END") ;;;
  Next ;;;
  Ret (SCase e sels els).
(** parser/statement_loop.go:8-30 *)
Definition parse_repeat : prog sbody :=
  expect (kw "REPEAT") ;;;
  Next ;;;
  l <- parse_stmt_list (kw "UNTIL") ;;
  expect (kw "UNTIL") ;;;
  Next ;;;
  e <- parse_expression ;;
  Ret (SRepeat l e).
(** parser/statement_loop.go:32-53 *)
Definition parse_while : prog sbody :=
  expect (kw "WHILE") ;;;
  Next ;;;
  e <- parse_expression ;;
  expect (kw "DO") ;;;
  Next ;;;
  s <- r_stmt R ;;
  Ret (SWhile e s).
(** parser/statement_loop.go:55-101 *)
Definition parse_for : prog sbody :=
  expect (kw "FOR") ;;;
  Next ;;;
  q <- parse_qual_id ;;
  expect (sym ":=") ;;;
  Next ;;;
  e1 <- parse_expression ;;
  t <- cur ;;
  down <- (if eqs (value t) "TO" then Ret false
           else if eqs (value t) "DOWNTO" then Ret true
           else FailAt t) ;;
  Next ;;;
  e2 <- parse_expression ;;
  expect (kw "DO") ;;;
  Next ;;;
  s <- r_stmt R ;;
  Ret (SFor q e1 e2 down s).
(** parser/statement_with.go:8-29 *)
Definition parse_with : prog sbody :=
  expect (kw "WITH") ;;;
  Next ;;;
  qs <- parse_qual_ids ;;
  expect (kw "DO") ;;;
  Next ;;;
  s <- r_stmt R ;;
  Ret (SWith qs s).
(** parser/statement_raise.go:8-38 *)
Definition parse_raise : prog sbody :=
  expect (kw "RAISE") ;;;
  Next ;;;
  b <- is (sym ";") ;;
  if b : bool then Ret (SRaise None None) else
  b1 <- is (upper_is "AT") ;;
  obj <- (if b1 : bool then Ret None else e <- parse_expression ;; Ret (Some e)) ;;
  b2 <- is (upper_is "AT") ;;
  addr <- (if b2 : bool then Next ;;; e <- parse_expression ;; Ret (Some e) else Ret None) ;;
  Ret (SRaise obj addr).
(** parser/statement_try.go:117-170: ParseExceptionBlockHandler *)
Definition parse_handler : prog (option ident * typ * stmt) :=
  expect (upper_is "ON") ;;;
  t <- next ;;
  d <- get_node (raw t) ;;
  i <- match d with
       | Some (_, NType _) => Ret None
       | _ => expect_next (sym ":") ;;; Next ;;; Ret (Some (new_ident t))
       end ;;
  ty <- parse_type ;;
  match i with
  | Some i => set [mkDecl i NHandler]
  | None => Ret tt
  end ;;;
  expect (upper_is "DO") ;;;
  Next ;;;
  s <- r_stmt R ;;
  Ret (i, ty, s).
(** parser/statement_try.go:96-115: ParseExceptionBlockHandlers *)
Definition handlers_step (l : list (option ident * typ * stmt))
    : prog (list (option ident * typ * stmt) + list (option ident * typ * stmt)) :=
  h <- parse_handler ;;
  b <- is (sym ";") ;;
  (if b : bool then Next ;;; Ret tt else Ret tt) ;;;
  b2 <- is (upper_is "ON") ;;
  if b2 : bool then Ret (inl (l ++ [h])) else Ret (inr (l ++ [h])).
(** parser/statement_try.go:49-94: ParseExceptionBlock *)
Definition parse_exception_block : prog (list (option ident * typ * stmt) * option (list stmt)) :=
  b <- is (upper_is "ON") ;;
  if negb b then
    l <- parse_stmt_list (kw "END") ;;
    expect (kw "END") ;;;
    Next ;;;
    Ret ([], Some l)
  else
    hs <- loop (r_fuel R) handlers_step [] ;;
    b1 <- is (kw "END") ;;
    if b1 : bool then Next ;;; Ret (hs, None) else
    b2 <- is (kw "ELSE") ;;
    els <- (if b2 : bool then Next ;;; l <- parse_stmt_list (kw "END") ;; Ret (Some l)
            else Ret None) ;;
    b3 <- is (sym ";") ;;
    (if b3 : bool then Next ;;; Ret tt else Ret tt) ;;;
    expect (kw "END") ;;;
    Next ;;;
    Ret (hs, els).
(** parser/statement_try.go:9-47: ParseTryStmt *)
Definition parse_try : prog sbody :=
  expect (kw "TRY") ;;;
  Next ;;;
  l <- parse_stmt_list (p_some [kw "EXCEPT"; kw "FINALLY"]) ;;
  b <- is (kw "EXCEPT") ;;
  if b : bool then
    Next ;;;
    '(hs, els) <- parse_exception_block ;;
    Ret (STryExcept l hs els)
  else
    t <- cur ;;
    if kw "FINALLY" t then
      Next ;;;
      l2 <- parse_stmt_list (kw "END") ;;
      Next ;;;
      Ret (STryFinally l l2)
    else FailAt t.

(** parser/statement.go:70-165 *)
Definition parse_statement_body : prog sbody :=
  t <- cur ;;
  let v := value t in
  if p_type ReservedWord t then
    if eqs v "INHERITED" then parse_inherited
    else if eqs v "GOTO" then parse_goto
    else if eqs v "BEGIN" then parse_compound_stmt
    else if eqs v "IF" then parse_if
    else if eqs v "CASE" then parse_case
    else if eqs v "REPEAT" then parse_repeat
    else if eqs v "WHILE" then parse_while
    else if eqs v "FOR" then parse_for
    else if eqs v "WITH" then parse_with
    else if eqs v "TRY" then parse_try
    else if eqs v "RAISE" then parse_raise
    else if eqs v "ASM" then parse_asm
    else parse_designator_statement
  else parse_designator_statement.
(** parser/statement.go:56-166: ParseStatement *)
Definition parse_statement : prog stmt :=
  t0 <- cur ;;
  d <- get_node (value t0) ;;
  label <- match d with
           | Some (_, NLabel) => expect_next (sym ":") ;;; Next ;;; Ret (Some (new_ident t0))
           | _ => Ret None
           end ;;
  b <- parse_statement_body ;;
  Ret (Stmt label b).

(** ** Functions and blocks *)

(** parser/function_heading.go:72-117: ParseExternalOptions.  NUMBER of INDEX is accepted
    only when it is a string (parser/expression.go:261), which starts with a quote or
    [#], so that [strconv.ParseInt] fails. *)
Definition parse_external_options : prog (option extopts) :=
  expect (p_directive_set [rs "EXTERNAL"]) ;;;
  t <- next ;;
  if sym ";" t then Ret None else
  lib <- parse_string_factor t false ;;
  t1 <- cur ;;
  if sym ";" t1 then Ret (Some (mkExtOpts lib None None)) else
  if p_directive_set [rs "NAME"] t1 then
    t2 <- next ;;
    n <- parse_string_factor t2 false ;;
    Ret (Some (mkExtOpts lib (Some n) None))
  else if p_directive_set [rs "INDEX"] t1 then
    t2 <- next ;;
    parse_number_factor t2 false ;;;
    Fail EOther
  else FailAt t1.
(** parser/function_heading.go:44-70: ParseFunctionDirectives *)
Definition directives_step (st : list gostring * option extopts)
    : prog ((list gostring * option extopts) + (list gostring * option extopts)) :=
  let '(l, opts) := st in
  t <- cur ;;
  if negb (p_directive t) then Ret (inr (l, opts)) else
  let dir := to_upper (value t) in
  opts' <- (if eqs dir "EXTERNAL" then parse_external_options else Next ;;; Ret opts) ;;
  expect (sym ";") ;;;
  Next ;;;
  Ret (inl (l ++ [dir], opts')).
Definition parse_function_directives : prog (list gostring * option extopts) :=
  loop (r_fuel R) directives_step ([], None).
(** The directives behind a heading, if any: parser/function.go:30-37,
    function_heading.go:33-40 *)
Definition parse_optional_directives : prog (option (list gostring) * option extopts) :=
  b <- is p_directive ;;
  if b : bool then
    '(l, o) <- parse_function_directives ;; Ret (Some l, o)
  else Ret (None, None).

Definition heading_ident (h : heading) : ident := match h with Heading _ i _ _ => i end.
(** parser/function_heading.go:12-42: ParseExportedHeading.  Without a heading, the
    declaration has no identifier and [Set] panics. *)
Definition parse_exported_heading : prog intfdecl :=
  Scoped (
    t <- cur ;;
    h <- (if eqs_any (value t) ["PROCEDURE"; "FUNCTION"]%string then
            h <- parse_function_heading ;; Ret (Some h)
          else Ret None) ;;
    expect (sym ";") ;;;
    match h with
    | None => Crash
    | Some h =>
        set [mkDecl (heading_ident h) NExported] ;;;
        Next ;;;
        '(l, o) <- parse_optional_directives ;;
        Ret (IHeading h l o)
    end).

(** parser/function.go:8-45: ParseProcedureDeclSection *)
Definition parse_procedure_decl_section : prog (option declsection) :=
  t <- cur ;;
  if eqs_any (value t) ["PROCEDURE"; "FUNCTION"]%string then
    Scoped (
      h <- parse_function_heading ;;
      expect (sym ";") ;;;
      set [mkDecl (heading_ident h) NFunc] ;;;
      Next ;;;
      '(l, o) <- parse_optional_directives ;;
      b <- r_block R ;;
      Ret (Some (DSFunc h l o b)))
  else Ret None.

(** parser/block.go:161-178: ParseLabelDeclSection *)
Definition parse_label_decl_section : prog (option declsection) :=
  b <- is (kw "LABEL") ;;
  if b : bool then
    t <- expect_next (p_type Identifier) ;;
    expect_next (sym ";") ;;;
    Next ;;;
    set [mkDecl (new_ident t) NLabel] ;;;
    Ret (Some (DSLabel (new_ident t)))
  else Ret None.

(** parser/block.go:67-94: ParseDeclSection *)
Definition parse_decl_section : prog (option declsection) :=
  r <- parse_label_decl_section ;;
  match r with Some s => Ret (Some s) | None =>
  r <- parse_const_section false ;;
  match r with Some l => Ret (Some (DSConst l)) | None =>
  r <- parse_type_section false ;;
  match r with Some l => Ret (Some (DSType l)) | None =>
  r <- parse_var_section false ;;
  match r with Some l => Ret (Some (DSVar l)) | None =>
  r <- parse_threadvar_section false ;;
  match r with Some l => Ret (Some (DSThreadVar l)) | None =>
  parse_procedure_decl_section
  end end end end end.
(** parser/block.go:46-65: ParseDeclSections *)
Definition nonempty {A} (l : list A) : option (list A) := match l with [] => None | _ => Some l end.
Definition decl_sections_step (l : list declsection) : prog (list declsection + list declsection) :=
  r <- parse_decl_section ;;
  match r with
  | None => Ret (inr l)
  | Some s =>
      b <- is (sym ";") ;;
      (if b : bool then Next ;;; Ret tt else Ret tt) ;;;
      Ret (inl (l ++ [s]))
  end.
Definition parse_decl_sections : prog (option (list declsection)) :=
  l <- loop (r_fuel R) decl_sections_step [] ;; Ret (nonempty l).

(** parser/block.go:114-159: ParseExportsStmt(false) *)
Definition parse_exports_item : prog exportsitem :=
  t <- expect (p_type Identifier) ;;
  t2 <- next ;;
  if p_directive_set [rs "NAME"] t2 then
    Next ;;; e <- parse_const_expr ;; Ret (mkExports (new_ident t) (Some e) None)
  else if p_directive_set [rs "INDEX"] t2 then
    Next ;;; e <- parse_const_expr ;; Ret (mkExports (new_ident t) None (Some e))
  else Ret (mkExports (new_ident t) None None).
Definition parse_exports_stmt : prog (option (list exportsitem)) :=
  b <- is (kw "EXPORTS") ;;
  if b : bool then
    Next ;;;
    l <- until_list (r_fuel R) (sym ";") (Some (sym ",")) parse_exports_item ;;
    Next ;;;
    Ret (Some l)
  else Ret None.
(** parser/block.go:96-112: ParseExportsStmts *)
Definition exports_step (l : list (list exportsitem))
    : prog (list (list exportsitem) + list (list exportsitem)) :=
  r <- parse_exports_stmt ;;
  match r with None => Ret (inr l) | Some s => Ret (inl (l ++ [s])) end.
Definition parse_exports_stmts : prog (option (list (list exportsitem))) :=
  l <- loop (r_fuel R) exports_step [] ;; Ret (nonempty l).

(** parser/block.go:8-44: ParseBlock.  The second list of exports replaces the first. *)
Definition parse_block : prog block :=
  ds <- parse_decl_sections ;;
  ex1 <- parse_exports_stmts ;;
  t <- cur ;;
  body <- (if eqs (value t) "BEGIN" then b <- parse_compound_stmt ;; Ret (Some b)
           else if eqs (value t) "ASM" then b <- parse_asm ;; Ret (Some b)
           else Ret None) ;;
  ex2 <- parse_exports_stmts ;;
  Ret (Block ds (match ex2 with Some l => Some l | None => ex1 end) body).

End Methods.

(** The knot: a recursive call goes one level down. *)
Fixpoint recs_at (n : nat) : recs :=
  match n with
  | O => mkRecs 1 NoFuel NoFuel NoFuel (fun _ => NoFuel) NoFuel NoFuel
  | S m =>
      let R := recs_at m in
      mkRecs (S n) (parse_expression R) (parse_factor R) (parse_type R) (parse_field_list R)
        (parse_statement R) (parse_block R)
  end.

End WithUnicode.
