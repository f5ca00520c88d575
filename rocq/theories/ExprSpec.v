(** What expressions look like in source form, which trees have one, and what the
    references in a tree must be. *)
From Coq Require Import String List NArith Bool Arith.
From Verif Require Import Runes Token Tokenizer LexSpec Ast Heap Prog ParseSpec.
Import ListNotations.
Local Open Scope list_scope.

Section WithUnicode.
Context {U : Unicode}.

Notation words := (list (ttype * gostring)).

(** ** Source form *)

(** An operator is a reserved word or a symbol. *)
Definition wop (v : gostring) : ttype * gostring :=
  (if str_in v reserved_words then ReservedWord else SpecialSymbol, v).
(** Unsigned or signed numbers: real ones have a decimal point. *)
Definition wnumber (v : gostring) : ttype * gostring :=
  (if existsb (N.eqb 46) v then NumeralReal else NumeralInt, v).

Definition write_name (q : qualid) : words :=
  match q_ns q with
  | None => [wident (i_name (ir_ident (q_ident q)))]
  | Some ns => [wident (i_name (ir_ident ns)); wsym "."; wident (i_name (ir_ident (q_ident q)))]
  end.
Fixpoint write_expr (e : expr) : words :=
  match e with
  | Expr s rels => write_sexpr s ++ flat_map (fun r => wop (fst r) :: write_sexpr (snd r)) rels
  end
with write_sexpr (s : sexpr) : words :=
  match s with
  | SExpr u t adds =>
      match u with None => [] | Some v => [wop v] end ++
      write_term t ++ flat_map (fun r => wop (fst r) :: write_term (snd r)) adds
  end
with write_term (t : term) : words :=
  match t with
  | Term f muls => write_factor f ++ flat_map (fun r => wop (fst r) :: write_factor (snd r)) muls
  end
with write_factor (f : factor) : words :=
  match f with
  | FDesignator d args =>
      write_desig d ++
      match args with None => [] | Some es => wsym "(" :: commas (map write_expr es) ++ [wsym ")"] end
  | FAddress d => wsym "@" :: write_desig d
  | FNumber v => [wnumber v]
  | FString v => [(CharacterString, v)]
  | FValue v => [wident v]
  | FNil => [wkey "NIL"]
  | FParen e => wsym "(" :: write_expr e ++ [wsym ")"]
  | FNot f => wkey "NOT" :: write_factor f
  | FSet es =>
      wsym "[" ::
      commas (map (fun r => write_expr (fst r) ++
                            match snd r with None => [] | Some e2 => wsym ".." :: write_expr e2 end) es) ++
      [wsym "]"]
  | FCast t e => wident (i_name (ti_ident t)) :: wsym "(" :: write_expr e ++ [wsym ")"]
  end
with write_desig (d : desig) : words :=
  match d with Desig q items => write_name q ++ flat_map write_item items end
with write_item (i : ditem) : words :=
  match i with
  | DIdent n => [wsym "."; wident (i_name n)]
  | DIndex es => wsym "[" :: commas (map write_expr es) ++ [wsym "]"]
  | DDeref => [wsym "^"]
  end.

(** ** The trees that have a source form *)

Definition rel_ops : list gostring := map rs [">"; "<"; "<="; ">="; "="; "<>"; "IN"; "IS"]%string.
Definition add_ops : list gostring := map rs ["+"; "-"; "OR"; "XOR"]%string.
Definition mul_ops : list gostring := map rs ["*"; "/"; "DIV"; "MOD"; "AND"; "SHL"; "SHR"]%string.
Definition signs : list gostring := map rs ["+"; "-"]%string.
Definition truth_value (v : gostring) : Prop := to_upper v = rs "TRUE" \/ to_upper v = rs "FALSE".

(** What the names stand for where the expression is: the declaration of a name, which names
    are neither types nor namespaces, which are types, and the members of the namespaces,
    with the declarations of both. *)
Record env := mkEnv {
  visible : gostring -> option dref;
  plain_name : gostring -> Prop;
  type_name : gostring -> Prop;
  member : gostring -> gostring -> dref -> dref -> Prop }.

(** [P] of all elements. *)
Definition all {A} (P : A -> Prop) (l : list A) : Prop := fold_right (fun a Q => P a /\ Q) True l.

Section Env.
Context (en : env).

(** A name: a namespace name only before a member. *)
Definition good_name (q : qualid) : Prop :=
  match q_ns q with
  | None => plain_name en (i_name (ir_ident (q_ident q))) \/ type_name en (i_name (ir_ident (q_ident q)))
  | Some ns => exists d d', member en (i_name (ir_ident ns)) (i_name (ir_ident (q_ident q))) d d'
  end.
(** The identifier that a designator begins with. *)
Definition first_name (d : desig) : gostring :=
  match d with Desig q _ => i_name (ir_ident (match q_ns q with Some ns => ns | None => q_ident q end)) end.
Fixpoint good_expr (e : expr) : Prop :=
  match e with
  | Expr s rels => good_sexpr s /\ all (fun r => In (fst r) rel_ops /\ good_sexpr (snd r)) rels
  end
with good_sexpr (s : sexpr) : Prop :=
  match s with
  | SExpr u t adds =>
      match u with None => True | Some v => In v signs end /\ good_term t /\
      all (fun r => In (fst r) add_ops /\ good_term (snd r)) adds
  end
with good_term (t : term) : Prop :=
  match t with
  | Term f muls => good_factor f /\ all (fun r => In (fst r) mul_ops /\ good_factor (snd r)) muls
  end
with good_factor (f : factor) : Prop :=
  match f with
  | FDesignator d args =>
      good_desig d /\ ~ truth_value (first_name d) /\
      match args with
      | None => True
      | Some es => es <> [] /\ all good_expr es /\
          (* a type name with arguments is a cast *)
          (forall q, d = Desig q [] -> q_ns q = None -> ~ type_name en (i_name (ir_ident (q_ident q))))
      end
  | FAddress d => good_desig d
  | FNumber v => lexeme NumeralInt v \/ lexeme NumeralReal v
  | FString v => lexeme CharacterString v
  | FValue v => truth_value v
  | FNil => True
  | FParen e => good_expr e
  | FNot f => good_factor f
  | FSet es => es <> [] /\
      all (fun r => good_expr (fst r) /\ match snd r with None => True | Some e2 => good_expr e2 end) es
  | FCast t e => ti_unit t = None /\ ~ truth_value (i_name (ti_ident t)) /\
      type_name en (i_name (ti_ident t)) /\ good_expr e
  end
with good_desig (d : desig) : Prop :=
  match d with Desig q items => good_name q /\ all good_item items end
with good_item (i : ditem) : Prop :=
  match i with
  | DIdent _ | DDeref => True
  | DIndex es => es <> [] /\ all good_expr es
  end.
End Env.

(** ** What follows an expression *)

(** The words with which an expression goes on: operators, and what continues a
    designator. *)
Definition goes_on : words :=
  map wop (rel_ops ++ add_ops ++ mul_ops) ++ map wsym ["("; "."; "["; "^"]%string.

(** ** Trees without places and references *)
Definition bare_ident (i : ident) : ident := mkIdent (i_name i) None.
Definition bare_ref (r : identref) : identref := mkIdentRef (bare_ident (ir_ident r)) None.
Definition bare_qual (q : qualid) : qualid := mkQualId (option_map bare_ref (q_ns q)) (bare_ref (q_ident q)).
Definition bare_typeid (t : typeid) : typeid :=
  mkTypeId (option_map bare_ident (ti_unit t)) (bare_ident (ti_ident t)) 0.
Fixpoint bare_expr (e : expr) : expr :=
  match e with Expr s rels => Expr (bare_sexpr s) (map (fun r => (fst r, bare_sexpr (snd r))) rels) end
with bare_sexpr (s : sexpr) : sexpr :=
  match s with SExpr u t adds => SExpr u (bare_term t) (map (fun r => (fst r, bare_term (snd r))) adds) end
with bare_term (t : term) : term :=
  match t with Term f muls => Term (bare_factor f) (map (fun r => (fst r, bare_factor (snd r))) muls) end
with bare_factor (f : factor) : factor :=
  match f with
  | FDesignator d args => FDesignator (bare_desig d) (option_map (map bare_expr) args)
  | FAddress d => FAddress (bare_desig d)
  | FNumber v => FNumber v
  | FString v => FString v
  | FValue v => FValue v
  | FNil => FNil
  | FParen e => FParen (bare_expr e)
  | FNot f => FNot (bare_factor f)
  | FSet es => FSet (map (fun r => (bare_expr (fst r), option_map bare_expr (snd r))) es)
  | FCast t e => FCast (bare_typeid t) (bare_expr e)
  end
with bare_desig (d : desig) : desig :=
  match d with Desig q items => Desig (bare_qual q) (map bare_item items) end
with bare_item (i : ditem) : ditem :=
  match i with
  | DIdent n => DIdent (bare_ident n)
  | DIndex es => DIndex (map bare_expr es)
  | DDeref => DDeref
  end.

(** ** Operators *)

(** What an expression says: operators applied to operands, without parentheses. *)
Inductive opx :=
| OBin (v : gostring) (a b : opx)
| OSign (v : gostring) (a : opx)
| ONot (a : opx)
| OAtom (f : factor).

(** The classes of operators, the weakest first; 3 is the class of operands. *)
Definition binds (v : gostring) : nat :=
  if str_in v mul_ops then 2 else if str_in v add_ops then 1 else 0.
(** With parentheses only where the order of operators and the rule "from left to right"
    ask for them: [p] is the weakest class that may be written without. *)
Definition in_parens (b : bool) (ws : words) : words :=
  if b then wsym "(" :: ws ++ [wsym ")"] else ws.
Fixpoint show_op (p : nat) (x : opx) : words :=
  match x with
  | OBin v a b =>
      in_parens (binds v <? p) (show_op (binds v) a ++ wop v :: show_op (S (binds v)) b)
  | OSign v a => in_parens (1 <? p) (wop v :: show_op 2 a)
  | ONot a => wkey "NOT" :: show_op 3 a
  | OAtom f => write_factor f
  end.
(** The operands are neither parenthesised nor negated. *)
Fixpoint good_op (en : env) (x : opx) : Prop :=
  match x with
  | OBin v a b => In v (rel_ops ++ add_ops ++ mul_ops) /\ good_op en a /\ good_op en b
  | OSign v a => In v signs /\ good_op en a
  | ONot a => good_op en a
  | OAtom f => good_factor en f /\ match f with FParen _ | FNot _ => False | _ => True end
  end.

(** What a tree says: lists of operands are read from left to right, and a sign belongs to
    the first term. *)
Definition from_left (a : opx) (l : list (gostring * opx)) : opx :=
  fold_left (fun x r => OBin (fst r) x (snd r)) l a.
Fixpoint means_expr (e : expr) : opx :=
  match e with
  | Expr s rels => from_left (means_sexpr s) (map (fun r => (fst r, means_sexpr (snd r))) rels)
  end
with means_sexpr (s : sexpr) : opx :=
  match s with
  | SExpr u t adds =>
      from_left (match u with None => means_term t | Some v => OSign v (means_term t) end)
                (map (fun r => (fst r, means_term (snd r))) adds)
  end
with means_term (t : term) : opx :=
  match t with
  | Term f muls => from_left (means_factor f) (map (fun r => (fst r, means_factor (snd r))) muls)
  end
with means_factor (f : factor) : opx :=
  match f with
  | FParen e => means_expr e
  | FNot f => ONot (means_factor f)
  | f => OAtom f
  end.
Fixpoint bare_op (x : opx) : opx :=
  match x with
  | OBin v a b => OBin v (bare_op a) (bare_op b)
  | OSign v a => OSign v (bare_op a)
  | ONot a => ONot (bare_op a)
  | OAtom f => OAtom (bare_factor f)
  end.

(** ** Names in a state of the parser *)

(** The objects of a namespace node. *)
Definition namespace_map (h : heap) (n : dnode) (m : dmap) : Prop :=
  match n with
  | NUses a => exists it u uo, nth_error (h_uses h) a = Some it /\ u_unit it = Some u /\
                 nth_error (h_units h) u = Some uo /\ un_map uo = m
  | NUnit u => exists uo, nth_error (h_units h) u = Some uo /\ un_map uo = m
  | NProgram a => exists po, nth_error (h_progs h) a = Some po /\ pr_map po = m
  | _ => False
  end.
(** The declaration that the context resolves [name] to, and what it declares. *)
Definition resolves (h : heap) (c : nat) (name : gostring) (d : dref) (n : dnode) : Prop :=
  ctx_get h c name = LFound d /\ exists o, deref h d = Some o /\ d_node o = n.
Definition is_namespace (n : dnode) : Prop :=
  match n with NUses _ | NUnit _ | NProgram _ => True | _ => False end.
Definition env_at (h : heap) (c : nat) : env :=
  mkEnv (fun name => match ctx_get h c name with LFound d => Some d | _ => None end)
        (fun name => ctx_get h c name = LNil \/
           exists d n, resolves h c name d n /\ ~ is_namespace n /\ forall t, n <> NType t)
        (fun name => exists d t, resolves h c name d (NType t))
        (fun ns m d d' => exists n mp, resolves h c ns d n /\ namespace_map h n mp /\ dget h mp m = LFound d').

(** ** References *)

(** Each name refers to its declaration; [refs] are the references of the type names. *)
Section Refs.
Context (en : env) (refs : list (option dref)).

Definition linked_name (q : qualid) : Prop :=
  match q_ns q with
  | None => ir_ref (q_ident q) = visible en (i_name (ir_ident (q_ident q)))
  | Some ns => exists d d', ir_ref ns = Some d /\ ir_ref (q_ident q) = Some d' /\
      member en (i_name (ir_ident ns)) (i_name (ir_ident (q_ident q))) d d'
  end.
Definition linked_type (t : typeid) : Prop :=
  exists d, visible en (i_name (ti_ident t)) = Some d /\ nth_error refs (ti_ref t) = Some (Some d).
Fixpoint linked_expr (e : expr) : Prop :=
  match e with Expr s rels => linked_sexpr s /\ all (fun r => linked_sexpr (snd r)) rels end
with linked_sexpr (s : sexpr) : Prop :=
  match s with SExpr u t adds => linked_term t /\ all (fun r => linked_term (snd r)) adds end
with linked_term (t : term) : Prop :=
  match t with Term f muls => linked_factor f /\ all (fun r => linked_factor (snd r)) muls end
with linked_factor (f : factor) : Prop :=
  match f with
  | FDesignator d args =>
      linked_desig d /\ match args with None => True | Some es => all linked_expr es end
  | FAddress d => linked_desig d
  | FNumber _ | FString _ | FValue _ | FNil => True
  | FParen e => linked_expr e
  | FNot f => linked_factor f
  | FSet es => all (fun r => linked_expr (fst r) /\
                             match snd r with None => True | Some e2 => linked_expr e2 end) es
  | FCast t e => linked_type t /\ linked_expr e
  end
with linked_desig (d : desig) : Prop :=
  match d with Desig q items => linked_name q /\ all linked_item items end
with linked_item (i : ditem) : Prop :=
  match i with DIdent _ | DDeref => True | DIndex es => all linked_expr es end.
End Refs.

(** ** Effects of reading an expression *)

(** A context of a parser: of a program or a unit. *)
Definition parser_context (s : pst) : Prop :=
  exists o, nth_error (h_ctxs (s_heap s)) (s_ctx s) = Some o /\ forall p, cx_kind o <> KStack p.

(** Nothing that can be looked up has changed: there are more references of type names and
    more contexts, and the current context may be a copy of what it was. *)
Definition quiet (s s' : pst) : Prop :=
  let h := s_heap s in let h' := s_heap s' in
  h_maps h' = h_maps h /\ h_decls h' = h_decls h /\ h_fwds h' = h_fwds h /\ h_uses h' = h_uses h /\
  h_units h' = h_units h /\ h_progs h' = h_progs h /\
  (exists more, h_refs h' = h_refs h ++ more) /\ (exists more, h_ctxs h' = h_ctxs h ++ more) /\
  nth_error (h_ctxs h') (s_ctx s') = nth_error (h_ctxs h) (s_ctx s) /\
  s_post s' = s_post s.

End WithUnicode.
