(** What a parser method does: calls of the primitive operations of
    /repo/parser/base.go and of the context, in sequence, with Go's error returns
    and panics.  A method is a value of type [prog]; [run] executes it. *)
From Coq Require Import String List NArith Bool Arith.
From Verif Require Import Runes Token Tokenizer Ast Ext Heap.
Import ListNotations.
Local Open Scope list_scope.

(** Errors.  [EAt]: the message ends with the place, path, line and column
    (base.go:118-126).  [EDup]: a name declared twice (ast/astcore/decl_map.go:31-36).
    [ENil]: "something wrong, token is nil" (base.go:65-67, 93-95).  [EOther]: a message
    without place.  The words of the messages are not modelled. *)
Inductive perr := EAt (path : gostring) (line col : nat) | EDup (i : ident) | ENil | EOther.

(** Result of an operation on the heap: done, an error, a panic, or a walk over the
    type graph that was not finished within its fuel. *)
Inductive hres (A : Type) := HOk (a : A) (h : heap) | HErr (e : perr) (h : heap) | HPanic | HStuck.
Arguments HOk {A}. Arguments HErr {A}. Arguments HPanic {A}. Arguments HStuck {A}.

Inductive prog : Type -> Type :=
| Ret {A} (a : A) : prog A
| Bind {A B} (p : prog A) (k : A -> prog B) : prog B
(** base.go:40-43: NextToken *)
| Next : prog (option token)
(** base.go:45-47: CurrentToken *)
| Cur : prog (option token)
(** An operation on [p.context] and the objects. *)
| OnHeap {A} (f : nat -> heap -> hres A) : prog A
(** base.go:118-126: TokenErrorf *)
| FailAt {A} (t : token) : prog A
(** errors.Errorf *)
| Fail {A} (e : perr) : prog A
(** A run-time panic: a nil pointer used *)
| Crash {A} : prog A
(** Not finished within the fuel *)
| NoFuel {A} : prog A
(** base.go:29-38: [rollback := p.RollbackPoint()], the body, and [rollback()] when the
    body asks for it by returning [None]; an error does not roll back. *)
| Attempt {B} (p : prog (option B)) : prog (option B)
(** [defer p.context.StackDeclMap()()] and the rest of the method *)
| Scoped {A} (p : prog A) : prog A
(** base.go:113-116: [defer p.TraceMethod(name)()] and the rest of the method.  What is
    logged is not modelled; the current token is printed at both ends, so it must
    not be nil. *)
| Traced {A} (p : prog A) : prog A
(** base.go:128-132: [defer p.SetupPostSectionFuncs()()] and the rest *)
| PostScope {A} (p : prog A) : prog A
(** base.go:134-136 with the function of type.go:182-187: look up [name] and store what is
    found in the [Ref] at address [cell] *)
| AddPost (cell : nat) (name : gostring) : prog unit
(** base.go:138-142 *)
| RunPost : prog unit.

(** base.go:11-16 and everything the pointers in it reach *)
Record pst := mkPst {
  s_tok : tokenizer; s_cur : option token; s_ctx : nat; s_post : list (nat * gostring);
  s_heap : heap }.
Definition with_heap (h : heap) (s : pst) : pst := mkPst (s_tok s) (s_cur s) (s_ctx s) (s_post s) h.
Definition with_post (l : list (nat * gostring)) (s : pst) : pst :=
  mkPst (s_tok s) (s_cur s) (s_ctx s) l (s_heap s).

(** How a method ends.  [OHang]: a call of the tokenizer does not return. *)
Inductive outcome (A : Type) :=
| OOk (a : A) (s : pst)
| OErr (e : perr) (s : pst)
| OPanic
| OHang
| OStuck.
Arguments OOk {A}. Arguments OErr {A}. Arguments OPanic {A}. Arguments OHang {A}. Arguments OStuck {A}.

Section WithUnicode.
Context {U : Unicode}.

(** base.go:40-43 *)
Definition next_token (s : pst) : outcome (option token) :=
  match get_next (s_tok s) with
  | GTok t k => OOk (Some t) (mkPst k (Some t) (s_ctx s) (s_post s) (s_heap s))
  | GNil k => OOk None (mkPst k None (s_ctx s) (s_post s) (s_heap s))
  | GHang => OHang
  end.

(** base.go:138-142, type.go:182-187 *)
Fixpoint run_post (c : nat) (l : list (nat * gostring)) (h : heap) : option heap :=
  match l with
  | [] => Some h
  | (cell, name) :: l' =>
      match ctx_get h c name with
      | LPanic => None
      | LNil => run_post c l' h
      | LFound d => run_post c l' (with_refs (set_nth cell (Some d) (h_refs h)) h)
      end
  end.

Fixpoint run {A} (p : prog A) (s : pst) : outcome A :=
  match p in prog T return outcome T with
  | Ret a => OOk a s
  | Bind p k =>
      match run p s with
      | OOk a s' => run (k a) s'
      | OErr e s' => OErr e s'
      | OPanic => OPanic
      | OHang => OHang
      | OStuck => OStuck
      end
  | Next => next_token s
  | Cur => OOk (s_cur s) s
  | OnHeap f =>
      match f (s_ctx s) (s_heap s) with
      | HOk a h => OOk a (with_heap h s)
      | HErr e h => OErr e (with_heap h s)
      | HPanic => OPanic
      | HStuck => OStuck
      end
  | FailAt t =>
      match ctx_path (s_heap s) (s_ctx s) with
      | Some path => OErr (EAt path (p_line (t_start t)) (p_col (t_start t))) s
      | None => OPanic
      end
  | Fail e => OErr e s
  | Crash => OPanic
  | NoFuel => OStuck
  | Attempt p =>
      match s_cur s with
      | None => OPanic
      | Some t =>
          match ctx_clone (s_heap s) (s_ctx s) with
          | None => OPanic
          | Some (h, c) =>
              match run p (with_heap h s) with
              | OOk None s' =>
                  OOk None (mkPst (tokenizer_clone (s_tok s)) (Some (token_clone t)) c
                              (s_post s') (s_heap s'))
              | r => r
              end
          end
      end
  | Scoped p =>
      match ctx_stack (s_heap s) (s_ctx s) with
      | None => OPanic
      | Some (h, backup) =>
          match run p (with_heap h s) with
          | OOk a s' => OOk a (with_heap (ctx_restore (s_heap s') (s_ctx s) backup) s')
          | OErr e s' => OErr e (with_heap (ctx_restore (s_heap s') (s_ctx s) backup) s')
          | r => r
          end
      end
  | Traced p =>
      match s_cur s with
      | None => OPanic
      | Some _ =>
          match run p s with
          | OOk a s' => match s_cur s' with None => OPanic | Some _ => OOk a s' end
          | OErr e s' => match s_cur s' with None => OPanic | Some _ => OErr e s' end
          | r => r
          end
      end
  | PostScope p =>
      match run p (with_post [] s) with
      | OOk a s' => OOk a (with_post (s_post s) s')
      | OErr e s' => OErr e (with_post (s_post s) s')
      | r => r
      end
  | AddPost cell name => OOk tt (with_post (s_post s ++ [(cell, name)]) s)
  | RunPost =>
      match run_post (s_ctx s) (s_post s) (s_heap s) with
      | Some h => OOk tt (with_heap h s)
      | None => OPanic
      end
  end.

End WithUnicode.

Declare Scope prog_scope.
Delimit Scope prog_scope with prog.
Notation "x <- p ;; q" := (Bind p (fun x => q))
  (at level 61, p at next level, right associativity) : prog_scope.
Notation "' pat <- p ;; q" := (Bind p (fun x => match x with pat => q end))
  (at level 61, pat pattern, p at next level, right associativity) : prog_scope.
Notation "p ;;; q" := (Bind p (fun _ => q)) (at level 61, right associativity) : prog_scope.
Local Open Scope prog_scope.

(** Use of the current token by a method that must not be called on nil *)
Definition cur : prog token :=
  t <- Cur ;; match t with Some t => Ret t | None => Crash end.
(** [p.CurrentToken().Is(pred)]; token/token.go:62-64 and predicate.go: nil panics *)
Definition is (pred : predicator) : prog bool := t <- cur ;; Ret (pred t).
(** [t := p.NextToken()], with [t] used so that nil panics *)
Definition next : prog token := t <- Next ;; match t with Some t => Ret t | None => Crash end.
(** base.go:64-74: Validate with one predicate *)
Definition validate (t : option token) (pred : predicator) : prog token :=
  match t with
  | None => Fail ENil
  | Some t => if pred t then Ret t else FailAt t
  end.
(** base.go:57-62: Current *)
Definition expect (pred : predicator) : prog token := t <- Cur ;; validate t pred.
(** base.go:49-55: Next *)
Definition expect_next (pred : predicator) : prog token := t <- Next ;; validate t pred.
(** [if _, err := p.Current(pred); err != nil { return p.TokenErrorf(..., p.CurrentToken()) }]:
    TokenErrorf of nil panics *)
Definition expect_or_fail (pred : predicator) : prog token :=
  t <- cur ;; if pred t then Ret t else FailAt t.

(** A Go [for] loop with the variables [S], left with the value [A]. *)
Fixpoint loop {S A : Type} (fuel : nat) (body : S -> prog (S + A)) (s : S) : prog A :=
  match fuel with
  | O => NoFuel
  | Datatypes.S f => r <- body s ;; match r with inl s' => loop f body s' | inr a => Ret a end
  end.

(** base.go:84-107: Until.  [S] are the variables that [fn] changes; [None] is
    [QuitUntil], returned before any change. *)
Definition until_step {S : Type} (terminator : predicator) (separator : option predicator)
    (fn : S -> prog (option S)) (s : S) : prog (S + S) :=
  r <- fn s ;;
  match r with
  | None => Ret (inr s)
  | Some s' =>
      t <- Cur ;;
      match t with
      | None => Fail ENil
      | Some t =>
          if terminator t then Ret (inr s') else
          match separator with
          | None => Ret (inl s')
          | Some sep => validate (Some t) sep ;;; Next ;;; Ret (inl s')
          end
      end
  end.
Definition until {S : Type} (fuel : nat) (terminator : predicator) (separator : option predicator)
    (fn : S -> prog (option S)) (s : S) : prog S :=
  loop fuel (until_step terminator separator fn) s.

(** The usual [fn]: parse an element and append it. *)
Definition append_with {A : Type} (p : prog A) (l : list A) : prog (option (list A)) :=
  a <- p ;; Ret (Some (l ++ [a])).
Definition until_list {A : Type} (fuel : nat) (terminator : predicator) (separator : option predicator)
    (p : prog A) : prog (list A) :=
  until fuel terminator separator (append_with p) [].

Section WithUnicode.
Context {U : Unicode}.

(** [p.context.Get(name)] *)
Definition get (name : gostring) : prog (option dref) :=
  OnHeap (fun c h => match ctx_get h c name with
                     | LNil => HOk None h
                     | LFound d => HOk (Some d) h
                     | LPanic => HPanic
                     end).
(** The node of a declaration *)
Definition node_of (d : dref) : prog dnode :=
  OnHeap (fun _ h => match deref h d with Some o => HOk (d_node o) h | None => HPanic end).
(** [p.context.Get(name)] and the node of the result *)
Definition get_node (name : gostring) : prog (option (dref * dnode)) :=
  d <- get name ;;
  match d with
  | None => Ret None
  | Some d => n <- node_of d ;; Ret (Some (d, n))
  end.
(** [p.context.Set(node)] where the node declares [ds] *)
Definition set (ds : list decl) : prog unit :=
  OnHeap (fun c h => match ctx_set h c ds with
                     | SOk h' => HOk tt h'
                     | SErr h' i => HErr (EDup i) h'
                     | SPanic => HPanic
                     end).
(** [ast.NewTypeId(ident, decl)], [&ast.TypeId{Ident: ident}]: ast/type_id.go:28-47 *)
Definition new_type_id (u : option ident) (i : ident) (ref : option dref) : prog typeid :=
  OnHeap (fun _ h => HOk (mkTypeId u i (length (h_refs h))) (with_refs (h_refs h ++ [ref]) h)).

End WithUnicode.
