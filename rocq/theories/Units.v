(** Units and programs: /repo/parser/uses_clause.go, unit_parser.go, unit_parsers.go,
    program.go. *)
From Coq Require Import String List NArith Bool Arith.
From Verif Require Import Runes Token Tokenizer Ast Ext Heap Prog Parser.
Import ListNotations.
Local Open Scope list_scope.
Local Open Scope prog_scope.

Section WithUnicode.
Context {U : Unicode}.

Definition or_nil {A} (l : option (list A)) : list A := match l with Some l => l | None => [] end.

(** ** Objects *)

(** [&ast.UsesClauseItem{...}] *)
Definition new_uses (o : usesitem) : prog nat :=
  OnHeap (fun _ h => HOk (length (h_uses h)) (with_uses (h_uses h ++ [o]) h)).
(** [&ast.Unit{Path: ..., Ident: ...}] *)
Definition new_unit (path : gostring) (i : ident) : prog nat :=
  OnHeap (fun _ h => HOk (length (h_units h))
    (with_units (h_units h ++ [mkUnit path i None None None None DNil]) h)).
(** An assignment to a field of the unit [u] *)
Definition put_unit (h : heap) (u : nat) (f : unitobj -> unitobj) : heap :=
  match nth_error (h_units h) u with
  | Some o => with_units (set_nth u (f o) (h_units h)) h
  | None => h
  end.
Definition change_unit (u : nat) (f : unitobj -> unitobj) : prog unit :=
  OnHeap (fun _ h => HOk tt (put_unit h u f)).
Definition with_port v o := mkUnit (un_path o) (un_ident o) v (un_intf o) (un_impl o) (un_init o) (un_map o).
Definition with_intf v o := mkUnit (un_path o) (un_ident o) (un_port o) v (un_impl o) (un_init o) (un_map o).
Definition with_impl v o := mkUnit (un_path o) (un_ident o) (un_port o) (un_intf o) v (un_init o) (un_map o).
Definition with_init v o := mkUnit (un_path o) (un_ident o) (un_port o) (un_intf o) (un_impl o) v (un_map o).
Definition with_unit_map v o := mkUnit (un_path o) (un_ident o) (un_port o) (un_intf o) (un_impl o) (un_init o) v.

(** [m.Unit.InterfaceSection.UsesClause]; [None]: there is no interface section *)
Definition unit_intf_uses (h : heap) (u : nat) : option (list nat) :=
  match nth_error (h_units h) u with
  | Some o => match un_intf o with Some s => Some (or_nil (is_uses s)) | None => None end
  | None => None
  end.

Section Methods.
Context (R : recs).

(** ** The uses clause *)

(** parser/uses_clause.go:15-30 *)
Definition parse_uses_item : prog nat :=
  t <- expect (p_type Identifier) ;;
  t2 <- next ;;
  path <- (if kw "IN" t2 then t3 <- next ;; s <- parse_string_factor t3 false ;; Ret (Some s)
           else Ret None) ;;
  new_uses (mkUses (new_ident t) path None).
(** parser/uses_clause.go:34-38 *)
Fixpoint set_uses (l : list nat) : prog unit :=
  match l with
  | [] => Ret tt
  | a :: l' =>
      OnHeap (fun c h =>
        match nth_error (h_uses h) a with
        | None => HPanic
        | Some o =>
            match ctx_set h c [mkDecl (u_ident o) (NUses a)] with
            | SOk h' => HOk tt h'
            | SErr h' i => HErr (EDup i) h'
            | SPanic => HPanic
            end
        end) ;;;
      set_uses l'
  end.
(** parser/uses_clause.go:8-40: ParseUsesClause *)
Definition parse_uses_clause : prog (list nat) :=
  expect (kw "USES") ;;;
  Next ;;;
  l <- until_list (r_fuel R) (sym ";") (Some (sym ",")) parse_uses_item ;;
  set_uses l ;;;
  Ret l.
(** parser/unit_parser.go:132-137, 216-221; parser/program.go:96-101: the clause and the
    token behind it *)
Definition parse_uses_next : prog (list nat) := l <- parse_uses_clause ;; Next ;;; Ret l.

(** ** Units *)

Section Unit.
(** [uc] is the field [context] of UnitParser, which stays when a rollback replaces that of
    the Parser in it. *)
Context (uc : nat).

(** parser/unit_parser.go:85-114: ParseUnitIdent.  It returns a nil unit and a nil error
    when the semicolon is missing, but [p.Unit] is set. *)
Definition parse_unit_ident : prog nat :=
  expect (kw "UNIT") ;;;
  t <- expect_next (p_type Identifier) ;;
  path <- OnHeap (fun _ h => match ctx_path h uc with Some p => HOk p h | None => HPanic end) ;;
  u <- new_unit path (new_ident t) ;;
  t1 <- next ;;
  t2 <- (if p_portability t1 then change_unit u (with_port (Some (value t1))) ;;; next
         else Ret t1) ;;
  (if sym ";" t2 then Next ;;; Ret tt else Ret tt) ;;;
  Ret u.
(** parser/unit_parser.go:116-140: ParseUnitIntfUses *)
Definition parse_unit_intf_uses (u : nat) : prog unit :=
  expect (kw "INTERFACE") ;;;
  t <- next ;;
  l <- (if kw "USES" t then l <- parse_uses_next ;; Ret (Some l) else Ret None) ;;
  change_unit u (with_intf (Some (mkIntf l None))).
(** parser/unit_parser.go:69-83: ProcessIdentAndIntfUses, ParseUnitIdentAndIntfUses *)
Definition parse_ident_and_intf_uses : prog nat :=
  u <- parse_unit_ident ;; parse_unit_intf_uses u ;;; Ret u.

(** parser/unit_parser.go:265-329: ParseInterfaceSectionDecls.  Here the section gets its
    declarations at the end, there one by one; after an error the unit is given up *)
Definition intf_decls_step (l : list intfdecl) : prog (list intfdecl + list intfdecl) :=
  t <- cur ;;
  if p_type EOF t then Ret (inr l) else
  if negb (p_type ReservedWord t) then FailAt t else
  let v := value t in
  if eqs v "TYPE" then s <- parse_type_section R true ;; Ret (inl (l ++ [IType (or_nil s)]))
  else if eqs v "VAR" then s <- parse_var_section R true ;; Ret (inl (l ++ [IVar (or_nil s)]))
  else if eqs v "THREADVAR" then s <- parse_threadvar_section R true ;; Ret (inl (l ++ [IThreadVar (or_nil s)]))
  else if eqs v "CONST" then s <- parse_const_section R true ;; Ret (inl (l ++ [IConst (or_nil s)]))
  else if eqs v "FUNCTION" then s <- parse_exported_heading R ;; Ret (inl (l ++ [s]))
  else if eqs v "PROCEDURE" then s <- parse_exported_heading R ;; Ret (inl (l ++ [s]))
  else Ret (inr l).
(** ast/type.go:25-31, 46-48; var.go:23-29, 68-74, 120-126, 140-146; const.go:23-29, 57-59;
    function_heading.go:28-30, 39-41: the declarations of [GetDeclNodes], per node *)
Definition intf_decl_nodes (d : intfdecl) : list (list decl) :=
  match d with
  | IType l => map (fun t => [mkDecl (td_ident t) (NType (td_type t))]) l
  | IVar l => map (fun v => map (fun i => mkDecl i NVar) (vd_idents v)) l
  | IThreadVar l => map (fun v => map (fun i => mkDecl i NThreadVar) (tv_idents v)) l
  | IConst l => map (fun c => [mkDecl (cd_ident c) NConst]) l
  | IHeading h _ _ => [[mkDecl (heading_ident h) NExported]]
  end.
(** parser/unit_parser.go:162-167: errors of [Set] are ignored *)
Fixpoint set_all (h : heap) (m : dmap) (l : list (list decl)) : option heap :=
  match l with
  | [] => Some h
  | ds :: l' =>
      match map_set h m ds with
      | SOk h' | SErr h' _ => set_all h' m l'
      | SPanic => None
      end
  end.
(** parser/unit_parser.go:157-171: ParseUnitIntfBody *)
Definition parse_unit_intf_body (u : nat) : prog unit :=
  l <- loop (r_fuel R) intf_decls_step [] ;;
  OnHeap (fun _ h =>
    let h1 := put_unit h u (fun o => with_intf
      (option_map (fun s => mkIntf (is_uses s) (nonempty l)) (un_intf o)) o) in
    let '(h2, a) := new_map h1 in
    match set_all h2 (DImpl a) (flat_map intf_decl_nodes l) with
    | Some h3 => HOk tt (put_unit h3 u (with_unit_map (DImpl a)))
    | None => HPanic
    end).
(** parser/unit_parser.go:142-155: ProcessIntfBody *)
Definition process_intf_body (u : nat) : prog unit :=
  OnHeap (fun _ h =>
    match unit_intf_uses h u, nth_error (h_units h) u with
    | Some us, Some o =>
        match import_unit_decls h uc us with
        | None => HPanic
        | Some h1 =>
            match ctx_set h1 uc [mkDecl (un_ident o) (NUnit u)] with
            | SOk h2 => HOk tt h2
            | SErr h2 i => HErr (EDup i) h2
            | SPanic => HPanic
            end
        end
    | _, _ => HPanic
    end) ;;;
  parse_unit_intf_body u.

(** parser/unit_parser.go:205-225: ParseImplUses *)
Definition parse_impl_uses (u : nat) : prog (list nat) :=
  expect (kw "IMPLEMENTATION") ;;;
  Next ;;;
  OnHeap (fun _ h => match ctx_stack h uc with Some (h1, _) => HOk tt h1 | None => HPanic end) ;;;
  b <- is (kw "USES") ;;
  l <- (if b : bool then l <- parse_uses_next ;; Ret (Some l) else Ret None) ;;
  change_unit u (with_impl (Some (mkImpl l None None))) ;;;
  Ret (or_nil l).
(** parser/unit_parser.go:227-245: ParseImplBody *)
Definition parse_impl_body (u : nat) : prog unit :=
  ds <- parse_decl_sections R ;;
  change_unit u (fun o => with_impl (option_map (fun s => mkImpl (im_uses s) ds (im_exports s)) (un_impl o)) o) ;;;
  ex <- parse_exports_stmts R ;;
  change_unit u (fun o => with_impl (option_map (fun s => mkImpl (im_uses s) (im_decls s) ex) (un_impl o)) o) ;;;
  b <- is (sym ";") ;;
  (if b : bool then Next ;;; Ret tt else Ret tt).
(** parser/unit_parser.go:331-359: ParseInitSection *)
Definition parse_init_section : prog initsection :=
  expect (kw "INITIALIZATION") ;;;
  Next ;;;
  l1 <- parse_stmt_list R (p_some [kw "FINALIZATION"; kw "END"]) ;;
  b <- is (kw "FINALIZATION") ;;
  l2 <- (if b : bool then Next ;;; l <- parse_stmt_list R (kw "END") ;; Ret (nonempty l) else Ret None) ;;
  Ret (mkInit (nonempty l1) l2).
(** parser/unit_parser.go:247-263: ParseUnitEnd *)
Definition parse_unit_end (u : nat) : prog unit :=
  b <- is (kw "INITIALIZATION") ;;
  (if b : bool then s <- parse_init_section ;; change_unit u (with_init (Some s)) else Ret tt) ;;;
  expect (kw "END") ;;;
  expect_next (sym ".") ;;;
  Ret tt.
(** parser/unit_parser.go:178-193: the scopes of the implementation section; the result is
    the map of the unit as it was *)
Definition impl_scope (u : nat) (us : list nat) : prog dmap :=
  OnHeap (fun _ h =>
    match assign_units h uc us with
    | None => HPanic
    | Some h1 =>
        let used := compact (uses_units h1 us) in
        match nth_error (h_ctxs h1) uc, nth_error (h_units h1) u with
        | Some co, Some uo =>
            let '(h2, local) := new_map h1 in
            let h3 := put_unit h2 u (with_unit_map (DComposite [DImpl local; un_map uo])) in
            let h4 := ctx_put_map h3 uc
                        (DComposite ([DImpl local; cx_map co] ++ maps_reverse (units_maps h3 used))) in
            HOk (un_map uo) h4
        | _, _ => HPanic
        end
    end).

(** parser/unit_parser.go:44-67: ParseUnit *)
Definition parse_unit : prog nat :=
  u <- parse_ident_and_intf_uses ;;
  parse_unit_intf_body u ;;;
  parse_impl_uses u ;;;
  parse_impl_body u ;;;
  parse_unit_end u ;;;
  Ret u.
End Unit.
End Methods.

(** parser/unit_parser.go:173-203: ProcessImplAndInit.  The deferred function puts the map
    of the unit back, after an error too. *)
Definition process_impl_and_init (R : recs) (uc u : nat) (s : pst) : outcome unit :=
  match run (l <- parse_impl_uses R uc u ;; impl_scope uc u l) s with
  | OOk m s1 =>
      let back s2 := with_heap (put_unit (s_heap s2) u (with_unit_map m)) s2 in
      match run (parse_impl_body R u ;;; parse_unit_end R u) s1 with
      | OOk _ s2 => OOk tt (back s2)
      | OErr e s2 => OErr e (back s2)
      | OPanic => OPanic
      | OHang => OHang
      | OStuck => OStuck
      end
  | OErr e s1 => OErr e s1
  | OPanic => OPanic
  | OHang => OHang
  | OStuck => OStuck
  end.

(** ** The order of the units *)

Section Sort.
(** Units and their names, as written *)
Context {A : Type} (name : A -> gostring) (uses : A -> list gostring).

(** parser/unit_parsers.go:23-33: UnitNames *)
Definition unit_names (l : list A) : string_set :=
  strs_set (flat_map (fun u => to_lower (name u) :: map to_lower (uses u)) l).
(** parser/unit_parsers.go:35-42: Map, and the look-up in it; the last unit of a name stays *)
Definition unit_of_name (l : list A) (n : gostring) : option A :=
  find (fun u => runes_equal (to_lower (name u)) n) (rev l).
(** parser/unit_parsers.go:49-53: the edges, in the order of their adding *)
Definition unit_edges (l : list A) : list (gostring * gostring) :=
  flat_map (fun u => map (fun r => (to_lower r, to_lower (name u))) (uses u)) l.
(** parser/unit_parsers.go:44-73: Graph and Sort.  [order] is the order in which Go walks
    over the set of names.  [topo] is the graph of github.com/philopon/go-toposort with these
    nodes and edges added, and its Toposort; [None] is [false], a cycle. *)
Definition sort_units (order : string_set -> list gostring)
    (topo : list gostring -> list (gostring * gostring) -> option (list gostring))
    (l : list A) : option (list A) :=
  match topo (ss_slice order (unit_names l)) (unit_edges l) with
  | None => None
  | Some names =>
      Some (flat_map (fun n => match unit_of_name l n with Some u => [u] | None => [] end) names)
  end.
End Sort.

(** ** Programs *)

(** parser/unit_parser.go:15-19 and the Parser in it *)
Record uparser := mkUp {
  up_tok : tokenizer; up_cur : option token; up_ctx : nat; up_post : list (nat * gostring);
  up_uc : nat; up_unit : nat }.
Definition up_pst (p : uparser) (h : heap) : pst := mkPst (up_tok p) (up_cur p) (up_ctx p) (up_post p) h.
Definition up_of (s : pst) (uc u : nat) : uparser := mkUp (s_tok s) (s_cur s) (s_ctx s) (s_post s) uc u.

(** What a method that works on several parsers ends with *)
Inductive result (A : Type) := ROk (a : A) (h : heap) | RErr (e : perr) (h : heap) | RPanic | RHang | RStuck.
Arguments ROk {A}. Arguments RErr {A}. Arguments RPanic {A}. Arguments RHang {A}. Arguments RStuck {A}.
Definition rbind {A B} (r : result A) (k : A -> heap -> result B) : result B :=
  match r with
  | ROk a h => k a h
  | RErr e h => RErr e h
  | RPanic => RPanic
  | RHang => RHang
  | RStuck => RStuck
  end.
Definition on_parser {A} (o : outcome A) : result (A * pst) :=
  match o with
  | OOk a s => ROk (a, s) (s_heap s)
  | OErr e s => RErr e (s_heap s)
  | OPanic => RPanic
  | OHang => RHang
  | OStuck => RStuck
  end.
(** [for _, x := range l { ... }] with errors, collecting results *)
Fixpoint each_of {A B} (f : A -> heap -> result B) (l : list A) (h : heap) : result (list B) :=
  match l with
  | [] => ROk [] h
  | a :: l' =>
      rbind (f a h) (fun b h1 => rbind (each_of f l' h1) (fun bs h2 => ROk (b :: bs) h2))
  end.

Section Program.
(** The files, decoded (Shift-JIS is not modelled); [sep] is [filepath.Separator]; [order]
    and [topo] are as for [sort_units]. *)
Context (R : recs) (files : gostring -> option (list rune)) (sep : rune)
  (order : string_set -> list gostring)
  (topo : list gostring -> list (gostring * gostring) -> option (list gostring)).

(** parser/program.go:116-122: a context for each item with a path *)
Fixpoint unit_contexts (pc : nat) (uses : list nat) (h : heap) : list (nat * gostring) * heap :=
  match uses with
  | [] => ([], h)
  | a :: uses' =>
      let path := match nth_error (h_uses h) a with Some o => effective_path sep o | None => [] end in
      if runes_equal path [] then unit_contexts pc uses' h else
      let '(h1, c) := new_unit_context h pc path in
      let '(l, h2) := unit_contexts pc uses' h1 in
      ((c, path) :: l, h2)
  end.
(** parser/unit_parser.go:25-42 and program.go:124-132: the text is read, and its
    beginning up to the uses clause of the interface section parsed *)
Definition load_unit (pc : nat) (cp : nat * gostring) (h : heap) : result uparser :=
  let '(uc, path) := cp in
  match files path with
  | None => RErr EOther h
  | Some text =>
      rbind (on_parser (run (Next ;;; parse_ident_and_intf_uses R uc)
                            (mkPst (new_tokenizer text false false) None uc [] h)))
            (fun r h1 => let '(u, s) := r in ROk (up_of s uc u) (add_unit h1 pc u))
  end.
Definition up_name (h : heap) (p : uparser) : gostring := unit_name h (up_unit p).
Definition up_uses (h : heap) (p : uparser) : list gostring :=
  match unit_intf_uses h (up_unit p) with Some l => map (uses_name h) l | None => [] end.
(** parser/program.go:139-143 *)
Definition intf_of (p : uparser) (h : heap) : result uparser :=
  rbind (on_parser (run (process_intf_body R (up_uc p) (up_unit p)) (up_pst p h)))
        (fun r h1 => ROk (up_of (snd r) (up_uc p) (up_unit p)) h1).
(** parser/program.go:145-149 *)
Definition impl_of (p : uparser) (h : heap) : result uparser :=
  rbind (on_parser (process_impl_and_init R (up_uc p) (up_unit p) (up_pst p h)))
        (fun r h1 => ROk (up_of (snd r) (up_uc p) (up_unit p)) h1).
(** parser/program.go:151-161: the uses clause item of each unit gets it *)
Fixpoint name_units (uses : list nat) (m : dmap) (us : list nat) (h : heap) : result unit :=
  match us with
  | [] => ROk tt h
  | u :: us' =>
      match find_name (uses_name h) uses (unit_name h u) with
      | None => RErr EOther h
      | Some a =>
          let h1 := uses_put_unit h a u in
          match nth_error (h_uses h1) a with
          | None => RPanic
          | Some o =>
              match map_set h1 m [mkDecl (u_ident o) (NUses a)] with
              | SOk h2 | SErr h2 _ => name_units uses m us' h2
              | SPanic => RPanic
              end
          end
      end
  end.
(** parser/program.go:115-172: LoadUnits; [pa] is the program *)
Definition load_units (pc pa : nat) (uses : list nat) (h : heap) : result unit :=
  let '(cps, h1) := unit_contexts pc uses h in
  rbind (each_of (load_unit pc) cps h1) (fun ps h2 =>
  match sort_units (up_name h2) (up_uses h2) order topo ps with
  | None => RErr EOther h2
  | Some sorted =>
      rbind (each_of intf_of sorted h2) (fun sorted1 h3 =>
      rbind (each_of impl_of sorted1 h3) (fun _ h4 =>
      let '(h5, um) := new_map h4 in
      rbind (name_units uses (DImpl um) (map up_unit ps) h5) (fun _ h6 =>
      let '(h7, local) := new_map h6 in
      match nth_error (h_ctxs h7) pc, nth_error (h_progs h7) pa with
      | Some co, Some po =>
          let maps := [DImpl local; DImpl um] ++ maps_reverse (units_maps h7 (map up_unit ps)) ++ [cx_map co] in
          let h8 := ctx_put_map h7 pc (DComposite maps) in
          let h9 := with_progs (set_nth pa (mkProg (pr_path po) (pr_ident po) (pr_block po) (DImpl local)) (h_progs h8)) h8 in
          match map_set h9 (DImpl local) [mkDecl (pr_ident po) (NProgram pa)] with
          | SOk h10 | SErr h10 _ => ROk tt h10
          | SPanic => RPanic
          end
      | _, _ => RPanic
      end)))
  end).

(** parser/program.go:65-81, 94-101: ParseProgram up to its uses clause *)
Definition parse_program_head (pc : nat) : prog (nat * option (list nat)) :=
  expect (kw "PROGRAM") ;;;
  t <- expect_next (p_type Identifier) ;;
  pa <- OnHeap (fun _ h =>
    match ctx_path h pc with
    | Some p => HOk (length (h_progs h)) (with_progs (h_progs h ++ [mkProg p (new_ident t) None DNil]) h)
    | None => HPanic
    end) ;;
  expect_next (sym ";") ;;;
  Next ;;;
  b <- is (kw "USES") ;;
  l <- (if b : bool then l <- parse_uses_next R ;; Ret (Some l) else Ret None) ;;
  Ret (pa, l).
(** parser/program.go:107-112, 86-90 *)
Definition parse_program_rest (pa : nat) (l : option (list nat)) : prog nat :=
  b <- parse_block R ;;
  OnHeap (fun _ h =>
    match nth_error (h_progs h) pa with
    | Some o => HOk tt (with_progs (set_nth pa (mkProg (pr_path o) (pr_ident o)
                          (Some (mkProgramBlock l b)) (pr_map o)) (h_progs h)) h)
    | None => HPanic
    end) ;;;
  expect (sym ".") ;;;
  Ret pa.
(** parser/program.go:64-113: ParseProgram, ParseProgramBlock of a parser whose context is [pc] *)
Definition parse_program_at (pc : nat) (s : pst) : result nat :=
  rbind (on_parser (run (parse_program_head pc) s)) (fun r h1 =>
  let '((pa, l), s1) := r in
  rbind match l with Some us => load_units pc pa us h1 | None => ROk tt h1 end (fun _ h2 =>
  rbind (on_parser (run (parse_program_rest pa l) (with_heap h2 s1))) (fun r _ =>
  ROk (fst r) (s_heap (snd r))))).
(** parser/program.go:20-52: ParseProgram of a path.  A file that cannot be opened is a
    panic.  The result is the program and the context, which has the units. *)
Definition parse_program (path : gostring) : result (nat * nat) :=
  match files path with
  | None => RPanic
  | Some text =>
      let '(h, pc) := new_program_context heap0 path in
      match run Next (mkPst (new_tokenizer text false false) None pc [] h) with
      | OOk _ s => rbind (parse_program_at pc s) (fun pa h1 => ROk (pa, pc) h1)
      | OErr e s => RErr e (s_heap s)
      | OPanic => RPanic
      | OHang => RHang
      | OStuck => RStuck
      end
  end.
End Program.
End WithUnicode.

Arguments ROk {A}. Arguments RErr {A}. Arguments RPanic {A}. Arguments RHang {A}. Arguments RStuck {A}.
