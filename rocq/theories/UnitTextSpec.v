(** What a unit looks like in source form, which units have one, and what a unit in the heap
    says. *)
From Coq Require Import String List NArith Bool Arith.
From Verif Require Import Runes Token Tokenizer LexSpec Ast Heap MapSpec Prog ParseSpec ExprSpec StmtSpec UnitSpec DeclSpec.
Import ListNotations.
Local Open Scope list_scope.

Section WithUnicode.
Context {U : Unicode}.

Notation words := (list (ttype * gostring)).

(** A unit: uses clauses are lists of names and strings; the initialization section is a list
    of statements, and perhaps a list behind FINALIZATION. *)
Record unit_source := mkUnitSource {
  us_name : gostring;
  us_port : option gostring;
  us_uses : option uses_source;
  us_decls : list intfdecl;
  us_impl_uses : option uses_source;
  us_sections : list declsection;
  us_exports : list (list exportsitem);
  us_init : option (list stmt * option (list stmt)) }.

(** ** Source form *)
Section Style.
Context (st : style).

Definition write_clause (l : option uses_source) : words := match l with None => [] | Some l => write_uses l end.
(** The heading of a function ends with its last directive. *)
Definition write_intf (d : intfdecl) : words :=
  match d with
  | IType l => write_section st (DSType l)
  | IVar l => write_section st (DSVar l)
  | IThreadVar l => write_section st (DSThreadVar l)
  | IConst l => write_section st (DSConst l)
  | IHeading h dirs opts => write_heading st h ++ wsym ";" :: write_directives st dirs opts
  end.
Definition write_stmts (l : list stmt) : words :=
  semicolons (map (write_stmt (statements st)) l) ++ last_semi (statements st).
Definition write_init (x : option (list stmt * option (list stmt))) : words :=
  match x with
  | None => []
  | Some (l, f) =>
      wkey "INITIALIZATION" :: write_stmts l ++
      match f with None => [] | Some f => wkey "FINALIZATION" :: write_stmts f end
  end.
Definition write_unit (u : unit_source) : words :=
  wkey "UNIT" :: wident (us_name u) :: write_port (us_port u) ++ wsym ";" ::
  wkey "INTERFACE" :: write_clause (us_uses u) ++ flat_map write_intf (us_decls u) ++
  wkey "IMPLEMENTATION" :: write_clause (us_impl_uses u) ++ flat_map (write_section st) (us_sections u) ++
  flat_map (write_exports st) (us_exports u) ++ write_init (us_init u) ++ [wkey "END"; wsym "."].

(** ** Names *)

(** Behind the name of a unit in a uses clause: nothing is known of the unit. *)
Definition declare_unit (n : gostring) (sc : scope) : scope :=
  let en := names (known sc) in
  mkScope
    (mkSenv (mkEnv (visible en)
                   (fun m => plain_name en m /\ ~ same_name m n)
                   (fun m => type_name en m /\ ~ same_name m n)
                   (fun m x d d' => member en m x d d' /\ ~ same_name m n))
            (fun m => a_label (known sc) m /\ ~ same_name m n)
            (fun m => no_label (known sc) m \/ same_name m n))
    (fun m => free sc m /\ ~ same_name m n)
    (fun m => undeclared sc m /\ ~ same_name m n)
    (fun m => ordinal sc m /\ ~ same_name m n).
Definition declare_units (ns : list gostring) (sc : scope) : scope :=
  fold_left (fun sc n => declare_unit n sc) ns sc.
Definition clause_names (l : option uses_source) : list gostring :=
  match l with None => [] | Some l => map fst l end.
Definition good_clause (l : option uses_source) (sc : scope) : Prop :=
  l <> Some [] /\ distinct_names (clause_names l) /\ Forall (free sc) (clause_names l).
Definition after_clause (l : option uses_source) (sc : scope) : scope := declare_units (clause_names l) sc.

(** The heading of a function is read in a scope of its own, which then is left. *)
Definition good_intf (d : intfdecl) (sc : scope) : Prop :=
  match d with
  | IType l => good_section st (DSType l) sc
  | IVar l => good_section st (DSVar l) sc
  | IThreadVar l => good_section st (DSThreadVar l) sc
  | IConst l => good_section st (DSConst l) sc
  | IHeading h dirs opts =>
      good_heading st h (enter sc) /\ may_declare (declare (heading_names h) (enter sc)) [heading_name h] /\
      good_directives dirs opts
  end.
Definition after_intf (d : intfdecl) (sc : scope) : scope :=
  match d with
  | IType l => after_section (DSType l) sc
  | IVar l => after_section (DSVar l) sc
  | IThreadVar l => after_section (DSThreadVar l) sc
  | IConst l => after_section (DSConst l) sc
  | IHeading h _ _ => leave sc (declare [heading_name h] (declare (heading_names h) (enter sc)))
  end.
Definition good_stmts (l : list stmt) (close : string) (sc : scope) : Prop :=
  each (fun last s => good_stmt (statements st) (known sc) s (behind (statements st) last (wkey close))) l /\
  may_declare sc (flat_map handler_vars l).
Definition good_init (x : option (list stmt * option (list stmt))) (sc : scope) : Prop :=
  match x with
  | None => True
  | Some (l, None) => good_stmts l "END" sc
  | Some (l, Some f) =>
      good_stmts l "FINALIZATION" sc /\ good_stmts f "END" (declare (flat_map handler_vars l) sc)
  end.
Definition good_port (p : option gostring) : Prop :=
  match p with
  | None => True
  | Some w => In (to_upper w) portability_directives /\ (to_upper w = rs "LIBRARY" -> w = rs "LIBRARY")
  end.

(** The scopes behind the interface section, and behind the declarations of the
    implementation section. *)
Definition intf_scope (u : unit_source) (sc : scope) : scope :=
  behind_all after_intf (us_decls u) (after_clause (us_uses u) sc).
Definition impl_scope_of (u : unit_source) (sc : scope) : scope :=
  behind_all after_section (us_sections u) (after_clause (us_impl_uses u) sc).
(** The two sections of a unit, each in the scope where it begins. *)
Definition good_interface (u : unit_source) (sc : scope) : Prop :=
  in_turn (fun d sc _ => good_intf d sc) after_intf weof weof (us_decls u) sc.
Definition good_implementation (u : unit_source) (sc : scope) : Prop :=
  in_turn (fun d sc _ => good_section st d sc) after_section weof weof (us_sections u) sc /\
  let sc1 := behind_all after_section (us_sections u) sc in
  Forall (fun x => x <> [] /\ Forall (good_export sc1) x) (us_exports u) /\
  good_init (us_init u) sc1.
(** A unit whose uses clauses tell nothing about the units that they name. *)
Definition good_unit (u : unit_source) (sc : scope) : Prop :=
  good_port (us_port u) /\
  good_clause (us_uses u) sc /\
  good_interface u (after_clause (us_uses u) sc) /\
  good_clause (us_impl_uses u) (intf_scope u sc) /\
  good_implementation u (after_clause (us_impl_uses u) (intf_scope u sc)).
End Style.

(** ** What a unit says *)
Definition bare_intf (d : intfdecl) : intfdecl :=
  match d with
  | IType l => IType (map bare_typedecl l)
  | IVar l => IVar (map bare_var l)
  | IThreadVar l => IThreadVar (map bare_threadvar l)
  | IConst l => IConst (map bare_const l)
  | IHeading h dirs opts => IHeading (bare_heading h) dirs opts
  end.
(** A clause that is not there is nil, and so is an empty list. *)
Definition clause_says (h : heap) (us : option (list nat)) (l : option uses_source) : Prop :=
  match us, l with
  | None, None => True
  | Some us, Some l => uses_say h us l
  | _, _ => False
  end.
Definition says {A} (bare : A -> A) (x : option (list A)) (l : list A) : Prop :=
  option_map (map bare) x = match l with [] => None | _ => Some (map bare l) end.
Definition init_says (x : option initsection) (i : option (list stmt * option (list stmt))) : Prop :=
  match x, i with
  | None, None => True
  | Some x, Some (l, f) =>
      says bare_stmt (in_init x) l /\ says bare_stmt (in_final x) match f with None => [] | Some f => f end
  | _, _ => False
  end.
(** The unit [o] says [u]; [clause] is said of uses clauses. *)
Definition unit_holds (clause : option (list nat) -> option uses_source -> Prop) (o : unitobj) (path : gostring)
    (u : unit_source) : Prop :=
  un_path o = path /\ i_name (un_ident o) = us_name u /\ un_port o = us_port u /\
  (exists i, un_intf o = Some i /\ clause (is_uses i) (us_uses u) /\ says bare_intf (is_decls i) (us_decls u)) /\
  (exists i, un_impl o = Some i /\ clause (im_uses i) (us_impl_uses u) /\
     says bare_section (im_decls i) (us_sections u) /\
     says (map bare_export) (im_exports i) (us_exports u)) /\
  init_says (un_init o) (us_init u).
(** The unit [o] in the heap [h] says [u]. *)
Definition unit_says (h : heap) (o : unitobj) (path : gostring) (u : unit_source) : Prop :=
  unit_holds (clause_says h) o path u.

(** What a unit declares for those that use it *)
Definition intf_entries (d : intfdecl) : list decl :=
  match d with
  | IType l => map (fun t => mkDecl (td_ident t) (NType (td_type t))) l
  | IVar l => flat_map (fun v => map (fun i => mkDecl i NVar) (vd_idents v)) l
  | IThreadVar l => flat_map (fun v => map (fun i => mkDecl i NThreadVar) (tv_idents v)) l
  | IConst l => map (fun c => mkDecl (cd_ident c) NConst) l
  | IHeading (Heading _ i _ _) _ _ => [mkDecl i NExported]
  end.
Definition entries (l : list intfdecl) : list decl := flat_map intf_entries l.
Definition entry_names (l : list intfdecl) : list gostring := map (fun d => i_name (d_ident d)) (entries l).
(** The declaration map [m] answers with the declarations [l], and with no others. *)
Definition answers_with (h : heap) (m : dmap) (l : list decl) : Prop :=
  (forall n p, dget h m n = LFound p -> exists d, deref h p = Some d /\ In d l /\ same_name n (i_name (d_ident d))) /\
  (forall d n, In d l -> same_name n (i_name (d_ident d)) -> exists p, dget h m n = LFound p /\ deref h p = Some d) /\
  (forall n, dget h m n <> LPanic).
(** What the unit [o] answers with is what its interface section declares. *)
Definition answers_for_interface (h : heap) (o : unitobj) : Prop :=
  exists i, un_intf o = Some i /\
    answers_with h (un_map o) (entries match is_decls i with None => [] | Some l => l end).

End WithUnicode.
