(** The identifiers that a walk over a syntax tree comes to.  Definitions used in the statements
    are in WalkIdSpec and IdSpec (and the model in Walk, Nodes, Parser and Units); proofs in
    WalkIdMain.  IdSpec lists the identifiers of trees in the order of the source; C53 says that
    there they stand. *)
From Coq Require Import String List NArith Bool Arith Lia Permutation.
From Verif Require Import Runes UnicodeFacts Token Tokenizer Ast Heap Prog Parser CaseSpec TermUnitSpec
  Ext ExtSpec Units UnitSpec SortMain IdSpec IdMain ParseExamples Walk Nodes WalkIdSpec WalkIdMain PropsId.
Import ListNotations.

(** The examples use the Latin-1 tables. *)
#[local] Existing Instance latin1 | 100.
#[local] Existing Instance latin1_ok | 100.

(** Names *)
Definition names_met (n : Walk.tree gnode) : list gostring := map i_name (idents_met n).
(** The result of ParseUnit *)
Definition unit_read (src : string) : option (heap * unitobj) :=
  let hc := lone_unit_context (rs "p.dpr") (rs "a.pas") in
  match parse_text (parse_unit (recs_at 40) (snd hc)) (rs src) (snd hc) (fst hc) with
  | OOk u s => option_map (pair (s_heap s)) (nth_error (h_units (s_heap s)) u)
  | _ => None
  end.
Local Open Scope string_scope.

(** C45. A walk over any expression comes to all its identifiers, in the order of the source, and to
each once. *)
Theorem expression_walk_identifiers {U : Unicode} {UOK : UnicodeOk U} :
  forall e, idents_met (expr_tree e) = idents_of (expr_i e).
Proof. exact WalkIdMain.expression_walk_identifiers. Qed.
Print Assumptions expression_walk_identifiers.

Example expression_walk_identifiers_example :
  match read (parse_expression (recs_at 30)) "Foo(A, b.C^) + x[i]" with
  | OOk e _ => names_met (expr_tree e) = map rs ["Foo"; "A"; "b"; "C"; "x"; "i"]
  | _ => False
  end.
Proof. vm_compute. reflexivity. Qed.

(** C45. A walk over any type comes to all its identifiers and to each once, and if the type has no
variant part with a tag, then in the order of the source. *)
Theorem type_walk_identifiers {U : Unicode} {UOK : UnicodeOk U} :
  forall t x, type_tree t = Some x ->
  Permutation (idents_met x) (idents_of (typ_i t)) /\ (tagless x = true -> idents_met x = idents_of (typ_i t)).
Proof. exact WalkIdMain.type_walk_identifiers. Qed.
Print Assumptions type_walk_identifiers.

Example type_walk_identifiers_example :
  match read (parse_type (recs_at 30)) "record a, b: Integer; case Byte of 0: (c: array [Lo..Hi] of Char) end" with
  | OOk t _ =>
      match type_tree t with
      | Some x => tagless x = true /\ names_met x = map rs ["a"; "b"; "Integer"; "Byte"; "c"; "Lo"; "Hi"; "Char"]
      | None => False
      end
  | _ => False
  end.
Proof. vm_compute. split; reflexivity. Qed.

(** C45. With a tag the order is another: its type is visited first. *)
Theorem type_walk_in_order_refuted {U : Unicode} {UOK : UnicodeOk U} :
  exists t x, type_tree t = Some x /\ idents_met x <> idents_of (typ_i t).
Proof. exact WalkIdMain.type_walk_in_order_refuted. Qed.
Print Assumptions type_walk_in_order_refuted.

Example type_walk_in_order_refuted_example :
  match read (parse_type (recs_at 30)) "record case k: Byte of 0: (c: Char) end" with
  | OOk t _ =>
      match type_tree t with
      | Some x => tagless x = false /\ names_met x = map rs ["Byte"; "k"; "c"; "Char"]
      | None => False
      end
  | _ => False
  end.
Proof. vm_compute. split; reflexivity. Qed.

(** C45. The same of every statement. *)
Theorem statement_walk_identifiers {U : Unicode} {UOK : UnicodeOk U} :
  forall s, Permutation (idents_met (stmt_tree s)) (idents_of (stmt_i s)) /\
  (tagless (stmt_tree s) = true -> idents_met (stmt_tree s) = idents_of (stmt_i s)).
Proof. exact WalkIdMain.statement_walk_identifiers. Qed.
Print Assumptions statement_walk_identifiers.

Example statement_walk_identifiers_example :
  match read (parse_statement (recs_at 30)) "for i := a to b do if c then d := e else f(g)" with
  | OOk x _ => tagless (stmt_tree x) = true /\ names_met (stmt_tree x) = map rs ["i"; "a"; "b"; "c"; "d"; "e"; "f"; "g"]
  | _ => False
  end.
Proof. vm_compute. split; reflexivity. Qed.

(** C45. The same of every unit: its name, uses clauses, declarations, classes, exports and statements. *)
Theorem unit_walk_identifiers {U : Unicode} {UOK : UnicodeOk U} :
  forall h o, Permutation (idents_met (unit_tree h o)) (idents_of (unit_i h o)) /\
  (tagless (unit_tree h o) = true -> idents_met (unit_tree h o) = idents_of (unit_i h o)).
Proof. exact WalkIdMain.unit_walk_identifiers. Qed.
Print Assumptions unit_walk_identifiers.

Example unit_walk_identifiers_example :
  match unit_read "unit A; interface uses V; type T = class(TObject) private FX: Byte; public function Get(i: Byte): Byte; property X: Byte read FX; end; var x: T; implementation uses W; procedure P; begin Q(x) end; initialization P; end." with
  | Some (h, o) =>
      tagless (unit_tree h o) = true /\
      names_met (unit_tree h o) = map rs ["A"; "V"; "T"; "TObject"; "FX"; "Byte"; "Get"; "i"; "Byte"; "Byte"; "X"; "Byte"; "FX"; "x"; "T"; "W"; "P"; "Q"; "x"; "P"]
  | None => False
  end.
Proof. vm_compute. split; reflexivity. Qed.

(** C45. The same of every program.  (The exports of a block are visited before its body, wherever they
stand in the text.) *)
Theorem program_walk_identifiers {U : Unicode} {UOK : UnicodeOk U} :
  forall h o, Permutation (idents_met (program_tree h o)) (idents_of (program_i h o)) /\
  (tagless (program_tree h o) = true -> idents_met (program_tree h o) = idents_of (program_i h o)).
Proof. exact WalkIdMain.program_walk_identifiers. Qed.
Print Assumptions program_walk_identifiers.

Example program_walk_identifiers_example :
  match parse_program (recs_at 40) two_files 47%N (fun m => m) some_toposort (rs "p.dpr") with
  | ROk (pa, _) h =>
      map (fun o => (tagless (program_tree h o), names_met (program_tree h o))) (h_progs h) =
      [(true, map rs ["p"; "a"; "n"; "Byte"; "A"; "Count"; "n"])]
  | _ => False
  end.
Proof. vm_compute. reflexivity. Qed.

(** C45, C53. When ParseUnit succeeds, each identifier that a walk over the unit comes to carries a place of the
text, and the text has its name there. *)
Theorem parsed_unit_walk {U : Unicode} {UOK : UnicodeOk U} :
  forall n text c h u s, parse_text (parse_unit (recs_at n) c) text c h = OOk u s ->
  exists o, nth_error (h_units (s_heap s)) u = Some o /\
  forall i, In i (idents_met (unit_tree (s_heap s) o)) -> exists a b, stands_at text i a b.
Proof. exact WalkIdMain.parsed_unit_walk. Qed.
Print Assumptions parsed_unit_walk.

Example parsed_unit_walk_example :
  match unit_read "unit A; interface var x: Byte; implementation end." with
  | Some (h, o) => map (fun i => (i_name i, i_loc i)) (idents_met (unit_tree h o)) =
      [(rs "A", Some (mkPos 1 6 5, mkPos 1 7 6)); (rs "x", Some (mkPos 1 23 22, mkPos 1 24 23)); (rs "Byte", Some (mkPos 1 26 25, mkPos 1 30 29))]
  | None => False
  end.
Proof. vm_compute. reflexivity. Qed.

(** C45, C53. The same of ParseProgram, for the program and for each of the units that it loads, in the text of
its own file. *)
Theorem parsed_program_walk {U : Unicode} {UOK : UnicodeOk U} :
  forall n files sep order topo path pa pc h, iterates order -> lists_once topo ->
  parse_program (recs_at n) files sep order topo path = ROk (pa, pc) h ->
  (exists text o, files path = Some text /\ nth_error (h_progs h) pa = Some o /\
     forall i, In i (idents_met (program_tree h o)) -> exists a b, stands_at text i a b) /\
  (forall u o, nth_error (h_units h) u = Some o -> exists text, files (un_path o) = Some text /\
     forall i, In i (idents_met (unit_tree h o)) -> exists a b, stands_at text i a b).
Proof. exact WalkIdMain.parsed_program_walk. Qed.
Print Assumptions parsed_program_walk.

(** The hypotheses hold of [two_files] by [identifiers_of_programs_example]. *)
Example parsed_program_walk_example :
  match parse_program (recs_at 40) two_files 47%N (fun m => m) some_toposort (rs "p.dpr") with
  | ROk (pa, _) h => map (fun o => (un_path o, names_met (unit_tree h o))) (h_units h) = [(rs "a.pas", map rs ["A"; "Count"; "Integer"])]
  | _ => False
  end.
Proof. vm_compute. reflexivity. Qed.
