(** What the parser accepts for a node is written as that node.  Definitions used in the statements
    are in FormSpec (and the model in Parser and Units; [iterates] in ExtSpec, [lists_once] in
    IdSpec, [written] in LexSpec); proofs in FormFacts, FormParse, FormStmt, FormUnits and FormMain.
    [recs_at n] is the parser with recursion and loops cut off at depth [n]; a run that is cut off
    does not end with [OOk] or [ROk]. *)
From Coq Require Import String List NArith Bool Arith Lia Permutation.
From Verif Require Import Runes UnicodeFacts Token Tokenizer LexSpec Ast Heap Prog Parser CaseSpec TermUnitSpec
  Ext ExtSpec Units UnitSpec SortMain IdSpec IdMain FormSpec FormMain ParseExamples DeclExamples.
Import ListNotations.

(** The examples use the Latin-1 tables. *)
#[local] Existing Instance latin1 | 100.
#[local] Existing Instance latin1_ok | 100.
Definition read {A} (p : prog A) (src : string) : outcome A :=
  let '(h, c) := new_program_context heap0 (rs "p.dpr") in parse_text p (rs src) c h.
(** Form of words that are written out *)
Ltac parts :=
  repeat match goal with
  | H : cat _ _ _ |- _ => destruct H as (? & ? & ? & ? & ?)
  | H : say _ _ |- _ => red in H
  | H : word _ _ |- _ => red in H
  | H : nothing _ |- _ => red in H
  | H : FormSpec.name _ _ |- _ => red in H
  | H : FormSpec.opt _ _ _ |- _ => cbn [FormSpec.opt] in H
  | H : [_] = ?x |- _ => subst x
  | H : [] = ?x |- _ => subst x
  end.
Ltac take n := match goal with |- cat _ _ ?l => exists (firstn n l), (skipn n l); split; [reflexivity|]; split; cbn [firstn skipn] end.
Local Open Scope string_scope.
Local Open Scope list_scope.

(** C54. When ParseExpression succeeds, on whatever text and in whatever context, the words that it has gone
over are those of the expression that it returns. *)
Theorem accepted_expressions_are_written_so {U : Unicode} {UOK : UnicodeOk U} :
  forall n text c h e s, parse_text (parse_expression (recs_at n)) text c h = OOk e s ->
  exists ws, stops_behind text ws s /\ expr_f e ws.
Proof. exact FormMain.accepted_expressions_are_written_so. Qed.
Print Assumptions accepted_expressions_are_written_so.

Definition var_factor (s : string) : factor := FDesignator (Desig (mkQualId None (mkIdentRef (mkIdent (rs s) None) None)) []) None.
Definition a_minus_b : expr := Expr (SExpr None (Term (var_factor "a") []) [(rs "-", Term (var_factor "b") [])]) [].
Example accepted_expressions_example :
  (exists e s, read (parse_expression (recs_at 30)) "Foo(A, {x} b.C^) + x[i] * -1 in [2..3]" = OOk e s) /\
  expr_f a_minus_b [rs "a"; rs "-"; rs "b"] /\ ~ expr_f a_minus_b [rs "b"; rs "-"; rs "a"].
Proof.
  split; [vm_compute; eexists _, _; reflexivity|]. split.
  - cbn [a_minus_b expr_f]. take 3; [|reflexivity]. cbn [sexpr_f]. take 0; [reflexivity|]. take 1.
    + cbn [term_f]. take 1; [|reflexivity]. cbn [factor_f var_factor]. take 1; [|reflexivity]. cbn [desig_f]. take 1; [|reflexivity]. unfold qualid_f. take 0; reflexivity.
    + cbn [map row]. take 2; [|reflexivity]. take 1; [reflexivity|]. cbn [term_f]. take 1; [|reflexivity]. cbn [factor_f var_factor]. take 1; [|reflexivity].
      cbn [desig_f]. take 1; [|reflexivity]. unfold qualid_f. take 0; reflexivity.
  - unfold a_minus_b, var_factor. cbn [expr_f sexpr_f term_f factor_f desig_f map row]. unfold qualid_f. cbn. intros H. parts. subst. discriminate.
Qed.

(** C54. The same of ParseType.  The END of records and classes is left to the caller, and so is the name
behind a unit and a full stop: the form of the type is without them. *)
Theorem accepted_types_are_written_so {U : Unicode} {UOK : UnicodeOk U} :
  forall n text c h t s, parse_text (parse_type (recs_at n)) text c h = OOk t s ->
  exists ws, stops_behind text ws s /\ typ_f t ws.
Proof. exact FormMain.accepted_types_are_written_so. Qed.
Print Assumptions accepted_types_are_written_so.

Example accepted_types_example :
  (exists t s, read (parse_type (recs_at 30)) "record a, b: Integer; case k: Byte of 0: (c: packed array [Lo..Hi] of Char) end" = OOk t s) /\
  (exists t s, read (parse_type (recs_at 30)) "function (const a; var b: Byte): Byte of object" = OOk t s) /\
  typ_f (TProc true None (Some (mkTypeId None (mkIdent (rs "Byte") None) 0)) true) (map rs ["FUNCTION"; ":"; "Byte"; "OF"; "OBJECT"]) /\
  ~ typ_f (TProc true None (Some (mkTypeId None (mkIdent (rs "Byte") None) 0)) true) (map rs ["PROCEDURE"; ":"; "Byte"; "OF"; "OBJECT"]).
Proof.
  split; [vm_compute; eexists _, _; reflexivity|]. split; [vm_compute; eexists _, _; reflexivity|]. cbn [map typ_f]. split.
  - take 1; [reflexivity|]. take 0; [reflexivity|]. take 2; [cbn [FormSpec.opt]; take 1; [reflexivity|now left]|]. take 1; reflexivity.
  - intros (a & b & E & F & _). red in F. red in F. red in F. subst a. discriminate E.
Qed.

(** C54. The same of ParseStatement. *)
Theorem accepted_statements_are_written_so {U : Unicode} {UOK : UnicodeOk U} :
  forall n text c h x s, parse_text (parse_statement (recs_at n)) text c h = OOk x s ->
  exists ws, stops_behind text ws s /\ stmt_f x ws.
Proof. exact FormMain.accepted_statements_are_written_so. Qed.
Print Assumptions accepted_statements_are_written_so.

Example accepted_statements_example :
  (exists x s, read (parse_statement (recs_at 30)) "for i := a downto b do if c then d := e else try f(g) except on x: y do raise z end" = OOk x s) /\
  let go s := Stmt None (SGoto (mkIdent (rs s) None) None) in
  let c := Expr (SExpr None (Term (var_factor "c") []) []) [] in
  ~ stmt_f (Stmt None (SIf c (go "a") (Some (go "b")))) (map rs ["IF"; "c"; "THEN"; "GOTO"; "b"; "ELSE"; "GOTO"; "a"]).
Proof.
  split; [vm_compute; eexists _, _; reflexivity|]. intros go c H. unfold go, c, var_factor in H. cbn [stmt_f sbody_f expr_f sexpr_f term_f factor_f desig_f map row FormSpec.opt] in H.
  unfold qualid_f in H. cbn [FormSpec.opt q_ns q_ident] in H. parts. subst. discriminate.
Qed.

(** C54. The same of ParseBlock: declarations, exports and the body. *)
Theorem accepted_blocks_are_written_so {U : Unicode} {UOK : UnicodeOk U} :
  forall n text c h b s, parse_text (parse_block (recs_at n)) text c h = OOk b s ->
  exists ws, stops_behind text ws s /\ block_f b ws.
Proof. exact FormMain.accepted_blocks_are_written_so. Qed.
Print Assumptions accepted_blocks_are_written_so.

Example accepted_blocks_example :
  exists b s, read (parse_block (recs_at 40))
    "label L; const n = 1; type T = ^Byte; var x: T; procedure P(a: T); begin x := a end; exports P;  begin x := nil; end" = OOk b s.
Proof. vm_compute. eexists _, _. reflexivity. Qed.

(** C54. The same of ParseUnit, which ends at the full stop behind END. *)
Theorem accepted_units_are_written_so {U : Unicode} {UOK : UnicodeOk U} :
  forall n text c h u s, parse_text (parse_unit (recs_at n) c) text c h = OOk u s ->
  exists o ws, nth_error (h_units (s_heap s)) u = Some o /\ stops_behind text ws s /\ up_to_stop text ws /\ unit_f (s_heap s) o ws.
Proof. exact FormMain.accepted_units_are_written_so. Qed.
Print Assumptions accepted_units_are_written_so.

Example accepted_units_example :
  let hc := lone_unit_context (rs "p.dpr") (rs "a.pas") in
  exists u s, parse_text (parse_unit (recs_at 40) (snd hc))
    (rs "unit A; interface uses V; var x: Byte; implementation uses W in 'w.pas'; procedure P; begin Q(x) end; initialization P; finalization P end.")
    (snd hc) (fst hc) = OOk u s.
Proof. vm_compute. eexists _, _. reflexivity. Qed.
(** The semicolon behind the name of a unit may be missing. *)
Example a_unit_without_semicolon :
  let hc := lone_unit_context (rs "p.dpr") (rs "a.pas") in
  exists u s, parse_text (parse_unit (recs_at 40) (snd hc)) (rs "unit A interface implementation end.") (snd hc) (fst hc) = OOk u s.
Proof. vm_compute. eexists _, _. reflexivity. Qed.

(** C54. The same of ParseProgram, for the program and for each of the units that it loads, in the text of
its own file, if the topological sort lists no name twice.  Of a unit that the sorting drops (two
files hold units of one name) only the beginning is read. *)
Theorem accepted_programs_are_written_so {U : Unicode} {UOK : UnicodeOk U} :
  forall n files sep order topo path pa pc h, iterates order -> lists_once topo ->
  parse_program (recs_at n) files sep order topo path = ROk (pa, pc) h ->
  (exists text o ws, files path = Some text /\ nth_error (h_progs h) pa = Some o /\ up_to_stop text ws /\ program_f h o ws) /\
  (forall u o, nth_error (h_units h) u = Some o -> exists text ws, files (un_path o) = Some text /\
     (up_to_stop text ws /\ unit_f h o ws \/
      begins_with text ws /\ un_impl o = None /\ un_init o = None /\ unit_front h o ws)).
Proof. exact FormMain.accepted_programs_are_written_so. Qed.
Print Assumptions accepted_programs_are_written_so.

Definition two_files (path : gostring) : option (list rune) :=
  if runes_equal path (rs "p.dpr") then Some (rs "program p; uses a in 'a.pas'; var n: Byte; begin A.Count := n; end.") else
  if runes_equal path (rs "a.pas") then Some (rs "unit A; interface var Count: Integer; implementation end.") else None.
Example accepted_programs_example :
  iterates (fun m : string_set => m) /\ lists_once some_toposort /\
  exists x h, parse_program (recs_at 40) two_files 47%N (fun m => m) some_toposort (rs "p.dpr") = ROk x h /\
    length (h_units h) = 1 /\ Forall (fun o => un_impl o <> None) (h_units h).
Proof.
  split; [intros m; apply Permutation_refl|]. split; [apply some_toposort_lists_once|]. vm_compute. eexists _, _. split; [reflexivity|].
  split; [reflexivity|]. constructor; [discriminate|constructor].
Qed.

(** C54. What words are: if the text is written from lexemes with gaps between them, then the words that the
parser goes over are the values of the lexemes in their order, and empty ones behind the end. *)
Theorem words_gone_over_are_the_lexemes {U : Unicode} {UOK : UnicodeOk U} :
  forall ls text ws, written ls text -> begins_with text ws ->
  exists rest n, ws ++ rest = map lex_value ls ++ repeat [] n.
Proof. exact FormMain.words_gone_over_are_the_lexemes. Qed.
Print Assumptions words_gone_over_are_the_lexemes.

Example words_gone_over_example :
  exists text, written [(Identifier, rs "a"); (SpecialSymbol, rs ":="); (ReservedWord, rs "nil")] text /\
    begins_with text [rs "a"; rs ":="] /\
    [rs "a"; rs ":="] ++ [rs "NIL"] = map lex_value [(Identifier, rs "a"); (SpecialSymbol, rs ":="); (ReservedWord, rs "nil")] ++ repeat [] 0.
Proof.
  exists (rs "a {b} := nil"). split; [exact (written_by_reading 3 (rs "a {b} := nil") eq_refl)|]. split; [|reflexivity].
  eexists _, _. change [rs "a"; rs ":="] with (left_behind None ++ [rs "a"; rs ":="]).
  eapply went_token; [vm_compute; reflexivity|]. change [rs "a"; rs ":="] with ([rs "a"] ++ [rs ":="]).
  eapply went_token; [vm_compute; reflexivity|]. change [rs ":="] with ([rs ":="] ++ []).
  eapply went_token; [vm_compute; reflexivity|]. constructor.
Qed.
