(** Letter case and layout do not change the parse.  Definitions used in the statements are in
    CaseSpec and LexSpec (and the model in Prog, Parser, Units); proofs in SimFacts, SimHeap,
    SimMain, SimParse, SimUnits, SimProgram and CaseMain.

    [recs_at n] is the parser with recursion and loops cut off at depth [n]; a run that is cut
    off is [OStuck], and [same_end] relates it to such a run only. *)
From Coq Require Import String List NArith Bool Arith.
From Verif Require Import Runes UnicodeFacts Token Tokenizer LexSpec Ext ExtSpec Ast Heap Prog ParseSpec
  Parser Units UnitSpec SortMain CaseSpec CaseMain ParseExamples.
Import ListNotations.

(** The examples use the Latin-1 tables. *)
#[local] Existing Instance latin1 | 100.
#[local] Existing Instance latin1_ok | 100.

(** Runs of [p] on two spellings that end well and, spelling forgotten, with one result. *)
Definition both_succeed {A} {NA : Norm A} (p : prog A) (src1 src2 : string) : Prop :=
  let '(h, c) := new_program_context heap0 (rs "p.dpr") in
  texts_agree (rs src1) (rs src2) /\
  match parse_text p (rs src1) c h, parse_text p (rs src2) c h with
  | OOk a1 s1, OOk a2 s2 => norm a1 = norm a2
  | _, _ => False
  end.

(** C35. Texts that are written with the same lexemes, words up to the case of their letters, agree:
their tokenizers return the same tokens up to case and position for ever.  Blanks, line ends
and comments between the lexemes may differ. *)
Theorem layouts_of_one_text_agree {U : Unicode} {UOK : UnicodeOk U} :
  forall ls1 ls2 text1 text2,
  written ls1 text1 -> written ls2 text2 -> Forall2 same_lexeme ls1 ls2 -> texts_agree text1 text2.
Proof. exact CaseMain.layouts_of_one_text_agree. Qed.
Print Assumptions layouts_of_one_text_agree.

Example layouts_of_one_text_agree_example :
  texts_agree (rs "if A > 'b' then {x} begin foo end") (rs "IF a>'b'THEN Begin FOO End // x") /\
  ~ texts_agree (rs "a := 'b'") (rs "a := 'B'").
Proof.
  split; [apply (texts_agree_by_reading 10); vm_compute; reflexivity|].
  intro A. specialize (A 3). vm_compute in A. destruct A as (_ & _ & (_ & X) & _). discriminate X.
Qed.

(** C35. ParseExpression on texts that agree, with the same context up to the spelling of what is declared
in it: both runs give trees that are equal up to the spelling of names and positions, and in
which the names refer to the same declarations.  Or both give errors that are equal in this way.
Or both panic, or both do not end. *)
Theorem expression_case {U : Unicode} {UOK : UnicodeOk U} :
  forall n text1 text2 c h1 h2,
  texts_agree text1 text2 -> norm h1 = norm h2 ->
  same_end (parse_text (parse_expression (recs_at n)) text1 c h1) (parse_text (parse_expression (recs_at n)) text2 c h2).
Proof. exact CaseMain.expression_case. Qed.
Print Assumptions expression_case.

Example expression_case_example :
  both_succeed (parse_expression (recs_at 40)) "Foo(A, 1) + b.C^ and NOT 'x'" "foo ( a , 1 ) {+} + B.c^ And not 'x'".
Proof.
  split; [apply (texts_agree_by_reading 30); vm_compute; reflexivity|]. vm_compute. reflexivity.
Qed.
Example expression_case_errors :
  let '(h, c) := new_program_context heap0 (rs "p.dpr") in
  texts_agree (rs "Foo(A, then") (rs "FOO( a,   THEN") /\
  match parse_text (parse_expression (recs_at 40)) (rs "Foo(A, then") c h,
        parse_text (parse_expression (recs_at 40)) (rs "FOO( a,   THEN") c h with
  | OErr e1 _, OErr e2 _ => e1 <> e2 /\ norm e1 = norm e2
  | _, _ => False
  end.
Proof.
  split; [apply (texts_agree_by_reading 30); vm_compute; reflexivity|].
  vm_compute. split; [discriminate|reflexivity].
Qed.

(** C35. The same of ParseStatement. *)
Theorem statement_case {U : Unicode} {UOK : UnicodeOk U} :
  forall n text1 text2 c h1 h2,
  texts_agree text1 text2 -> norm h1 = norm h2 ->
  same_end (parse_text (parse_statement (recs_at n)) text1 c h1) (parse_text (parse_statement (recs_at n)) text2 c h2).
Proof. exact CaseMain.statement_case. Qed.
Print Assumptions statement_case.

Example statement_case_example :
  both_succeed (parse_statement (recs_at 40))
    "for I := 1 to N do begin if a then b := C[i] else Inc(x); end"
    "FOR i := 1 TO n DO BEGIN IF A THEN B := c[I] ELSE INC(X); END".
Proof.
  split; [apply (texts_agree_by_reading 40); vm_compute; reflexivity|]. vm_compute. reflexivity.
Qed.

(** C35. The same of ParseType. *)
Theorem type_case {U : Unicode} {UOK : UnicodeOk U} :
  forall n text1 text2 c h1 h2,
  texts_agree text1 text2 -> norm h1 = norm h2 ->
  same_end (parse_text (parse_type (recs_at n)) text1 c h1) (parse_text (parse_type (recs_at n)) text2 c h2).
Proof. exact CaseMain.type_case. Qed.
Print Assumptions type_case.

Example type_case_example :
  both_succeed (parse_type (recs_at 40))
    "class(TObject) private FName: string; public property Name: string read FName; end"
    "CLASS(tobject) Private FNAME: String; PUBLIC Property NAME: STRING Read fname; END".
Proof.
  split; [apply (texts_agree_by_reading 40); vm_compute; reflexivity|]. vm_compute. reflexivity.
Qed.

(** C35. The same of ParseTypeSection. *)
Theorem type_section_case {U : Unicode} {UOK : UnicodeOk U} :
  forall n required text1 text2 c h1 h2,
  texts_agree text1 text2 -> norm h1 = norm h2 ->
  same_end (parse_text (parse_type_section (recs_at n) required) text1 c h1) (parse_text (parse_type_section (recs_at n) required) text2 c h2).
Proof. exact CaseMain.type_section_case. Qed.
Print Assumptions type_section_case.

Example type_section_case_example :
  both_succeed (parse_type_section (recs_at 40) true)
    "type TFoo = class; TBar = record A, B: Integer; F: TFoo; end; TFoo = class end;"
    "TYPE tfoo = Class; tBar = Record a, b: integer; f: tfoo; End; TFOO = CLASS END;".
Proof.
  split; [apply (texts_agree_by_reading 60); vm_compute; reflexivity|]. vm_compute. reflexivity.
Qed.

(** C35. The same of ParseBlock. *)
Theorem block_case {U : Unicode} {UOK : UnicodeOk U} :
  forall n text1 text2 c h1 h2,
  texts_agree text1 text2 -> norm h1 = norm h2 ->
  same_end (parse_text (parse_block (recs_at n)) text1 c h1) (parse_text (parse_block (recs_at n)) text2 c h2).
Proof. exact CaseMain.block_case. Qed.
Print Assumptions block_case.

Example block_case_example :
  both_succeed (parse_block (recs_at 40))
    "const K = 10; var X: Integer; procedure P(A: string); begin X := K; end; begin P('a'); end."
    "CONST k = 10; VAR x: INTEGER; PROCEDURE p(a: STRING); BEGIN x := k; END; BEGIN p('a'); END.".
Proof.
  split; [apply (texts_agree_by_reading 60); vm_compute; reflexivity|]. vm_compute. reflexivity.
Qed.

(** C35. The same of ParseUnit. *)
Theorem unit_case {U : Unicode} {UOK : UnicodeOk U} :
  forall n text1 text2 uc c h1 h2,
  texts_agree text1 text2 -> norm h1 = norm h2 ->
  same_end (parse_text (parse_unit (recs_at n) uc) text1 c h1) (parse_text (parse_unit (recs_at n) uc) text2 c h2).
Proof. exact CaseMain.unit_case. Qed.
Print Assumptions unit_case.

Example unit_case_example :
  let '(h0, pc) := new_program_context heap0 (rs "p.dpr") in
  let '(h, uc) := new_unit_context h0 pc (rs "a.pas") in
  let src1 := rs "unit A; interface uses SysUtils; var X: Integer; implementation initialization X := 1; end." in
  let src2 := rs "UNIT a; INTERFACE USES sysutils; VAR x: INTEGER; IMPLEMENTATION INITIALIZATION x := 1; END." in
  texts_agree src1 src2 /\
  match parse_text (parse_unit (recs_at 40) uc) src1 uc h, parse_text (parse_unit (recs_at 40) uc) src2 uc h with
  | OOk u1 s1, OOk u2 s2 => u1 = u2 /\ s_heap s1 <> s_heap s2
  | _, _ => False
  end.
Proof.
  split; [apply (texts_agree_by_reading 60); vm_compute; reflexivity|]. vm_compute. split; [reflexivity|discriminate].
Qed.

(** C35. The same of ParseProgram on two file systems with the same paths, whose texts agree: the
programs, their units, and all declarations are equal up to spelling and positions.  [order]
and [topo] are as in units_are_sorted; nothing is assumed of them. *)
Theorem program_case {U : Unicode} {UOK : UnicodeOk U} :
  forall n files1 files2 sep order topo path,
  files_agree files1 files2 ->
  same_result (parse_program (recs_at n) files1 sep order topo path) (parse_program (recs_at n) files2 sep order topo path).
Proof. exact CaseMain.program_case. Qed.
Print Assumptions program_case.

Definition in_lower (path : gostring) : option (list rune) :=
  if runes_equal path (rs "p.dpr") then Some (rs "program p; uses a in 'a.pas', b in 'b.pas'; begin x := 1; end.") else
  if runes_equal path (rs "a.pas") then Some (rs "unit a; interface uses b; var x: integer; implementation end.") else
  if runes_equal path (rs "b.pas") then Some (rs "unit b; interface var y: string; implementation end.") else None.
Definition in_upper (path : gostring) : option (list rune) :=
  if runes_equal path (rs "p.dpr") then Some (rs "PROGRAM P; USES A IN 'a.pas', B IN 'b.pas'; BEGIN X := 1; END.") else
  if runes_equal path (rs "a.pas") then Some (rs "UNIT A; INTERFACE USES B; VAR X: INTEGER; IMPLEMENTATION END.") else
  if runes_equal path (rs "b.pas") then Some (rs "UNIT B; INTERFACE VAR Y: STRING; IMPLEMENTATION END.") else None.
Example program_case_example :
  files_agree in_lower in_upper /\
  match parse_program (recs_at 40) in_lower 47%N (fun m => m) some_toposort (rs "p.dpr"),
        parse_program (recs_at 40) in_upper 47%N (fun m => m) some_toposort (rs "p.dpr") with
  | ROk p1 h1, ROk p2 h2 => p1 = p2 /\ h1 <> h2
  | _, _ => False
  end.
Proof.
  split.
  - intro path. unfold in_lower, in_upper.
    repeat match goal with |- context [if ?c then _ else _] => destruct c end; try exact I;
      apply (texts_agree_by_reading 40); vm_compute; reflexivity.
  - vm_compute. split; [reflexivity|discriminate].
Qed.
