(** The property of the texts of a program and its units.  Definitions used in the statement are
    in ProgramTextSpec, UnitTextSpec, DeclSpec, StmtSpec, ExprSpec, UnitSpec, TermUnitSpec and
    LexSpec (and the model in Prog, Parser, Units); proofs in ProgramTextFacts, ProgramLinkFacts,
    ProgramPassFacts, ProgramUnitFacts, ProgramNameFacts and ProgramTextMain. *)
From Coq Require Import String List NArith Bool Arith Lia Permutation Relation_Operators.
From Verif Require Import Runes UnicodeFacts Token Tokenizer LexSpec LexExamples Ext ExtSpec Ast Heap MapSpec Prog ParseSpec Parser
  RunFacts ExprSpec StmtSpec Units UnitSpec SortMain TermUnitSpec DeclSpec DeclMain UnitTextSpec ProgramTextSpec ProgramTextMain ParseExamples DeclExamples.
Import ListNotations.
Local Open Scope list_scope.

(** The examples use the Latin-1 tables. *)
#[local] Existing Instance latin1 | 100.
#[local] Existing Instance latin1_ok | 100.

(** C51. For every file with the source form of a program with a uses clause, and every set of files in
which each item of this clause that names a file finds the source form of the unit it names (in
any layout, reserved words in any case, whatever comes behind), when no unit uses itself through
the interface sections and each name is used where it is declared or where a unit that declares
it is used: ParseProgram, with any order of iteration over maps and any topological sort that is
one, returns the program with its path, name, uses clause and block, and its context has the
units, in the order of the uses clause, each with its file's path and everything its text says
(as in C50).  In every uses clause of the program and of the units, an item has a unit exactly
when the program has one with the item's name, and it is this one. *)
Theorem program_with_units_round_trip {U : Unicode} {UOK : UnicodeOk U} :
  forall files sep order topo path st p (xs : list (style * unit_source)) fuel,
    iterates order -> toposort_ok topo -> good_program files sep fuel path st p xs ->
    exists pa pc h at_ o,
      parse_program (recs_at fuel) files sep order topo path = ROk (pa, pc) h /\
      nth_error (h_ctxs h) pc = Some o /\ cx_kind o = KProgram at_ /\
      program_says h pa at_ path sep p (map snd xs).
Proof. exact ProgramTextMain.program_with_units_round_trip. Qed.
Print Assumptions program_with_units_round_trip.

Definition main_text : string :=
  "program Demo;
uses Colors in 'colors.pas', SysUtils, Shapes in 'src\shapes.pas';
var c: TColor;
begin
  c := Shapes.Current;
  Draw(c);
end.".
Definition colors_text : string :=
  "unit Colors;
interface
uses SysUtils;
type TColor = (Red, Green);
const Max = 2;
implementation
uses Shapes;
initialization
  Draw(Red);
end.".
Definition shapes_text : string :=
  "Unit SHAPES;
Interface
Uses COLORS;
Var Current: TColor;
Procedure Draw(c: TColor);
Implementation
Procedure Draw(c: TColor);
Begin
  Current := c;
End;
End.".
Definition folder (path : gostring) : option (list rune) :=
  if runes_equal path (rs "p.dpr") then Some (rs main_text) else
  if runes_equal path (rs "colors.pas") then Some (rs colors_text) else
  if runes_equal path (rs "src/shapes.pas") then Some (rs shapes_text) else None.
Definition of_unit (u x : string) : expr :=
  an_expr (FDesignator (Desig (mkQualId (Some (mkIdentRef (id u) None)) (mkIdentRef (id x) None)) []) None).
Definition call (f x : string) : stmt := Stmt None (SCall (a_name f) (Some [var x])).
Definition main : program_source :=
  mkProgramSource (rs "Demo")
    [(rs "Colors", Some (rs "'colors.pas'")); (rs "SysUtils", None); (rs "Shapes", Some (rs "'src\shapes.pas'"))]
    (Block (Some [DSVar [mkVarDecl [id "c"] (ty "TColor") None None]]) None
       (Some (SCompound [Stmt None (SAssign (a_name "c") (of_unit "Shapes" "Current")); call "Draw" "c"]))).
Definition colors : unit_source :=
  mkUnitSource (rs "Colors") None (Some [(rs "SysUtils", None)])
    [IType [mkTypeDecl (id "TColor") (TEnum [(id "Red", None); (id "Green", None)]) None];
     IConst [mkConstDecl (id "Max") TNil (num "2")]]
    (Some [(rs "Shapes", None)]) [] [] (Some ([call "Draw" "Red"], None)).
Definition draw : heading :=
  Heading false (id "Draw") (Some [FormalParm None [id "c"] (Some (ty "TColor", false)) None]) None.
Definition shapes : unit_source :=
  mkUnitSource (rs "SHAPES") None (Some [(rs "COLORS", None)])
    [IVar [mkVarDecl [id "Current"] (ty "TColor") None None]; IHeading draw None None]
    None
    [DSFunc draw None None (Block None None (Some (SCompound [Stmt None (SAssign (a_name "Current") (var "c"))])))]
    [] None.
Definition units : list (style * unit_source) := [(spell, colors); (spell, shapes)].
Ltac clause :=
  split; [closed|]; split; [vm_compute; repeat constructor; cbn; intuition discriminate|];
  cbn [clause_names map fst us_uses us_impl_uses ps_uses main colors shapes]; good.
Lemma text_by_reading n size ws text : reads_out n text = true -> firstn (length ws) (map word (lexemes n text)) = ws -> n <= size ->
  length (lexemes n text) <= size -> text_of size ws text.
Proof.
  intros R E L L'. exists (lexemes n text), (skipn (length ws) (map word (lexemes n text))). split; [now apply written_by_reading|].
  split; [rewrite <- E at 1; symmetry; apply firstn_skipn|exact L'].
Qed.
Ltac reading n := apply (text_by_reading n); [vm_compute; reflexivity|vm_compute; reflexivity|lia|vm_compute; lia].
Lemma colors_good : good_unit_among (map snd units) spell colors.
Proof.
  split; [good|]. split; [clause|]. split; [vm_compute; repeat constructor; cbn; intuition discriminate|].
  split; [good|]. split; [clause|]. split; [good|]. split; [apply Forall_nil|good].
Qed.
Definition in_shapes : scope := implementation_scope (map snd units) shapes.
Lemma shapes_interface : good_interface spell shapes (interface_scope (map snd units) shapes).
Proof. good. Qed.
Lemma draw_body :
  good_body (statements spell) (known (declare [rs "Draw"] (declare (heading_names draw) (enter in_shapes))))
    (SCompound [Stmt None (SAssign (a_name "Current") (var "c"))]) (wsym ";").
Proof. good. Qed.
Lemma draw_heading : good_heading spell draw (enter in_shapes).
Proof. good. Qed.
Lemma draw_name : may_declare (declare (heading_names draw) (enter in_shapes)) [rs "Draw"].
Proof. good. Qed.
Lemma draw_good : good_section spell (DSFunc draw None None (Block None None (Some (SCompound [Stmt None (SAssign (a_name "Current") (var "c"))])))) in_shapes.
Proof.
  split; [exact draw_heading|]. split; [exact draw_name|]. split; [good|]. split; [exact Logic.I|]. split; [exact Logic.I|]. split; [exact draw_body|good].
Qed.
Lemma shapes_good : good_unit_among (map snd units) spell shapes.
Proof.
  split; [good|]. split; [clause|]. split; [vm_compute; repeat constructor; cbn; intuition discriminate|].
  split; [exact shapes_interface|]. split; [clause|]. split; [split; [exact draw_good|exact Logic.I]|]. split; [apply Forall_nil|exact Logic.I].
Qed.
Lemma shapes_current d d' : member (names (known (block_scope (map snd units) main))) (rs "Shapes") (rs "Current") d d'.
Proof. split; [|good]. right. exists (rs "SHAPES"), shapes. split; [right; left; reflexivity|]. split; [closed|closed]. Qed.
Ltac qualifies ::= exists (Ptr 0), (Ptr 0); apply shapes_current.
Definition in_main : scope := behind_all after_section [DSVar [mkVarDecl [id "c"] (ty "TColor") None None]] (block_scope (map snd units) main).
Lemma main_vars : good_section spell (DSVar [mkVarDecl [id "c"] (ty "TColor") None None]) (block_scope (map snd units) main).
Proof. good. Qed.
Lemma main_body : good_body (statements spell) (known in_main)
  (SCompound [Stmt None (SAssign (a_name "c") (of_unit "Shapes" "Current")); call "Draw" "c"]) (wsym ";").
Proof.
  split; [|good]. split; [good|]. split; [good|]. split; [|good]. split; [good|]. split; [|good]. split; [|good]. split; [|good]. split; good.
Qed.
Lemma main_good : good_block spell (ps_block main) (block_scope (map snd units) main).
Proof.
  split; [split; [discriminate|split; [exact main_vars|exact Logic.I]]|]. split; [exact Logic.I|]. split; [exact main_body|good].
Qed.
Lemma not_circular : ~ circular us_name (fun u => clause_names (us_uses u)) (map snd units).
Proof.
  assert (O : forall u v, clos_trans _ (uses_among us_name (fun u => clause_names (us_uses u)) (map snd units)) u v -> u = shapes /\ v = colors).
  { induction 1 as [u v H|u v w _ [Eu Ev] _ [Ev' Ew]]; [|auto].
    destruct H as ([<-|[<-|[]]] & [<-|[<-|[]]] & n & J & S); cbn in J; (destruct J as [<-|[]]; first [discriminate S | auto]). }
  intros (u & T). destruct (O u u T) as [E1 E2]. rewrite E1 in E2. discriminate.
Qed.
Lemma demo_good : good_program folder 47%N 60 (rs "p.dpr") spell main units.
Proof.
  split; [exists (rs main_text); split; [reflexivity|reading 33]|]. split; [clause|].
  split. { repeat constructor; try reflexivity; [exists (rs colors_text); split; [reflexivity|reading 33]|exists (rs shapes_text); split; [reflexivity|reading 38]]. }
  split; [exact not_circular|].
  split; [constructor; [exact colors_good|constructor; [exact shapes_good|constructor]]|exact main_good].
Qed.
Example program_with_units_example :
  iterates (fun m : string_set => m) /\ toposort_ok some_toposort /\ good_program folder 47%N 60 (rs "p.dpr") spell main units /\
  match parse_program (recs_at 60) folder 47%N (fun m => m) some_toposort (rs "p.dpr") with
  | ROk (pa, pc) h =>
      option_map cx_kind (nth_error (h_ctxs h) pc) = Some (KProgram [0; 1]) /\
      match nth_error (h_progs h) pa with
      | Some (mkProg _ _ (Some (mkProgramBlock (Some us) _)) _) =>
          map (fun a => option_map (fun x => (i_name (u_ident x), u_unit x)) (nth_error (h_uses h) a)) us =
            [Some (rs "Colors", Some 0); Some (rs "SysUtils", None); Some (rs "Shapes", Some 1)]
      | _ => False
      end /\
      match nth_error (h_units h) 1 with
      | Some o => un_path o = rs "src/shapes.pas" /\ i_name (un_ident o) = rs "SHAPES"
      | None => False
      end
  | _ => False
  end.
Proof.
  split; [intros m; apply Permutation_refl|]. split; [apply some_toposort_ok|]. split; [exact demo_good|].
  vm_compute. repeat split; reflexivity.
Qed.
