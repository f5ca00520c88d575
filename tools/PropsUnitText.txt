(** The property of the text of a unit.  Definitions used in the statement are in UnitTextSpec,
    DeclSpec, StmtSpec, ExprSpec, UnitSpec, CaseSpec and LexSpec (and the model in Prog,
    Parser, Units); proofs in UnitTextFacts, UnitBodyFacts and UnitTextMain. *)
From Coq Require Import String List NArith Bool Arith Lia.
From Verif Require Import Runes UnicodeFacts Token Tokenizer LexSpec LexExamples Ast Heap MapSpec Prog ParseSpec Parser
  RunFacts ExprSpec StmtSpec Units UnitSpec CaseSpec TermUnitSpec DeclSpec DeclMain UnitTextSpec UnitTextMain ParseExamples DeclExamples.
Import ListNotations.
Local Open Scope list_scope.

(** The examples use the Latin-1 tables. *)
#[local] Existing Instance latin1 | 100.
#[local] Existing Instance latin1_ok | 100.

@@ C50 UnitTextMain unit_round_trip
For every text whose words begin with the source form of a unit (in any layout, reserved words
in any case), whatever comes behind it: ParseUnit, in the context of a unit with a path in a new
program, returns a unit with this path, the name and portability word, the items of the two uses
clauses, the declarations of the interface section, the declarations and exports of the
implementation section and the statements of the initialization and finalization sections, all
in the order of the text.  If the names of the interface section are different, the declaration
map of the unit answers with its declarations and with no others, in any letter case.
---
Definition text1 : string :=
  "unit Shapes platform;
interface
USES SysUtils, Colors in 'colors.pas';
const Max = 10;
type TKind = (Circle, Square);
var First, Second: TKind;
procedure Draw(k: TKind); stdcall;
implementation
uses Helper;
var count: Integer;
procedure Local;
begin
  count := Max;
end;
exports Local Index 1;
initialization
  First := Circle;
finalization
  Local;
end.
trailing words".
Definition count1 : declsection := DSVar [mkVarDecl [id "count"] (ty "Integer") None None].
Definition local1 : declsection :=
  DSFunc (Heading false (id "Local") None None) None None
    (Block None None (Some (SCompound [Stmt None (SAssign (a_name "count") (var "Max"))]))).
Definition unit1 : unit_source :=
  mkUnitSource (rs "Shapes") (Some (rs "platform"))
    (Some [(rs "SysUtils", None); (rs "Colors", Some (rs "'colors.pas'"))])
    [IConst [mkConstDecl (id "Max") TNil (num "10")];
     IType [mkTypeDecl (id "TKind") (TEnum [(id "Circle", None); (id "Square", None)]) None];
     IVar [mkVarDecl [id "First"; id "Second"] (ty "TKind") None None];
     IHeading (Heading false (id "Draw") (Some [FormalParm None [id "k"] (Some (ty "TKind", false)) None]) None) (Some [rs "STDCALL"]) None]
    (Some [(rs "Helper", None)])
    [count1; local1]
    [[mkExports (id "Local") None (Some (num "1"))]]
    (Some ([Stmt None (SAssign (a_name "First") (var "Circle"))], Some [Stmt None (SCall (a_name "Local") None)])).
Ltac clause :=
  split; [closed|]; split; [vm_compute; repeat constructor; cbn; intuition discriminate|];
  cbn [clause_names map fst us_uses us_impl_uses unit1]; good.
Definition sc1 : scope := after_clause (us_impl_uses unit1) (intf_scope unit1 program_scope).
Lemma interface1 : good_interface spell unit1 (after_clause (us_uses unit1) program_scope).
Proof. good. Qed.
Definition sc2 : scope := after_section count1 sc1.
Lemma section1 : good_section spell count1 sc1.
Proof. good. Qed.
Lemma body1 :
  good_body (statements spell) (known (declare [rs "Local"] (declare [] (enter sc2))))
    (SCompound [Stmt None (SAssign (a_name "count") (var "Max"))]) (wsym ";").
Proof. good. Qed.
Lemma function1 : good_section spell local1 sc2.
Proof.
  split; [good|]. split; [good|]. split; [good|]. split; [exact Logic.I|]. split; [exact Logic.I|]. split; [exact body1|good].
Qed.
Lemma sections1 : in_turn (fun d sc _ => good_section spell d sc) after_section weof weof (us_sections unit1) sc1.
Proof. split; [exact section1|]. split; [exact function1|exact Logic.I]. Qed.
Lemma exports1 :
  Forall (fun x => x <> [] /\ Forall (good_export (behind_all after_section (us_sections unit1) sc1)) x) (us_exports unit1).
Proof.
  apply Forall_cons; [|apply Forall_nil]. split; [discriminate|]. apply Forall_cons; [|apply Forall_nil].
  repeat split; try solve [constructor]. left. apply digits; [discriminate|reflexivity].
Qed.
Lemma init1 : good_init spell (us_init unit1) (behind_all after_section (us_sections unit1) sc1).
Proof. good. Qed.
Lemma unit1_good : good_unit spell unit1 program_scope.
Proof.
  split; [good|]. split; [clause|]. split; [exact interface1|]. split; [clause|].
  split; [exact sections1|]. split; [exact exports1|exact init1].
Qed.
Example unit_round_trip_example :
  let ls := lexemes 79 (rs text1) in
  let h := fst (lone_unit_context (rs "p.dpr") (rs "shapes.pas")) in let c := snd (lone_unit_context (rs "p.dpr") (rs "shapes.pas")) in
  written ls (rs text1) /\ map word ls = write_unit spell unit1 ++ [wident (rs "trailing"); wident (rs "words")] /\
  good_unit spell unit1 program_scope /\ distinct_names (entry_names (us_decls unit1)) /\
  match parse_text (parse_unit (recs_at 79) c) (rs text1) c h with
  | OOk a s' =>
      match nth_error (h_units (s_heap s')) a with
      | Some o =>
          un_path o = rs "shapes.pas" /\
          match dget (s_heap s') (un_map o) (rs "SECOND") with
          | LFound p => option_map (fun d => (i_name (d_ident d), d_node d)) (deref (s_heap s') p) = Some (rs "Second", NVar)
          | _ => False
          end /\
          dget (s_heap s') (un_map o) (rs "count") = LNil
      | None => False
      end
  | _ => False
  end.
Proof.
  cbv zeta. split; [apply written_by_reading; vm_compute; reflexivity|]. split; [vm_compute; reflexivity|]. split; [exact unit1_good|].
  split; [vm_compute; repeat constructor; cbn; intuition discriminate|].
  vm_compute. repeat split; reflexivity.
Qed.
