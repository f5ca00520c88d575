(** Properties of the parser of types, declarations, blocks and programs.  Definitions used
    in the statements are in DeclSpec, StmtSpec, ExprSpec, ParseSpec and LexSpec (and the model
    in Prog, Parser, Units); proofs in ScopeFacts, DeclFacts, TypeFacts, TypeClassFacts,
    TypePropFacts, SectionFacts and DeclMain. *)
From Coq Require Import String List NArith Bool Arith Lia.
From Verif Require Import Runes UnicodeFacts Token Tokenizer LexSpec LexExamples Ast Heap MapSpec Prog ParseSpec Parser
  RunFacts ExprSpec StmtSpec DeclSpec Units DeclMain ParseExamples DeclExamples.
Import ListNotations.
Local Open Scope list_scope.

(** The examples use the Latin-1 tables. *)
#[local] Existing Instance latin1 | 100.
#[local] Existing Instance latin1_ok | 100.

@@ C46 DeclMain type_round_trip
For every type [t] that has a source form in a scope ([good_ty]): a parser that stands on its
words, in a state where at least what the scope says is known of names, returns [t] (up to
places and references), stands behind it (or on the last word of a record, class or class
reference, [left_over]), and the elements of enumerations in it are declared.
---
Definition text1 : string :=
  "record a, b: Integer; c: packed array[0..9] of (Red, Blue = 5); case k: Boolean of 1, 2: (p: ^Integer;); end;".
Definition type1 : typ :=
  TRec false (FieldList
    [FieldDecl [id "a"; id "b"] (ty "Integer");
     FieldDecl [id "c"] (TArray true (Some [TSubrange (num "0") (num "9")]) (TEnum [(id "Red", None); (id "Blue", Some (num "5"))]))]
    (Some (VariantSection (Some (id "k")) (ty "Boolean")
      [RecVariant [num "1"; num "2"] (FieldList [FieldDecl [id "p"] (TPointer (tid "Integer"))] None)]))).
Example type_round_trip_example :
  let s := at_token 1 text1 in
  stands (rs text1) s (write_ty spell type1 ++ wsym ";" :: [weof]) /\
  knows s program_scope /\ good_ty spell type1 program_scope (wsym ";") /\
  match run (parse_type (recs_at 60)) s with
  | OOk t s' => bare_ty t = bare_ty type1 /\ option_map raw (s_cur s') = Some (rs "end")
  | _ => False
  end.
Proof.
  cbv zeta. assert (St : stands (rs text1) (at_token 1 text1) (write_ty spell type1 ++ wsym ";" :: [weof])).
  { eapply (stands_by_reading 44); [apply at_token_parsing|vm_compute; reflexivity..]. }
  split; [exact St|]. split; [eapply at_token_knows, St|]. split.
{ good. }
  vm_compute. split; reflexivity.
Qed.
(** A class with an ancestor, fields, methods and properties. *)
Definition text3 : string :=
  "class(TBase, IShape) FSize, FKind: Integer; procedure SetSize(const V: Integer); virtual;
   public constructor Create(A: Integer = 1); overload; function Big: Boolean;
   property Size: Integer index 1 read FSize write SetSize stored True default 0;
   property Items[I: Integer]: Char read fkind stored Big; published end;".
Definition class3 : typ :=
  TClass (Some [tid "TBase"; tid "IShape"]) (Some
    [ClassSection CvDefault [([id "FSize"; id "FKind"], ty "Integer")]
       [ClassMethod (HFunc (Heading false (id "SetSize") (Some [FormalParm (Some (rs "CONST")) [id "V"] (Some (ty "Integer", false)) None]) None)) [rs "VIRTUAL"]] [];
     ClassSection CvPublic []
       [ClassMethod (HCtor (id "Create") (Some [FormalParm None [id "A"] (Some (ty "Integer", false)) (Some (num "1"))])) [rs "OVERLOAD"];
        ClassMethod (HFunc (Heading true (id "Big") None (Some (tid "Boolean")))) []]
       [ClassProp (id "Size") (Some (None, tid "Integer")) (Some (num "1")) (Some (mkIdentRef (id "FSize") None)) (Some (mkIdentRef (id "SetSize") None))
          (Some (StoredConst true)) (Some (DefaultValue (num "0"))) None None;
        ClassProp (id "Items") (Some (Some [FormalParm None [id "I"] (Some (ty "Integer", false)) None], tid "Char")) None
          (Some (mkIdentRef (id "fkind") None)) None (Some (StoredIdent (mkIdentRef (id "Big") None))) None None None];
     ClassSection CvPublished [] [] []]).
Example class_round_trip_example :
  let s := at_token 1 text3 in
  stands (rs text3) s (write_ty spell class3 ++ wsym ";" :: [weof]) /\
  knows s program_scope /\ good_ty spell class3 program_scope (wsym ";") /\
  match run (parse_type (recs_at 100)) s with
  | OOk t s' => bare_ty t = bare_ty class3 /\ option_map raw (s_cur s') = Some (rs "end")
  | _ => False
  end.
Proof.
  cbv zeta. assert (St : stands (rs text3) (at_token 1 text3) (write_ty spell class3 ++ wsym ";" :: [weof])).
  { eapply (stands_by_reading 73); [apply at_token_parsing|vm_compute; reflexivity..]. }
  split; [exact St|]. split; [eapply at_token_knows, St|]. split.
{ good. }
  vm_compute. split; reflexivity.
Qed.


@@ C47 DeclMain section_round_trip
For every label, const, type, var or threadvar section and every function with its block: a
parser on its words returns it and stands behind it (or on the last semicolon of a function);
afterwards all is known of names that the section says.
---
(** The names of the section are types and constants behind it. *)
Example section_round_trip_example :
  let src := "type TColor = (Red, Green); PColor = ^TColor; var x: PColor;"%string in
  let d := DSType [mkTypeDecl (id "TColor") (TEnum [(id "Red", None); (id "Green", None)]) None;
                   mkTypeDecl (id "PColor") (TPointer (tid "TColor")) None] in
  let s := at_token 1 src in
  stands (rs src) s (write_section spell d ++ wkey "VAR" :: [wident (rs "x"); wsym ":"; wident (rs "PColor"); wsym ";"; weof]) /\
  knows s program_scope /\ good_section spell d program_scope /\
  type_name (names (known (after_section d program_scope))) (rs "pcolor") /\
  ~ free (after_section d program_scope) (rs "RED") /\
  match run (parse_decl_section (recs_at 14)) s with
  | OOk (Some d') s' => bare_section d' = bare_section d /\ option_map raw (s_cur s') = Some (rs "var")
  | _ => False
  end.
Proof.
  cbv zeta. match goal with |- stands ?t ?s ?w /\ _ => assert (St : stands t s w) end.
  { eapply (stands_by_reading 19); [apply at_token_parsing|vm_compute; reflexivity..]. }
  split; [exact St|]. split; [eapply at_token_knows, St|]. split; [good|]. split; [good|]. split; [|vm_compute; split; reflexivity].
  vm_compute. intuition congruence.
Qed.

@@ C47 DeclMain block_round_trip
The same for a block: sections, exports and a compound statement.
---
Example block_round_trip_example :
  let src := "var a: Integer; b: set of Char; exports Run Index 1, Stop; begin a := b; end;"%string in
  let b := Block (Some [DSVar [mkVarDecl [id "a"] (ty "Integer") None None; mkVarDecl [id "b"] (TSet false (ty "Char")) None None]])
    (Some [[mkExports (id "Run") None (Some (num "1")); mkExports (id "Stop") None None]])
    (Some (SCompound [Stmt None (SAssign (a_name "a") (var "b"))])) in
  let s := at_token 1 src in
  stands (rs src) s (write_block spell b ++ wsym ";" :: [weof]) /\
  knows s program_scope /\ good_block spell b program_scope /\
  match run (parse_block (recs_at 40)) s with
  | OOk b' s' => bare_block b' = bare_block b /\ option_map raw (s_cur s') = Some (rs ";")
  | _ => False
  end.
Proof.
  cbv zeta. match goal with |- stands ?t ?s ?w /\ _ => assert (St : stands t s w) end.
  { eapply (stands_by_reading 25); [apply at_token_parsing|vm_compute; reflexivity..]. }
  split; [exact St|]. split; [eapply at_token_knows, St|]. split; [good|vm_compute; split; reflexivity].
Qed.

@@ C48 DeclMain program_round_trip
For every file whose text is PROGRAM, a name, a semicolon, the source form of a block (in any
layout, reserved words in any case) and a full stop, whatever comes behind it: ParseProgram
returns a program with this path and name, whose block is the block.
---
Definition text2 : string :=
  "program Demo;
const N = 10;
type TColor = (Red, Green);
var i, j: TColor;
function Later(c: TColor): TColor; stdcall;
  procedure Inner;
  begin
    Result := c;
  end;
begin
  Inner;
end;
begin
  i := Later(Red);
end.
the rest".
Definition block2 : block :=
  Block (Some
    [DSConst [mkConstDecl (id "N") TNil (num "10")];
     DSType [mkTypeDecl (id "TColor") (TEnum [(id "Red", None); (id "Green", None)]) None];
     DSVar [mkVarDecl [id "i"; id "j"] (ty "TColor") None None];
     DSFunc (Heading true (id "Later") (Some [FormalParm None [id "c"] (Some (ty "TColor", false)) None]) (Some (tid "TColor")))
       (Some [rs "STDCALL"]) None
       (Block (Some
          [DSFunc (Heading false (id "Inner") None None) None None
             (Block None None (Some (SCompound [Stmt None (SAssign (a_name "Result") (var "c"))])))])
          None (Some (SCompound [Stmt None (SCall (a_name "Inner") None)])))])
    None
    (Some (SCompound [Stmt None (SAssign (a_name "i") (an_expr (FDesignator (a_name "Later") (Some [var "Red"]))))])).
Example program_round_trip_example :
  let files := fun _ : gostring => Some (rs text2) in
  let ls := lexemes 63 (rs text2) in
  written ls (rs text2) /\
  map word ls = wkey "PROGRAM" :: wident (rs "Demo") :: wsym ";" :: write_block spell block2 ++ wsym "." :: [wident (rs "the"); wident (rs "rest")] /\
  good_block spell block2 program_scope /\
  match parse_program (recs_at 63) files 47%N (fun l => l) (fun _ _ => None) (rs "p.dpr") with
  | ROk (pa, _) h =>
      match nth_error (h_progs h) pa with
      | Some (mkProg _ _ (Some (mkProgramBlock None b)) _) => bare_block b = bare_block block2
      | _ => False
      end
  | _ => False
  end.
Proof.
  cbv zeta. split; [apply written_by_reading; vm_compute; reflexivity|]. split; [vm_compute; reflexivity|]. split.
  { good. }
  vm_compute. reflexivity.
Qed.
