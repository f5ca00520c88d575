(** The identifiers of syntax trees are pieces of the text, one behind the other.  Definitions used
    in the statements are in IdSpec (and the model in Parser and Units; [iterates] in ExtSpec);
    proofs in IdFacts, IdParse, IdUnits and IdMain.  [recs_at n] is the parser with recursion and
    loops cut off at depth [n]; a run that is cut off does not end with [OOk] or [ROk]. *)
From Coq Require Import String List NArith Bool Arith Lia Permutation.
From Verif Require Import Runes UnicodeFacts Token Tokenizer Ast Heap Prog Parser CaseSpec TermUnitSpec
  Ext ExtSpec Units UnitSpec SortMain IdSpec IdMain ParseExamples.
Import ListNotations.

(** The examples use the Latin-1 tables. *)
#[local] Existing Instance latin1 | 100.
#[local] Existing Instance latin1_ok | 100.

(** The names and places of identifiers *)
Definition places (l : list mark) : list (gostring * nat * nat) :=
  map (fun i => match i_loc i with Some (p, q) => (i_name i, p_index p, p_index q) | None => (i_name i, 0, 0) end) (idents_of l).
Definition at_places (l : list (string * nat * nat)) : list (gostring * nat * nat) :=
  map (fun x => match x with (s, a, b) => (rs s, a, b) end) l.
Definition read {A} (p : prog A) (src : string) : outcome A :=
  let '(h, c) := new_program_context heap0 (rs "p.dpr") in parse_text p (rs src) c h.
Local Open Scope string_scope.

@@ C53 IdMain identifiers_of_expressions_stand_in_the_text
When ParseExpression succeeds, on whatever text and in whatever context, then each identifier of
the expression carries the place of the text where its name stands, and from left to right these
places follow each other.
---
Example identifiers_of_expressions_example :
  match read (parse_expression (recs_at 30)) "Foo(A, {x} b.C^) + x[i]" with
  | OOk e _ => places (expr_i e) = at_places [("Foo", 0, 3); ("A", 4, 5); ("b", 11, 12); ("C", 13, 14); ("x", 19, 20); ("i", 21, 22)]
  | _ => False
  end.
Proof. vm_compute. reflexivity. Qed.

@@ C53 IdMain identifiers_of_types_stand_in_the_text
The same of ParseType.
---
Example identifiers_of_types_example :
  match read (parse_type (recs_at 30)) "record a, b: Integer; case k: Byte of 0: (c: array [Lo..Hi] of Char) end" with
  | OOk t _ => places (typ_i t) = at_places [("a", 7, 8); ("b", 10, 11); ("Integer", 13, 20); ("k", 27, 28); ("Byte", 30, 34);
                                             ("c", 42, 43); ("Lo", 52, 54); ("Hi", 56, 58); ("Char", 63, 67)]
  | _ => False
  end.
Proof. vm_compute. reflexivity. Qed.

@@ C53 IdMain identifiers_of_statements_stand_in_the_text
The same of ParseStatement.
---
Example identifiers_of_statements_example :
  match read (parse_statement (recs_at 30)) "for i := a to b do if c then d := e else f(g)" with
  | OOk x _ => places (stmt_i x) = at_places [("i", 4, 5); ("a", 9, 10); ("b", 14, 15); ("c", 22, 23); ("d", 29, 30); ("e", 34, 35);
                                              ("f", 41, 42); ("g", 43, 44)]
  | _ => False
  end.
Proof. vm_compute. reflexivity. Qed.

@@ C53 IdMain identifiers_of_units_stand_in_the_text
The same of ParseUnit: the name of the unit, its uses clauses, its declarations, exports and
statements.
---
Example identifiers_of_units_example :
  let hc := lone_unit_context (rs "p.dpr") (rs "a.pas") in
  let text := rs "unit A; interface uses V; var x: Byte; implementation uses W; procedure P; begin Q(x) end; initialization P; end." in
  match parse_text (parse_unit (recs_at 40) (snd hc)) text (snd hc) (fst hc) with
  | OOk u s =>
      match nth_error (h_units (s_heap s)) u with
      | Some o => places (unit_i (s_heap s) o) =
          at_places [("A", 5, 6); ("V", 23, 24); ("x", 30, 31); ("Byte", 33, 37); ("W", 59, 60); ("P", 72, 73); ("Q", 81, 82);
                     ("x", 83, 84); ("P", 106, 107)]
      | None => False
      end
  | _ => False
  end.
Proof. vm_compute. reflexivity. Qed.
(** Why [Again]: a type name behind a unit is not consumed, and is read again as a directive of the
    property, and, if that is [implements], as the name behind it. *)
Example an_identifier_read_twice :
  let hc := lone_unit_context (rs "p.dpr") (rs "a.pas") in
  let text := rs "unit A; interface uses V; type T = class public property P: V.Implements; end; implementation end." in
  match parse_text (parse_unit (recs_at 40) (snd hc)) text (snd hc) (fst hc) with
  | OOk u s =>
      match nth_error (h_units (s_heap s)) u with
      | Some o => places (unit_i (s_heap s) o) =
          at_places [("A", 5, 6); ("V", 23, 24); ("T", 31, 32); ("P", 57, 58); ("V", 60, 61); ("Implements", 62, 72); ("Implements", 62, 72)]
      | None => False
      end
  | _ => False
  end.
Proof. vm_compute. reflexivity. Qed.

@@ C53 IdMain identifiers_of_programs_stand_in_their_texts
The same of ParseProgram, for the program and for each of the units that it loads, in the text of
its own file, if the topological sort lists no name twice.
---
Definition two_files (path : gostring) : option (list rune) :=
  if runes_equal path (rs "p.dpr") then Some (rs "program p; uses a in 'a.pas'; var n: Byte; begin A.Count := n; end.") else
  if runes_equal path (rs "a.pas") then Some (rs "unit A; interface var Count: Integer; implementation end.") else None.
Example identifiers_of_programs_example :
  iterates (fun m : string_set => m) /\ lists_once some_toposort /\
  match parse_program (recs_at 40) two_files 47%N (fun m => m) some_toposort (rs "p.dpr") with
  | ROk (pa, _) h =>
      map (fun o => places (program_i h o)) (h_progs h) =
        [at_places [("p", 8, 9); ("a", 16, 17); ("n", 34, 35); ("Byte", 37, 41); ("A", 49, 50); ("Count", 51, 56); ("n", 60, 61)]] /\
      map (fun o => (un_path o, places (unit_i h o))) (h_units h) =
        [(rs "a.pas", at_places [("A", 5, 6); ("Count", 22, 27); ("Integer", 29, 36)])]
  | _ => False
  end.
Proof.
  split; [intros m; apply Permutation_refl|]. split; [apply some_toposort_lists_once|]. vm_compute. split; reflexivity.
Qed.

@@ C53 IdMain identifiers_in_order_are_pieces_of_the_text
What elements in order say of each identifier among them: it carries a place, and the text has its
name there.
---
Example pieces_of_the_text_example :
  exists i, in_order (rs "x := ab") 0 [Fresh i] 7 /\ In i (idents_of [Fresh i]) /\ i_name i = rs "ab" /\
    ~ in_order (rs "x := ac") 0 [Fresh i] 7.
Proof.
  exists (mkIdent (rs "ab") (Some (mkPos 1 6 5, mkPos 1 8 7))). split; [|split; [now left|split; [reflexivity|]]].
  - exists 7. split; [|cbn; lia]. exists 5. split; [lia|]. exists (mkPos 1 6 5), (mkPos 1 8 7). repeat split; cbn; lia.
  - intros (b & (a & _ & p & q & [= <- <-] & <- & <- & _ & E) & _). discriminate E.
Qed.

@@ C53 IdMain identifiers_in_order_do_not_overlap
And of two identifiers: the second begins where the first ends, or behind.
---
Example overlapping_is_not_in_order :
  let i := mkIdent (rs "ab") (Some (mkPos 1 1 0, mkPos 1 3 2)) in
  ~ in_order (rs "ab") 0 ([] ++ Fresh i :: [] ++ Fresh i :: []) 2.
Proof.
  intros i A. destruct (identifiers_in_order_do_not_overlap _ _ _ _ _ _ _ _ A) as (a & b & c & d & (p & q & [= <- <-] & <- & <- & _) & (p' & q' & [= <- <-] & <- & <- & _) & L).
  cbn in L. lia.
Qed.
