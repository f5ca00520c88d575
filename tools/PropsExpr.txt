(** Properties of the parser of expressions.  Definitions used in the statements are in
    ExprSpec, ParseSpec and LexSpec (and the model in Prog, Parser); proofs in ExprFacts,
    ExprSound and ExprMain. *)
From Coq Require Import String List NArith Bool Arith Lia.
From Verif Require Import Runes UnicodeFacts Token Tokenizer LexSpec Ast Heap Prog ParseSpec Parser
  RunFacts ParseExamples ExprSpec ExprMain.
Import ListNotations.

(** The examples use the Latin-1 tables. *)
#[local] Existing Instance latin1 | 100.
#[local] Existing Instance latin1_ok | 100.

@@ C31 ExprMain expression_round_trip
The parser stands on the words of [e], in source form, and a word [after] that does not
continue an expression.  Then ParseExpression returns the tree [e] (but for places and
references), the token of [after] is current, and what can be looked up is as before.
[fuel] only has to be large enough.
---
(** The tree of  -a * not b[1, c] < Integer(d) in [x..y, nil] . *)
Definition tree1 : expr :=
  Expr (SExpr (Some (rs "-")) (Term (a_var "a") [(rs "*", FNot (FDesignator
          (Desig (mkQualId None (mkIdentRef (mkIdent (rs "b") None) None))
                 [DIndex [an_expr (FNumber (rs "1")); an_expr (a_var "c")]]) None))]) [])
       [(rs "<", a_simple (FCast (mkTypeId None (mkIdent (rs "Integer") None) 0) (an_expr (a_var "d"))));
        (rs "IN", a_simple (FSet [(an_expr (a_var "x"), Some (an_expr (a_var "y"))); (an_expr FNil, None)]))].
Definition text1 : string := "-a * not b[1, c] < Integer(d) in [x..y, nil];".
Example expression_round_trip_example :
  let s := at_token 1 text1 in
  parser_context s /\ good_expr (env_at (s_heap s) (s_ctx s)) tree1 /\
  stands (rs text1) s (write_expr tree1 ++ wsym ";" :: [weof]) /\ ~ In (wsym ";") goes_on /\
  match run (parse_expression (recs_at 30)) s with
  | OOk e s' => bare_expr e = bare_expr tree1 /\ option_map raw (s_cur s') = Some (rs ";")
  | _ => False
  end.
Proof.
  cbv zeta. split.
  { eexists. split; [vm_compute; reflexivity|]. intros p. vm_compute. discriminate. }
  split.
  { cbn. repeat split; try (intros E; vm_compute in E; intuition discriminate); auto 9; try discriminate.
    all: try (left; left; vm_compute; reflexivity).
    - left. apply (lx_int [] (rs "1")); [left; reflexivity|discriminate|].
      constructor; [|constructor]. unfold Digit. vm_compute. split; discriminate.
    - do 2 eexists. split; [vm_compute; reflexivity|]. eexists. split; vm_compute; reflexivity. }
  split; [eapply (stands_by_reading 24); [apply at_token_parsing|vm_compute; reflexivity..]|].
  split; [cbn; intuition discriminate|]. vm_compute. split; reflexivity.
Qed.

@@ C31 ExprMain expression_text_round_trip
The same from the text: for every text whose lexemes ([written], LexSpec) are those of [e], in
any layout and with reserved words in any case, reading one token and parsing an expression
gives [e] and reaches the end of the text.
---
Example expression_text_round_trip_example :
  let text := rs "a{x}+ NoT	b" in
  let ls := [(Identifier, rs "a"); (SpecialSymbol, rs "+"); (ReservedWord, rs "NoT"); (Identifier, rs "b")] in
  let e := Expr (SExpr None (a_term (a_var "a")) [(rs "+", a_term (FNot (a_var "b")))]) [] in
  map word ls = write_expr e /\
  match run (Bind Next (fun _ => parse_expression (recs_at 4))) (opened "a{x}+ NoT	b") with
  | OOk e' s' => bare_expr e' = bare_expr e /\ option_map word_of (s_cur s') = Some weof
  | _ => False
  end.
Proof. cbv zeta. split; [vm_compute; reflexivity|]. vm_compute. split; reflexivity. Qed.

@@ C31 ExprMain accepted_expressions
Conversely, whenever ParseExpression returns a tree, the tree is one of those that have a
source form ([good_expr]), and that form is what was read: the words from the current token
on were those of [e], followed by the words on which the parser now stands.
---
(** A function call in place of an operand, a comment inside. *)
Example accepted_expressions_example :
  match run (parse_expression (recs_at 20)) (at_token 1 "f(x, 'its') (* ! *) div 2 then") with
  | OOk e s' => write_expr e = [wident (rs "f"); wsym "("; wident (rs "x"); wsym ",";
      (CharacterString, rs "'its'"); wsym ")"; wkey "DIV"; wnumber (rs "2")] /\
      option_map raw (s_cur s') = Some (rs "then")
  | _ => False
  end.
Proof. vm_compute. split; reflexivity. Qed.

@@ C31 ExprMain operators_bind_as_documented
[opx] are applications of operators, without parentheses and without a notion of "term".
Writing one down with parentheses only where the order of the operators and "from left to
right" ask for them ([show_op]), and parsing, gives a tree that says the same ([means_expr]).
So NOT binds before * / DIV MOD AND SHL SHR, these before + - OR XOR and signs, and these
before relations, and equal ones associate to the left.
---
Example operators_bind_as_documented_example :
  let x := OAtom (a_var "x") in let y := OAtom (a_var "y") in let z := OAtom (a_var "z") in
  (* (x - y) - z and x - (y - z) *)
  show_op 0 (OBin (rs "-") (OBin (rs "-") x y) z) =
    [wident (rs "x"); wsym "-"; wident (rs "y"); wsym "-"; wident (rs "z")] /\
  show_op 0 (OBin (rs "-") x (OBin (rs "-") y z)) =
    [wident (rs "x"); wsym "-"; wsym "("; wident (rs "y"); wsym "-"; wident (rs "z"); wsym ")"] /\
  (* x or (not y and z), (x = y) and z *)
  show_op 0 (OBin (rs "OR") x (OBin (rs "AND") (ONot y) z)) =
    [wident (rs "x"); wkey "OR"; wkey "NOT"; wident (rs "y"); wkey "AND"; wident (rs "z")] /\
  show_op 0 (OBin (rs "AND") (OBin (rs "=") x y) z) =
    [wsym "("; wident (rs "x"); wsym "="; wident (rs "y"); wsym ")"; wkey "AND"; wident (rs "z")] /\
  match run (parse_expression (recs_at 9)) (at_token 1 "x - y - - z * x = y;") with
  | OErr _ _ => True (* a sign is not allowed there *) | _ => False end /\
  match run (parse_expression (recs_at 9)) (at_token 1 "-x - y or z * x = y;") with
  | OOk e _ => bare_op (means_expr e) = bare_op (OBin (rs "=")
      (OBin (rs "OR") (OBin (rs "-") (OSign (rs "-") x) y) (OBin (rs "*") z x)) y)
  | _ => False end.
Proof. vm_compute. repeat split; reflexivity. Qed.

@@ C31 ExprMain one_tree_per_source_form
The source form is unambiguous: two trees with the same source form are the same (but for
places and references), in every context in which it can be read.
---
(** The hypotheses are those of [expression_round_trip_example]. *)
Example one_tree_per_source_form_example :
  write_expr tree1 = write_expr (bare_expr tree1).
Proof. vm_compute. reflexivity. Qed.

@@ C39 ExprMain references_are_visible
Every name in the tree that ParseExpression returns carries the declaration that the context
resolved it to before the expression was read, or none ([linked_expr], with [visible] and
[member] of [env_at]): a lone name what the current context finds, a qualified name the
namespace and what is found in it, the type of a cast the type.
---
(** [Integer] is found, [d] is not declared. *)
Example references_are_visible_example :
  let s := at_token 1 "Integer(d) + string;" in
  parser_context s /\
  visible (env_at (s_heap s) (s_ctx s)) (rs "Integer") <> None /\
  visible (env_at (s_heap s) (s_ctx s)) (rs "d") = None /\
  match run (parse_expression (recs_at 9)) (at_token 1 "Integer(d);") with
  | OOk (Expr (SExpr _ (Term (FCast t (Expr (SExpr _ (Term (FDesignator (Desig q _) _) _) _) _)) _) _) _) s' =>
      nth_error (h_refs (s_heap s')) (ti_ref t) = Some (visible (env_at (s_heap s) (s_ctx s)) (rs "integer")) /\
      ir_ref (q_ident q) = None
  | _ => False
  end.
Proof.
  cbv zeta. split; [eexists; split; [vm_compute; reflexivity|intros p; vm_compute; discriminate]|].
  split; [vm_compute; discriminate|]. split; [vm_compute; reflexivity|]. vm_compute. split; reflexivity.
Qed.
