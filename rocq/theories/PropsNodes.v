(** Properties of walks over syntax trees.  Definitions used in the statements are in
    NodeSpec, StmtSpec, ExprSpec and ParseSpec (and the model in Walk, Nodes, Prog, Parser);
    proofs in NodeMain. *)
From Coq Require Import String List NArith Bool Arith Lia.
From Verif Require Import Runes UnicodeFacts Token Tokenizer LexSpec Ast Heap MapSpec Walk Nodes Prog ParseSpec Parser
  RunFacts ExprSpec StmtSpec NodeSpec NodeMain ParseExamples PropsStmt.
Import ListNotations.

(** The examples use the Latin-1 tables. *)
#[local] Existing Instance latin1 | 100.
#[local] Existing Instance latin1_ok | 100.

(** C45. A walk over the tree of an expression that collects the names, literals and operators of the
nodes it comes to, parents before their children, collects exactly those of the source form,
in the order of the source, each once. *)
Theorem expression_walk {U : Unicode} {UOK : UnicodeOk U} :
  forall en e, good_expr en e -> walk_down listen (expr_tree e) [] = (filter spoken (write_expr e), None).
Proof. exact NodeMain.expression_walk. Qed.
Print Assumptions expression_walk.

Example expression_walk_example :
  good_expr (mkEnv (fun _ => None) (fun _ => True) (fun _ => False) (fun _ _ _ _ => False))
    (Expr (a_simple (a_var "a")) [(rs "<", a_simple (FNot (a_var "b")))]) /\
  filter spoken (write_expr (Expr (a_simple (a_var "a")) [(rs "<", a_simple (FNot (a_var "b")))])) =
  [wident (rs "a"); wsym "<"; wkey "NOT"; wident (rs "b")].
Proof. split; [|vm_compute; reflexivity]. cbn. repeat split; auto 9; intros [E | E]; discriminate E. Qed.

(** C45. The same of every expression that ParseExpression accepts: the walk collects the names,
literals and operators among the words [ws] that were read. *)
Theorem parsed_expression_walk {U : Unicode} {UOK : UnicodeOk U} :
  forall text s e s' fuel,
    parsing text s -> parser_context s -> run (parse_expression (recs_at fuel)) s = OOk e s' ->
    exists ws, (forall rest, stands text s' rest -> stands text s (ws ++ rest)) /\
      walk_down listen (expr_tree e) [] = (filter spoken ws, None).
Proof. exact NodeMain.parsed_expression_walk. Qed.
Print Assumptions parsed_expression_walk.

Example parsed_expression_walk_example :
  match run (parse_expression (recs_at 30)) (at_token 1 "x[1, -y].z^ + (f(2) div 'a') in [1..n];") with
  | OOk e s' =>
      heard (expr_tree e) =
      [wident (rs "x"); (NumeralInt, rs "1"); wsym "-"; wident (rs "y"); wident (rs "z"); wsym "^"; wsym "+";
       wident (rs "f"); (NumeralInt, rs "2"); wkey "DIV"; (CharacterString, rs "'a'"); wkey "IN"; (NumeralInt, rs "1");
       wident (rs "n")] /\
      option_map raw (s_cur s') = Some (rs ";")
  | _ => False
  end.
Proof. vm_compute. split; reflexivity. Qed.

(** C45. For every source form of a statement, the walk over its tree collects the names, literals and
operators of the form, in the order of the source, each once.  (The words ON and AT, which the
tokenizer takes for identifiers, and names spelled like them, are left out on both sides.) *)
Theorem statement_walk {U : Unicode} {UOK : UnicodeOk U} :
  forall sp en st after, good_stmt sp en st after ->
    unmarked sp (heard (stmt_tree st)) = unmarked sp (filter spoken (write_stmt sp st)).
Proof. exact NodeMain.statement_walk. Qed.
Print Assumptions statement_walk.

Example statement_walk_example :
  good_stmt plain (mkSenv (mkEnv (fun _ => None) (fun _ => True) (fun _ => False) (fun _ _ _ _ => False)) (fun _ => False) (fun _ => True))
    (just (SIf (var "a") (call "b") (Some (call "c")))) weof /\
  unmarked plain (heard (stmt_tree (just (SIf (var "a") (call "b") (Some (call "c")))))) =
  [wident (rs "a"); wident (rs "b"); wident (rs "c")].
Proof. split; [|vm_compute; reflexivity]. cbn. repeat split; auto 9; intros [E | E]; discriminate E. Qed.

(** C45. The same of the tree that ParseStatement returns on such a form. *)
Theorem parsed_statement_walk {U : Unicode} {UOK : UnicodeOk U} :
  forall text s sp st after rest fuel,
    parser_context s -> good_stmt sp (senv_at (s_heap s) (s_ctx s)) st after -> In after stmt_ends ->
    Forall (vacant (s_heap s) (s_ctx s)) (handler_vars st) -> NoDup (map to_lower (handler_vars st)) ->
    stands text s (write_stmt sp st ++ after :: rest) -> length (write_stmt sp st) <= fuel ->
    exists st' s', run (parse_statement (recs_at fuel)) s = OOk st' s' /\
      unmarked sp (heard (stmt_tree st')) = unmarked sp (filter spoken (write_stmt sp st)).
Proof. exact NodeMain.parsed_statement_walk. Qed.
Print Assumptions parsed_statement_walk.

(** The hypotheses hold of [tree2] by [statement_round_trip_example]. *)
Example parsed_statement_walk_example :
  match run (parse_statement (recs_at 60)) (labelled text2) with
  | OOk st _ =>
      map snd (heard (stmt_tree st)) =
      map rs ["a"; "<"; "9"; "L"; "x"; "a"; "x"; "1"; "2"; "L"; "foo"; "x"; "E"; "T"; "b"; "c"; "d"]%string
  | _ => False
  end.
Proof. vm_compute. reflexivity. Qed.
