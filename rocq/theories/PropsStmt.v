(** Properties of the parser of statements.  Definitions used in the statements are in
    StmtSpec, ExprSpec, ParseSpec and LexSpec (and the model in Prog, Parser); proofs in
    GrowFacts, StmtFacts and StmtMain. *)
From Coq Require Import String List NArith Bool Arith Lia.
From Verif Require Import Runes UnicodeFacts Token Tokenizer LexSpec Ast Heap MapSpec Prog ParseSpec Parser
  RunFacts ExprSpec StmtSpec StmtMain ParseExamples.
Import ListNotations.

(** The examples use the Latin-1 tables. *)
#[local] Existing Instance latin1 | 100.
#[local] Existing Instance latin1_ok | 100.

(** A parser behind the label section at the beginning of [src]. *)
Definition labelled (src : string) : pst :=
  match run parse_label_decl_section (at_token 1 src) with OOk _ s => s | _ => opened src end.
Lemma labelled_parsing src : parsing (rs src) (labelled src).
Proof.
  unfold labelled. destruct (run _ _) as [c s| | | |] eqn:E; try apply opened_parsing.
  now destruct (parser_moves_forward _ _ (rs src) _ s (at_token_parsing 1 src) (or_introl (ex_intro _ c E))).
Qed.
Lemma only_e n : same_name n (rs "E") -> n = rs "e" \/ n = rs "E".
Proof.
  destruct n as [|r [|r' n]]; try discriminate. intros H. change (rs "E") with [69%N] in *. change (rs "e") with [101%N].
  assert (X : @u_lower latin1 r = 101%N) by (injection H as X; exact X). revert X. cbn. unfold between.
  repeat match goal with |- context [if ?b then _ else _] => destruct b eqn:? end; intros X;
    assert (r = 101 \/ r = 69)%N as [-> | ->] by lia; auto.
Qed.
Definition semicolon : spelling := mkSpelling true (rs "on") (rs "at") eq_refl eq_refl.
Definition plain : spelling := mkSpelling false (rs "On") (rs "AT") eq_refl eq_refl.
Definition just (b : sbody) : stmt := Stmt None b.
Definition call (x : string) : stmt := just (SCall (a_name x) None).
Definition var (x : string) : expr := an_expr (a_var x).
Definition num (x : string) : expr := an_expr (FNumber (rs x)).
Definition ident (x : string) : ident := mkIdent (rs x) None.

(** C32. The parser stands on the words of the statement [st] in source form, and a word [after] that
may come behind a statement.  Then ParseStatement returns the tree [st] (but for places and
references), the token of [after] is current, and only the variables of exception handlers
in [st] have been declared.  [sp] tells whether the last statement of each list has a
semicolon behind it, and the letter case of ON and AT.  The handler variables must not be declared in this scope already. *)
Theorem statement_round_trip {U : Unicode} {UOK : UnicodeOk U} :
  forall text s sp st after rest fuel,
    parser_context s -> good_stmt sp (senv_at (s_heap s) (s_ctx s)) st after -> In after stmt_ends ->
    Forall (vacant (s_heap s) (s_ctx s)) (handler_vars st) -> NoDup (map to_lower (handler_vars st)) ->
    stands text s (write_stmt sp st ++ after :: rest) -> length (write_stmt sp st) <= fuel ->
    exists st' s', run (parse_statement (recs_at fuel)) s = OOk st' s' /\
      bare_stmt st' = bare_stmt st /\ stands text s' (after :: rest) /\
      forall n, ~ In (to_lower n) (map to_lower (handler_vars st)) ->
        ctx_get (s_heap s') (s_ctx s') n = ctx_get (s_heap s) (s_ctx s) n.
Proof. exact StmtMain.statement_round_trip. Qed.
Print Assumptions statement_round_trip.

(** A loop, a labelled assignment, CASE, TRY with a handler and ELSE, IF with ELSE. *)
Definition text2 : string :=
  "label L; while a < 9 do try L: x := a; case x of 1, 2: goto L; else foo(x); end; except on E: T do begin raise; end; else if b then c else d; end;".
Definition tree2 : stmt :=
  just (SWhile (Expr (a_simple (a_var "a")) [(rs "<", a_simple (FNumber (rs "9")))])
    (just (STryExcept
      [Stmt (Some (ident "L")) (SAssign (a_name "x") (var "a"));
       just (SCase (var "x") [([(num "1", None); (num "2", None)], just (SGoto (ident "L") None))]
                   (Some [just (SCall (a_name "foo") (Some [var "x"]))]))]
      [(Some (ident "E"), TId (mkTypeId None (ident "T") 0), just (SCompound [just (SRaise None None)]))]
      (Some [just (SIf (var "b") (call "c") (Some (call "d")))])))).
Example statement_round_trip_example :
  let s := labelled text2 in
  parser_context s /\ good_stmt semicolon (senv_at (s_heap s) (s_ctx s)) tree2 (wsym ";") /\
  Forall (vacant (s_heap s) (s_ctx s)) (handler_vars tree2) /\ NoDup (map to_lower (handler_vars tree2)) /\
  stands (rs text2) s (write_stmt semicolon tree2 ++ wsym ";" :: [weof]) /\
  match run (parse_statement (recs_at 60)) s with
  | OOk st s' => bare_stmt st = bare_stmt tree2 /\ option_map raw (s_cur s') = Some (rs ";")
  | _ => False
  end.
Proof.
  cbv zeta. split.
  { eexists. split; [vm_compute; reflexivity|]. intros p. vm_compute. discriminate. }
  split.
  { assert (D : forall d, Digit d -> lexeme NumeralInt [d]).
    { intros d Hd. apply (lx_int [] [d]); [left; reflexivity|discriminate|]. constructor; [exact Hd|constructor]. }
    assert (Lb : exists d, resolves (s_heap (labelled text2)) (s_ctx (labelled text2)) (rs "L") d NLabel).
    { eexists. split; [vm_compute; reflexivity|]. eexists. split; vm_compute; reflexivity. }
    cbn. repeat split; try discriminate; auto 9.
    all: try (intros E; vm_compute in E; intuition discriminate).
    all: try (left; apply D; unfold Digit; vm_compute; split; discriminate).
    all: try (left; left; vm_compute; reflexivity).
    all: apply only_e in H as [-> | ->]; left; vm_compute; reflexivity. }
  split; [constructor; [|constructor]; do 3 eexists; split; [vm_compute; reflexivity|]; split; [reflexivity|];
    split; [vm_compute; reflexivity|vm_compute; reflexivity]|].
  split; [constructor; [intros []|constructor]|].
  split; [eapply (stands_by_reading 51); [apply labelled_parsing|vm_compute; reflexivity..]|].
  vm_compute. split; reflexivity.
Qed.

(** C32. The same from the text: for every text whose lexemes ([written], LexSpec) are those of [st],
in any layout and with reserved words in any case. *)
Theorem statement_text_round_trip {U : Unicode} {UOK : UnicodeOk U} :
  forall text ls c post h sp st fuel,
    written ls text -> map word ls = write_stmt sp st ->
    parser_context (mkPst (new_tokenizer text false false) None c post h) ->
    good_stmt sp (senv_at h c) st weof ->
    Forall (vacant h c) (handler_vars st) -> NoDup (map to_lower (handler_vars st)) -> length ls <= fuel ->
    exists st' s',
      run (Bind Next (fun _ => parse_statement (recs_at fuel))) (mkPst (new_tokenizer text false false) None c post h) = OOk st' s' /\
      bare_stmt st' = bare_stmt st /\ stands text s' [weof].
Proof. exact StmtMain.statement_text_round_trip. Qed.
Print Assumptions statement_text_round_trip.

Example statement_text_round_trip_example :
  let text := rs "REPEAT foo ; (* x *) bar(1)	until B" in
  let ls := [(ReservedWord, rs "REPEAT"); (Identifier, rs "foo"); (SpecialSymbol, rs ";"); (Identifier, rs "bar");
    (SpecialSymbol, rs "("); (NumeralInt, rs "1"); (SpecialSymbol, rs ")"); (ReservedWord, rs "until"); (Identifier, rs "B")] in
  let st := just (SRepeat [call "foo"; just (SCall (a_name "bar") (Some [num "1"]))] (var "B")) in
  map word ls = write_stmt plain st /\
  match run (Bind Next (fun _ => parse_statement (recs_at 9))) (opened "REPEAT foo ; (* x *) bar(1)	until B") with
  | OOk st' s' => bare_stmt st' = bare_stmt st /\ option_map word_of (s_cur s') = Some weof
  | _ => False
  end.
Proof. cbv zeta. split; [vm_compute; reflexivity|]. vm_compute. split; reflexivity. Qed.

(** C32. Under any number of open IFs (and loops, WITHs and ELSE branches), IF e THEN s1 followed by
ELSE s2: the ELSE belongs to this IF, the nearest, not to one of those around it. *)
Theorem else_belongs_to_the_nearest_if {U : Unicode} {UOK : UnicodeOk U} :
  forall text s sp hs e s1 s2 after rest fuel,
    let inner := below hs (Stmt None (SIf e s1 (Some s2))) in
    let form := write_stmt sp (below hs (Stmt None (SIf e s1 None))) ++ wkey "ELSE" :: write_stmt sp s2 in
    parser_context s -> good_stmt sp (senv_at (s_heap s) (s_ctx s)) inner after -> In after stmt_ends ->
    Forall (vacant (s_heap s) (s_ctx s)) (handler_vars inner) -> NoDup (map to_lower (handler_vars inner)) ->
    stands text s (form ++ after :: rest) -> length form <= fuel ->
    exists st' s', run (parse_statement (recs_at fuel)) s = OOk st' s' /\
      bare_stmt st' = bare_stmt inner /\ stands text s' (after :: rest).
Proof. exact StmtMain.else_belongs_to_the_nearest_if. Qed.
Print Assumptions else_belongs_to_the_nearest_if.

(** if a then while b do if c then x else y *)
Example else_belongs_to_the_nearest_if_example :
  let hs := [HIf (var "a"); HWhile (var "b")] in
  let form := write_stmt plain (below hs (just (SIf (var "c") (call "x") None))) ++ wkey "ELSE" :: write_stmt plain (call "y") in
  let s := at_token 1 "if a then while b do if c then x else y;" in
  stands (rs "if a then while b do if c then x else y;") s (form ++ wsym ";" :: [weof]) /\
  match run (parse_statement (recs_at 20)) s with
  | OOk st s' => bare_stmt st = bare_stmt (just (SIf (var "a") (just (SWhile (var "b")
      (just (SIf (var "c") (call "x") (Some (call "y")))))) None)) /\ option_map raw (s_cur s') = Some (rs ";")
  | _ => False
  end.
Proof.
  cbv zeta. split; [eapply (stands_by_reading 13); [apply at_token_parsing|vm_compute; reflexivity..]|].
  vm_compute. split; reflexivity.
Qed.
