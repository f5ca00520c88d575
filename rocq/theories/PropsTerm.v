(** The parser returns.  Definitions used in the statements are in TermSpec (and the model in
    Prog and Parser); proofs in TermHeap, TermFacts, TermExpr, TermTypes, TermClass, TermStmt and
    TermMain.

    [recs_at n] is the parser with recursion and loops cut off at depth [n]; a run that is cut
    off is [OStuck].  That a method returns is that it is not cut off when [n] is large enough;
    that it does not return is that it is cut off for every [n]. *)
From Coq Require Import String List NArith Bool Arith Lia.
From Verif Require Import Runes UnicodeFacts Token Tokenizer LexSpec Ast Heap Prog ParseSpec Parser CaseSpec
  TermSpec TermMain FuelFacts Ext Units ParseExamples RunFacts TermHeap TermFacts.
Import ListNotations.

(** The examples use the Latin-1 tables. *)
#[local] Existing Instance latin1 | 100.
#[local] Existing Instance latin1_ok | 100.
#[local] Existing Instance nobody | 100.

(** The text is read to its end in [n] tokens, none of them ASM. *)
Definition no_asm_in (n : nat) (src : string) : Prop :=
  match read_n n (new_tokenizer (rs src) false false) with
  | Some (ts, _) => existsb (kw "ASM") ts = false /\ option_map t_type (nth_error ts (n - 1)) = Some EOF
  | None => False
  end.
(** A parser on its first token is ready. *)
Lemma ready_at_first src : ready (rs src) (rs "p.dpr") (at_token 1 src) \/ at_token 1 src = opened src.
Proof.
  assert (P : TermFacts.pre (rs src) (rs "p.dpr") true 1 (opened src)).
  { split; [apply opened_parsing|]. split; [discriminate|]. split; [apply fresh_sound|]. split; [reflexivity|now left]. }
  apply next_pre in P. unfold at_token. cbn [advance]. destruct (next_token (opened src)) as [c s| | | |]; auto.
  left. now apply ok_ready with (lax := true) (D := 1).
Qed.
Lemma shallow_at n src : shallow 1 (s_heap (at_token n src)).
Proof.
  assert (E : s_heap (at_token n src) = s_heap (opened src)).
  { unfold at_token. induction n as [|n IH]; [reflexivity|]. cbn [advance]. unfold next_token.
    destruct (get_next _); cbn; auto. }
  rewrite E. apply fresh_shallow.
Qed.

(** C34. With a new program context, ParseExpression, ParseStatement and ParseType return a result or an
error on every text that the tokenizer reads to the end (see the next theorem) and in which no
token is the word ASM. *)
Theorem parsing_returns {U : Unicode} {UOK : UnicodeOk U} :
  forall text path n ts e k,
  reads (new_tokenizer text false false) (ts ++ [e]) k -> t_type e = EOF -> Forall (fun t => kw "ASM" t = false) ts ->
  2 * length text + 4 <= n ->
  let h := fst (new_program_context heap0 path) in let c := snd (new_program_context heap0 path) in
  gives (parse_text (parse_expression (recs_at n)) text c h) /\
  gives (parse_text (parse_statement (recs_at n)) text c h) /\
  gives (parse_text (parse_type (recs_at n)) text c h).
Proof. exact TermMain.parsing_returns. Qed.
Print Assumptions parsing_returns.

Example parsing_returns_example :
  no_asm_in 22 "while a < b do begin if c[1] then Inc(d) else ; end" /\
  let '(h, c) := new_program_context heap0 (rs "p.dpr") in
  let text := rs "while a < b do begin if c[1] then Inc(d) else ; end" in
  match parse_text (parse_statement (recs_at (2 * length text + 4))) text c h with
  | OErr (EAt _ line col) _ => (line, col) = (1, 47)
  | _ => False
  end.
Proof. vm_compute. repeat split; reflexivity. Qed.
Example parsing_returns_result :
  no_asm_in 16 "record a, b: Integer; c: set of 1..2 end" /\
  let '(h, c) := new_program_context heap0 (rs "p.dpr") in
  let text := rs "record a, b: Integer; c: set of 1..2 end" in
  match parse_text (parse_type (recs_at (2 * length text + 4))) text c h with
  | OOk (TRec _ _) _ => True
  | _ => False
  end.
Proof. vm_compute. repeat split; reflexivity. Qed.

(** C34. The result or error is one and the same at every depth that is large enough, so it is that of the
parser without a bound. *)
Theorem parsing_has_one_end {U : Unicode} {UOK : UnicodeOk U} :
  forall text path ts e k,
  reads (new_tokenizer text false false) (ts ++ [e]) k -> t_type e = EOF -> Forall (fun t => kw "ASM" t = false) ts ->
  let h := fst (new_program_context heap0 path) in let c := snd (new_program_context heap0 path) in
  (exists o, gives o /\ forall n, 2 * length text + 4 <= n -> parse_text (parse_expression (recs_at n)) text c h = o) /\
  (exists o, gives o /\ forall n, 2 * length text + 4 <= n -> parse_text (parse_statement (recs_at n)) text c h = o) /\
  (exists o, gives o /\ forall n, 2 * length text + 4 <= n -> parse_text (parse_type (recs_at n)) text c h = o).
Proof. exact TermMain.parsing_has_one_end. Qed.
Print Assumptions parsing_has_one_end.

Example parsing_has_one_end_example :
  let '(h, c) := new_program_context heap0 (rs "p.dpr") in
  no_asm_in 6 "a + b * c" /\
  parse_text (parse_expression (recs_at 22)) (rs "a + b * c") c h =
  parse_text (parse_expression (recs_at 100)) (rs "a + b * c") c h.
Proof. vm_compute. repeat split; reflexivity. Qed.

(** C34. The tokenizer reads a text to the end exactly when no tokenizer on the text can wait for the
end of a string and none can meet a rune that starts no token. *)
Theorem read_to_the_end_iff {U : Unicode} {UOK : UnicodeOk U} :
  forall text, (exists ts e k, reads (new_tokenizer text false false) (ts ++ [e]) k /\ t_type e = EOF) <->
  ~ open_string text /\ ~ unknown_rune text.
Proof. exact TermMain.read_to_the_end_iff. Qed.
Print Assumptions read_to_the_end_iff.

Example read_to_the_end_iff_example :
  (~ open_string (rs "x := 'a' { ' }") /\ ~ unknown_rune (rs "x := 'a' { ' }")) /\
  open_string (rs "x := 'a") /\ unknown_rune (rs "x := ?").
Proof.
  split; [|split].
  - apply read_to_the_end_iff. remember (read_n 4 (new_tokenizer (rs "x := 'a' { ' }") false false)) as r eqn:E.
    vm_compute in E. destruct r as [[ts k]|]; [|discriminate]. injection E as E1 E2.
    destruct ts as [|t0 [|t1 [|t2 [|t3 [|]]]]]; try discriminate. exists [t0; t1; t2], t3, k. split.
    + injection E1 as -> -> -> ->. subst k.
      repeat (eapply reads_cons; [vm_compute; reflexivity|]). apply reads_nil.
    + injection E1 as _ _ _ ->. reflexivity.
  - exists (s_tok (at_token 2 "x := 'a")). split; [apply at_token_parsing|vm_compute; reflexivity].
  - exists (s_tok (at_token 2 "x := ?")). eexists. split; [apply at_token_parsing|vm_compute; reflexivity].
Qed.

(** C34. From any state: the parser stands anywhere in its text, in a context whose declarations are in
order ([ready]) and whose types refer to each other at most [D] deep.  ParseExpression then ends.
It ends with a result or an error, and the parser can go on in the same way; or with a panic,
if the text has a rune that starts no token; or the tokenizer waits, if a string is not closed. *)
Theorem expression_returns {U : Unicode} {UOK : UnicodeOk U} :
  forall text path D n s, ready text path s -> 1 <= D -> shallow D (s_heap s) -> 2 * length text + D + 3 <= n ->
  returns text path (place s) (run (parse_expression (recs_at n)) s) /\
  still_shallow D (run (parse_expression (recs_at n)) s).
Proof. exact TermMain.expression_returns. Qed.
Print Assumptions expression_returns.

Example expression_returns_example :
  ready (rs "f(a, [1..2], -b.c^[3]) in s") (rs "p.dpr") (at_token 1 "f(a, [1..2], -b.c^[3]) in s") /\
  shallow 1 (s_heap (at_token 1 "f(a, [1..2], -b.c^[3]) in s")) /\
  match run (parse_expression (recs_at 58)) (at_token 1 "f(a, [1..2], -b.c^[3]) in s") with
  | OOk _ s => option_map t_type (s_cur s) = Some EOF
  | _ => False
  end.
Proof.
  split; [|split; [apply shallow_at|vm_compute; reflexivity]].
  destruct (ready_at_first "f(a, [1..2], -b.c^[3]) in s") as [Rd|X]; [exact Rd|].
  apply (f_equal (fun s => match s_cur s with None => true | _ => false end)) in X. vm_compute in X. discriminate.
Qed.

(** C34. The same of ParseType. *)
Theorem type_returns {U : Unicode} {UOK : UnicodeOk U} :
  forall text path D n s, ready text path s -> 1 <= D -> shallow D (s_heap s) -> 2 * length text + D + 3 <= n ->
  returns text path (place s) (run (parse_type (recs_at n)) s) /\
  still_shallow D (run (parse_type (recs_at n)) s).
Proof. exact TermMain.type_returns. Qed.
Print Assumptions type_returns.

Example type_returns_example :
  ready (rs "array [1..2] of ^foo") (rs "p.dpr") (at_token 1 "array [1..2] of ^foo") /\
  shallow 1 (s_heap (at_token 1 "array [1..2] of ^foo")) /\
  gives (run (parse_type (recs_at 58)) (at_token 1 "array [1..2] of ^foo")).
Proof.
  split; [|split; [apply shallow_at|]].
  - destruct (ready_at_first "array [1..2] of ^foo") as [Rd|X]; [exact Rd|].
    apply (f_equal (fun s => match s_cur s with None => true | _ => false end)) in X. vm_compute in X. discriminate.
  - left. eexists. eexists. vm_compute. reflexivity.
Qed.

(** C34. The same of ParseStatement, on texts without an ASM that has no END. *)
Theorem statement_returns {U : Unicode} {UOK : UnicodeOk U} :
  forall text path D n s, ~ asm_without_end text ->
  ready text path s -> 1 <= D -> shallow D (s_heap s) -> 2 * length text + D + 3 <= n ->
  returns text path (place s) (run (parse_statement (recs_at n)) s) /\
  still_shallow D (run (parse_statement (recs_at n)) s).
Proof. exact TermMain.statement_returns. Qed.
Print Assumptions statement_returns.

Example statement_returns_example :
  gives (run (parse_statement (recs_at 50)) (at_token 1 "asm mov ax, 1 end")) /\
  gives (run (parse_statement (recs_at 50)) (at_token 1 "try a except on e: t do b end")).
Proof. split; left; eexists; eexists; vm_compute; reflexivity. Qed.

(** C34. The same of ParseBlock (declarations, functions, statements), on texts without the word TYPE:
a type section can declare a type by itself, and the depth of types is not bounded then. *)
Theorem block_returns {U : Unicode} {UOK : UnicodeOk U} :
  forall text path D n s, ~ asm_without_end text -> ~ has_type_section text ->
  ready text path s -> 1 <= D -> shallow D (s_heap s) -> 2 * length text + D + 3 <= n ->
  returns text path (place s) (run (parse_block (recs_at n)) s) /\
  still_shallow D (run (parse_block (recs_at n)) s).
Proof. exact TermMain.block_returns. Qed.
Print Assumptions block_returns.

Example block_returns_example :
  gives (run (parse_block (recs_at 120))
    (at_token 1 "const a = 1; var b, c: Integer; function f(x: Integer): Integer; begin g(x) end; begin b := f(c) end")).
Proof. left; eexists; eexists; vm_compute; reflexivity. Qed.

(** C34. A parser on an ASM behind which no END comes (the token right behind ASM not counted): there is
no depth at which ParseStatement is not cut off.  (Provided that ASM is not itself declared as
a label, which no text can do.) *)
Theorem asm_without_end_never_returns {U : Unicode} {UOK : UnicodeOk U} :
  forall text n s t k2 ts e k3, parsing text s -> s_cur s = Some t -> kw "ASM" t = true ->
  skips (s_tok s) k2 -> reads k2 (ts ++ [e]) k3 -> t_type e = EOF -> Forall (fun u => kw "END" u = false) ts ->
  (exists r, run (get_node (rs "ASM")) s = OOk r s /\ forall d, r <> Some (d, NLabel)) ->
  run (parse_statement (recs_at n)) s = OStuck.
Proof. exact TermMain.asm_without_end_never_returns. Qed.
Print Assumptions asm_without_end_never_returns.

Example asm_without_end_never_returns_example :
  forall n, run (parse_statement (recs_at n)) (at_token 4 "begin a; ASM end nop") = OStuck.
Proof.
  intro n. eapply (asm_without_end_never_returns (rs "begin a; ASM end nop") n) with (ts := [_]).
  - apply at_token_parsing.
  - vm_compute; reflexivity.
  - vm_compute; reflexivity.
  - left. eexists. vm_compute; reflexivity.
  - cbn [app]. repeat (eapply reads_cons; [vm_compute; reflexivity|]). apply reads_nil.
  - reflexivity.
  - repeat constructor; vm_compute; reflexivity.
  - exists None. split; [vm_compute; reflexivity|discriminate].
Qed.

(** C34. The same of a text that begins with ASM, with a new program context. *)
Theorem asm_text_never_returns {U : Unicode} {UOK : UnicodeOk U} :
  forall text path n t k1 k2 ts e k3,
  get_next (new_tokenizer text false false) = GTok t k1 -> kw "ASM" t = true ->
  skips k1 k2 -> reads k2 (ts ++ [e]) k3 -> t_type e = EOF -> Forall (fun u => kw "END" u = false) ts ->
  let h := fst (new_program_context heap0 path) in let c := snd (new_program_context heap0 path) in
  parse_text (parse_statement (recs_at n)) text c h = OStuck.
Proof. exact TermMain.asm_text_never_returns. Qed.
Print Assumptions asm_text_never_returns.

Example asm_text_never_returns_example :
  forall n, parse_text (parse_statement (recs_at n)) (rs "asm end mov ax, 1") 0
    (fst (new_program_context heap0 (rs "p.dpr"))) = OStuck.
Proof.
  intro n. eapply (asm_text_never_returns (rs "asm end mov ax, 1") (rs "p.dpr") n) with (ts := [_; _; _; _]).
  - vm_compute; reflexivity.
  - vm_compute; reflexivity.
  - left. eexists. vm_compute; reflexivity.
  - cbn [app]. repeat (eapply reads_cons; [vm_compute; reflexivity|]). apply reads_nil.
  - reflexivity.
  - repeat constructor; vm_compute; reflexivity.
Qed.

(** C34. A run that is not cut off at some depth is the same at every larger depth, for blocks and units
too and from every state. *)
Theorem depth_does_not_matter {U : Unicode} :
  forall m n s, m <= n ->
  (run (parse_expression (recs_at m)) s <> OStuck -> run (parse_expression (recs_at n)) s = run (parse_expression (recs_at m)) s) /\
  (run (parse_type (recs_at m)) s <> OStuck -> run (parse_type (recs_at n)) s = run (parse_type (recs_at m)) s) /\
  (run (parse_statement (recs_at m)) s <> OStuck -> run (parse_statement (recs_at n)) s = run (parse_statement (recs_at m)) s) /\
  (run (parse_block (recs_at m)) s <> OStuck -> run (parse_block (recs_at n)) s = run (parse_block (recs_at m)) s) /\
  (forall uc, run (parse_unit (recs_at m) uc) s <> OStuck -> run (parse_unit (recs_at n) uc) s = run (parse_unit (recs_at m) uc) s).
Proof. exact FuelFacts.depth_does_not_matter. Qed.
Print Assumptions depth_does_not_matter.

Example depth_does_not_matter_example :
  let at_depth n := run (parse_statement (recs_at n)) (at_token 1 "if a then b := c") in
  match at_depth 0 with OStuck => True | _ => False end /\
  match at_depth 8 with OOk _ _ | OErr _ _ => True | _ => False end /\
  at_depth 50 = at_depth 8.
Proof. vm_compute. repeat split; reflexivity. Qed.

(** C34. The same of whole programs with their units. *)
Theorem program_depth_does_not_matter {U : Unicode} :
  forall files sep order topo path m n, m <= n ->
  parse_program (recs_at m) files sep order topo path <> RStuck ->
  parse_program (recs_at n) files sep order topo path = parse_program (recs_at m) files sep order topo path.
Proof. exact FuelFacts.program_depth_does_not_matter. Qed.
Print Assumptions program_depth_does_not_matter.

Example program_depth_does_not_matter_example :
  let files (p : gostring) := if runes_equal p (rs "p.dpr") then Some (rs "program p; begin a := 1 end.") else None in
  let parse n := parse_program (recs_at n) files 47%N (fun l => l) (fun l _ => Some l) (rs "p.dpr") in
  parse 0 = RStuck /\ match parse 5 with ROk _ _ => True | _ => False end /\ parse 30 = parse 5.
Proof. vm_compute. repeat split; reflexivity. Qed.

(** C43, C44. At any depth, from any state that is [ready]: the methods panic only if the text has a rune that
starts no token, and wait in the tokenizer only if it has a string that is not closed.  When one
ends, the parser is [ready] again.  When it ends with an error that has a position, that is the
position of a token of the text, in the file of the parser, not before the token at which the
method began and not behind the one at which it stopped.  This holds of the sections with types too. *)
Theorem methods_are_safe {U : Unicode} {UOK : UnicodeOk U} :
  forall text path n s, ready text path s ->
  safe text path (place s) (run (parse_expression (recs_at n)) s) /\
  safe text path (place s) (run (parse_type (recs_at n)) s) /\
  safe text path (place s) (run (parse_statement (recs_at n)) s) /\
  safe text path (place s) (run (parse_block (recs_at n)) s) /\
  (forall req, safe text path (place s) (run (parse_type_section (recs_at n) req) s) /\
               safe text path (place s) (run (parse_const_section (recs_at n) req) s) /\
               safe text path (place s) (run (parse_var_section (recs_at n) req) s)).
Proof. exact TermMain.methods_are_safe. Qed.
Print Assumptions methods_are_safe.

Example methods_are_safe_example :
  match run (parse_block (recs_at 60)) (at_token 1 "type t = class a: Integer; end; var x = 1; begin end") with
  | OErr (EAt p line col) s => p = rs "p.dpr" /\ (line, col) = (1, 39) /\ option_map token_text (s_cur s) = Some (rs "=")
  | _ => False
  end.
Proof. vm_compute. repeat split; reflexivity. Qed.
Example methods_are_safe_panic :
  run (parse_statement (recs_at 60)) (at_token 1 "a := ? ;") = OPanic.
Proof. vm_compute. reflexivity. Qed.
