(** Properties of the parser's basic moves.  Definitions used in the statements are in
    ParseSpec and LexSpec (and the model in Prog, Parser); proofs in RunFacts.  A parser
    method is a value of type [prog]; statements over every [p : prog A] hold of every
    method, those of Parser.v and any other. *)
From Coq Require Import String List NArith Bool Arith Lia.
From Verif Require Import Runes UnicodeFacts Token Tokenizer LexSpec Ast Heap Prog ParseSpec Parser
  ParseExamples RunFacts.
Import ListNotations.

(** The examples use the Latin-1 tables. *)
#[local] Existing Instance latin1 | 100.
#[local] Existing Instance latin1_ok | 100.

@@ C36 RunFacts parser_moves_forward
Whatever a method does, when it returns - with a result or an error - the parser is still at
work on the same text ([parsing]), and both the current token and the tokenizer are at or
after where they were.
---
(** The parser of the texts below satisfies the hypothesis at every token. *)
Example parser_moves_forward_example :
  parsing (rs "a, b: T;") (at_token 1 "a, b: T;") /\
  place (at_token 1 "a, b: T;") = 0 /\
  exists s', run (parse_ident_list_by 5 (sym ":")) (at_token 1 "a, b: T;") =
               OOk [mkIdent (rs "a") (Some (mkPos 1 1 0, mkPos 1 2 1));
                    mkIdent (rs "b") (Some (mkPos 1 4 3, mkPos 1 5 4))] s' /\ place s' = 4.
Proof. split; [apply at_token_parsing|]. split; [reflexivity|]. eexists. split; vm_compute; reflexivity. Qed.

@@ C36 RunFacts parser_reads_on
More precisely: the parser ends up where some number of further GetNext calls lead from where
it was (up to line and column numbers, which a rolled-back attempt can change, see C12).  So
no token is read that does not follow, and none is read twice.
---
Example parser_reads_on_example :
  exists k c, later (s_tok (at_token 1 "a, b: T;")) (s_cur (at_token 1 "a, b: T;")) k c /\
    option_map raw c = Some (rs ":").
Proof.
  do 2 eexists. split; [|shelve].
  do 3 (eapply later_tok; [vm_compute; reflexivity|]). apply later_here.
  Unshelve. vm_compute. reflexivity.
Qed.

@@ C36 RunFacts parser_starts_well
A parser that was just given its text is at work on it.
---
Example parser_starts_well_example : parsing (rs "begin end.") (opened "begin end.").
Proof. apply parser_starts_well. Qed.

@@ C33 RunFacts rollback_restores_the_stream
RollbackPoint, any sequence [p] of reads and other operations, and the rollback function: the
current token is the one from before, and so is everything read afterwards, whatever its
length: tokens of the same type, text and indexes, and nil or a hang in the same place.
---
(** An attempt that reads three tokens. *)
Example rollback_restores_the_stream_example :
  match run (Attempt (Next ;;; Next ;;; Next ;;; Ret (@None nat))%prog) (at_token 1 "a, b: T;") with
  | OOk None s' =>
      s_cur s' = s_cur (at_token 1 "a, b: T;") /\
      option_map (fun r => map raw (fst r)) (read_n 3 (s_tok s')) = Some [rs ","; rs "b"; rs ":"]
  | _ => False
  end.
Proof. vm_compute. split; reflexivity. Qed.

@@ C37 RunFacts rejected_token_is_cited
Current and Next, the steps by which every method checks a token (and the form in which the
caller builds the error itself): a token the predicate rejects gives an error with the file
name of the context and the line and column of exactly that token.
---
Example rejected_token_is_cited_example :
  ctx_path (s_heap (at_token 2 "a
  , b")) (s_ctx (at_token 2 "a
  , b")) = Some (rs "p.dpr") /\
  failed (run (expect (sym ";")) (at_token 2 "a
  , b")) = Some (EAt (rs "p.dpr") 2 3).
Proof. vm_compute. split; reflexivity. Qed.

@@ C37 RunFacts accepted_token_is_returned
A token the predicate accepts is returned; it stays current.
---
Example accepted_token_is_returned_example :
  option_map (fun r => raw (fst r)) (shown (run (expect (sym ",")) (at_token 2 "a , b"))) = Some (rs ",").
Proof. vm_compute. reflexivity. Qed.

@@ C37 RunFacts missing_token_is_an_error
Where the tokenizer gave nil (a rune that starts no token), there is no token to cite.
---
Example missing_token_is_an_error_example :
  s_cur (at_token 2 "a ? b") = None /\ failed (run (expect (sym ";")) (at_token 2 "a ? b")) = Some ENil.
Proof. vm_compute. split; reflexivity. Qed.

@@ C30 RunFacts until_reads_the_list
Until succeeds exactly when the list can be read as [list_read] says: the element parser once
per element, in order, each separator consumed, the terminator not.  The fuel is the number of
rounds allowed; the Go loop has none.
---
Local Definition numbers (l : list (list rune)) : prog (option (list (list rune))) :=
  (t <- expect (p_type NumeralInt) ;; Next ;;; Ret (Some (l ++ [raw t])))%prog.
Example until_reads_the_list_example :
  shown (run (until 3 (sym ")") (Some (sym ",")) numbers []) (at_token 2 "(10, 20, 30)")) =
  Some ([rs "10"; rs "20"; rs "30"], Some (rs ")")).
Proof. vm_compute. reflexivity. Qed.

@@ C30 RunFacts until_fails_iff
Until fails exactly when an element fails or the token after an element is neither the
terminator nor the separator.
---
Example until_fails_iff_example :
  failed (run (until 3 (sym ")") (Some (sym ",")) numbers []) (at_token 2 "(10, 20; 30)")) =
    Some (EAt (rs "p.dpr") 1 8) /\
  failed (run (until 3 (sym ")") (Some (sym ",")) numbers []) (at_token 2 "(10, x)")) =
    Some (EAt (rs "p.dpr") 1 6).
Proof. vm_compute. split; reflexivity. Qed.

@@ C30 RunFacts until_fuel_is_a_bound
More fuel changes nothing once there is enough.
---
Example until_fuel_is_a_bound_example :
  run (until 2 (sym ")") (Some (sym ",")) numbers []) (at_token 2 "(10, 20, 30)") = OStuck /\
  run (until 3 (sym ")") (Some (sym ",")) numbers []) (at_token 2 "(10, 20, 30)") <> OStuck.
Proof. split; [vm_compute; reflexivity|]. vm_compute. discriminate. Qed.

@@ C30 RunFacts ident_list_is_read
ParseIdentList on identifiers with commas between them, up to a terminator [T]: exactly these
identifiers, with [T] current, and nothing but the place in the text changed.
---
Example ident_list_is_read_example :
  stands (rs "a, b: T;") (at_token 1 "a, b: T;") (comma_list [rs "a"; rs "b"] ++ wsym ":" :: [wident (rs "T")]).
Proof.
  eapply (stands_by_reading 4); [apply at_token_parsing|vm_compute; reflexivity..].
Qed.

@@ C30 RunFacts ident_list_is_what_was_read
Conversely, whenever ParseIdentList succeeds the text had exactly these identifiers, commas
between them, and a terminator.
---
Example ident_list_is_what_was_read_example :
  option_map (fun r => (map i_name (fst r), snd r))
    (shown (run (parse_ident_list_by 5 (sym ":")) (at_token 1 "a, b, a: T;"))) =
  Some ([rs "a"; rs "b"; rs "a"], Some (rs ":")).
Proof. vm_compute. reflexivity. Qed.
