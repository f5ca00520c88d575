(** Properties of the parser's basic moves.  Definitions used in the statements are in
    ParseSpec and LexSpec (and the model in Prog, Parser); proofs in RunFacts.  A parser
    method is a value of type [prog]; statements over every [p : prog A] hold of every
    method, those of Parser.v and any other. *)
From Coq Require Import String List NArith Bool Arith Lia.
From Verif Require Import Runes UnicodeFacts Token Tokenizer LexSpec Ast Heap Prog ParseSpec Parser
  ParseExamples RunFacts.
Import ListNotations.

(** The examples use the Latin-1 tables. *)
#[local] Existing Instance latin1 | 100.
#[local] Existing Instance latin1_ok | 100.

(** C36. Whatever a method does, when it returns - with a result or an error - the parser is still at
work on the same text ([parsing]), and both the current token and the tokenizer are at or
after where they were. *)
Theorem parser_moves_forward {U : Unicode} {UOK : UnicodeOk U} :
  forall (A : Type) (p : prog A) text s s',
    parsing text s -> (exists a, run p s = OOk a s') \/ (exists e, run p s = OErr e s') ->
    parsing text s' /\ place s <= place s' /\
    c_index (tk_cur (s_tok s)) <= c_index (tk_cur (s_tok s')).
Proof. exact RunFacts.parser_moves_forward. Qed.
Print Assumptions parser_moves_forward.

(** The parser of the texts below satisfies the hypothesis at every token. *)
Example parser_moves_forward_example :
  parsing (rs "a, b: T;") (at_token 1 "a, b: T;") /\
  place (at_token 1 "a, b: T;") = 0 /\
  exists s', run (parse_ident_list_by 5 (sym ":")) (at_token 1 "a, b: T;") =
               OOk [mkIdent (rs "a") (Some (mkPos 1 1 0, mkPos 1 2 1));
                    mkIdent (rs "b") (Some (mkPos 1 4 3, mkPos 1 5 4))] s' /\ place s' = 4.
Proof. split; [apply at_token_parsing|]. split; [reflexivity|]. eexists. split; vm_compute; reflexivity. Qed.

(** C36. More precisely: the parser ends up where some number of further GetNext calls lead from where
it was (up to line and column numbers, which a rolled-back attempt can change, see C12).  So
no token is read that does not follow, and none is read twice. *)
Theorem parser_reads_on {U : Unicode} {UOK : UnicodeOk U} :
  forall (A : Type) (p : prog A) text s s',
    parsing text s -> (exists a, run p s = OOk a s') \/ (exists e, run p s = OErr e s') ->
    exists k c, later (s_tok s) (s_cur s) k c /\ same_spot k (s_tok s') /\ alike_opt c (s_cur s').
Proof. exact RunFacts.parser_reads_on. Qed.
Print Assumptions parser_reads_on.

Example parser_reads_on_example :
  exists k c, later (s_tok (at_token 1 "a, b: T;")) (s_cur (at_token 1 "a, b: T;")) k c /\
    option_map raw c = Some (rs ":").
Proof.
  do 2 eexists. split; [|shelve].
  do 3 (eapply later_tok; [vm_compute; reflexivity|]). apply later_here.
  Unshelve. vm_compute. reflexivity.
Qed.

(** C36. A parser that was just given its text is at work on it. *)
Theorem parser_starts_well {U : Unicode} {UOK : UnicodeOk U} :
  forall text c post h, parsing text (mkPst (new_tokenizer text false false) None c post h).
Proof. exact RunFacts.parser_starts_well. Qed.
Print Assumptions parser_starts_well.

Example parser_starts_well_example : parsing (rs "begin end.") (opened "begin end.").
Proof. apply parser_starts_well. Qed.

(** C33. RollbackPoint, any sequence [p] of reads and other operations, and the rollback function: the
current token is the one from before, and so is everything read afterwards, whatever its
length: tokens of the same type, text and indexes, and nil or a hang in the same place. *)
Theorem rollback_restores_the_stream {U : Unicode} {UOK : UnicodeOk U} :
  forall (B : Type) (p : prog (option B)) text s s',
    parsing text s -> run (Attempt p) s = OOk None s' ->
    s_cur s' = s_cur s /\
    forall ts k, reads (s_tok s) ts k ->
      exists ts' k', reads (s_tok s') ts' k' /\ Forall2 alike ts ts' /\
        (get_next k = GHang <-> get_next k' = GHang) /\
        ((exists k1, get_next k = GNil k1) <-> (exists k1, get_next k' = GNil k1)).
Proof. exact RunFacts.rollback_restores_the_stream. Qed.
Print Assumptions rollback_restores_the_stream.

(** An attempt that reads three tokens. *)
Example rollback_restores_the_stream_example :
  match run (Attempt (Next ;;; Next ;;; Next ;;; Ret (@None nat))%prog) (at_token 1 "a, b: T;") with
  | OOk None s' =>
      s_cur s' = s_cur (at_token 1 "a, b: T;") /\
      option_map (fun r => map raw (fst r)) (read_n 3 (s_tok s')) = Some [rs ","; rs "b"; rs ":"]
  | _ => False
  end.
Proof. vm_compute. split; reflexivity. Qed.

(** C37. Current and Next, the steps by which every method checks a token (and the form in which the
caller builds the error itself): a token the predicate rejects gives an error with the file
name of the context and the line and column of exactly that token. *)
Theorem rejected_token_is_cited {U : Unicode} {UOK : UnicodeOk U} :
  forall (pred : predicator) s t path,
    pred t = false -> ctx_path (s_heap s) (s_ctx s) = Some path ->
    (s_cur s = Some t ->
     run (expect pred) s = OErr (EAt path (p_line (t_start t)) (p_col (t_start t))) s /\
     run (expect_or_fail pred) s = OErr (EAt path (p_line (t_start t)) (p_col (t_start t))) s) /\
    (forall s', next_token s = OOk (Some t) s' ->
     run (expect_next pred) s = OErr (EAt path (p_line (t_start t)) (p_col (t_start t))) s').
Proof. exact RunFacts.rejected_token_is_cited. Qed.
Print Assumptions rejected_token_is_cited.

Example rejected_token_is_cited_example :
  ctx_path (s_heap (at_token 2 "a
  , b")) (s_ctx (at_token 2 "a
  , b")) = Some (rs "p.dpr") /\
  failed (run (expect (sym ";")) (at_token 2 "a
  , b")) = Some (EAt (rs "p.dpr") 2 3).
Proof. vm_compute. split; reflexivity. Qed.

(** C37. A token the predicate accepts is returned; it stays current. *)
Theorem accepted_token_is_returned {U : Unicode} {UOK : UnicodeOk U} :
  forall (pred : predicator) s t,
    pred t = true ->
    (s_cur s = Some t ->
     run (expect pred) s = OOk t s /\ run (expect_or_fail pred) s = OOk t s) /\
    (forall s', next_token s = OOk (Some t) s' -> run (expect_next pred) s = OOk t s').
Proof. exact RunFacts.accepted_token_is_returned. Qed.
Print Assumptions accepted_token_is_returned.

Example accepted_token_is_returned_example :
  option_map (fun r => raw (fst r)) (shown (run (expect (sym ",")) (at_token 2 "a , b"))) = Some (rs ",").
Proof. vm_compute. reflexivity. Qed.

(** C37. Where the tokenizer gave nil (a rune that starts no token), there is no token to cite. *)
Theorem missing_token_is_an_error {U : Unicode} {UOK : UnicodeOk U} :
  forall (pred : predicator) s,
    (s_cur s = None -> run (expect pred) s = OErr ENil s) /\
    (forall s', next_token s = OOk None s' -> run (expect_next pred) s = OErr ENil s').
Proof. exact RunFacts.missing_token_is_an_error. Qed.
Print Assumptions missing_token_is_an_error.

Example missing_token_is_an_error_example :
  s_cur (at_token 2 "a ? b") = None /\ failed (run (expect (sym ";")) (at_token 2 "a ? b")) = Some ENil.
Proof. vm_compute. split; reflexivity. Qed.

(** C30. Until succeeds exactly when the list can be read as [list_read] says: the element parser once
per element, in order, each separator consumed, the terminator not.  The fuel is the number of
rounds allowed; the Go loop has none. *)
Theorem until_reads_the_list {U : Unicode} {UOK : UnicodeOk U} :
  forall (S : Type) terminator separator (fn : S -> prog (option S)) v s v' s',
    (exists fuel, run (until fuel terminator separator fn v) s = OOk v' s') <->
    list_read terminator separator fn v s v' s'.
Proof. exact RunFacts.until_reads_the_list. Qed.
Print Assumptions until_reads_the_list.

Local Definition numbers (l : list (list rune)) : prog (option (list (list rune))) :=
  (t <- expect (p_type NumeralInt) ;; Next ;;; Ret (Some (l ++ [raw t])))%prog.
Example until_reads_the_list_example :
  shown (run (until 3 (sym ")") (Some (sym ",")) numbers []) (at_token 2 "(10, 20, 30)")) =
  Some ([rs "10"; rs "20"; rs "30"], Some (rs ")")).
Proof. vm_compute. reflexivity. Qed.

(** C30. Until fails exactly when an element fails or the token after an element is neither the
terminator nor the separator. *)
Theorem until_fails_iff {U : Unicode} {UOK : UnicodeOk U} :
  forall (S : Type) terminator separator (fn : S -> prog (option S)) v s e s',
    (exists fuel, run (until fuel terminator separator fn v) s = OErr e s') <->
    list_rejected terminator separator fn v s e s'.
Proof. exact RunFacts.until_fails_iff. Qed.
Print Assumptions until_fails_iff.

Example until_fails_iff_example :
  failed (run (until 3 (sym ")") (Some (sym ",")) numbers []) (at_token 2 "(10, 20; 30)")) =
    Some (EAt (rs "p.dpr") 1 8) /\
  failed (run (until 3 (sym ")") (Some (sym ",")) numbers []) (at_token 2 "(10, x)")) =
    Some (EAt (rs "p.dpr") 1 6).
Proof. vm_compute. split; reflexivity. Qed.

(** C30. More fuel changes nothing once there is enough. *)
Theorem until_fuel_is_a_bound {U : Unicode} {UOK : UnicodeOk U} :
  forall (S : Type) terminator separator (fn : S -> prog (option S)) v s fuel fuel',
    fuel <= fuel' -> run (until fuel terminator separator fn v) s <> OStuck ->
    run (until fuel' terminator separator fn v) s = run (until fuel terminator separator fn v) s.
Proof. exact RunFacts.until_fuel_is_a_bound. Qed.
Print Assumptions until_fuel_is_a_bound.

Example until_fuel_is_a_bound_example :
  run (until 2 (sym ")") (Some (sym ",")) numbers []) (at_token 2 "(10, 20, 30)") = OStuck /\
  run (until 3 (sym ")") (Some (sym ",")) numbers []) (at_token 2 "(10, 20, 30)") <> OStuck.
Proof. split; [vm_compute; reflexivity|]. vm_compute. discriminate. Qed.

(** C30. ParseIdentList on identifiers with commas between them, up to a terminator [T]: exactly these
identifiers, with [T] current, and nothing but the place in the text changed. *)
Theorem ident_list_is_read {U : Unicode} {UOK : UnicodeOk U} :
  forall text s names (terminator : predicator) T ls fuel,
    names <> [] -> length names <= fuel ->
    (forall t, word_of t = T -> terminator t = true) ->
    (forall t, word_of t = wsym "," -> terminator t = false) ->
    stands text s (comma_list names ++ T :: ls) ->
    exists ids s', run (parse_ident_list_by fuel terminator) s = OOk ids s' /\
      map i_name ids = names /\ stands text s' (T :: ls) /\ same_but_place s s'.
Proof. exact RunFacts.ident_list_is_read. Qed.
Print Assumptions ident_list_is_read.

Example ident_list_is_read_example :
  stands (rs "a, b: T;") (at_token 1 "a, b: T;") (comma_list [rs "a"; rs "b"] ++ wsym ":" :: [wident (rs "T")]).
Proof.
  eapply (stands_by_reading 4); [apply at_token_parsing|vm_compute; reflexivity..].
Qed.

(** C30. Conversely, whenever ParseIdentList succeeds the text had exactly these identifiers, commas
between them, and a terminator. *)
Theorem ident_list_is_what_was_read {U : Unicode} {UOK : UnicodeOk U} :
  forall text s (terminator : predicator) fuel ids s',
    parsing text s -> run (parse_ident_list_by fuel terminator) s = OOk ids s' ->
    exists T, ids <> [] /\ s_cur s' = Some T /\ terminator T = true /\
      stands text s (comma_list (map i_name ids) ++ [word_of T]) /\ same_but_place s s'.
Proof. exact RunFacts.ident_list_is_what_was_read. Qed.
Print Assumptions ident_list_is_what_was_read.

Example ident_list_is_what_was_read_example :
  option_map (fun r => (map i_name (fst r), snd r))
    (shown (run (parse_ident_list_by 5 (sym ":")) (at_token 1 "a, b, a: T;"))) =
  Some ([rs "a"; rs "b"; rs "a"], Some (rs ":")).
Proof. vm_compute. reflexivity. Qed.
