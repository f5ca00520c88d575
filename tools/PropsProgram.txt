(** Programs with their units return.  Definitions used in the statements are in TermUnitSpec
    (and TermSpec; the model in Units); proofs in TermUnit, TermHead, TermBody, TermProgram and
    ProgramMain. *)
From Coq Require Import String List NArith Bool Arith Lia Permutation.
From Verif Require Import Runes UnicodeFacts Token Tokenizer LexSpec LexMain Ast Heap Prog ParseSpec Parser CaseSpec
  TermSpec TermUnitSpec ProgramMain RunFacts SimFacts CaseMain TermMain TermStmt SortMain Ext ExtSpec Units UnitSpec ParseExamples.
Import ListNotations.

(** The examples use the Latin-1 tables. *)
#[local] Existing Instance latin1 | 100.
#[local] Existing Instance latin1_ok | 100.
#[local] Existing Instance nobody | 100.

(** A program with two units, the first of which uses the second *)
Definition folder (path : gostring) : option (list rune) :=
  if runes_equal path (rs "p.dpr") then Some (rs "program p; uses a in 'a.pas', b in 'b.pas'; begin x := 1; end.") else
  if runes_equal path (rs "a.pas") then Some (rs "unit a; interface uses b; var x: integer; implementation initialization x := 2 end.") else
  if runes_equal path (rs "b.pas") then Some (rs "unit b; interface var y: string; implementation var z: integer; end.") else None.
Definition main_text := rs "program p; uses a in 'a.pas', b in 'b.pas'; begin x := 1; end.".
Definition same_order (m : string_set) : list gostring := m.
Lemma same_order_iterates : iterates same_order.
Proof. intros m. apply Permutation_refl. Qed.

(** What a text begins with, and that a text has none of some kind of token, by reading it *)
Lemma begins_by_reading n text ws : option_map (fun p => map word_of (fst p)) (read_n n (new_tokenizer text false false)) = Some ws ->
  begins text ws.
Proof. destruct (read_n n _) as [[ts k]|] eqn:E; [|discriminate]. intros [= <-]. exists ts, k. split; [eapply read_n_reads, E|reflexivity]. Qed.
Lemma no_asm_no_type n text : (match read_n n (new_tokenizer text false false) with
  | Some (ts, _) => negb (existsb (fun t => kw "ASM" t || kw "TYPE" t) ts) &&
                    match rev ts with e :: _ => ttype_eqb (t_type e) EOF | [] => false end
  | None => false
  end) = true -> forall m, 2 * length text + 5 <= m -> ~ asm_without_end text /\ ~ has_type_section text /\ 2 * length text + 5 <= m.
Proof.
  destruct (read_n n _) as [[ts k]|] eqn:E; [|discriminate]. intros H m L. apply andb_prop in H as [N H]. apply negb_true_iff in N.
  destruct (rev ts) as [|e r] eqn:Er; [discriminate|]. apply (f_equal (@rev _)) in Er. rewrite rev_involutive in Er. cbn [rev] in Er. subst ts.
  assert (EE : t_type e = EOF) by (destruct (t_type e); try discriminate; reflexivity).
  assert (X : forall t, token_of text t -> kw "ASM" t || kw "TYPE" t = false).
  { intros t T. destruct (kw "ASM" t || kw "TYPE" t) eqn:K; [|reflexivity].
    destruct (tokens_of_the_whole text (rev r) e k t (read_n_reads _ _ _ _ E) EE T) as (u & I & A).
    - unfold keep. apply orb_prop in K. destruct (t_type t) eqn:P; try reflexivity;
        unfold kw, p_keyword in K; rewrite P in K; destruct K; discriminate.
    - rewrite <- (kw_alike "ASM" u t A), <- (kw_alike "TYPE" u t A) in K.
      rewrite (proj2 (existsb_exists _ _)) in N; [discriminate|]. exists u. auto. }
  split; [|split; [|exact L]].
  - intros (k0 & t & k1 & k2 & ts' & e' & k3 & Hh & _ & _ & G & K & _). specialize (X t (ex_intro _ k0 (ex_intro _ k1 (conj Hh G)))).
    rewrite K in X. discriminate.
  - intros (t & T & K). specialize (X t T). rewrite K, orb_true_r in X. discriminate.
Qed.
Lemma main_uses : program_uses main_text [(rs "a", Some (rs "'a.pas'")); (rs "b", Some (rs "'b.pas'"))].
Proof. exists (rs "p"). apply (begins_by_reading 12). vm_compute. reflexivity. Qed.
Lemma no_clash_here : ~ clash folder 47%N main_text.
Proof.
  apply (no_clash _ _ _ _ [rs "a"; rs "b"] main_uses).
  - repeat constructor; eexists; (split; [vm_compute; reflexivity|]); apply (begins_by_reading 2); vm_compute; reflexivity.
  - vm_compute. repeat constructor; cbn; intuition discriminate.
Qed.

@@ C49 ProgramMain program_is_safe
ParseProgram on any files, with any order of iteration over maps and any topological sort that
is one, when no two files that it loads are units of the same name: it panics only if one of the
texts it reads has a rune that starts no token, or if a unit qualifies a name with its own name; it
waits in the tokenizer only if one has a string that is not closed.
---
Example program_is_safe_example :
  iterates same_order /\ toposort_ok some_toposort /\ folder (rs "p.dpr") = Some main_text /\ ~ clash folder 47%N main_text /\
  match parse_program (recs_at 40) folder 47%N same_order some_toposort (rs "p.dpr") with
  | ROk p h => length (h_units h) = 2
  | _ => False
  end.
Proof.
  split; [apply same_order_iterates|]. split; [apply some_toposort_ok|]. split; [reflexivity|].
  split; [apply no_clash_here|]. vm_compute. reflexivity.
Qed.
(** The exceptions are real.  A unit that qualifies a name with its own name, in its own interface: *)
Theorem own_name_panics :
  let files p := if runes_equal p (rs "p.dpr") then Some (rs "program p; uses a in 'a.pas'; begin end.") else
                 if runes_equal p (rs "a.pas") then Some (rs "unit a; interface const x = 1; y = a.x; implementation end.") else None in
  parse_program (recs_at 60) files 47%N same_order some_toposort (rs "p.dpr") = RPanic.
Proof. vm_compute. reflexivity. Qed.
Print Assumptions own_name_panics.
(** Two files that are units of the same name: *)
Theorem clash_panics :
  let files p := if runes_equal p (rs "p.dpr") then Some (rs "program p; uses a in 'a.pas', b in 'b.pas'; begin x := 1 end.") else
                 if runes_equal p (rs "a.pas") then Some (rs "unit a; interface var y: integer; implementation end.") else
                 if runes_equal p (rs "b.pas") then Some (rs "unit a; interface var z: integer; implementation end.") else None in
  parse_program (recs_at 60) files 47%N same_order some_toposort (rs "p.dpr") = RPanic.
Proof. vm_compute. reflexivity. Qed.
Print Assumptions clash_panics.

@@ C49 ProgramMain program_returns
If furthermore no text has an ASM without END or the word TYPE, then the call returns.  [n] bounds
the depth of recursion: twice the length of the longest text is enough.
---
Example program_returns_example :
  (forall text, program_text folder 47%N main_text text ->
     ~ asm_without_end text /\ ~ has_type_section text /\ 2 * length text + 5 <= 200) /\
  match parse_program (recs_at 200) folder 47%N same_order some_toposort (rs "p.dpr") with
  | ROk _ _ => True
  | _ => False
  end.
Proof.
  split; [|vm_compute; exact I]. intros text T. destruct (program_texts _ _ _ _ _ main_uses T) as [->|(p & I & E)].
  - apply (no_asm_no_type 24); [vm_compute; reflexivity|vm_compute; lia].
  - cbn in I. destruct I as [<-|[<-|[]]]; vm_compute in E; injection E as <-; (apply (no_asm_no_type 24); [vm_compute; reflexivity|vm_compute; lia]).
Qed.

@@ C58 ProgramMain program_errors_are_in_its_files
When ParseProgram fails with an error that has a position, the error names the file of the program or a file
that its uses clause names, and the line and column where a token of the text of that same file starts.
---
Definition broken (path : gostring) : option (list rune) :=
  if runes_equal path (rs "b.pas") then Some (rs "unit b; interface
  var y string; implementation end.") else folder path.
Lemma broken_main : ~ clash broken 47%N main_text.
Proof.
  apply (no_clash _ _ _ _ [rs "a"; rs "b"] main_uses).
  - repeat constructor; eexists; (split; [vm_compute; reflexivity|]); apply (begins_by_reading 2); vm_compute; reflexivity.
  - vm_compute. repeat constructor; cbn; intuition discriminate.
Qed.
Example program_errors_are_in_its_files_example :
  broken (rs "p.dpr") = Some main_text /\ ~ clash broken 47%N main_text /\
  match parse_program (recs_at 40) broken 47%N same_order some_toposort (rs "p.dpr") with
  | RErr e _ => e = EAt (rs "b.pas") 2 9 /\ error_in_files broken 47%N main_text (rs "p.dpr") e
  | _ => False
  end.
Proof.
  split; [reflexivity|]. split; [apply broken_main|].
  destruct (parse_program (recs_at 40) broken 47%N same_order some_toposort (rs "p.dpr")) as [| e h| | |] eqn:E;
    try (vm_compute in E; discriminate E).
  split; [|eapply program_errors_are_in_its_files; [apply same_order_iterates|apply some_toposort_ok|reflexivity|apply broken_main|exact E]].
  vm_compute in E. injection E as <- _. reflexivity.
Qed.

(** A name declared twice is reported without its file: the mistake is in one unit or in the other, and the error
    is the same. *)
Definition twice_in (first : bool) (path : gostring) : option (list rune) :=
  if runes_equal path (rs "p.dpr") then Some main_text else
  if runes_equal path (rs "a.pas") then Some (rs (if first then "unit a; interface var x, x: integer; implementation end."
                                                  else "unit a; interface var x, y: integer; implementation end.")) else
  if runes_equal path (rs "b.pas") then Some (rs (if first then "unit b; interface var x, y: integer; implementation end."
                                                  else "unit b; interface var x, x: integer; implementation end.")) else None.
Theorem duplicates_name_their_file_refuted :
  exists i h1 h2,
  parse_program (recs_at 60) (twice_in true) 47%N same_order some_toposort (rs "p.dpr") = RErr (EDup i) h1 /\
  parse_program (recs_at 60) (twice_in false) 47%N same_order some_toposort (rs "p.dpr") = RErr (EDup i) h2.
Proof. do 3 eexists. split; vm_compute; reflexivity. Qed.
Print Assumptions duplicates_name_their_file_refuted.

@@ C59 ProgramMain files_are_units_of_the_names_used
When ParseProgram succeeds, every file that the uses clause of the program names with IN exists, and its text begins
with UNIT and a name that is, but for the case of letters, the name of an item of that clause.
---
Example files_are_units_of_the_names_used_example :
  folder (rs "p.dpr") = Some main_text /\ ~ clash folder 47%N main_text /\
  program_uses main_text [(rs "a", Some (rs "'a.pas'")); (rs "b", Some (rs "'b.pas'"))] /\
  unit_files 47%N [(rs "a", Some (rs "'a.pas'")); (rs "b", Some (rs "'b.pas'"))] = [rs "a.pas"; rs "b.pas"] /\
  match parse_program (recs_at 40) folder 47%N same_order some_toposort (rs "p.dpr") with ROk _ _ => True | _ => False end.
Proof.
  split; [reflexivity|]. split; [apply no_clash_here|]. split; [apply main_uses|]. split; vm_compute; auto.
Qed.
(** A file that has the name of no item is refused. *)
Definition misnamed (path : gostring) : option (list rune) :=
  if runes_equal path (rs "b.pas") then Some (rs "unit c; interface var y: string; implementation end.") else folder path.
Example misnamed_is_refused :
  match parse_program (recs_at 40) misnamed 47%N same_order some_toposort (rs "p.dpr") with RErr _ _ => True | _ => False end.
Proof. vm_compute. exact I. Qed.

@@ C49 ProgramMain program_has_one_end
Its end is the same at every larger depth, so it is that of the parser without a bound.
---
Example program_has_one_end_example :
  parse_program (recs_at 200) folder 47%N same_order some_toposort (rs "p.dpr") =
  parse_program (recs_at 30) folder 47%N same_order some_toposort (rs "p.dpr").
Proof. vm_compute. reflexivity. Qed.

@@ C49 ProgramMain program_uses_once
The uses clause by which the statements above find the files is determined by the text.
---
Example program_uses_once_example :
  program_uses main_text [(rs "a", Some (rs "'a.pas'")); (rs "b", Some (rs "'b.pas'"))] /\
  unit_files 47%N [(rs "a", Some (rs "'x\a.pas'")); (rs "SysUtils", None)] = [rs "x/a.pas"].
Proof. split; [apply main_uses|vm_compute; reflexivity]. Qed.

@@ C49,C58 ProgramMain lone_unit_is_safe
ParseUnit in the context of a unit of a new program, of any text: it panics only on a rune that starts no token and
waits only for the end of a string.  An error that has a position is in this file, where a token of the text starts.
---
Example lone_unit_is_safe_example :
  let '(h, c) := lone_unit_context (rs "p.dpr") (rs "u.pas") in
  match parse_text (parse_unit (recs_at 60) c) (rs "unit u; interface type t = record a: integer end; implementation uses b; initialization x := 1 end.") c h with
  | OOk _ s' => length (h_units (s_heap s')) = 1
  | _ => False
  end.
Proof. vm_compute. reflexivity. Qed.

@@ C49 ProgramMain lone_unit_returns
It returns if the text has no ASM without END and no type section.
---
Example lone_unit_returns_example :
  let '(h, c) := lone_unit_context (rs "p.dpr") (rs "u.pas") in
  let text := rs "unit u; interface uses a; const b = 1; implementation procedure f; begin g(b) end; end." in
  match parse_text (parse_unit (recs_at (2 * length text + 5)) c) text c h with
  | OOk _ s' => length (h_units (s_heap s')) = 1
  | _ => False
  end.
Proof. vm_compute. reflexivity. Qed.
