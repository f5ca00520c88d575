(** Properties of units and uses clauses.  Definitions used in the statements are in UnitSpec,
    ParseSpec, MapSpec and LexSpec (and the model in Prog, Parser, Units); proofs in SortMain
    and UsesMain. *)
From Coq Require Import String List NArith Bool Arith Lia Permutation Relation_Operators.
From Verif Require Import Runes UnicodeFacts Token Tokenizer LexSpec Ext ExtSpec Ast Heap MapSpec Prog ParseSpec
  Parser RunFacts ExprSpec ParseExamples Units UnitSpec SortMain UsesMain.
Import ListNotations.

(** The examples use the Latin-1 tables. *)
#[local] Existing Instance latin1 | 100.
#[local] Existing Instance latin1_ok | 100.

(** Units with their names and uses clauses. *)
Definition its_name (u : string * list string) : gostring := rs (fst u).
Definition its_uses (u : string * list string) : list gostring := map rs (snd u).
Definition same_order (m : string_set) : list gostring := m.
Lemma same_order_iterates : iterates same_order.
Proof. intros m. apply Permutation_refl. Qed.

@@ C23 SortMain units_are_sorted
Units with distinct names, whose uses clauses have no name twice (uses_clause_names_are_new).
[order] is the order in which Go walks over a map; [topo] is the sorting library.  Without a
cycle in the uses clauses UnitParsers.Sort returns all of them, each behind those it uses;
with a cycle it returns an error.  The uses clauses may name units that are not loaded.
---
Example units_are_sorted_example :
  let units := [("Main", ["B"; "SysUtils"]); ("a", []); ("b", ["A"])]%string in
  let rings := [("Main", ["B"]); ("a", ["MAIN"]); ("b", ["A"])]%string in
  distinct_names (map its_name units) /\ Forall (fun u => distinct_names (its_uses u)) units /\
  sort_units its_name its_uses same_order some_toposort units = Some [("a", []); ("b", ["A"]); ("Main", ["B"; "SysUtils"])]%string /\
  sort_units its_name its_uses same_order some_toposort rings = None.
Proof.
  split; [|split; [|split; vm_compute; reflexivity]].
  - unfold distinct_names. vm_compute. repeat constructor; cbn; intuition discriminate.
  - unfold distinct_names. repeat constructor; vm_compute; intuition discriminate.
Qed.

(** The hypotheses about [order] and [topo] can be met. *)
Example sorting_is_possible : iterates same_order /\ toposort_ok some_toposort.
Proof. split; [apply same_order_iterates|apply some_toposort_ok]. Qed.

(** The names must be distinct: of two units of one name the first is not in the result. *)
Theorem units_of_one_name_refuted {U : Unicode} {UOK : UnicodeOk U} :
  exists (uses : nat -> list gostring) (name : nat -> gostring),
    forall order topo, iterates order -> toposort_ok topo ->
    exists r, sort_units name uses order topo [0; 1] = Some r /\ ~ In 0 r.
Proof. exact SortMain.units_of_one_name_refuted. Qed.
Print Assumptions units_of_one_name_refuted.

@@ C38 UsesMain uses_clause_round_trip
The parser stands on a uses clause with the items [l], whose names are distinct up to case and
not declared in this scope.  Then ParseUsesClause returns objects that say [l], in this order.
The semicolon is current, and each name is declared to be its item.  Other names are as before.
---
Definition uses1 : string := "USES SysUtils, Foo IN 'lib\Foo.pas', Bar; begin end.".
Definition items1 : uses_source := [(rs "SysUtils", None); (rs "Foo", Some (rs "'lib\Foo.pas'")); (rs "Bar", None)].
Example uses_clause_round_trip_example :
  let s := at_token 1 uses1 in
  parser_context s /\ items1 <> [] /\ distinct_names (map fst items1) /\
  Forall (undeclared (s_heap s) (s_ctx s)) (map fst items1) /\
  stands (rs uses1) s (write_uses items1 ++ [wkey "BEGIN"]) /\
  match run (parse_uses_clause (recs_at 2)) s with
  | OOk us s' =>
      map (fun a => option_map (effective_path 47%N) (nth_error (h_uses (s_heap s')) a)) us =
      [Some []; Some (rs "lib/Foo.pas"); Some []]
  | _ => False
  end.
Proof.
  split; [|split; [discriminate|split; [|split; [|split]]]].
  - eexists. split; [vm_compute; reflexivity|]. intros p. discriminate.
  - unfold distinct_names. vm_compute. repeat constructor; cbn; intuition discriminate.
  - repeat constructor; eexists _, _, _; (split; [vm_compute; reflexivity|]); repeat split; vm_compute; reflexivity.
  - eapply (stands_by_reading 9); [apply at_token_parsing|vm_compute; reflexivity..].
  - vm_compute. reflexivity.
Qed.

@@ C38 UsesMain uses_clause_names_are_new
A name twice, in any letter case, or already declared in this scope: the clause is rejected.
---
Definition uses2 : string := "uses A, B in 'b.pas', a;".
Definition items2 : uses_source := [(rs "A", None); (rs "B", Some (rs "'b.pas'")); (rs "a", None)].
Example uses_clause_names_are_new_example :
  let s := at_token 1 uses2 in
  parser_context s /\ Forall (undeclared (s_heap s) (s_ctx s)) (map fst items2) /\
  stands (rs uses2) s (write_uses items2 ++ [weof]) /\ ~ distinct_names (map fst items2) /\
  match run (parse_uses_clause (recs_at 2)) s with
  | OErr (EDup i) _ => i_name i = rs "a"
  | _ => False
  end.
Proof.
  split; [|split; [|split; [|split]]].
  - eexists. split; [vm_compute; reflexivity|]. intros p. discriminate.
  - repeat constructor; eexists _, _, _; (split; [vm_compute; reflexivity|]); repeat split; vm_compute; reflexivity.
  - eapply (stands_by_reading 9); [apply at_token_parsing|vm_compute; reflexivity..].
  - unfold distinct_names. intros D. vm_compute in D. inversion D as [|? ? N _]. apply N. cbn. auto.
  - vm_compute. reflexivity.
Qed.

@@ C38 UsesMain uses_clause_is_what_was_read
Conversely, whatever ParseUsesClause accepts is a uses clause, and its result says so.
---
Example uses_clause_is_what_was_read_example :
  parsing (rs uses1) (at_token 1 uses1) /\
  match run (parse_uses_clause (recs_at 2)) (at_token 1 uses1) with
  | OOk us s' =>
      map (fun a => option_map (fun o => (i_name (u_ident o), u_path o)) (nth_error (h_uses (s_heap s')) a)) us =
      map Some items1
  | _ => False
  end.
Proof. split; [apply at_token_parsing|]. vm_compute. reflexivity. Qed.

@@ C38 UsesMain effective_path_of_quoted
The path of an item, which is a string literal, is some text between two quotes.
UnquotedPath is that text, and EffectivePath the same with [sep] for each backslash.
---
Example effective_path_of_quoted_example :
  let o := mkUses (mkIdent (rs "Foo") None) (Some (rs "'..\lib\Foo.pas'")) None in
  lexeme CharacterString (rs "'..\lib\Foo.pas'") /\
  unquoted_path o = rs "..\lib\Foo.pas" /\ effective_path 47%N o = rs "../lib/Foo.pas".
Proof.
  split; [|split; reflexivity].
  match goal with |- lexeme _ ?x => let y := eval vm_compute in x in change x with y end.
  apply (lx_string [46; 46; 92; 108; 105; 98; 92; 70; 111; 111; 46; 112; 97; 115]%N).
  split; [|discriminate]. intros b1 b2 E. exfalso.
  assert (I : In 39%N (b1 ++ 39%N :: b2)) by (apply in_or_app; cbn; auto). rewrite <- E in I. cbn in I. intuition discriminate.
Qed.
