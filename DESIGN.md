# Formal model of akm/tparser in Rocq (Coq 8.16.1)

What is modelled, how each property of `properties.jsonl` is stated and proved, what is
trusted, and what the proofs found out about the code.

## Layout (rocq/theories)

Model files (definitions only, each with the file and lines of `/repo` it transcribes):

| file | code |
|------|------|
| `Runes.v` | `runes/`: runes, cursor, positions; Go's `unicode` tables as a record of functions |
| `Token.v` | `token/`: token types, reserved words, directives, predicates |
| `Tokenizer.v` | `token/`: the processors and `GetNext`, `Clone` |
| `Ext.v` | `ext/`, `log/base.go`: string lists, string sets, the logger |
| `Ast.v` | `ast/*.go`: the struct types |
| `Heap.v` | `ast/astcore/decl_map.go`, `parser/pcontext/`, built-in types: declaration maps and contexts as objects with addresses, so that aliasing is visible |
| `Classes.v` | `ast/type_class.go`, `ast/type_id.go`: member lookup, computed properties, classification of types |
| `Walk.v`, `Nodes.v` | `WalkDown` and the `Children` methods of the syntax trees |
| `Prog.v` | `parser/base.go`: the primitive steps of a parser (`Next`, `Rollback`, `Set`, ...) and how they run |
| `Parser.v` | `parser/*.go` on expressions, types, classes, functions, statements, blocks, method by method |
| `Units.v` | `parser/unit_parser.go`, `unit_parsers.go`, `uses_clause.go`, `program.go` |

Specification files (what the properties mean, written without the model's helpers):
`LexSpec`, `ExtSpec`, `MapSpec`, `ClassSpec`, `WalkSpec`, `ParseSpec`, `ExprSpec`, `StmtSpec`,
`UnitSpec`, `CaseSpec`, `TermSpec`, `TermUnitSpec`, `NodeSpec`, `DeclSpec`, `UnitTextSpec`,
`ProgramTextSpec`, `RefSpec`, `IdSpec`, `FormSpec`, `OfferSpec`, `SameSpec`.

Proof files: `*Facts`, `*Main`, `Lex*`, `Expr*`, `Stmt*`, `Sim*`, `Term*`, `FuelFacts`,
`ProgramMain`, `Evolve*`, `ScopeFacts`, `DeclFacts`, `TypeFacts`, `TypeClassFacts`,
`TypePropFacts`, `SteadyFacts`, `SectionFacts`,
`UnitTextFacts`, `UnitBodyFacts`, `ProgramTextFacts`, `ProgramLinkFacts`, `ProgramPassFacts`,
`ProgramUnitFacts`, `ProgramNameFacts`, `Ref*`, `Id*`, `Form*`, `WalkId*`, `Offer*`. Concrete texts for the
examples: `LexExamples`, `ParseExamples`, `DeclExamples`.

Property files, one theorem after another, each closed by `exact`, with `Print Assumptions` and
an `Example` of a non-trivial case: `PropsLex`, `PropsExt`, `PropsMap`, `PropsClass`,
`PropsWalk`, `PropsParse`, `PropsExpr`, `PropsStmt`, `PropsNodes`, `PropsUnit`,
`PropsCase`, `PropsTerm`, `PropsDecl`, `PropsProgram`, `PropsUnitText`, `PropsProgramText`, `PropsRef`,
`PropsId`, `PropsForm`, `PropsWalkId`, `PropsOffer`, `PropsSame`,
`PropsFile`.
They are generated by `tools/mkprops.py` from `tools/Props*.txt`, so that the statement printed
there is the statement proved.

## How the code is modelled

* **Text and tokens.** A text is a list of runes (numbers). The tokenizer's state is the text, the
  position (index, line, column) and the flag `wasLF`. A loop of the tokenizer runs over a fuel
  of the length of the text; a theorem says when that is enough, and where it is not the Go loop
  is endless.
* **Parser methods** are values of an inductive type `prog` (read a token, look at the current
  one, roll back, declare, look a name up, allocate, fail, panic, sequence). `run` executes one on
  a state (tokenizer, current token, context, actions of `RunPost`, heap) and ends in `OOk`,
  `OErr`, `OPanic`, `OHang` (the tokenizer does not return) or `OStuck` (the bound on the depth
  of recursion, or of a loop, was reached). Theorems about results hold at every depth;
  `depth_does_not_matter` shows that a run that is not cut off is the same at every larger depth,
  and `parsing_returns` gives a depth, linear in the length of the text, at which nothing is cut off.
* **Mutable objects.** Declaration maps, contexts, the `Ref` of a type identifier, the `Actual` of
  a forward-declared class, uses-clause items, units and programs have addresses in a heap.
  Everything else is a value, since the code never changes it after building it.
* **Oracles** (universally quantified parameters, never axioms): Go's `unicode` functions
  (`Unicode`, with the ASCII facts `UnicodeOk` and an instance `latin1`), the file system
  (`files`), the path separator, the order in which Go walks over a map (`order`), and the
  topological sort of github.com/philopon/go-toposort (`topo`). The last has a contract
  (`toposort_ok`): a permutation of the nodes with all edges forward, or a cycle. C53 asks less of
  it (`lists_once`). An instance of both is given in `PropsUnit` and `PropsId`.

## Not modelled

* The words of error messages (their kind, file, line and column are), `String` methods, log
  output, `asttest/`, `parsertest/`, `testlog/`.
* Decoding of files (Shift-JIS, UTF-8) and the file system beyond "this path has this text".
* `ast/type_interface.go` and `CustomObjectType`: the parser never makes them.
* Fields the parser never sets: `PortabilityDirective` but on type declarations and units,
  `ExportsStmts2`, `ClassMethod.ClassMethod`, `InheritedStatement.Ref`.
* Constructors with `interface{}` arguments (`NewDesignator(arg)` etc.) other than the uses the
  parser makes of them.
* Concurrency: the code has none. Memory limits and stack overflow: recursion in Go is taken as
  unbounded.
* Integer overflow of positions and the conversion of numerals to `int` (`strconv.Atoi` may fail
  in the model on every numeral it fails on in Go; which those are is not modelled).

## Trusted base

* Coq's kernel; the statements in `Props*.v` and the definitions they mention (model and
  specification files above).
* `Print Assumptions` under each theorem says "Closed under the global context": no theorem uses
  an axiom. `coqchk` on the whole development also lists seven axioms of the standard library's
  `Coq.ssr.ssrunder` (a sealed module type), which are loaded with `Lia`; no theorem depends on
  them. None is added here, no kernel check is switched off, nothing is `Admitted`.
* That the transcription follows the Go sources. Every definition cites its lines; the
  mutation log (`seeded/LOG.jsonl`) says which theorems notice which wrong edits.
* Hypotheses on Go's Unicode tables: `UnicodeOk` (letters, blanks and case conversion on ASCII;
  no letter is a blank). Theorems on class members also assume that lower-casing twice is
  lower-casing once. All hold of Go's tables.

## The properties

All are proved unless said otherwise; names of the theorems are in `MANIFEST.json`.
"Refuted" means that the natural wording is false of the code: a theorem `..._refuted` exhibits
a witness, and the property is stated with the exact exception.

* **C01-C15 tokenizer** (`PropsLex`). Every processor is related to a function on the rest of the
  text (`LexList`), from which tiling, maximality, shapes, first terminators, filters and round
  trips follow by induction on the text or the list of lexemes. C02 and C12 have exact exceptions
  (texts beginning with a line feed; clones made on a line feed).
* **C16, C25, C40-C42 helpers** (`PropsExt`, `PropsMap`): induction on lists and histories.
* **C17-C22, C24 declaration maps and contexts** (`PropsMap`): refinement to a log of bindings;
  scopes as nested blocks; exceptions for `Set` of a node with several names, `Overwrite` with
  nil, contexts replaced by a rollback.
* **C23, C38 units** (`PropsUnit`): the order of units against the contract of the sort; the uses
  clause in both directions. Units with one name are refuted.
* **C26, C45 walking** (`PropsWalk`, `PropsNodes`, `PropsWalkId`): places in a tree, parents first; the
  children of the syntax trees; a walk that collects identifiers against the lists of `IdSpec`, by
  induction over all trees.
* **C27-C29 classes and types** (`PropsClass`): inheritance chains as an inductive relation;
  cyclic hierarchies and aliases do not return.
* **C30, C33, C36, C37 parser primitives** (`PropsParse`): for every program over the primitives.
* **C31, C39 expressions** (`PropsExpr`) and **C32 statements** (`PropsStmt`): a relation between trees and
  source forms; reading back (a weakest-precondition calculus for runs), soundness (what is
  accepted was written), unambiguity.
* **C35 letter case and layout** (`PropsCase`): a simulation between two runs, through all 108 methods
  and the heap.
* **C34, C43, C44 termination, safety, errors** (`PropsTerm`): one invariant through all methods gives
  that nothing panics unless the text has a rune that starts no token, that calls return within a depth
  linear in the text, and which token an error cites. Blocks are covered for return on texts without a
  TYPE section: `type A = A;` makes the question whether A is ordinal endless.
* **C46-C48 types, declarations, programs** (`PropsDecl`): source forms of types, sections, functions,
  blocks and programs, and scopes that say what each name stands for at each place (`DeclSpec`). A
  state of the parser is related to a scope (at least what the scope says is known); each method has
  a rule that takes it from one scope to the next. Classes are included (ancestors, sections, fields,
  methods, properties; a class with properties has no ancestor that is known, and its accessors are
  declared before them in the class). What has no source form is said in `good_ty` and listed in the
  findings (13, 46-53, 57).
* **C49 programs with their units return** (`PropsProgram`): the invariant of C34 with one exemption, for
  units whose declarations are not known yet (nil `DeclMap`), carried through the three passes over the
  units. The files are determined by the uses clause of the program's text (`TermUnitSpec`).
* **C50 the text of a unit** (`PropsUnitText`): the rules of C46-C48, together with what a unit in the
  heap says (`UnitTextSpec`). The unit is changed while contexts and maps grow; a relation between
  heaps (`moved`) says what of it and of its declaration map stays.
* **C51 the texts of a program and its units** (`PropsProgramText`): the three passes over the
  units (heads; interface sections in the order of the topological sort; implementation sections)
  keep, for each unit, what has been read of it and a scope in its context. A *frame* says which
  maps, contexts and units a step may touch, so that what is known of the others stays. What a
  using unit or the program sees of a unit is the declaration map of its interface, which C50
  describes; `import`, `beside` and `qualified` say what that means for names.
* **C52 references** (`PropsRef`): `RefSpec` lists the mentions of a tree, i.e. the names written in
  it with the references they carry. Invariant: a ghost list has the name of every cell of delayed
  type references; every set cell, every entry of every declaration map and every mention in a unit
  or program leads to a declaration of a name that is alike. One judgement `tied G p f` (if the
  mentions in `G` are right, so are those of the result) with a lemma for each method.
* **C53 places of identifiers** (`PropsId`): `IdSpec` lists the identifiers of a tree in the order of
  the source. One judgement `spelled G P ot F p f` with a lemma for each method: started behind the
  elements `G` (or, where the predicate `P` allows it, with the last of them still the current token),
  `p` ends behind `f` of its result. `IdUnits` carries this through the passes over units, whose parsers
  wait in between: a frame says that a step on one unit leaves the trees of the others alone. Of the
  topological sort only `lists_once` is asked: no name twice.
* **C54 forms** (`PropsForm`): the converse of the round trips (C31, C32, C46-C51), without their restrictions.
  `FormSpec` gives every node of `Ast` a form, a relation between the node and the words accepted for it,
  and `went_over`, which defines the words the parser has left behind by runs of the tokenizer alone. One
  judgement `takes pre c p F` with a lemma for each method: whatever state `p` starts in, the words between
  its start and its end satisfy `F` of its result. Rollbacks come back to an earlier place of the same run
  (`same_spot`). `FormUnits` and `FormMain` carry it through the passes over units, with the frames of C53.
  Words that a method leaves to its caller (`END` of a record, a type name behind a unit) are not in the
  form of its node; FormSpec says where. `words_gone_over_are_the_lexemes` ties the words to the lexemes of
  `LexSpec`.
* **C55 what units offer** (`PropsOffer`): `OfferSpec` has the interface section of a unit as a list of
  declarations and the first one of a name in it. A map object is frozen when no context writes to it; one
  judgement `lets p` with a lemma for each method: whatever state `p` starts in, frozen maps stay as they
  are, declarations stay where they are, and so do the map and the interface section of every unit. The
  map of a unit is new when it is filled, so it is frozen from then on. The exchange of the unit's map
  during its implementation section is undone at the end of it (`settled_impl`). That no unit of a program
  is left out (`OfferAll`): an accepted uses clause names no unit twice, so the conditions of
  `units_are_sorted` (C23) hold of the units as loaded, and every one of them is among the sorted.
* **C56 the order of maps** (`PropsSame`): ParseProgram depends on the order in which Go walks over a map,
  and on the library's sort, in one place only, the sorting of the units. `SameSpec` says when the uses
  clauses of the interface sections leave no choice, read off the final heap. Two orders of the same units
  that both respect a relation that compares any two of them are equal (`one_order`); the uses clauses and
  names at the end are those at the sorting (`intf_pass_keeps`, `heads_kept`, `load_tail`), and non-circularity
  comes from the run that succeeded. Outside of that case the reported error depends on the order (finding
  61); whether two successful runs then differ in more than the numbering of declarations is not stated.
* **C57 the files read** (`PropsFile`): the file system is a parameter of the model, a function from paths to
  texts. The paths of the units are known when the uses clause of the program has been read, so they depend
  on the text of the program alone (`unit_paths`); runs on file systems that agree there are equal, whatever
  their outcome. That the list is not larger than it need be: when parsing succeeds, every path in it is the
  path of a unit at the end (`load_paths`, `pass_keeps_paths`), and the other way round. `head_uses` and
  `program_uses_once` (C49) tie the list to the uses clause as `TermUnitSpec` reads it off the text.
* **C58 errors of programs** (`PropsProgram`): the judgement `does` of C49 also says where an error is
  (`error_at`); through the passes over the units each error keeps the path of the file whose parser met
  it, with the text of that file.
* **C59 units by name** (`PropsProgram`): what is read of each file when its head is parsed (`C49`) gives its name;
  the last pass of LoadUnits finds an item for each of the sorted units (`name_all`), and the sort loses none, so
  the claim goes back from the sorted units to the files (`called_back`).

## Findings

Places where the code does something its user would not expect, each met while stating or proving a
property. Those marked with a theorem are proved of the model.

1. A string that is not closed makes the tokenizer loop for ever; so does `'\'`, hence a quoted path
   that ends in a backslash (`getnext_hangs_iff`, `open_string_loops_for_ever`).
2. `asm` without `end` is an endless loop (`asm_text_never_returns`); `asm end` skips its first token.
3. A leading line feed is not counted, and `Clone` loses `wasLF` (`token_positions_refuted`,
   `clone_lines_refuted`).
4. A NUL rune acts as the end of the text (`eof_iff_end_or_nul`).
5. A rune that starts no token gives a nil token, and calling `Is` on it panics (`getnext_nil_iff`).
6. `a-1` is read as `a` and `-1`.
7. `(*)` is a whole comment (`comment_ends_at_first_terminator`).
8. A rollback replaces the parser's context by a clone while restore functions act on the original, so
   scopes leak (`scope_leaks_after_rollback_refuted`).
9. A function's name is declared inside its own scope and is not visible outside.
10. `ParseUnitIdent` without `;` returns nil and no error.
11. A second `exports` overwrites the first.
12. `external 'x' index 1` is always rejected: the index is checked to be a string.
13. `NODEFAULT` is not consumed; `IMPLEMENTS` does not advance.
14. `[]`, `foo()` and `()` are rejected.
15. `Set` of a node with several names may bind some and then fail (`set_atomic_refuted`).
16. `ParseStringOfStringType` returns nil without error on other reserved words, so `var x: begin` has a
    nil type.
17. Cyclic inheritance makes member lookup endless (`cyclic_lookup_never_returns`), and the parser can
    build it (`type A = class(A) end;`).
18. `AS` is neither a relational nor a multiplying operator.
19. `parseTypeIdWithUnit` sets no reference and does not advance.
20. `ParseTypeDecl` skips one token if the current one is not `;`.
21. `ParseUnitIntfBody` ignores errors of `Set`.
22. Two units of one name: one is lost (`units_of_one_name_refuted`).
23. `ı` and `ſ` become ASCII letters in upper case, so `ıf` is a reserved word.
24. `Unit1.X` inside Unit1's own interface section panics (`own_name_panics`).
25. `type A = A;` then `set of A` is an endless recursion (`circular_alias_never_answers`).
26. `GetParentClass` ignores the actual class of a forward-declared parent.
27. A property does not see earlier properties of its own section.
28. `Overwrite(name, nil)` followed by `Set` of the name panics (`set_after_overwrite_nil_refuted`).
29. Enumeration elements of a unit's interface are not visible to its users.
30. Set types count as ordinal (`sets_and_files_answer_as_their_base`).
31. A deferred trace turns an error at a nil token into a panic.
32. The built-in table is keyed in upper case, user maps in lower case; they differ at U+0130
    (`get_ignores_case_refuted`).
33. The clone of a stackable context loses parent and built-ins (`clone_of_stackable_refuted`).
34. `Set` of a duplicate whose identifier has no location panics.
35. `FindProperty` ignores visibility; a computed property has the identifier of the root ancestor.
36. `var r: record ... end;`: `END` is not consumed, and the section breaks off there.
37. An empty `begin end` is rejected.
38. `@TRUE` is the address of a designator named TRUE.
39. Doubled quotes end a string; a backslash escapes instead.
40. The variable of an exception handler stays declared in the enclosing scope, so a second handler
    with that name is rejected.
41. A bare `raise` is accepted only before `;`.
42. `inherited Name(args)` is rejected.
43. After a rollback in a unit's interface section the parser's context is a clone, and what
    `ProcessImplAndInit` puts in the unit's map does not reach it.
44. A function with the directive FORWARD or EXTERNAL is still followed by a block, so
    `procedure A; external 'x'; begin ... end.` takes the program's body for A's.
45. `VariantSection.Children` yields the type before the identifier; `VarDeclAbsoluteIdent` has no
    children though it has an identifier.
46. `var x: Unit1.T;` is rejected: `parseTypeIdWithUnit` does not advance (in a type declaration
    finding 20 makes up for it).
47. A type whose name is visible anywhere (outer scope, used unit, built-in) cannot be declared.
48. A portability directive is read only behind types that do not consume their last word (records,
    class references); behind others it is skipped and lost.
49. A record type inside a record ends the outer one: `END` is not consumed.
50. A subrange may begin only with a literal or a single name: `-1..1`, `(a)..b`, `a+1..b` are
    rejected. Before `=` (`const c: 1..3 = 2`) the `=` is read as part of the high bound.
51. A variant part inside the parentheses of a variant, and `case 1..3 of` without a tag, are
    rejected.
52. A parameter with a default value but without a type (`x = 5`) is rejected.
53. Behind a function with a parameter of a user-defined type the parameter scope may stay
    (finding 8): names declared there are known, or taken, outside.
54. Two files that are units of one name, or one file named twice in the uses clause of the program:
    only one of the two units is processed, the other keeps a nil declaration map, and looking up a
    name that is not declared then panics (`clash_panics`).
55. `BEGIN ... END.` as the initialization part of a unit, which the grammar in `ast/unit.go` lists, is
    rejected.
56. In an interface section with two declarations of one name, the later names of the group are lost:
    behind `procedure b;`, `var b, a: T;` enters neither name in the unit's declaration map, and the error is
    dropped (`parser/unit_parser.go:161-167`; hence C50 asks for different names;
    `interface_names_lost_refuted`).
57. A class whose first section has no visibility word must begin with a field: `class procedure P; end`
    is rejected (`parser/type_class.go:107-109`). A class as the type of a field ends the outer one, as in 49.
58. Since a type name behind a unit name is not consumed (19), it is read again: `property P: V.Implements;`
    gets `Implements` as its type and as what it implements, from one word (`an_identifier_read_twice`), and
    `property P: V.Public` ends the section of the class.
59. A variant part inside the parentheses of a variant (51) is accepted if `END` stands in place of the
    closing parenthesis: `record case a: Byte of 0: (case b: Byte of 1: (c: Char) end end`.
60. The semicolon behind the name of a unit may be missing (`a_unit_without_semicolon`), and so may those
    between the methods of a class, and between a routine and the next.
61. If two units that do not use each other have a mistake in their interface sections, which of the two is
    reported depends on the order in which Go walks over a map, so it may change from run to run
    (`error_depends_on_order_of_maps_refuted`).
62. The error for a name that is declared twice has the line and column of both places but, unlike all
    others, not the file, so in a program with several units one cannot tell where it is
    (`duplicates_name_their_file_refuted`; ast/astcore/decl_map.go:35 prints a `Location`, whose `Path` is
    set for built-in types only).
63. The path behind IN says which file is read, not which unit an item stands for: with
    `uses A in 'b.pas', B in 'a.pas'` where `a.pas` is unit A, both are loaded and `A` is the unit in
    `a.pas` (`items_get_the_unit_of_their_file_refuted`).

## Reproducing

`cd rocq && coq_makefile -f _CoqProject -o Makefile && make -j4` (about 7 minutes).
`tools/mkprops.py` and `tools/mkmanifest.py` regenerate the property files and the manifest,
`tools/mutate.py` runs the mutations.
