{"id": "C01", "title": "Tokens tile the source text", "statement": "Reading a text to its end with LoadSpace and LoadComment both set yields tokens whose raw texts, concatenated in order, are exactly the text read: each token starts at the rune index where the previous one ended, the first at 0, and nothing is dropped, duplicated or reordered. If the stream ends with the EOF token and the text has no NUL rune, the whole text is covered.", "quantifier": "every rune sequence, every classification of runes into letters and spaces", "why_tests_cant": "The claim ranges over an unbounded set of inputs; a test suite samples finitely many of them.", "anchors": ["token/tokenizer.go:Tokenizer.GetNext", "token/token.go:Token.Raw", "runes/cursor.go:Cursor.Next"]}
{"id": "C02", "title": "Token line and column are right", "statement": "For a text that does not begin with a line feed, every token's Start (and End) line is 1 plus the number of line feeds before its index and its column is 1 plus the distance to the last line feed before it. For texts that begin with a line feed the claim is false: the first line feed is never counted.", "quantifier": "every rune sequence, every token of its stream", "why_tests_cant": "Off-by-one errors depend on where line feeds fall relative to every kind of token; only finitely many layouts can be tried.", "anchors": ["runes/cursor.go:Cursor.Next", "runes/position.go", "token/token.go:Token"]}
{"id": "C03", "title": "The tokenizer makes progress and stops unless a string is left open", "statement": "Each GetNext returns EOF, returns nil without moving (a rune no token can start with), or returns a token and moves the cursor forward by at least one rune; so after at most len(text)+1 calls the stream reaches EOF or nil. The only input on which GetNext fails to return is one where it meets a quote with no closing quote after it, and there it never returns.", "quantifier": "every rune sequence and cursor position", "why_tests_cant": "Non-termination cannot be observed by a finite test run, and termination must hold for all texts.", "anchors": ["token/tokenizer.go:Tokenizer.GetNext", "token/string.go:ProcessString", "token/comment.go:ProcessComment"]}
{"id": "C04", "title": "Flags only filter", "statement": "For any text, the stream read with a given combination of LoadSpace/LoadComment is the stream read with both flags set, with Space tokens removed when LoadSpace is off and Comment tokens removed when LoadComment is off; the tokens kept are identical including positions.", "quantifier": "every rune sequence, all four flag combinations", "why_tests_cant": "The claim ranges over an unbounded set of inputs; a test suite samples finitely many of them.", "anchors": ["token/tokenizer.go:NewTokenizer", "token/tokenizer.go:Tokenizer.GetNext"]}
{"id": "C05", "title": "EOF is absorbing", "statement": "Once GetNext returns the EOF token, every later call returns an EOF token at the same position. EOF is returned exactly when the cursor, after skipping, is at the end of the text or at a NUL rune.", "quantifier": "every text and every number of further calls", "why_tests_cant": "Holds for every history of calls.", "anchors": ["token/eof.go:ProcessEof", "runes/cursor.go:Cursor.Seek"]}
{"id": "C06", "title": "Words are maximal runs", "statement": "A word token begins with a letter or underscore, contains only letters, digits and underscores, and the rune right after it is not one of these. A word token is never split and never swallows a following rune.", "quantifier": "every text and every word token of its stream", "why_tests_cant": "The claim ranges over an unbounded set of inputs; a test suite samples finitely many of them.", "anchors": ["token/word.go:ProcessWord", "runes/word.go:IsWord"]}
{"id": "C07", "title": "Reserved-word classification ignores case", "statement": "A word is classified ReservedWord exactly when its upper-case form is one of the 65 reserved words; two words with the same upper-case form get the same type, and a reserved word's Value is its upper-case form whatever the source spelling, while an identifier keeps its spelling.", "quantifier": "every word, every letter-case variant", "why_tests_cant": "The claim ranges over an unbounded set of inputs; a test suite samples finitely many of them.", "anchors": ["token/reserved_words.go:isReservedWord", "token/token.go:Token.Value", "token/word.go:ProcessWord"]}
{"id": "C08", "title": "Numeral tokens have the documented shape", "statement": "A numeral token is an optional minus, one or more digits, and at most one dot followed by digits; it is NumeralReal exactly when it contains a dot; a dot that starts '..' is never part of it; it stops only at a rune that cannot continue it.", "quantifier": "every text and every numeral token", "why_tests_cant": "The claim ranges over an unbounded set of inputs; a test suite samples finitely many of them.", "anchors": ["token/numeral.go:ProcessNumeral"]}
{"id": "C09", "title": "Comments end at the first terminator", "statement": "A '{' comment runs to the first '}' (inclusive), a '//' comment to the first line feed (exclusive), a '(*' comment to the first '*)' found from its second rune on (inclusive; so '(*)' is a whole comment), each stopping early only at end of text or NUL; comments do not nest.", "quantifier": "every text and every comment token", "why_tests_cant": "The claim ranges over an unbounded set of inputs; a test suite samples finitely many of them.", "anchors": ["token/comment.go:ProcessComment"]}
{"id": "C10", "title": "String literals end at the first unescaped quote", "statement": "A string token starts with a quote and ends with the first later quote whose preceding rune in the literal is not a backslash; it contains no other such quote and may span lines.", "quantifier": "every text and every string token", "why_tests_cant": "The claim ranges over an unbounded set of inputs; a test suite samples finitely many of them.", "anchors": ["token/string.go:ProcessString"]}
{"id": "C11", "title": "Symbols are longest-match and from the fixed set", "statement": "A special-symbol token is one of the listed one-rune symbols or one of '(.', '.)', '..', ':=', '<=', '>=', '<>'; a one-rune symbol token is never the first half of a two-rune symbol present in the text; the tokenizer never produces Label or QualifiedIdentifier tokens.", "quantifier": "every text and every symbol token", "why_tests_cant": "Go map iteration order is random, so a test sees only some orders; the claim is for all.", "anchors": ["token/special_symbols.go:ProcessDoubleSpecialSymbol", "token/special_symbols.go:ProcessSingleSpecialSymbol"]}
{"id": "C12", "title": "A cloned tokenizer reads the same tokens", "statement": "After Clone, the original and the copy produce token streams with the same types, raw texts and rune indexes, and advancing one does not move the other. Line and column also agree unless the cursor stood on a line feed when cloned, in which case the copy reports lines one too small (refutation).", "quantifier": "every text, every cursor position reached by GetNext calls", "why_tests_cant": "Depends on the state reached by an arbitrary history of calls.", "anchors": ["token/tokenizer.go:Tokenizer.Clone", "runes/cursor.go:Cursor.Clone", "parser/base.go:Parser.RollbackPoint"]}
{"id": "C13", "title": "Lexical round trip", "statement": "Writing any finite sequence of well-formed lexemes (words, unsigned and negative numerals, closed strings, symbols) with at least one blank after each and tokenizing the result gives back exactly those lexemes, in order, with the types their spelling dictates, then EOF.", "quantifier": "every sequence of well-formed lexemes, every non-empty blank separators", "why_tests_cant": "The claim ranges over an unbounded set of inputs; a test suite samples finitely many of them.", "anchors": ["token/tokenizer.go:Tokenizer.GetNext"]}
{"id": "C14", "title": "Blanks and comments between tokens do not matter", "statement": "Replacing the separators between lexemes by any other non-empty mixture of blanks and closed comments leaves the types and raw texts of the tokens read by the parser unchanged.", "quantifier": "every lexeme sequence, every pair of separator choices", "why_tests_cant": "The claim ranges over an unbounded set of inputs; a test suite samples finitely many of them.", "anchors": ["token/tokenizer.go:Tokenizer.GetNext", "token/space.go:ProcessSpace", "token/comment.go:ProcessComment"]}
{"id": "C15", "title": "Abbreviated token text is bounded and faithful", "statement": "For a token produced by the tokenizer and any n, ValueAbbr(n) is the token's Value when it is shorter than n runes, and otherwise the token's first n raw runes followed by '...'; so it never reads outside the token and its length is at most n+3.", "quantifier": "every token, every n", "why_tests_cant": "The claim ranges over an unbounded set of inputs; a test suite samples finitely many of them.", "anchors": ["token/token.go:Token.ValueAbbr", "token/token.go:Token.Len"]}
{"id": "C16", "title": "Predicate combinators are Boolean algebra", "statement": "Some(ps) accepts a token iff at least one member does, Every(ps) iff all do, Not(p) iff p does not, for any list of predicates and any token; hence De Morgan, empty Some rejects, empty Every accepts, order and duplicates are irrelevant.", "quantifier": "every list of predicators, every token", "why_tests_cant": "The claim ranges over an unbounded set of inputs; a test suite samples finitely many of them.", "anchors": ["token/predicate.go:Some", "token/predicate.go:Every", "token/predicate.go:Not"]}
{"id": "C17", "title": "A declaration map is a case-insensitive map", "statement": "For every history of Set and Overwrite calls on a fresh map, Get(name) returns the declaration of the last successful Set or Overwrite for a name equal up to letter case, and nil when there was none; operations on one name never affect another.", "quantifier": "every finite history of operations, every name", "why_tests_cant": "Depends on the whole history.", "anchors": ["ast/astcore/decl_map.go:DeclMapImpl"]}
{"id": "C18", "title": "Set refuses to redeclare", "statement": "Set on a name already present (up to case) in the same scope returns an error and every binding present before the call is unchanged; Set on a node declaring names all new and pairwise distinct succeeds and binds them all. When a node declares several names and a later one clashes, the earlier ones have already been bound although Set reports an error (refutation of atomicity).", "quantifier": "every map state, every node with any number of declared names", "why_tests_cant": "Failure atomicity depends on the position of the clash in arbitrarily long declaration lists.", "anchors": ["ast/astcore/decl_map.go:DeclMapImpl.Set"]}
{"id": "C19", "title": "Inner scopes shadow outer ones and never write to them", "statement": "With a scope stacked on a context, Get prefers the inner scope and falls back to the outer; Set and Overwrite touch only the inner scope, so after any history of inner operations every outer lookup is as before; an inner declaration with the same name as an outer one is accepted.", "quantifier": "every outer map, every history of inner operations", "why_tests_cant": "Depends on the whole history.", "anchors": ["ast/astcore/decl_map.go:ChainedDeclMap", "parser/pcontext/program_context.go:StackDeclMap"]}
{"id": "C20", "title": "Composite lookup takes the first map that knows the name", "statement": "Get on a composite of maps returns the declaration from the first map in order that has the name, and nil iff none has it; Set and Overwrite change only the first map. Consequently with used units placed in reverse order, the unit named last in a uses clause wins.", "quantifier": "every list of maps, every name", "why_tests_cant": "The claim ranges over an unbounded set of inputs; a test suite samples finitely many of them.", "anchors": ["ast/astcore/decl_map.go:CompositeDeclMap", "parser/pcontext/unit_context.go:ImportUnitDecls"]}
{"id": "C21", "title": "Built-in types are always available, read-only and last", "statement": "In every context made by the API the built-in type names resolve, in any letter case, to built-in type declarations unless a user declaration of the same name is visible; attempts to Set on the built-in map fail and Overwrite does nothing, so no history of declarations changes a built-in.", "quantifier": "every name, every history of operations", "why_tests_cant": "Depends on the whole history.", "anchors": ["ast/type_embedded.go:EmbeddedTypeDeclMap", "parser/pcontext/program_context.go"]}
{"id": "C22", "title": "Scope stacking is balanced", "statement": "Any well-nested sequence of StackDeclMap/restore pairs, with arbitrary declarations in between, on a context that is not replaced meanwhile, ends with the same visible outer scope as it began. If a speculative parse rolls back in between, the restore acts on a context object the parser no longer uses and the inner scope stays visible (refutation).", "quantifier": "every well-nested sequence of scope operations, and every such sequence with rollbacks", "why_tests_cant": "Depends on the interleaving of scope operations and rollbacks.", "anchors": ["parser/base.go:Parser.RollbackPoint", "parser/pcontext/program_context.go:StackDeclMap", "parser/pcontext/unit_context.go"]}
{"id": "C23", "title": "Units are processed after the units they use", "statement": "When the units of a program have no interface-uses cycle among them (up to case), Sort succeeds and yields every loaded unit exactly once, each after all loaded units its interface uses; when there is a cycle Sort reports an error.", "quantifier": "every finite set of units and every uses relation, every topological order the sorting library may pick", "why_tests_cant": "Unbounded graphs; the order picked is not unique.", "anchors": ["parser/unit_parsers.go:UnitParsers.Sort", "parser/unit_parsers.go:UnitParsers.Graph"]}
{"id": "C24", "title": "Name resolution order across units", "statement": "While a unit or program body is read, an identifier resolves to: the innermost local scope that has it, else the unit's own declarations, else the last used unit (in uses order) whose interface declares it, else a built-in; names only present in units not used are not visible.", "quantifier": "every set of declarations, every uses list", "why_tests_cant": "The claim ranges over an unbounded set of inputs; a test suite samples finitely many of them.", "anchors": ["parser/pcontext/unit_context.go:ImportUnitDecls", "parser/program.go:LoadUnits"]}
{"id": "C25", "title": "Finding units and idents by name", "statement": "Units.ByName, UsesClause.Find, IdentList.Find and Decls.Find return the first element whose name equals the given one up to letter case, and nil iff there is none; Compact removes exactly the nil entries, keeping order.", "quantifier": "every list, every name", "why_tests_cant": "The claim ranges over an unbounded set of inputs; a test suite samples finitely many of them.", "anchors": ["ast/uses_clause.go:UsesClause.Find", "ast/uses_clause.go:Units.ByName", "ast/astcore/ident.go:IdentList.Find"]}
{"id": "C26", "title": "WalkDown visits every node once, parents first, and stops at the first error", "statement": "WalkDown calls the function on the nodes of the tree in pre-order, each exactly once, skipping nil children; if the function fails on some node no later node is visited and that error is returned; if it never fails all nodes are visited and no error is returned.", "quantifier": "every finite tree, every callback", "why_tests_cant": "The claim ranges over an unbounded set of inputs; a test suite samples finitely many of them.", "anchors": ["ast/astcore/node.go:WalkDown"]}
{"id": "C27", "title": "Class member lookup respects inheritance and privacy", "statement": "Looking a member up by name in a class returns the first member with that name (up to case) in the class's own sections, else the nearest ancestor's; members in PRIVATE sections of ancestors are never returned and private members of the class itself only when asked for; lookup returns nil iff no such member exists. It terminates for every acyclic inheritance chain and does not for a cyclic one.", "quantifier": "every class hierarchy of any depth, every name", "why_tests_cant": "Unbounded hierarchies; non-termination is not testable.", "anchors": ["ast/type_class.go:CustomClassType.FindMemberDecl"]}
{"id": "C28", "title": "A computed property merges the chain, nearest first", "statement": "The computed form of a property takes each specifier from the nearest class up the inheritance chain that specifies it, and leaves a specifier empty iff nobody in the chain specifies it.", "quantifier": "every inheritance chain of any length", "why_tests_cant": "The claim ranges over an unbounded set of inputs; a test suite samples finitely many of them.", "anchors": ["ast/type_class.go:ClassProperty.ComputedProperty"]}
{"id": "C29", "title": "Type classification follows alias chains", "statement": "A type identifier that refers, through any number of type declarations, to an underlying type answers IsOrdinalType, IsRealType, IsStringType etc. exactly as the underlying type does; an unresolved reference answers no.", "quantifier": "every alias chain of any length", "why_tests_cant": "The claim ranges over an unbounded set of inputs; a test suite samples finitely many of them.", "anchors": ["ast/type_id.go:TypeId", "ast/type_embedded.go:TypeEmbedded"]}
{"id": "C30", "title": "Separated lists are read completely and in order", "statement": "Until(terminator, separator, fn) runs fn once per list element in order, consumes exactly the separators between them, and stops at the terminator without consuming it; it fails iff fn fails or the token after an element is neither; ParseIdentList on 'i1, ..., in T' returns exactly those n identifiers and leaves T current.", "quantifier": "every list length, every element parser", "why_tests_cant": "The claim ranges over an unbounded set of inputs; a test suite samples finitely many of them.", "anchors": ["parser/base.go:Parser.Until", "parser/ident_list.go:ParseIdentListBy"]}
{"id": "C31", "title": "Expression round trip", "statement": "For every expression tree in the fragment the parser accepts, writing it in source form and parsing it gives back the same tree and leaves the token after it current; hence operators bind in the documented order (NOT, @ over * / DIV MOD AND SHL SHR over + - OR XOR over relations) and associate to the left.", "quantifier": "every expression tree of any size and depth", "why_tests_cant": "The claim ranges over an unbounded set of inputs; a test suite samples finitely many of them.", "anchors": ["parser/expression.go:ParseExpression", "parser/expression.go:ParseFactor", "parser/expression.go:ParseDesignator"]}
{"id": "C32", "title": "Statement round trip", "statement": "For every statement tree (assignment, call, goto, compound, if, case, repeat, while, for, with, raise, try, inherited) writing it in source form and parsing it gives back the same tree; an ELSE belongs to the nearest preceding IF.", "quantifier": "every statement tree of any size and depth", "why_tests_cant": "The claim ranges over an unbounded set of inputs; a test suite samples finitely many of them.", "anchors": ["parser/statement.go:ParseStatement", "parser/statement_conditional.go:ParseIfStmt"]}
{"id": "C33", "title": "A rolled-back attempt leaves no trace in the token stream", "statement": "After RollbackPoint and any sequence of token reads, calling the rollback function makes the current token and all tokens read afterwards the same (type, raw text, indexes) as if the attempt had not been made.", "quantifier": "every text, every number of tokens read speculatively", "why_tests_cant": "Depends on the history between the two calls.", "anchors": ["parser/base.go:Parser.RollbackPoint"]}
{"id": "C34", "title": "Parsing terminates", "statement": "On every text in which all strings are closed and that contains no ASM statement, parsing an expression, a statement or a type returns, with a result or an error. With an ASM statement that has no END it does not return.", "quantifier": "every text, every parser entry state", "why_tests_cant": "Non-termination is not testable.", "anchors": ["parser/expression.go", "parser/statement.go", "parser/type.go", "parser/statement_asm.go:ParseAssemblerStatement"]}
{"id": "C35", "title": "Layout and letter case do not change the parse", "statement": "Two texts whose token streams agree in type and in text up to letter case of words parse to the same tree up to the spelling of identifiers and positions, or both fail.", "quantifier": "every pair of such texts", "why_tests_cant": "The claim ranges over an unbounded set of inputs; a test suite samples finitely many of them.", "anchors": ["parser/base.go", "parser/expression.go", "parser/statement.go"]}
{"id": "C36", "title": "The parser only moves forward", "statement": "Whatever a parse function does, on return the current token is at or after the token that was current when it was called.", "quantifier": "every text, state and parse function", "why_tests_cant": "The claim ranges over an unbounded set of inputs; a test suite samples finitely many of them.", "anchors": ["parser/base.go:Parser.NextToken"]}
{"id": "C37", "title": "Validation errors cite the offending token", "statement": "When a parse step rejects the current token, the error names the file of the context and the line and column of exactly that token.", "quantifier": "every token, predicate and context", "why_tests_cant": "The claim ranges over an unbounded set of inputs; a test suite samples finitely many of them.", "anchors": ["parser/base.go:Parser.Validate", "parser/base.go:Parser.TokenErrorf"]}
{"id": "C38", "title": "Uses clause round trip", "statement": "For every non-empty list of unit names with optional quoted paths, pairwise distinct up to case, parsing 'uses ...;' returns exactly that list in order and declares each name in the current scope; the effective path is the quoted text without its outer quotes and with backslashes replaced by the separator.", "quantifier": "every uses list of any length", "why_tests_cant": "The claim ranges over an unbounded set of inputs; a test suite samples finitely many of them.", "anchors": ["parser/uses_clause.go:ParseUsesClause", "ast/uses_clause.go:UsesClauseItem.EffectivePath"]}
{"id": "C39", "title": "Identifiers in expressions refer to the visible declaration", "statement": "Every identifier reference produced by parsing an expression carries the declaration that the current context resolves its name to, or none when it resolves to nothing.", "quantifier": "every expression, every context", "why_tests_cant": "The claim ranges over an unbounded set of inputs; a test suite samples finitely many of them.", "anchors": ["parser/unit.go:ParseQualId"]}
{"id": "C40", "title": "Set algebra of string sets", "statement": "For every history of Add and Remove calls, Include answers membership as a mathematical set; Equal holds iff the two sets have the same members; Slice lists each member exactly once.", "quantifier": "every history of operations", "why_tests_cant": "Depends on the whole history.", "anchors": ["ext/string_set.go:StringSet"]}
{"id": "C41", "title": "String list helpers", "statement": "Reverse is an involution and lists the elements backwards; Select and Exclude with the same predicate partition the list keeping order; Equal is list equality; Include is membership.", "quantifier": "every list of strings", "why_tests_cant": "The claim ranges over an unbounded set of inputs; a test suite samples finitely many of them.", "anchors": ["ext/strings.go:Strings"]}
{"id": "C42", "title": "Logger replacement nests", "statement": "Any well-nested sequence of SetLogger calls and calls of the returned restore functions ends with the logger that was installed at the start.", "quantifier": "every well-nested sequence", "why_tests_cant": "Depends on the history.", "anchors": ["log/base.go:SetLogger"]}
{"id": "C43", "title": "The parser does not panic", "statement": "From every state a parser can be in, parsing an expression, a type, a statement, a block or a type, const or var section panics only if the text contains a rune that starts no token, and waits for ever in the tokenizer only if the text contains a string that is not closed. In particular no nil declaration, missing map or lost context is ever dereferenced, also in texts that are rejected.", "quantifier": "every text, every parser state, every set of declarations made so far", "why_tests_cant": "A panic can hide behind any combination of an unusual token and an unusual declaration; tests sample a few.", "anchors": ["parser/base.go", "parser/expression.go", "parser/type.go", "parser/statement.go", "parser/block.go"]}
{"id": "C44", "title": "Errors cite a token of the call", "statement": "When parsing an expression, a type, a statement, a block or a type, const or var section fails with an error that has a position, the error names the file of the parser's context and the line and column of a token of the text that lies between the token at which the call began and the one at which the parser stopped; the parser is then in a state from which it can go on.", "quantifier": "every text, every parser state", "why_tests_cant": "Error paths are as many as the texts that are rejected.", "anchors": ["parser/base.go:Parser.Validate", "parser/base.go:Parser.TokenErrorf", "parser/base.go:Parser.Rollback"]}
{"id": "C45", "title": "A walk hears the source in order", "statement": "Walking over the tree of a parsed expression or statement comes to a node for each name, literal and operator of its source text, in the order of the text, each once, and to no others.  Walking over any type, declaration, unit or program comes to each of its identifiers once, in the order of the source (but the tag of a variant part behind its type, and exports before the body), and each carries the place where its name stands in the text.", "quantifier": "every expression and statement the parser accepts from its source form; every type, unit and program tree, and every text from which one is parsed", "why_tests_cant": "Every kind of node lists its own children; an omitted, repeated or swapped child shows only in a tree that has it, under the node that forgets it.", "anchors": ["ast/expression.go:Children", "ast/statement.go:Children", "ast/astcore/node.go:WalkDown", "ast/type_struc.go:Children", "ast/type_class.go:Children", "ast/function_heading.go:Children", "ast/unit.go:Children", "ast/program.go:Children"]}
{"id": "C46", "title": "Type round trip", "statement": "For every type (names, enumerations, subranges, pointers, strings with a length, arrays, sets, files, records with variant parts, procedural types, class references, classes with ancestors, visibility sections, fields, methods with directives, and properties with their clauses) written in source form in a place where its names mean what they should, the type parser returns exactly this type and stops right behind it, with the enumeration elements declared.", "quantifier": "every type of every depth, every place, every style of the optional semicolons, every text around it", "why_tests_cant": "Types nest without bound, and whether a name is a type, a constant or unknown at each place decides how it is read.", "anchors": ["parser/type.go:ParseType", "parser/type_struc.go", "parser/type_simple.go"]}
{"id": "C47", "title": "Declarations and blocks round trip", "statement": "For every list of label, const, type, var and threadvar sections and functions with parameters, directives and nested blocks, written in source form, the parser returns exactly these declarations in order, and behind them each declared name has the meaning declared, and names of inner scopes are as they were.", "quantifier": "every block of every depth of nesting, every scope it stands in", "why_tests_cant": "Functions nest without bound; each section is read in the scope that all sections before it made.", "anchors": ["parser/block.go:ParseBlock", "parser/var.go", "parser/const.go", "parser/type.go", "parser/function.go", "parser/block.go"]}
{"id": "C48", "title": "Program round trip", "statement": "For every program without a uses clause, in any layout, with reserved words in any letter case and anything behind its final full stop, ParseProgram returns a program with the path, the name and exactly the block that was written.", "quantifier": "every program text, every path", "why_tests_cant": "The claim ranges over all programs.", "anchors": ["parser/program.go:ParseProgram", "parser/block.go:ParseBlock"]}
{"id": "C49", "title": "Parsing a program with its units returns", "statement": "ParseProgram, on any files, returns a program or an error; it panics only if a text that it reads has a rune that starts no token, or a unit qualifies a name with its own name in its interface, or two of the files are units of one name; and it waits for ever only on a string that is not closed, an ASM without END, or a type declared by itself. The same of ParseUnit on a unit alone.", "quantifier": "every file system, every main text, every number and content of units, every iteration order of Go maps, every topological sort that is one", "why_tests_cant": "The loading is three passes over units that share contexts and declaration maps; a nil map is met only for particular combinations of uses clauses and names.", "anchors": ["parser/program.go:ParseProgram", "parser/unit_parser.go", "parser/unit_parsers.go", "parser/uses_clause.go", "ast/astcore/decl_map.go"]}
{"id": "C50", "title": "Unit round trip", "statement": "For every unit text, in any layout, with reserved words in any letter case and anything behind its final full stop, ParseUnit returns a unit with the path, the name, the portability word, the uses items, the interface declarations, the implementation declarations and exports, and the initialization and finalization statements that were written, in their order; and if the interface declares different names, the unit's declaration map answers exactly with the interface's declarations, in any letter case.", "quantifier": "every unit text, every path", "why_tests_cant": "The claim ranges over all units: every combination of clauses, sections and declarations.", "anchors": ["parser/unit_parser.go:ParseUnit", "parser/unit_parser.go:ParseUnitIdent", "parser/unit_parser.go:ParseInterfaceSectionDecls", "parser/uses_clause.go:ParseUsesClause", "ast/unit.go:Unit", "ast/astcore/decl_map.go"]}
{"id": "C51", "title": "Program with units round trip", "statement": "For every program file with a uses clause, and every set of files in which each item of the clause that names a file finds the text of the unit it names (in any layout, reserved words in any letter case), when the units do not use each other in a circle through their interface sections, and names are used where they are declared or where a unit that declares them is used: ParseProgram returns the program with its path, name, uses clause and block, and the units in the order of the uses clause, each with its path and everything that its text says; an item of any uses clause refers to a unit exactly when the program has one of that name, and then to this one. Iteration order over maps and the choice of the topological order do not matter.", "quantifier": "every program text, every number of units and every acyclic way of using each other, every file contents of this form, every path, every map iteration order, every topological sort", "why_tests_cant": "The claim ranges over all programs with all sets of units and over the nondeterminism of Go's maps and of the sort.", "anchors": ["parser/program.go:ParseProgram", "parser/program.go:LoadUnits", "parser/unit_parsers.go", "parser/unit_parser.go", "parser/uses_clause.go", "parser/pcontext/"]}
{"id": "C52", "title": "References lead to declarations of the names written", "statement": "When ParseProgram or ParseUnit succeeds, every reference that is set in the resulting trees (type names, resolved at once or at the end of their type section; names in expressions and statements and the namespace before them; the labels of goto statements; the read, write and stored members of properties) leads to a declaration whose name is the name written at the reference, up to the case of letters. The unit of a uses item has the name of the item, and a property that stands for an inherited one has its name.", "quantifier": "every file system, every program and unit text for which parsing succeeds, every map iteration order and topological sort", "why_tests_cant": "References pass through lookups in chained, composed and cloned scopes, delayed resolution and overwritten forward declarations; a test sees only the references it looks at.", "anchors": ["ast/astcore/decl_map.go", "ast/astcore/decl.go", "parser/type.go", "parser/type_class.go", "parser/expression.go", "parser/pcontext/", "parser/unit_parser.go", "parser/program.go"]}
{"id": "C53", "title": "Identifiers are pieces of the text, in order", "statement": "When ParseProgram, ParseUnit or the parser of an expression, type or statement succeeds, every identifier of the tree carries a location, the text between its start and its end is exactly the identifier's name, and in the order of the tree the identifiers stand one behind the other without overlapping, for each unit in the text of its own file. Exceptions: the exports of a block stand in front of its body or behind it, and the name behind `implements` of a property may be the very identifier of its type.", "quantifier": "every file system, every program and unit text for which parsing succeeds, every text of an expression, type or statement in every context, every map iteration order, every topological sort that lists no name twice", "why_tests_cant": "Parsers read ahead, roll back and read tokens twice; an identifier that carries the place of a neighbouring token, or two that are swapped, shows only for particular neighbours and layouts.", "anchors": ["parser/base.go:NextToken", "parser/ident.go", "ast/astcore/ident.go:NewIdent", "parser/expression.go:ParseDesignator", "parser/type_class.go", "parser/unit_parser.go", "parser/program.go:ParseProgram"]}
{"id": "C54", "title": "What is accepted is written as the node it makes", "statement": "When ParseProgram, ParseUnit or the parser of a block, expression, type or statement succeeds, the words of the text that it has consumed are the words of the tree it returns: every operator, name, literal, keyword and bracket of the tree stands in the text in its place, no other words stand there, and no branch, operand, directive, clause, bound or list element is missing, doubled, swapped or put into another node. A unit and a program end at their full stop.", "quantifier": "every text for which parsing succeeds, in every context, every file system, every map iteration order, every topological sort that lists no name twice", "why_tests_cant": "Round trips of chosen programs show that right input is kept; that no input at all is taken for something else (swapped operands, a dropped directive, a branch of another statement) is a statement about every text the parser accepts.", "anchors": ["parser/expression.go", "parser/type.go", "parser/type_struc.go", "parser/type_class.go", "parser/statement.go", "parser/block.go", "parser/function.go", "parser/unit_parser.go", "parser/uses_clause.go", "parser/program.go"]}
{"id": "C55", "title": "A unit offers exactly what its interface section declares", "statement": "When ParseUnit or ParseProgram succeeds, looking a name up in a unit gives nothing but declarations of the unit's interface section, under their names in any letter case, and never panics: nothing of the implementation section, of used units or of the program that uses it is seen, whatever was parsed after the interface section. The answer to a name is its first declaration in the interface section and nil if there is none, provided the names of each list of variables are new. (Excepted in a program: a unit that was given up for another of the same name, which has no map.)", "quantifier": "every text for which parsing succeeds, every context, every file system, every map iteration order, every topological sort", "why_tests_cant": "The unit's map is filled once, but the parser shares maps between contexts, clones and restores contexts on rollback and swaps the unit's map while its implementation section is parsed; that no later declaration anywhere reaches the interface is a statement about every continuation.", "anchors": ["parser/unit_parser.go:ParseUnitIntfBody", "parser/unit_parser.go:ProcessImplAndInit", "parser/program.go:LoadUnits", "ast/unit.go", "ast/astcore/decl_map.go", "parser/pcontext/unit_context.go"]}
{"id": "C56", "title": "The result of parsing a program does not depend on map iteration order when uses clauses fix the order of units", "statement": "When ParseProgram accepts a program whose units have different names, and of any two of its units one uses the other in its interface section (directly or by way of further units), then every run on the same files, whatever order Go iterates over the set of unit names in and whatever correct topological sort is used, succeeds with the same program, units, declarations and links. Without that condition this fails for errors: of two faulty units that do not use each other, either may be the one reported.", "quantifier": "every file system, every program accepted, every pair of map iteration orders, every pair of correct topological sorts", "why_tests_cant": "Go randomises map iteration, so a test sees a few of the orders; a run that agrees with another proves nothing about the orders that did not occur.", "anchors": ["parser/unit_parsers.go:UnitNames", "parser/unit_parsers.go:Graph", "parser/unit_parsers.go:Sort", "ext/string_set.go:Slice", "parser/program.go:LoadUnits"]}
{"id": "C57", "title": "ParseProgram depends on the program's file and its units' files only", "statement": "For every program text there is a list of paths, determined by that text alone, such that ParseProgram has the same outcome, success or error, on any two file systems that agree on the program's file and on these paths. When it succeeds, the list consists of exactly the paths of the units of the program, and all of these files exist. The paths are those that the program's uses clause names behind IN, and on success every such file has been read into a unit. So a successful result does not change when any other file appears, changes or disappears.", "quantifier": "every program text, every pair of file systems, every map iteration order, every topological sort", "why_tests_cant": "A test fixes a few files; that nothing else is ever looked at ranges over all contents of all other files.", "anchors": ["parser/program.go:ParseProgram", "parser/program.go:LoadUnits", "parser/unit_parser.go:LoadFile", "ast/uses_clause.go:EffectivePath"]}
{"id": "C58", "title": "Errors of a program point into the file they name", "statement": "When ParseProgram fails with an error that has a position, the error names the program's own file or a file that the program's uses clause names behind IN, and its line and column are those where a token of the text of that very file starts; an error met in one unit never carries the path of another file. An error for a missing token only occurs if such a text has a rune that starts no token. The same of ParseUnit on a unit alone and its file.", "quantifier": "every file system without two units of one name among the program's files, every main text, every number and content of units, every iteration order of Go maps, every topological sort that is one", "why_tests_cant": "The parsers of all units are alive at once and take turns over three passes, sharing contexts; each error path in each pass of each unit could take the path or the position from the wrong parser.", "anchors": ["parser/program.go:ParseProgram", "parser/program.go:LoadUnits", "parser/unit_parser.go", "parser/base.go:Parser.TokenErrorf", "parser/base.go:Parser.PlaceString", "parser/pcontext/unit_context.go"]}
{"id": "C59", "title": "The files of an accepted program are units of the names it uses", "statement": "When ParseProgram succeeds, every file that the program's uses clause names behind IN exists, its text begins with the word UNIT and an identifier, and that identifier is, but for the case of letters, the name of an item of the uses clause. A missing file, a file that is not a unit, and a unit of a name that the program does not use are never accepted.", "quantifier": "every file system without two units of one name among the program's files, every main text, every number and content of units, every iteration order of Go maps, every topological sort that is one", "why_tests_cant": "Units are matched with items by name after all heads have been read and sorted; a unit lost by the sort or skipped by a loop would leave a wrong file accepted for some number and shape of units only.", "anchors": ["parser/program.go:ParseProgram", "parser/program.go:LoadUnits", "ast/uses_clause.go:UsesClause", "parser/unit_parser.go"]}
