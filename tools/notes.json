{
 "C02": {
  "status": "proved",
  "note": "True for texts not starting with a line feed; token_positions_after_leading_lf and token_positions_refuted give the exact deviation for the others."
 },
 "C03": {
  "status": "proved",
  "note": "GetNext fails to return exactly on an unclosed quote."
 },
 "C11": {
  "status": "proved",
  "note": "Includes independence of Go map iteration order."
 },
 "C12": {
  "status": "proved",
  "note": "Independence of the two cursors is by construction (positions are copied values in the model, as in Position.Clone); clone_lines_refuted shows the line-number deviation when cloned on a line feed."
 },
 "C17": {
  "status": "proved",
  "note": "get_ignores_case_refuted: the built-in table is keyed in upper case, so equality in lower case alone is not enough there."
 },
 "C18": {
  "status": "proved",
  "note": "set_atomic_refuted and set_after_overwrite_nil_refuted give the two deviations."
 },
 "C21": {
  "status": "proved",
  "note": "clone_of_stackable_refuted: the clone of a stackable context loses the built-ins."
 },
 "C22": {
  "status": "proved",
  "note": "scope_leaks_after_rollback_refuted shows the leak when the context is replaced by a clone in between."
 },
 "C24": {
  "status": "proved",
  "note": "For unit contexts through ImportUnitDecls; the program context is covered when the loader is modelled."
 },
 "C27": {
  "status": "proved",
  "note": "For every acyclic hierarchy; a cyclic one does not return (cyclic_lookup_never_returns); the parser itself can build one, from type A = class(A) end. Needs lower-casing to be idempotent, which holds of Go's tables. A parent that is only forward declared counts as none, as in the code. FindProperty ignores visibility (property_lookup)."
 },
 "C28": {
  "status": "proved",
  "note": "The name of the result is spelled as at the root of the chain. PortabilityDirective is never set by the parser and not modelled."
 },
 "C29": {
  "status": "proved",
  "note": "Circular aliases (type L = L) never answer; set types answer ordinal questions like their base type."
 },
 "C36": {
  "status": "proved",
  "note": "For every program over the parser primitives, hence every parse method."
 },
 "C33": {
  "status": "proved",
  "note": "Line and column numbers can differ after a rollback on a line feed (C12); heap effects of the attempt stay (see C22)."
 },
 "C37": {
  "status": "proved",
  "note": "Current, Next and TokenErrorf."
 },
 "C30": {
  "status": "proved",
  "note": "Until for every element parser; ParseIdentList in both directions."
 },
 "C31": {
  "status": "proved",
  "note": "Both directions (what is written is read back; what is accepted was written), unambiguity, and precedence over operator trees. Bare equality ignores places and references."
 },
 "C39": {
  "status": "proved",
  "note": "Plain, qualified and cast names, in every program or unit context."
 },
 "C32": {
  "status": "proved",
  "note": "Every statement kind but ASM, with labels; semicolons before END optional; ON and AT in any letter case. Bare equality ignores places and references."
 },
 "C35": {
  "status": "proved",
  "note": "Expressions, statements, types, type sections, blocks, units and programs. Both runs end alike: equal trees and heaps up to spelling and position, errors equal up to the place, panic, no end."
 },
 "C34": {
  "status": "proved",
  "note": "For expressions, statements and types on every text; for blocks on texts without a TYPE section (type A = A makes later questions about A endless, finding 25). The depth bound is linear in the length of the text."
 },
 "C43": {
  "status": "proved",
  "note": "Contexts as NewProgramContext and NewUnitContext make them. Panics of the loader (missing files, Unit1.X inside Unit1's interface) are outside these methods."
 },
 "C44": {
  "status": "proved",
  "note": "Errors without a position are duplicates (EDup names the earlier declaration) and conversions of numbers."
 },
 "C45": {
  "status": "proved",
  "note": "All words: expressions without restriction, statements from every source form of C32. Identifiers with their places: every type, statement, unit and program; in order without tags of variant parts (finding 45; type_walk_in_order_refuted)."
 },
 "C46": {
  "status": "proved",
  "note": "Types of the fragment good_ty (DeclSpec), classes included: accessors of properties name members declared before them in the class, and a class with properties has no ancestor that is known. Findings 13, 46-52 and 57 say what the parser itself cannot read."
 },
 "C47": {
  "status": "proved",
  "note": "Sections and blocks of the fragment good_section/good_block: names without unit prefix in types, compound bodies. What is known of names behind each section is part of the statement (knows ... after_section)."
 },
 "C48": {
  "status": "proved",
  "note": "Programs without a uses clause; with one, the loading of units is C23, C24, C38."
 },
 "C49": {
  "status": "proved",
  "note": "Safety for all texts; that it ends, for texts without the word TYPE (a type section can declare a type by itself). The exceptions are real: own_name_panics, clash_panics, C34."
 },
 "C50": {
  "status": "proved",
  "note": "ParseUnit on one unit; the fragment of C46-C48. Nothing is known of the units that its uses clauses name. Loading several units is C23, C24, C38, C49."
 },
 "C51": {
  "status": "proved",
  "note": "The fragment of C46-C48 and C50; names of the interface section of each unit are different; the program has a uses clause (without one it is C48). Where a name is declared by several used units the last one counts."
 },
 "C52": {
  "status": "proved",
  "note": "Soundness of references that are set, for every text and every set of files; which references are set is in C46-C51 for the fragment there. A reference is an address in the model's heap; a dangling pointer would be refuted too."
 },
 "C53": {
  "status": "proved",
  "note": "Soundness of the places of identifiers for every text; that no identifier of the text is missing is in C46-C51 for the fragment there. Only indices are compared: lines and columns are in C02."
 },
 "C54": {
  "status": "proved",
  "note": "Soundness of acceptance for every text; that everything of a form is accepted is C31, C32 and C46-C51 for the fragment there. Separators that the parser does not insist on are optional in the forms; the words between ASM and END are not kept by the code and may be any. The declaration references of the tree are in C52."
 },
 "C55": {
  "status": "proved",
  "note": "For every accepted text, not only for round-trip forms (C50). The condition on lists of variables is necessary: interface_names_lost_refuted. A unit without a declaration map was given up for another of the same name (finding 54); with different names there is none (every_unit_of_program_offers_its_interface)."
 },
 "C56": {
  "status": "proved",
  "note": "For successful runs of programs in which the interface uses clauses compare any two units; the whole result and heap are equal. For other programs the reported error may differ: error_depends_on_order_of_maps_refuted (finding 61)."
 },
 "C57": {
  "status": "proved",
  "note": "The file system is a function from paths to decoded texts that does not change during a run; reading and decoding themselves are not modelled."
 },
 "C58": {
  "status": "proved",
  "note": "Under the conditions of C49 (no two of the files are units of one name; then it may panic). Errors without a position: a file that cannot be read, circular uses, duplicates, conversions of numbers, a unit whose name no item of the uses clause has. That duplicates are reported without a file is shown by duplicates_name_their_file_refuted (finding 62)."
 },
 "C59": {
  "status": "proved",
  "note": "Under the conditions of C49. That a file has the name of its own item does not hold: items_get_the_unit_of_their_file_refuted (finding 63)."
 }
}