(** The tokenizer properties.  Definitions used in the statements are in
    LexSpec (and the model in Runes, Token, Tokenizer); proofs in LexMain. *)
From Coq Require Import List NArith Bool Arith String Lia Permutation.
From Verif Require Import Runes UnicodeFacts Token Tokenizer LexSpec LexMain LexExamples.
Import ListNotations.

(** The examples use the Latin-1 tables. *)
#[local] Existing Instance latin1 | 100.
#[local] Existing Instance latin1_ok | 100.
Local Ltac runs n := apply (read_n_reads n); vm_compute; reflexivity.
Local Ltac picks n s i :=
  exists (nth i (tokens n s) (mkToken EOF [] new_position new_position)); split;
  [apply (proj1 (Forall_forall _ _) (tokens_of n s)), nth_In; vm_compute; lia|vm_compute].

@@ C01 LexMain tokens_tile_text
Read with both flags, the tokens are consecutive slices of the text.
---
Example tokens_tile_text_case : exists ts k,
  reads (new_tokenizer (rs "x:= -1 {c} 'a'") true true) ts k /\
  map (fun t => (start_of t, stop_of t)) ts =
    [(0, 1); (1, 3); (3, 4); (4, 6); (6, 7); (7, 10); (10, 11); (11, 14); (14, 14)].
Proof. eexists _, _. split; [runs 9|reflexivity]. Qed.

@@ C01 LexMain whole_text_covered
If the stream reaches EOF in a text without NUL, nothing of the text is missing.
---
Example whole_text_covered_case : exists ts e k,
  reads (new_tokenizer (rs "x:= -1 {c}") true true) (ts ++ [e]) k /\
  t_type e = EOF /\ ~ In 0%N (rs "x:= -1 {c}") /\ length ts = 6.
Proof.
  exists (firstn 6 (tokens 7 "x:= -1 {c}")), (nth 6 (tokens 7 "x:= -1 {c}") (mkToken EOF [] new_position new_position)).
  eexists. split; [runs 7|]. split; [reflexivity|]. split; [|reflexivity].
  vm_compute. intuition discriminate.
Qed.
(** A NUL rune ends the stream early: the text is not covered. *)
Example nul_cuts_text : exists e k,
  reads (new_tokenizer [97; 0; 98]%N true true) ([mkToken Identifier [97; 0; 98]%N new_position (mkPos 1 2 1)] ++ [e]) k /\
  t_type e = EOF /\ start_of e = 1.
Proof. eexists _, _. split; [runs 2|]. split; reflexivity. Qed.

@@ C02 LexMain token_positions
Lines and columns, for texts that do not begin with a line feed.
---
Example token_positions_case : exists ts t k,
  let text := rs "if
  x" in
  hd 0%N text <> 10%N /\ reads (new_tokenizer text false false) (ts ++ [t]) k /\
  t_start t = mkPos 2 3 5 /\ line_at text 5 = 2 /\ column_at text 5 = 3.
Proof.
  eexists [_], _, _. split; [discriminate|]. split; [runs 2|]. repeat split.
Qed.

@@ C02 LexMain token_positions_after_leading_lf
For a text that begins with a line feed every line number is one too small,
    and on the first line the column is one too large: the claim of C02 fails there.
---
Theorem token_positions_refuted : exists text ts t k,
  reads (new_tokenizer text false false) (ts ++ [t]) k /\
  p_line (t_start t) <> line_at text (start_of t) /\
  p_col (t_start t) <> column_at text (start_of t).
Proof.
  exists [10; 97]%N, [], (mkToken Identifier [10; 97]%N (mkPos 1 2 1) (mkPos 1 3 2)). eexists.
  split; [runs 1|]. split; vm_compute; discriminate.
Qed.
Print Assumptions token_positions_refuted.

@@ C03 LexMain getnext_advances
A returned token lies at or behind the old cursor position, inside the text,
    the cursor is left at its end, and every token but EOF is non-empty.
---
Example getnext_advances_case : exists k t k', held (rs " ab;") k /\
  get_next k = GTok t k' /\ start_of t = 1 /\ stop_of t = 3.
Proof. exists (new_tokenizer (rs " ab;") false false). eexists _, _. split; [constructor|]. vm_compute. auto. Qed.

@@ C03 LexMain stream_ends
After at most as many tokens as the text has runes, the next call returns EOF,
    returns nil, or does not return.

@@ C03 LexMain getnext_nil_iff
GetNext returns nil exactly when, behind what the flags skip, there is a rune
    no token can start with.
---
Example getnext_nil_case : exists k', get_next (new_tokenizer (rs " {c}!") false false) = GNil k' /\
  c_index (tk_cur k') = 4.
Proof. eexists. vm_compute. auto. Qed.

@@ C03 LexMain getnext_hangs_iff
GetNext fails to return exactly when, behind what the flags skip, there is a
    quote that is never closed.
---
Example getnext_hangs_case : get_next (new_tokenizer (rs " 'abc") false false) = GHang.
Proof. vm_compute. reflexivity. Qed.
(** The Pascal literal for one backslash is never closed in this sense. *)
Example backslash_literal_hangs : get_next (new_tokenizer [39; 92; 39; 59]%N false false) = GHang.
Proof. vm_compute. reflexivity. Qed.

@@ C03 LexMain open_string_loops_for_ever
On an unclosed quote the loop of the string processor does not end, whatever
    the number of turns.

@@ C04 LexMain flags_only_filter
What is read under any flags is the full stream, filtered.
---
Example flags_only_filter_case : exists ts k,
  reads (new_tokenizer (rs "a {c} b") false true) ts k /\ map t_type ts = [Identifier; Comment; Identifier].
Proof. eexists _, _. split; [runs 3|reflexivity]. Qed.

@@ C04 LexMain flags_keep_the_rest
And everything of the full stream that passes the filter is read.

@@ C05 LexMain eof_absorbing
After EOF, any number of calls return the same EOF token.
---
Example eof_absorbing_case : exists k e k', held (rs "a ") k /\ get_next k = GTok e k' /\
  t_type e = EOF /\ start_of e = 2.
Proof.
  set (k0 := new_tokenizer (rs "a ") false false).
  destruct (get_next k0) as [t k1|?|] eqn:G; [|vm_compute in G; discriminate..].
  exists k1. vm_compute in G. injection G as <- <-. eexists _, _.
  split; [apply (held_tok _ k0 (mkToken Identifier (rs "a ") new_position (mkPos 1 2 1))); [constructor|reflexivity]|].
  vm_compute. auto.
Qed.

@@ C05 LexMain eof_iff_end_or_nul
EOF is returned exactly at the end of the text or at a NUL rune.
---
Example eof_iff_case : exists t, token_of (rs "a") t /\ t_type t = EOF /\ start_of t = 1.
Proof. picks 2 "a"%string 1. auto. Qed.

@@ C06 LexMain words_are_maximal
Words: letter or underscore, then letters, digits, underscores, as many as there are.
---
Example words_case : exists t, token_of (rs "_a1+b") t /\ raw t = rs "_a1" /\
  t_type t = Identifier /\ rune_after (rs "_a1+b") t = Some 43%N.
Proof. picks 1 "_a1+b"%string 0. auto. Qed.

@@ C06 LexMain word_starts_make_words
Conversely a token that starts with a letter or underscore is a word.

@@ C07 LexMain reserved_classification
Reserved words, by upper-case form; their Value is upper case.
---
Example reserved_case : exists t, token_of (rs "x bEgIn") t /\ t_type t = ReservedWord /\
  value t = rs "BEGIN" /\ raw t = rs "bEgIn" /\ length reserved_words = 65.
Proof. picks 3 "x bEgIn"%string 2. repeat split. Qed.

@@ C07 LexMain case_variants_classified_alike
Two words with the same upper-case form get the same type.

@@ C08 LexMain numeral_shape
Numerals.
---
Example numeral_int_case : exists t, token_of (rs "-12..3") t /\ t_type t = NumeralInt /\ raw t = rs "-12".
Proof. picks 1 "-12..3"%string 0. auto. Qed.
Example numeral_real_case : exists t, token_of (rs "1.50.x") t /\ t_type t = NumeralReal /\ raw t = rs "1.50".
Proof. picks 1 "1.50.x"%string 0. auto. Qed.

@@ C09 LexMain comment_ends_at_first_terminator
Comments.
---
Example brace_case : exists t, token_of (rs "{ a { b } c }") t /\ t_type t = Comment /\ raw t = rs "{ a { b }".
Proof. picks 1 "{ a { b } c }"%string 0. auto. Qed.
Example star_case : exists t, token_of [40; 42; 41; 97]%N t /\ t_type t = Comment /\ raw t = [40; 42; 41]%N.
Proof.
  exists (mkToken Comment [40; 42; 41; 97]%N new_position (mkPos 1 4 3)). split; [|split; reflexivity].
  exists (new_tokenizer [40; 42; 41; 97]%N true true). eexists. split; [constructor|]. vm_compute. reflexivity.
Qed.

@@ C10 LexMain string_ends_at_first_unescaped_quote
Strings.
---
Example string_case : exists t, token_of (rs "'it\'s' x") t /\ t_type t = CharacterString /\ raw t = rs "'it\'s'".
Proof. picks 1 "'it\'s' x"%string 0. auto. Qed.

@@ C11 LexMain symbols_longest_match
Symbols.
---
Example symbol_case : exists t, token_of (rs "<>=") t /\ t_type t = SpecialSymbol /\ raw t = rs "<>".
Proof. picks 1 "<>="%string 0. auto. Qed.

@@ C11 LexMain every_token_has_a_shape
Every token is EOF, a comment, a maximal run of blanks, or a lexeme; Label and
    QualifiedIdentifier tokens are never produced.

@@ C11 LexMain double_symbol_order_irrelevant
The order in which Go iterates over the map of two-rune symbols does not matter.
---
Example symbol_order_case :
  Permutation (rev double_special_symbols) double_special_symbols /\
  process_double_in (rev double_special_symbols) (new_cursor (rs ":=")) <> NoMatch.
Proof. split; [symmetry; apply Permutation_rev|]. vm_compute. discriminate. Qed.

@@ C12 LexMain clone_reads_same_tokens
A clone reads tokens with the same types, texts and indexes.
---
Example clone_case : exists ts k', reads (new_tokenizer (rs "a b") false false) ts k' /\ length ts = 3.
Proof. eexists _, _. split; [runs 3|reflexivity]. Qed.

@@ C12 LexMain clone_ends_the_same
A clone returns nil, or does not return, exactly when the original does.

@@ C12 LexMain clone_equal_unless_at_lf
Not standing on a line feed, a clone is the same tokenizer, so lines and columns agree too.
---
(** Standing on a line feed they do not. *)
Theorem clone_lines_refuted : exists text k t1 k1 t2 k2,
  held text k /\ get_next k = GTok t1 k1 /\ get_next (tokenizer_clone k) = GTok t2 k2 /\
  p_line (t_start t1) = 2 /\ p_line (t_start t2) = 1 /\ start_of t1 = start_of t2.
Proof.
  exists [97; 10; 98]%N. set (k0 := new_tokenizer [97; 10; 98]%N false false).
  destruct (get_next k0) as [t k1|?|] eqn:G; [|vm_compute in G; discriminate..].
  exists k1. assert (H : held [97; 10; 98]%N k1) by (eapply held_tok; [constructor|exact G]).
  vm_compute in G. injection G as <- <-. eexists _, _, _, _. split; [exact H|].
  vm_compute. repeat split.
Qed.
Print Assumptions clone_lines_refuted.

@@ C13,C14 LexMain lexical_round_trip
Every text written from lexemes with gaps is read back as exactly these lexemes.
---
Example written_case : written [(Identifier, rs "a"); (SpecialSymbol, rs ":="); (NumeralInt, rs "-1")]
  (rs " a:={c}-1//d").
Proof.
  apply (written_cons (rs " ") Identifier (rs "a")).
  - repeat constructor.
  - constructor; [now right|constructor|]. cbn. intuition discriminate.
  - intros r q' [= <- <-] [[?|?]|?]; [discriminate|discriminate|unfold Digit in *; lia].
  - apply (written_cons [] SpecialSymbol (rs ":=")).
    + constructor.
    + apply lx_symbol2. cbn. tauto.
    + intros a r q' [= ].
    + apply (written_cons (rs "{c}") NumeralInt (rs "-1")).
      * apply (gap_comment (rs "{c}") []); [|constructor].
        apply (cc_brace [99%N]); cbn; intuition discriminate.
      * apply (lx_int [45%N] [49%N]); [now right|discriminate|]. repeat constructor; lia.
      * split; [intros r q' [= <- <-] D; unfold Digit in D; lia|discriminate].
      * constructor. apply (last_gap_line [] (rs "//d")); [constructor|].
        exists [100%N]. cbn. intuition discriminate.
Qed.

@@ C13 LexMain lexical_round_trip_converse
Conversely, a text without NUL that is read to EOF is written from its lexemes.

@@ C13 LexMain separated_lexemes_read_back
In particular lexemes separated by blanks and comments are read back.
---
Example separated_case :
  let ls := [(ReservedWord, rs "if", rs " "); (Identifier, rs "x", rs "{c} ")] in
  gap [] /\ Forall (fun x => match x with (ty, w, sep) => lexeme ty w /\ separator sep end) ls.
Proof.
  split; [constructor|]. constructor; [split|constructor; [split|constructor]].
  - constructor; [now right| |vm_compute; tauto]. constructor; [left; now right|constructor].
  - split; [repeat constructor|]. left. exists 32%N, []. split; reflexivity.
  - constructor; [now right|constructor|]. cbn. intuition discriminate.
  - assert (C : closed_comment (rs "{c}")) by (apply (cc_brace [99%N]); cbn; intuition discriminate).
    split; [apply (gap_comment (rs "{c}") [32%N]); [exact C|repeat constructor]|].
    right. exists (rs "{c}"), [32%N]. split; [reflexivity|exact C].
Qed.

@@ C14 LexMain layout_does_not_matter
Two texts written from the same lexemes are read alike.

@@ C14 LexMain separators_do_not_matter
In particular the choice of separators does not matter.

@@ C15 LexMain value_abbr_faithful
ValueAbbr.
---
Example value_abbr_case : exists t, token_of (rs "abcdef") t /\
  value_abbr t 3 = rs "abc..." /\ value_abbr t 6 = rs "abcdef..." /\ value_abbr t 7 = rs "abcdef".
Proof. picks 1 "abcdef"%string 0. auto. Qed.

@@ C16 LexMain some_accepts_iff
Some.
@@ C16 LexMain every_accepts_iff
Every.
@@ C16 LexMain not_accepts_iff
Not.
@@ C16 LexMain de_morgan
De Morgan.
@@ C16 LexMain members_decide
Order and duplicates are irrelevant.
---
Example predicate_case : exists t, token_of (rs "+") t /\
  p_some [p_symbol (rs "-"); p_symbol (rs "+")] t = true /\
  p_every [p_type SpecialSymbol; p_not (p_symbol (rs "-"))] t = true /\ p_some [] t = false.
Proof. picks 1 "+"%string 0. auto. Qed.
