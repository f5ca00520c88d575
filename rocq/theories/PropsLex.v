(** The tokenizer properties.  Definitions used in the statements are in
    LexSpec (and the model in Runes, Token, Tokenizer); proofs in LexMain. *)
From Coq Require Import List NArith Bool Arith String Lia Permutation.
From Verif Require Import Runes UnicodeFacts Token Tokenizer LexSpec LexMain LexExamples.
Import ListNotations.

(** The examples use the Latin-1 tables. *)
#[local] Existing Instance latin1 | 100.
#[local] Existing Instance latin1_ok | 100.
Local Ltac runs n := apply (read_n_reads n); vm_compute; reflexivity.
Local Ltac picks n s i :=
  exists (nth i (tokens n s) (mkToken EOF [] new_position new_position)); split;
  [apply (proj1 (Forall_forall _ _) (tokens_of n s)), nth_In; vm_compute; lia|vm_compute].

(** C01. Read with both flags, the tokens are consecutive slices of the text. *)
Theorem tokens_tile_text {U : Unicode} {UOK : UnicodeOk U} :
  forall text ts k,
  reads (new_tokenizer text true true) ts k ->
  contiguous 0 ts /\
  (exists rest, text = concat (map raw ts) ++ rest) /\
  Forall (fun t => raw t = slice text (start_of t) (stop_of t)) ts.
Proof. exact LexMain.tokens_tile_text. Qed.
Print Assumptions tokens_tile_text.

Example tokens_tile_text_case : exists ts k,
  reads (new_tokenizer (rs "x:= -1 {c} 'a'") true true) ts k /\
  map (fun t => (start_of t, stop_of t)) ts =
    [(0, 1); (1, 3); (3, 4); (4, 6); (6, 7); (7, 10); (10, 11); (11, 14); (14, 14)].
Proof. eexists _, _. split; [runs 9|reflexivity]. Qed.

(** C01. If the stream reaches EOF in a text without NUL, nothing of the text is missing. *)
Theorem whole_text_covered {U : Unicode} {UOK : UnicodeOk U} :
  forall text ts e k,
  reads (new_tokenizer text true true) (ts ++ [e]) k ->
  t_type e = EOF -> ~ In 0%N text ->
  concat (map raw (ts ++ [e])) = text.
Proof. exact LexMain.whole_text_covered. Qed.
Print Assumptions whole_text_covered.

Example whole_text_covered_case : exists ts e k,
  reads (new_tokenizer (rs "x:= -1 {c}") true true) (ts ++ [e]) k /\
  t_type e = EOF /\ ~ In 0%N (rs "x:= -1 {c}") /\ length ts = 6.
Proof.
  exists (firstn 6 (tokens 7 "x:= -1 {c}")), (nth 6 (tokens 7 "x:= -1 {c}") (mkToken EOF [] new_position new_position)).
  eexists. split; [runs 7|]. split; [reflexivity|]. split; [|reflexivity].
  vm_compute. intuition discriminate.
Qed.
(** A NUL rune ends the stream early: the text is not covered. *)
Example nul_cuts_text : exists e k,
  reads (new_tokenizer [97; 0; 98]%N true true) ([mkToken Identifier [97; 0; 98]%N new_position (mkPos 1 2 1)] ++ [e]) k /\
  t_type e = EOF /\ start_of e = 1.
Proof. eexists _, _. split; [runs 2|]. split; reflexivity. Qed.

(** C02. Lines and columns, for texts that do not begin with a line feed. *)
Theorem token_positions {U : Unicode} {UOK : UnicodeOk U} :
  forall text sp cm ts t k,
  hd 0%N text <> 10%N ->
  reads (new_tokenizer text sp cm) (ts ++ [t]) k ->
  p_line (t_start t) = line_at text (start_of t) /\
  p_col (t_start t) = column_at text (start_of t) /\
  p_line (t_end t) = line_at text (stop_of t) /\
  p_col (t_end t) = column_at text (stop_of t).
Proof. exact LexMain.token_positions. Qed.
Print Assumptions token_positions.

Example token_positions_case : exists ts t k,
  let text := rs "if
  x" in
  hd 0%N text <> 10%N /\ reads (new_tokenizer text false false) (ts ++ [t]) k /\
  t_start t = mkPos 2 3 5 /\ line_at text 5 = 2 /\ column_at text 5 = 3.
Proof.
  eexists [_], _, _. split; [discriminate|]. split; [runs 2|]. repeat split.
Qed.

(** C02. For a text that begins with a line feed every line number is one too small,
    and on the first line the column is one too large: the claim of C02 fails there. *)
Theorem token_positions_after_leading_lf {U : Unicode} {UOK : UnicodeOk U} :
  forall text sp cm ts t k,
  hd 0%N text = 10%N ->
  reads (new_tokenizer text sp cm) (ts ++ [t]) k ->
  1 <= start_of t ->
  p_line (t_start t) + 1 = line_at text (start_of t) /\
  p_col (t_start t) = column_at text (start_of t) +
    (if count_lf (firstn (start_of t) text) =? 1 then 1 else 0).
Proof. exact LexMain.token_positions_after_leading_lf. Qed.
Print Assumptions token_positions_after_leading_lf.

Theorem token_positions_refuted : exists text ts t k,
  reads (new_tokenizer text false false) (ts ++ [t]) k /\
  p_line (t_start t) <> line_at text (start_of t) /\
  p_col (t_start t) <> column_at text (start_of t).
Proof.
  exists [10; 97]%N, [], (mkToken Identifier [10; 97]%N (mkPos 1 2 1) (mkPos 1 3 2)). eexists.
  split; [runs 1|]. split; vm_compute; discriminate.
Qed.
Print Assumptions token_positions_refuted.

(** C03. A returned token lies at or behind the old cursor position, inside the text,
    the cursor is left at its end, and every token but EOF is non-empty. *)
Theorem getnext_advances {U : Unicode} {UOK : UnicodeOk U} :
  forall text k t k',
  held text k -> get_next k = GTok t k' ->
  c_index (tk_cur k) <= start_of t /\ stop_of t = c_index (tk_cur k') /\
  c_index (tk_cur k') <= length text /\
  (t_type t <> EOF -> start_of t < stop_of t).
Proof. exact LexMain.getnext_advances. Qed.
Print Assumptions getnext_advances.

Example getnext_advances_case : exists k t k', held (rs " ab;") k /\
  get_next k = GTok t k' /\ start_of t = 1 /\ stop_of t = 3.
Proof. exists (new_tokenizer (rs " ab;") false false). eexists _, _. split; [constructor|]. vm_compute. auto. Qed.

(** C03. After at most as many tokens as the text has runes, the next call returns EOF,
    returns nil, or does not return. *)
Theorem stream_ends {U : Unicode} {UOK : UnicodeOk U} :
  forall text sp cm,
  exists ts k,
    reads (new_tokenizer text sp cm) ts k /\ length ts <= length text /\
    Forall (fun t => t_type t <> EOF) ts /\
    (get_next k = GHang \/ (exists k', get_next k = GNil k') \/
     (exists e k', get_next k = GTok e k' /\ t_type e = EOF)).
Proof. exact LexMain.stream_ends. Qed.
Print Assumptions stream_ends.

(** C03. GetNext returns nil exactly when, behind what the flags skip, there is a rune
    no token can start with. *)
Theorem getnext_nil_iff {U : Unicode} {UOK : UnicodeOk U} :
  forall text k,
  held text k ->
  ((exists k', get_next k = GNil k') <->
   exists skipped k1 r rest,
     reads (mkTkz (tk_cur k) true true) skipped k1 /\
     Forall (fun t => keep (tk_space k) (tk_comment k) t = false) skipped /\
     skipn (c_index (tk_cur k1)) text = r :: rest /\
     r <> 0%N /\ ~ Blank r /\ ~ WordRune r /\ r <> 39%N /\ r <> 123%N /\
     ~ In [r] one_rune_symbols).
Proof. exact LexMain.getnext_nil_iff. Qed.
Print Assumptions getnext_nil_iff.

Example getnext_nil_case : exists k', get_next (new_tokenizer (rs " {c}!") false false) = GNil k' /\
  c_index (tk_cur k') = 4.
Proof. eexists. vm_compute. auto. Qed.

(** C03. GetNext fails to return exactly when, behind what the flags skip, there is a
    quote that is never closed. *)
Theorem getnext_hangs_iff {U : Unicode} {UOK : UnicodeOk U} :
  forall text k,
  held text k ->
  (get_next k = GHang <->
   exists skipped k1 rest,
     reads (mkTkz (tk_cur k) true true) skipped k1 /\
     Forall (fun t => keep (tk_space k) (tk_comment k) t = false) skipped /\
     skipn (c_index (tk_cur k1)) text = 39%N :: rest /\ never_closed rest).
Proof. exact LexMain.getnext_hangs_iff. Qed.
Print Assumptions getnext_hangs_iff.

Example getnext_hangs_case : get_next (new_tokenizer (rs " 'abc") false false) = GHang.
Proof. vm_compute. reflexivity. Qed.
(** The Pascal literal for one backslash is never closed in this sense. *)
Example backslash_literal_hangs : get_next (new_tokenizer [39; 92; 39; 59]%N false false) = GHang.
Proof. vm_compute. reflexivity. Qed.

(** C03. On an unclosed quote the loop of the string processor does not end, whatever
    the number of turns. *)
Theorem open_string_loops_for_ever {U : Unicode} {UOK : UnicodeOk U} :
  forall c rest fuel,
  c_index c <= c_len c -> skipn (c_index c) (c_text c) = 39%N :: rest -> never_closed rest ->
  string_loop fuel 0%N c = None.
Proof. exact LexMain.open_string_loops_for_ever. Qed.
Print Assumptions open_string_loops_for_ever.

(** C04. What is read under any flags is the full stream, filtered. *)
Theorem flags_only_filter {U : Unicode} {UOK : UnicodeOk U} :
  forall text sp cm ts k,
  reads (new_tokenizer text sp cm) ts k ->
  exists all k', reads (new_tokenizer text true true) all k' /\
    ts = filter (keep sp cm) all /\ tk_cur k' = tk_cur k.
Proof. exact LexMain.flags_only_filter. Qed.
Print Assumptions flags_only_filter.

Example flags_only_filter_case : exists ts k,
  reads (new_tokenizer (rs "a {c} b") false true) ts k /\ map t_type ts = [Identifier; Comment; Identifier].
Proof. eexists _, _. split; [runs 3|reflexivity]. Qed.

(** C04. And everything of the full stream that passes the filter is read. *)
Theorem flags_keep_the_rest {U : Unicode} {UOK : UnicodeOk U} :
  forall text sp cm all k,
  reads (new_tokenizer text true true) all k ->
  exists k', reads (new_tokenizer text sp cm) (filter (keep sp cm) all) k'.
Proof. exact LexMain.flags_keep_the_rest. Qed.
Print Assumptions flags_keep_the_rest.

(** C05. After EOF, any number of calls return the same EOF token. *)
Theorem eof_absorbing {U : Unicode} {UOK : UnicodeOk U} :
  forall text k e k',
  held text k -> get_next k = GTok e k' -> t_type e = EOF ->
  forall n, reads k' (repeat e n) k'.
Proof. exact LexMain.eof_absorbing. Qed.
Print Assumptions eof_absorbing.

Example eof_absorbing_case : exists k e k', held (rs "a ") k /\ get_next k = GTok e k' /\
  t_type e = EOF /\ start_of e = 2.
Proof.
  set (k0 := new_tokenizer (rs "a ") false false).
  destruct (get_next k0) as [t k1|?|] eqn:G; [|vm_compute in G; discriminate..].
  exists k1. vm_compute in G. injection G as <- <-. eexists _, _.
  split; [apply (held_tok _ k0 (mkToken Identifier (rs "a ") new_position (mkPos 1 2 1))); [constructor|reflexivity]|].
  vm_compute. auto.
Qed.

(** C05. EOF is returned exactly at the end of the text or at a NUL rune. *)
Theorem eof_iff_end_or_nul {U : Unicode} {UOK : UnicodeOk U} :
  forall text t,
  token_of text t ->
  (t_type t = EOF <-> nth_error text (start_of t) = None \/ nth_error text (start_of t) = Some 0%N).
Proof. exact LexMain.eof_iff_end_or_nul. Qed.
Print Assumptions eof_iff_end_or_nul.

Example eof_iff_case : exists t, token_of (rs "a") t /\ t_type t = EOF /\ start_of t = 1.
Proof. picks 2 "a"%string 1. auto. Qed.

(** C06. Words: letter or underscore, then letters, digits, underscores, as many as there are. *)
Theorem words_are_maximal {U : Unicode} {UOK : UnicodeOk U} :
  forall text t,
  token_of text t -> t_type t = Identifier \/ t_type t = ReservedWord ->
  (exists r w, raw t = r :: w /\ WordHead r /\ Forall WordRune w) /\
  (forall r, rune_after text t = Some r -> ~ WordRune r).
Proof. exact LexMain.words_are_maximal. Qed.
Print Assumptions words_are_maximal.

Example words_case : exists t, token_of (rs "_a1+b") t /\ raw t = rs "_a1" /\
  t_type t = Identifier /\ rune_after (rs "_a1+b") t = Some 43%N.
Proof. picks 1 "_a1+b"%string 0. auto. Qed.

(** C06. Conversely a token that starts with a letter or underscore is a word. *)
Theorem word_starts_make_words {U : Unicode} {UOK : UnicodeOk U} :
  forall text t r,
  token_of text t -> nth_error text (start_of t) = Some r -> WordHead r ->
  t_type t = Identifier \/ t_type t = ReservedWord.
Proof. exact LexMain.word_starts_make_words. Qed.
Print Assumptions word_starts_make_words.

(** C07. Reserved words, by upper-case form; their Value is upper case. *)
Theorem reserved_classification {U : Unicode} {UOK : UnicodeOk U} :
  forall text t,
  token_of text t -> t_type t = Identifier \/ t_type t = ReservedWord ->
  (t_type t = ReservedWord <-> In (to_upper (raw t)) pascal_reserved) /\
  value t = (if ttype_eqb (t_type t) ReservedWord then to_upper (raw t) else raw t).
Proof. exact LexMain.reserved_classification. Qed.
Print Assumptions reserved_classification.

Example reserved_case : exists t, token_of (rs "x bEgIn") t /\ t_type t = ReservedWord /\
  value t = rs "BEGIN" /\ raw t = rs "bEgIn" /\ length reserved_words = 65.
Proof. picks 3 "x bEgIn"%string 2. repeat split. Qed.

(** C07. Two words with the same upper-case form get the same type. *)
Theorem case_variants_classified_alike {U : Unicode} {UOK : UnicodeOk U} :
  forall text1 text2 t1 t2,
  token_of text1 t1 -> token_of text2 t2 ->
  t_type t1 = Identifier \/ t_type t1 = ReservedWord ->
  t_type t2 = Identifier \/ t_type t2 = ReservedWord ->
  to_upper (raw t1) = to_upper (raw t2) -> t_type t1 = t_type t2.
Proof. exact LexMain.case_variants_classified_alike. Qed.
Print Assumptions case_variants_classified_alike.

(** C08. Numerals. *)
Theorem numeral_shape {U : Unicode} {UOK : UnicodeOk U} :
  forall text t,
  token_of text t -> t_type t = NumeralInt \/ t_type t = NumeralReal ->
  (exists s ds, sign s /\ ds <> [] /\ Forall Digit ds /\
     ((t_type t = NumeralInt /\ raw t = s ++ ds) \/
      (t_type t = NumeralReal /\ exists fs, Forall Digit fs /\ raw t = s ++ ds ++ 46%N :: fs))) /\
  (forall r, rune_after text t = Some r -> ~ Digit r) /\
  (t_type t = NumeralInt -> rune_after text t = Some 46%N -> rune_after2 text t = Some 46%N).
Proof. exact LexMain.numeral_shape. Qed.
Print Assumptions numeral_shape.

Example numeral_int_case : exists t, token_of (rs "-12..3") t /\ t_type t = NumeralInt /\ raw t = rs "-12".
Proof. picks 1 "-12..3"%string 0. auto. Qed.
Example numeral_real_case : exists t, token_of (rs "1.50.x") t /\ t_type t = NumeralReal /\ raw t = rs "1.50".
Proof. picks 1 "1.50.x"%string 0. auto. Qed.

(** C09. Comments. *)
Theorem comment_ends_at_first_terminator {U : Unicode} {UOK : UnicodeOk U} :
  forall text t,
  token_of text t -> t_type t = Comment ->
  closed_comment (raw t) \/
  (line_comment (raw t) /\
   (rune_after text t = None \/ rune_after text t = Some 10%N \/ rune_after text t = Some 0%N)) \/
  (cut_comment (raw t) /\ rune_after text t = None) \/
  (exists w, raw t = w ++ [0%N] /\ cut_comment w).
Proof. exact LexMain.comment_ends_at_first_terminator. Qed.
Print Assumptions comment_ends_at_first_terminator.

Example brace_case : exists t, token_of (rs "{ a { b } c }") t /\ t_type t = Comment /\ raw t = rs "{ a { b }".
Proof. picks 1 "{ a { b } c }"%string 0. auto. Qed.
Example star_case : exists t, token_of [40; 42; 41; 97]%N t /\ t_type t = Comment /\ raw t = [40; 42; 41]%N.
Proof.
  exists (mkToken Comment [40; 42; 41; 97]%N new_position (mkPos 1 4 3)). split; [|split; reflexivity].
  exists (new_tokenizer [40; 42; 41; 97]%N true true). eexists. split; [constructor|]. vm_compute. reflexivity.
Qed.

(** C10. Strings. *)
Theorem string_ends_at_first_unescaped_quote {U : Unicode} {UOK : UnicodeOk U} :
  forall text t,
  token_of text t -> t_type t = CharacterString ->
  exists b, raw t = 39%N :: b ++ [39%N] /\ string_body b.
Proof. exact LexMain.string_ends_at_first_unescaped_quote. Qed.
Print Assumptions string_ends_at_first_unescaped_quote.

Example string_case : exists t, token_of (rs "'it\'s' x") t /\ t_type t = CharacterString /\ raw t = rs "'it\'s'".
Proof. picks 1 "'it\'s' x"%string 0. auto. Qed.

(** C11. Symbols. *)
Theorem symbols_longest_match {U : Unicode} {UOK : UnicodeOk U} :
  forall text t,
  token_of text t -> t_type t = SpecialSymbol ->
  In (raw t) two_rune_symbols \/
  (In (raw t) one_rune_symbols /\
   forall r, rune_after text t = Some r -> ~ In (raw t ++ [r]) two_rune_symbols).
Proof. exact LexMain.symbols_longest_match. Qed.
Print Assumptions symbols_longest_match.

Example symbol_case : exists t, token_of (rs "<>=") t /\ t_type t = SpecialSymbol /\ raw t = rs "<>".
Proof. picks 1 "<>="%string 0. auto. Qed.

(** C11. Every token is EOF, a comment, a maximal run of blanks, or a lexeme; Label and
    QualifiedIdentifier tokens are never produced. *)
Theorem every_token_has_a_shape {U : Unicode} {UOK : UnicodeOk U} :
  forall text t,
  token_of text t ->
  t_type t <> Label /\ t_type t <> QualifiedIdentifier /\
  (t_type t = EOF \/ t_type t = Comment \/
   (t_type t = Space /\ raw t <> [] /\ Forall Blank (raw t) /\
    forall r, rune_after text t = Some r -> ~ Blank r) \/
   lexeme (t_type t) (raw t)).
Proof. exact LexMain.every_token_has_a_shape. Qed.
Print Assumptions every_token_has_a_shape.

(** C11. The order in which Go iterates over the map of two-rune symbols does not matter. *)
Theorem double_symbol_order_irrelevant {U : Unicode} {UOK : UnicodeOk U} :
  forall order c,
  c_index c <= c_len c -> Permutation order double_special_symbols ->
  process_double_in order c = process_double c.
Proof. exact LexMain.double_symbol_order_irrelevant. Qed.
Print Assumptions double_symbol_order_irrelevant.

Example symbol_order_case :
  Permutation (rev double_special_symbols) double_special_symbols /\
  process_double_in (rev double_special_symbols) (new_cursor (rs ":=")) <> NoMatch.
Proof. split; [symmetry; apply Permutation_rev|]. vm_compute. discriminate. Qed.

(** C12. A clone reads tokens with the same types, texts and indexes. *)
Theorem clone_reads_same_tokens {U : Unicode} {UOK : UnicodeOk U} :
  forall text k ts k',
  held text k -> reads k ts k' ->
  exists ts2 k2, reads (tokenizer_clone k) ts2 k2 /\
    Forall2 (fun t u => t_type t = t_type u /\ raw t = raw u /\
                        start_of t = start_of u /\ stop_of t = stop_of u) ts ts2.
Proof. exact LexMain.clone_reads_same_tokens. Qed.
Print Assumptions clone_reads_same_tokens.

Example clone_case : exists ts k', reads (new_tokenizer (rs "a b") false false) ts k' /\ length ts = 3.
Proof. eexists _, _. split; [runs 3|reflexivity]. Qed.

(** C12. A clone returns nil, or does not return, exactly when the original does. *)
Theorem clone_ends_the_same {U : Unicode} {UOK : UnicodeOk U} :
  forall text k,
  held text k ->
  (get_next k = GHang <-> get_next (tokenizer_clone k) = GHang) /\
  ((exists k1, get_next k = GNil k1) <-> (exists k1, get_next (tokenizer_clone k) = GNil k1)).
Proof. exact LexMain.clone_ends_the_same. Qed.
Print Assumptions clone_ends_the_same.

(** C12. Not standing on a line feed, a clone is the same tokenizer, so lines and columns agree too. *)
Theorem clone_equal_unless_at_lf {U : Unicode} {UOK : UnicodeOk U} :
  forall text k,
  held text k -> nth_error text (c_index (tk_cur k)) <> Some 10%N ->
  tokenizer_clone k = k.
Proof. exact LexMain.clone_equal_unless_at_lf. Qed.
Print Assumptions clone_equal_unless_at_lf.

(** Standing on a line feed they do not. *)
Theorem clone_lines_refuted : exists text k t1 k1 t2 k2,
  held text k /\ get_next k = GTok t1 k1 /\ get_next (tokenizer_clone k) = GTok t2 k2 /\
  p_line (t_start t1) = 2 /\ p_line (t_start t2) = 1 /\ start_of t1 = start_of t2.
Proof.
  exists [97; 10; 98]%N. set (k0 := new_tokenizer [97; 10; 98]%N false false).
  destruct (get_next k0) as [t k1|?|] eqn:G; [|vm_compute in G; discriminate..].
  exists k1. assert (H : held [97; 10; 98]%N k1) by (eapply held_tok; [constructor|exact G]).
  vm_compute in G. injection G as <- <-. eexists _, _, _, _. split; [exact H|].
  vm_compute. repeat split.
Qed.
Print Assumptions clone_lines_refuted.

(** C13, C14. Every text written from lexemes with gaps is read back as exactly these lexemes. *)
Theorem lexical_round_trip {U : Unicode} {UOK : UnicodeOk U} :
  forall ls text,
  written ls text ->
  exists ts e k, reads (new_tokenizer text false false) (ts ++ [e]) k /\
    map lexeme_of ts = ls /\ t_type e = EOF /\ start_of e = length text.
Proof. exact LexMain.lexical_round_trip. Qed.
Print Assumptions lexical_round_trip.

Example written_case : written [(Identifier, rs "a"); (SpecialSymbol, rs ":="); (NumeralInt, rs "-1")]
  (rs " a:={c}-1//d").
Proof.
  apply (written_cons (rs " ") Identifier (rs "a")).
  - repeat constructor.
  - constructor; [now right|constructor|]. cbn. intuition discriminate.
  - intros r q' [= <- <-] [[?|?]|?]; [discriminate|discriminate|unfold Digit in *; lia].
  - apply (written_cons [] SpecialSymbol (rs ":=")).
    + constructor.
    + apply lx_symbol2. cbn. tauto.
    + intros a r q' [= ].
    + apply (written_cons (rs "{c}") NumeralInt (rs "-1")).
      * apply (gap_comment (rs "{c}") []); [|constructor].
        apply (cc_brace [99%N]); cbn; intuition discriminate.
      * apply (lx_int [45%N] [49%N]); [now right|discriminate|]. repeat constructor; lia.
      * split; [intros r q' [= <- <-] D; unfold Digit in D; lia|discriminate].
      * constructor. apply (last_gap_line [] (rs "//d")); [constructor|].
        exists [100%N]. cbn. intuition discriminate.
Qed.

(** C13. Conversely, a text without NUL that is read to EOF is written from its lexemes. *)
Theorem lexical_round_trip_converse {U : Unicode} {UOK : UnicodeOk U} :
  forall text ts e k,
  ~ In 0%N text ->
  reads (new_tokenizer text false false) (ts ++ [e]) k ->
  Forall (fun t => t_type t <> EOF) ts -> t_type e = EOF ->
  written (map lexeme_of ts) text.
Proof. exact LexMain.lexical_round_trip_converse. Qed.
Print Assumptions lexical_round_trip_converse.

(** C13. In particular lexemes separated by blanks and comments are read back. *)
Theorem separated_lexemes_read_back {U : Unicode} {UOK : UnicodeOk U} :
  forall s0 ls,
  gap s0 ->
  Forall (fun x => match x with (ty, w, sep) => lexeme ty w /\ separator sep end) ls ->
  exists ts e k, reads (new_tokenizer (s0 ++ spell ls) false false) (ts ++ [e]) k /\
    map lexeme_of ts = map fst ls /\ t_type e = EOF.
Proof. exact LexMain.separated_lexemes_read_back. Qed.
Print Assumptions separated_lexemes_read_back.

Example separated_case :
  let ls := [(ReservedWord, rs "if", rs " "); (Identifier, rs "x", rs "{c} ")] in
  gap [] /\ Forall (fun x => match x with (ty, w, sep) => lexeme ty w /\ separator sep end) ls.
Proof.
  split; [constructor|]. constructor; [split|constructor; [split|constructor]].
  - constructor; [now right| |vm_compute; tauto]. constructor; [left; now right|constructor].
  - split; [repeat constructor|]. left. exists 32%N, []. split; reflexivity.
  - constructor; [now right|constructor|]. cbn. intuition discriminate.
  - assert (C : closed_comment (rs "{c}")) by (apply (cc_brace [99%N]); cbn; intuition discriminate).
    split; [apply (gap_comment (rs "{c}") [32%N]); [exact C|repeat constructor]|].
    right. exists (rs "{c}"), [32%N]. split; [reflexivity|exact C].
Qed.

(** C14. Two texts written from the same lexemes are read alike. *)
Theorem layout_does_not_matter {U : Unicode} {UOK : UnicodeOk U} :
  forall ls text1 text2 ts1 e1 k1 ts2 e2 k2,
  written ls text1 -> written ls text2 ->
  reads (new_tokenizer text1 false false) (ts1 ++ [e1]) k1 ->
  reads (new_tokenizer text2 false false) (ts2 ++ [e2]) k2 ->
  Forall (fun t => t_type t <> EOF) ts1 -> Forall (fun t => t_type t <> EOF) ts2 ->
  t_type e1 = EOF -> t_type e2 = EOF ->
  map lexeme_of ts1 = map lexeme_of ts2.
Proof. exact LexMain.layout_does_not_matter. Qed.
Print Assumptions layout_does_not_matter.

(** C14. In particular the choice of separators does not matter. *)
Theorem separators_do_not_matter {U : Unicode} {UOK : UnicodeOk U} :
  forall s1 s2 ls1 ls2 ts1 e1 k1 ts2 e2 k2,
  gap s1 -> gap s2 ->
  Forall (fun x => match x with (ty, w, sep) => lexeme ty w /\ separator sep end) ls1 ->
  Forall (fun x => match x with (ty, w, sep) => lexeme ty w /\ separator sep end) ls2 ->
  map fst ls1 = map fst ls2 ->
  reads (new_tokenizer (s1 ++ spell ls1) false false) (ts1 ++ [e1]) k1 ->
  reads (new_tokenizer (s2 ++ spell ls2) false false) (ts2 ++ [e2]) k2 ->
  Forall (fun t => t_type t <> EOF) ts1 -> Forall (fun t => t_type t <> EOF) ts2 ->
  t_type e1 = EOF -> t_type e2 = EOF ->
  map lexeme_of ts1 = map lexeme_of ts2.
Proof. exact LexMain.separators_do_not_matter. Qed.
Print Assumptions separators_do_not_matter.

(** C15. ValueAbbr. *)
Theorem value_abbr_faithful {U : Unicode} {UOK : UnicodeOk U} :
  forall text t n,
  token_of text t ->
  value_abbr t n = (if length (raw t) <? n then value t else firstn n (raw t) ++ rs "...") /\
  length (value_abbr t n) <= n + 3.
Proof. exact LexMain.value_abbr_faithful. Qed.
Print Assumptions value_abbr_faithful.

Example value_abbr_case : exists t, token_of (rs "abcdef") t /\
  value_abbr t 3 = rs "abc..." /\ value_abbr t 6 = rs "abcdef..." /\ value_abbr t 7 = rs "abcdef".
Proof. picks 1 "abcdef"%string 0. auto. Qed.

(** C16. Some. *)
Theorem some_accepts_iff {U : Unicode} {UOK : UnicodeOk U} :
  forall ps t, p_some ps t = true <-> exists p, In p ps /\ p t = true.
Proof. exact LexMain.some_accepts_iff. Qed.
Print Assumptions some_accepts_iff.

(** C16. Every. *)
Theorem every_accepts_iff {U : Unicode} {UOK : UnicodeOk U} :
  forall ps t, p_every ps t = true <-> forall p, In p ps -> p t = true.
Proof. exact LexMain.every_accepts_iff. Qed.
Print Assumptions every_accepts_iff.

(** C16. Not. *)
Theorem not_accepts_iff {U : Unicode} {UOK : UnicodeOk U} :
  forall (p : predicator) t, p_not p t = true <-> p t <> true.
Proof. exact LexMain.not_accepts_iff. Qed.
Print Assumptions not_accepts_iff.

(** C16. De Morgan. *)
Theorem de_morgan {U : Unicode} {UOK : UnicodeOk U} :
  forall ps t,
  p_not (p_some ps) t = p_every (map p_not ps) t /\
  p_not (p_every ps) t = p_some (map p_not ps) t.
Proof. exact LexMain.de_morgan. Qed.
Print Assumptions de_morgan.

(** C16. Order and duplicates are irrelevant. *)
Theorem members_decide {U : Unicode} {UOK : UnicodeOk U} :
  forall ps qs t,
  (forall p, In p ps <-> In p qs) -> p_some ps t = p_some qs t /\ p_every ps t = p_every qs t.
Proof. exact LexMain.members_decide. Qed.
Print Assumptions members_decide.

Example predicate_case : exists t, token_of (rs "+") t /\
  p_some [p_symbol (rs "-"); p_symbol (rs "+")] t = true /\
  p_every [p_type SpecialSymbol; p_not (p_symbol (rs "-"))] t = true /\ p_some [] t = false.
Proof. picks 1 "+"%string 0. auto. Qed.
