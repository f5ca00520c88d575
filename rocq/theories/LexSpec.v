(** What the properties of the tokenizer mean, stated without reference to how
    it works: executions, positions in a text, and the shape of each kind of
    token. *)
From Coq Require Import List NArith Bool Arith String.
From Verif Require Import Runes Token Tokenizer.
Import ListNotations.

Section WithUnicode.
Context {U : Unicode}.

(** [reads k ts k']: successive [GetNext] calls on [k] return [ts], leaving [k']. *)
Inductive reads : tokenizer -> list token -> tokenizer -> Prop :=
| reads_nil k : reads k [] k
| reads_cons k t k1 ts k2 :
    get_next k = GTok t k1 -> reads k1 ts k2 -> reads k (t :: ts) k2.

(** Any tokenizer a client can hold on [text]: a new one, one whose [GetNext]
    has returned, or a clone. *)
Inductive held (text : list rune) : tokenizer -> Prop :=
| held_new sp cm : held text (new_tokenizer text sp cm)
| held_tok k t k' : held text k -> get_next k = GTok t k' -> held text k'
| held_nil k k' : held text k -> get_next k = GNil k' -> held text k'
| held_clone k : held text k -> held text (tokenizer_clone k).

(** [t] is a token of [text]: some tokenizer on [text] returns it. *)
Definition token_of (text : list rune) (t : token) : Prop :=
  exists k k', held text k /\ get_next k = GTok t k'.

Definition start_of (t : token) : nat := p_index (t_start t).
Definition stop_of (t : token) : nat := p_index (t_end t).

(** The rune right behind [t], if any, and the one after it. *)
Definition rune_after (text : list rune) (t : token) : option rune :=
  nth_error text (stop_of t).
Definition rune_after2 (text : list rune) (t : token) : option rune :=
  nth_error text (S (stop_of t)).

(** Each token starts where the previous one stopped. *)
Fixpoint contiguous (i : nat) (ts : list token) : Prop :=
  match ts with
  | [] => True
  | t :: ts' => start_of t = i /\ i <= stop_of t /\ contiguous (stop_of t) ts'
  end.

(** Line and column of index [i]: line 1 plus the line feeds before [i];
    column 1 plus the distance from the last line feed before [i]. *)
Fixpoint count_lf (l : list rune) : nat :=
  match l with
  | [] => 0
  | r :: l' => (if (r =? 10)%N then 1 else 0) + count_lf l'
  end.
Fixpoint until_lf (l : list rune) : nat :=
  match l with
  | [] => 0
  | r :: l' => if (r =? 10)%N then 0 else S (until_lf l')
  end.
Definition line_at (text : list rune) (i : nat) : nat := 1 + count_lf (firstn i text).
Definition column_at (text : list rune) (i : nat) : nat := 1 + until_lf (rev (firstn i text)).

(** Rune classes. *)
Definition Digit (r : rune) : Prop := (48 <= r <= 57)%N.
Definition WordHead (r : rune) : Prop := r = 95%N \/ u_letter r = true.
Definition WordRune (r : rune) : Prop := WordHead r \/ Digit r.
Definition Blank (r : rune) : Prop := u_space r = true.

(** [p] does not occur in [l]. *)
Definition absent (p l : list rune) : Prop := forall a b, l <> a ++ p ++ b.

(** The reserved words of Object Pascal. *)
Definition pascal_reserved : list gostring := map rs
  ["XOR"; "WITH"; "WHILE"; "VAR"; "USES"; "UNTIL"; "UNIT"; "TYPE"; "TRY"; "TO"; "THREADVAR";
   "THEN"; "STRING"; "SHR"; "SHL"; "SET"; "RESOURCESTRING"; "REPEAT"; "RECORD"; "RAISE";
   "PROPERTY"; "PROGRAM"; "PROCEDURE"; "PACKED"; "OUT"; "OR"; "OF"; "OBJECT"; "NOT"; "NIL";
   "MOD"; "LIBRARY"; "LABEL"; "IS"; "INTERFACE"; "INLINE"; "INITIALIZATION"; "INHERITED";
   "IN"; "IMPLEMENTATION"; "IF"; "GOTO"; "FUNCTION"; "FOR"; "FINALLY"; "FINALIZATION";
   "FILE"; "EXPORTS"; "EXCEPT"; "END"; "ELSE"; "DOWNTO"; "DO"; "DIV"; "DISPINTERFACE";
   "DESTRUCTOR"; "CONSTRUCTOR"; "CONST"; "CLASS"; "CASE"; "BEGIN"; "ASM"; "AS"; "ARRAY";
   "AND"]%string.

(** Body of a string literal: every quote in it follows a backslash, and it
    does not end with a backslash. *)
Definition string_body (b : list rune) : Prop :=
  (forall b1 b2, b = b1 ++ 39%N :: b2 -> last b1 0%N = 92%N) /\ last b 0%N <> 92%N.

(** What follows an opening quote that is never closed: every quote follows a
    backslash. *)
Definition never_closed (l : list rune) : Prop :=
  forall b1 b2, l = b1 ++ 39%N :: b2 -> last b1 0%N = 92%N.

Definition one_rune_symbols : list gostring := map rs
  ["#"; "$"; "&"; "("; ")"; "*"; "+"; ","; "-"; "."; "/"; ":"; ";"; "<"; "="; ">"; "@";
   "["; "]"; "^"; "}"]%string.
Definition two_rune_symbols : list gostring := map rs
  ["(."; ".)"; ".."; ":="; "<="; ">="; "<>"]%string.

(** Optional minus sign. *)
Definition sign (s : list rune) : Prop := s = [] \/ s = [45%N].

(** Closed comments.  The text of a star comment is [( u * )] where [u] starts
    with a star unless it is empty, and no earlier star is followed by a
    parenthesis. *)
Inductive closed_comment : list rune -> Prop :=
| cc_brace b : ~ In 125%N b -> ~ In 0%N b -> closed_comment (123%N :: b ++ [125%N])
| cc_star u : ~ In 0%N u -> absent [42%N; 41%N] (u ++ [42%N]) -> hd 42%N u = 42%N ->
    closed_comment (40%N :: u ++ [42%N; 41%N]).
(** Comment to the end of the line, without the line feed. *)
Definition line_comment (w : list rune) : Prop :=
  exists b, w = 47%N :: 47%N :: b /\ ~ In 10%N b /\ ~ In 0%N b.
(** Comment cut short by the end of the text (or by a NUL rune, which is then
    part of it). *)
Inductive cut_comment : list rune -> Prop :=
| ct_brace b : ~ In 125%N b -> ~ In 0%N b -> cut_comment (123%N :: b)
| ct_star u : ~ In 0%N u -> absent [42%N; 41%N] u -> hd 0%N u = 42%N ->
    cut_comment (40%N :: u).

(** The lexemes of the language: (type, text) pairs. *)
Inductive lexeme : ttype -> list rune -> Prop :=
| lx_reserved r w : WordHead r -> Forall WordRune w ->
    In (to_upper (r :: w)) pascal_reserved -> lexeme ReservedWord (r :: w)
| lx_ident r w : WordHead r -> Forall WordRune w ->
    ~ In (to_upper (r :: w)) pascal_reserved -> lexeme Identifier (r :: w)
| lx_int s ds : sign s -> ds <> [] -> Forall Digit ds -> lexeme NumeralInt (s ++ ds)
| lx_real s ds fs : sign s -> ds <> [] -> Forall Digit ds -> Forall Digit fs ->
    lexeme NumeralReal (s ++ ds ++ 46%N :: fs)
| lx_string b : string_body b -> lexeme CharacterString (39%N :: b ++ [39%N])
| lx_symbol1 w : In w one_rune_symbols -> lexeme SpecialSymbol w
| lx_symbol2 w : In w two_rune_symbols -> lexeme SpecialSymbol w.

(** [ends ty w q]: a lexeme [w] of type [ty] followed by the text [q] ends
    exactly there; nothing of [q] belongs to it. *)
Definition ends (ty : ttype) (w q : list rune) : Prop :=
  match ty with
  | ReservedWord | Identifier => forall r q', q = r :: q' -> ~ WordRune r
  | NumeralInt =>
      (forall r q', q = r :: q' -> ~ Digit r) /\
      (forall q', q = 46%N :: q' -> exists q'', q' = 46%N :: q'')
  | NumeralReal =>
      (forall r q', q = r :: q' -> ~ Digit r) /\
      (last w 0%N = 46%N -> forall q', q <> 46%N :: q')
  | SpecialSymbol =>
      forall a r q', w = [a] -> q = r :: q' ->
        ~ In [a; r] two_rune_symbols /\
        ~ (a = 47%N /\ r = 47%N) /\ ~ (a = 40%N /\ r = 42%N) /\ ~ (a = 45%N /\ Digit r)
  | _ => True
  end.

(** Blanks and comments between lexemes. *)
Inductive gap : list rune -> Prop :=
| gap_nil : gap []
| gap_blank r g : Blank r -> gap g -> gap (r :: g)
| gap_comment w g : closed_comment w -> gap g -> gap (w ++ g)
| gap_line w g : line_comment w -> gap (10%N :: g) -> gap (w ++ 10%N :: g).
(** At the end of the text a comment need not be closed. *)
Inductive last_gap : list rune -> Prop :=
| last_gap_gap g : gap g -> last_gap g
| last_gap_cut g w : gap g -> cut_comment w -> last_gap (g ++ w)
| last_gap_line g w : gap g -> line_comment w -> last_gap (g ++ w).

(** [written ls text]: [text] is the lexemes [ls] in order, with gaps around
    them, no lexeme running into what follows. *)
Inductive written : list (ttype * list rune) -> list rune -> Prop :=
| written_nil g : last_gap g -> written [] g
| written_cons g ty w ls rest :
    gap g -> lexeme ty w -> ends ty w rest -> written ls rest ->
    written ((ty, w) :: ls) (g ++ w ++ rest).

(** Type and text of a token, without its position. *)
Definition lexeme_of (t : token) : ttype * list rune := (t_type t, raw t).
Definition keep (sp cm : bool) (t : token) : bool :=
  match t_type t with Space => sp | Comment => cm | _ => true end.

End WithUnicode.

(** Executable form of [reads], used for the examples. *)
Section Run.
Context {U : Unicode}.
Fixpoint read_n (n : nat) (k : tokenizer) : option (list token * tokenizer) :=
  match n with
  | O => Some ([], k)
  | S m => match get_next k with
           | GTok t k1 => match read_n m k1 with
                          | Some (ts, k2) => Some (t :: ts, k2)
                          | None => None
                          end
           | _ => None
           end
  end.
(** Spelling a list of lexemes, each followed by a separator. *)
Definition spell (ls : list (ttype * list rune * list rune)) : list rune :=
  flat_map (fun x => match x with (_, w, sep) => w ++ sep end) ls.
(** Separators: blanks and comments, starting with a blank or a closed comment. *)
Definition separator (s : list rune) : Prop :=
  gap s /\ ((exists r g, s = r :: g /\ Blank r) \/ (exists w g, s = w ++ g /\ closed_comment w)).
End Run.
