(** The tokenizer as a function on the remaining runes.  This is a proof
    device: [process_lex1] in TokenizerFacts shows that the cursor-based model
    computes exactly this. *)
From Coq Require Import List NArith Bool Arith String.
From Verif Require Import ListUtil Runes Token Tokenizer.
Import ListNotations.

Inductive lres :=
| LEof
| LNone
| LHang
| LTok (ty : ttype) (w rest : list rune).

(** First rune, or the end-of-text marker. *)
Definition hd0 (l : list rune) : rune := hd cursor_eof l.

Fixpoint star_scan (l : list rune) : list rune * list rune :=
  match l with
  | [] => ([], [])
  | r :: l' =>
      if (r =? 42)%N && (hd0 l' =? 41)%N then ([r; 41%N], tl l')
      else if (r =? 0)%N then ([r], l')
      else let '(w, rest) := star_scan l' in (r :: w, rest)
  end.

Fixpoint string_scan (last : rune) (l : list rune) : option (list rune * list rune) :=
  match l with
  | [] => None
  | r :: l' =>
      if negb (last =? 92)%N && (r =? 39)%N then Some ([r], l')
      else match string_scan r l' with
           | Some (w, rest) => Some (r :: w, rest)
           | None => None
           end
  end.

Fixpoint numeral_scan (ty : ttype) (l : list rune) : ttype * list rune * list rune :=
  match l with
  | [] => (ty, [], [])
  | r :: l' =>
      if is_digit r then
        let '(ty', w, rest) := numeral_scan ty l' in (ty', r :: w, rest)
      else if (r =? 46)%N then
        if (hd0 l' =? 46)%N then (ty, [], l)
        else if ttype_eqb ty NumeralReal then (ty, [], l)
        else let '(ty', w, rest) := numeral_scan NumeralReal l' in (ty', r :: w, rest)
      else (ty, [], l)
  end.

Definition brace_stop (r : rune) : bool := (r =? 125)%N || (r =? 0)%N.
Definition line_stop (r : rune) : bool := (r =? 10)%N || (r =? 0)%N.

Definition is_double (a b : rune) : bool :=
  existsb (fun p => (a =? fst p)%N && (b =? snd p)%N) double_special_symbols.

Section WithUnicode.
Context `{U : Unicode}.

Definition word_type (w : list rune) : ttype :=
  if is_reserved_word w then ReservedWord else Identifier.

Definition lex1 (l : list rune) : lres :=
  match l with
  | [] => LEof
  | r :: l' =>
      if (r =? 0)%N then LEof
      else if (r =? 123)%N then
        let b := take_while (fun x => negb (brace_stop x)) l' in
        let q := drop_while (fun x => negb (brace_stop x)) l' in
        LTok Comment (r :: b ++ firstn 1 q) (skipn 1 q)
      else if (r =? 47)%N && (hd0 l' =? 47)%N then
        LTok Comment (r :: take_while (fun x => negb (line_stop x)) l')
                     (drop_while (fun x => negb (line_stop x)) l')
      else if (r =? 40)%N && (hd0 l' =? 42)%N then
        let '(w, rest) := star_scan l' in LTok Comment (r :: w) rest
      else if (r =? 39)%N then
        match string_scan 0%N l' with
        | Some (w, rest) => LTok CharacterString (r :: w) rest
        | None => LHang
        end
      else if is_digit r || (is_unary_op r && is_digit (hd0 l')) then
        let '(ty, w, rest) := numeral_scan NumeralInt l' in LTok ty (r :: w) rest
      else if is_double r (hd0 l') then
        LTok SpecialSymbol (r :: firstn 1 l') (skipn 1 l')
      else if is_single_symbol r then LTok SpecialSymbol [r] l'
      else if is_word_head r then
        let w := r :: take_while is_word l' in
        LTok (word_type w) w (drop_while is_word l')
      else if u_space r then
        LTok Space (r :: take_while u_space l') (drop_while u_space l')
      else LNone
  end.
End WithUnicode.
