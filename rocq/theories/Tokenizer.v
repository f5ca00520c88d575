(** The tokenizer.  Model of /repo/token/{eof,comment,string,numeral,
    special_symbols,word,space,tokenizer}.go. *)
From Coq Require Import List NArith Bool Arith String.
From Verif Require Import Runes Token.
Import ListNotations.

(** Result of one processor: [nil], a token with the cursor moved behind it,
    or a loop that never ends. *)
Inductive presult :=
| NoMatch
| Match (t : token) (c : cursor)
| Hang.

(** Every loop below advances the cursor by one rune per turn; [loop_fuel] is
    one more than the runes left.  [None] means the loop used it all up; that
    it then uses up any amount of fuel is [string_loop_hang] in
    TokenizerFacts. *)
Definition loop_fuel (c : cursor) : nat := S (c_len c - c_index c).

(** [for { r := c.Next(); if stop(r) break }] *)
Fixpoint skip_to (stop : rune -> bool) (fuel : nat) (c : cursor) : option cursor :=
  match fuel with
  | O => None
  | S f => let '(r, c') := next c in
           if stop r then Some c' else skip_to stop f c'
  end.

Definition done (ty : ttype) (c0 : cursor) (oc : option cursor) : presult :=
  match oc with
  | None => Hang
  | Some c => Match (mkToken ty (c_text c0) (c_pos c0) (c_pos c)) c
  end.

Definition omap {A B} (f : A -> B) (o : option A) : option B :=
  match o with Some a => Some (f a) | None => None end.

(** token/eof.go:7-13 *)
Definition process_eof (c : cursor) : presult :=
  if (current c =? cursor_eof)%N
  then Match (mkToken EOF (c_text c) (c_pos c) (c_pos c)) c
  else NoMatch.

(** token/comment.go:33-42, the loop of a parenthesis-star comment *)
Fixpoint star_loop (fuel : nat) (c : cursor) : option cursor :=
  match fuel with
  | O => None
  | S f =>
      let '(r, c') := next c in
      if (r =? 42)%N && (seek c' 1 =? 41)%N then Some (snd (next c'))
      else if (r =? cursor_eof)%N then Some c'
      else star_loop f c'
  end.

(** token/comment.go:7-49 *)
Definition process_comment (c : cursor) : presult :=
  if (current c =? 123)%N then
    done Comment c
      (omap (fun c1 => snd (next c1))
        (skip_to (fun r => (r =? 125)%N || (r =? cursor_eof)%N) (loop_fuel c) c))
  else if (current c =? 47)%N then
    if (seek c 1 =? 47)%N then
      done Comment c
        (skip_to (fun r => (r =? 10)%N || (r =? cursor_eof)%N) (loop_fuel c) c)
    else NoMatch
  else if (current c =? 40)%N then
    if (seek c 1 =? 42)%N then
      done Comment c (omap (fun c1 => snd (next c1)) (star_loop (loop_fuel c) c))
    else NoMatch
  else NoMatch.

(** token/string.go:12-18; [last] is the previous rune, 0 at first.  There is
    no test for the end of the text. *)
Fixpoint string_loop (fuel : nat) (last : rune) (c : cursor) : option cursor :=
  match fuel with
  | O => None
  | S f =>
      let '(r, c') := next c in
      if negb (last =? 92)%N && (r =? 39)%N then Some c'
      else string_loop f r c'
  end.

(** token/string.go:7-23 *)
Definition process_string (c : cursor) : presult :=
  if (current c =? 39)%N then
    done CharacterString c
      (omap (fun c1 => snd (next c1)) (string_loop (loop_fuel c) 0%N c))
  else NoMatch.

(** token/numeral.go:11-29 *)
Fixpoint numeral_loop (fuel : nat) (ty : ttype) (c : cursor) : option (ttype * cursor) :=
  match fuel with
  | O => None
  | S f =>
      let '(r, c') := next c in
      if is_digit r then numeral_loop f ty c'
      else if (r =? cursor_eof)%N then Some (ty, c')
      else if (r =? 46)%N then
        if (seek c' 1 =? 46)%N then Some (ty, c')
        else if ttype_eqb ty NumeralReal then Some (ty, c')
        else numeral_loop f NumeralReal c'
      else Some (ty, c')
  end.

(** token/numeral.go:7-33 *)
Definition process_numeral (c : cursor) : presult :=
  if is_digit (current c) || (is_unary_op (current c) && is_digit (seek c 1)) then
    match numeral_loop (loop_fuel c) NumeralInt c with
    | None => Hang
    | Some (ty, c') => Match (mkToken ty (c_text c) (c_pos c) (c_pos c')) c'
    end
  else NoMatch.

(** token/special_symbols.go:5-29: # $ & ' ( ) * + , - . / : ; < = > @ [ ] ^ { } *)
Definition single_special_symbols : list rune :=
  [35; 36; 38; 39; 40; 41; 42; 43; 44; 45; 46; 47; 58; 59; 60; 61; 62; 64; 91; 93;
   94; 123; 125]%N.
Definition is_single_symbol (r : rune) : bool := existsb (N.eqb r) single_special_symbols.

(** token/special_symbols.go:42-53: (. .) .. := <= >= <> *)
Definition double_special_symbols : list (rune * rune) :=
  [(40, 46); (46, 41); (46, 46); (58, 61); (60, 61); (62, 61); (60, 62)]%N.

(** token/special_symbols.go:55-65.  [order] is the order in which Go happens
    to iterate over the map; the result does not depend on it
    ([double_symbol_order_irrelevant]). *)
Fixpoint process_double_in (order : list (rune * rune)) (c : cursor) : presult :=
  match order with
  | [] => NoMatch
  | (a, b) :: order' =>
      if (current c =? a)%N && (seek c 1 =? b)%N then
        let c1 := snd (next c) in
        let c2 := snd (next c1) in
        Match (mkToken SpecialSymbol (c_text c) (c_pos c) (c_pos c2)) c2
      else process_double_in order' c
  end.
Definition process_double : cursor -> presult := process_double_in double_special_symbols.

(** token/special_symbols.go:33-40 *)
Definition process_single (c : cursor) : presult :=
  if is_single_symbol (current c) then
    let c1 := snd (next c) in
    Match (mkToken SpecialSymbol (c_text c) (c_pos c) (c_pos c1)) c1
  else NoMatch.

Section WithUnicode.
Context `{U : Unicode}.

(** token/word.go:7-22 *)
Definition process_word (c : cursor) : presult :=
  if is_word_head (current c) then
    match skip_to (fun r => negb (is_word r)) (loop_fuel c) c with
    | None => Hang
    | Some c' =>
        let t := mkToken Identifier (c_text c) (c_pos c) (c_pos c') in
        let ty := if is_reserved_word (value t) then ReservedWord else Identifier in
        Match (mkToken ty (c_text c) (c_pos c) (c_pos c')) c'
    end
  else NoMatch.

(** token/space.go:9-17 *)
Definition process_space (c : cursor) : presult :=
  if u_space (current c) then
    done Space c (skip_to (fun r => negb (u_space r)) (loop_fuel c) c)
  else NoMatch.

(** token/tokenizer.go:36-45 *)
Definition processors : list (cursor -> presult) :=
  [process_eof; process_comment; process_string; process_numeral; process_double;
   process_single; process_word; process_space].

(** The loop of token/tokenizer.go:48-59 up to the first token. *)
Fixpoint first_match (ps : list (cursor -> presult)) (c : cursor) : presult :=
  match ps with
  | [] => NoMatch
  | p :: ps' => match p c with NoMatch => first_match ps' c | r => r end
  end.
Definition process (c : cursor) : presult := first_match processors c.

(** token/tokenizer.go:14-18 *)
Record tokenizer := mkTkz { tk_cur : cursor; tk_space : bool; tk_comment : bool }.

(** token/tokenizer.go:20-26; the two bits of [flags] as Booleans *)
Definition new_tokenizer (text : list rune) (load_space load_comment : bool) : tokenizer :=
  mkTkz (new_cursor text) load_space load_comment.

(** token/tokenizer.go:28-34 *)
Definition tokenizer_clone (t : tokenizer) : tokenizer :=
  mkTkz (cursor_clone (tk_cur t)) (tk_space t) (tk_comment t).

(** What [GetNext] does: return a token, return nil, or never return. *)
Inductive gresult :=
| GTok (t : token) (k : tokenizer)
| GNil (k : tokenizer)
| GHang.

(** token/tokenizer.go:47-61.  The recursive calls skip one token each, so
    [fuel] bounds the tokens skipped. *)
Fixpoint get_next_fuel (fuel : nat) (k : tokenizer) : gresult :=
  match fuel with
  | O => GHang
  | S f =>
      match process (tk_cur k) with
      | NoMatch => GNil k
      | Hang => GHang
      | Match t c =>
          let k' := mkTkz c (tk_space k) (tk_comment k) in
          if negb (tk_space k) && ttype_eqb (t_type t) Space then get_next_fuel f k'
          else if negb (tk_comment k) && ttype_eqb (t_type t) Comment then get_next_fuel f k'
          else GTok t k'
      end
  end.

Definition get_next (k : tokenizer) : gresult :=
  get_next_fuel (loop_fuel (tk_cur k)) k.

End WithUnicode.
