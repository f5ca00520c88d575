(** Runes, Unicode classification, positions and the cursor.
    Model of /repo/runes/*.go. *)
From Coq Require Import List NArith Bool Arith String Ascii.
Import ListNotations.

(** Go [rune].  Code points are non-negative, so [N].  A Go [string] built
    from runes is also represented as the list of its runes: conversion
    string <-> []rune is the identity on valid code points (simplification:
    surrogate and out-of-range runes, which Go replaces by U+FFFD, are not
    distinguished). *)
Notation rune := N (only parsing).
Notation gostring := (list N) (only parsing).

(** Source literals written in Coq strings (ASCII). *)
Fixpoint rs (s : string) : gostring :=
  match s with
  | EmptyString => []
  | String c s' => N_of_ascii c :: rs s'
  end.

(** Go's [unicode.IsLetter], [unicode.IsSpace], [unicode.ToUpper],
    [unicode.ToLower].  The tables are not in /repo, so they are parameters
    of the whole development. *)
Class Unicode := {
  u_letter : rune -> bool;
  u_space  : rune -> bool;
  u_upper  : rune -> rune;
  u_lower  : rune -> rune
}.

Definition between (lo hi r : rune) : bool := (lo <=? r)%N && (r <=? hi)%N.

(** What the proofs assume about those tables: their ASCII part, and that no
    rune is both a letter and a space.  (Go: unicode/graphic.go, unicode/letter.go.) *)
Class UnicodeOk (U : Unicode) : Prop := {
  letter_ascii : forall r, (r < 128)%N -> u_letter r = between 65 90 r || between 97 122 r;
  space_ascii : forall r, (r < 128)%N -> u_space r = between 9 13 r || (r =? 32)%N;
  letter_not_space : forall r, u_letter r = true -> u_space r = false;
  upper_ascii : forall r, (r < 128)%N ->
    u_upper r = if between 97 122 r then (r - 32)%N else r;
  lower_ascii : forall r, (r < 128)%N ->
    u_lower r = if between 65 90 r then (r + 32)%N else r
}.

(** An instance: the Latin-1 part of the tables, nothing above U+00FF. *)
Definition latin1 : Unicode := {|
  u_letter r := between 65 90 r || between 97 122 r || (r =? 170)%N || (r =? 181)%N
    || (r =? 186)%N || between 192 214 r || between 216 246 r || between 248 255 r;
  u_space r := between 9 13 r || (r =? 32)%N || (r =? 133)%N || (r =? 160)%N;
  u_upper r := if between 97 122 r || between 224 246 r || between 248 254 r
               then (r - 32)%N else r;
  u_lower r := if between 65 90 r || between 192 214 r || between 216 222 r
               then (r + 32)%N else r
|}.

(** [strings.ToUpper] and [strings.ToLower] map the rune functions over the
    string. *)
Definition to_upper `{Unicode} (s : gostring) : gostring := map u_upper s.
Definition to_lower `{Unicode} (s : gostring) : gostring := map u_lower s.

(** runes/digit.go:3-5 *)
Definition is_digit (r : rune) : bool := (48 <=? r)%N && (r <=? 57)%N.
(** runes/digit.go:11-13 *)
Definition is_unary_op (r : rune) : bool := (r =? 45)%N.
(** runes/word.go:9-11 *)
Definition is_word_head `{Unicode} (r : rune) : bool := (r =? 95)%N || u_letter r.
(** runes/word.go:5-7 *)
Definition is_word `{Unicode} (r : rune) : bool := is_word_head r || is_digit r.

(** runes/equal.go:3-13 *)
Fixpoint runes_equal (a b : list rune) : bool :=
  match a, b with
  | [], [] => true
  | x :: a', y :: b' => (x =? y)%N && runes_equal a' b'
  | _, _ => false
  end.

(** runes/position.go:5-9.  Go [int] as [nat] (no overflow). *)
Record position := mkPos { p_line : nat; p_col : nat; p_index : nat }.
(** runes/position.go:11-17 *)
Definition new_position : position := mkPos 1 1 0.
(** runes/position.go:19-21 *)
Definition pos_inc (p : position) : position :=
  mkPos (p_line p) (p_col p) (S (p_index p)).
(** runes/position.go:23-26 *)
Definition pos_next_line (p : position) : position :=
  mkPos (S (p_line p)) 0 (p_index p).
(** runes/position.go:28-30 *)
Definition pos_next (p : position) : position :=
  mkPos (p_line p) (S (p_col p)) (p_index p).

(** runes/cursor.go:3-8.  [Len] is always the length of [Text] (cursor.go:12-26), so
    it is not stored. *)
Record cursor := mkCur { c_text : list rune; c_pos : position; c_waslf : bool }.

(** runes/cursor.go:10 *)
Definition cursor_eof : rune := 0%N.

(** runes/cursor.go:12-18 *)
Definition new_cursor (text : list rune) : cursor := mkCur text new_position false.

(** runes/cursor.go:20-26: [wasLF] is not copied. *)
Definition cursor_clone (c : cursor) : cursor := mkCur (c_text c) (c_pos c) false.

Definition c_index (c : cursor) : nat := p_index (c_pos c).
Definition c_len (c : cursor) : nat := List.length (c_text c).

(** runes/cursor.go:32-37 *)
Definition seek (c : cursor) (n : nat) : rune :=
  if c_index c + n <? c_len c
  then nth (c_index c + n) (c_text c) cursor_eof
  else cursor_eof.

(** runes/cursor.go:28-30 *)
Definition current (c : cursor) : rune := seek c 0.

(** runes/cursor.go:39-55 *)
Definition next (c : cursor) : rune * cursor :=
  let '(p1, lf1) :=
    if c_waslf c then (pos_next_line (c_pos c), false) else (c_pos c, false) in
  if p_index p1 <? c_len c then
    let p2 := pos_next (pos_inc p1) in
    let c2 := mkCur (c_text c) p2 lf1 in
    let r := seek c2 0 in
    (r, mkCur (c_text c) p2 (if (r =? 10)%N then true else lf1))
  else (cursor_eof, mkCur (c_text c) p1 lf1).
