(** What the properties of the parser mean: where a parser stands in its text, and what
    reading a list is. *)
From Coq Require Import String List NArith Bool Arith.
From Verif Require Import Runes Token Tokenizer LexSpec Ast Heap Prog.
Import ListNotations.
Local Open Scope list_scope.

Section WithUnicode.
Context {U : Unicode}.

(** A parser at work on [text]: its tokenizer is one on [text], and its current token, if
    any, is a token of [text] that the tokenizer has passed. *)
Definition parsing (text : list rune) (s : pst) : Prop :=
  (held text (s_tok s) /\ tk_space (s_tok s) = false /\ tk_comment (s_tok s) = false) /\
  forall t, s_cur s = Some t ->
    token_of text t /\ stop_of t <= c_index (tk_cur (s_tok s)) /\
    t_type t <> Space /\ t_type t <> Comment.

(** Where it stands: at the start of the current token, or, without one, where the
    tokenizer is. *)
Definition place (s : pst) : nat :=
  match s_cur s with Some t => start_of t | None => c_index (tk_cur (s_tok s)) end.

(** Tokens and tokenizers that differ in lines and columns at most. *)
Definition alike (t u : token) : Prop :=
  t_type t = t_type u /\ raw t = raw u /\ start_of t = start_of u /\ stop_of t = stop_of u.
Definition alike_opt (a b : option token) : Prop :=
  match a, b with Some t, Some u => alike t u | None, None => True | _, _ => False end.
Definition same_spot (k1 k2 : tokenizer) : Prop :=
  c_text (tk_cur k1) = c_text (tk_cur k2) /\ c_index (tk_cur k1) = c_index (tk_cur k2) /\
  tk_space k1 = tk_space k2 /\ tk_comment k1 = tk_comment k2.

(** [later k c k' c']: a tokenizer in state [k], whose last result is [c], has state [k'] and
    last result [c'] after some more calls of [GetNext]. *)
Inductive later : tokenizer -> option token -> tokenizer -> option token -> Prop :=
| later_here k c : later k c k c
| later_tok k c t k1 k2 c2 : get_next k = GTok t k1 -> later k1 (Some t) k2 c2 -> later k c k2 c2
| later_nil k c k1 k2 c2 : get_next k = GNil k1 -> later k1 None k2 c2 -> later k c k2 c2.

(** A list read by repeating [fn]: after each element comes the terminator, which ends the
    list and is not consumed, or the separator, which is consumed (with no separator given,
    the next element).  [fn] itself may end the list too. *)
Inductive list_read {S : Type} (terminator : predicator) (separator : option predicator)
    (fn : S -> prog (option S)) : S -> pst -> S -> pst -> Prop :=
| lr_quit v s s' : run (fn v) s = OOk None s' -> list_read terminator separator fn v s v s'
| lr_last v s v' s' t :
    run (fn v) s = OOk (Some v') s' -> s_cur s' = Some t -> terminator t = true ->
    list_read terminator separator fn v s v' s'
| lr_separated v s v1 s1 t sep c s2 v' s' :
    run (fn v) s = OOk (Some v1) s1 -> s_cur s1 = Some t -> terminator t = false ->
    separator = Some sep -> sep t = true -> next_token s1 = OOk c s2 ->
    list_read terminator separator fn v1 s2 v' s' ->
    list_read terminator separator fn v s v' s'
| lr_adjacent v s v1 s1 t v' s' :
    run (fn v) s = OOk (Some v1) s1 -> s_cur s1 = Some t -> terminator t = false ->
    separator = None ->
    list_read terminator separator fn v1 s1 v' s' ->
    list_read terminator separator fn v s v' s'.

(** The ways in which such a list is rejected: an element is, or what follows an element
    is neither. *)
Inductive list_rejected {S : Type} (terminator : predicator) (separator : option predicator)
    (fn : S -> prog (option S)) : S -> pst -> perr -> pst -> Prop :=
| lx_element v s e s' : run (fn v) s = OErr e s' -> list_rejected terminator separator fn v s e s'
| lx_nil v s v' s' : run (fn v) s = OOk (Some v') s' -> s_cur s' = None ->
    list_rejected terminator separator fn v s ENil s'
| lx_neither v s v' s' t sep path :
    run (fn v) s = OOk (Some v') s' -> s_cur s' = Some t -> terminator t = false ->
    separator = Some sep -> sep t = false -> ctx_path (s_heap s') (s_ctx s') = Some path ->
    list_rejected terminator separator fn v s
      (EAt path (p_line (t_start t)) (p_col (t_start t))) s'
| lx_separated v s v1 s1 t sep c s2 e s' :
    run (fn v) s = OOk (Some v1) s1 -> s_cur s1 = Some t -> terminator t = false ->
    separator = Some sep -> sep t = true -> next_token s1 = OOk c s2 ->
    list_rejected terminator separator fn v1 s2 e s' ->
    list_rejected terminator separator fn v s e s'
| lx_adjacent v s v1 s1 t e s' :
    run (fn v) s = OOk (Some v1) s1 -> s_cur s1 = Some t -> terminator t = false ->
    separator = None ->
    list_rejected terminator separator fn v1 s1 e s' ->
    list_rejected terminator separator fn v s e s'.

(** The word of a token: its type and text, reserved words in upper case. *)
Definition word_of (t : token) : ttype * gostring := (t_type t, value t).
Definition word (l : ttype * list rune) : ttype * gostring :=
  match l with
  | (ReservedWord, w) => (ReservedWord, to_upper w)
  | l => l
  end.

(** A parser that stands on the words [ws]: its current token is the first, and the
    tokenizer will return the others.  The end of the text is the word [weof].  Nothing is
    said about what comes after them. *)
Definition ahead (text : list rune) (k : tokenizer) (ws : list (ttype * gostring)) : Prop :=
  held text k /\ exists ts k', reads k ts k' /\ map word_of ts = ws.
Definition stands (text : list rune) (s : pst) (ws : list (ttype * gostring)) : Prop :=
  exists t ws', ws = word_of t :: ws' /\ s_cur s = Some t /\ ahead text (s_tok s) ws'.
Definition weof : ttype * gostring := (EOF, []).

(** Everything but the place in the text unchanged. *)
Definition same_but_place (s s' : pst) : Prop :=
  s_ctx s = s_ctx s' /\ s_post s = s_post s' /\ s_heap s = s_heap s'.

(** Symbols, reserved words and identifiers. *)
Definition wsym (x : string) : ttype * gostring := (SpecialSymbol, rs x).
Definition wkey (x : string) : ttype * gostring := (ReservedWord, rs x).
Definition wident (name : gostring) : ttype * gostring := (Identifier, name).

(** Pieces with commas between them. *)
Fixpoint commas (pieces : list (list (ttype * gostring))) : list (ttype * gostring) :=
  match pieces with
  | [] => []
  | [p] => p
  | p :: pieces' => p ++ wsym "," :: commas pieces'
  end.
(** Identifiers with commas between them. *)
Definition comma_list (names : list gostring) : list (ttype * gostring) :=
  commas (map (fun n => [wident n]) names).

End WithUnicode.
