(** What "parsing a program with its units returns" means: the files it reads, and the ones
    on which it may not. *)
From Coq Require Import String List NArith Bool Arith.
From Verif Require Import Runes Token Tokenizer LexSpec Ast Heap MapSpec Prog Parser ParseSpec Units UnitSpec TermSpec.
Import ListNotations.
Local Open Scope list_scope.

Section WithUnicode.
Context {U : Unicode}.

(** The tokens that a text begins with *)
Definition begins (text : list rune) (ws : list (ttype * gostring)) : Prop :=
  exists ts k, reads (new_tokenizer text false false) ts k /\ map word_of ts = ws.

(** The files that the items of a uses clause name: the string behind IN without its
    quotes, with [sep] for backslashes. *)
Definition without_quotes (q : gostring) : gostring :=
  let q1 := match q with c :: q' => if (c =? 39)%N then q' else q | [] => [] end in
  match rev q1 with c :: q' => if (c =? 39)%N then rev q' else q1 | [] => [] end.
Definition item_file (sep : rune) (i : gostring * option gostring) : list gostring :=
  match snd i with
  | None => []
  | Some q =>
      match map (fun r => if (r =? 92)%N then sep else r) (without_quotes q) with
      | [] => []
      | p => [p]
      end
  end.
Definition unit_files (sep : rune) (l : uses_source) : list gostring := flat_map (item_file sep) l.

(** The context of a unit of a new program, as [NewUnitContext(NewProgramContext(program), path)]
    makes it *)
Definition lone_unit_context (program path : gostring) : heap * nat :=
  let '(h, pc) := new_program_context heap0 program in new_unit_context h pc path.

(** An error about a file: one with a position is in that file, where a token of its text
    starts. *)
Definition error_at (text : list rune) (path : gostring) (e : perr) : Prop :=
  match e with
  | EAt p line col => p = path /\ exists t, token_of text t /\ line = p_line (t_start t) /\ col = p_col (t_start t)
  | ENil => unknown_rune text
  | EDup _ | EOther => True
  end.

Section Files.
Context (files : gostring -> option (list rune)) (sep : rune) (main : list rune).
(** The uses clause of the program [main]; the texts of the files that it names; all texts
    that are read. *)
Definition program_uses (l : uses_source) : Prop :=
  exists name, begins main ([wkey "PROGRAM"; wident name; wsym ";"] ++ write_uses l).
Definition unit_text (text : list rune) : Prop :=
  exists l p, program_uses l /\ In p (unit_files sep l) /\ files p = Some text.
Definition program_text (text : list rune) : Prop := text = main \/ unit_text text.
(** The unit in a text; two items of the uses clause that name units of one name *)
Definition unit_called (text : list rune) (n : gostring) : Prop := begins text [wkey "UNIT"; wident n].
Definition clash : Prop :=
  exists l i j p q t1 t2 n1 n2, program_uses l /\ i <> j /\
    nth_error (unit_files sep l) i = Some p /\ nth_error (unit_files sep l) j = Some q /\
    files p = Some t1 /\ files q = Some t2 /\ unit_called t1 n1 /\ unit_called t2 n2 /\ same_name n1 n2.

(** Every file that the items of a uses clause name is there, and is a unit with the name of one of the items. *)
Definition named_units (l : uses_source) : Prop :=
  Forall (fun q => exists text name i, files q = Some text /\ unit_called text name /\ In i l /\ same_name name (fst i))
         (unit_files sep l).

(** How it may end: a panic only because of a rune that starts no token, or because a unit
    qualifies something with its own name; waiting for ever in the tokenizer only because of
    a string that is not closed.  A program that comes out has no dangling declarations. *)
Definition program_safe {A} (r : result A) : Prop :=
  match r with
  | ROk _ h => sound h
  | RErr _ _ => True
  | RPanic => (exists text, program_text text /\ unknown_rune text) \/
      (exists text n, unit_text text /\ unit_called text n /\ qualifies text (fun k => k = to_lower n))
  | RHang => exists text, program_text text /\ open_string text
  | RStuck => True
  end.
(** Where the errors of parsing the program in the file [path] are: in that file or in a
    file of a unit. *)
Definition error_in_files (path : gostring) (e : perr) : Prop :=
  error_at main path e \/
  exists l p text, program_uses l /\ In p (unit_files sep l) /\ files p = Some text /\ error_at text p e.
End Files.
End WithUnicode.
