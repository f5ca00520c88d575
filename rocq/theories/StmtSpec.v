(** What statements look like in source form, which trees have one, and what their names
    must stand for. *)
From Coq Require Import String List NArith Bool Arith.
From Verif Require Import Runes Token Tokenizer LexSpec Ast Heap MapSpec Prog ParseSpec ExprSpec.
Import ListNotations.
Local Open Scope list_scope.

Section WithUnicode.
Context {U : Unicode}.

Notation words := (list (ttype * gostring)).

(** Pieces with semicolons between them. *)
Fixpoint semicolons (pieces : list words) : words :=
  match pieces with
  | [] => []
  | [p] => p
  | p :: ps => p ++ wsym ";" :: semicolons ps
  end.

(** What a source form leaves open: a semicolon behind the last statement of every list, or
    none; and the letter case of ON and AT, which are not reserved words. *)
Record spelling := mkSpelling {
  semi : bool;
  on_word : gostring;
  at_word : gostring;
  on_upper : to_upper on_word = rs "ON";
  at_upper : to_upper at_word = rs "AT" }.

Section Style.
Context (sp : spelling).
Definition last_semi : words := if semi sp then [wsym ";"] else [].

(** ** Source form *)
Definition write_label (r : expr * option expr) : words :=
  write_expr (fst r) ++ match snd r with None => [] | Some e => wsym ".." :: write_expr e end.
Definition write_type (t : typ) : words :=
  match t with TId i => [wident (i_name (ti_ident i))] | _ => [] end.
Fixpoint write_stmt (s : stmt) : words :=
  match s with
  | Stmt label b =>
      match label with None => [] | Some i => [wident (i_name i); wsym ":"] end ++ write_body b
  end
with write_body (b : sbody) : words :=
  match b with
  | SAssign d e => write_desig d ++ wsym ":=" :: write_expr e
  | SCall d args =>
      write_desig d ++
      match args with None => [] | Some es => wsym "(" :: commas (map write_expr es) ++ [wsym ")"] end
  | SInherited => [wkey "INHERITED"]
  | SGoto i _ => [wkey "GOTO"; wident (i_name i)]
  | SCompound l => wkey "BEGIN" :: semicolons (map write_stmt l) ++ last_semi ++ [wkey "END"]
  | SIf e s1 s2 =>
      wkey "IF" :: write_expr e ++ wkey "THEN" :: write_stmt s1 ++
      match s2 with None => [] | Some s => wkey "ELSE" :: write_stmt s end
  | SCase e sels els =>
      wkey "CASE" :: write_expr e ++ wkey "OF" ::
      flat_map (fun r => commas (map write_label (fst r)) ++ wsym ":" :: write_stmt (snd r) ++ [wsym ";"]) sels ++
      match els with
      | None => []
      | Some l => wkey "ELSE" :: semicolons (map write_stmt l) ++ last_semi
      end ++ [wkey "END"]
  | SRepeat l e =>
      wkey "REPEAT" :: semicolons (map write_stmt l) ++ last_semi ++ wkey "UNTIL" :: write_expr e
  | SWhile e s => wkey "WHILE" :: write_expr e ++ wkey "DO" :: write_stmt s
  | SFor q e1 e2 down s =>
      wkey "FOR" :: write_name q ++ wsym ":=" :: write_expr e1 ++
      wkey (if down then "DOWNTO" else "TO") :: write_expr e2 ++ wkey "DO" :: write_stmt s
  | SWith qs s => wkey "WITH" :: commas (map write_name qs) ++ wkey "DO" :: write_stmt s
  | STryExcept l hs els =>
      wkey "TRY" :: semicolons (map write_stmt l) ++ last_semi ++ wkey "EXCEPT" ::
      match hs with
      | [] => match els with None => [] | Some l2 => semicolons (map write_stmt l2) ++ last_semi end
      | _ =>
          semicolons (map (fun h =>
            wident (on_word sp) ::
            match fst (fst h) with None => [] | Some i => [wident (i_name i); wsym ":"] end ++
            write_type (snd (fst h)) ++ wkey "DO" :: write_stmt (snd h)) hs) ++ last_semi ++
          match els with
          | None => []
          | Some l2 => wkey "ELSE" :: semicolons (map write_stmt l2) ++ last_semi
          end
      end ++ [wkey "END"]
  | STryFinally l1 l2 =>
      wkey "TRY" :: semicolons (map write_stmt l1) ++ last_semi ++
      wkey "FINALLY" :: semicolons (map write_stmt l2) ++ last_semi ++ [wkey "END"]
  | SRaise obj addr =>
      wkey "RAISE" ::
      match obj with None => [] | Some e => write_expr e end ++
      match addr with None => [] | Some e => wident (at_word sp) :: write_expr e end
  | SAsm => []
  end.

(** ** Names *)

(** As for expressions; and which names are labels, which are not. *)
Record senv := mkSenv { names : env; a_label : gostring -> Prop; no_label : gostring -> Prop }.
Definition senv_at (h : heap) (c : nat) : senv :=
  mkSenv (env_at h c)
         (fun n => exists d, resolves h c n d NLabel)
         (fun n => ctx_get h c n = LNil \/ exists d x, resolves h c n d x /\ x <> NLabel).

(** The variables of the exception handlers of a statement, in their order. *)
Fixpoint handler_vars (s : stmt) : list gostring :=
  match s with Stmt _ b => body_vars b end
with body_vars (b : sbody) : list gostring :=
  match b with
  | SCompound l | SRepeat l _ => flat_map handler_vars l
  | SIf _ s1 s2 => handler_vars s1 ++ match s2 with None => [] | Some s => handler_vars s end
  | SCase _ sels els =>
      flat_map (fun r => handler_vars (snd r)) sels ++
      match els with None => [] | Some l => flat_map handler_vars l end
  | SWhile _ s | SFor _ _ _ _ s | SWith _ s => handler_vars s
  | STryExcept l hs els =>
      flat_map handler_vars l ++
      flat_map (fun h => match fst (fst h) with None => [] | Some i => [i_name i] end ++ handler_vars (snd h)) hs ++
      match els with None => [] | Some l2 => flat_map handler_vars l2 end
  | STryFinally l1 l2 => flat_map handler_vars l1 ++ flat_map handler_vars l2
  | _ => []
  end.
(** Not yet declared in the scope where the parser is. *)
Definition vacant (h : heap) (c : nat) (n : gostring) : Prop :=
  exists o a m, nth_error (h_ctxs h) c = Some o /\ target (cx_map o) = Some a /\
    nth_error (h_maps h) a = Some m /\ mget (to_lower n) m = None.

(** ** The trees that have a source form *)

(** The words that may come after a statement. *)
Definition stmt_ends : words :=
  [wsym ";"; wkey "END"; wkey "ELSE"; wkey "UNTIL"; wkey "EXCEPT"; wkey "FINALLY"; wkey "FINALIZATION"; weof].

(** [P] of the elements of a list that is not empty; with [true] of the last one. *)
Definition each {A} (P : bool -> A -> Prop) : list A -> Prop :=
  fix go (l : list A) : Prop :=
    match l with
    | [] => False
    | a :: l' => match l' with [] => P true a | _ => P false a /\ go l' end
    end.

Section Env.
Context (en : senv).

Definition good_label (r : expr * option expr) : Prop :=
  good_expr (names en) (fst r) /\ match snd r with None => True | Some e => good_expr (names en) e end.
Definition a_name (n : gostring) : Prop := plain_name (names en) n \/ type_name (names en) n.
Definition good_type (t : typ) : Prop :=
  match t with TId i => ti_unit i = None /\ a_name (i_name (ti_ident i)) | _ => False end.
(** What comes behind the element of a list that ends with [close]. *)
Definition behind (last : bool) (close : ttype * gostring) : ttype * gostring :=
  if last && negb (semi sp) then close else wsym ";".
Definition first_word (ws : words) : gostring := match ws with [] => [] | w :: _ => snd w end.

(** [good_stmt s after]: a statement before the word [after].  A branch before ELSE does
    not end with an IF without ELSE; a bare RAISE is followed by a semicolon; lists are
    not empty; a statement begins with the name of a label only if it is labelled; the
    types of exception handlers are names. *)
Fixpoint good_stmt (s : stmt) (after : ttype * gostring) : Prop :=
  match s with
  | Stmt label b =>
      match label with
      | None => no_label en (first_word (write_body b))
      | Some i => a_label en (i_name i)
      end /\ good_body b after
  end
with good_body (b : sbody) (after : ttype * gostring) : Prop :=
  match b with
  | SAssign d e => good_desig (names en) d /\ good_expr (names en) e
  | SCall d args =>
      good_desig (names en) d /\
      match args with None => True | Some es => es <> [] /\ all (good_expr (names en)) es end
  | SInherited => True
  | SGoto i _ => a_label en (i_name i) \/ no_label en (i_name i)
  | SCompound l => each (fun last s => good_stmt s (behind last (wkey "END"))) l
  | SIf e s1 s2 =>
      good_expr (names en) e /\
      match s2 with
      | None => after <> wkey "ELSE" /\ good_stmt s1 after
      | Some s => good_stmt s1 (wkey "ELSE") /\ good_stmt s after
      end
  | SCase e sels els =>
      good_expr (names en) e /\ sels <> [] /\
      all (fun r => fst r <> [] /\ all good_label (fst r) /\ good_stmt (snd r) (wsym ";")) sels /\
      match els with
      | None => True
      | Some l => each (fun last s => good_stmt s (behind last (wkey "END"))) l
      end
  | SRepeat l e =>
      each (fun last s => good_stmt s (behind last (wkey "UNTIL"))) l /\ good_expr (names en) e
  | SWhile e s => good_expr (names en) e /\ good_stmt s after
  | SFor q e1 e2 _ s =>
      good_name (names en) q /\ good_expr (names en) e1 /\ good_expr (names en) e2 /\ good_stmt s after
  | SWith qs s => qs <> [] /\ all (good_name (names en)) qs /\ good_stmt s after
  | STryExcept l hs els =>
      each (fun last s => good_stmt s (behind last (wkey "EXCEPT"))) l /\
      match hs with
      | [] =>
          match els with
          | None => False
          | Some l2 => each (fun last s => good_stmt s (behind last (wkey "END"))) l2 /\
                       to_upper (first_word (semicolons (map write_stmt l2))) <> rs "ON"
          end
      | _ =>
          each (fun last h =>
            good_type (snd (fst h)) /\
            match fst (fst h) with
            | None => match snd (fst h) with TId i => type_name (names en) (i_name (ti_ident i)) | _ => False end
            | Some i => forall n, same_name n (i_name i) -> plain_name (names en) n /\ no_label en n
            end /\
            good_stmt (snd h)
              (behind last (match els with None => wkey "END" | Some _ => wkey "ELSE" end))) hs /\
          match els with
          | None => True
          | Some l2 => each (fun last s => good_stmt s (behind last (wkey "END"))) l2
          end
      end
  | STryFinally l1 l2 =>
      each (fun last s => good_stmt s (behind last (wkey "FINALLY"))) l1 /\
      each (fun last s => good_stmt s (behind last (wkey "END"))) l2
  | SRaise obj addr =>
      match obj, addr with
      | None, None => after = wsym ";"
      | _, _ =>
          match obj with
          | None => True
          | Some e => good_expr (names en) e /\ to_upper (first_word (write_expr e)) <> rs "AT"
          end /\
          match addr with None => True | Some e => good_expr (names en) e end
      end
  | SAsm => False
  end.
End Env.
End Style.

(** ** Trees without places and references *)
Definition bare_type (t : typ) : typ := match t with TId i => TId (bare_typeid i) | _ => t end.
Fixpoint bare_stmt (s : stmt) : stmt :=
  match s with Stmt label b => Stmt (option_map bare_ident label) (bare_body b) end
with bare_body (b : sbody) : sbody :=
  match b with
  | SAssign d e => SAssign (bare_desig d) (bare_expr e)
  | SCall d args => SCall (bare_desig d) (option_map (map bare_expr) args)
  | SInherited => SInherited
  | SGoto i _ => SGoto (bare_ident i) None
  | SCompound l => SCompound (map bare_stmt l)
  | SIf e s1 s2 => SIf (bare_expr e) (bare_stmt s1) (option_map bare_stmt s2)
  | SCase e sels els =>
      SCase (bare_expr e)
            (map (fun r => (map (fun x => (bare_expr (fst x), option_map bare_expr (snd x))) (fst r),
                            bare_stmt (snd r))) sels)
            (option_map (map bare_stmt) els)
  | SRepeat l e => SRepeat (map bare_stmt l) (bare_expr e)
  | SWhile e s => SWhile (bare_expr e) (bare_stmt s)
  | SFor q e1 e2 down s => SFor (bare_qual q) (bare_expr e1) (bare_expr e2) down (bare_stmt s)
  | SWith qs s => SWith (map bare_qual qs) (bare_stmt s)
  | STryExcept l hs els =>
      STryExcept (map bare_stmt l)
                 (map (fun h => (option_map bare_ident (fst (fst h)), bare_type (snd (fst h)), bare_stmt (snd h))) hs)
                 (option_map (map bare_stmt) els)
  | STryFinally l1 l2 => STryFinally (map bare_stmt l1) (map bare_stmt l2)
  | SRaise obj addr => SRaise (option_map bare_expr obj) (option_map bare_expr addr)
  | SAsm => SAsm
  end.

(** ** IF and ELSE *)

(** What stands open before a statement: IF with a condition, IF with a condition and a
    branch before ELSE, or the head of a loop or of WITH. *)
Inductive head :=
| HIf (e : expr)
| HElse (e : expr) (s : stmt)
| HWhile (e : expr)
| HFor (q : qualid) (e1 e2 : expr) (down : bool)
| HWith (qs : list qualid).
Definition under (h : head) (s : stmt) : stmt :=
  Stmt None match h with
            | HIf e => SIf e s None
            | HElse e s1 => SIf e s1 (Some s)
            | HWhile e => SWhile e s
            | HFor q e1 e2 down => SFor q e1 e2 down s
            | HWith qs => SWith qs s
            end.
(** Under several heads, the outermost first. *)
Definition below (hs : list head) (s : stmt) : stmt := fold_right under s hs.

End WithUnicode.
