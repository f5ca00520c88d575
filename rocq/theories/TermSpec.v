(** What "the parser returns" means: the texts on which it may not, the contexts it needs,
    and how a call may end. *)
From Coq Require Import String List NArith Bool Arith.
From Verif Require Import Runes Token Tokenizer LexSpec Ast Heap Classes Prog Parser ParseSpec.
Import ListNotations.
Local Open Scope list_scope.

Section WithUnicode.
Context {U : Unicode}.

(** A rune that starts no token: a call of [GetNext] on the text returns nil. *)
Definition unknown_rune (text : list rune) : Prop :=
  exists k k', held text k /\ get_next k = GNil k'.
(** A string that is not closed: a call of [GetNext] on the text does not return. *)
Definition open_string (text : list rune) : Prop :=
  exists k, held text k /\ get_next k = GHang.
(** An ASM with no END up to the end of the text.  What is right behind ASM, a token or a
    rune that starts none, does not count: the parser skips it unseen. *)
Definition skips (k k' : tokenizer) : Prop := (exists x, get_next k = GTok x k') \/ get_next k = GNil k'.
Definition asm_without_end (text : list rune) : Prop :=
  exists k t k1 k2 ts e k3,
    held text k /\ tk_space k = false /\ tk_comment k = false /\
    get_next k = GTok t k1 /\ kw "ASM" t = true /\ skips k1 k2 /\
    reads k2 (ts ++ [e]) k3 /\ t_type e = EOF /\ Forall (fun u => kw "END" u = false) ts.
(** The reserved word TYPE *)
Definition has_type_section (text : list rune) : Prop :=
  exists t, token_of text t /\ kw "TYPE" t = true.

(** A declaration map whose parts all exist. *)
Fixpoint usable (h : heap) (m : dmap) : Prop :=
  match m with
  | DImpl a => a < length (h_maps h)
  | DChained p a => a < length (h_maps h) /\ usable h p
  | DComposite ms =>
      ms <> [] /\
      (fix all (ms : list dmap) : Prop :=
         match ms with [] => True | m :: ms' => usable h m /\ all ms' end) ms
  | DEmbedded => True
  | DNil => False
  end.
(** What a declared name stands for exists: the item of a uses clause and its unit, if it
    has one; a unit; a program.  Units in [unmapped], with the name in lower case they are
    declared under, may still have no map of declarations. *)
Definition unit_there (h : heap) (u : nat) : Prop :=
  exists o, nth_error (h_units h) u = Some o /\ usable h (un_map o).
Section Unmapped.
Context (unmapped : gostring -> nat -> Prop).
Definition node_there (h : heap) (key : gostring) (n : dnode) : Prop :=
  match n with
  | NUses a => exists o, nth_error (h_uses h) a = Some o /\ forall u, u_unit o = Some u -> unit_there h u
  | NUnit u => unit_there h u \/ unmapped key u
  | NProgram a => exists o, nth_error (h_progs h) a = Some o /\ usable h (pr_map o)
  | _ => True
  end.
Definition declared (h : heap) (key : gostring) (d : dref) : Prop :=
  exists o, deref h d = Some o /\ i_loc (d_ident o) <> None /\ node_there h key (d_node o).
(** Contexts as the constructors of programs and units make them, and maps of declarations
    that exist. *)
Definition sound_but (h : heap) : Prop :=
  Forall (fun o => (forall p, cx_kind o <> KStack p) /\ usable h (cx_map o)) (h_ctxs h) /\
  Forall (fun m : mapobj => Forall (fun e => exists d, snd e = Some d /\ declared h (fst e) d) m) (h_maps h).
End Unmapped.
Definition sound : heap -> Prop := sound_but (fun _ _ => False).

(** A parser at work on [text], a file named [path]: the tokenizer is right behind the
    current token, which is nil only behind a rune that starts no token. *)
Definition ready_but (unmapped : gostring -> nat -> Prop) (text : list rune) (path : gostring) (s : pst) : Prop :=
  parsing text s /\
  match s_cur s with
  | None => unknown_rune text
  | Some t => exists k t' k', held text k /\ tk_space k = false /\ tk_comment k = false /\
                get_next k = GTok t' k' /\ alike t' t /\ same_spot k' (s_tok s)
  end /\
  sound_but unmapped (s_heap s) /\ ctx_path (s_heap s) (s_ctx s) = Some path.
Definition ready : list rune -> gostring -> pst -> Prop := ready_but (fun _ _ => False).

(** From a type to the one that its questions are passed on to: ast/type_id.go:57-69,
    ast/type_struc.go:46-49, 64-67, ast/type_class.go:73-85. *)
Inductive leads (h : heap) : typ -> typ -> Prop :=
| leads_id ti ty : ref_type h ti = Some ty -> leads h (TId ti) ty
| leads_file p ti ty : ref_type h ti = Some ty -> leads h (TFile p ti) ty
| leads_set p ty : leads h (TSet p ty) ty
| leads_class p ps mem her' mem' :
    ref_type h p = Some (TClass her' mem') -> leads h (TClass (Some (p :: ps)) mem) (TClass her' mem').
(** The address of the reference that is followed *)
Definition cell_of (ty : typ) : option nat :=
  match ty with
  | TId ti | TFile _ ti | TClass (Some (ti :: _)) _ => Some (ti_ref ti)
  | _ => None
  end.
(** No chain of types from [ty] on has more than [n] members, and the references exist. *)
Fixpoint short (n : nat) (h : heap) (ty : typ) : Prop :=
  match n with
  | O => False
  | S n' => (forall c, cell_of ty = Some c -> c < length (h_refs h)) /\
            forall ty', leads h ty ty' -> short n' h ty'
  end.
(** So for all types declared. *)
Definition shallow (n : nat) (h : heap) : Prop :=
  forall d o ty, deref h d = Some o -> d_node o = NType ty -> short n h ty.

(** The place that an error names is in the file of the parser, and it is that of a token of
    the text that lies between where the call began and where it ended. *)
Definition cited (text : list rune) (path : gostring) (from : nat) (e : perr) (s' : pst) : Prop :=
  match e with
  | EAt p line col =>
      p = path /\ exists t, token_of text t /\ line = p_line (t_start t) /\ col = p_col (t_start t) /\
                            from <= start_of t <= place s'
  | ENil => unknown_rune text
  | EDup _ | EOther => True
  end.

(** Two tokens, one right behind the other; a name of this kind with a dot behind it. *)
Definition adjacent (text : list rune) (t t1 : token) : Prop :=
  exists k k1 k2, held text k /\ tk_space k = false /\ tk_comment k = false /\
    get_next k = GTok t k1 /\ get_next k1 = GTok t1 k2.
Definition qualifies (text : list rune) (names : gostring -> Prop) : Prop :=
  exists t t1, adjacent text t t1 /\ t_type t = Identifier /\ sym "." t1 = true /\ names (to_lower (value t)).

(** Ways to end.  [safe]: a panic only because of a rune that starts no token, waiting for
    ever in the tokenizer only because of a string that is not closed; otherwise a result or
    an error, and the parser can go on working. *)
Definition safe {A} (text : list rune) (path : gostring) (from : nat) (o : outcome A) : Prop :=
  match o with
  | OOk _ s' => ready text path s'
  | OErr e s' => ready text path s' /\ cited text path from e s'
  | OPanic => unknown_rune text
  | OHang => open_string text
  | OStuck => True
  end.
(** [returns]: the same, and it does end. *)
Definition returns {A} (text : list rune) (path : gostring) (from : nat) (o : outcome A) : Prop :=
  safe text path from o /\ o <> OStuck.
(** The types declared are as shallow afterwards, so that the next call is in the same case. *)
Definition still_shallow {A} (D : nat) (o : outcome A) : Prop :=
  match o with OOk _ s' | OErr _ s' => shallow D (s_heap s') | _ => True end.
(** A result or an error. *)
Definition gives {A} (o : outcome A) : Prop :=
  (exists a s', o = OOk a s') \/ (exists e s', o = OErr e s').

End WithUnicode.
