(** What a program with units in files looks like, and what it says when it has been parsed. *)
From Coq Require Import String List NArith Bool Arith Relation_Operators.
From Verif Require Import Runes Token Tokenizer LexSpec Ast Heap MapSpec Prog ParseSpec ExprSpec StmtSpec UnitSpec TermUnitSpec DeclSpec UnitTextSpec.
Import ListNotations.
Local Open Scope list_scope.

Section WithUnicode.
Context {U : Unicode}.

Notation words := (list (ttype * gostring)).

(** A program with a uses clause *)
Record program_source := mkProgramSource {
  ps_name : gostring;
  ps_uses : uses_source;
  ps_block : block }.
Definition write_program (st : style) (p : program_source) : words :=
  wkey "PROGRAM" :: wident (ps_name p) :: wsym ";" :: write_uses (ps_uses p) ++ write_block st (ps_block p) ++ [wsym "."].

(** ** Names *)
Definition named {A} (name : A -> gostring) (l : list A) (n : gostring) : option A :=
  find (fun a => if list_eq_dec N.eq_dec (to_lower n) (to_lower (name a)) then true else false) l.
(** What a unit declares the name [n] as for those that use it; for a list of units, the
    last one of them that declares it. *)
Definition declares (u : unit_source) (n : gostring) : option decl :=
  named (fun d => i_name (d_ident d)) (entries (us_decls u)) n.
Fixpoint denotes (l : list unit_source) (n : gostring) : option decl :=
  match l with
  | [] => None
  | u :: l' => match denotes l' n with Some d => Some d | None => declares u n end
  end.
Definition is_type (d : decl) : Prop := match d_node d with NType _ => True | _ => False end.
Definition is_ordinal_type (d : decl) : Prop :=
  match d_node d with NType (TEnum _) | NType (TSubrange _ _) => True | _ => False end.

(** Where what the units [l] declare is seen first, then what [sc] says.  All names can be
    declared anew. *)
Definition import (l : list unit_source) (sc : scope) : scope :=
  let en := names (known sc) in
  mkScope
    (mkSenv (mkEnv (visible en)
                   (fun n => match denotes l n with Some d => ~ is_type d | None => plain_name en n end)
                   (fun n => match denotes l n with Some d => is_type d | None => type_name en n end)
                   (fun n m d d' => denotes l n = None /\ member en n m d d'))
            (fun n => denotes l n = None /\ a_label (known sc) n)
            (fun n => denotes l n <> None \/ no_label (known sc) n))
    (fun _ => True)
    (fun n => denotes l n = None /\ undeclared sc n)
    (fun n => match denotes l n with Some d => is_ordinal_type d /\ ~ built_in n | None => ordinal sc n end).
(** Where what [sc] says is seen first, then perhaps what the units [l] declare. *)
Definition beside (l : list unit_source) (sc : scope) : scope :=
  let en := names (known sc) in
  mkScope
    (mkSenv (mkEnv (visible en)
                   (fun n => plain_name en n /\ forall d, denotes l n = Some d -> ~ is_type d)
                   (type_name en) (member en))
            (a_label (known sc)) (no_label (known sc)))
    (free sc)
    (fun n => undeclared sc n /\ denotes l n = None)
    (ordinal sc).
(** Each name in [l] can qualify what its unit declares. *)
Definition qualified (l : list (gostring * unit_source)) (sc : scope) : scope :=
  let en := names (known sc) in
  mkScope
    (mkSenv (mkEnv (visible en) (plain_name en) (type_name en)
                   (fun x m d d' => member en x m d d' \/
                      exists n u, In (n, u) l /\ same_name x n /\ declares u m <> None))
            (a_label (known sc)) (no_label (known sc)))
    (free sc) (undeclared sc) (ordinal sc).

Section Units.
(** All units of the program *)
Context (all : list unit_source).
Definition unit_named (n : gostring) : option unit_source := named us_name all n.
(** The units that a uses clause names, as far as the program has them: with their names in
    the clause, and alone *)
Definition named_units (l : option uses_source) : list (gostring * unit_source) :=
  flat_map (fun n => match unit_named n with Some u => [(n, u)] | None => [] end) (clause_names l).
Definition used (l : option uses_source) : list unit_source := map snd (named_units l).
(** Behind a uses clause *)
Definition clause_scope (l : option uses_source) (sc : scope) : scope := qualified (named_units l) (after_clause l sc).

(** Where the declarations of the interface section begin; of the implementation section *)
Definition interface_scope (u : unit_source) : scope :=
  declare_unit (us_name u) (import (used (us_uses u)) (clause_scope (us_uses u) program_scope)).
Definition behind_interface (u : unit_source) : scope := behind_all after_intf (us_decls u) (interface_scope u).
Definition implementation_scope (u : unit_source) : scope :=
  beside (used (us_impl_uses u)) (clause_scope (us_impl_uses u) (behind_interface u)).
(** A unit of the program *)
Definition good_unit_among (st : style) (u : unit_source) : Prop :=
  good_port (us_port u) /\
  good_clause (us_uses u) program_scope /\
  distinct_names (entry_names (us_decls u)) /\
  good_interface st u (interface_scope u) /\
  good_clause (us_impl_uses u) (behind_interface u) /\
  good_implementation st u (implementation_scope u).
(** Where the block of the program begins *)
Definition block_scope (p : program_source) : scope :=
  declare_unit (ps_name p)
    (qualified (map (fun u => (us_name u, u)) all)
      (declare_units (map us_name all) (import all (after_clause (Some (ps_uses p)) program_scope)))).
End Units.

(** ** Files *)

(** The items of a uses clause that name a file: name and file *)
Definition items_with_file (sep : rune) (l : uses_source) : list (gostring * gostring) :=
  flat_map (fun i => map (pair (fst i)) (item_file sep i)) l.
(** The text begins with the words [ws], and has no more than [size] words. *)
Definition text_of (size : nat) (ws : words) (text : list rune) : Prop :=
  exists ls rest, written ls text /\ map word ls = ws ++ rest /\ length ls <= size.

Section Files.
Context (files : gostring -> option (list rune)) (sep : rune) (size : nat).
(** The file that an item names has the text of the unit, and the unit has the item's name. *)
Definition in_its_file (i : gostring * gostring) (x : style * unit_source) : Prop :=
  same_name (fst i) (us_name (snd x)) /\
  exists text, files (snd i) = Some text /\ text_of size (write_unit (fst x) (snd x)) text.
(** The program [p] in the file [path], with the units [xs] *)
Definition good_program (path : gostring) (st : style) (p : program_source) (xs : list (style * unit_source)) : Prop :=
  (exists text, files path = Some text /\ text_of size (write_program st p) text) /\
  good_clause (Some (ps_uses p)) program_scope /\
  Forall2 in_its_file (items_with_file sep (ps_uses p)) xs /\
  ~ circular us_name (fun u => clause_names (us_uses u)) (map snd xs) /\
  Forall (fun x => good_unit_among (map snd xs) (fst x) (snd x)) xs /\
  good_block st (ps_block p) (block_scope (map snd xs) p).
End Files.

(** ** What is said *)

(** The items [us] say [l], and each has the unit of its name, if there is one among [xs];
    [at_] are their addresses. *)
Definition item_linked (h : heap) (at_ : list nat) (xs : list unit_source) (a : nat) (i : gostring * option gostring) : Prop :=
  exists o, nth_error (h_uses h) a = Some o /\ i_name (u_ident o) = fst i /\ u_path o = snd i /\
    forall v, u_unit o = Some v <->
      exists k x, nth_error at_ k = Some v /\ nth_error xs k = Some x /\ same_name (us_name x) (fst i).
Definition clause_linked (h : heap) (at_ : list nat) (xs : list unit_source) (us : option (list nat)) (l : option uses_source) : Prop :=
  match us, l with
  | None, None => True
  | Some us, Some l => Forall2 (item_linked h at_ xs) us l
  | _, _ => False
  end.
(** The unit at [v] says what the file of the item [i] has. *)
Definition unit_linked (h : heap) (at_ : list nat) (xs : list unit_source) (v : nat) (x : unit_source * gostring) : Prop :=
  exists o, nth_error (h_units h) v = Some o /\
    unit_holds (clause_linked h at_ xs) o (snd x) (fst x) /\ answers_for_interface h o.
(** The program at [pa] and its units at [at_] say all that was written. *)
Definition program_says (h : heap) (pa : nat) (at_ : list nat) (path : gostring) (sep : rune) (p : program_source)
    (xs : list unit_source) : Prop :=
  (exists i us b m, nth_error (h_progs h) pa = Some (mkProg path i (Some (mkProgramBlock (Some us) b)) m) /\
     i_name i = ps_name p /\ bare_block b = bare_block (ps_block p) /\
     clause_linked h at_ xs (Some us) (Some (ps_uses p))) /\
  Forall2 (unit_linked h at_ xs) at_ (combine xs (map snd (items_with_file sep (ps_uses p)))).

End WithUnicode.
