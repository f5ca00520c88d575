(** What string sets, string lists and the logger should do, said without the
    model: histories, membership, nesting. *)
From Coq Require Import List NArith Bool Arith Permutation Sorted.
From Verif Require Import Runes Ext.
Import ListNotations.

(** A history of calls on a string set. *)
Inductive set_op := OpAdd (s : gostring) | OpRemove (s : gostring).
Definition set_step (m : string_set) (o : set_op) : string_set :=
  match o with OpAdd s => ss_add s m | OpRemove s => ss_remove s m end.
Definition set_run (h : list set_op) : string_set := fold_left set_step h [].

(** [s] was added and not removed since. *)
Definition member_after (h : list set_op) (s : gostring) : Prop :=
  exists before after, h = before ++ OpAdd s :: after /\ ~ In (OpRemove s) after.

(** An order of iteration: it lists the keys, each once. *)
Definition iterates (order : string_set -> list gostring) : Prop :=
  forall m, Permutation m (order m).

(** [l] in increasing order. *)
Definition ascending (l : list gostring) : Prop := Sorted (fun a b => str_leb a b = true) l.

(** [p] is a part of [l], in order, made of exactly the elements with [P]. *)
Inductive picks {A} (P : A -> Prop) : list A -> list A -> Prop :=
| picks_nil : picks P [] []
| picks_take x l p : P x -> picks P l p -> picks P (x :: l) (x :: p)
| picks_skip x l p : ~ P x -> picks P l p -> picks P (x :: l) p.

(** Well-nested use of SetLogger: set, do things, put back; several in a row. *)
Inductive log_block :=
| LDone
| LMessage (next : log_block)
| LWith (new : nat) (inside next : log_block).
(** Running it: the state after, and where each message went. *)
Fixpoint log_run (b : log_block) (l : log_state) : log_state * list nat :=
  match b with
  | LDone => (l, [])
  | LMessage n => let '(l', ms) := log_run n l in (l', log_printf l :: ms)
  | LWith new i n =>
      let '(l1, backup) := set_logger new l in
      let '(l2, ms2) := log_run i l1 in
      let '(l3, ms3) := log_run n (restore_logger backup l2) in
      (l3, ms2 ++ ms3)
  end.
(** Where messages should go: to the innermost logger in force. *)
Fixpoint log_expect (b : log_block) (l : nat) : list nat :=
  match b with
  | LDone => []
  | LMessage n => l :: log_expect n l
  | LWith new i n => log_expect i new ++ log_expect n l
  end.
