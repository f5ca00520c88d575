(** Places in a tree and the order parents first, children from left to right. *)
From Coq Require Import List Arith.
From Verif Require Import Walk.
Import ListNotations.

(** A place: child numbers from the root down. *)
Definition place := list nat.
Fixpoint at_place {L} (t : tree L) (p : place) : option (tree L) :=
  match p with
  | [] => Some t
  | i :: p' => match t with
               | Node _ cs => match nth_error cs i with
                              | Some (Some c) => at_place c p'
                              | _ => None
                              end
               end
  end.
(** Before: a proper prefix (an ancestor), or further left where they part. *)
Inductive before : place -> place -> Prop :=
| before_prefix i p : before [] (i :: p)
| before_left i j p q : i < j -> before (i :: p) (j :: q)
| before_deeper i p q : before p q -> before (i :: p) (i :: q).

(** Calling [f] on one node after the other until it fails. *)
Fixpoint call_each {L S E} (f : S -> tree L -> S * option E) (ns : list (tree L)) (s : S) : S * option E :=
  match ns with
  | [] => (s, None)
  | n :: ns' => match f s n with
                | (s1, Some err) => (s1, Some err)
                | (s1, None) => call_each f ns' s1
                end
  end.
