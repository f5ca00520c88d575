(** Walking down a syntax tree.  Model of /repo/ast/astcore/node.go:30-42.
    A node is what [Children] shows of it: something that tells it apart and its
    children, of which some may be nil. *)
From Coq Require Import List.
Import ListNotations.

Inductive tree (L : Type) := Node (label : L) (children : list (option (tree L))).
Arguments Node {L}.
Definition label {L} (t : tree L) : L := match t with Node l _ => l end.

(** ast/astcore/node.go:30-42.  The callback acts on a state (whatever it closes
    over) and may fail. *)
Fixpoint walk_down {L S E} (f : S -> tree L -> S * option E) (n : tree L) (s : S) : S * option E :=
  match f s n with
  | (s1, Some err) => (s1, Some err)
  | (s1, None) =>
      match n with
      | Node _ cs =>
          (fix loop (cs : list (option (tree L))) (s : S) : S * option E :=
             match cs with
             | [] => (s, None)
             | None :: cs' => loop cs' s
             | Some m :: cs' =>
                 match walk_down f m s with
                 | (s2, Some err) => (s2, Some err)
                 | (s2, None) => loop cs' s2
                 end
             end) cs s1
      end
  end.
