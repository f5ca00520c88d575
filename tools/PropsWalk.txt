(** Properties of WalkDown.  Definitions used in the statements are in WalkSpec (and
    the model in Walk); proofs in WalkMain. *)
From Coq Require Import List Arith Sorted Lia.
From Verif Require Import Walk WalkSpec WalkMain.
Import ListNotations.

@@ C26 WalkMain walk_visits_in_order
WalkDown calls the function on the nodes at all places of the tree, each place once,
    parents before children and left before right, until it fails.
---
(** A callback that notes labels and fails on label 4. *)
Local Definition note (s : list nat) (t : tree nat) : list nat * option nat :=
  match t with Node l _ => (s ++ [l], if l =? 4 then Some 99 else None) end.
Local Definition some_tree : tree nat :=
  Node 1 [Some (Node 2 [None; Some (Node 3 [])]); None; Some (Node 2 []); Some (Node 5 [Some (Node 6 [])])].
Example walk_visits_in_order_case :
  walk_down note some_tree [] = ([1; 2; 3; 2; 5; 6], None) /\
  walk_down note (Node 1 [Some (Node 2 []); Some (Node 4 [Some (Node 7 [])]); Some (Node 8 [])]) [] = ([1; 2; 4], Some 99).
Proof. split; reflexivity. Qed.

@@ C26 WalkMain walk_order_is_unique
There is only one such order, so the statement above fixes the walk.
---

@@ C26 WalkMain walk_stops_at_first_error
A returned error is that of the function on some node of the tree, and nothing ran after.
---

@@ C26 WalkMain walk_without_error_visits_all
Without error every node was visited.
---
