(** Properties of WalkDown.  Definitions used in the statements are in WalkSpec (and
    the model in Walk); proofs in WalkMain. *)
From Coq Require Import List Arith Sorted Lia.
From Verif Require Import Walk WalkSpec WalkMain.
Import ListNotations.

(** C26. WalkDown calls the function on the nodes at all places of the tree, each place once,
    parents before children and left before right, until it fails. *)
Theorem walk_visits_in_order :
  forall (L S E : Type) (f : S -> tree L -> S * option E) t s,
    exists ps ns,
      StronglySorted before ps /\ (forall p, In p ps <-> at_place t p <> None) /\
      map Some ns = map (at_place t) ps /\
      walk_down f t s = call_each f ns s.
Proof. exact WalkMain.walk_visits_in_order. Qed.
Print Assumptions walk_visits_in_order.

(** A callback that notes labels and fails on label 4. *)
Local Definition note (s : list nat) (t : tree nat) : list nat * option nat :=
  match t with Node l _ => (s ++ [l], if l =? 4 then Some 99 else None) end.
Local Definition some_tree : tree nat :=
  Node 1 [Some (Node 2 [None; Some (Node 3 [])]); None; Some (Node 2 []); Some (Node 5 [Some (Node 6 [])])].
Example walk_visits_in_order_case :
  walk_down note some_tree [] = ([1; 2; 3; 2; 5; 6], None) /\
  walk_down note (Node 1 [Some (Node 2 []); Some (Node 4 [Some (Node 7 [])]); Some (Node 8 [])]) [] = ([1; 2; 4], Some 99).
Proof. split; reflexivity. Qed.

(** C26. There is only one such order, so the statement above fixes the walk. *)
Theorem walk_order_is_unique :
  forall ps qs,
    StronglySorted before ps -> StronglySorted before qs -> (forall p, In p ps <-> In p qs) -> ps = qs.
Proof. exact WalkMain.walk_order_is_unique. Qed.
Print Assumptions walk_order_is_unique.

(** C26. A returned error is that of the function on some node of the tree, and nothing ran after. *)
Theorem walk_stops_at_first_error :
  forall (L S E : Type) (f : S -> tree L -> S * option E) t s s' e,
    walk_down f t s = (s', Some e) ->
    exists p n s0, at_place t p = Some n /\ f s0 n = (s', Some e).
Proof. exact WalkMain.walk_stops_at_first_error. Qed.
Print Assumptions walk_stops_at_first_error.

(** C26. Without error every node was visited. *)
Theorem walk_without_error_visits_all :
  forall (L S E : Type) (f : S -> tree L -> S * option E) t s s',
    walk_down f t s = (s', None) ->
    forall p n, at_place t p = Some n -> exists s1 s2, f s1 n = (s2, None).
Proof. exact WalkMain.walk_without_error_visits_all. Qed.
Print Assumptions walk_without_error_visits_all.
