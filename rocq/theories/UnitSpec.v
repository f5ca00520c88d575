(** What the order of units and a uses clause should be. *)
From Coq Require Import String List NArith Bool Arith Permutation Relation_Operators.
From Verif Require Import Runes Token Tokenizer LexSpec Ast Heap MapSpec Prog ParseSpec.
Import ListNotations.
Local Open Scope list_scope.

Section WithUnicode.
Context {U : Unicode}.

(** ** Order *)

(** Somebody's topological sort: it orders all nodes so that edges lead forward, or there is
    a cycle.  Nothing is asked about other lists of nodes and edges. *)
Definition edge_of (edges : list (gostring * gostring)) (a b : gostring) : Prop := In (a, b) edges.
Definition before {A} (l : list A) (a b : A) : Prop := exists l1 l2 l3, l = l1 ++ a :: l2 ++ b :: l3.
Definition toposort_ok (topo : list gostring -> list (gostring * gostring) -> option (list gostring)) : Prop :=
  forall nodes edges,
    NoDup nodes -> NoDup edges -> (forall a b, In (a, b) edges -> In a nodes /\ In b nodes) ->
    match topo nodes edges with
    | Some order => Permutation order nodes /\ forall a b, In (a, b) edges -> before order a b
    | None => exists a, clos_trans _ (edge_of edges) a a
    end.

(** Units with names and uses clauses. *)
Section Units.
Context {A : Type} (name : A -> gostring) (uses : A -> list gostring).
(** The unit [u] names [v] in its uses clause. *)
Definition uses_unit (u v : A) : Prop := exists n, In n (uses u) /\ same_name n (name v).
Definition uses_among (l : list A) (u v : A) : Prop := In u l /\ In v l /\ uses_unit u v.
Definition circular (l : list A) : Prop := exists u, clos_trans _ (uses_among l) u u.
Definition distinct_names (l : list gostring) : Prop := NoDup (map to_lower l).
End Units.

(** ** Uses clauses *)

(** The items of a clause: names, and perhaps the text of a string. *)
Definition uses_source := list (gostring * option gostring).
Definition write_uses_item (i : gostring * option gostring) : list (ttype * gostring) :=
  wident (fst i) ::
  match snd i with None => [] | Some p => [wkey "IN"; (CharacterString, p)] end.
Definition write_uses (l : uses_source) : list (ttype * gostring) :=
  wkey "USES" :: commas (map write_uses_item l) ++ [wsym ";"].

(** The items [us] in the heap [h] say [l], and have a place in the text. *)
Definition uses_say (h : heap) (us : list nat) (l : uses_source) : Prop :=
  Forall2 (fun a i => exists o, nth_error (h_uses h) a = Some o /\
             i_name (u_ident o) = fst i /\ u_path o = snd i /\ u_unit o = None /\
             i_loc (u_ident o) <> None) us l.

(** The name [n], in the context [c], is the uses clause item [a]. *)
Definition names_item (h : heap) (c : nat) (n : gostring) (a : nat) : Prop :=
  exists d o, ctx_get h c n = LFound d /\ deref h d = Some o /\ d_node o = NUses a.

(** Not yet declared in the scope where the parser is; declared there, and it is known
    where. *)
Definition undeclared (h : heap) (c : nat) (n : gostring) : Prop :=
  exists o a m, nth_error (h_ctxs h) c = Some o /\ target (cx_map o) = Some a /\
    nth_error (h_maps h) a = Some m /\ mget (to_lower n) m = None.
Definition taken (h : heap) (c : nat) (n : gostring) : Prop :=
  exists o a m d, nth_error (h_ctxs h) c = Some o /\ target (cx_map o) = Some a /\
    nth_error (h_maps h) a = Some m /\ mget (to_lower n) m = Some (Some d) /\ located h d.

End WithUnicode.
