(** The outcome of a run and the order in which Go walks over maps.  Definitions used in the
    statements are in SameSpec, UnitSpec and ExtSpec (and the model in Units); proofs in SameMain. *)
From Coq Require Import String List NArith Bool Arith Lia Permutation Relation_Operators.
From Verif Require Import Runes UnicodeFacts Token Tokenizer Ast Heap MapSpec Prog Parser Units UnitSpec Ext ExtSpec SortMain
  SameSpec SameMain ParseExamples.
Import ListNotations.

(** The examples use the Latin-1 tables. *)
#[local] Existing Instance latin1 | 100.
#[local] Existing Instance latin1_ok | 100.

(** Three units; of any two one uses the other. *)
Definition line (path : gostring) : option (list rune) :=
  if runes_equal path (rs "p.dpr") then Some (rs
    "program p; uses A in 'a.pas', B in 'b.pas', C in 'c.pas'; var own: TB; begin own := 1; end.") else
  if runes_equal path (rs "a.pas") then Some (rs "unit A; interface uses b; type TA = TB; implementation uses C; end.") else
  if runes_equal path (rs "b.pas") then Some (rs "unit B; interface uses C, Other; type TB = TC; implementation end.") else
  if runes_equal path (rs "c.pas") then Some (rs "unit C; interface type TC = Integer; implementation uses A; end.") else None.

(** C56. When ParseProgram accepts a program whose units have different names, and of any two of them one
uses the other in its interface section, by way of others perhaps, then it ends with the very same
tree, declarations and links whatever order Go walks over the names of the units in, and whatever
topological sort does the sorting. *)
Theorem order_of_maps_does_not_matter {U : Unicode} {UOK : UnicodeOk U} :
  forall n files sep order topo order' topo' path pa pc h, iterates order -> toposort_ok topo -> iterates order' -> toposort_ok topo' ->
  parse_program (recs_at n) files sep order topo path = ROk (pa, pc) h ->
  distinct_names (map (fun o => i_name (un_ident o)) (h_units h)) -> units_in_line h ->
  parse_program (recs_at n) files sep order' topo' path = ROk (pa, pc) h.
Proof. exact SameMain.order_of_maps_does_not_matter. Qed.
Print Assumptions order_of_maps_does_not_matter.

Example order_of_maps_does_not_matter_example :
  iterates (fun m => m) /\ iterates (@rev _) /\ toposort_ok some_toposort /\
  match parse_program (recs_at 60) line 47%N (fun m => m) some_toposort (rs "p.dpr") with
  | ROk (pa, pc) h =>
      map (fun o => i_name (un_ident o)) (h_units h) = map rs ["A"; "B"; "C"]%string /\
      distinct_names (map (fun o => i_name (un_ident o)) (h_units h)) /\ units_in_line h
  | _ => False
  end.
Proof.
  split; [intros m; apply Permutation_refl|]. split; [intros m; apply Permutation_rev|]. split; [exact some_toposort_ok|].
  destruct (parse_program (recs_at 60) line 47%N (fun m => m) some_toposort (rs "p.dpr")) as [[pa pc] h| | | |] eqn:E;
    vm_compute in E; try discriminate E. injection E as <- <- <-.
  split; [reflexivity|]. split.
  - unfold distinct_names. vm_compute. repeat constructor; cbn; intuition discriminate.
  - unfold units_in_line. cbv zeta. set (N := uses_among _ _ _).
    assert (AB : N 0 1) by (split; [vm_compute; tauto|]; split; [vm_compute; tauto|]; exists (rs "b"); split; [vm_compute; tauto|vm_compute; reflexivity]).
    assert (BC : N 1 2) by (split; [vm_compute; tauto|]; split; [vm_compute; tauto|]; exists (rs "C"); split; [vm_compute; tauto|vm_compute; reflexivity]).
    assert (AC : clos_trans _ N 0 2) by (eapply t_trans; apply t_step; eassumption).
    intros u v Ju Jv. vm_compute in Ju, Jv. intros D.
    destruct Ju as [<-|[<-|[<-|[]]]], Jv as [<-|[<-|[<-|[]]]]; try congruence;
      ((left; first [exact AC|apply t_step; eassumption]) || (right; first [exact AC|apply t_step; eassumption])).
Qed.

(** C56. Where the uses clauses leave the order open it does matter: of two units with a mistake each, either
may be the one that is reported (finding 61). *)
Theorem error_depends_on_order_of_maps_refuted {U : Unicode} {UOK : UnicodeOk U} :
  exists (U : Unicode) n files sep order order' topo path e h e' h', UnicodeOk U /\
  iterates order /\ iterates order' /\ toposort_ok topo /\
  parse_program (recs_at n) files sep order topo path = RErr e h /\
  parse_program (recs_at n) files sep order' topo path = RErr e' h' /\ e <> e'.
Proof. exact SameMain.error_depends_on_order_of_maps_refuted. Qed.
Print Assumptions error_depends_on_order_of_maps_refuted.

Example error_depends_on_order_of_maps_refuted_example :
  let where_wrong r := match r with RErr (EAt f l c) _ => Some (f, l, c) | _ => None end in
  where_wrong (parse_program (recs_at 40) two_wrong 47%N (fun m => m) some_toposort (rs "p.dpr")) = Some (rs "b.pas", 1, 23) /\
  where_wrong (parse_program (recs_at 40) two_wrong 47%N (@rev _) some_toposort (rs "p.dpr")) = Some (rs "a.pas", 1, 29).
Proof. vm_compute. split; reflexivity. Qed.
