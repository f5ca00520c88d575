(** What units offer.  Definitions used in the statements are in OfferSpec, UnitTextSpec and
    MapSpec (and the model in Heap, Parser and Units); proofs in OfferFacts, OfferParse,
    OfferMain and OfferAll. *)
From Coq Require Import String List NArith Bool Arith Lia Permutation.
From Verif Require Import Runes UnicodeFacts Token Tokenizer Ast Heap MapSpec Prog Parser CaseSpec TermUnitSpec
  Ext ExtSpec Units UnitSpec SortMain UnitTextSpec OfferSpec OfferMain OfferAll ParseExamples.
Import ListNotations.

(** The examples use the Latin-1 tables. *)
#[local] Existing Instance latin1 | 100.
#[local] Existing Instance latin1_ok | 100.

(** What the unit answers: the name as declared, and the node *)
Definition answer (h : heap) (o : unitobj) (n : string) : option (gostring * dnode) :=
  match dget h (un_map o) (rs n) with
  | LFound p => option_map (fun d => (i_name (d_ident d), d_node d)) (deref h p)
  | _ => None
  end.
(** A unit with a class declared forward, overloaded procedures, and names of its own *)
Definition shapes : string :=
  "unit Shapes; interface type TNode = class; TNode = class Next: TNode; end; var First, Second: TNode; procedure Draw; overload; procedure Draw(k: Integer); overload; implementation var Hidden: Integer; procedure Help; begin Hidden := 1; end; initialization Help; end.".

(** C55. When ParseUnit accepts a text, whatever it is, then the declaration map of the unit answers only
with declarations of the interface section, under their names in any letter case, and no question
panics.  Nothing of the implementation section is seen.  If moreover the names of each group of
variables are new, the answer to a name is its first declaration in the interface section, and
nil if there is none. *)
Theorem unit_offers_its_interface {U : Unicode} :
  forall n text c h u s, Forall (fun o => allocated h (cx_map o)) (h_ctxs h) ->
  parse_text (parse_unit (recs_at n) c) text c h = OOk u s ->
  exists o, nth_error (h_units (s_heap s)) u = Some o /\ offers_only (s_heap s) o /\
    (clear_groups (groups o) -> offers_first (s_heap s) o).
Proof. exact OfferMain.unit_offers_its_interface. Qed.
Print Assumptions unit_offers_its_interface.

Example unit_offers_its_interface_example :
  let hc := lone_unit_context (rs "p.dpr") (rs "shapes.pas") in
  Forall (fun o => allocated (fst hc) (cx_map o)) (h_ctxs (fst hc)) /\
  match parse_text (parse_unit (recs_at 60) (snd hc)) (rs shapes) (snd hc) (fst hc) with
  | OOk u s =>
      match nth_error (h_units (s_heap s)) u with
      | Some o =>
          clear_names [] (map (map nm) (groups o)) = true /\
          map nm (interface o) = map rs ["TNode"; "TNode"; "First"; "Second"; "Draw"; "Draw"]%string /\
          map (answer (s_heap s) o) ["SECOND"; "draw"; "tnode"; "Hidden"; "Help"; "Next"; "Integer"]%string =
            [Some (rs "Second", NVar); Some (rs "Draw", NExported); Some (rs "TNode", NType (TFwdClass 0)); None; None; None; None]
      | None => False
      end
  | _ => False
  end.
Proof. vm_compute. repeat split; repeat constructor. Qed.
Example clear_names_are_clear : forall l, clear_names [] (map (map nm) l) = true -> clear_groups l.
Proof. exact clear_names_sound. Qed.

(** C55. The same of every unit of a program, when ParseProgram accepts it: at the end, after all sections
of all units and the block have been parsed, the unit still answers so.  (A unit without map was
given up for another of the same name: finding 54.) *)
Theorem units_of_program_offer_their_interfaces {U : Unicode} :
  forall n files sep order topo path pa pc h,
  parse_program (recs_at n) files sep order topo path = ROk (pa, pc) h ->
  forall u o, nth_error (h_units h) u = Some o -> un_map o <> DNil ->
  offers_only h o /\ (clear_groups (groups o) -> offers_first h o).
Proof. exact OfferMain.units_of_program_offer_their_interfaces. Qed.
Print Assumptions units_of_program_offer_their_interfaces.

Definition folder (path : gostring) : option (list rune) :=
  if runes_equal path (rs "p.dpr") then Some (rs
    "program p; uses Shapes in 'shapes.pas', Other in 'other.pas'; var own: Integer; begin Shapes.First := Second; end.") else
  if runes_equal path (rs "other.pas") then Some (rs
    "unit Other; interface uses Shapes; var extra: TNode; implementation uses More; const Inner = 1; end.") else
  if runes_equal path (rs "shapes.pas") then Some (rs shapes) else None.
Definition folder_order (m : string_set) : list gostring := m.
Example units_of_program_offer_their_interfaces_example :
  match parse_program (recs_at 60) folder 47%N folder_order some_toposort (rs "p.dpr") with
  | ROk (pa, pc) h =>
      map (fun o => clear_names [] (map (map nm) (groups o))) (h_units h) = [true; true] /\
      map (fun o => match un_map o with DNil => true | _ => false end) (h_units h) = [false; false] /\
      map (fun o => map (answer h o) ["first"; "EXTRA"; "Hidden"; "Inner"; "own"; "Other"]%string) (h_units h) =
        [[Some (rs "First", NVar); None; None; None; None; None]; [None; Some (rs "extra", NVar); None; None; None; None]]
  | _ => False
  end.
Proof. vm_compute. repeat split. Qed.

(** C55. And no unit is left out, when the units of the program have different names: with a topological
sort that does its work, every unit that the program has loaded answers so. *)
Theorem every_unit_of_program_offers_its_interface {U : Unicode} {UOK : UnicodeOk U} :
  forall n files sep order topo path pa pc h, iterates order -> toposort_ok topo ->
  parse_program (recs_at n) files sep order topo path = ROk (pa, pc) h ->
  distinct_names (map (fun o => i_name (un_ident o)) (h_units h)) ->
  forall u o, nth_error (h_units h) u = Some o ->
  offers_only h o /\ (clear_groups (groups o) -> offers_first h o).
Proof. exact OfferAll.every_unit_of_program_offers_its_interface. Qed.
Print Assumptions every_unit_of_program_offers_its_interface.

Example every_unit_of_program_offers_its_interface_example :
  iterates folder_order /\ toposort_ok some_toposort /\
  match parse_program (recs_at 60) folder 47%N folder_order some_toposort (rs "p.dpr") with
  | ROk (pa, pc) h =>
      map (fun o => i_name (un_ident o)) (h_units h) = map rs ["Shapes"; "Other"]%string /\
      distinct_names (map (fun o => i_name (un_ident o)) (h_units h))
  | _ => False
  end.
Proof.
  split; [intros m; apply Permutation_refl|]. split; [exact some_toposort_ok|].
  unfold distinct_names. vm_compute. split; [reflexivity|]. repeat constructor; cbn; intuition discriminate.
Qed.

(** C55. Without the condition on groups a name of the interface section may be missing: behind a procedure
with the name of the first of two variables, the second is not offered (finding 56). *)
Theorem interface_names_lost_refuted {U : Unicode} :
  exists (U : Unicode) n text c h u s o d, UnicodeOk U /\ Forall (fun o => allocated h (cx_map o)) (h_ctxs h) /\
  parse_text (parse_unit (recs_at n) c) text c h = OOk u s /\ nth_error (h_units (s_heap s)) u = Some o /\
  In d (interface o) /\ dget (s_heap s) (un_map o) (i_name (d_ident d)) = LNil.
Proof. exact OfferMain.interface_names_lost_refuted. Qed.
Print Assumptions interface_names_lost_refuted.

Example interface_names_lost_refuted_example :
  let hc := lone_unit_context (rs "p.dpr") (rs "a.pas") in
  match parse_text (parse_unit (recs_at 40) (snd hc)) (rs "unit A; interface procedure b; var b, a: Integer; implementation end.") (snd hc) (fst hc) with
  | OOk u s =>
      match nth_error (h_units (s_heap s)) u with
      | Some o => map (answer (s_heap s) o) ["B"; "A"]%string = [Some (rs "b", NExported); None]
      | None => False
      end
  | _ => False
  end.
Proof. vm_compute. reflexivity. Qed.
