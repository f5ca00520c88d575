(** References lead to declarations of the names written.  Definitions used in the statements are
    in RefSpec (and the model in Parser and Units); proofs in RefFacts, RefParse, RefUnits and
    RefMain. *)
From Coq Require Import String List NArith Bool Arith Lia Permutation.
From Verif Require Import Runes UnicodeFacts Token Tokenizer Ast Heap Prog Parser CaseSpec TermUnitSpec
  Ext Units RefSpec RefFacts RefMain ParseExamples.
Import ListNotations.

(** The examples use the Latin-1 tables. *)
#[local] Existing Instance latin1 | 100.
#[local] Existing Instance latin1_ok | 100.

(** The name that a mention writes, and that of the declaration its reference leads to, if it
    is set *)
Definition leads (h : heap) (m : mention) : gostring * option gostring :=
  let name od := match od with Some d => option_map (fun o => i_name (d_ident o)) (deref h d) | None => None end in
  match m with
  | MType t => (i_name (ti_ident t), name (match nth_error (h_refs h) (ti_ref t) with Some od => od | None => None end))
  | MName i od => (i_name i, name od)
  | MParent i j => (i_name i, Some (i_name j))
  end.
(** A program with a unit: its types refer to each other forward, its class to members of itself
    and of its parent *)
Definition tied_folder (path : gostring) : option (list rune) :=
  if runes_equal path (rs "p.dpr") then Some (rs
    "program p; uses a in 'a.pas'; type PNode = ^TNode; TNode = record Next: pnode; Head: THEAD; Other: Missing; end; var n: PNODE; begin A.Count := x; end.") else
  if runes_equal path (rs "a.pas") then Some (rs
    "unit A; interface type THead = class FSize: Integer; property Size: Integer read fsize; end; var count: integer; implementation end.") else None.
Definition tied_order (m : string_set) : list gostring := m.
Definition tied_sort (nodes : list gostring) (_ : list (gostring * gostring)) : option (list gostring) := Some nodes.

(** C52. When ParseProgram succeeds, on whatever files, then every reference that is set in the program and
the units leads to a declaration whose name is the one written at the reference, up to the case of
letters; the unit of a uses item has the name of the item; and a property that stands for an
inherited one has its name. *)
Theorem references_of_programs_lead_to_their_names {U : Unicode} :
  forall n files sep order topo path pa pc h,
  parse_program (recs_at n) files sep order topo path = ROk (pa, pc) h -> well_tied h.
Proof. exact RefMain.references_of_programs_lead_to_their_names. Qed.
Print Assumptions references_of_programs_lead_to_their_names.

Local Open Scope string_scope.
Definition pairs (l : list (string * option string)) : list (gostring * option gostring) :=
  map (fun p => (rs (fst p), option_map rs (snd p))) l.
Example references_of_programs_example :
  match parse_program (recs_at 40) tied_folder 47%N tied_order tied_sort (rs "p.dpr") with
  | ROk (pa, pc) h =>
      map (leads h) (flat_map program_m (h_progs h)) =
        pairs [("TNode", Some "TNode"); ("pnode", Some "PNode"); ("THEAD", Some "THead"); ("Missing", None);
               ("PNODE", Some "PNode"); ("A", Some "a"); ("Count", Some "count"); ("x", None)] /\
      map (leads h) (flat_map unit_m (h_units h)) =
        pairs [("Integer", Some "Integer"); ("Integer", Some "Integer"); ("fsize", Some "FSize"); ("integer", Some "Integer")] /\
      map (fun o => option_map (unit_name h) (u_unit o)) (h_uses h) = [Some (rs "A")]
  | _ => False
  end.
Proof. vm_compute. repeat split. Qed.

(** C52. The same of ParseUnit on a unit alone. *)
Theorem references_of_units_lead_to_their_names {U : Unicode} :
  forall n text program path u s, let h := fst (lone_unit_context program path) in let c := snd (lone_unit_context program path) in
  parse_text (parse_unit (recs_at n) c) text c h = OOk u s -> well_tied (s_heap s).
Proof. exact RefMain.references_of_units_lead_to_their_names. Qed.
Print Assumptions references_of_units_lead_to_their_names.

Example references_of_units_example :
  let hc := lone_unit_context (rs "p.dpr") (rs "a.pas") in
  let text := rs "unit A; interface type TList = class; TItem = class Owner: tlist; end; TList = class First: TITEM; property Head: TItem read FIRST; end; TOther = class(TLIST) public property HEAD; end; implementation end." in
  match parse_text (parse_unit (recs_at 40) (snd hc)) text (snd hc) (fst hc) with
  | OOk u s =>
      map (leads (s_heap s)) (flat_map unit_m (h_units (s_heap s))) =
        pairs [("tlist", Some "TList"); ("TITEM", Some "TItem"); ("TItem", Some "TItem"); ("FIRST", Some "First");
               ("TLIST", Some "TList"); ("HEAD", Some "Head")]
  | _ => False
  end.
Proof. vm_compute. reflexivity. Qed.

(** C52. That two names are alike says that nothing which does not depend on the case of letters tells them
apart. *)
Theorem alike_names_are_not_told_apart {U : Unicode} :
  forall (X : Type) (f : gostring -> X), (forall a, f (to_lower a) = f a) -> (forall a, f (to_upper a) = f a) ->
  forall a b, alike a b -> f a = f b.
Proof. exact RefMain.alike_names_are_not_told_apart. Qed.
Print Assumptions alike_names_are_not_told_apart.

Example different_names_are_not_alike : ~ alike (rs "ab") (rs "ac").
Proof.
  intros A.
  set (f := fold_right (fun r n => if ((r =? 98)%N || (r =? 66)%N)%bool then S n else n) 0).
  assert (E : forall g, (forall r, ((g r =? 98) || (g r =? 66))%N%bool = ((r =? 98) || (r =? 66))%N%bool) -> forall a, f (map g a) = f a).
  { intros g G a. induction a as [|r a IH]; [reflexivity|]. unfold f in *. cbn [map fold_right]. now rewrite G, IH. }
  enough (f (rs "ab") = f (rs "ac")) by discriminate.
  apply (alike_names_are_not_told_apart nat f); [intros a; apply E|intros a; apply E|exact A]; clear; intros r; cbn; unfold between;
    repeat match goal with |- context [if ?b then _ else _] => destruct b eqn:? end; lia.
Qed.
Example alike_names : alike (rs "TList") (rs "tLIST").
Proof. apply same_lower_alike. reflexivity. Qed.
