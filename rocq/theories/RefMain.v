(** References that are set lead to declarations of the names written: the theorems. *)
From Coq Require Import String List NArith Bool Arith Relations Lia.
From Verif Require Import Runes Token Tokenizer Ast Heap Prog Parser CaseSpec Units TermUnitSpec RefSpec RefFacts RefParse RefUnits.
Import ListNotations.
Local Open Scope list_scope.

Section WithUnicode.
Context {U : Unicode}.

Theorem references_of_programs_lead_to_their_names :
  forall n files sep order topo path pa pc h,
  parse_program (recs_at n) files sep order topo path = ROk (pa, pc) h -> well_tied h.
Proof. intros n files sep order topo path pa pc h E. eapply parse_program_well; [apply recs_at_tied|exact E]. Qed.

Theorem references_of_units_lead_to_their_names :
  forall n text program path u s, let h := fst (lone_unit_context program path) in let c := snd (lone_unit_context program path) in
  parse_text (parse_unit (recs_at n) c) text c h = OOk u s -> well_tied (s_heap s).
Proof.
  intros n text program path u s h c E. unfold parse_text in E.
  assert (G0 : good [] h).
  { subst h. unfold lone_unit_context. pose proof (good_program_context program) as G1.
    destruct (new_program_context heap0 program) as [h1 pc]. cbn [fst] in G1. now apply new_unit_context_good. }
  assert (M : makes_unit (Bind Next (fun _ => parse_unit (recs_at n) c))).
  { apply makes_bind; [apply tied_next|]. intros _. apply makes_parse_unit, recs_at_tied. }
  set (s0 := mkPst _ None c [] h) in E. assert (V : Inv [] s0) by (split; [exact G0|intros ? ? []]).
  specialize (M [] s0 V). rewrite E in M. destruct M as (n1 & _ & [G1 _] & _). eapply good_well_tied, G1.
Qed.

Theorem alike_names_are_not_told_apart :
  forall (X : Type) (f : gostring -> X), (forall a, f (to_lower a) = f a) -> (forall a, f (to_upper a) = f a) ->
  forall a b, alike a b -> f a = f b.
Proof.
  intros X f L T a b A. induction A as [a b [->| ->]|a|a b _ IH|a b c _ IH1 _ IH2]; [symmetry; apply L|symmetry; apply T|reflexivity| |]; congruence.
Qed.

End WithUnicode.
