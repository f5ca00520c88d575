(** Every method of the parser ends, continued: structured types, headings, classes, types. *)
From Coq Require Import String List NArith Bool Arith Lia.
From Verif Require Import ListUtil Runes UnicodeFacts Token Tokenizer CursorFacts TokenizerFacts LexSpec LexShape LexFacts LexMain
  Ast Ext Heap Classes MapSpec MapFacts Prog Parser ParseSpec RunFacts WpFacts TermSpec TermHeap TermFacts TermExpr.
Import ListNotations.
Local Open Scope list_scope.

Ltac tleaf := first [ eapply tyok_cell; [eassumption|eassumption|eauto; fail]
                    | apply tyok_leaf; [reflexivity|intros ? ? X; inversion X; fail] ].
Ltac goset :=
  lazymatch goal with
  | |- TermFacts.fin _ _ _ _ _ (set [_]) _ _ =>
      apply fin_set1; [assumption|first [assumption|discriminate]|exact (fun _ => I)|discriminate|start]
  | |- TermFacts.fin _ _ _ _ _ (set (map _ _)) _ _ =>
      apply fin_sets; [assumption|assumption|exact (fun _ => I)|discriminate|start]
  end.
Ltac go ::= repeat first [goset|go1]; leaf.

Section WithUnicode.
Context {U : Unicode} {UOK : UnicodeOk U} {unmapped : Unmapped}.
Local Notation node_there := (node_there unmapped).
Local Notation declared := (declared unmapped).
Local Notation sound := (sound_but unmapped).
Variable text : list rune.
Variable path : gostring.
Variable lax : bool.
Variable D : nat.
Local Notation ok := (TermFacts.ok text path lax D).
Local Notation fin := (TermFacts.fin text path lax D).
Local Notation mu := (TermFacts.mu text).
Local Notation reflen := TermFacts.reflen.
Local Notation tyok := (TermExpr.tyok lax D).
Variable R : recs.
Variable m : nat.
Hypothesis RG : rgood text path lax D R m.
Let HF := rg_fuel _ _ _ _ R m RG.
Let HE := rg_expr _ _ _ _ R m RG.
Let HT := rg_type _ _ _ _ R m RG.
Let HFl := rg_fields _ _ _ _ R m RG.
Let L1 := fin_parse_type_id text path lax D.
Let L2 := fin_parse_ident_list_by text path lax D.
Let L3 := fin_parse_const_expr text path lax D R m RG.
Let L4 := fin_parse_type_as_ordinal text path lax D R m RG.
Let L5 := fin_parse_type_for_identifier text path lax D R m RG.
Let L6 := fin_parse_pointer_type text path lax D.
Let L7 := fin_parse_const_subrange text path lax D R m RG.
Let L8 := fin_parse_enumerated_type text path lax D R m RG.
Let L9 := fin_parse_string_of_string_type text path lax D R m RG.
#[local] Hint Resolve HE HT HFl L1 L2 L3 L4 L5 L6 L7 L8 L9 : term.

Lemma fin_parse_array_type s : ok s -> lax = true \/ mu s <= m ->
  fin (place s) (parse_array_type R) s (fun mk s' => forall p, tyok (mu s) s' (mk p)).
Proof.
  intros O M. unfold parse_array_type, until_list, until, until_step, append_with. go. intros p. tleaf.
Qed.
Lemma fin_parse_set_type s : ok s -> lax = true \/ mu s <= m ->
  fin (place s) (parse_set_type R) s (fun mk s' => forall p, tyok (mu s) s' (mk p)).
Proof. intros O M. unfold parse_set_type. go. intros p. eapply tyok_set; [eassumption|lia]. Qed.
Lemma fin_parse_file_type s : ok s ->
  fin (place s) parse_file_type s (fun mk s' => forall p, tyok (mu s) s' (mk p)).
Proof. intros O. unfold parse_file_type. go. intros p. tleaf. Qed.
Lemma fin_parse_field_decl term s : ok s -> lax = true \/ mu s <= m ->
  fin (place s) (parse_field_decl R term) s (fun _ s' => mu s' < mu s).
Proof. intros O M. unfold parse_field_decl. go. Qed.
#[local] Hint Resolve fin_parse_array_type fin_parse_set_type fin_parse_file_type fin_parse_field_decl : term.
Lemma fin_parse_rec_variant s : ok s -> lax = true \/ mu s <= m -> fin (place s) (parse_rec_variant R) s (fun _ _ => True).
Proof. intros O M. unfold parse_rec_variant, until_list, until, until_step, append_with. go. Qed.
#[local] Hint Resolve fin_parse_rec_variant : term.
Lemma fin_parse_variant_section s : ok s -> lax = true \/ mu s <= m ->
  fin (place s) (parse_variant_section R) s (fun _ _ => True).
Proof. intros O M. unfold parse_variant_section, until, until_step, rec_variants_step. go. Qed.
#[local] Hint Resolve fin_parse_variant_section : term.
Lemma fin_parse_field_list term s : ok s -> lax = true \/ mu s <= m ->
  fin (place s) (parse_field_list R term) s (fun _ _ => True).
Proof. intros O M. unfold parse_field_list, until, until_step, field_decls_step. go. Qed.
#[local] Hint Resolve fin_parse_field_list : term.
Lemma fin_parse_rec_type s : ok s -> lax = true \/ mu s <= m ->
  fin (place s) (parse_rec_type R) s (fun mk s' => forall p, tyok (mu s) s' (mk p)).
Proof. intros O M. unfold parse_rec_type. go. intros p. tleaf. Qed.
#[local] Hint Resolve fin_parse_rec_type : term.
Lemma fin_parse_struc_type s : ok s -> lax = true \/ mu s <= m ->
  fin (place s) (parse_struc_type R) s (fun ty s' => tyok (mu s) s' ty).
Proof.
  intros O M. unfold parse_struc_type. go1. go1. go1; [go|]. go1. go1.
  apply (fin_join _ _ _ _ _ _ _ _ (fun mk s' => forall p, tyok (mu s) s' (mk p))).
  - go; intros; eapply tyok_le; eauto; lia.
  - start. go. auto.
Qed.
#[local] Hint Resolve fin_parse_struc_type : term.

(** ** Headings *)
Lemma fin_parse_parameter end_ s : ok s -> lax = true \/ mu s <= m ->
  fin (place s) (parse_parameter R end_) s (fun r s' => Forall (fun i => i_loc i <> None) (fst (fst r)) /\ mu s' < mu s).
Proof.
  intros O M. unfold parse_parameter. go; (split; [assumption|lia]).
Qed.
#[local] Hint Resolve fin_parse_parameter : term.
Lemma fin_parse_formal_parm end_ s : ok s -> lax = true \/ mu s <= m ->
  fin (place s) (parse_formal_parm R end_) s (fun _ s' => mu s' < mu s).
Proof. intros O M. unfold parse_formal_parm. go. Qed.
#[local] Hint Resolve fin_parse_formal_parm : term.
Lemma fin_parse_formal_parameters start_ end_ s : ok s -> lax = true \/ mu s <= m ->
  fin (place s) (parse_formal_parameters R start_ end_) s (fun _ _ => True).
Proof. intros O M. unfold parse_formal_parameters, until_list, until, until_step, append_with. go. Qed.
#[local] Hint Resolve fin_parse_formal_parameters : term.
Lemma fin_parse_procedure_type s : ok s -> lax = true \/ mu s <= m ->
  fin (place s) (parse_procedure_type R) s (fun ty s' => tyok (mu s) s' ty).
Proof. intros O M. unfold parse_procedure_type. go. tleaf. Qed.
Lemma fin_parse_function_heading s : ok s -> lax = true \/ mu s <= m ->
  fin (place s) (parse_function_heading R) s (fun h s' => i_loc (heading_ident h) <> None /\ mu s' < mu s).
Proof. intros O M. unfold parse_function_heading. go. split; [discriminate|lia]. Qed.
#[local] Hint Resolve fin_parse_procedure_type fin_parse_function_heading : term.
End WithUnicode.
