(** Every method of the parser ends, continued: classes, and types as a whole. *)
From Coq Require Import String List NArith Bool Arith Lia.
From Verif Require Import ListUtil Runes UnicodeFacts Token Tokenizer CursorFacts TokenizerFacts LexSpec LexShape LexFacts LexMain
  Ast Ext Heap Classes MapSpec MapFacts Prog Parser ParseSpec RunFacts WpFacts TermSpec TermHeap TermFacts TermExpr TermTypes.
Import ListNotations.
Local Open Scope list_scope.

Section WithUnicode.
Context {U : Unicode} {UOK : UnicodeOk U} {unmapped : Unmapped}.
Local Notation node_there := (node_there unmapped).
Local Notation declared := (declared unmapped).
Local Notation sound := (sound_but unmapped).
Variable text : list rune.
Variable path : gostring.
Variable lax : bool.
Variable D : nat.
Local Notation ok := (TermFacts.ok text path lax D).
Local Notation fin := (TermFacts.fin text path lax D).
Local Notation mu := (TermFacts.mu text).
Local Notation reflen := TermFacts.reflen.
Local Notation tyok := (TermExpr.tyok lax D).
Variable R : recs.
Variable m : nat.
Hypothesis RG : rgood text path lax D R m.
Let HF := rg_fuel _ _ _ _ R m RG.
Let HE := rg_expr _ _ _ _ R m RG.
Let HT := rg_type _ _ _ _ R m RG.
Let L1 := fin_parse_type_id text path lax D.
Let L2 := fin_parse_ident_list_by text path lax D.
Let L5 := fin_parse_type_for_identifier text path lax D R m RG.
Let L6 := fin_parse_pointer_type text path lax D.
Let L7 := fin_parse_const_subrange text path lax D R m RG.
Let L8 := fin_parse_enumerated_type text path lax D R m RG.
Let L9 := fin_parse_string_of_string_type text path lax D R m RG.
Let L10 := fin_parse_struc_type text path lax D R m RG.
Let L11 := fin_parse_procedure_type text path lax D R m RG.
Let L12 := fin_parse_function_heading text path lax D R m RG.
Let L13 := fin_parse_formal_parameters text path lax D R m RG.
#[local] Hint Resolve HE HT L1 L2 L5 L6 L7 L8 L9 L10 L11 L12 L13 : term.

(** The reference to the parent class exists. *)
Definition her_bound (her : option (list typeid)) : nat :=
  match her with Some (p :: _) => S (ti_ref p) | _ => 0 end.
Lemma tyok_class n s her mem : ok s -> her_bound her <= reflen s -> tyok n s (TClass her mem).
Proof.
  intros O L. destruct her as [[|p ps]|]; try (apply tyok_leaf; [reflexivity|intros ? ? X; inversion X]).
  eapply tyok_cell; [exact O|exact L|eauto].
Qed.

Lemma fin_parse_class_heritage s : ok s -> lax = true \/ mu s <= m ->
  fin (place s) (parse_class_heritage R) s (fun her s' => her_bound her <= reflen s').
Proof.
  intros O M. unfold parse_class_heritage, until_list, until. go1. go1. go1. go1.
  - go1. go1.
    apply (fin_join _ _ _ _ _ _ _ _ (fun l s' => her_bound (Some l) <= reflen s')).
    + apply (fin_loop_inv _ _ _ _ _ (fun l s1 => her_bound (Some l) <= reflen s1) _ _ s'); auto; try (cbn; lia).
      intros l s1 O1 P1 M1 R1 I1. unfold until_step, append_with.
      go1. go1. go1. go1. go1.
      assert (HB : her_bound (Some (l ++ [a])) <= TermFacts.reflen s'0) by (destruct l; cbn in *; lia).
      go.
    + start. go.
  - go1. cbn. lia.
Qed.
#[local] Hint Resolve fin_parse_class_heritage : term.

Lemma fin_parse_class_field s : ok s -> lax = true \/ mu s <= m ->
  fin (place s) (parse_class_field R) s (fun _ s' => mu s' < mu s).
Proof. intros O M. unfold parse_class_field. go. Qed.
#[local] Hint Resolve fin_parse_class_field : term.
Lemma fin_parse_class_field_list s : ok s -> lax = true \/ mu s <= m ->
  fin (place s) (parse_class_field_list R) s
    (fun _ s' => mu s' < mu s \/ exists t, s_cur s = Some t /\ field_list_break t = true).
Proof.
  intros O M. unfold parse_class_field_list, until. go1.
  apply (fin_loop_inv _ _ _ _ _ (fun l s1 => s1 = s \/ mu s1 < mu s) _ _ s); auto; try lia.
  intros l s1 O1 P1 M1 R1 I1. unfold until_step, class_fields_step. go1. go1. go1. go1.
  - go1. go1. destruct I1 as [->|]; [right; eauto|left; lia].
  - go.
Qed.
#[local] Hint Resolve fin_parse_class_field_list : term.
Lemma fin_parse_class_method_directive_list s : ok s -> lax = true \/ mu s <= m ->
  fin (place s) (parse_class_method_directive_list R) s (fun _ _ => True).
Proof. intros O M. unfold parse_class_method_directive_list, until, until_step, method_directives_step. go. Qed.
#[local] Hint Resolve fin_parse_class_method_directive_list : term.
Lemma fin_parse_constructor_heading s : ok s -> lax = true \/ mu s <= m ->
  fin (place s) (parse_constructor_heading R) s (fun _ s' => mu s' < mu s).
Proof. intros O M. unfold parse_constructor_heading. go. Qed.
Lemma fin_parse_destructor_heading s : ok s ->
  fin (place s) parse_destructor_heading s (fun _ s' => mu s' < mu s).
Proof. intros O. unfold parse_destructor_heading. go. Qed.
#[local] Hint Resolve fin_parse_constructor_heading fin_parse_destructor_heading : term.
Lemma fin_parse_class_method s : ok s -> lax = true \/ mu s <= m ->
  fin (place s) (parse_class_method R) s (fun _ s' => mu s' < mu s).
Proof.
  intros O M. unfold parse_class_method. go1. go1. go1. go1. cbn beta zeta.
  apply (fin_join _ _ _ _ _ _ _ _ (fun _ s' => mu s' < mu s)); [go|start]. go.
Qed.
#[local] Hint Resolve fin_parse_class_method : term.
Lemma fin_parse_class_method_list s : ok s -> lax = true \/ mu s <= m ->
  fin (place s) (parse_class_method_list R) s (fun _ _ => True).
Proof. intros O M. unfold parse_class_method_list, until, until_step, class_methods_step. go. Qed.
#[local] Hint Resolve fin_parse_class_method_list : term.
Lemma fin_parse_property_interface s : ok s -> lax = true \/ mu s <= m ->
  fin (place s) (parse_property_interface R) s (fun _ _ => True).
Proof. intros O M. unfold parse_property_interface. go. Qed.
#[local] Hint Resolve fin_parse_property_interface : term.
Lemma fin_find_member_decl from her mem name s (Q : option dref -> pst -> Prop) :
  ok s -> her_bound her <= reflen s -> (forall d s', ok s' -> like text s s' -> Q d s') ->
  fin from (find_member_decl R her mem name) s Q.
Proof.
  intros O HB H. unfold find_member_decl. apply fin_onheap; [exact O|].
  destruct (find_member (r_fuel R) (s_heap s) her (Some mem) name true) as [[d|]|] eqn:E.
  - pose proof (good_decls lax (s_heap s) d (ok_sound _ _ _ _ _ O) (or_intror (find_member_member _ _ _ _ _ _ _ E))) as G.
    split; [exact G|]. apply H; [now apply ok_heap|now apply like_heap with (lax := lax)].
  - split; [apply good_refl, (ok_sound text path lax D), O|]. rewrite with_heap_same. apply H; [exact O|].
    repeat split; auto.
  - destruct (tyok_class 0 s her (Some mem) O HB) as [LX|Sh]; [exact LX|]. destruct HF as [LX|F]; [exact LX|].
    exfalso. revert E. eapply find_member_done; [exact Sh|lia].
Qed.
Ltac gofind :=
  lazymatch goal with
  | |- TermFacts.fin _ _ _ _ _ (find_member_decl _ _ _ _) _ _ =>
      apply fin_find_member_decl; [assumption|arith|start]
  end.
Lemma fin_parse_accessor word her mem s : ok s -> her_bound her <= reflen s ->
  fin (place s) (parse_accessor R word her mem) s (fun _ _ => True).
Proof. intros O HB. unfold parse_accessor. repeat first [gofind|go1]. Qed.
Lemma fin_parse_stored her mem s : ok s -> her_bound her <= reflen s ->
  fin (place s) (parse_stored R her mem) s (fun _ _ => True).
Proof. intros O HB. unfold parse_stored. repeat first [gofind|go1]. Qed.
#[local] Hint Extern 1 (_ <= _) => arith : term.
#[local] Hint Resolve fin_parse_accessor fin_parse_stored : term.
Lemma fin_find_property from her mem name s (Q : option cprop -> pst -> Prop) : ok s -> her_bound her <= reflen s ->
  (forall r, Q r s) ->
  fin from (OnHeap (fun _ h => match find_property (r_fuel R) h her (Some mem) name true with
                               | None => HStuck
                               | Some r => HOk r h
                               end)) s Q.
Proof.
  intros O HB H. apply fin_onheap; [exact O|].
  destruct (find_property (r_fuel R) (s_heap s) her (Some mem) name true) as [r|] eqn:E.
  - split; [apply good_refl, (ok_sound text path lax D), O|]. rewrite with_heap_same. apply H.
  - destruct (tyok_class 0 s her (Some mem) O HB) as [LX|Sh]; [exact LX|]. destruct HF as [LX|F]; [exact LX|].
    exfalso. apply (find_property_done lax (s_heap s) name _ her (Some mem) true Sh (r_fuel R)); [lia|exact E].
Qed.
Ltac goprop :=
  lazymatch goal with
  | |- TermFacts.fin _ _ _ _ _ (OnHeap _) _ _ => apply fin_find_property; [assumption|arith|start]
  end.
Lemma fin_parse_class_property her mem s : ok s -> her_bound her <= reflen s -> lax = true \/ mu s <= m ->
  fin (place s) (parse_class_property R her mem) s (fun _ s' => mu s' < mu s).
Proof. intros O HB M. unfold parse_class_property. repeat first [goprop|go1]; leaf. Qed.
#[local] Hint Resolve fin_parse_class_property : term.
Lemma fin_parse_class_property_list her mem s : ok s -> her_bound her <= reflen s -> lax = true \/ mu s <= m ->
  fin (place s) (parse_class_property_list R her mem) s (fun _ _ => True).
Proof. intros O HB M. unfold parse_class_property_list, until, until_step, class_props_step. go. Qed.
#[local] Hint Resolve fin_parse_class_property_list : term.

Lemma field_break_default t : p_type Identifier t = true -> upper_eq t "PRIVATE" = false -> upper_eq t "PROTECTED" = false ->
  upper_eq t "PUBLIC" = false -> upper_eq t "PUBLISHED" = false -> field_list_break t = false.
Proof.
  unfold upper_eq, field_list_break, method_break, property_break, visibility_break, upper_is, p_upper, kw, p_keyword,
    p_some, eqs. intros T A B C E. cbn [existsb]. rewrite A, B, C, E. unfold p_type in T. apply ttype_eqb_eq in T.
  now rewrite T.
Qed.
Lemma fin_parse_class_member_section her secs s : ok s -> her_bound her <= reflen s -> lax = true \/ mu s <= m ->
  fin (place s) (parse_class_member_section R her secs) s (fun _ s' => mu s' < mu s).
Proof.
  intros O HB M. unfold parse_class_member_section. go1. go1. go1.
  apply (fin_join _ _ _ _ _ _ _ _ (fun _ s' => mu s' < mu s \/ (s' = s /\ field_list_break t = false))).
  - repeat go1; leaf. right. split; [reflexivity|]. now apply field_break_default.
  - start. go1. go1. go1.
    + go1. destruct H5 as [|[-> B]]; [lia|]. rewrite H6 in H. injection H as ->.
      revert Heqb H0. unfold kw, p_keyword, p_type. destruct (t_type t); discriminate.
    + go. destruct H11 as [|(u & Cu & Bu)]; [lia|]. destruct H5 as [|[-> B]]; [lia|].
      rewrite Cu in H. injection H as ->. congruence.
Qed.
#[local] Hint Resolve fin_parse_class_member_section : term.
Lemma fin_parse_class_member_sections her s : ok s -> her_bound her <= reflen s -> lax = true \/ mu s <= m ->
  fin (place s) (parse_class_member_sections R her) s (fun _ _ => True).
Proof. intros O HB M. unfold parse_class_member_sections, until, until_step, class_sections_step. go. Qed.
#[local] Hint Resolve fin_parse_class_member_sections : term.
Lemma fin_parse_class_type s : ok s -> lax = true \/ mu s <= m ->
  fin (place s) (parse_class_type R) s (fun ty s' => tyok (mu s) s' ty).
Proof. intros O M. unfold parse_class_type. go; (apply tyok_class; [assumption|lia]). Qed.
#[local] Hint Resolve fin_parse_class_type : term.
Lemma fin_parse_class_type_or_class_ref s : ok s -> lax = true \/ mu s <= m ->
  fin (place s) (parse_class_type_or_class_ref R) s (fun ty s' => tyok (mu s) s' ty).
Proof.
  intros O M. unfold parse_class_type_or_class_ref. go.
  - apply fin_onheap; [assumption|]. split; [apply good_fwds, (ok_sound text path lax D); assumption|]. tleaf.
  - tleaf.
  - eapply tyok_le; [eassumption|lia].
Qed.
#[local] Hint Resolve fin_parse_class_type_or_class_ref : term.
Lemma fin_parse_type s : ok s -> lax = true \/ mu s <= m ->
  fin (place s) (parse_type R) s (fun ty s' => tyok (mu s) s' ty).
Proof. intros O M. unfold parse_type. go; assumption. Qed.
End WithUnicode.
