(** The identifiers of the tree stand in the text, in its order: one lemma for each method of
    Parser.v, in its order. *)
From Coq Require Import String List NArith Bool Arith Lia.
From Verif Require Import ListUtil Runes Token Tokenizer Ast Ext Heap Classes MapFacts Prog Parser ParseSpec RunFacts IdSpec IdFacts.
Import ListNotations.
Local Open Scope list_scope.

Create HintDb spell discriminated.
Create HintDb quiet discriminated.
Ltac red_i := cbn [expr_i sexpr_i term_i factor_i desig_i ditem_i typ_i fieldlist_i fielddecl_i variantsection_i recvariant_i
  formalparm_i heading_i csection_i cmethod_i cheading_i cprop_i stmt_i sbody_i declsection_i block_i intfdecl_i
  identref_i qualid_i typeid_i again_i cstored_i cdefault_i exports_i typedecl_i constdecl_i vardecl_i threadvardecl_i
  opt flat_map map app fst snd grown ti_unit ti_ident];
  cbv beta delta [none never maybe one identref_i qualid_i typeid_i again_i cstored_i cdefault_i exports_i typedecl_i constdecl_i vardecl_i threadvardecl_i];
  cbn [opt flat_map map app fst snd grown q_ns q_ident ir_ident ir_ref ti_unit ti_ident td_ident td_type cd_ident cd_type cd_expr
    vd_idents vd_type vd_absolute vd_expr tv_idents tv_type ex_ident ex_name ex_index].
Lemma subseq_nil l l' : subseq (l ++ []) (l' ++ []) -> subseq l l'.
Proof. now rewrite !app_nil_r. Qed.
Lemma subseq_assoc_l a b c l : subseq (a ++ b ++ c) l -> subseq ((a ++ b) ++ c) l.
Proof. now rewrite app_assoc. Qed.
Lemma subseq_assoc_r a b c l : subseq l (a ++ b ++ c) -> subseq l ((a ++ b) ++ c).
Proof. now rewrite app_assoc. Qed.
Lemma subseq_cons_l x b c l : subseq (x :: b ++ c) l -> subseq ((x :: b) ++ c) l.
Proof. exact (fun H => H). Qed.
Lemma subseq_cons_r x b c l : subseq l (x :: b ++ c) -> subseq l ((x :: b) ++ c).
Proof. exact (fun H => H). Qed.
Lemma subseq_nil_l c l : subseq c l -> subseq ([] ++ c) l.
Proof. exact (fun H => H). Qed.
Lemma subseq_nil_r c l : subseq l c -> subseq l ([] ++ c).
Proof. exact (fun H => H). Qed.
Ltac subseqs := repeat lazymatch goal with
  | |- subseq [] _ => apply ss_nil
  | |- subseq ((_ ++ _) ++ _) _ => apply subseq_assoc_l
  | |- subseq ((_ :: _) ++ _) _ => apply subseq_cons_l
  | |- subseq ([] ++ _) _ => apply subseq_nil_l
  | |- subseq _ ((_ ++ _) ++ _) => apply subseq_assoc_r
  | |- subseq _ ((_ :: _) ++ _) => apply subseq_cons_r
  | |- subseq _ ([] ++ _) => apply subseq_nil_r
  | |- _ => first [apply ss_take | apply subseq_take | apply ss_skip | apply subseq_skip]
  end.
Ltac sub := red_i; rewrite ?flat_map_app, ?map_app; red_i; apply subseq_nil; solve [subseqs].
Ltac side := cbv beta iota delta [never maybe nowhere]; solve [intros; first [contradiction|assumption|tauto|split; assumption|apply type_wordy; assumption]].
Ltac kill := let W := fresh "W" in intro W; first [eapply broken_words; eassumption|idtac]; try (lazymatch type of W with broken _ => destruct W as [W _] end);
  first [ eapply kw_not_wordy; eassumption | eapply sym_not_wordy; eassumption
        | eapply type_not_wordy; [eassumption|discriminate|exact W] | eapply end_not_wordy; eassumption | eapply syms_not_wordy; eassumption ].
Ltac dead := try (lazymatch goal with
  | |- spelled _ nowhere _ _ _ _ => fail
  | |- spelled _ _ (Some ?t) _ _ _ => apply sp_dead; [solve [kill]|]
  end).
Ltac quiet := solve [auto with quiet nocore | lazymatch goal with |- still (OnHeap _) => idtac end; apply still_heap; intros ? ? ? ?;
  repeat (match goal with |- context [match ?x with _ => _ end] => lazymatch x with context [match _ with _ => _ end] => fail | _ => destruct x end end; cbv beta iota);
  try discriminate; intros [= _ <-]; auto].
Ltac known := solve [eauto 2 with spell nocore].
Ltac call := lazymatch goal with
  | |- spelled _ _ _ _ (match _ with _ => _ end) _ => fail
  | |- spelled _ _ _ _ (until_list _ _ _ _) _ =>
      try apply sp_forget; first [eapply sp_list with (E := nowhere); [intros ? _ []|known]
                   |eapply sp_list with (E := wordy); [intros; eapply sym_not_wordy; eassumption|known]]
  | _ => first [known | apply sp_forget; known | apply (sp_from _ wordy); known | apply sp_forget, (sp_from _ wordy); known]
  end.
Ltac pass := solve [exact I | exact (fun x => x)].
Ltac spell := repeat first
  [ match goal with
    | |- spelled _ _ _ _ (Bind (Ret _) _) _ => apply sp_bind_ret; cbv beta iota
    | |- spelled _ _ _ _ (Bind (Bind _ _) _) _ => apply sp_assoc
    | |- spelled _ _ _ _ (Bind (new_type_id _ _ _) _) _ => apply sp_type_id; intro
    | |- spelled _ _ _ _ (Bind (new_ident_ref _) _) _ => unfold new_ident_ref at 1
    | |- spelled _ _ _ _ (Bind (FailAt _) _) _ => apply sp_bind_failat
    | |- spelled _ _ _ _ (Bind (Fail _) _) _ => apply sp_bind_fail
    | |- spelled _ _ _ _ (Bind Crash _) _ => apply sp_bind_crash
    | |- spelled _ _ _ _ (FailAt _) _ => apply sp_failat
    | |- spelled _ _ _ _ (Fail _) _ => apply sp_fail
    | |- spelled _ _ _ _ Crash _ => apply sp_crash
    | |- spelled _ _ _ _ (let _ := _ in _) _ => cbv zeta
    | |- spelled _ _ _ _ (Bind (let _ := _ in _) _) _ => cbv zeta
    | |- spelled _ _ None _ (Bind cur _) _ => apply sp_cur; intro
    | |- spelled _ _ (Some _) _ (Bind cur _) _ => apply sp_cur_on
    | |- spelled _ _ None _ (Bind (is _) _) _ => apply sp_is; intro
    | |- spelled _ _ (Some _) _ (Bind (is _) _) _ => apply sp_is_on
    | |- spelled _ _ None _ (Bind (expect _) _) _ => apply sp_expect; intros; dead
    | |- spelled _ _ (Some _) _ (Bind (expect _) _) _ => apply sp_expect_on; intros; dead
    | |- spelled _ _ None _ (Bind (expect_or_fail _) _) _ => apply sp_expect_or_fail; intros; dead
    | |- spelled _ _ (Some _) _ (Bind (expect_or_fail _) _) _ => apply sp_expect_or_fail_on; intros; dead
    | |- spelled _ _ None _ (Bind Cur _) _ => apply sp_Cur_none; [intro|]
    | |- spelled _ _ _ _ (Bind next _) _ => first [apply sp_nexttok; [pass|intro; red_i] | apply sp_forget, sp_nexttok; [pass|intro; red_i]]
    | |- spelled _ _ _ _ (Bind (expect_next _) _) _ => first [apply sp_expect_next; [pass|intros; red_i] | apply sp_forget, sp_expect_next; [pass|intros; red_i]]
    | |- spelled _ _ _ _ (Bind Next _) _ => first [apply sp_skip; [pass|red_i] | apply sp_forget, sp_skip; [pass|red_i]]
    end
  | lazymatch goal with
    | |- spelled _ _ _ _ (Bind (match _ with _ => _ end) _) _ => fail
    | |- spelled _ _ _ _ (Bind _ _) _ => first [apply sp_still; [quiet|intro] | eapply sp_bind; [call|intro; red_i]]
    end
  | match goal with
    | |- spelled _ _ _ _ (Ret (if ?x then _ else _)) _ => destruct x
    | |- spelled _ _ _ _ (Ret _) _ => first [apply sp_ret; [sub|side] | apply sp_ret_at; [sub|side]]
    | |- spelled _ _ _ _ (match ?x with _ => _ end) _ => destruct x eqn:?; dead
    | |- spelled _ _ _ _ (Bind (match ?x with _ => _ end) _) _ => destruct x eqn:?; dead
    | |- spelled _ _ _ _ (Scoped _) _ => apply sp_scoped
    | |- spelled _ _ _ _ (Traced _) _ => apply sp_traced
    | |- spelled _ _ _ _ (PostScope _) _ => apply sp_postscope
    | |- spelled _ _ _ _ (Bind _ _) _ => fail 1
    | |- spelled _ _ _ _ _ _ => eapply sp_tail; [call|intro; sub|intros ? ?; side]
    end ].
(** A loop, as the whole of a method *)
Ltac lp L := try apply sp_forget; first
  [ eapply sp_loop_never; [intro; apply L|reflexivity]
  | eapply sp_until0 with (E := nowhere); [intros ? _ []|intro; apply L|reflexivity]
  | eapply sp_until0 with (E := wordy); [intros; eapply sym_not_wordy; eassumption|intro; apply L|reflexivity]
  | eapply (sp_from _ wordy), sp_until0 with (E := wordy); [intros; eapply sym_not_wordy; eassumption|intro; apply L|reflexivity]
  | eapply sp_until_none0 with (E := wordy) (F := wordy); [auto|intro; eapply sp_weak; [apply L|auto|intros [|] ?; auto]|reflexivity]
  | eapply sp_until_none0 with (E := wordy) (F := broken); [now split|intro; apply L|reflexivity] ].

Section WithUnicode.
Context {U : Unicode} {UOK : UnicodeOk U}.

#[local] Opaque spelled.
#[local] Hint Constants Opaque : spell.
#[local] Hint Transparent never maybe none : spell.
#[local] Hint Resolve i_new_fwd : spell.
#[local] Hint Resolve still_get still_node still_get_node still_set still_addpost still_runpost still_uses_item_unit still_unit_get
  still_program_get still_find_member still_unit_identifier still_namespace_identifier still_declare_type : quiet.
Lemma i_parse_qual_id : spelled [] nowhere None never (parse_qual_id) qualid_i.
Proof. unfold parse_qual_id; spell. Qed.
#[local] Hint Resolve i_parse_qual_id : spell.
Lemma i_parse_ident : spelled [] nowhere None never (parse_ident) one.
Proof. unfold parse_ident; spell. Qed.
#[local] Hint Resolve i_parse_ident : spell.
Lemma i_parse_ident_list_by fuel te : spelled [] nowhere None never (parse_ident_list_by fuel te) (map Fresh).
Proof.
  unfold parse_ident_list_by. eapply sp_bind; [apply sp_list with (E := nowhere); [intros ? _ []|apply i_parse_ident]|]. intros l. red_i. spell.
Qed.
#[local] Hint Resolve i_parse_ident_list_by : spell.
Lemma i_parse_manifest_constant (t : token) : spelled [] nowhere None never (parse_manifest_constant t) factor_i.
Proof. unfold parse_manifest_constant; spell. Qed.
#[local] Hint Resolve i_parse_manifest_constant : spell.
Lemma i_parse_string_factor (t : token) (b : bool) : spelled [] nowhere None never (parse_string_factor t b) none.
Proof. unfold parse_string_factor; spell. Qed.
#[local] Hint Resolve i_parse_string_factor : spell.
Lemma i_parse_number_factor (t : token) (b : bool) : spelled [] nowhere None never (parse_number_factor t b) none.
Proof. unfold parse_number_factor; spell. Qed.
#[local] Hint Resolve i_parse_number_factor : spell.
Section Methods.
Context (R : recs).
Record recs_spelled : Prop := {
  rt_expr : spelled [] nowhere None never (r_expr R) expr_i;
  rt_factor : spelled [] nowhere None never (r_factor R) factor_i;
  rt_type : spelled [] nowhere None maybe (r_type R) typ_i;
  rt_fields : forall t, spelled [] nowhere None maybe (r_fields R t) fieldlist_i;
  rt_stmt : spelled [] nowhere None never (r_stmt R) stmt_i;
  rt_block : spelled [] nowhere None never (r_block R) block_i }.
Context (RT : recs_spelled).
Lemma i_r_expr : spelled [] nowhere None never (r_expr R) expr_i. Proof. apply RT. Qed.
Lemma i_r_factor : spelled [] nowhere None never (r_factor R) factor_i. Proof. apply RT. Qed.
Lemma i_r_type : spelled [] nowhere None maybe (r_type R) typ_i. Proof. apply RT. Qed.
Lemma i_r_fields t : spelled [] nowhere None maybe (r_fields R t) fieldlist_i. Proof. apply RT. Qed.
Lemma i_r_stmt : spelled [] nowhere None never (r_stmt R) stmt_i. Proof. apply RT. Qed.
Lemma i_r_block : spelled [] nowhere None never (r_block R) block_i. Proof. apply RT. Qed.
#[local] Hint Resolve i_r_expr i_r_factor i_r_type i_r_fields i_r_stmt i_r_block : spell.
Lemma i_parse_qual_ids : spelled [] nowhere None never (parse_qual_ids R) (flat_map qualid_i).
Proof. unfold parse_qual_ids; spell. Qed.
#[local] Hint Resolve i_parse_qual_ids : spell.
Lemma i_expr_list_step (te : predicator) (l : list expr) : spelled ((flat_map expr_i) l) nowhere None never (expr_list_step R te l) (fun r => match r with inl y => (flat_map expr_i) y | inr y => (flat_map expr_i) y end).
Proof. unfold expr_list_step; spell. Qed.
Lemma i_parse_expr_list (te : predicator) : spelled [] nowhere None never (parse_expr_list R te) (flat_map expr_i).
Proof. unfold parse_expr_list; spell; lp i_expr_list_step. Qed.
#[local] Hint Resolve i_parse_expr_list : spell.
Lemma i_designator_step (l : list ditem) : spelled ((flat_map ditem_i) l) nowhere None never (designator_step R l) (fun r => match r with inl y => (flat_map ditem_i) y | inr y => (flat_map ditem_i) y end).
Proof. unfold designator_step; spell. Qed.
Lemma i_parse_designator : spelled [] nowhere None never (parse_designator R) desig_i.
Proof. unfold parse_designator; spell; (eapply sp_bind; [lp i_designator_step|intro; red_i]); spell. Qed.
#[local] Hint Resolve i_parse_designator : spell.
Lemma i_parse_set_element : spelled [] nowhere None never (parse_set_element R) (fun x => match x with (e, o) => expr_i e ++ opt expr_i o end).
Proof. unfold parse_set_element; spell. Qed.
#[local] Hint Resolve i_parse_set_element : spell.
Lemma i_parse_set_constructor : spelled [] nowhere None never (parse_set_constructor R) factor_i.
Proof. unfold parse_set_constructor; spell. Qed.
#[local] Hint Resolve i_parse_set_constructor : spell.
Lemma i_parse_cast t0 d : spelled [] nowhere (Some t0) never (parse_cast R t0 d) (opt factor_i).
Proof. unfold parse_cast. apply sp_attempt; [intros ? []|]. spell. Qed.
#[local] Hint Resolve i_parse_cast : spell.
Lemma i_parse_designator_factor : spelled [] nowhere None never (parse_designator_factor R) factor_i.
Proof. unfold parse_designator_factor; spell. Qed.
#[local] Hint Resolve i_parse_designator_factor : spell.
Lemma i_parse_factor : spelled [] nowhere None never (parse_factor R) factor_i.
Proof. unfold parse_factor; spell. Qed.
#[local] Hint Resolve i_parse_factor : spell.
Lemma i_term_step (l : list (gostring * factor)) : spelled ((flat_map (fun x => match x with (_, y) => factor_i y end)) l) nowhere None never (term_step R l) (fun r => match r with inl y => (flat_map (fun x => match x with (_, y) => factor_i y end)) y | inr y => (flat_map (fun x => match x with (_, y) => factor_i y end)) y end).
Proof. unfold term_step; spell. Qed.
Lemma i_parse_term : spelled [] nowhere None never (parse_term R) term_i.
Proof. unfold parse_term; spell; (eapply sp_bind; [lp i_term_step|intro; red_i]); spell. Qed.
#[local] Hint Resolve i_parse_term : spell.
Lemma i_simple_step (l : list (gostring * term)) : spelled ((flat_map (fun x => match x with (_, y) => term_i y end)) l) nowhere None never (simple_step R l) (fun r => match r with inl y => (flat_map (fun x => match x with (_, y) => term_i y end)) y | inr y => (flat_map (fun x => match x with (_, y) => term_i y end)) y end).
Proof. unfold simple_step; spell. Qed.
Lemma i_parse_simple_expression : spelled [] nowhere None never (parse_simple_expression R) sexpr_i.
Proof. unfold parse_simple_expression; spell; (eapply sp_bind; [lp i_simple_step|intro; red_i]); spell. Qed.
#[local] Hint Resolve i_parse_simple_expression : spell.
Lemma i_expression_step (l : list (gostring * sexpr)) : spelled ((flat_map (fun x => match x with (_, y) => sexpr_i y end)) l) nowhere None never (expression_step R l) (fun r => match r with inl y => (flat_map (fun x => match x with (_, y) => sexpr_i y end)) y | inr y => (flat_map (fun x => match x with (_, y) => sexpr_i y end)) y end).
Proof. unfold expression_step; spell. Qed.
Lemma i_parse_expression : spelled [] nowhere None never (parse_expression R) expr_i.
Proof. unfold parse_expression; spell; (eapply sp_bind; [lp i_expression_step|intro; red_i]); spell. Qed.
#[local] Hint Resolve i_parse_expression : spell.
Lemma i_parse_const_expr : spelled [] nowhere None never (parse_const_expr R) expr_i.
Proof. unfold parse_const_expr; spell. Qed.
#[local] Hint Resolve i_parse_const_expr : spell.
Lemma i_parse_type_id_with_unit : spelled [] nowhere None (fun o => match o with Some _ => wordy | None => nowhere end) (parse_type_id_with_unit) (opt typeid_i).
Proof. unfold parse_type_id_with_unit; spell. Qed.
#[local] Hint Resolve i_parse_type_id_with_unit : spell.
Lemma i_parse_type_id_without_unit : spelled [] nowhere None never (parse_type_id_without_unit) typeid_i.
Proof. unfold parse_type_id_without_unit; spell. Qed.
#[local] Hint Resolve i_parse_type_id_without_unit : spell.
Lemma i_parse_type_id : spelled [] nowhere None maybe (parse_type_id) typeid_i.
Proof. unfold parse_type_id; spell. Qed.
#[local] Hint Resolve i_parse_type_id : spell.
Definition read_implements : prog typeid := parse_type_id.
Lemma i_parse_implements : spelled [] wordy None maybe read_implements again_i.
Proof.
  unfold read_implements, parse_type_id, parse_type_id_with_unit, parse_type_id_without_unit. apply sp_assoc, sp_cur. intros t.
  apply sp_assoc, sp_still; [quiet|]. intros [|].
  - apply sp_assoc, sp_nexttok_again. intros t1 T1. spell.
  - apply sp_bind_ret, sp_cur_on, sp_next_again. spell.
Qed.
#[local] Hint Resolve i_parse_implements : spell.
Lemma i_parse_embedded (k : ekind) (b : bool) : spelled [] nowhere None never (parse_embedded k b) (opt typeid_i).
Proof. unfold parse_embedded; spell. Qed.
#[local] Hint Resolve i_parse_embedded : spell.
Lemma i_parse_subrange_for_identifier : spelled [] nowhere None never (parse_subrange_for_identifier R) (opt typ_i).
Proof. unfold parse_subrange_for_identifier, const_expr_of_qual_id; (apply sp_attempt; [intros ? []|]); spell. Qed.
#[local] Hint Resolve i_parse_subrange_for_identifier : spell.
Lemma i_parse_type_for_identifier : spelled [] nowhere None maybe (parse_type_for_identifier R) typ_i.
Proof. unfold parse_type_for_identifier; spell. Qed.
#[local] Hint Resolve i_parse_type_for_identifier : spell.
Lemma i_parse_pointer_type : spelled [] nowhere None maybe (parse_pointer_type) typ_i.
Proof. unfold parse_pointer_type; spell. Qed.
#[local] Hint Resolve i_parse_pointer_type : spell.
Lemma i_parse_const_subrange : spelled [] nowhere None never (parse_const_subrange R) typ_i.
Proof. unfold parse_const_subrange; spell. Qed.
#[local] Hint Resolve i_parse_const_subrange : spell.
Lemma i_parse_enum_element : spelled [] nowhere None never (parse_enum_element R) (fun x => match x with (i, o) => Fresh i :: opt expr_i o end).
Proof. unfold parse_enum_element; spell. Qed.
#[local] Hint Resolve i_parse_enum_element : spell.
Lemma i_enum_step (l : list (ident * option expr)) : spelled ((flat_map (fun x => match x with (i, o) => Fresh i :: opt expr_i o end)) l) nowhere None never (enum_step R l) (fun r => match r with inl y => (flat_map (fun x => match x with (i, o) => Fresh i :: opt expr_i o end)) y | inr y => (flat_map (fun x => match x with (i, o) => Fresh i :: opt expr_i o end)) y end).
Proof. unfold enum_step; spell. Qed.
Lemma i_parse_enumerated_type : spelled [] nowhere None never (parse_enumerated_type R) typ_i.
Proof. unfold parse_enumerated_type; spell; (eapply sp_bind; [lp i_enum_step|intro; red_i]); spell. Qed.
#[local] Hint Resolve i_parse_enumerated_type : spell.
Lemma i_parse_string_of_string_type : spelled [] nowhere None never (parse_string_of_string_type R) typ_i.
Proof. unfold parse_string_of_string_type; spell. Qed.
#[local] Hint Resolve i_parse_string_of_string_type : spell.
Lemma i_parse_type_as_ordinal : spelled [] nowhere None maybe (parse_type_as_ordinal R) typ_i.
Proof. unfold parse_type_as_ordinal; spell. Qed.
#[local] Hint Resolve i_parse_type_as_ordinal : spell.
Lemma i_parse_field_decl (te : predicator) : spelled [] nowhere None maybe (parse_field_decl R te) fielddecl_i.
Proof. unfold parse_field_decl; spell. Qed.
#[local] Hint Resolve i_parse_field_decl : spell.
Lemma i_parse_rec_variant : spelled [] nowhere None never (parse_rec_variant R) recvariant_i.
Proof. unfold parse_rec_variant; spell. Qed.
#[local] Hint Resolve i_parse_rec_variant : spell.
Lemma i_rec_variants_step (l : list recvariant) : spelled ((flat_map recvariant_i) l) nowhere None never (rec_variants_step R l) (fun o => match o with Some y => (flat_map recvariant_i) y | None => (flat_map recvariant_i) l end).
Proof. unfold rec_variants_step; spell. Qed.
Lemma i_variant_ident : spelled [] nowhere None never (Attempt (
    t <- expect (p_type Identifier) ;;
    t1 <- next ;;
    if sym ":" t1 then Next ;;; Ret (Some (new_ident t)) else Ret None)%prog) (opt one).
Proof. apply sp_attempt; [intros ? []|]. spell. Qed.
#[local] Hint Resolve i_variant_ident : spell.
Lemma i_parse_variant_section : spelled [] nowhere None never (parse_variant_section R) variantsection_i.
Proof. unfold parse_variant_section; spell; (eapply sp_bind; [lp i_rec_variants_step|intro; red_i]); spell. Qed.
#[local] Hint Resolve i_parse_variant_section : spell.
Lemma i_field_decls_step (te : predicator) (l : list fielddecl) : spelled ((flat_map fielddecl_i) l) nowhere None maybe (field_decls_step R te l) (fun o => match o with Some y => (flat_map fielddecl_i) y | None => (flat_map fielddecl_i) l end).
Proof. unfold field_decls_step; spell. Qed.
Lemma i_parse_field_list (te : predicator) : spelled [] nowhere None maybe (parse_field_list R te) fieldlist_i.
Proof. unfold parse_field_list; spell; (eapply sp_bind; [lp i_field_decls_step|intro; red_i]); spell. Qed.
#[local] Hint Resolve i_parse_field_list : spell.
Lemma i_parse_struc_type : spelled [] nowhere None maybe (parse_struc_type R) typ_i.
Proof. unfold parse_struc_type, parse_array_type, parse_set_type, parse_rec_type, parse_file_type; spell. Qed.
#[local] Hint Resolve i_parse_struc_type : spell.
Lemma i_parse_parameter (s : string) : spelled [] nowhere None never (parse_parameter R s) (fun x => match x with (ids, ty, e) => map Fresh ids ++ opt (fun x => match x with (t, _) => typ_i t end) ty ++ opt expr_i e end).
Proof. unfold parse_parameter; spell. Qed.
#[local] Hint Resolve i_parse_parameter : spell.
Lemma i_parse_formal_parm (s : string) : spelled [] nowhere None never (parse_formal_parm R s) formalparm_i.
Proof. unfold parse_formal_parm; spell. Qed.
#[local] Hint Resolve i_parse_formal_parm : spell.
Lemma i_parse_formal_parameters (a : string) (b : string) : spelled [] nowhere None never (parse_formal_parameters R a b) (flat_map formalparm_i).
Proof. unfold parse_formal_parameters; spell. Qed.
#[local] Hint Resolve i_parse_formal_parameters : spell.
Lemma i_parse_procedure_type : spelled [] nowhere None maybe (parse_procedure_type R) typ_i.
Proof. unfold parse_procedure_type; spell. Qed.
#[local] Hint Resolve i_parse_procedure_type : spell.
Lemma i_parse_function_heading : spelled [] nowhere None maybe (parse_function_heading R) heading_i.
Proof. unfold parse_function_heading; spell. Qed.
#[local] Hint Resolve i_parse_function_heading : spell.
Lemma i_parse_class_heritage : spelled [] nowhere None never (parse_class_heritage R) (opt (flat_map typeid_i)).
Proof. unfold parse_class_heritage; spell. Qed.
#[local] Hint Resolve i_parse_class_heritage : spell.
Lemma i_parse_class_field : spelled [] nowhere None maybe (parse_class_field R) (fun x => match x with (ids, t) => map Fresh ids ++ typ_i t end).
Proof. unfold parse_class_field; spell. Qed.
#[local] Hint Resolve i_parse_class_field : spell.
Lemma i_class_fields_step (l : list (list ident * typ)) : spelled ((flat_map (fun x => match x with (ids, t) => map Fresh ids ++ typ_i t end)) l) nowhere None maybe (class_fields_step R l) (fun o => match o with Some y => (flat_map (fun x => match x with (ids, t) => map Fresh ids ++ typ_i t end)) y | None => (flat_map (fun x => match x with (ids, t) => map Fresh ids ++ typ_i t end)) l end).
Proof. unfold class_fields_step; spell. Qed.
Lemma i_parse_class_field_list : spelled [] nowhere None maybe (parse_class_field_list R) (flat_map (fun x => match x with (ids, t) => map Fresh ids ++ typ_i t end)).
Proof. unfold parse_class_field_list; spell; lp i_class_fields_step. Qed.
#[local] Hint Resolve i_parse_class_field_list : spell.
Lemma i_method_directives_step (l : list gostring) : spelled (none l) wordy None maybe (method_directives_step l) (fun o => match o with Some y => none y | None => none l end).
Proof. unfold method_directives_step; spell. Qed.
Lemma i_parse_class_method_directive_list : spelled [] wordy None maybe (parse_class_method_directive_list R) none.
Proof. unfold parse_class_method_directive_list; spell; (eapply sp_tail; [lp i_method_directives_step|intro; sub|intros ? ?; side]). Qed.
#[local] Hint Resolve i_parse_class_method_directive_list : spell.
Lemma i_parse_constructor_heading : spelled [] nowhere None never (parse_constructor_heading R) cheading_i.
Proof. unfold parse_constructor_heading; spell. Qed.
#[local] Hint Resolve i_parse_constructor_heading : spell.
Lemma i_parse_destructor_heading : spelled [] nowhere None never (parse_destructor_heading) cheading_i.
Proof. unfold parse_destructor_heading; spell. Qed.
#[local] Hint Resolve i_parse_destructor_heading : spell.
Lemma i_parse_class_method : spelled [] wordy None maybe (parse_class_method R) cmethod_i.
Proof. unfold parse_class_method; spell. Qed.
#[local] Hint Resolve i_parse_class_method : spell.
Lemma i_class_methods_step (l : list cmethod) : spelled ((flat_map cmethod_i) l) wordy None maybe (class_methods_step R l) (fun o => match o with Some y => (flat_map cmethod_i) y | None => (flat_map cmethod_i) l end).
Proof. unfold class_methods_step; spell. Qed.
Lemma i_parse_class_method_list : spelled [] wordy None maybe (parse_class_method_list R) (flat_map cmethod_i).
Proof. unfold parse_class_method_list; spell; lp i_class_methods_step. Qed.
#[local] Hint Resolve i_parse_class_method_list : spell.
Lemma i_parse_property_interface : spelled [] nowhere None maybe (parse_property_interface R) (fun x => match x with (ps, t) => opt (flat_map formalparm_i) ps ++ typeid_i t end).
Proof. unfold parse_property_interface; spell. Qed.
#[local] Hint Resolve i_parse_property_interface : spell.
Lemma i_parse_accessor (w : string) (her : option (list typeid)) (mem : list csection) : spelled [] wordy None maybe (parse_accessor R w her mem) (opt identref_i).
Proof. unfold parse_accessor; spell. Qed.
#[local] Hint Resolve i_parse_accessor : spell.
Lemma i_parse_stored (her : option (list typeid)) (mem : list csection) : spelled [] wordy None maybe (parse_stored R her mem) (opt cstored_i).
Proof. unfold parse_stored; spell. Qed.
#[local] Hint Resolve i_parse_stored : spell.
Lemma i_parse_class_property (her : option (list typeid)) (mem : list csection) : spelled [] wordy None maybe (parse_class_property R her mem) cprop_i.
Proof. unfold parse_class_property; change parse_type_id with read_implements; spell. Qed.
#[local] Hint Resolve i_parse_class_property : spell.
Lemma i_class_props_step (her : option (list typeid)) (mem : list csection) (l : list cprop) : spelled ((flat_map cprop_i) l) wordy None (fun o => match o with Some _ => wordy | None => broken end) (class_props_step R her mem l) (fun o => match o with Some y => (flat_map cprop_i) y | None => (flat_map cprop_i) l end).
Proof. unfold class_props_step; spell. Qed.
Lemma i_parse_class_property_list (her : option (list typeid)) (mem : list csection) : spelled [] wordy None (fun _ => broken) (parse_class_property_list R her mem) (flat_map cprop_i).
Proof. unfold parse_class_property_list; spell; lp i_class_props_step. Qed.
#[local] Hint Resolve i_parse_class_property_list : spell.
Lemma i_parse_class_member_section (her : option (list typeid)) (mem : list csection) : spelled [] broken None (fun _ => broken) (parse_class_member_section R her mem) csection_i.
Proof. unfold parse_class_member_section; spell. Qed.
#[local] Hint Resolve i_parse_class_member_section : spell.
Lemma i_class_sections_step (her : option (list typeid)) (l : list csection) : spelled ((flat_map csection_i) l) broken None (fun o => match o with Some _ => broken | None => nowhere end) (class_sections_step R her l) (fun o => match o with Some y => (flat_map csection_i) y | None => (flat_map csection_i) l end).
Proof. unfold class_sections_step; spell. Qed.
Lemma i_parse_class_member_sections her : spelled [] nowhere None never (parse_class_member_sections R her) (flat_map csection_i).
Proof.
  unfold parse_class_member_sections. apply sp_traced. apply (sp_weak _ broken nowhere None never never); [|intros ? []|intros ? ? []].
  eapply sp_until_none0 with (E := broken) (F := nowhere); [|intro; apply i_class_sections_step|reflexivity].
  intros t K W. eapply broken_kw; eauto.
Qed.
#[local] Hint Resolve i_parse_class_member_sections : spell.
Lemma i_parse_class_type : spelled [] nowhere None never (parse_class_type R) typ_i.
Proof. unfold parse_class_type; spell. Qed.
#[local] Hint Resolve i_parse_class_type : spell.
Lemma i_parse_class_type_or_class_ref : spelled [] nowhere None maybe (parse_class_type_or_class_ref R) typ_i.
Proof. unfold parse_class_type_or_class_ref; spell. Qed.
#[local] Hint Resolve i_parse_class_type_or_class_ref : spell.
Lemma i_parse_type : spelled [] nowhere None maybe (parse_type R) typ_i.
Proof. unfold parse_type; spell. Qed.
#[local] Hint Resolve i_parse_type : spell.
Lemma i_parse_type_decl : spelled [] nowhere None maybe (parse_type_decl R) typedecl_i.
Proof. unfold parse_type_decl; spell. Qed.
#[local] Hint Resolve i_parse_type_decl : spell.
Lemma i_is (k : predicator) : spelled [] nowhere None never (is k) none.
Proof. unfold is; spell. Qed.
#[local] Hint Resolve i_is : spell.
Lemma i_section_head (b : bool) (k : predicator) : spelled [] nowhere None never (section_head b k) none.
Proof. unfold section_head; spell. Qed.
#[local] Hint Resolve i_section_head : spell.
Lemma i_type_section_step (l : list typedecl) : spelled ((flat_map typedecl_i) l) nowhere None never (type_section_step R l) (fun r => match r with inl y => (flat_map typedecl_i) y | inr y => (flat_map typedecl_i) y end).
Proof. unfold type_section_step; spell. Qed.
Lemma i_parse_type_section (b : bool) : spelled [] nowhere None never (parse_type_section R b) (opt (flat_map typedecl_i)).
Proof. unfold parse_type_section; spell; (eapply sp_bind; [lp i_type_section_step|intro; red_i]); spell. Qed.
#[local] Hint Resolve i_parse_type_section : spell.
Lemma i_parse_constant_decl : spelled [] nowhere None never (parse_constant_decl R) constdecl_i.
Proof. unfold parse_constant_decl; spell. Qed.
#[local] Hint Resolve i_parse_constant_decl : spell.
Lemma i_const_section_step (l : list constdecl) : spelled ((flat_map constdecl_i) l) nowhere None never (const_section_step R l) (fun r => match r with inl y => (flat_map constdecl_i) y | inr y => (flat_map constdecl_i) y end).
Proof. unfold const_section_step; spell. Qed.
Lemma i_parse_const_section (b : bool) : spelled [] nowhere None never (parse_const_section R b) (opt (flat_map constdecl_i)).
Proof. unfold parse_const_section; spell; (eapply sp_bind; [lp i_const_section_step|intro; red_i]); spell. Qed.
#[local] Hint Resolve i_parse_const_section : spell.
Lemma i_parse_var_decl : spelled [] nowhere None maybe (parse_var_decl R) vardecl_i.
Proof. unfold parse_var_decl; spell. Qed.
#[local] Hint Resolve i_parse_var_decl : spell.
Lemma i_var_section_step (l : list vardecl) : spelled ((flat_map vardecl_i) l) nowhere None never (var_section_step R l) (fun r => match r with inl y => (flat_map vardecl_i) y | inr y => (flat_map vardecl_i) y end).
Proof. unfold var_section_step; spell. Qed.
Lemma i_parse_var_section (b : bool) : spelled [] nowhere None never (parse_var_section R b) (opt (flat_map vardecl_i)).
Proof. unfold parse_var_section; spell; (eapply sp_bind; [lp i_var_section_step|intro; red_i]); spell. Qed.
#[local] Hint Resolve i_parse_var_section : spell.
Lemma i_parse_threadvar_decl : spelled [] nowhere None maybe (parse_threadvar_decl R) threadvardecl_i.
Proof. unfold parse_threadvar_decl; spell. Qed.
#[local] Hint Resolve i_parse_threadvar_decl : spell.
Lemma i_threadvar_section_step (l : list threadvardecl) : spelled ((flat_map threadvardecl_i) l) nowhere None never (threadvar_section_step R l) (fun r => match r with inl y => (flat_map threadvardecl_i) y | inr y => (flat_map threadvardecl_i) y end).
Proof. unfold threadvar_section_step; spell. Qed.
Lemma i_parse_threadvar_section (b : bool) : spelled [] nowhere None never (parse_threadvar_section R b) (opt (flat_map threadvardecl_i)).
Proof. unfold parse_threadvar_section; spell; (eapply sp_bind; [lp i_threadvar_section_step|intro; red_i]); spell. Qed.
#[local] Hint Resolve i_parse_threadvar_section : spell.
Lemma i_stmt_list_step (te : predicator) (l : list stmt) : spelled ((flat_map stmt_i) l) nowhere None never (stmt_list_step R te l) (fun r => match r with inl y => (flat_map stmt_i) y | inr y => (flat_map stmt_i) y end).
Proof. unfold stmt_list_step; spell. Qed.
Lemma i_parse_stmt_list (te : predicator) : spelled [] nowhere None never (parse_stmt_list R te) (flat_map stmt_i).
Proof. unfold parse_stmt_list; spell; lp i_stmt_list_step. Qed.
#[local] Hint Resolve i_parse_stmt_list : spell.
Lemma i_parse_compound_stmt : spelled [] nowhere None never (parse_compound_stmt R) sbody_i.
Proof. unfold parse_compound_stmt; spell. Qed.
#[local] Hint Resolve i_parse_compound_stmt : spell.
Lemma i_parse_designator_statement : spelled [] nowhere None never (parse_designator_statement R) sbody_i.
Proof. unfold parse_designator_statement; spell. Qed.
#[local] Hint Resolve i_parse_designator_statement : spell.
Lemma i_parse_inherited : spelled [] nowhere None never (parse_inherited) sbody_i.
Proof. unfold parse_inherited; spell. Qed.
#[local] Hint Resolve i_parse_inherited : spell.
Lemma i_parse_goto : spelled [] nowhere None never (parse_goto) sbody_i.
Proof. unfold parse_goto; spell. Qed.
#[local] Hint Resolve i_parse_goto : spell.
Lemma i_asm_step (l : unit) : spelled (none l) nowhere None never (asm_step l) (fun r => match r with inl y => none y | inr y => none y end).
Proof. unfold asm_step; spell. Qed.
Lemma i_parse_asm : spelled [] nowhere None never (parse_asm R) sbody_i.
Proof. unfold parse_asm; spell; (eapply sp_bind; [lp i_asm_step|intro; red_i]); spell. Qed.
#[local] Hint Resolve i_parse_asm : spell.
Lemma i_parse_if : spelled [] nowhere None never (parse_if R) sbody_i.
Proof. unfold parse_if; spell. Qed.
#[local] Hint Resolve i_parse_if : spell.
Lemma i_parse_case_label : spelled [] nowhere None never (parse_case_label R) (fun x => match x with (e, o) => expr_i e ++ opt expr_i o end).
Proof. unfold parse_case_label; spell. Qed.
#[local] Hint Resolve i_parse_case_label : spell.
Lemma i_case_labels_step (l : list (expr * option expr)) : spelled ((flat_map (fun x => match x with (e, o) => expr_i e ++ opt expr_i o end)) l) nowhere None never (case_labels_step R l) (fun r => match r with inl y => (flat_map (fun x => match x with (e, o) => expr_i e ++ opt expr_i o end)) y | inr y => (flat_map (fun x => match x with (e, o) => expr_i e ++ opt expr_i o end)) y end).
Proof. unfold case_labels_step; spell. Qed.
Lemma i_parse_case_selector : spelled [] nowhere None never (parse_case_selector R) (fun x => match x with (ls, s) => flat_map (fun y => match y with (a, b) => expr_i a ++ opt expr_i b end) ls ++ stmt_i s end).
Proof. unfold parse_case_selector; spell; (eapply sp_bind; [lp i_case_labels_step|intro; red_i]); spell. Qed.
#[local] Hint Resolve i_parse_case_selector : spell.
Lemma i_case_selectors_step (l : list (list (expr * option expr) * stmt)) : spelled ((flat_map (fun x => match x with (ls, s) => flat_map (fun y => match y with (a, b) => expr_i a ++ opt expr_i b end) ls ++ stmt_i s end)) l) nowhere None never (case_selectors_step R l) (fun r => match r with inl y => (flat_map (fun x => match x with (ls, s) => flat_map (fun y => match y with (a, b) => expr_i a ++ opt expr_i b end) ls ++ stmt_i s end)) y | inr y => (flat_map (fun x => match x with (ls, s) => flat_map (fun y => match y with (a, b) => expr_i a ++ opt expr_i b end) ls ++ stmt_i s end)) y end).
Proof. unfold case_selectors_step; spell. Qed.
Lemma i_parse_case : spelled [] nowhere None never (parse_case R) sbody_i.
Proof. unfold parse_case; spell; (eapply sp_bind; [lp i_case_selectors_step|intro; red_i]); spell. Qed.
#[local] Hint Resolve i_parse_case : spell.
Lemma i_parse_repeat : spelled [] nowhere None never (parse_repeat R) sbody_i.
Proof. unfold parse_repeat; spell. Qed.
#[local] Hint Resolve i_parse_repeat : spell.
Lemma i_parse_while : spelled [] nowhere None never (parse_while R) sbody_i.
Proof. unfold parse_while; spell. Qed.
#[local] Hint Resolve i_parse_while : spell.
Lemma i_parse_for : spelled [] nowhere None never (parse_for R) sbody_i.
Proof. unfold parse_for; spell. Qed.
#[local] Hint Resolve i_parse_for : spell.
Lemma i_parse_with : spelled [] nowhere None never (parse_with R) sbody_i.
Proof. unfold parse_with; spell. Qed.
#[local] Hint Resolve i_parse_with : spell.
Lemma i_parse_raise : spelled [] nowhere None never (parse_raise R) sbody_i.
Proof. unfold parse_raise; spell. Qed.
#[local] Hint Resolve i_parse_raise : spell.
Lemma i_parse_handler : spelled [] nowhere None never (parse_handler R) (fun x => match x with (i, t, s) => opt one i ++ typ_i t ++ stmt_i s end).
Proof. unfold parse_handler; spell. Qed.
#[local] Hint Resolve i_parse_handler : spell.
Lemma i_handlers_step (l : list (option ident * typ * stmt)) : spelled ((flat_map (fun x => match x with (i, t, s) => opt one i ++ typ_i t ++ stmt_i s end)) l) nowhere None never (handlers_step R l) (fun r => match r with inl y => (flat_map (fun x => match x with (i, t, s) => opt one i ++ typ_i t ++ stmt_i s end)) y | inr y => (flat_map (fun x => match x with (i, t, s) => opt one i ++ typ_i t ++ stmt_i s end)) y end).
Proof. unfold handlers_step; spell. Qed.
Lemma i_parse_exception_block : spelled [] nowhere None never (parse_exception_block R) (fun x => match x with (hs, els) => flat_map (fun x => match x with (i, t, s) => opt one i ++ typ_i t ++ stmt_i s end) hs ++ opt (flat_map stmt_i) els end).
Proof. unfold parse_exception_block; spell; (eapply sp_bind; [lp i_handlers_step|intro; red_i]); spell. Qed.
#[local] Hint Resolve i_parse_exception_block : spell.
Lemma i_parse_try : spelled [] nowhere None never (parse_try R) sbody_i.
Proof. unfold parse_try; spell. Qed.
#[local] Hint Resolve i_parse_try : spell.
Lemma i_parse_statement_body : spelled [] nowhere None never (parse_statement_body R) sbody_i.
Proof. unfold parse_statement_body; spell. Qed.
#[local] Hint Resolve i_parse_statement_body : spell.
Lemma i_parse_statement : spelled [] nowhere None never (parse_statement R) stmt_i.
Proof. unfold parse_statement; spell. Qed.
#[local] Hint Resolve i_parse_statement : spell.
Lemma i_parse_external_options : spelled [] nowhere None never (parse_external_options) none.
Proof. unfold parse_external_options; spell. Qed.
#[local] Hint Resolve i_parse_external_options : spell.
Lemma i_directives_step (l : (list gostring * option extopts)) : spelled (none l) nowhere None never (directives_step l) (fun r => match r with inl y => none y | inr y => none y end).
Proof. unfold directives_step; spell. Qed.
Lemma i_parse_function_directives : spelled [] nowhere None never (parse_function_directives R) none.
Proof. unfold parse_function_directives; spell; lp i_directives_step. Qed.
#[local] Hint Resolve i_parse_function_directives : spell.
Lemma i_parse_optional_directives : spelled [] nowhere None never (parse_optional_directives R) none.
Proof. unfold parse_optional_directives; spell. Qed.
#[local] Hint Resolve i_parse_optional_directives : spell.
Lemma i_parse_exported_heading : spelled [] nowhere None never (parse_exported_heading R) intfdecl_i.
Proof. unfold parse_exported_heading; spell. Qed.
#[local] Hint Resolve i_parse_exported_heading : spell.
Lemma i_parse_procedure_decl_section : spelled [] nowhere None never (parse_procedure_decl_section R) (opt declsection_i).
Proof. unfold parse_procedure_decl_section; spell. Qed.
#[local] Hint Resolve i_parse_procedure_decl_section : spell.
Lemma i_parse_label_decl_section : spelled [] nowhere None never (parse_label_decl_section) (opt declsection_i).
Proof. unfold parse_label_decl_section; spell. Qed.
#[local] Hint Resolve i_parse_label_decl_section : spell.
Lemma i_parse_decl_section : spelled [] nowhere None never (parse_decl_section R) (opt declsection_i).
Proof. unfold parse_decl_section; spell. Qed.
#[local] Hint Resolve i_parse_decl_section : spell.
Lemma i_decl_sections_step (l : list declsection) : spelled ((flat_map declsection_i) l) nowhere None never (decl_sections_step R l) (fun r => match r with inl y => (flat_map declsection_i) y | inr y => (flat_map declsection_i) y end).
Proof. unfold decl_sections_step; spell. Qed.
Lemma i_parse_decl_sections : spelled [] nowhere None never (parse_decl_sections R) (opt (flat_map declsection_i)).
Proof. unfold parse_decl_sections; (eapply sp_bind; [lp i_decl_sections_step|intros [|x l]; unfold nonempty; red_i]); spell. Qed.
#[local] Hint Resolve i_parse_decl_sections : spell.
Lemma i_parse_exports_item : spelled [] nowhere None never (parse_exports_item R) exports_i.
Proof. unfold parse_exports_item; spell. Qed.
#[local] Hint Resolve i_parse_exports_item : spell.
Lemma i_parse_exports_stmt : spelled [] nowhere None never (parse_exports_stmt R) (opt (flat_map exports_i)).
Proof. unfold parse_exports_stmt; spell. Qed.
#[local] Hint Resolve i_parse_exports_stmt : spell.
Lemma i_exports_step (l : list (list exportsitem)) : spelled ((flat_map (flat_map exports_i)) l) nowhere None never (exports_step R l) (fun r => match r with inl y => (flat_map (flat_map exports_i)) y | inr y => (flat_map (flat_map exports_i)) y end).
Proof. unfold exports_step; spell. Qed.
Lemma i_parse_exports_stmts : spelled [] nowhere None never (parse_exports_stmts R) (opt (flat_map (flat_map exports_i))).
Proof. unfold parse_exports_stmts; (eapply sp_bind; [lp i_exports_step|intros [|x l]; unfold nonempty; red_i]); spell. Qed.
#[local] Hint Resolve i_parse_exports_stmts : spell.
Lemma i_parse_block : spelled [] nowhere None never (parse_block R) block_i.
Proof.
  unfold parse_block.
  assert (K : forall G D X B b, block_i b = D ++ [Either X B] -> subseq (D ++ X ++ B) G \/ subseq (D ++ B ++ X) G ->
    spelled G nowhere None never (Ret b) block_i) by (intros; eapply sp_either; eauto).
  eapply sp_bind; [call|intros ds; red_i]. eapply sp_bind; [call|intros ex1; red_i].
  spell;
    match goal with |- spelled _ _ _ _ (Ret (Block _ (match ?x with _ => _ end) _)) _ => destruct x end;
    (eapply K; [reflexivity|red_i]); first [left; sub|right; sub].
Qed.
End Methods.

Lemma recs_at_spelled n : recs_spelled (recs_at n).
Proof.
  induction n as [|n IH]; cbn [recs_at]; constructor; cbn [r_expr r_factor r_type r_fields r_stmt r_block]; intros;
    try apply sp_nofuel.
  - now apply i_parse_expression.
  - now apply i_parse_factor.
  - now apply i_parse_type.
  - now apply i_parse_field_list.
  - now apply i_parse_statement.
  - now apply i_parse_block.
Qed.

End WithUnicode.
