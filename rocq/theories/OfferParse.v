(** Every method of the parser leaves the map objects that no context writes to: one lemma for each method
    of Parser.v, in its order. *)
From Coq Require Import String List NArith Bool Arith Lia.
From Verif Require Import ListUtil Runes Token Tokenizer Ast Ext ExtMain Heap Classes MapSpec MapFacts MapMain Prog Parser RunFacts OfferFacts.
Import ListNotations.
Local Open Scope list_scope.

Section WithUnicode.
Context {U : Unicode}.

Create HintDb lets.
#[local] Hint Resolve lets_ret lets_next lets_Cur lets_failat lets_fail lets_crash lets_nofuel
  lets_addpost lets_runpost lets_validate lets_cur lets_is lets_nexttok lets_expect
  lets_expect_next lets_expect_or_fail lets_get lets_node lets_get_node lets_set lets_new_type_id : lets.
Ltac lt := repeat first
  [ solve [auto with lets nocore]
  | match goal with
    | |- lets (Bind _ _) => apply lets_bind; [|intro]
    | |- lets (Attempt _) => apply lets_attempt
    | |- lets (Scoped _) => apply lets_scoped
    | |- lets (Traced _) => apply lets_traced
    | |- lets (PostScope _) => apply lets_postscope
    | |- lets (loop _ _ _) => apply lets_loop; intro
    | |- lets (until_list _ _ _ _) => apply lets_until_list
    | |- lets (until _ _ _ _ _) => apply lets_until; intro
    | |- lets (match ?x with _ => _ end) => destruct x
    | |- lets (let _ := _ in _) => cbv zeta
    | |- lets (OnHeap _) => apply lets_pure; intros ? ? ? ?;
        repeat match goal with |- context [match ?x with _ => _ end] => destruct x end; solve [congruence]
    end ].

Lemma l_is_unit_identifier (t : token) : lets (is_unit_identifier t).
Proof. unfold is_unit_identifier; lt. Qed.
#[local] Hint Resolve l_is_unit_identifier : lets.
Lemma l_is_namespace_identifier (t : token) : lets (is_namespace_identifier t).
Proof. unfold is_namespace_identifier; lt. Qed.
#[local] Hint Resolve l_is_namespace_identifier : lets.
Lemma l_new_ident_ref (t : token) : lets (new_ident_ref t).
Proof. unfold new_ident_ref; lt. Qed.
#[local] Hint Resolve l_new_ident_ref : lets.
Lemma l_uses_item_unit (a : nat) : lets (uses_item_unit a).
Proof. unfold uses_item_unit; lt. Qed.
#[local] Hint Resolve l_uses_item_unit : lets.
Lemma l_unit_get (a : nat) (name : gostring) : lets (unit_get a name).
Proof. unfold unit_get; lt. Qed.
#[local] Hint Resolve l_unit_get : lets.
Lemma l_program_get (a : nat) (name : gostring) : lets (program_get a name).
Proof. unfold program_get; lt. Qed.
#[local] Hint Resolve l_program_get : lets.
Lemma l_parse_qual_id : lets (parse_qual_id).
Proof. unfold parse_qual_id; lt. Qed.
#[local] Hint Resolve l_parse_qual_id : lets.
Lemma l_parse_ident : lets (parse_ident).
Proof. unfold parse_ident; lt. Qed.
#[local] Hint Resolve l_parse_ident : lets.
Lemma l_parse_ident_list_by (fuel : nat) (terminator : predicator) : lets (parse_ident_list_by fuel terminator).
Proof. unfold parse_ident_list_by; lt. Qed.
#[local] Hint Resolve l_parse_ident_list_by : lets.
Lemma l_parse_manifest_constant (t : token) : lets (parse_manifest_constant t).
Proof. unfold parse_manifest_constant; lt. Qed.
#[local] Hint Resolve l_parse_manifest_constant : lets.
Lemma l_parse_string_factor (t : token) (skip : bool) : lets (parse_string_factor t skip).
Proof. unfold parse_string_factor; lt. Qed.
#[local] Hint Resolve l_parse_string_factor : lets.
Lemma l_parse_number_factor (t : token) (skip : bool) : lets (parse_number_factor t skip).
Proof. unfold parse_number_factor; lt. Qed.
#[local] Hint Resolve l_parse_number_factor : lets.

(** What the recursive calls do. *)
Definition recs_let (R : recs) : Prop :=
  lets (r_expr R) /\ lets (r_factor R) /\ lets (r_type R) /\ (forall t, lets (r_fields R t)) /\
  lets (r_stmt R) /\ lets (r_block R).
Section Methods.
Context (R : recs) (RE : recs_let R).
Lemma l_r_expr : lets (r_expr R). Proof. apply RE. Qed.
Lemma l_r_factor : lets (r_factor R). Proof. apply RE. Qed.
Lemma l_r_type : lets (r_type R). Proof. apply RE. Qed.
Lemma l_r_fields t : lets (r_fields R t). Proof. apply RE. Qed.
Lemma l_r_stmt : lets (r_stmt R). Proof. apply RE. Qed.
Lemma l_r_block : lets (r_block R). Proof. apply RE. Qed.
#[local] Hint Resolve l_r_expr l_r_factor l_r_type l_r_fields l_r_stmt l_r_block : lets.

Lemma l_parse_qual_ids : lets (parse_qual_ids R).
Proof. unfold parse_qual_ids; lt. Qed.
#[local] Hint Resolve l_parse_qual_ids : lets.
Lemma l_expr_list_step (terminator : predicator) (l : list expr) : lets (expr_list_step R terminator l).
Proof. unfold expr_list_step; lt. Qed.
#[local] Hint Resolve l_expr_list_step : lets.
Lemma l_parse_expr_list (terminator : predicator) : lets (parse_expr_list R terminator).
Proof. unfold parse_expr_list; lt. Qed.
#[local] Hint Resolve l_parse_expr_list : lets.
Lemma l_designator_step (items : list ditem) : lets (designator_step R items).
Proof. unfold designator_step; lt. Qed.
#[local] Hint Resolve l_designator_step : lets.
Lemma l_parse_designator : lets (parse_designator R).
Proof. unfold parse_designator; lt. Qed.
#[local] Hint Resolve l_parse_designator : lets.
Lemma l_parse_set_element : lets (parse_set_element R).
Proof. unfold parse_set_element; lt. Qed.
#[local] Hint Resolve l_parse_set_element : lets.
Lemma l_parse_set_constructor : lets (parse_set_constructor R).
Proof. unfold parse_set_constructor; lt. Qed.
#[local] Hint Resolve l_parse_set_constructor : lets.
Lemma l_parse_cast (t0 : token) (d : dref) : lets (parse_cast R t0 d).
Proof. unfold parse_cast; lt. Qed.
#[local] Hint Resolve l_parse_cast : lets.
Lemma l_parse_designator_factor : lets (parse_designator_factor R).
Proof. unfold parse_designator_factor; lt. Qed.
#[local] Hint Resolve l_parse_designator_factor : lets.
Lemma l_parse_factor : lets (parse_factor R).
Proof. unfold parse_factor; lt. Qed.
#[local] Hint Resolve l_parse_factor : lets.
Lemma l_term_step (l : list (gostring * factor)) : lets (term_step R l).
Proof. unfold term_step; lt. Qed.
#[local] Hint Resolve l_term_step : lets.
Lemma l_parse_term : lets (parse_term R).
Proof. unfold parse_term; lt. Qed.
#[local] Hint Resolve l_parse_term : lets.
Lemma l_simple_step (l : list (gostring * term)) : lets (simple_step R l).
Proof. unfold simple_step; lt. Qed.
#[local] Hint Resolve l_simple_step : lets.
Lemma l_parse_simple_expression : lets (parse_simple_expression R).
Proof. unfold parse_simple_expression; lt. Qed.
#[local] Hint Resolve l_parse_simple_expression : lets.
Lemma l_expression_step (l : list (gostring * sexpr)) : lets (expression_step R l).
Proof. unfold expression_step; lt. Qed.
#[local] Hint Resolve l_expression_step : lets.
Lemma l_parse_expression : lets (parse_expression R).
Proof. unfold parse_expression; lt. Qed.
#[local] Hint Resolve l_parse_expression : lets.
Lemma l_parse_const_expr : lets (parse_const_expr R).
Proof. unfold parse_const_expr; lt. Qed.
#[local] Hint Resolve l_parse_const_expr : lets.
Lemma l_parse_type_id_with_unit : lets (parse_type_id_with_unit).
Proof. unfold parse_type_id_with_unit; lt. Qed.
#[local] Hint Resolve l_parse_type_id_with_unit : lets.
Lemma l_parse_type_id_without_unit : lets (parse_type_id_without_unit).
Proof. unfold parse_type_id_without_unit; lt. Qed.
#[local] Hint Resolve l_parse_type_id_without_unit : lets.
Lemma l_parse_type_id : lets (parse_type_id).
Proof. unfold parse_type_id; lt. Qed.
#[local] Hint Resolve l_parse_type_id : lets.
Lemma l_parse_embedded (k : ekind) (required : bool) : lets (parse_embedded k required).
Proof. unfold parse_embedded; lt. Qed.
#[local] Hint Resolve l_parse_embedded : lets.
Lemma l_parse_subrange_for_identifier : lets (parse_subrange_for_identifier R).
Proof. unfold parse_subrange_for_identifier; lt. Qed.
#[local] Hint Resolve l_parse_subrange_for_identifier : lets.
Lemma l_parse_type_for_identifier : lets (parse_type_for_identifier R).
Proof. unfold parse_type_for_identifier; lt. Qed.
#[local] Hint Resolve l_parse_type_for_identifier : lets.
Lemma l_parse_pointer_type : lets (parse_pointer_type).
Proof. unfold parse_pointer_type; lt. Qed.
#[local] Hint Resolve l_parse_pointer_type : lets.
Lemma l_parse_const_subrange : lets (parse_const_subrange R).
Proof. unfold parse_const_subrange; lt. Qed.
#[local] Hint Resolve l_parse_const_subrange : lets.
Lemma l_parse_enum_element : lets (parse_enum_element R).
Proof. unfold parse_enum_element; lt. Qed.
#[local] Hint Resolve l_parse_enum_element : lets.
Lemma l_enum_step (l : list (ident * option expr)) : lets (enum_step R l).
Proof. unfold enum_step; lt. Qed.
#[local] Hint Resolve l_enum_step : lets.
Lemma l_parse_enumerated_type : lets (parse_enumerated_type R).
Proof. unfold parse_enumerated_type; lt. Qed.
#[local] Hint Resolve l_parse_enumerated_type : lets.
Lemma l_parse_string_of_string_type : lets (parse_string_of_string_type R).
Proof. unfold parse_string_of_string_type; lt. Qed.
#[local] Hint Resolve l_parse_string_of_string_type : lets.
Lemma l_parse_type_as_ordinal : lets (parse_type_as_ordinal R).
Proof. unfold parse_type_as_ordinal; lt. Qed.
#[local] Hint Resolve l_parse_type_as_ordinal : lets.
Lemma l_parse_array_type : lets (parse_array_type R).
Proof. unfold parse_array_type; lt. Qed.
#[local] Hint Resolve l_parse_array_type : lets.
Lemma l_parse_set_type : lets (parse_set_type R).
Proof. unfold parse_set_type; lt. Qed.
#[local] Hint Resolve l_parse_set_type : lets.
Lemma l_parse_file_type : lets (parse_file_type).
Proof. unfold parse_file_type; lt. Qed.
#[local] Hint Resolve l_parse_file_type : lets.
Lemma l_parse_field_decl (terminator : predicator) : lets (parse_field_decl R terminator).
Proof. unfold parse_field_decl; lt. Qed.
#[local] Hint Resolve l_parse_field_decl : lets.
Lemma l_parse_rec_variant : lets (parse_rec_variant R).
Proof. unfold parse_rec_variant; lt. Qed.
#[local] Hint Resolve l_parse_rec_variant : lets.
Lemma l_rec_variants_step (l : list recvariant) : lets (rec_variants_step R l).
Proof. unfold rec_variants_step; lt. Qed.
#[local] Hint Resolve l_rec_variants_step : lets.
Lemma l_parse_variant_section : lets (parse_variant_section R).
Proof. unfold parse_variant_section; lt. Qed.
#[local] Hint Resolve l_parse_variant_section : lets.
Lemma l_field_decls_step (terminator : predicator) (l : list fielddecl) : lets (field_decls_step R terminator l).
Proof. unfold field_decls_step; lt. Qed.
#[local] Hint Resolve l_field_decls_step : lets.
Lemma l_parse_field_list (terminator : predicator) : lets (parse_field_list R terminator).
Proof. unfold parse_field_list; lt. Qed.
#[local] Hint Resolve l_parse_field_list : lets.
Lemma l_parse_rec_type : lets (parse_rec_type R).
Proof. unfold parse_rec_type; lt. Qed.
#[local] Hint Resolve l_parse_rec_type : lets.
Lemma l_parse_struc_type : lets (parse_struc_type R).
Proof. unfold parse_struc_type; lt. Qed.
#[local] Hint Resolve l_parse_struc_type : lets.
Lemma l_parse_parameter (end_ : string) : lets (parse_parameter R end_).
Proof. unfold parse_parameter; lt. Qed.
#[local] Hint Resolve l_parse_parameter : lets.
Lemma l_parse_formal_parm (end_ : string) : lets (parse_formal_parm R end_).
Proof. unfold parse_formal_parm; lt. Qed.
#[local] Hint Resolve l_parse_formal_parm : lets.
Lemma l_parse_formal_parameters (start_ end_ : string) : lets (parse_formal_parameters R start_ end_).
Proof. unfold parse_formal_parameters; lt. Qed.
#[local] Hint Resolve l_parse_formal_parameters : lets.
(** What runs in a scope of its own. *)
Lemma l_procedure_type_scope (function : bool) : lets (
  t <- next ;;
  params <- (if sym "(" t then l <- parse_formal_parameters R "(" ")" ;; Ret (Some l) else Ret None) ;;
  ret <- (if function : bool then expect (sym ":") ;;; Next ;;; r <- parse_type_id ;; Ret (Some r) else Ret None) ;;
  b <- is (kw "OF") ;;
  ofobject <- (if b : bool then Next ;;; expect (kw "OBJECT") ;;; Next ;;; Ret true else Ret false) ;;
  Ret (TProc function params ret ofobject))%prog.
Proof. lt. Qed.
Lemma l_parse_procedure_type : lets (parse_procedure_type R).
Proof. unfold parse_procedure_type; lt. Qed.
#[local] Hint Resolve l_parse_procedure_type : lets.
Lemma l_parse_function_heading : lets (parse_function_heading R).
Proof. unfold parse_function_heading; lt. Qed.
#[local] Hint Resolve l_parse_function_heading : lets.
Lemma l_parse_class_heritage : lets (parse_class_heritage R).
Proof. unfold parse_class_heritage; lt. Qed.
#[local] Hint Resolve l_parse_class_heritage : lets.
Lemma l_parse_class_field : lets (parse_class_field R).
Proof. unfold parse_class_field; lt. Qed.
#[local] Hint Resolve l_parse_class_field : lets.
Lemma l_class_fields_step (l : list (list ident * typ)) : lets (class_fields_step R l).
Proof. unfold class_fields_step; lt. Qed.
#[local] Hint Resolve l_class_fields_step : lets.
Lemma l_parse_class_field_list : lets (parse_class_field_list R).
Proof. unfold parse_class_field_list; lt. Qed.
#[local] Hint Resolve l_parse_class_field_list : lets.
Lemma l_method_directives_step (l : list gostring) : lets (method_directives_step l).
Proof. unfold method_directives_step; lt. Qed.
#[local] Hint Resolve l_method_directives_step : lets.
Lemma l_parse_class_method_directive_list : lets (parse_class_method_directive_list R).
Proof. unfold parse_class_method_directive_list; lt. Qed.
#[local] Hint Resolve l_parse_class_method_directive_list : lets.
Lemma l_parse_constructor_heading : lets (parse_constructor_heading R).
Proof. unfold parse_constructor_heading; lt. Qed.
#[local] Hint Resolve l_parse_constructor_heading : lets.
Lemma l_parse_destructor_heading : lets (parse_destructor_heading).
Proof. unfold parse_destructor_heading; lt. Qed.
#[local] Hint Resolve l_parse_destructor_heading : lets.
Lemma l_parse_class_method : lets (parse_class_method R).
Proof. unfold parse_class_method; lt. Qed.
#[local] Hint Resolve l_parse_class_method : lets.
Lemma l_class_methods_step (l : list cmethod) : lets (class_methods_step R l).
Proof. unfold class_methods_step; lt. Qed.
#[local] Hint Resolve l_class_methods_step : lets.
Lemma l_parse_class_method_list : lets (parse_class_method_list R).
Proof. unfold parse_class_method_list; lt. Qed.
#[local] Hint Resolve l_parse_class_method_list : lets.
Lemma l_parse_property_interface : lets (parse_property_interface R).
Proof. unfold parse_property_interface; lt. Qed.
#[local] Hint Resolve l_parse_property_interface : lets.
Lemma l_find_member_decl (her : option (list typeid)) (mem : list csection) (name : gostring) : lets (find_member_decl R her mem name).
Proof.
  apply lets_onheap. intros X c h a h'. destruct (find_member _ _ _ _ _ _) as [[d|]|]; try discriminate; intros [= <- <-];
    [apply settled_decls|apply settled_refl].
Qed.
#[local] Hint Resolve l_find_member_decl : lets.
Lemma l_parse_accessor (word : string) (her : option (list typeid)) (mem : list csection) : lets (parse_accessor R word her mem).
Proof. unfold parse_accessor; lt. Qed.
#[local] Hint Resolve l_parse_accessor : lets.
Lemma l_parse_stored (her : option (list typeid)) (mem : list csection) : lets (parse_stored R her mem).
Proof. unfold parse_stored; lt. Qed.
#[local] Hint Resolve l_parse_stored : lets.
Lemma l_parse_class_property (her : option (list typeid)) (mem : list csection) : lets (parse_class_property R her mem).
Proof. unfold parse_class_property; lt. Qed.
#[local] Hint Resolve l_parse_class_property : lets.
Lemma l_class_props_step (her : option (list typeid)) (mem : list csection) (l : list cprop) : lets (class_props_step R her mem l).
Proof. unfold class_props_step; lt. Qed.
#[local] Hint Resolve l_class_props_step : lets.
Lemma l_parse_class_property_list (her : option (list typeid)) (mem : list csection) : lets (parse_class_property_list R her mem).
Proof. unfold parse_class_property_list; lt. Qed.
#[local] Hint Resolve l_parse_class_property_list : lets.
Lemma l_parse_class_member_section (her : option (list typeid)) (secs : list csection) : lets (parse_class_member_section R her secs).
Proof. unfold parse_class_member_section; lt. Qed.
#[local] Hint Resolve l_parse_class_member_section : lets.
Lemma l_class_sections_step (her : option (list typeid)) (secs : list csection) : lets (class_sections_step R her secs).
Proof. unfold class_sections_step; lt. Qed.
#[local] Hint Resolve l_class_sections_step : lets.
Lemma l_parse_class_member_sections (her : option (list typeid)) : lets (parse_class_member_sections R her).
Proof. unfold parse_class_member_sections; lt. Qed.
#[local] Hint Resolve l_parse_class_member_sections : lets.
Lemma l_parse_class_type : lets (parse_class_type R).
Proof. unfold parse_class_type; lt. Qed.
#[local] Hint Resolve l_parse_class_type : lets.
Lemma l_parse_class_type_or_class_ref : lets (parse_class_type_or_class_ref R).
Proof.
  unfold parse_class_type_or_class_ref; lt. apply lets_onheap. intros X c h x h' [= <- <-]. now apply settled_same.
Qed.
#[local] Hint Resolve l_parse_class_type_or_class_ref : lets.
Lemma l_parse_type : lets (parse_type R).
Proof. unfold parse_type; lt. Qed.
#[local] Hint Resolve l_parse_type : lets.
Lemma l_declare_type (i : ident) (ty : typ) : lets (declare_type i ty).
Proof.
  unfold declare_type; lt. apply lets_onheap. intros X c h x h'. cbv zeta.
  destruct (ctx_overwrite _ _ _ _) as [h3|] eqn:E; [|discriminate]. intros [= <- <-].
  apply (settled_overwrite X) in E. eapply settled_trans; [|exact E]. apply above_settled. constructor; auto. cbn. eauto.
Qed.
#[local] Hint Resolve l_declare_type : lets.
Lemma l_parse_type_decl : lets (parse_type_decl R).
Proof. unfold parse_type_decl; lt. Qed.
#[local] Hint Resolve l_parse_type_decl : lets.
Lemma l_section_head (required : bool) (k : predicator) : lets (section_head required k).
Proof. unfold section_head; lt. Qed.
#[local] Hint Resolve l_section_head : lets.
Lemma l_type_section_step (l : list typedecl) : lets (type_section_step R l).
Proof. unfold type_section_step; lt. Qed.
#[local] Hint Resolve l_type_section_step : lets.
Lemma l_parse_type_section (required : bool) : lets (parse_type_section R required).
Proof. unfold parse_type_section; lt. Qed.
#[local] Hint Resolve l_parse_type_section : lets.
Lemma l_parse_constant_decl : lets (parse_constant_decl R).
Proof. unfold parse_constant_decl; lt. Qed.
#[local] Hint Resolve l_parse_constant_decl : lets.
Lemma l_const_section_step (l : list constdecl) : lets (const_section_step R l).
Proof. unfold const_section_step; lt. Qed.
#[local] Hint Resolve l_const_section_step : lets.
Lemma l_parse_const_section (required : bool) : lets (parse_const_section R required).
Proof. unfold parse_const_section; lt. Qed.
#[local] Hint Resolve l_parse_const_section : lets.
Lemma l_parse_var_decl : lets (parse_var_decl R).
Proof. unfold parse_var_decl; lt. Qed.
#[local] Hint Resolve l_parse_var_decl : lets.
Lemma l_var_section_step (l : list vardecl) : lets (var_section_step R l).
Proof. unfold var_section_step; lt. Qed.
#[local] Hint Resolve l_var_section_step : lets.
Lemma l_parse_var_section (required : bool) : lets (parse_var_section R required).
Proof. unfold parse_var_section; lt. Qed.
#[local] Hint Resolve l_parse_var_section : lets.
Lemma l_parse_threadvar_decl : lets (parse_threadvar_decl R).
Proof. unfold parse_threadvar_decl; lt. Qed.
#[local] Hint Resolve l_parse_threadvar_decl : lets.
Lemma l_threadvar_section_step (l : list threadvardecl) : lets (threadvar_section_step R l).
Proof. unfold threadvar_section_step; lt. Qed.
#[local] Hint Resolve l_threadvar_section_step : lets.
Lemma l_parse_threadvar_section (required : bool) : lets (parse_threadvar_section R required).
Proof. unfold parse_threadvar_section; lt. Qed.
#[local] Hint Resolve l_parse_threadvar_section : lets.
Lemma l_stmt_list_step (terminator : predicator) (l : list stmt) : lets (stmt_list_step R terminator l).
Proof. unfold stmt_list_step; lt. Qed.
#[local] Hint Resolve l_stmt_list_step : lets.
Lemma l_parse_stmt_list (terminator : predicator) : lets (parse_stmt_list R terminator).
Proof. unfold parse_stmt_list; lt. Qed.
#[local] Hint Resolve l_parse_stmt_list : lets.
Lemma l_parse_compound_stmt : lets (parse_compound_stmt R).
Proof. unfold parse_compound_stmt; lt. Qed.
#[local] Hint Resolve l_parse_compound_stmt : lets.
Lemma l_parse_designator_statement : lets (parse_designator_statement R).
Proof. unfold parse_designator_statement; lt. Qed.
#[local] Hint Resolve l_parse_designator_statement : lets.
Lemma l_parse_inherited : lets (parse_inherited).
Proof. unfold parse_inherited; lt. Qed.
#[local] Hint Resolve l_parse_inherited : lets.
Lemma l_parse_goto : lets (parse_goto).
Proof. unfold parse_goto; lt. Qed.
#[local] Hint Resolve l_parse_goto : lets.
Lemma l_asm_step (u : unit) : lets (asm_step u).
Proof. unfold asm_step; lt. Qed.
#[local] Hint Resolve l_asm_step : lets.
Lemma l_parse_asm : lets (parse_asm R).
Proof. unfold parse_asm; lt. Qed.
#[local] Hint Resolve l_parse_asm : lets.
Lemma l_parse_if : lets (parse_if R).
Proof. unfold parse_if; lt. Qed.
#[local] Hint Resolve l_parse_if : lets.
Lemma l_parse_case_label : lets (parse_case_label R).
Proof. unfold parse_case_label; lt. Qed.
#[local] Hint Resolve l_parse_case_label : lets.
Lemma l_case_labels_step (l : list (expr * option expr)) : lets (case_labels_step R l).
Proof. unfold case_labels_step; lt. Qed.
#[local] Hint Resolve l_case_labels_step : lets.
Lemma l_parse_case_selector : lets (parse_case_selector R).
Proof. unfold parse_case_selector; lt. Qed.
#[local] Hint Resolve l_parse_case_selector : lets.
Lemma l_case_selectors_step (l : list (list (expr * option expr) * stmt)) : lets (case_selectors_step R l).
Proof. unfold case_selectors_step; lt. Qed.
#[local] Hint Resolve l_case_selectors_step : lets.
Lemma l_parse_case : lets (parse_case R).
Proof. unfold parse_case; lt. Qed.
#[local] Hint Resolve l_parse_case : lets.
Lemma l_parse_repeat : lets (parse_repeat R).
Proof. unfold parse_repeat; lt. Qed.
#[local] Hint Resolve l_parse_repeat : lets.
Lemma l_parse_while : lets (parse_while R).
Proof. unfold parse_while; lt. Qed.
#[local] Hint Resolve l_parse_while : lets.
Lemma l_parse_for : lets (parse_for R).
Proof. unfold parse_for; lt. Qed.
#[local] Hint Resolve l_parse_for : lets.
Lemma l_parse_with : lets (parse_with R).
Proof. unfold parse_with; lt. Qed.
#[local] Hint Resolve l_parse_with : lets.
Lemma l_parse_raise : lets (parse_raise R).
Proof. unfold parse_raise; lt. Qed.
#[local] Hint Resolve l_parse_raise : lets.
Lemma l_parse_handler : lets (parse_handler R).
Proof. unfold parse_handler; lt. Qed.
#[local] Hint Resolve l_parse_handler : lets.
Lemma l_handlers_step (l : list (option ident * typ * stmt)) : lets (handlers_step R l).
Proof. unfold handlers_step; lt. Qed.
#[local] Hint Resolve l_handlers_step : lets.
Lemma l_parse_exception_block : lets (parse_exception_block R).
Proof. unfold parse_exception_block; lt. Qed.
#[local] Hint Resolve l_parse_exception_block : lets.
Lemma l_parse_try : lets (parse_try R).
Proof. unfold parse_try; lt. Qed.
#[local] Hint Resolve l_parse_try : lets.
Lemma l_parse_statement_body : lets (parse_statement_body R).
Proof. unfold parse_statement_body; lt. Qed.
#[local] Hint Resolve l_parse_statement_body : lets.
Lemma l_parse_statement : lets (parse_statement R).
Proof. unfold parse_statement; lt. Qed.
#[local] Hint Resolve l_parse_statement : lets.
Lemma l_parse_external_options : lets (parse_external_options).
Proof. unfold parse_external_options; lt. Qed.
#[local] Hint Resolve l_parse_external_options : lets.
Lemma l_directives_step (st : list gostring * option extopts) : lets (directives_step st).
Proof. unfold directives_step; lt. Qed.
#[local] Hint Resolve l_directives_step : lets.
Lemma l_parse_function_directives : lets (parse_function_directives R).
Proof. unfold parse_function_directives; lt. Qed.
#[local] Hint Resolve l_parse_function_directives : lets.
Lemma l_parse_optional_directives : lets (parse_optional_directives R).
Proof. unfold parse_optional_directives; lt. Qed.
#[local] Hint Resolve l_parse_optional_directives : lets.
Lemma l_parse_exported_heading : lets (parse_exported_heading R).
Proof. unfold parse_exported_heading; lt. Qed.
#[local] Hint Resolve l_parse_exported_heading : lets.
Lemma l_exported_heading_scope : lets (
  t <- cur ;;
  h <- (if eqs_any (value t) ["PROCEDURE"; "FUNCTION"]%string then
          h <- parse_function_heading R ;; Ret (Some h)
        else Ret None) ;;
  expect (sym ";") ;;;
  match h with
  | None => Crash
  | Some h =>
      set [mkDecl (heading_ident h) NExported] ;;;
      Next ;;;
      '(l, o) <- parse_optional_directives R ;;
      Ret (IHeading h l o)
  end)%prog.
Proof. lt. Qed.
Lemma l_procedure_decl_scope : lets (
  h <- parse_function_heading R ;;
  expect (sym ";") ;;;
  set [mkDecl (heading_ident h) NFunc] ;;;
  Next ;;;
  '(l, o) <- parse_optional_directives R ;;
  b <- r_block R ;;
  Ret (Some (DSFunc h l o b)))%prog.
Proof. lt. Qed.
Lemma l_parse_procedure_decl_section : lets (parse_procedure_decl_section R).
Proof. unfold parse_procedure_decl_section; lt. Qed.
#[local] Hint Resolve l_parse_procedure_decl_section : lets.
Lemma l_parse_label_decl_section : lets (parse_label_decl_section).
Proof. unfold parse_label_decl_section; lt. Qed.
#[local] Hint Resolve l_parse_label_decl_section : lets.
Lemma l_parse_decl_section : lets (parse_decl_section R).
Proof. unfold parse_decl_section; lt. Qed.
#[local] Hint Resolve l_parse_decl_section : lets.
Lemma l_decl_sections_step (l : list declsection) : lets (decl_sections_step R l).
Proof. unfold decl_sections_step; lt. Qed.
#[local] Hint Resolve l_decl_sections_step : lets.
Lemma l_parse_decl_sections : lets (parse_decl_sections R).
Proof. unfold parse_decl_sections; lt. Qed.
#[local] Hint Resolve l_parse_decl_sections : lets.
Lemma l_parse_exports_item : lets (parse_exports_item R).
Proof. unfold parse_exports_item; lt. Qed.
#[local] Hint Resolve l_parse_exports_item : lets.
Lemma l_parse_exports_stmt : lets (parse_exports_stmt R).
Proof. unfold parse_exports_stmt; lt. Qed.
#[local] Hint Resolve l_parse_exports_stmt : lets.
Lemma l_exports_step (l : list (list exportsitem)) : lets (exports_step R l).
Proof. unfold exports_step; lt. Qed.
#[local] Hint Resolve l_exports_step : lets.
Lemma l_parse_exports_stmts : lets (parse_exports_stmts R).
Proof. unfold parse_exports_stmts; lt. Qed.
#[local] Hint Resolve l_parse_exports_stmts : lets.
Lemma l_parse_block : lets (parse_block R).
Proof. unfold parse_block; lt. Qed.
#[local] Hint Resolve l_parse_block : lets.
End Methods.

(** The knot. *)
Lemma recs_at_let n : recs_let (recs_at n).
Proof.
  induction n as [|n IH]; cbn [recs_at]; unfold recs_let; cbn [r_expr r_factor r_type r_fields r_stmt r_block].
  - refine (conj _ (conj _ (conj _ (conj _ (conj _ _))))); intros; apply lets_nofuel.
  - refine (conj _ (conj _ (conj _ (conj _ (conj _ _)))));
      [now apply l_parse_expression|now apply l_parse_factor|now apply l_parse_type|intros; now apply l_parse_field_list
      |now apply l_parse_statement|now apply l_parse_block].
Qed.

End WithUnicode.
